(** C16, C17, C19, C20: the tag registry of a mesh. *)
From Coq Require Import List Bool Arith Lia.
From Verif Require Import Util Tag_Model Tag_Proofs.
Import ListNotations.

(** ** Specification: what a user may rely on *)

(** Every (tag, element type) pair stored densely has an array of its own, the
    array exists with the record size of the tag, and names are unique. *)
Definition separate (s : tm) : Prop :=
  (forall t u e f p, In t (tags s) -> In u (tags s) ->
     get_pos t e = PDense p -> get_pos u f = PDense p -> t = u /\ e = f) /\
  (forall t e p, In t (tags s) -> get_pos t e = PDense p -> is_sparse t e = false ->
     nth_error (dense s) p = Some (Some (record_size t))) /\
  (forall t u, In t (tags s) -> In u (tags s) -> tname t = tname u -> t = u).

(** The registry as a map from names to descriptions.  [a_on e] tells whether
    the tag is defined on type [e] and how it was asked to be stored
    ([Some true] = sparse); [a_ever e] whether it was ever stored sparsely on
    [e] since its creation. *)
Record desc := Desc { a_dtype : nat; a_size : option nat;
                      a_on : nat -> option bool; a_ever : nat -> bool }.
Definition registry := nat -> option desc.
Definition upd (M : registry) (n : nat) (x : option desc) : registry :=
  fun k => if k =? n then x else M k.

Definition a_create (M : registry) n d (et sp : mask) (z : option nat) : option registry :=
  let ext (r : desc) :=
    let new e := (e <? 6) && et e && match a_on r e with None => true | Some _ => false end in
    Desc (a_dtype r) (a_size r)
         (fun e => if new e then Some (sp e) else a_on r e)
         (fun e => a_ever r e || (new e && sp e)) in
  match M n with
  | None => Some (upd M n (Some (ext (Desc d z (fun _ => None) (fun _ => false)))))
  | Some r =>
      if (a_dtype r =? d) && (match z, a_size r with
                              | None, _ => true
                              | Some a, Some b => a =? b
                              | Some _, None => false end)
      then Some (upd M n (Some (ext r))) else None
  end.

Definition a_delete (M : registry) n (m : mask) : option registry :=
  match M n with
  | None => None
  | Some r =>
      let on' e := if (e <? 6) && m e then None else a_on r e in
      if forallb (fun e => match on' e with None => true | Some _ => false end) (seq 0 6)
      then Some (upd M n None)
      else Some (upd M n (Some (Desc (a_dtype r) (a_size r) on' (a_ever r))))
  end.

Definition a_rename (M : registry) a b : registry :=
  match M b, M a with
  | None, Some r => upd (upd M a None) b (Some r)
  | _, _ => M
  end.

Definition a_step (M : registry) (o : top) : option registry :=
  match o with
  | TCreate n d et sp z => a_create M n d et sp z
  | TDelete n m => a_delete M n m
  | TRename a b => Some (a_rename M a b)
  end.

Fixpoint a_run (M : registry) (h : list top) : option registry :=
  match h with
  | [] => Some M
  | o :: h' => match a_step M o with Some M' => a_run M' h' | None => None end
  end.

(** The queries HaveTag/GetTag, GetDataType, GetSize, isDefined, isSparse and the
    kind of storage in use all give what the registry says. *)
Definition describes (r : desc) (t : tagm) : Prop :=
  tdtype t = a_dtype r /\ tsize t = a_size r /\
  (forall e, is_defined t e = match a_on r e with Some _ => true | None => false end) /\
  (forall e, get_pos t e = PSparse <-> a_on r e = Some true) /\
  (forall e, is_sparse t e = a_ever r e).

Definition answers (s : tm) (M : registry) : Prop :=
  forall n, have_tag s n = (match M n with Some _ => true | None => false end) /\
    match M n with
    | Some r => exists t, find_name (tags s) n = Some t /\ tname t = n /\ describes r t
    | None => find_name (tags s) n = None
    end.

(** ** Simulation *)
Lemma key_inj : forall s t u, inv s -> In t (tags s) -> In u (tags s) -> tkey t = tkey u -> t = u.
Proof. intros s t u I Ht Hu E. exact (In_map_inj _ tkey (tags s) t u (v_keys _ I) Ht Hu E). Qed.
Lemma name_inj : forall s t u, inv s -> In t (tags s) -> In u (tags s) -> tname t = tname u -> t = u.
Proof. intros s t u I Ht Hu E. exact (In_map_inj _ tname (tags s) t u (v_names _ I) Ht Hu E). Qed.
Definition rel (s : tm) (M : registry) : Prop :=
  forall n, match find_name (tags s) n, M n with
            | Some t, Some r => tdtype t = a_dtype r /\ tsize t = a_size r /\
                 (forall e, kind t e = a_on r e) /\ (forall e, is_sparse t e = a_ever r e)
            | None, None => True
            | _, _ => False
            end.

Lemma rel_answers : forall s M, rel s M -> answers s M.
Proof.
  intros s M H n. specialize (H n). unfold have_tag.
  destruct (find_name (tags s) n) as [t|] eqn:F; destruct (M n) as [r|]; try tauto.
  split; auto. exists t. split; auto.
  split. { unfold find_name in F. apply find_some in F. now rewrite Nat.eqb_eq in F. }
  destruct H as (A & B & C & D).
  split; auto. split; auto. split; [|split; auto]; intro e; rewrite <- C; unfold is_defined, kind;
  destruct (get_pos t e); auto; split; congruence.
Qed.

Lemma find_name_put : forall s t0 t', inv s -> In t0 (tags s) -> same_id t' t0 -> forall n,
  find_name (put (tags s) t') n = if n =? tname t0 then Some t' else find_name (tags s) n.
Proof.
  intros s t0 t' I H0 Id n.
  assert (N : NoDup (map tname (put (tags s) t'))) by (erewrite put_names; eauto; apply I).
  assert (Ek : tkey t' = tkey t0) by apply Id.
  assert (En : tname t' = tname t0) by apply Id.
  destruct (Nat.eqb_spec n (tname t0)) as [->|Hn].
  - apply find_name_iff; auto. split; auto. apply In_put. left. split; auto. exists t0. auto.
  - destruct (find_name (tags s) n) as [u|] eqn:F.
    + apply find_name_iff; auto. apply find_name_iff in F; [|apply I]. destruct F as [F1 F2].
      split; auto. apply In_put. right. split; auto. rewrite Ek. intro E.
      assert (u = t0) by (eapply (key_inj s); eauto). congruence.
    + rewrite find_name_none in *. intros u Hu. apply In_put in Hu.
      destruct Hu as [(-> & _)|(Hu & _)]; [congruence|auto].
Qed.

Lemma find_name_remove : forall s t0, inv s -> In t0 (tags s) -> forall n,
  find_name (remove_key (tags s) (tkey t0)) n = if n =? tname t0 then None else find_name (tags s) n.
Proof.
  intros s t0 I H0 n.
  assert (N : NoDup (map tname (remove_key (tags s) (tkey t0)))) by (apply remove_key_sub, I).
  destruct (Nat.eqb_spec n (tname t0)) as [->|Hn].
  - apply find_name_none. intros u Hu. apply In_remove_key in Hu; [|apply I]. destruct Hu as [Hu Hk].
    intro E. apply Hk. f_equal. eapply (name_inj s); eauto.
  - destruct (find_name (tags s) n) as [u|] eqn:F.
    + apply find_name_iff; auto. apply find_name_iff in F; [|apply I]. destruct F as [F1 F2].
      split; auto. apply In_remove_key; [apply I|]. split; auto. intro E.
      assert (u = t0) by (eapply (key_inj s); eauto). congruence.
    + rewrite find_name_none in *. intros u Hu. apply In_remove_key in Hu; [|apply I]. apply F. tauto.
Qed.

Lemma find_name_new : forall l n d z k m,
  find_name l n = None ->
  find_name (l ++ [new_tagm k n d z]) m = if m =? n then Some (new_tagm k n d z) else find_name l m.
Proof.
  intros l n d z k m. unfold find_name. induction l as [|a l IH]; cbn [app find].
  - intros _. cbn [new_tagm tname]. rewrite (Nat.eqb_sym m n). destruct (n =? m); auto.
  - destruct (Nat.eqb_spec (tname a) n); [discriminate|]. intro H. rewrite IH by auto.
    destruct (Nat.eqb_spec (tname a) m); auto. destruct (Nat.eqb_spec m n); congruence.
Qed.

Lemma step_rel : forall s M o, inv s -> rel s M ->
  match tstep s o, a_step M o with
  | Some s', Some M' => inv s' /\ rel s' M'
  | None, None => True
  | _, _ => False
  end.
Proof.
  intros s M o I R.
  assert (Hinv : forall s', tstep s o = Some s' -> inv s') by (intros; eapply step_inv; eauto).
  destruct o as [n d et sp z|n m|a b]; cbn [a_step].
  - unfold a_create. cbn [tstep] in *. pose proof (R n) as Rn.
    destruct (find_name (tags s) n) as [t|] eqn:F; destruct (M n) as [r|] eqn:EM; try tauto.
    + destruct Rn as (Rd & Rz & Rk & Rs).
      assert (Eqz : (match z, a_size r with
                              | None, _ => true
                              | Some a, Some b => a =? b
                              | Some _, None => false end) = size_ok z (tsize t)).
      { rewrite Rz. destruct z, (a_size r); reflexivity. }
      rewrite Eqz, <- Rd.
      destruct ((tdtype t =? d) && size_ok z (tsize t)) eqn:Q.
      * apply andb_prop in Q. destruct Q as [Q1 Q2]. apply Nat.eqb_eq in Q1.
        destruct (create_ok s n d et sp z I) as (s1 & t0 & t' & E1 & I1 & H0 & N0 & Id & Tg & _ & K & S1 & _).
        { intros u Hu. rewrite F in Hu. injection Hu as <-. auto. }
        rewrite E1. cbn [option_map fst]. split; auto.
        unfold pre_create in *. rewrite F in *.
        assert (t0 = t).
        { apply find_name_iff in F; [|apply I]. destruct F. eapply (name_inj s); eauto. congruence. }
        subst t0. intro k. rewrite Tg. rewrite (find_name_put s t t' I H0 Id). unfold upd.
        rewrite N0. destruct (Nat.eqb_spec k n) as [->|Hk]; [|apply R].
        cbn [a_dtype a_size a_on a_ever]. destruct Id as (_ & _ & E2 & E3).
        split; [congruence|]. split; [congruence|]. split; intro e.
        -- rewrite K, !Rk. unfold isnone. reflexivity.
        -- rewrite S1, !Rk, Rs. unfold isnone, ntypes. destruct (a_ever r e); cbn [orb].
           ++ destruct (_ && sp e); auto.
           ++ destruct (_ && sp e); auto.
      * unfold create_tag. rewrite F. unfold size_ok in Q. rewrite Q. exact Logic.I.
    + destruct (create_ok s n d et sp z I) as (s1 & t0 & t' & E1 & I1 & H0 & N0 & Id & Tg & _ & K & S1 & _).
      { intros u Hu. congruence. }
      rewrite E1. cbn [option_map fst]. split; auto.
      pose proof (inv_new s n d z I F) as I2.
      unfold pre_create in *. rewrite F in *. cbn [tags] in *.
      assert (t0 = new_tagm (fresh s) n d z).
      { eapply In_map_inj; [apply (v_names _ I2)|exact H0| |exact N0].
        cbn [tags]. apply in_app_iff. right. now left. }
      subst t0. intro k. rewrite Tg.
      pose proof (find_name_put _ _ t' I2 H0 Id k) as Fp. cbn [tags] in Fp. rewrite Fp. clear Fp.
      rewrite find_name_new by auto. unfold upd. change (tname (new_tagm (fresh s) n d z)) with n.
      destruct (Nat.eqb_spec k n) as [->|Hk]; [|apply R].
      cbn [a_dtype a_size a_on a_ever]. destruct Id as (_ & _ & E2 & E3).
      split; [rewrite E2; reflexivity|]. split; [rewrite E3; reflexivity|].
      assert (K0 : forall f, kind (new_tagm (fresh s) n d z) f = None).
      { intro f. unfold kind. now rewrite new_tagm_pos. }
      split; intro e.
      -- rewrite K, K0. reflexivity.
      -- rewrite S1, K0, new_tagm_sp. unfold isnone, ntypes. cbn [orb]. destruct (_ && sp e); auto.
  - unfold a_delete. cbn [tstep] in *. pose proof (R n) as Rn.
    destruct (find_name (tags s) n) as [t|] eqn:F; destruct (M n) as [r|] eqn:EM; try tauto.
    destruct Rn as (Rd & Rz & Rk & Rs).
    apply find_name_iff in F; [|apply I]. destruct F as [Ht Hn].
    destruct (delete_ok s t m I Ht) as (s1 & t' & E1 & I1 & Id & Tg & K & S1).
    rewrite E1.
    assert (Efa : forallb (fun e => match (if (e <? 6) && m e then None else a_on r e) with
                    None => true | Some _ => false end) (seq 0 6) =
                  forallb (fun e => isnone (kind t e) || m e) (seq 0 ntypes)).
    { assert (G : forall l, (forall e, In e l -> e < 6) ->
        forallb (fun e => match (if (e <? 6) && m e then None else a_on r e) with
                    None => true | Some _ => false end) l =
                  forallb (fun e => isnone (kind t e) || m e) l).
      { induction l as [|e l IH]; intro Hl; cbn [forallb]; auto. rewrite IH by (intros; apply Hl; now right).
        f_equal. rewrite Rk. specialize (Hl e (or_introl eq_refl)).
        destruct (Nat.ltb_spec e 6); [|lia]. cbn [andb]. unfold isnone.
        destruct (m e), (a_on r e); auto. }
      apply G. intros e He. apply in_seq in He. unfold ntypes in He; lia. }
    rewrite Efa. destruct (forallb _ _).
    + split; auto. intro k. rewrite Tg, (find_name_remove s t I Ht). unfold upd. rewrite Hn.
      destruct (k =? n); [exact Logic.I|apply R].
    + split; auto. intro k. rewrite Tg, (find_name_put s t t' I Ht Id). unfold upd. rewrite Hn.
      destruct (k =? n); [|apply R]. cbn [a_dtype a_size a_on a_ever].
      destruct Id as (_ & _ & E2 & E3). split; [congruence|]. split; [congruence|].
      split; intro e; [|rewrite S1; auto]. rewrite K, Rk. reflexivity.
  - cbn [tstep] in *. specialize (Hinv _ eq_refl). split; auto.
    unfold rename_tag, a_rename in *. pose proof (R a) as Ra. pose proof (R b) as Rb.
    destruct (find_name (tags s) b) as [tb|] eqn:Fb; destruct (M b) as [rb|] eqn:Mb; try tauto; try exact R.
    destruct (find_name (tags s) a) as [ta|] eqn:Fa; destruct (M a) as [ra|] eqn:Ma; try tauto; try exact R.
    intro k. unfold upd. cbn [fst tags] in *.
    assert (Hta : In ta (tags s) /\ tname ta = a) by (apply find_name_iff; [apply I|auto]).
    destruct Hta as [Hta Hna].
    set (t' := TagM (tkey ta) b (tdtype ta) (tsize ta) (tpos ta) (tsparse ta)) in *.
    assert (Hin : In t' (put (tags s) t')).
    { apply In_put. left. split; auto. exists ta. auto. }
    destruct (Nat.eqb_spec k b) as [->|Hkb].
    + rewrite (proj2 (find_name_iff (put (tags s) t') b t' (v_names _ Hinv)) (conj Hin eq_refl)).
      exact Ra.
    + destruct (Nat.eqb_spec k a) as [->|Hka].
      * assert (find_name (put (tags s) t') a = None) as ->.
        { apply find_name_none. intros u Hu. apply In_put in Hu.
          destruct Hu as [(-> & _)|(Hu & Hk)]; [cbn; congruence|].
          intro E. apply Hk. cbn. f_equal. eapply (name_inj s); eauto. congruence. }
        exact Logic.I.
      * assert (find_name (put (tags s) t') k = find_name (tags s) k) as ->; [|apply R].
        destruct (find_name (tags s) k) as [u|] eqn:Fk.
        -- apply find_name_iff in Fk; [|apply I]. destruct Fk as [Fk1 Fk2].
           apply find_name_iff; [apply Hinv|]. split; auto. apply In_put. right. split; auto.
           intro E. assert (u = ta) by (eapply (key_inj s); eauto). congruence.
        -- rewrite find_name_none in *. intros u Hu. apply In_put in Hu.
           destruct Hu as [(-> & _)|(Hu & _)]; [cbn; congruence|auto].
Qed.

Lemma run_rel : forall h s M, inv s -> rel s M ->
  match trun s h, a_run M h with
  | Some s', Some M' => inv s' /\ rel s' M'
  | None, None => True
  | _, _ => False
  end.
Proof.
  induction h as [|o h IH]; intros s M I R; cbn [trun a_run]; [auto|].
  pose proof (step_rel s M o I R) as H.
  destruct (tstep s o), (a_step M o); try tauto. apply IH; tauto.
Qed.

Lemma inv_separate : forall s, inv s -> separate s.
Proof.
  intros s I. split; [|split].
  - intros t u e f p Ht Hu He Hf. destruct (v_inj _ I t u e f p Ht Hu He Hf) as [E ->].
    split; auto. eapply (key_inj s); eauto.
  - intros t e p Ht He Hs. destruct (v_pos _ I t e p Ht He) as (A & _ & C).
    rewrite (nth_error_nth' (dense s) None A). f_equal. auto.
  - intros t u Ht Hu E. eapply (name_inj s); eauto.
Qed.

(** ** C16 *)
Theorem C16_tags_separate : forall h s, trun empty_tm h = Some s -> separate s.
Proof. intros h s E. eapply inv_separate, run_inv; eauto. apply empty_inv. Qed.
Print Assumptions C16_tags_separate.

(** Deleting and creating tags does not move the data of other tags: a dense
    array of another tag keeps its place. *)
Lemma step_keeps : forall s o s' t e, inv s -> tstep s o = Some s' -> In t (tags s) ->
  get_pos t e <> PUndef -> (match o with TDelete n _ => tname t <> n | _ => True end) ->
  exists t', In t' (tags s') /\ tkey t' = tkey t /\ get_pos t' e = get_pos t e.
Proof.
  intros s o s' t e I E Ht Hd Hside. destruct o as [n d et sp z|n m|a b]; cbn [tstep] in E.
  - assert (Hc : forall u, find_name (tags s) n = Some u -> tdtype u = d /\ size_ok z (tsize u) = true).
    { intros u Fu. unfold create_tag in E. rewrite Fu in E. fold (size_ok z (tsize u)) in E.
      destruct ((tdtype u =? d) && size_ok z (tsize u)) eqn:Q; [|discriminate].
      apply andb_prop in Q. now rewrite Nat.eqb_eq in Q. }
    destruct (create_ok s n d et sp z I Hc) as (s1 & t0 & t' & E1 & I1 & H0 & N0 & Id & Tg & _ & K & S1 & P).
    rewrite E1 in E. injection E as <-. cbn [fst]. rewrite Tg.
    assert (Hin : In t (tags (pre_create s n d z))).
    { unfold pre_create. destruct (find_name (tags s) n); auto. cbn [tags]. apply in_app_iff. auto. }
    assert (Ek : tkey t' = tkey t0) by apply Id.
    assert (I2 : inv (pre_create s n d z)).
    { unfold pre_create. destruct (find_name (tags s) n) eqn:F; auto. now apply inv_new. }
    destruct (Nat.eq_dec (tkey t) (tkey t0)) as [Hk|Hk].
    + assert (t = t0) by (eapply key_inj; [exact I2|auto|auto|auto]). subst t0.
      exists t'. split; [apply In_put; left; split; auto; exists t; auto|]. split; auto.
    + exists t. split; auto. apply In_put. right. split; auto. congruence.
  - destruct (find_name (tags s) n) as [u|] eqn:F; [|discriminate].
    apply find_name_iff in F; [|apply I]. destruct F as [Hu Nu].
    destruct (delete_ok s u m I Hu) as (s1 & t' & E1 & I1 & Id & Tg & K & S1).
    rewrite E1 in E. injection E as <-.
    assert (Hk : tkey t <> tkey u).
    { intro Hk. assert (t = u) by (eapply (key_inj s); eauto). congruence. }
    assert (Ek : tkey t' = tkey u) by apply Id.
    exists t. split; auto. rewrite Tg. destruct (forallb _ _).
    + apply In_remove_key; [apply I|auto].
    + apply In_put. right. split; auto. congruence.
  - injection E as <-. unfold rename_tag. destruct (find_name (tags s) b); [exists t; auto|].
    destruct (find_name (tags s) a) as [u|] eqn:F; [|exists t; auto].
    apply find_name_iff in F; [|apply I]. destruct F as [Hu Nu]. cbn [fst tags].
    destruct (Nat.eq_dec (tkey t) (tkey u)) as [Hk|Hk].
    + assert (t = u) by (eapply (key_inj s); eauto). subst u.
      eexists. split; [apply In_put; left; split; [reflexivity|exists t; auto]|]. auto.
    + exists t. split; auto. apply In_put. right. auto.
Qed.

Theorem C16_positions_stable : forall h s o s' t e,
  trun empty_tm h = Some s -> tstep s o = Some s' -> In t (tags s) ->
  get_pos t e <> PUndef -> (match o with TDelete n _ => tname t <> n | _ => True end) ->
  exists t', In t' (tags s') /\ tkey t' = tkey t /\ get_pos t' e = get_pos t e.
Proof.
  intros h s o s' t e E. apply step_keeps. eapply run_inv; eauto. apply empty_inv.
Qed.
Print Assumptions C16_positions_stable.

(** A history that reuses a freed array. *)
Definition demo : list top :=
  [TCreate 10 1 (mk [0;3]) (mk []) (Some 2); TCreate 11 2 (mk [0;3]) (mk [3]) None;
   TDelete 10 (mk [0]); TCreate 12 4 (mk [1;3]) (mk []) (Some 1); TRename 10 13;
   TDelete 11 (mk [0;1;2;3;4;5]); TCreate 13 1 (mk [5]) (mk []) None].

Example C16_nonvacuous : exists s, trun empty_tm demo = Some s /\
  map tname (tags s) = [13; 12] /\
  map tpos (tags s) = [[PUndef; PUndef; PUndef; PDense 1; PUndef; PDense 2];
                       [PUndef; PDense 0; PUndef; PDense 3; PUndef; PUndef]].
Proof. eexists. split; [vm_compute; reflexivity|]. vm_compute. auto. Qed.

(** ** C17 *)
Theorem C17_tag_registry : forall h,
  match trun empty_tm h, a_run (fun _ => None) h with
  | Some s, Some M => answers s M
  | None, None => True
  | _, _ => False
  end.
Proof.
  intro h.
  assert (R0 : rel empty_tm (fun _ => None)) by (intro n; exact Logic.I).
  pose proof (run_rel h empty_tm (fun _ => None) empty_inv R0) as H.
  destruct (trun empty_tm h), (a_run _ h); try tauto. apply rel_answers. tauto.
Qed.
Print Assumptions C17_tag_registry.

(** CreateTag hands back the tag now registered under the name; repeating a
    successful call returns the same tag and changes nothing. *)
Theorem C17_create_idempotent : forall h s n d et sp z s' k,
  trun empty_tm h = Some s -> create_tag s n d et sp z = Some (s', k) ->
  (exists t, find_name (tags s') n = Some t /\ tkey t = k /\ tdtype t = d /\
     (forall e, e < 6 -> et e = true -> is_defined t e = true)) /\
  create_tag s' n d et sp z = Some (s', k).
Proof.
  intros h s n d et sp z s' k E C.
  assert (I : inv s) by (eapply run_inv; eauto; apply empty_inv).
  assert (Hc : forall u, find_name (tags s) n = Some u -> tdtype u = d /\ size_ok z (tsize u) = true).
  { intros u Fu. unfold create_tag in C. rewrite Fu in C. fold (size_ok z (tsize u)) in C.
    destruct ((tdtype u =? d) && size_ok z (tsize u)) eqn:Q; [|discriminate].
    apply andb_prop in Q. now rewrite Nat.eqb_eq in Q. }
  destruct (create_ok s n d et sp z I Hc) as (s1 & t0 & t' & E1 & I1 & H0 & N0 & Id & Tg & _ & K & S1 & P).
  rewrite E1 in C. injection C as <- <-.
  assert (I2 : inv (pre_create s n d z)).
  { unfold pre_create. destruct (find_name (tags s) n) eqn:F; auto. now apply inv_new. }
  assert (Hty : tdtype t' = d /\ size_ok z (tsize t') = true).
  { destruct Id as (_ & _ & -> & ->). unfold pre_create in H0.
    destruct (find_name (tags s) n) as [u|] eqn:F.
    - apply Hc. rewrite <- F. apply find_name_iff; [apply I|auto].
    - cbn [tags] in H0. apply in_app_iff in H0. destruct H0 as [H0|[<-|[]]].
      + rewrite find_name_none in F. now apply F in H0.
      + split; auto. unfold size_ok. cbn. destruct z; auto. apply Nat.eqb_refl. }
  assert (F' : find_name (tags s1) n = Some t').
  { rewrite Tg, (find_name_put _ t0 t' I2 H0 Id), N0, Nat.eqb_refl. reflexivity. }
  assert (Df : forall e, e < 6 -> et e = true -> get_pos t' e <> PUndef).
  { intros e He Het Hu. specialize (K e). unfold kind at 1 in K. rewrite Hu in K.
    destruct (Nat.ltb_spec e ntypes) as [_|L]; [|unfold ntypes in L; lia]. rewrite Het in K. cbn [andb] in K.
    destruct (kind t0 e); discriminate. }
  split.
  - exists t'. split; auto. split; auto. split; [apply Hty|]. intros e He Het.
    unfold is_defined. specialize (Df e He Het). destruct (get_pos t' e); auto.
  - unfold create_tag. rewrite F'. fold (size_ok z (tsize t')).
    destruct Hty as [-> ->]. rewrite Nat.eqb_refl. cbn [andb].
    assert (G : forall l d fr, (forall e, In e l -> e < 6) ->
       define_all et sp l (t', d, fr) = Some (t', d, fr)).
    { induction l as [|e l IH]; intros d0 fr Hl; cbn [define_all]; auto.
      assert (D1 : define1 et sp e (t', d0, fr) = Some (t', d0, fr)).
      { unfold define1. destruct (et e) eqn:Ee; cbn [negb]; auto.
        specialize (Df e (Hl e (or_introl eq_refl)) Ee). destruct (get_pos t' e); auto. tauto. }
      rewrite D1. apply IH. intros; apply Hl. now right. }
    rewrite G by apply seq_types.
    assert (Hp : put (tags s1) t' = tags s1).
    { unfold put. rewrite <- (map_id (tags s1)) at 2. apply map_ext_in. intros u Hu.
      destruct (Nat.eqb_spec (tkey u) (tkey t')); auto.
      apply find_name_iff in F'; [|apply I1]. eapply In_map_inj; [apply (v_keys _ I1)|tauto|tauto|auto]. }
    rewrite Hp. destruct s1; reflexivity.
Qed.
Print Assumptions C17_create_idempotent.

Example C17_nonvacuous :
  (exists s, trun empty_tm demo = Some s /\ have_tag s 13 = true /\ have_tag s 10 = false /\
     have_tag s 11 = false) /\
  trun empty_tm (demo ++ [TCreate 13 2 (mk [0]) (mk []) None]) = None /\
  trun empty_tm (demo ++ [TCreate 13 1 (mk [0]) (mk []) (Some 3)]) = None.
Proof.
  split; [|split]; [eexists; split; [vm_compute; reflexivity|]; vm_compute; auto|vm_compute; reflexivity|vm_compute; reflexivity].
Qed.

(** ** C19 *)
(** Tag::isSparse is not right after a type was removed from a tag and added
    again with dense storage. *)
Theorem C19_sparse_flag_refuted : exists h s t,
  trun empty_tm h = Some s /\ find_name (tags s) 10 = Some t /\
  is_defined t 0 = true /\ is_sparse t 0 = true /\ (exists p, get_pos t 0 = PDense p).
Proof.
  exists [TCreate 10 1 (mk [0;3]) (mk [0]) (Some 1); TDelete 10 (mk [0]);
          TCreate 10 1 (mk [0]) (mk []) (Some 1)].
  eexists. eexists. split; [vm_compute; reflexivity|]. split; [vm_compute; reflexivity|].
  split; [vm_compute; reflexivity|]. split; [vm_compute; reflexivity|]. eexists. reflexivity.
Qed.
Print Assumptions C19_sparse_flag_refuted.

(** When DeleteTag always removes whole tags, isSparse tells how the tag is
    stored. *)
Definition whole (o : top) : Prop :=
  match o with TDelete _ m => forall e, e < 6 -> m e = true | _ => True end.

Lemma whole_ever : forall h M M', (forall o, In o h -> whole o) ->
  (forall n r, M n = Some r -> forall e, a_ever r e = true <-> a_on r e = Some true) ->
  (forall n r, M n = Some r -> forall e, 6 <= e -> a_on r e = None) ->
  a_run M h = Some M' ->
  (forall n r, M' n = Some r -> forall e, a_ever r e = true <-> a_on r e = Some true).
Proof.
  induction h as [|o h IH]; intros M M' Hw HM H6 E; cbn [a_run] in E.
  - injection E as <-. exact HM.
  - destruct (a_step M o) as [M1|] eqn:E1; [|discriminate].
    apply (IH M1 M'); auto; [intros; apply Hw; now right| | ].
    + specialize (Hw o (or_introl eq_refl)). destruct o as [n d et sp z|n m|a b]; cbn [a_step] in E1.
      * assert (G : forall r, (forall e, a_ever r e = true <-> a_on r e = Some true) -> forall e,
          a_ever r e || ((e <? 6) && et e && match a_on r e with Some _ => false | None => true end && sp e) = true <->
          (if (e <? 6) && et e && match a_on r e with Some _ => false | None => true end
           then Some (sp e) else a_on r e) = Some true).
        { intros r Hr e. rewrite orb_true_iff, Hr. destruct ((e <? 6) && et e); cbn [andb].
          - destruct (a_on r e); cbn [andb].
            + split; [intros [?|?]; congruence|auto].
            + destruct (sp e); split; auto; try discriminate. intros [?|?]; congruence.
          - split; [intros [?|?]; congruence|auto]. }
        unfold a_create in E1. destruct (M n) as [r|] eqn:EM.
        -- destruct (_ && _); [|discriminate]. injection E1 as <-. intros k r0. unfold upd.
           destruct (k =? n); [|apply HM]. intros [= <-]. cbn [a_ever a_on]. apply G. eauto.
        -- injection E1 as <-. intros k r0. unfold upd.
           destruct (k =? n); [|apply HM]. intros [= <-]. cbn [a_ever a_on].
           apply (G (Desc d z (fun _ => None) (fun _ => false))). cbn. split; discriminate.
      * unfold a_delete in E1. destruct (M n) as [r|] eqn:EM; [|discriminate].
        assert (forallb (fun e => match (if (e <? 6) && m e then None else a_on r e) with
                    None => true | Some _ => false end) (seq 0 6) = true) as Q.
        { apply forallb_forall. intros e He. apply in_seq in He. cbn [whole] in Hw.
          rewrite Hw by lia. destruct (Nat.ltb_spec e 6); [auto|lia]. }
        rewrite Q in E1. injection E1 as <-. intros k r0. unfold upd.
        destruct (k =? n); [discriminate|apply HM].
      * injection E1 as <-. unfold a_rename. destruct (M b); [apply HM|].
        destruct (M a) eqn:Ma; [|apply HM]. intros k r. unfold upd.
        destruct (k =? b); [intros [= <-]; eauto|]. destruct (k =? a); [discriminate|apply HM].
    + destruct o as [n d et sp z|n m|a b]; cbn [a_step] in E1.
      * unfold a_create in E1. destruct (M n) as [r|] eqn:EM.
        -- destruct (_ && _); [|discriminate]. injection E1 as <-. intros k r0. unfold upd.
           destruct (k =? n); [|apply H6]. intros [= <-] e He. cbn [a_on].
           destruct (Nat.ltb_spec e 6); [lia|]. cbn [andb]. eapply H6; eauto.
        -- injection E1 as <-. intros k r0. unfold upd.
           destruct (k =? n); [|apply H6]. intros [= <-] e He. cbn [a_on].
           destruct (Nat.ltb_spec e 6); [lia|]. auto.
      * unfold a_delete in E1. destruct (M n) as [r|] eqn:EM; [|discriminate].
        destruct (forallb _ _); injection E1 as <-; intros k r0; unfold upd;
          (destruct (k =? n); [|apply H6]); [discriminate|].
        intros [= <-] e He. cbn [a_on]. destruct (_ && _); eauto.
      * injection E1 as <-. unfold a_rename. destruct (M b); [apply H6|].
        destruct (M a) eqn:Ma; [|apply H6]. intros k r. unfold upd.
        destruct (k =? b); [intros [= <-]; eauto|]. destruct (k =? a); [discriminate|apply H6].
Qed.

Theorem C19_sparse_flag_whole : forall h s n t e,
  (forall o, In o h -> whole o) -> trun empty_tm h = Some s -> find_name (tags s) n = Some t ->
  (is_sparse t e = true <-> get_pos t e = PSparse).
Proof.
  intros h s n t e Hw E F. pose proof (C17_tag_registry h) as H. rewrite E in H.
  destruct (a_run (fun _ => None) h) as [M|] eqn:EM; [|tauto].
  pose proof (H n) as Hn. destruct Hn as [_ Hn]. destruct (M n) as [r|] eqn:Er; [|congruence].
  destruct Hn as (t1 & F1 & _ & D). assert (t1 = t) by congruence. subst t1.
  destruct D as (_ & _ & _ & D1 & D2). rewrite D1, D2.
  assert (Q : forall k r, M k = Some r -> forall e, a_ever r e = true <-> a_on r e = Some true).
  { eapply (whole_ever h (fun _ => None) M); auto; discriminate. }
  eapply Q; eauto.
Qed.
Print Assumptions C19_sparse_flag_whole.

Example C19_nonvacuous : exists h s t, (forall o, In o h -> whole o) /\ trun empty_tm h = Some s /\
  find_name (tags s) 10 = Some t /\ is_sparse t 0 = true /\ is_sparse t 1 = false /\ is_defined t 1 = true.
Proof.
  exists [TCreate 10 1 (mk [0;3]) (mk []) (Some 1); TDelete 10 (fun _ => true);
          TCreate 10 1 (mk [0;1]) (mk [0]) (Some 1)].
  eexists. eexists. split; [|split; [reflexivity|split; [vm_compute; reflexivity|]]].
  - cbn. intros o [<-|[<-|[<-|[]]]]; cbn; auto.
  - vm_compute. auto.
Qed.

(** ** C20 *)
(** Assigning one freshly initialised mesh to another one and creating a tag
    makes the new tag share an array with a tag that was there before. *)
Theorem C20_assignment_refuted : exists a b s s' k t u e f p,
  trun empty_tm init_history = Some a /\ trun empty_tm init_history = Some b /\
  mesh_assign a b = Some s /\ create_tag s 100 1 (mk [0]) (mk []) (Some 1) = Some (s', k) /\
  In t (tags s') /\ In u (tags s') /\ tname t <> tname u /\
  get_pos t e = PDense p /\ get_pos u f = PDense p /\
  is_sparse t e = false /\ is_sparse u f = false /\ record_size t <> record_size u.
Proof.
  do 5 eexists. exists (nth 8 (tags (match mesh_assign
     (match trun empty_tm init_history with Some x => x | None => empty_tm end)
     (match trun empty_tm init_history with Some x => x | None => empty_tm end) with
     | Some s => match create_tag s 100 1 (mk [0]) (mk []) (Some 1) with Some (x,_) => x | None => empty_tm end
     | None => empty_tm end)) (new_tagm 0 0 0 None)).
  exists (nth 7 (tags (match mesh_assign
     (match trun empty_tm init_history with Some x => x | None => empty_tm end)
     (match trun empty_tm init_history with Some x => x | None => empty_tm end) with
     | Some s => match create_tag s 100 1 (mk [0]) (mk []) (Some 1) with Some (x,_) => x | None => empty_tm end
     | None => empty_tm end)) (new_tagm 0 0 0 None)).
  exists 0, 5. eexists.
  split; [vm_compute; reflexivity|]. split; [vm_compute; reflexivity|]. split; [vm_compute; reflexivity|]. split; [vm_compute; reflexivity|].
  split; [vm_compute; tauto|]. split; [vm_compute; tauto|].
  split; [vm_compute; discriminate|]. split; [vm_compute; reflexivity|]. split; [vm_compute; reflexivity|].
  split; [vm_compute; reflexivity|]. split; [vm_compute; reflexivity|]. vm_compute. discriminate.
Qed.
Print Assumptions C20_assignment_refuted.

(** The copy constructor, and assignment to a registry without freed arrays, do
    not have this problem, whatever is done with the copy afterwards. *)
Theorem C20_copy_ok : forall h h' src dst s, trun empty_tm h = Some src ->
  edense dst = [] -> trun (assign_tags dst src) h' = Some s -> separate s.
Proof.
  intros h h' src dst s E Hd R.
  assert (I : inv src) by (eapply run_inv; eauto; apply empty_inv).
  eapply inv_separate, run_inv; [|eauto]. apply assign_inv; auto; rewrite Hd.
  - constructor.
  - intros p [].
  - intros t e p _ _ [].
Qed.
Print Assumptions C20_copy_ok.

(** Exactly when the assignment itself leaves freed positions that are in use. *)
Theorem C20_assign_criterion : forall h src dst, trun empty_tm h = Some src ->
  NoDup (edense dst) ->
  (forall p, In p (edense dst) -> p < length (dense src) /\
     forall t e, In t (tags src) -> get_pos t e <> PDense p) ->
  forall h' s, trun (assign_tags dst src) h' = Some s -> separate s.
Proof.
  intros h src dst E N H h' s R.
  assert (I : inv src) by (eapply run_inv; eauto; apply empty_inv).
  eapply inv_separate, run_inv; [|eauto]. apply assign_inv; auto.
  - intros p Hp. now apply H.
  - intros t e p Ht Ho Hp. now apply (proj2 (H p Hp) t e).
Qed.
Print Assumptions C20_assign_criterion.

Example C20_nonvacuous : exists src s, trun empty_tm demo = Some src /\
  trun (assign_tags empty_tm src) [TCreate 20 1 (mk [2]) (mk []) None] = Some s /\
  map tpos (tags s) = [[PUndef; PUndef; PUndef; PDense 1; PUndef; PDense 2];
                       [PUndef; PDense 0; PUndef; PDense 3; PUndef; PUndef];
                       [PUndef; PUndef; PDense 4; PUndef; PUndef; PUndef]].
Proof. do 2 eexists. split; [vm_compute; reflexivity|]. split; [vm_compute; reflexivity|]. vm_compute. reflexivity. Qed.
