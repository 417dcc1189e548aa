From Coq Require Import List Bool Arith Lia.
From Verif Require Import Util Tag_Model.
Import ListNotations.

(** ** Views of a tag *)
Definition kind (t : tagm) (e : nat) : option bool :=
  match get_pos t e with PUndef => None | PSparse => Some true | PDense _ => Some false end.

Record twf (t : tagm) : Prop := {
  tw_p : length (tpos t) = ntypes;
  tw_s : length (tsparse t) = ntypes;
  tw_sp : forall e, get_pos t e = PSparse -> is_sparse t e = true
}.

Definition owns (t : tagm) (e p : nat) : Prop := get_pos t e = PDense p.

Lemma get_set_pos : forall t e f p, length (tpos t) = ntypes -> e < ntypes ->
  get_pos (set_pos t e p) f = if f =? e then p else get_pos t f.
Proof.
  intros t e f p Hl He. unfold get_pos, set_pos. cbn [tpos]. rewrite nth_lset, Hl.
  destruct (Nat.eqb_spec e f); destruct (Nat.eqb_spec f e); subst; try congruence; cbn [andb]; auto.
  destruct (Nat.ltb_spec f ntypes); [auto|lia].
Qed.

Lemma get_pos_out : forall t e, length (tpos t) = ntypes -> ntypes <= e -> get_pos t e = PUndef.
Proof. intros t e Hl He. unfold get_pos. apply nth_overflow. lia. Qed.

Lemma get_set_sparse : forall t e f, length (tsparse t) = ntypes -> e < ntypes ->
  is_sparse (set_sparse t e) f = if f =? e then true else is_sparse t f.
Proof.
  intros t e f Hl He. unfold is_sparse, set_sparse. cbn [tsparse]. rewrite nth_lset, Hl.
  destruct (Nat.eqb_spec e f); destruct (Nat.eqb_spec f e); subst; try congruence; cbn [andb]; auto.
  destruct (Nat.ltb_spec f ntypes); [auto|lia].
Qed.

Definition same_id (t u : tagm) : Prop :=
  tkey t = tkey u /\ tname t = tname u /\ tdtype t = tdtype u /\ tsize t = tsize u.

Lemma same_id_refl : forall t, same_id t t.
Proof. now intro. Qed.
Lemma same_id_trans : forall t u v, same_id t u -> same_id u v -> same_id t v.
Proof. unfold same_id. intros t u v (A&B&C&D) (E&F&G&H). repeat split; congruence. Qed.
Lemma same_id_rec : forall t u, same_id t u -> record_size t = record_size u.
Proof. unfold same_id, record_size. intros t u (A&B&C&D). now rewrite C, D. Qed.

(** ** Loop invariant shared by CreateTag and DeleteTag: [O] are the positions of
    other tags. *)
Record J (O : nat -> Prop) (d0 : list (option nat)) (t : tagm) (d : list (option nat))
         (fr : list nat) : Prop := {
  j_wf : twf t;
  j_inj : forall e f p, owns t e p -> owns t f p -> e = f;
  j_lt : forall e p, owns t e p -> p < length d;
  j_nfr : forall e p, owns t e p -> ~ In p fr;
  j_nO : forall e p, owns t e p -> ~ O p;
  j_al : forall e p, owns t e p -> is_sparse t e = false -> nth p d None = Some (record_size t);
  j_O : forall p, O p -> p < length d /\ ~ In p fr /\ nth p d None = nth p d0 None;
  j_nd : NoDup fr;
  j_fr : forall p, In p fr -> p < length d
}.

Lemma define1_ok : forall O d0 et sp e t d fr, e < ntypes -> J O d0 t d fr ->
  exists t' d' fr', define1 et sp e (t, d, fr) = Some (t', d', fr') /\
    J O d0 t' d' fr' /\ same_id t' t /\
    (forall f, kind t' f = if (f =? e) && et e && (match kind t e with None => true | _ => false end)
                           then Some (sp e) else kind t f) /\
    (forall f, is_sparse t' f = if (f =? e) && et e && (match kind t e with None => true | _ => false end) && sp e
                           then true else is_sparse t f) /\
    (forall f, get_pos t f <> PUndef -> get_pos t' f = get_pos t f).
Proof.
  intros O d0 et sp e t d fr He Jt. unfold define1.
  assert (Hsame : J O d0 t d fr /\ same_id t t) by (split; auto; apply same_id_refl).
  destruct (et e) eqn:Eet; cbn [negb].
  2:{ exists t, d, fr. split; auto. split; [tauto|]. split; [apply same_id_refl|].
      repeat split; intro f; rewrite ?andb_false_r; auto. }
  pose proof (j_wf _ _ _ _ _ Jt) as W.
  assert (Hdef : get_pos t e <> PUndef ->
     exists t' d' fr', Some (t, d, fr) = Some (t', d', fr') /\
     J O d0 t' d' fr' /\ same_id t' t /\
    (forall f, kind t' f = if (f =? e) && true && (match kind t e with None => true | _ => false end)
                           then Some (sp e) else kind t f) /\
    (forall f, is_sparse t' f = if (f =? e) && true && (match kind t e with None => true | _ => false end) && sp e
                           then true else is_sparse t f) /\
    (forall f, get_pos t f <> PUndef -> get_pos t' f = get_pos t f)).
  { intro Hd. exists t, d, fr. split; auto. split; [tauto|]. split; [apply same_id_refl|].
    assert (K : match kind t e with None => true | _ => false end = false).
    { unfold kind. destruct (get_pos t e); auto. tauto. }
    rewrite K. repeat split; intro f; rewrite ?andb_false_r; auto. }
  destruct (get_pos t e) as [| |p] eqn:Ep; [|apply Hdef; discriminate|apply Hdef; discriminate].
  clear Hdef.
  assert (K : kind t e = None) by (unfold kind; now rewrite Ep).
  rewrite K. destruct (sp e) eqn:Esp.
  - (* sparse *)
    set (t1 := set_sparse (set_pos t e PSparse) e).
    assert (G : forall f, get_pos t1 f = if f =? e then PSparse else get_pos t f).
    { intro f. unfold t1. change (get_pos (set_sparse (set_pos t e PSparse) e) f)
        with (get_pos (set_pos t e PSparse) f). apply get_set_pos; auto. apply W. }
    assert (Q : forall f, is_sparse t1 f = if f =? e then true else is_sparse t f).
    { intro f. unfold t1. rewrite get_set_sparse; auto. cbn [set_pos tsparse]. apply W. }
    assert (Ow : forall f p, owns t1 f p -> owns t f p /\ f <> e).
    { intros f p. unfold owns. rewrite G. destruct (Nat.eqb_spec f e); [discriminate|auto]. }
    exists t1, d, fr. split; auto. split; [|split; [now split|]].
    + destruct Jt as [JA JB JC JD JE JF JG JH JI]. split; auto.
      * destruct W as [W1 W2 W3]. split.
        -- unfold t1. cbn. rewrite lset_length. auto.
        -- unfold t1. cbn. rewrite lset_length. auto.
        -- intro f. rewrite G, Q. destruct (f =? e); auto.
      * intros f g p Hf Hg. apply Ow in Hf, Hg. destruct Hf, Hg. eauto.
      * intros f p Hf. apply Ow in Hf. destruct Hf. eauto.
      * intros f p Hf. apply Ow in Hf. destruct Hf. eauto.
      * intros f p Hf. apply Ow in Hf. destruct Hf. eauto.
      * intros f p Hf Hs. apply Ow in Hf. destruct Hf as [Hf Hne]. rewrite Q in Hs.
        destruct (Nat.eqb_spec f e); [congruence|]. change (record_size t1) with (record_size t). eauto.
    + split; [|split]; intro f.
      * unfold kind. rewrite G. destruct (Nat.eqb_spec f e); cbn [andb]; auto.
      * rewrite Q. destruct (f =? e); auto.
      * intro Hf. rewrite G. destruct (Nat.eqb_spec f e); [subst; congruence|auto].
  - (* dense *)
    assert (Main : forall q d' fr', q < length d' ->
       nth q d' None = Some (record_size t) ->
       length d <= length d' ->
       (forall p, p < length d -> p <> q -> nth p d' None = nth p d None) ->
       (forall f p, owns t f p -> p <> q) -> ~ O q -> ~ In q fr' ->
       (forall p, In p fr' -> In p fr) -> NoDup fr' ->
       (J O d0 (set_pos t e (PDense q)) d' fr' /\ same_id (set_pos t e (PDense q)) t /\
    (forall f, kind (set_pos t e (PDense q)) f = if (f =? e) && true && true then Some false else kind t f) /\
    (forall f, is_sparse (set_pos t e (PDense q)) f = if (f =? e) && true && true && false
                           then true else is_sparse t f) /\
    (forall f, get_pos t f <> PUndef -> get_pos (set_pos t e (PDense q)) f = get_pos t f))).
    { intros q d' fr' Hq Hqa Hlen Hd Hown HO Hfr Hsub Hnd.
      assert (G : forall f, get_pos (set_pos t e (PDense q)) f = if f =? e then PDense q else get_pos t f).
      { intro f. apply get_set_pos; auto. apply W. }
      destruct Jt as [JA JB JC JD JE JF JG JH JI].
      split; [|split; [now split|]].
      - split; auto.
        + destruct W as [W1 W2 W3]. split.
          * cbn. rewrite lset_length. auto.
          * cbn. auto.
          * intro f. rewrite G. destruct (f =? e); [discriminate|]. intro. apply (W3 f); auto.
        + intros f g p. unfold owns. rewrite !G.
          destruct (Nat.eqb_spec f e); destruct (Nat.eqb_spec g e); intros Hf Hg; subst; auto.
          * injection Hf as <-. exfalso. apply (Hown g q); auto.
          * injection Hg as <-. exfalso. apply (Hown f q); auto.
          * eauto.
        + intros f p. unfold owns. rewrite G. destruct (Nat.eqb_spec f e).
          * now intros [= <-].
          * intro Hf. apply JC in Hf. lia.
        + intros f p. unfold owns. rewrite G. destruct (Nat.eqb_spec f e).
          * now intros [= <-].
          * intros Hf Hi. apply JD in Hf. auto.
        + intros f p. unfold owns. rewrite G. destruct (Nat.eqb_spec f e).
          * now intros [= <-].
          * intros Hf. eapply JE; eauto.
        + intros f p. unfold owns. rewrite G. destruct (Nat.eqb_spec f e).
          * now intros [= <-].
          * intros Hf Hs. change (record_size (set_pos t e (PDense q))) with (record_size t).
            rewrite Hd; [eapply JF; eauto|eapply JC; eauto|eapply Hown; eauto].
        + intros p Hp. destruct (JG p Hp) as (A & B & C). split; [lia|]. split; [auto|].
          rewrite Hd; auto. intro; subst; tauto.
        + intros p Hp. apply Hsub, JI in Hp. lia.
      - split; [|split]; intro f.
        + unfold kind. rewrite G. destruct (Nat.eqb_spec f e); cbn [andb]; auto.
        + rewrite andb_false_r. reflexivity.
        + intro Hf. rewrite G. destruct (Nat.eqb_spec f e); [subst; congruence|auto]. }
    destruct fr as [|q fr'].
    + exists (set_pos t e (PDense (length d))), (d ++ [Some (record_size t)]), [].
      split; auto. apply Main; auto.
      * rewrite app_length. cbn. lia.
      * rewrite app_nth2, Nat.sub_diag; auto.
      * rewrite app_length. lia.
      * intros p Hp _. now rewrite app_nth1.
      * intros f p Hp. apply (j_lt _ _ _ _ _ Jt) in Hp. lia.
      * intro Hp. apply (j_O _ _ _ _ _ Jt) in Hp. lia.
      * constructor.
    + pose proof (j_fr _ _ _ _ _ Jt q (or_introl eq_refl)) as Hq.
      pose proof (j_nd _ _ _ _ _ Jt) as N. inversion N as [|? ? Nq Nr]; subst.
      destruct (Nat.ltb_spec q (length d)); [|lia].
      exists (set_pos t e (PDense q)), (lset d q (Some (record_size t))), fr'.
      split; auto. apply Main; auto.
      * now rewrite lset_length.
      * now rewrite nth_lset_eq.
      * rewrite lset_length. lia.
      * intros p _ Hp. rewrite nth_lset_ne; auto.
      * intros f p Hp Heq. subst. apply (j_nfr _ _ _ _ _ Jt) in Hp. apply Hp. now left.
      * intro Hp. apply (j_O _ _ _ _ _ Jt) in Hp. destruct Hp as (_ & Hp & _). apply Hp. now left.
      * intros p Hp. now right.
Qed.

Definition isnone {A} (x : option A) : bool := match x with None => true | Some _ => false end.

Lemma define_all_ok : forall O d0 et sp l t d fr,
  NoDup l -> (forall e, In e l -> e < ntypes) -> J O d0 t d fr ->
  exists t' d' fr', define_all et sp l (t, d, fr) = Some (t', d', fr') /\
    J O d0 t' d' fr' /\ same_id t' t /\
    (forall f, kind t' f = if existsb (Nat.eqb f) l && et f && isnone (kind t f)
                           then Some (sp f) else kind t f) /\
    (forall f, is_sparse t' f = if existsb (Nat.eqb f) l && et f && isnone (kind t f) && sp f
                           then true else is_sparse t f) /\
    (forall f, get_pos t f <> PUndef -> get_pos t' f = get_pos t f).
Proof.
  intros O d0 et sp. induction l as [|e l IH]; intros t d fr N Hl Jt; cbn [define_all].
  - exists t, d, fr. split; auto. split; auto. split; [apply same_id_refl|]. split; [|split]; auto.
  - inversion N as [|? ? Ne Nl]; subst.
    destruct (define1_ok O d0 et sp e t d fr (Hl e (or_introl eq_refl)) Jt)
      as (t1 & d1 & f1 & E1 & J1 & I1 & K1 & S1 & P1).
    rewrite E1.
    destruct (IH t1 d1 f1 Nl (fun x Hx => Hl x (or_intror Hx)) J1)
      as (t2 & d2 & f2 & E2 & J2 & I2 & K2 & S2 & P2).
    exists t2, d2, f2. split; auto. split; auto. split; [eapply same_id_trans; eauto|].
    assert (Hex : forall f, existsb (Nat.eqb f) l = true -> f <> e).
    { intros f Hf. apply existsb_exists in Hf. destruct Hf as (x & Hx & Hfx).
      apply Nat.eqb_eq in Hfx. intro; subst; subst. tauto. }
    split; [|split]; intro f; specialize (Hex f); cbn [existsb].
    + rewrite K2, !K1. destruct (Nat.eqb_spec f e) as [->|Hne]; cbn [andb orb].
      * destruct (existsb (Nat.eqb e) l); [specialize (Hex eq_refl); tauto|].
        cbn [andb]. fold (isnone (kind t e)). reflexivity.
      * reflexivity.
    + rewrite S2, K1, S1. destruct (Nat.eqb_spec f e) as [->|Hne]; cbn [andb orb].
      * destruct (existsb (Nat.eqb e) l); [specialize (Hex eq_refl); tauto|].
        cbn [andb]. fold (isnone (kind t e)). reflexivity.
      * reflexivity.
    + intro Hf. rewrite P2; rewrite P1; auto.
Qed.

Lemma undefine1_ok : forall O d0 m e t d fr b, e < ntypes -> J O d0 t d fr ->
  exists t' d' fr', undefine1 m e (t, d, fr, b) =
      Some (t', d', fr', b && (isnone (kind t e) || m e)) /\
    J O d0 t' d' fr' /\ same_id t' t /\
    (forall f, kind t' f = if (f =? e) && m e then None else kind t f) /\
    (forall f, is_sparse t' f = is_sparse t f) /\
    (forall f, get_pos t' f <> PUndef -> get_pos t' f = get_pos t f).
Proof.
  intros O d0 m e t d fr b He Jt. unfold undefine1.
  pose proof (j_wf _ _ _ _ _ Jt) as W.
  assert (G : forall f, get_pos (set_pos t e PUndef) f = if f =? e then PUndef else get_pos t f).
  { intro f. apply get_set_pos; auto. apply W. }
  assert (Ow : forall f p, owns (set_pos t e PUndef) f p -> owns t f p /\ f <> e).
  { intros f p. unfold owns. rewrite G. destruct (Nat.eqb_spec f e); [discriminate|auto]. }
  assert (Wf : twf (set_pos t e PUndef)).
  { destruct W as [W1 W2 W3]. split.
    - cbn. rewrite lset_length. auto.
    - cbn. auto.
    - intro f. rewrite G. destruct (f =? e); [discriminate|]. apply W3. }
  assert (Rest : same_id (set_pos t e PUndef) t /\
    (m e = true -> forall f, kind (set_pos t e PUndef) f = if (f =? e) && m e then None else kind t f) /\
    (forall f, is_sparse (set_pos t e PUndef) f = is_sparse t f) /\
    (forall f, get_pos (set_pos t e PUndef) f <> PUndef -> get_pos (set_pos t e PUndef) f = get_pos t f)).
  { split; [now split|]. split; [|split].
    - intros Hm f. rewrite Hm, andb_true_r. unfold kind. rewrite G. destruct (f =? e); auto.
    - reflexivity.
    - intro f. rewrite G. destruct (f =? e); [tauto|auto]. }
  assert (Keep : m e = false \/ kind t e = None -> forall f, kind t f = if (f =? e) && m e then None else kind t f).
  { intros H f. destruct (Nat.eqb_spec f e) as [->|]; cbn [andb]; auto.
    destruct H as [->|H]; auto. rewrite H. now destruct (m e). }
  destruct (get_pos t e) as [| |p] eqn:Ep.
  - assert (K : kind t e = None) by (unfold kind; now rewrite Ep).
    rewrite K. cbn [isnone orb]. rewrite andb_true_r.
    exists t, d, fr. split; auto. split; auto. split; [apply same_id_refl|]. split; auto.
  - assert (K : kind t e = Some true) by (unfold kind; now rewrite Ep).
    rewrite K. cbn [isnone orb].
    destruct (m e) eqn:Em; rewrite ?andb_true_r, ?andb_false_r.
    + rewrite (tw_sp _ W _ Ep).
      exists (set_pos t e PUndef), d, fr. split; auto. split.
      * destruct Jt as [JA JB JC JD JE JF JG JH JI]. split; auto.
        -- intros f g p Hf Hg. apply Ow in Hf, Hg. destruct Hf, Hg. eauto.
        -- intros f p Hf. apply Ow in Hf. destruct Hf. eauto.
        -- intros f p Hf. apply Ow in Hf. destruct Hf. eauto.
        -- intros f p Hf. apply Ow in Hf. destruct Hf. eauto.
        -- intros f p Hf Hs. apply Ow in Hf. destruct Hf. eapply JF; eauto.
      * destruct Rest as (R1 & R2 & R3 & R4). auto.
    + exists t, d, fr. split; auto. split; auto. split; [apply same_id_refl|]. split; auto.
  - assert (K : kind t e = Some false) by (unfold kind; now rewrite Ep).
    rewrite K. cbn [isnone orb].
    destruct (m e) eqn:Em; rewrite ?andb_true_r, ?andb_false_r.
    2:{ exists t, d, fr. split; auto. split; auto. split; [apply same_id_refl|]. split; auto. }
    destruct (is_sparse t e) eqn:Es.
    + exists (set_pos t e PUndef), d, fr. split; auto. split.
      * destruct Jt as [JA JB JC JD JE JF JG JH JI]. split; auto.
        -- intros f g q Hf Hg. apply Ow in Hf, Hg. destruct Hf, Hg. eauto.
        -- intros f q Hf. apply Ow in Hf. destruct Hf. eauto.
        -- intros f q Hf. apply Ow in Hf. destruct Hf. eauto.
        -- intros f q Hf. apply Ow in Hf. destruct Hf. eauto.
        -- intros f q Hf Hs. apply Ow in Hf. destruct Hf. eapply JF; eauto.
      * destruct Rest as (R1 & R2 & R3 & R4). auto.
    + pose proof (j_lt _ _ _ _ _ Jt _ _ Ep) as Hlt.
      destruct (Nat.ltb_spec p (length d)); [|lia].
      exists (set_pos t e PUndef), (lset d p None), (p :: fr). split; auto. split.
      * destruct Jt as [JA JB JC JD JE JF JG JH JI]. split; auto.
        -- intros f g q Hf Hg. apply Ow in Hf, Hg. destruct Hf, Hg. eauto.
        -- intros f q Hf. apply Ow in Hf. destruct Hf. rewrite lset_length. eauto.
        -- intros f q Hf. apply Ow in Hf. destruct Hf as [Hf Hne]. intros [<-|Hi].
           ++ apply Hne. eapply JB; eauto.
           ++ eapply JD; eauto.
        -- intros f q Hf. apply Ow in Hf. destruct Hf. eauto.
        -- intros f q Hf Hs. apply Ow in Hf. destruct Hf as [Hf Hne].
           rewrite nth_lset_ne; [eapply JF; eauto|].
           intro; subst. apply Hne. eapply JB; eauto.
        -- intros q Hq. destruct (JG q Hq) as (A & B & C). rewrite lset_length.
           assert (p <> q) by (intro; subst; eapply JE; eauto).
           split; auto. split; [intros [?|?]; tauto|]. now rewrite nth_lset_ne.
        -- constructor; auto. eapply JD; eauto.
        -- intros q [<-|Hq]; rewrite lset_length; auto.
      * destruct Rest as (R1 & R2 & R3 & R4). auto.
Qed.

Lemma undefine_all_ok : forall O d0 m l t d fr b,
  NoDup l -> (forall e, In e l -> e < ntypes) -> J O d0 t d fr ->
  exists t' d' fr', undefine_all m l (t, d, fr, b) =
      Some (t', d', fr', b && forallb (fun e => isnone (kind t e) || m e) l) /\
    J O d0 t' d' fr' /\ same_id t' t /\
    (forall f, kind t' f = if existsb (Nat.eqb f) l && m f then None else kind t f) /\
    (forall f, is_sparse t' f = is_sparse t f) /\
    (forall f, get_pos t' f <> PUndef -> get_pos t' f = get_pos t f).
Proof.
  intros O d0 m. induction l as [|e l IH]; intros t d fr b N Hl Jt; cbn [undefine_all].
  - exists t, d, fr. cbn [forallb existsb andb]. rewrite andb_true_r.
    split; auto. split; auto. split; [apply same_id_refl|]. split; [|split]; auto.
  - inversion N as [|? ? Ne Nl]; subst.
    destruct (undefine1_ok O d0 m e t d fr b (Hl e (or_introl eq_refl)) Jt)
      as (t1 & d1 & f1 & E1 & J1 & I1 & K1 & S1 & P1).
    rewrite E1.
    destruct (IH t1 d1 f1 (b && (isnone (kind t e) || m e)) Nl (fun x Hx => Hl x (or_intror Hx)) J1)
      as (t2 & d2 & f2 & E2 & J2 & I2 & K2 & S2 & P2).
    exists t2, d2, f2. split.
    { rewrite E2. do 2 f_equal. cbn [forallb]. rewrite <- andb_assoc. do 2 f_equal.
      assert (Hc : forall g, In g l -> kind t1 g = kind t g).
      { intros g Hg. rewrite K1. destruct (Nat.eqb_spec g e); [subst; tauto|auto]. }
      clear - Hc. induction l as [|x l IHl]; cbn [forallb]; auto.
      rewrite Hc by now left. f_equal. apply IHl. intros; apply Hc. now right. }
    split; auto. split; [eapply same_id_trans; eauto|].
    split; [|split]; intro f; cbn [existsb].
    + rewrite K2, K1. destruct (Nat.eqb_spec f e) as [->|Hne]; cbn [andb orb].
      * destruct (existsb (Nat.eqb e) l && m e) eqn:Q; auto.
        apply andb_prop in Q. destruct Q as [_ ->]. reflexivity.
      * reflexivity.
    + now rewrite S2, S1.
    + intro Hf. rewrite P2 by auto. apply P1. now rewrite <- P2.
Qed.

(** ** State invariant *)
Record inv (s : tm) : Prop := {
  v_keys : NoDup (map tkey (tags s));
  v_fresh : forall t, In t (tags s) -> tkey t < fresh s;
  v_names : NoDup (map tname (tags s));
  v_wf : forall t, In t (tags s) -> twf t;
  v_inj : forall t u e f p, In t (tags s) -> In u (tags s) ->
     owns t e p -> owns u f p -> tkey t = tkey u /\ e = f;
  v_pos : forall t e p, In t (tags s) -> owns t e p ->
     p < length (dense s) /\ ~ In p (edense s) /\
     (is_sparse t e = false -> nth p (dense s) None = Some (record_size t));
  v_nd : NoDup (edense s);
  v_fr : forall p, In p (edense s) -> p < length (dense s)
}.

Lemma In_map_inj : forall A (f : A -> nat) l x y,
  NoDup (map f l) -> In x l -> In y l -> f x = f y -> x = y.
Proof.
  intros A f. induction l as [|a l IH]; intros x y N Hx Hy E; [destruct Hx|].
  cbn [map] in N. inversion N as [|? ? Na Nl]; subst.
  destruct Hx as [->|Hx], Hy as [->|Hy]; auto.
  - exfalso. apply Na. rewrite E. now apply in_map.
  - exfalso. apply Na. rewrite <- E. now apply in_map.
Qed.

Lemma find_name_iff : forall l n t, NoDup (map tname l) ->
  (find_name l n = Some t <-> In t l /\ tname t = n).
Proof.
  intros l n t N. unfold find_name. split.
  - intro H. apply find_some in H. now rewrite Nat.eqb_eq in H.
  - intros [H E]. destruct (find (fun t => tname t =? n) l) as [u|] eqn:F.
    + apply find_some in F. rewrite Nat.eqb_eq in F. destruct F as [F1 F2].
      f_equal. eapply In_map_inj; eauto. congruence.
    + apply (find_none _ _ F) in H. apply Nat.eqb_neq in H. congruence.
Qed.

Lemma find_name_none : forall l n, find_name l n = None <-> forall t, In t l -> tname t <> n.
Proof.
  intros l n. unfold find_name. split.
  - intros H t Ht. apply (find_none _ _ H) in Ht. now apply Nat.eqb_neq.
  - intro H. destruct (find _ l) as [u|] eqn:F; auto.
    apply find_some in F. rewrite Nat.eqb_eq in F. destruct F. now apply H in H0.
Qed.

Lemma find_key_iff : forall l k t, NoDup (map tkey l) ->
  (find_key l k = Some t <-> In t l /\ tkey t = k).
Proof.
  intros l n t N. unfold find_key. split.
  - intro H. apply find_some in H. now rewrite Nat.eqb_eq in H.
  - intros [H E]. destruct (find (fun t => tkey t =? n) l) as [u|] eqn:F.
    + apply find_some in F. rewrite Nat.eqb_eq in F. destruct F as [F1 F2].
      f_equal. eapply In_map_inj; eauto. congruence.
    + apply (find_none _ _ F) in H. apply Nat.eqb_neq in H. congruence.
Qed.

Lemma In_put : forall l t u, In u (put l t) <->
  (u = t /\ exists v, In v l /\ tkey v = tkey t) \/ (In u l /\ tkey u <> tkey t).
Proof.
  intros l t u. unfold put. rewrite in_map_iff. split.
  - intros (v & E & Hv). destruct (Nat.eqb_spec (tkey v) (tkey t)); subst; eauto.
  - intros [(-> & v & Hv & Ev)|(Hu & Hk)].
    + exists v. rewrite Ev, Nat.eqb_refl. auto.
    + exists u. destruct (Nat.eqb_spec (tkey u) (tkey t)); [tauto|auto].
Qed.

Lemma put_keys : forall l t, map tkey (put l t) = map tkey l.
Proof.
  intros l t. unfold put. rewrite map_map. apply map_ext. intro u.
  destruct (Nat.eqb_spec (tkey u) (tkey t)); auto.
Qed.

Lemma put_names : forall l t0 t, NoDup (map tkey l) -> In t0 l -> same_id t t0 ->
  map tname (put l t) = map tname l.
Proof.
  intros l t0 t N H (E1 & E2 & _). unfold put. rewrite map_map. apply map_ext_in. intros u Hu.
  destruct (Nat.eqb_spec (tkey u) (tkey t)); auto.
  assert (u = t0) by (eapply In_map_inj; eauto; congruence). congruence.
Qed.

Lemma In_remove_key : forall l k u, NoDup (map tkey l) ->
  (In u (remove_key l k) <-> In u l /\ tkey u <> k).
Proof.
  induction l as [|a l IH]; intros k u N; cbn [remove_key].
  - cbn. tauto.
  - cbn [map] in N. inversion N as [|? ? Na Nl]; subst.
    destruct (Nat.eqb_spec (tkey a) k).
    + subst. cbn [In]. split; [|intros [[->|?] ?]; tauto].
      intro Hu. split; auto. intro E. apply Na. rewrite <- E. now apply in_map.
    + cbn [In]. rewrite IH by auto. split; [intros [->|[? ?]]; auto|].
      intros [[->|?] ?]; auto.
Qed.

Lemma remove_key_sub : forall (f : tagm -> nat) l k, NoDup (map f l) -> NoDup (map f (remove_key l k)).
Proof.
  intros f. assert (G : forall l k x, In x (remove_key l k) -> In x l).
  { induction l as [|a l IH]; intros k x; cbn [remove_key]; auto.
    destruct (tkey a =? k); [now right|]. intros [->|Hx]; [now left|right; eauto]. }
  induction l as [|a l IH]; intros k N; cbn [remove_key]; auto.
  cbn [map] in N. inversion N as [|? ? Na Nl]; subst.
  destruct (tkey a =? k); auto. cbn [map]. constructor; auto.
  intro Hi. apply Na. apply in_map_iff in Hi. destruct Hi as (x & Ex & Hx).
  rewrite <- Ex. apply in_map. eauto.
Qed.

(** Positions of tags other than key [k]. *)
Definition others (l : list tagm) (k : nat) (p : nat) : Prop :=
  exists u f, In u l /\ tkey u <> k /\ owns u f p.

Lemma inv_J : forall s t, inv s -> In t (tags s) ->
  J (others (tags s) (tkey t)) (dense s) t (dense s) (edense s).
Proof.
  intros s t I Ht. split.
  - now apply (v_wf _ I).
  - intros e f p He Hf. eapply (v_inj _ I t t); eauto.
  - intros e p He. eapply (v_pos _ I t); eauto.
  - intros e p He. eapply (v_pos _ I t); eauto.
  - intros e p He (u & f & Hu & Hk & Hf).
    destruct (v_inj _ I t u e f p Ht Hu He Hf). congruence.
  - intros e p He. eapply (v_pos _ I t); eauto.
  - intros p (u & f & Hu & Hk & Hf). destruct (v_pos _ I u f p Hu Hf) as (A & B & C). auto.
  - apply I.
  - apply I.
Qed.

(** Rebuild the invariant after one tag changed. *)
Lemma inv_put : forall s t0 t d fr fsh, inv s -> In t0 (tags s) -> same_id t t0 ->
  J (others (tags s) (tkey t0)) (dense s) t d fr -> fresh s <= fsh ->
  inv (TM (put (tags s) t) d fr fsh).
Proof.
  intros s t0 t d fr fsh I H0 Id Jt Hf.
  assert (Ek : tkey t = tkey t0) by apply Id.
  assert (Hin : forall u, In u (put (tags s) t) -> u = t \/ (In u (tags s) /\ tkey u <> tkey t0)).
  { intros u Hu. apply In_put in Hu. rewrite Ek in Hu. tauto. }
  split; cbn [tags dense edense fresh].
  - rewrite put_keys. apply I.
  - intros u Hu. apply Hin in Hu. destruct Hu as [->|[Hu _]].
    + rewrite Ek. apply (v_fresh _ I) in H0. lia.
    + apply (v_fresh _ I) in Hu. lia.
  - erewrite put_names; eauto; apply I.
  - intros u Hu. apply Hin in Hu. destruct Hu as [->|[Hu _]]; [apply Jt|now apply (v_wf _ I)].
  - intros u v e f p Hu Hv He Hf'. apply Hin in Hu, Hv.
    destruct Hu as [->|[Hu Ku]], Hv as [->|[Hv Kv]].
    + split; auto. eapply j_inj; eauto.
    + exfalso. eapply (j_nO _ _ _ _ _ Jt); eauto. exists v, f. auto.
    + exfalso. eapply (j_nO _ _ _ _ _ Jt); eauto. exists u, e. auto.
    + eapply (v_inj _ I); eauto.
  - intros u e p Hu He. apply Hin in Hu. destruct Hu as [->|[Hu Ku]].
    + split; [eapply j_lt; eauto|]. split; [eapply j_nfr; eauto|]. eapply j_al; eauto.
    + assert (Ho : others (tags s) (tkey t0) p) by (exists u, e; auto).
      destruct (j_O _ _ _ _ _ Jt p Ho) as (A & B & C). split; auto. split; auto.
      rewrite C. eapply (v_pos _ I); eauto.
  - apply (j_nd _ _ _ _ _ Jt).
  - apply (j_fr _ _ _ _ _ Jt).
Qed.

Lemma inv_remove : forall s t0 t d fr, inv s -> In t0 (tags s) -> same_id t t0 ->
  J (others (tags s) (tkey t0)) (dense s) t d fr ->
  inv (TM (remove_key (tags s) (tkey t0)) d fr (fresh s)).
Proof.
  intros s t0 t d fr I H0 Id Jt.
  assert (Hin : forall u, In u (remove_key (tags s) (tkey t0)) <-> In u (tags s) /\ tkey u <> tkey t0).
  { intro u. apply In_remove_key. apply I. }
  split; cbn [tags dense edense fresh].
  - apply remove_key_sub, I.
  - intros u Hu. apply Hin in Hu. now apply (v_fresh _ I).
  - apply remove_key_sub, I.
  - intros u Hu. apply Hin in Hu. now apply (v_wf _ I).
  - intros u v e f p Hu Hv He Hf. apply Hin in Hu, Hv. eapply (v_inj _ I); try eassumption; tauto.
  - intros u e p Hu He. apply Hin in Hu.
    assert (Ho : others (tags s) (tkey t0) p) by (exists u, e; tauto).
    destruct (j_O _ _ _ _ _ Jt p Ho) as (A & B & C). split; auto. split; auto.
    rewrite C. eapply (v_pos _ I); eauto; tauto.
  - apply (j_nd _ _ _ _ _ Jt).
  - apply (j_fr _ _ _ _ _ Jt).
Qed.

(** Adding a tag with nothing defined. *)
Lemma new_tagm_pos : forall k n d z e, get_pos (new_tagm k n d z) e = PUndef.
Proof. intros. unfold get_pos, new_tagm. cbn [tpos]. apply nth_repeat. Qed.
Lemma new_tagm_sp : forall k n d z e, is_sparse (new_tagm k n d z) e = false.
Proof. intros. unfold is_sparse, new_tagm. cbn [tsparse]. apply nth_repeat. Qed.

Lemma nodup_snoc : forall (l : list nat) x, NoDup l -> ~ In x l -> NoDup (l ++ [x]).
Proof.
  induction l as [|a l IH]; intros x N H; cbn [app].
  - constructor; auto.
  - inversion N; subst. constructor.
    + rewrite in_app_iff. intros [?|[->|[]]]; [tauto|]. apply H. now left.
    + apply IH; auto. intro. apply H. now right.
Qed.

Lemma inv_new : forall s n d z, inv s -> find_name (tags s) n = None ->
  inv (TM (tags s ++ [new_tagm (fresh s) n d z]) (dense s) (edense s) (S (fresh s))).
Proof.
  intros s n d z I Hn. rewrite find_name_none in Hn.
  assert (Hno : forall e p, ~ owns (new_tagm (fresh s) n d z) e p).
  { intros e p. unfold owns. rewrite new_tagm_pos. discriminate. }
  split; cbn [tags dense edense fresh].
  - rewrite map_app. cbn [map]. apply nodup_snoc; [apply I|].
    intro Hi. apply in_map_iff in Hi. destruct Hi as (t & E & Ht).
    apply (v_fresh _ I) in Ht. cbn in E. lia.
  - intros t Ht. apply in_app_iff in Ht. destruct Ht as [Ht|[<-|[]]].
    + apply (v_fresh _ I) in Ht. lia.
    + cbn. lia.
  - rewrite map_app. cbn [map]. apply nodup_snoc; [apply I|].
    intro Hi. apply in_map_iff in Hi. destruct Hi as (t & E & Ht). now apply Hn in Ht.
  - intros t Ht. apply in_app_iff in Ht. destruct Ht as [Ht|[<-|[]]].
    + now apply (v_wf _ I).
    + split; auto. intro e. rewrite new_tagm_pos. discriminate.
  - intros t u e f p Ht Hu He Hf. apply in_app_iff in Ht, Hu.
    destruct Ht as [Ht|[<-|[]]]; [|now apply Hno in He].
    destruct Hu as [Hu|[<-|[]]]; [|now apply Hno in Hf].
    eapply (v_inj _ I); eauto.
  - intros t e p Ht He. apply in_app_iff in Ht.
    destruct Ht as [Ht|[<-|[]]]; [|now apply Hno in He]. eapply (v_pos _ I); eauto.
  - apply I.
  - apply I.
Qed.

Definition size_ok (req have : option nat) : bool :=
  match req with
  | None => true
  | Some n => match have with Some m => n =? m | None => false end
  end.

(** State in which CreateTag runs its loop. *)
Definition pre_create (s : tm) (n d : nat) (z : option nat) : tm :=
  match find_name (tags s) n with
  | Some _ => s
  | None => TM (tags s ++ [new_tagm (fresh s) n d z]) (dense s) (edense s) (S (fresh s))
  end.

Lemma seq_types : forall e, In e (seq 0 ntypes) -> e < ntypes.
Proof. intros e H. apply in_seq in H. lia. Qed.

Lemma ex_types : forall f, existsb (Nat.eqb f) (seq 0 ntypes) = (f <? ntypes).
Proof.
  intro f. apply eq_true_iff_eq. rewrite existsb_exists, Nat.ltb_lt. split.
  - intros (x & Hx & E). apply Nat.eqb_eq in E. subst. now apply seq_types.
  - intro H. exists f. rewrite Nat.eqb_refl, in_seq. lia.
Qed.

Lemma create_ok : forall s n d et sp z, inv s ->
  (forall t, find_name (tags s) n = Some t -> tdtype t = d /\ size_ok z (tsize t) = true) ->
  exists s' t0 t', create_tag s n d et sp z = Some (s', tkey t') /\ inv s' /\
    In t0 (tags (pre_create s n d z)) /\ tname t0 = n /\ same_id t' t0 /\
    tags s' = put (tags (pre_create s n d z)) t' /\ fresh s' = fresh (pre_create s n d z) /\
    (forall f, kind t' f = if (f <? ntypes) && et f && isnone (kind t0 f)
                           then Some (sp f) else kind t0 f) /\
    (forall f, is_sparse t' f = if (f <? ntypes) && et f && isnone (kind t0 f) && sp f
                           then true else is_sparse t0 f) /\
    (forall f, get_pos t0 f <> PUndef -> get_pos t' f = get_pos t0 f).
Proof.
  intros s n d et sp z I Hc.
  assert (Gen : forall s1 t0, inv s1 -> In t0 (tags s1) -> tname t0 = n ->
     exists t' d' fr', define_all et sp (seq 0 ntypes) (t0, dense s1, edense s1) = Some (t', d', fr') /\
       inv (TM (put (tags s1) t') d' fr' (fresh s1)) /\ same_id t' t0 /\
    (forall f, kind t' f = if (f <? ntypes) && et f && isnone (kind t0 f)
                           then Some (sp f) else kind t0 f) /\
    (forall f, is_sparse t' f = if (f <? ntypes) && et f && isnone (kind t0 f) && sp f
                           then true else is_sparse t0 f) /\
    (forall f, get_pos t0 f <> PUndef -> get_pos t' f = get_pos t0 f)).
  { intros s1 t0 I1 H0 Hn.
    destruct (define_all_ok (others (tags s1) (tkey t0)) (dense s1) et sp (seq 0 ntypes)
                t0 (dense s1) (edense s1) (seq_NoDup _ _) seq_types (inv_J _ _ I1 H0))
      as (t' & d' & fr' & E & J' & Id & K & S' & P).
    exists t', d', fr'. split; auto. split; [eapply inv_put; eauto|]. split; auto.
    split; [|split]; auto; intro f.
    - rewrite K, ex_types. reflexivity.
    - rewrite S', ex_types. reflexivity. }
  unfold create_tag, pre_create.
  destruct (find_name (tags s) n) as [t|] eqn:F.
  - destruct (Hc t eq_refl) as [H1 H2]. rewrite H1, Nat.eqb_refl. unfold size_ok in H2. rewrite H2.
    cbn [andb].
    assert (Ht : In t (tags s) /\ tname t = n) by (apply find_name_iff; [apply I|auto]).
    destruct (Gen s t I (proj1 Ht) (proj2 Ht)) as (t' & d' & fr' & E & I' & R).
    rewrite E. eexists _, t, t'. split; [reflexivity|]. split; auto.
    destruct R as (R1 & R2 & R3 & R4). cbn [tags fresh]. tauto.
  - pose proof (inv_new s n d z I F) as I1.
    destruct (Gen _ (new_tagm (fresh s) n d z) I1) as (t' & d' & fr' & E & I' & R).
    { cbn [tags]. apply in_app_iff. right. now left. }
    { reflexivity. }
    cbn [tags dense edense fresh] in *. rewrite E.
    eexists _, _, t'. split; [reflexivity|]. split; auto. cbn [tags fresh].
    split; [apply in_app_iff; right; now left|]. split; [reflexivity|].
    destruct R as (R1 & R2 & R3 & R4). auto 10.
Qed.

Lemma delete_ok : forall s t0 m, inv s -> In t0 (tags s) ->
  exists s' t', delete_tag s (tkey t0) m = Some s' /\ inv s' /\ same_id t' t0 /\
    tags s' = (if forallb (fun e => isnone (kind t0 e) || m e) (seq 0 ntypes)
               then remove_key (tags s) (tkey t0) else put (tags s) t') /\
    (forall f, kind t' f = if (f <? ntypes) && m f then None else kind t0 f) /\
    (forall f, is_sparse t' f = is_sparse t0 f).
Proof.
  intros s t0 m I H0. unfold delete_tag.
  rewrite (proj2 (find_key_iff (tags s) (tkey t0) t0 (v_keys _ I)) (conj H0 eq_refl)).
  destruct (undefine_all_ok (others (tags s) (tkey t0)) (dense s) m (seq 0 ntypes)
              t0 (dense s) (edense s) true (seq_NoDup _ _) seq_types (inv_J _ _ I H0))
      as (t' & d' & fr' & E & J' & Id & K & S' & P).
  rewrite E. cbn [andb]. eexists _, t'. split; [reflexivity|]. cbn [tags].
  split; [|split; [auto|split; [reflexivity|split; auto]]].
  - destruct (forallb _ _); [eapply inv_remove; eauto|eapply inv_put; eauto].
  - intro f. rewrite K, ex_types. reflexivity.
Qed.

Lemma rename_inv : forall s a b, inv s -> inv (fst (rename_tag s a b)).
Proof.
  intros s a b I. unfold rename_tag.
  destruct (find_name (tags s) b) eqn:Fb; auto.
  destruct (find_name (tags s) a) as [t|] eqn:Fa; auto. cbn [fst].
  apply find_name_iff in Fa; [|apply I]. destruct Fa as [Ht Ea].
  rewrite find_name_none in Fb.
  set (t' := TagM (tkey t) b (tdtype t) (tsize t) (tpos t) (tsparse t)).
  assert (Hin : forall u, In u (put (tags s) t') -> exists v, In v (tags s) /\ tkey v = tkey u /\
     tpos v = tpos u /\ tsparse v = tsparse u /\ record_size v = record_size u).
  { intros u Hu. apply In_put in Hu. destruct Hu as [(-> & _)|(Hu & _)].
    - exists t. repeat split; auto.
    - exists u. auto. }
  split; cbn [tags dense edense fresh].
  - rewrite put_keys. apply I.
  - intros u Hu. apply Hin in Hu. destruct Hu as (v & Hv & E & _). rewrite <- E. now apply (v_fresh _ I).
  - (* names *)
    pose proof (v_names _ I) as N. pose proof (v_keys _ I) as Nk.
    assert (G : forall l, NoDup (map tkey l) -> NoDup (map tname l) ->
       (forall u, In u l -> tname u <> b) -> NoDup (map tname (put l t'))).
    { clear. induction l as [|u l IH]; intros Nk N Hb; cbn [put map]; [constructor|].
      inversion Nk as [|? ? Nk1 Nk2]; inversion N as [|? ? N1 N2]; subst.
      fold (put l t'). constructor.
      - intro Hi. apply in_map_iff in Hi. destruct Hi as (v & Ev & Hv).
        apply In_put in Hv. destruct Hv as [(-> & w & Hw & Ew)|(Hv & Kv)].
        + destruct (Nat.eqb_spec (tkey u) (tkey t')).
          * apply Nk1. rewrite e, <- Ew. now apply in_map.
          * apply (Hb u); [now left|]. rewrite <- Ev. reflexivity.
        + destruct (Nat.eqb_spec (tkey u) (tkey t')).
          * apply (Hb v); [now right|]. exact Ev.
          * apply N1. rewrite <- Ev. now apply in_map.
      - apply IH; auto. intros; apply Hb. now right. }
    apply G; auto.
  - intros u Hu. apply Hin in Hu. destruct Hu as (v & Hv & E1 & E2 & E3 & E4).
    destruct (v_wf _ I _ Hv) as [W1 W2 W3]. split; [congruence|congruence|].
    intro e. unfold get_pos, is_sparse. rewrite <- E2, <- E3. apply W3.
  - intros u w e f p Hu Hw. apply Hin in Hu, Hw.
    destruct Hu as (v & Hv & E1 & E2 & E3 & E4). destruct Hw as (x & Hx & F1 & F2 & F3 & F4).
    unfold owns, get_pos. rewrite <- E2, <- F2, <- E1, <- F1. apply (v_inj _ I); auto.
  - intros u e p Hu. apply Hin in Hu. destruct Hu as (v & Hv & E1 & E2 & E3 & E4).
    unfold owns, get_pos, is_sparse. rewrite <- E2, <- E3, <- E4. now apply (v_pos _ I).
  - apply I.
  - apply I.
Qed.

Lemma step_inv : forall s o s', inv s -> tstep s o = Some s' -> inv s'.
Proof.
  intros s o s' I E. destruct o as [n d et sp z|n m|a b]; cbn [tstep] in E.
  - destruct (find_name (tags s) n) as [t|] eqn:F.
    + destruct ((tdtype t =? d) && size_ok z (tsize t)) eqn:Q.
      * apply andb_prop in Q. destruct Q as [Q1 Q2]. apply Nat.eqb_eq in Q1.
        destruct (create_ok s n d et sp z I) as (s1 & t0 & t' & E1 & I1 & _).
        { intros u Hu. rewrite F in Hu. injection Hu as <-. auto. }
        rewrite E1 in E. cbn in E. now injection E as <-.
      * unfold create_tag in E. rewrite F in E. unfold size_ok in Q. rewrite Q in E. discriminate.
    + destruct (create_ok s n d et sp z I) as (s1 & t0 & t' & E1 & I1 & _).
      { intros u Hu. congruence. }
      rewrite E1 in E. cbn in E. now injection E as <-.
  - destruct (find_name (tags s) n) as [t|] eqn:F; [|discriminate].
    apply find_name_iff in F; [|apply I].
    destruct (delete_ok s t m I (proj1 F)) as (s1 & t' & E1 & I1 & _). congruence.
  - injection E as <-. now apply rename_inv.
Qed.

Lemma empty_inv : inv empty_tm.
Proof.
  split; cbn; try constructor; try tauto; try (intros; tauto).
Qed.

Lemma run_inv : forall h s s', inv s -> trun s h = Some s' -> inv s'.
Proof.
  induction h as [|o h IH]; intros s s' I E; cbn [trun] in E.
  - now injection E as <-.
  - destruct (tstep s o) as [s1|] eqn:E1; [|discriminate].
    apply (IH s1 s'); auto. exact (step_inv s o s1 I E1).
Qed.

(** ** Assignment *)
Lemma rekey_spec : forall k ts, exists f : nat -> tagm,
  rekey k ts = map f (seq 0 (length ts)) /\
  (forall i, i < length ts -> exists t, nth_error ts i = Some t /\
     tkey (f i) = k + i /\ tname (f i) = tname t /\ tpos (f i) = tpos t /\
     tsparse (f i) = tsparse t /\ record_size (f i) = record_size t).
Proof.
  intros k ts. unfold rekey.
  exists (fun i => let t := nth i ts (new_tagm 0 0 0 None) in
     TagM (k + i) (tname t) (tdtype t) (tsize t) (tpos t) (tsparse t)).
  split.
  - apply nth_error_ext. intro i. rewrite !nth_error_map.
    destruct (Nat.lt_ge_cases i (length ts)) as [H|H].
    + rewrite (nth_error_nth' (combine _ ts) (0, new_tagm 0 0 0 None)) by (rewrite combine_length, seq_length; lia).
      rewrite combine_nth by apply seq_length.
      rewrite (nth_error_nth' (seq 0 (length ts)) 0) by (rewrite seq_length; lia).
      rewrite seq_nth by lia. reflexivity.
    + rewrite (proj2 (nth_error_None (combine (seq 0 (length ts)) ts) i)) by (rewrite combine_length, seq_length; lia).
      rewrite (proj2 (nth_error_None (seq 0 (length ts)) i)) by (rewrite seq_length; lia). reflexivity.
  - intros i Hi. exists (nth i ts (new_tagm 0 0 0 None)).
    split; [now apply nth_error_nth'|]. repeat split.
Qed.

(** What alloc_copied allocates. *)
Lemma alloc_fold_len : forall ts d,
  length (fold_left (fun d t =>
    fold_left (fun d e =>
      match get_pos t e with
      | PDense p => if is_sparse t e then d else lset d p (Some (record_size t))
      | _ => d
      end) (seq 0 ntypes) d) ts d) = length d.
Proof.
  induction ts as [|t ts IH]; intro d; cbn [fold_left]; auto. rewrite IH.
  generalize (seq 0 ntypes). intro l. revert d. induction l as [|e l IHl]; intro d; cbn [fold_left]; auto.
  rewrite IHl. destruct (get_pos t e); auto. destruct (is_sparse t e); auto. apply lset_length.
Qed.

Lemma alloc_copied_len : forall ts n, length (alloc_copied ts n) = n.
Proof. intros. unfold alloc_copied. rewrite alloc_fold_len. apply repeat_length. Qed.

Definition alloc1 (t : tagm) (d : list (option nat)) (l : list nat) : list (option nat) :=
  fold_left (fun d e =>
      match get_pos t e with
      | PDense p => if is_sparse t e then d else lset d p (Some (record_size t))
      | _ => d
      end) l d.

Lemma alloc1_len : forall t l d, length (alloc1 t d l) = length d.
Proof.
  intros t. induction l as [|e l IHl]; intro d; cbn [alloc1 fold_left]; auto.
  unfold alloc1 in IHl. rewrite IHl. destruct (get_pos t e); auto. destruct (is_sparse t e); auto. apply lset_length.
Qed.

Lemma alloc1_other : forall t l d p, (forall e, ~ owns t e p) -> nth p (alloc1 t d l) None = nth p d None.
Proof.
  intros t. induction l as [|e l IHl]; intros d p H; cbn [alloc1 fold_left]; auto.
  unfold alloc1 in IHl. rewrite IHl by auto. destruct (get_pos t e) as [| |q] eqn:E; auto.
  destruct (is_sparse t e); auto. rewrite nth_lset_ne; auto. intro; subst. now apply (H e).
Qed.

Lemma alloc1_mine : forall t l d p, p < length d ->
  (exists e, owns t e p /\ is_sparse t e = false /\ In e l) \/ nth p d None = Some (record_size t) ->
  nth p (alloc1 t d l) None = Some (record_size t).
Proof.
  intros t. induction l as [|e l IHl]; intros d p Hp H; cbn [alloc1 fold_left].
  - destruct H as [(e & _ & _ & [])|H]; auto.
  - unfold alloc1 in IHl. apply IHl.
    + destruct (get_pos t e); auto. destruct (is_sparse t e); auto. now rewrite lset_length.
    + destruct H as [(f & Hf & Hs & Hin)|H].
      * destruct Hin as [<-|Hin].
        -- right. unfold owns in Hf. rewrite Hf, Hs. now apply nth_lset_eq.
        -- left. eauto.
      * right. destruct (get_pos t e) as [| |q]; auto. destruct (is_sparse t e); auto.
        rewrite nth_lset. destruct (_ && _); auto.
Qed.

Lemma alloc_copied_ok : forall ts n t e p,
  (forall t u e f p, In t ts -> In u ts -> owns t e p -> owns u f p -> t = u) ->
  In t ts -> e < ntypes -> owns t e p -> is_sparse t e = false -> p < n ->
  nth p (alloc_copied ts n) None = Some (record_size t).
Proof.
  intros ts n t e p Hu Ht He Ho Hs Hp. unfold alloc_copied.
  assert (G : forall l d, (forall x, In x l -> In x ts) -> p < length d ->
     (In t l \/ nth p d None = Some (record_size t)) ->
     nth p (fold_left (fun d t => alloc1 t d (seq 0 ntypes)) l d) None = Some (record_size t)).
  { induction l as [|x l IH]; intros d Hl Hd H; cbn [fold_left].
    - destruct H as [[]|H]; auto.
    - apply IH.
      + intros y Hy. apply Hl. now right.
      + now rewrite alloc1_len.
      + destruct H as [[->|H]|H].
        * right. apply alloc1_mine; auto. left. exists e. repeat split; auto. apply in_seq. lia.
        * now left.
        * right. destruct (in_dec Nat.eq_dec 0 [0]) as [_|C]; [|exfalso; apply C; now left].
          (* x owns p or not *)
          assert (D : {f | In f (seq 0 ntypes) /\ owns x f p} + {forall f, In f (seq 0 ntypes) -> ~ owns x f p}).
          { clear. generalize (seq 0 ntypes). induction l as [|f l IHl].
            - right. intros f [].
            - destruct (get_pos x f) as [| |q] eqn:E.
              + destruct IHl as [(g & Hg & Og)|N]; [left; exists g; split; [now right|auto]|].
                right. intros g [<-|Hg]; auto. unfold owns. congruence.
              + destruct IHl as [(g & Hg & Og)|N]; [left; exists g; split; [now right|auto]|].
                right. intros g [<-|Hg]; auto. unfold owns. congruence.
              + destruct (Nat.eq_dec p q) as [->|Hne].
                * left. exists f. split; [now left|auto].
                * destruct IHl as [(g & Hg & Og)|N]; [left; exists g; split; [now right|auto]|].
                  right. intros g [<-|Hg]; auto. unfold owns. congruence. }
          destruct D as [(f & Hf & Of)|N].
          -- assert (x = t) by (eapply Hu; eauto; apply Hl; now left). subst.
             apply alloc1_mine; auto.
          -- assert (Hgen : forall l0 d0, (forall f, In f l0 -> ~ owns x f p) ->
                nth p (alloc1 x d0 l0) None = nth p d0 None).
             { clear. induction l0 as [|e l0 IH0]; intros d0 H; cbn [alloc1 fold_left]; auto.
               unfold alloc1 in IH0. rewrite IH0 by (intros; apply H; now right).
               destruct (get_pos x e) as [| |q] eqn:E; auto.
               destruct (is_sparse x e); auto. rewrite nth_lset_ne; auto.
               intro; subst. apply (H e); [now left|auto]. }
             now rewrite Hgen. }
  apply G; auto.
  now rewrite repeat_length.
Qed.

Lemma assign_inv : forall dst src, inv src ->
  NoDup (edense dst) -> (forall p, In p (edense dst) -> p < length (dense src)) ->
  (forall t e p, In t (tags src) -> owns t e p -> ~ In p (edense dst)) ->
  inv (assign_tags dst src).
Proof.
  intros dst src I Hnd Hfr Hdis. unfold assign_tags.
  destruct (rekey_spec (fresh dst) (tags src)) as (f & E & Hf). rewrite E.
  assert (Hin : forall u, In u (map f (seq 0 (length (tags src)))) ->
     exists i t, i < length (tags src) /\ u = f i /\ In t (tags src) /\
       nth_error (tags src) i = Some t /\
       tkey u = fresh dst + i /\ tname u = tname t /\ tpos u = tpos t /\ tsparse u = tsparse t /\
       record_size u = record_size t).
  { intros u Hu. apply in_map_iff in Hu. destruct Hu as (i & <- & Hi). apply in_seq in Hi.
    destruct (Hf i) as (t & Ht & R); [lia|]. exists i, t.
    split; [lia|]. split; [auto|]. split; [eapply nth_error_In; eauto|]. split; auto. }
  assert (Huniq : forall t u e g p, In t (map f (seq 0 (length (tags src)))) ->
     In u (map f (seq 0 (length (tags src)))) -> owns t e p -> owns u g p -> t = u /\ e = g).
  { intros t u e g p Ht Hu He Hg. apply Hin in Ht, Hu.
    destruct Ht as (i & t0 & Hi & -> & Ht0 & Ni & K1 & _ & P1 & S1 & _).
    destruct Hu as (j & u0 & Hj & -> & Hu0 & Nj & K2 & _ & P2 & S2 & _).
    unfold owns, get_pos in He, Hg. rewrite P1 in He. rewrite P2 in Hg.
    destruct (v_inj _ I t0 u0 e g p Ht0 Hu0 He Hg) as [EK ->]. split; auto.
    f_equal. assert (E' : nth_error (map tkey (tags src)) i = nth_error (map tkey (tags src)) j).
    { rewrite !nth_error_map, Ni, Nj. cbn. congruence. }
    apply (proj1 (NoDup_nth_error (map tkey (tags src)))) in E'; auto.
    - apply I.
    - now rewrite map_length. }
  split; cbn [tags dense edense fresh]; auto.
  - rewrite map_map. assert (G : map (fun x => tkey (f x)) (seq 0 (length (tags src))) = map (fun i => fresh dst + i) (seq 0 (length (tags src)))).
    { apply map_ext_in. intros i Hi. apply in_seq in Hi. destruct (Hf i) as (t & _ & K & _); [lia|auto]. }
    rewrite G. clear. generalize 0. generalize (length (tags src)). intro n.
    induction n as [|n IH]; intro m; cbn [seq map]; constructor; auto.
    intro Hi. apply in_map_iff in Hi. destruct Hi as (j & Ej & Hj). apply in_seq in Hj. lia.
  - intros t Ht. apply Hin in Ht. destruct Ht as (i & t0 & Hi & _ & _ & _ & K & _).
    rewrite K, map_length, seq_length. lia.
  - assert (G : map tname (map f (seq 0 (length (tags src)))) = map tname (tags src)).
    { apply nth_error_ext. intro i. rewrite !nth_error_map.
      destruct (Nat.lt_ge_cases i (length (tags src))) as [H|H].
      - destruct (Hf i H) as (t & Ht & _ & N & _). rewrite Ht.
        rewrite (nth_error_nth' (seq 0 (length (tags src))) 0) by (rewrite seq_length; lia).
        rewrite seq_nth by lia. cbn. now rewrite N.
      - rewrite (proj2 (nth_error_None (seq 0 _) i)) by (rewrite seq_length; lia).
        rewrite (proj2 (nth_error_None (tags src) i)) by lia. reflexivity. }
    rewrite G. apply I.
  - intros t Ht. apply Hin in Ht. destruct Ht as (i & t0 & Hi & _ & H0 & _ & _ & _ & P & S & _).
    destruct (v_wf _ I _ H0) as [W1 W2 W3]. split; [congruence|congruence|].
    intro e. unfold get_pos, is_sparse. rewrite P, S. apply W3.
  - intros t u e g p Ht Hu He Hg. destruct (Huniq t u e g p Ht Hu He Hg) as [-> ->]. auto.
  - intros t e p Ht He. rewrite alloc_copied_len. pose proof Ht as Ht'.
    apply Hin in Ht. destruct Ht as (i & t0 & Hi & _ & H0 & _ & _ & _ & P & S & _).
    assert (He0 : owns t0 e p) by (unfold owns, get_pos in *; now rewrite <- P).
    destruct (v_pos _ I t0 e p H0 He0) as (A & B & C). split; auto. split; [eapply Hdis; eauto|].
    intro Hs. eapply alloc_copied_ok; eauto.
    + intros. eapply Huniq; eauto.
    + destruct (Nat.lt_ge_cases e ntypes) as [G|G]; auto.
      exfalso. unfold owns in He0. rewrite (get_pos_out t0 e) in He0; auto; [discriminate|].
      apply (v_wf _ I _ H0).
  - intros p Hp. rewrite alloc_copied_len. auto.
Qed.
