From Coq Require Import List Bool Arith Lia Ring Sorted.
From Verif Require Import Util Row_Model Row_Proofs Merger_Model.
Import ListNotations.

Section Merger.
Context {R : Type} (r0 r1 : R) (radd rmul rsub : R -> R -> R) (ropp : R -> R).
Context (Rth : ring_theory r0 r1 radd rmul rsub ropp eq).
Context (iszero : R -> bool) (iszero_spec : forall x, iszero x = true <-> x = r0).
Add Ring Rring : Rth.
Infix "+" := radd.
Infix "*" := rmul.

(** ** The chain *)
Fixpoint path (ns : list (link * R)) (i : nat) (c : list nat) : Prop :=
  match c with
  | [] => link_at ns i = Some Eol
  | k :: c' => link_at ns i = Some (At k) /\ path ns k c'
  end.
Definition hdlink (c : list nat) : link := match c with [] => Eol | k :: _ => At k end.

Lemma path_link : forall ns i c, path ns i c -> link_at ns i = Some (hdlink c).
Proof. intros ns i [|k c] H; [exact H|apply H]. Qed.
Lemma last_cons : forall (p : list nat) k i, last (k :: p) i = last p k.
Proof. induction p as [|a p IH]; intros k i; auto. change (last (k :: a :: p) i) with (last (a :: p) i). now rewrite !IH. Qed.
Lemma last_in : forall (p : list nat) i, In (last p i) (i :: p).
Proof. induction p as [|a p IH]; intro i; [now left|]. rewrite last_cons. right. apply IH. Qed.

Lemma path_app : forall ns p1 i p2, path ns i (p1 ++ p2) -> path ns (last p1 i) p2.
Proof.
  induction p1 as [|k p1 IH]; intros i p2 H; auto. destruct H as [_ H]. apply IH in H. now rewrite last_cons.
Qed.

Lemma path_member : forall ns c i k, path ns i c -> In k (i :: c) ->
  exists l, link_at ns k = Some l /\ is_undef l = false.
Proof.
  induction c as [|a c IH]; intros i k H Hk.
  - destruct Hk as [<-|[]]. exists Eol. auto.
  - destruct H as [H1 H2]. destruct Hk as [<-|Hk]; [exists (At a); auto|]. eapply IH; eauto.
Qed.

Lemma link_at_lset : forall (ns : list (link * R)) k x j, k < length ns ->
  link_at (lset ns k x) j = if j =? k then Some (fst x) else link_at ns j.
Proof.
  intros ns k [l v] j H. unfold link_at. rewrite nth_error_lset.
  destruct (Nat.eqb_spec j k) as [->|N].
  - natcases; try lia; auto.
  - natcases; try lia; auto.
Qed.
Lemma val_at_lset : forall (ns : list (link * R)) k x j, k < length ns ->
  val_at (lset ns k x) j = if j =? k then Some (snd x) else val_at ns j.
Proof.
  intros ns k [l v] j H. unfold val_at. rewrite nth_error_lset.
  destruct (Nat.eqb_spec j k) as [->|N].
  - natcases; try lia; auto.
  - natcases; try lia; auto.
Qed.
Lemma link_at_lt : forall (ns : list (link * R)) k l, link_at ns k = Some l -> k < length ns.
Proof. intros ns k l H. unfold link_at in H. apply nth_error_Some. destruct (nth_error ns k); congruence. Qed.

(** links outside of the path do not matter *)
Lemma path_ext : forall ns ns' c i, (forall k, In k (i :: c) -> link_at ns' k = link_at ns k) ->
  path ns i c -> path ns' i c.
Proof.
  induction c as [|a c IH]; intros i E H.
  - cbn in *. rewrite E; auto.
  - destruct H as [H1 H2]. split; [rewrite E; auto; now left|]. apply IH; auto. intros; apply E. now right.
Qed.

Lemma set_link_ok : forall (ns : list (link * R)) i l, i < length ns ->
  exists ns', set_link ns i l = Some ns' /\ length ns' = length ns /\
    (forall k, link_at ns' k = if k =? i then Some l else link_at ns k) /\
    (forall k, val_at ns' k = val_at ns k).
Proof.
  intros ns i l H. unfold set_link. destruct (nth_error ns i) as [[l0 v]|] eqn:E.
  - eexists. split; [reflexivity|]. split; [apply lset_length|]. split; intro k.
    + now apply link_at_lset.
    + rewrite val_at_lset by auto. destruct (Nat.eqb_spec k i); auto. subst. unfold val_at. now rewrite E.
  - apply nth_error_None in E. lia.
Qed.
Lemma set_val_ok : forall (ns : list (link * R)) i v, i < length ns ->
  exists ns', set_val ns i v = Some ns' /\ length ns' = length ns /\
    (forall k, link_at ns' k = link_at ns k) /\
    (forall k, val_at ns' k = if k =? i then Some v else val_at ns k).
Proof.
  intros ns i v H. unfold set_val. destruct (nth_error ns i) as [[l0 v0]|] eqn:E.
  - eexists. split; [reflexivity|]. split; [apply lset_length|]. split; intro k.
    + rewrite link_at_lset by auto. destruct (Nat.eqb_spec k i); auto. subst. unfold link_at. now rewrite E.
    + now apply val_at_lset.
  - apply nth_error_None in E. lia.
Qed.

Lemma link_after_ok : forall ns i t p1 p2 s, path ns s (p1 ++ p2) -> NoDup (s :: p1 ++ p2) ->
  i = last p1 s -> ~ In t (s :: p1 ++ p2) -> t < length ns ->
  exists ns', link_after ns i t (hdlink p2) = Some ns' /\ length ns' = length ns /\
    path ns' s (p1 ++ t :: p2) /\ (forall k, val_at ns' k = val_at ns k) /\
    (forall k, k <> i -> k <> t -> link_at ns' k = link_at ns k).
Proof.
  intros ns i t p1 p2 s P ND Hi Ht Hl.
  assert (Li : link_at ns i = Some (hdlink p2)).
  { subst i. apply path_link. now apply path_app. }
  unfold link_after.
  destruct (set_link_ok ns i (At t) (link_at_lt _ _ _ Li)) as (n1 & E1 & L1 & A1 & V1). rewrite E1.
  destruct (set_link_ok n1 t (hdlink p2)) as (n2 & E2 & L2 & A2 & V2); [lia|]. rewrite E2.
  exists n2. split; auto. split; [lia|]. split; [|split].
  2:{ intro k. now rewrite V2, V1. }
  2:{ intros k K1 K2. rewrite A2, A1. destruct (Nat.eqb_spec k t); [easy|]. destruct (Nat.eqb_spec k i); easy. }
  assert (Nti : t <> i).
  { intros ->. apply Ht. rewrite Hi. pose proof (last_in p1 s) as [H|H]; [now left|]. right. apply in_app_iff. now left. }
  clear E1 E2 V1 V2 L1 L2 Li.
  assert (Q : forall k, link_at n2 k = if k =? t then Some (hdlink p2) else if k =? i then Some (At t) else link_at ns k).
  { intro k. rewrite A2. destruct (k =? t); auto. }
  clear A1 A2. revert s P ND Hi Ht. induction p1 as [|a p1 IH]; intros s P ND Hi Ht.
  - cbn [last app] in *. subst i. split.
    + rewrite Q. destruct (Nat.eqb_spec s t); [congruence|]. now rewrite Nat.eqb_refl.
    + destruct p2 as [|b p2].
      * cbn. rewrite Q, Nat.eqb_refl. reflexivity.
      * destruct P as [_ P2]. split; [now rewrite Q, Nat.eqb_refl|].
        eapply path_ext; [|exact P2]. intros k Hk. rewrite Q.
        destruct (Nat.eqb_spec k t) as [->|]; [exfalso; apply Ht; now right|].
        destruct (Nat.eqb_spec k s) as [->|]; auto. inversion ND; contradiction.
  - cbn [app] in *. destruct P as [P1 P2]. rewrite last_cons in Hi. inversion ND as [|? ? N1 N2]; subst.
    split.
    + rewrite Q. destruct (Nat.eqb_spec s t) as [->|]; [exfalso; apply Ht; now left|].
      destruct (Nat.eqb_spec s (last p1 a)) as [E|]; auto. exfalso. apply N1. rewrite E.
      pose proof (last_in p1 a) as [H|H]; [now left|]. right. apply in_app_iff. now left.
    + apply IH; auto. intro H. apply Ht. now right.
Qed.

Lemma seek_ok : forall ns t p index fuel nx, nx = hdlink p \/ nx = At index -> path ns index p -> index < t ->
  StronglySorted lt (index :: p) -> ~ In t p ->
  S (S (length p)) <= fuel -> 
  exists p1 p2, p = p1 ++ p2 /\ seek fuel ns index nx t = Some (last p1 index, hdlink p2) /\
    (forall k, In k p1 -> k < t) /\ (forall k, In k p2 -> t < k).
Proof.
  intros ns t.
  assert (G : forall p index fuel, path ns index p -> index < t ->
    StronglySorted lt (index :: p) -> ~ In t p -> length p < fuel -> 
    exists p1 p2, p = p1 ++ p2 /\ seek fuel ns index (hdlink p) t = Some (last p1 index, hdlink p2) /\
    (forall k, In k p1 -> k < t) /\ (forall k, In k p2 -> t < k)).
  { induction p as [|a p IH]; intros index fuel P Hi SS Ht Hf.
    - exists [], []. split; auto. split; [destruct fuel; reflexivity|]. split; intros k [].
    - destruct P as [P1 P2]. destruct fuel as [|fuel]; [cbn in Hf; lia|]. cbn [hdlink seek link_lt].
      inversion SS as [|? ? S1 S2]; subst. destruct (Nat.ltb_spec a t) as [L|L].
      + destruct (IH a fuel) as (p1 & p2 & E & Q & B1 & B2); auto.
        { intro; apply Ht; now right. } { cbn [length] in Hf; lia. }
        exists (a :: p1), p2. split; [now rewrite E|]. split.
        * rewrite last_cons, <- Q. now rewrite (path_link _ _ _ P2).
        * split; auto. intros k [<-|Hk]; auto.
      + exists [], (a :: p). split; auto. split; [reflexivity|]. split; [intros k []|].
        assert (a <> t) by (intros ->; apply Ht; now left).
        intros k [<-|Hk]; [lia|]. inversion S1 as [|? ? S3 S4]; subst. rewrite Forall_forall in S4. specialize (S4 _ Hk). lia. }
  intros p index fuel nx [->| ->] P Hi SS Ht Hf.
  - apply G; auto. lia.
  - destruct fuel as [|fuel]; [lia|]. cbn [seek link_lt].
    replace (index <? t) with true by (symmetry; now apply Nat.ltb_lt).
    rewrite (path_link _ _ _ P). apply G; auto. lia.
Qed.

(** ** Abstract state and invariant *)
Definition local (b e p : nat) : Prop := b <= p /\ p < e.
Definition rel (b p : nat) : nat := S (p - b).
Notation at_row := (total r0 radd Nat.eq_dec).

Record inv (s : @merger R) (b e : nat) (srt : bool) (f : nat -> R) (T : nat -> Prop) (c : list nat) : Prop := {
  i_b : ibeg s = b; i_e : iend s = e; i_s : msorted s = srt;
  i_len : length (nodes s) = S (e - b);
  i_path : path (nodes s) 0 c;
  i_nd : NoDup (0 :: c);
  i_out : forall k, k < length (nodes s) -> ~ In k (0 :: c) -> nth_error (nodes s) k = Some (Undef, r0);
  i_sort : srt = true -> StronglySorted lt c;
  i_nz : nonzeros s = length c;
  i_head : val_at (nodes s) 0 = Some r0;
  i_nl : StronglySorted lt (map fst (nonlocal s));
  i_nlT : forall p, In p (map fst (nonlocal s)) <-> T p /\ ~ local b e p;
  i_T : forall p, local b e p -> (In (rel b p) c <-> T p);
  i_v : forall p, local b e p -> val_at (nodes s) (rel b p) = Some (f p);
  i_vn : forall p, ~ local b e p -> at_row (nonlocal s) p = f p
}.

Lemma inv_ext : forall s b e srt f T c g U, inv s b e srt f T c ->
  (forall p, g p = f p) -> (forall p, U p <-> T p) -> inv s b e srt g U c.
Proof.
  intros s b e srt f T c g U [] HF HT. constructor; auto.
  - intro p. rewrite HT. auto.
  - intros p Hp. rewrite HT. auto.
  - intros p Hp. rewrite HF. auto.
  - intros p Hp. rewrite HF. auto.
Qed.

Lemma inv_in_c : forall s b e srt f T c k, inv s b e srt f T c -> In k c -> 0 < k /\ k < S (e - b).
Proof.
  intros s b e srt f T c k I H. destruct I. inversion i_nd0 as [|? ? N1 N2]; subst.
  split. { destruct k; [contradiction|lia]. }
  destruct (path_member _ _ _ k i_path0 (or_intror H)) as (l & E & _). apply link_at_lt in E. lia.
Qed.

Lemma node_local : forall s b e srt f T c p, inv s b e srt f T c -> local b e p -> node_of s p = Some (rel b p).
Proof.
  intros s b e srt f T c p I [H1 H2]. unfold node_of. rewrite (i_b _ _ _ _ _ _ _ I), (i_e _ _ _ _ _ _ _ I).
  destruct (Nat.ltb_spec p b); [lia|]. destruct (Nat.leb_spec e p); [lia|]. reflexivity.
Qed.
Lemma node_nonlocal : forall s b e srt f T c p, inv s b e srt f T c -> ~ local b e p -> node_of s p = None.
Proof.
  intros s b e srt f T c p I H. unfold node_of, local in *. rewrite (i_b _ _ _ _ _ _ _ I), (i_e _ _ _ _ _ _ _ I).
  destruct (Nat.ltb_spec p b); auto. destruct (Nat.leb_spec e p); auto. exfalso; apply H; lia.
Qed.
Lemma local_dec : forall b e p, local b e p \/ ~ local b e p.
Proof. intros. unfold local. lia. Qed.
Lemma rel_inj : forall b e p q, local b e p -> local b e q -> rel b p = rel b q -> p = q.
Proof. unfold local, rel. intros. lia. Qed.

Lemma absent_zero : forall s b e srt f T c p, inv s b e srt f T c -> ~ T p -> f p = r0.
Proof.
  intros s b e srt f T c p I H. destruct (local_dec b e p) as [L|L].
  - pose proof (i_v _ _ _ _ _ _ _ I p L) as V.
    assert (N : ~ In (rel b p) (0 :: c)).
    { intros [E|E]; [discriminate|]. apply H. now apply (i_T _ _ _ _ _ _ _ I). }
    assert (K : rel b p < length (nodes s)) by (rewrite (i_len _ _ _ _ _ _ _ I); unfold rel, local in *; lia).
    unfold val_at in V. rewrite (i_out _ _ _ _ _ _ _ I _ K N) in V. congruence.
  - rewrite <- (i_vn _ _ _ _ _ _ _ I p L). apply total_absent. rewrite (i_nlT _ _ _ _ _ _ _ I). tauto.
Qed.

Definition fupd (f : nat -> R) p v := fun q => if q =? p then v else f q.
Definition Tadd (T : nat -> Prop) p := fun q => q = p \/ T q.

(** node insertion *)
Lemma insert_ok : forall s b e srt f T p1 p2 p i, inv s b e srt f T (p1 ++ p2) -> local b e p -> ~ T p ->
  i = last p1 0 -> (srt = true -> (forall k, In k p1 -> k < rel b p) /\ (forall k, In k p2 -> rel b p < k)) ->
  exists ns, link_after (nodes s) i (rel b p) (hdlink p2) = Some ns /\ val_at ns (rel b p) = Some r0 /\
    forall v, exists ns', set_val ns (rel b p) v = Some ns' /\
      inv (Mg srt (S (nonzeros s)) b e ns' (nonlocal s)) b e srt (fupd f p v) (Tadd T p) (p1 ++ rel b p :: p2).
Proof.
  intros s b e srt f T p1 p2 p i I L HT Hi HS.
  assert (Hn : ~ In (rel b p) (0 :: p1 ++ p2)).
  { intros [E|E]; [discriminate|]. apply HT. now apply (i_T _ _ _ _ _ _ _ I). }
  assert (Hk : rel b p < length (nodes s)).
  { rewrite (i_len _ _ _ _ _ _ _ I). unfold rel, local in *. lia. }
  destruct (link_after_ok (nodes s) i (rel b p) p1 p2 0 (i_path _ _ _ _ _ _ _ I) (i_nd _ _ _ _ _ _ _ I) Hi Hn Hk)
    as (ns & E & Len & P & V & LK).
  exists ns. split; auto. split.
  { rewrite V. rewrite (i_v _ _ _ _ _ _ _ I p L). f_equal. eapply absent_zero; eauto. }
  intro v. destruct (set_val_ok ns (rel b p) v) as (ns' & E' & Len' & LK' & V'); [lia|].
  exists ns'. split; auto.
  pose proof (fun k => inv_in_c _ _ _ _ _ _ _ k I) as Rng.
  destruct I. constructor; cbn [msorted nonzeros ibeg iend nodes nonlocal]; auto.
  - lia.
  - eapply path_ext; [|exact P]. intros; apply LK'.
  - change (0 :: p1 ++ rel b p :: p2) with ((0 :: p1) ++ rel b p :: p2).
    apply NoDup_Add with (a := rel b p) (l := (0 :: p1) ++ p2); [apply Add_app|]. split; auto.
  - intros k K1 K2. assert (K3 : k <> rel b p). { intros ->. apply K2. right. apply in_elt. }
    assert (K4 : ~ In k (0 :: p1 ++ p2)).
    { intros [H|H]; apply K2; [now left|]. right. apply in_app_iff in H. apply in_app_iff. cbn. tauto. }
    assert (K5 : k < length (nodes s)) by lia.
    specialize (i_out0 k K5 K4). assert (Kl : link_at ns' k = Some Undef /\ val_at ns' k = Some r0).
    { rewrite LK', V'. destruct (Nat.eqb_spec k (rel b p)); [easy|]. rewrite LK; auto.
      - rewrite V. unfold link_at, val_at. rewrite i_out0. auto.
      - intros ->. apply K4. subst i. pose proof (last_in p1 0) as [H|H]; [now left|]. right. apply in_app_iff; auto. }
    destruct Kl as [Q1 Q2]. unfold link_at, val_at in Q1, Q2. destruct (nth_error ns' k) as [[? ?]|]; congruence.
  - intro Q. specialize (HS Q). specialize (i_sort0 Q). destruct HS as [H1 H2].
    clear - i_sort0 H1 H2. induction p1 as [|a p1 IH]; cbn [app] in *.
    + constructor; auto. apply Forall_forall. auto.
    + inversion i_sort0 as [|? ? S1 S2]; subst. constructor.
      * apply IH; auto. intros; apply H1; now right.
      * apply Forall_app in S2. destruct S2. apply Forall_app. split; auto. constructor; auto. apply H1. now left.
  - rewrite i_nz0, !app_length. cbn [length]. lia.
  - rewrite V'. destruct (Nat.eqb_spec 0 (rel b p)); [discriminate|]. now rewrite V.
  - intro q. rewrite i_nlT0. unfold Tadd. split; [tauto|]. intros [[->|H] H']; tauto.
  - intros q Hq. unfold Tadd. rewrite <- i_T0 by auto. rewrite !in_app_iff. cbn [In].
    split; [|intros [->|H]; tauto].
    intros [H|[H|H]]; auto. left. symmetry. eapply rel_inj; eauto.
  - intros q Hq. rewrite V'. unfold fupd. destruct (Nat.eqb_spec (rel b q) (rel b p)) as [E2|E2].
    + apply (rel_inj b e) in E2; auto. subst. now rewrite Nat.eqb_refl.
    + rewrite V, i_v0 by auto. destruct (Nat.eqb_spec q p); [subst; congruence|auto].
  - intros q Hq. unfold fupd. destruct (Nat.eqb_spec q p); [subst; contradiction|auto].
Qed.

(** overwriting the value of a node in the list *)
Lemma setval_ok : forall s b e srt f T c p v, inv s b e srt f T c -> local b e p -> T p ->
  exists ns', set_val (nodes s) (rel b p) v = Some ns' /\
    inv (Mg srt (nonzeros s) b e ns' (nonlocal s)) b e srt (fupd f p v) (Tadd T p) c.
Proof.
  intros s b e srt f T c p v I L HT.
  destruct (set_val_ok (nodes s) (rel b p) v) as (ns' & E & Len & LK & V).
  { rewrite (i_len _ _ _ _ _ _ _ I). unfold rel, local in *. lia. }
  exists ns'. split; auto. destruct I. constructor; cbn [msorted nonzeros ibeg iend nodes nonlocal]; auto.
  - lia.
  - eapply path_ext; [|exact i_path0]. auto.
  - intros k K1 K2. rewrite Len in K1. specialize (i_out0 k K1 K2).
    assert (k <> rel b p). { intros ->. apply K2. right. now apply i_T0. }
    assert (Q1 := LK k). assert (Q2 := V k). destruct (Nat.eqb_spec k (rel b p)); [easy|].
    unfold link_at, val_at in Q1, Q2. rewrite i_out0 in Q1, Q2. destruct (nth_error ns' k) as [[? ?]|]; congruence.
  - rewrite V. destruct (Nat.eqb_spec 0 (rel b p)); [discriminate|auto].
  - intro q. rewrite i_nlT0. unfold Tadd. split; [tauto|]. intros [[->|H] H']; tauto.
  - intros q Hq. rewrite i_T0 by auto. unfold Tadd. split; [tauto|]. intros [->|H]; auto.
  - intros q Hq. rewrite V. unfold fupd. destruct (Nat.eqb_spec (rel b q) (rel b p)) as [E2|E2].
    + apply (rel_inj b e) in E2; auto. subst. now rewrite Nat.eqb_refl.
    + rewrite i_v0 by auto. destruct (Nat.eqb_spec q p); [subst; congruence|auto].
  - intros q Hq. unfold fupd. destruct (Nat.eqb_spec q p); [subst; contradiction|auto].
Qed.

(** non-local columns *)
Lemma map_upd_keys : forall m p g, StronglySorted lt (map fst m) ->
  StronglySorted lt (map fst (map_upd r0 m p g)) /\
  (forall q, In q (map fst (map_upd r0 m p g)) <-> q = p \/ In q (map fst m)).
Proof.
  induction m as [|[k v] m IH]; intros p g H; cbn [map_upd].
  - split; [repeat constructor|]. intro q. cbn. intuition.
  - cbn [map fst] in H. inversion H as [|? ? H1 H2]; subst. destruct (Nat.ltb_spec p k).
    + split; [|intro q; cbn; intuition]. cbn [map fst]. constructor; auto. constructor; auto.
      eapply Forall_impl; [|exact H2]. cbn. intros; lia.
    + destruct (Nat.eqb_spec k p) as [->|].
      * split; [exact H|]. intro q. cbn. intuition.
      * destruct (IH p g H1) as [I1 I2]. split.
        -- cbn [map fst]. constructor; auto. apply Forall_forall. intros q Hq. apply I2 in Hq.
           rewrite Forall_forall in H2. destruct Hq as [->|Hq]; [lia|auto].
        -- intro q. cbn. rewrite I2. intuition.
Qed.
Lemma map_upd_val : forall m p g q, StronglySorted lt (map fst m) ->
  at_row (map_upd r0 m p g) q = if q =? p then g (at_row m p) else at_row m q.
Proof.
  induction m as [|[k v] m IH]; intros p g q H; cbn [map_upd].
  - rewrite total_cons. destruct (Nat.eq_dec p q), (Nat.eqb_spec q p); try congruence. unfold total. cbn. ring.
  - cbn [map fst] in H. inversion H as [|? ? H1 H2]; subst. rewrite Forall_forall in H2.
    assert (NK : at_row m k = r0) by (apply total_absent; intro Q; apply H2 in Q; lia).
    destruct (Nat.ltb_spec p k) as [Hlt|Hge].
    + assert (NP : at_row m p = r0) by (apply total_absent; intro Q; apply H2 in Q; lia).
      rewrite !total_cons. destruct (Nat.eq_dec p q), (Nat.eqb_spec q p); subst; try congruence.
      destruct (Nat.eq_dec k q); [lia|]. rewrite NP. ring.
    + destruct (Nat.eqb_spec k p) as [->|].
      * rewrite !total_cons. destruct (Nat.eq_dec p q), (Nat.eqb_spec q p); subst; try congruence.
        destruct (Nat.eq_dec q q); [|easy]. rewrite NK. replace (v + r0) with v by ring. ring.
      * rewrite !total_cons, IH by auto. destruct (Nat.eq_dec k q), (Nat.eqb_spec q p), (Nat.eq_dec k p); subst; try congruence.
Qed.
Lemma nonlocal_ok : forall s b e srt f T c p g, inv s b e srt f T c -> ~ local b e p ->
  inv (Mg srt (nonzeros s) b e (nodes s) (map_upd r0 (nonlocal s) p g)) b e srt (fupd f p (g (f p))) (Tadd T p) c.
Proof.
  intros s b e srt f T c p g I L. destruct (map_upd_keys (nonlocal s) p g (i_nl _ _ _ _ _ _ _ I)) as [K1 K2].
  pose proof (fun q => map_upd_val (nonlocal s) p g q (i_nl _ _ _ _ _ _ _ I)) as KV.
  destruct I. constructor; cbn [msorted nonzeros ibeg iend nodes nonlocal]; auto.
  - intro q. rewrite K2, i_nlT0. unfold Tadd. split; [|tauto]. intros [->|H]; tauto.
  - intros q Hq. rewrite i_T0 by auto. unfold Tadd. split; [tauto|]. intros [->|H]; [contradiction|auto].
  - intros q Hq. rewrite i_v0 by auto. unfold fupd. destruct (Nat.eqb_spec q p); [subst; contradiction|auto].
  - intros q Hq. rewrite KV. unfold fupd. rewrite !i_vn0 by auto. reflexivity.
Qed.

Lemma fresh_inv : forall b e srt, inv (fresh r0 b e srt) b e srt (fun _ => r0) (fun _ => False) [].
Proof.
  intros b e srt.
  assert (L : length (nodes (fresh r0 b e srt)) = S (e - b)) by (cbn [fresh nodes length]; now rewrite repeat_length).
  constructor; try reflexivity; try exact L.
  - constructor; [intros []|constructor].
  - intros k Hk Hn. rewrite L in Hk. destruct k; [exfalso; apply Hn; now left|].
    cbn [fresh nodes nth_error]. apply nth_error_repeat. lia.
  - intros _. constructor.
  - constructor.
  - intro p. cbn. tauto.
  - intros p [H1 H2]. unfold val_at, rel. cbn [fresh nodes nth_error]. rewrite nth_error_repeat by lia. reflexivity.
Qed.

(** ** Operations *)
Lemma sorted_cons0 : forall s b e f T c, inv s b e true f T c -> StronglySorted lt (0 :: c).
Proof.
  intros s b e f T c I. constructor; [now apply (i_sort _ _ _ _ _ _ _ I)|].
  apply Forall_forall. intros k Hk. now destruct (inv_in_c _ _ _ _ _ _ _ k I Hk).
Qed.

Lemma insert_from_ok : forall s b e srt f T c p pre i post, inv s b e srt f T c -> local b e p -> ~ T p ->
  0 :: c = pre ++ i :: post -> (srt = true -> i < rel b p) -> (srt = false -> i = 0) ->
  exists i' ns c' pre' post', insert_from srt (nodes s) i (rel b p) = Some (i', ns) /\ val_at ns (rel b p) = Some r0 /\
    0 :: c' = pre' ++ i' :: post' /\ (srt = true -> i' < rel b p) /\ (srt = false -> i' = 0) /\
    forall v, exists ns', set_val ns (rel b p) v = Some ns' /\
      inv (Mg srt (S (nonzeros s)) b e ns' (nonlocal s)) b e srt (fupd f p v) (Tadd T p) c'.
Proof.
  intros s b e srt f T c p pre i post I L HT E H1 H2. unfold insert_from.
  destruct srt.
  - specialize (H1 eq_refl).
    assert (Pi : exists c1, c = c1 ++ post /\ i = last c1 0).
    { destruct pre as [|x pre]; cbn [app] in E; injection E as E0 E.
      - exists []. subst. auto.
      - exists (pre ++ [i]). rewrite <- app_assoc. cbn [app]. split; auto. now rewrite last_last. }
    destruct Pi as (c1 & Ec & Ei).
    assert (P : path (nodes s) i post).
    { rewrite Ei. apply path_app. rewrite <- Ec. apply (i_path _ _ _ _ _ _ _ I). }
    assert (SS : StronglySorted lt (i :: post)).
    { pose proof (sorted_cons0 _ _ _ _ _ _ I) as Q. rewrite E in Q. clear - Q. induction pre; auto. inversion Q; auto. }
    assert (Hn : ~ In (rel b p) post).
    { intro Q. apply HT. apply (i_T _ _ _ _ _ _ _ I); auto. rewrite Ec. apply in_app_iff; auto. }
    assert (Lp : length post <= e - b).
    { pose proof (i_nd _ _ _ _ _ _ _ I) as ND. inversion ND as [|? ? N1 N2]; subst x l.
      assert (length c <= e - b).
      { rewrite <- (seq_length (e - b) 1). apply NoDup_incl_length; auto. intros k Hk.
        apply in_seq. pose proof (inv_in_c _ _ _ _ _ _ _ k I Hk). lia. }
      rewrite Ec, app_length in H. lia. }
    destruct (seek_ok (nodes s) (rel b p) post i (S (length (nodes s))) (At i)) as (p1 & p2 & E1 & E2 & B1 & B2); auto.
    { rewrite (i_len _ _ _ _ _ _ _ I). lia. }
    rewrite E2.
    assert (Hl : last p1 i < rel b p).
    { pose proof (last_in p1 i) as [<-|Q]; auto. }
    replace (last p1 i <? rel b p) with true by (symmetry; now apply Nat.ltb_lt).
    assert (Hh : lt_link (rel b p) (hdlink p2) = true).
    { destruct p2 as [|k p2]; auto. cbn [hdlink lt_link]. apply Nat.ltb_lt, B2. now left. }
    rewrite Hh. cbn [andb].
    assert (Ec' : c = (c1 ++ p1) ++ p2) by (rewrite Ec, E1, app_assoc; auto).
    assert (El : last p1 i = last (c1 ++ p1) 0).
    { destruct p1 as [|a p1] using rev_ind; [now rewrite app_nil_r|]. now rewrite app_assoc, !last_last. }
    rewrite Ec' in I. destruct (insert_ok s b e true f T (c1 ++ p1) p2 p (last p1 i) I L HT El) as (ns & F1 & F2 & F3).
    { intros _. split; [|exact B2]. intros k Hk. apply in_app_iff in Hk. destruct Hk as [Hk|Hk]; auto.
      assert (k <= i); [|lia].
      assert (Q := sorted_cons0 _ _ _ _ _ _ I). rewrite <- Ec', Ec in Q.
      rewrite Ei. clear - Q Hk. revert Hk Q. induction c1 as [|x c1 IHc] using rev_ind; intros; [destruct Hk|].
      rewrite last_last. apply in_app_iff in Hk. destruct Hk as [Hk|[->|[]]]; [|lia].
      inversion Q as [|? ? Q1 _]; subst. clear - Hk Q1. rewrite <- app_assoc in Q1. cbn [app] in Q1.
      induction c1 as [|y c1 IHc]; [destruct Hk|]. cbn [app] in Q1. inversion Q1 as [|? ? S1 S2]; subst.
      destruct Hk as [->|Hk]; [|now apply IHc]. rewrite Forall_forall in S2. apply Nat.lt_le_incl, S2. apply in_elt. }
    rewrite F1.
    assert (Sp : exists pre', 0 :: (c1 ++ p1) ++ rel b p :: p2 = pre' ++ last p1 i :: rel b p :: p2).
    { rewrite El. destruct (c1 ++ p1) as [|a q] eqn:Q using rev_ind.
      - exists []. reflexivity.
      - exists (0 :: q). rewrite last_last, <- app_assoc. reflexivity. }
    destruct Sp as (pre' & Sp). exists (last p1 i), ns, ((c1 ++ p1) ++ rel b p :: p2), pre', (rel b p :: p2).
    split; auto. split; auto. split; auto. split; auto. split; [discriminate|]. exact F3.
  - specialize (H2 eq_refl). subst i.
    rewrite (path_link _ _ _ (i_path _ _ _ _ _ _ _ I)).
    destruct (insert_ok s b e false f T [] c p 0 I L HT eq_refl) as (ns & F1 & F2 & F3); [discriminate|].
    rewrite F1. exists 0, ns, (rel b p :: c), [], (rel b p :: c).
    split; [reflexivity|]. split; [exact F2|]. split; [reflexivity|]. split; [discriminate|]. split; [reflexivity|]. exact F3.
Qed.

Lemma merger_eta : forall (s : @merger R) b e srt f T c, inv s b e srt f T c ->
  s = Mg srt (nonzeros s) b e (nodes s) (nonlocal s).
Proof. intros s b e srt f T c I. destruct s. pose proof (i_b _ _ _ _ _ _ _ I). pose proof (i_e _ _ _ _ _ _ _ I). pose proof (i_s _ _ _ _ _ _ _ I). cbn in *. now subst. Qed.

Lemma T_dec : forall s b e srt f T c p, inv s b e srt f T c -> T p \/ ~ T p.
Proof.
  intros s b e srt f T c p I. destruct (local_dec b e p) as [L|L].
  - destruct (in_dec Nat.eq_dec (rel b p) c) as [H|H]; rewrite (i_T _ _ _ _ _ _ _ I) in H; auto.
  - destruct (in_dec Nat.eq_dec p (map fst (nonlocal s))) as [H|H]; rewrite (i_nlT _ _ _ _ _ _ _ I) in H; tauto.
Qed.

Lemma link_T : forall s b e srt f T c p, inv s b e srt f T c -> local b e p ->
  exists l, nth_error (nodes s) (rel b p) = Some (l, f p) /\ (is_undef l = false <-> T p) .
Proof.
  intros s b e srt f T c p I L.
  assert (V := i_v _ _ _ _ _ _ _ I p L). unfold val_at in V. destruct (nth_error (nodes s) (rel b p)) as [[l v]|] eqn:E; [|discriminate].
  injection V as ->. exists l. split; auto. rewrite <- (i_T _ _ _ _ _ _ _ I p L). split.
  - intro U. destruct (in_dec Nat.eq_dec (rel b p) c) as [H|H]; auto. exfalso.
    assert (Q := i_out _ _ _ _ _ _ _ I (rel b p)). rewrite E in Q.
    assert (Some (l, f p) = Some (Undef, r0)).
    { apply Q. - apply nth_error_Some. congruence. - intros [H'|H']; [discriminate|auto]. }
    injection H0 as -> _. discriminate.
  - intro H. destruct (path_member _ _ _ (rel b p) (i_path _ _ _ _ _ _ _ I)) as (l' & E1 & E2); [now right|].
    unfold link_at in E1. rewrite E in E1. congruence.
Qed.

Lemma upd_ok : forall s b e srt f T c p g, inv s b e srt f T c ->
  exists s' c', upd r0 s p g = Some s' /\ inv s' b e srt (fupd f p (g (f p))) (Tadd T p) c'.
Proof.
  intros s b e srt f T c p g I. unfold upd. rewrite (i_b _ _ _ _ _ _ _ I), (i_e _ _ _ _ _ _ _ I), (i_s _ _ _ _ _ _ _ I).
  destruct (local_dec b e p) as [L|L].
  - rewrite (node_local _ _ _ _ _ _ _ _ I L). destruct (link_T _ _ _ _ _ _ _ _ I L) as (l & E & HT).
    unfold link_at at 1. rewrite E. destruct (is_undef l) eqn:U.
    + assert (NT : ~ T p) by (rewrite <- HT; discriminate).
      destruct (insert_from_ok s b e srt f T c p [] 0 c I L NT eq_refl) as (i' & ns & c' & pre' & post' & F1 & F2 & F3 & F4 & F5 & F6).
      { intros _. unfold rel. lia. } { auto. }
      rewrite F1, F2. destruct (F6 (g r0)) as (ns' & G1 & G2). rewrite G1. eexists. exists c'. split; [reflexivity|].
      rewrite (absent_zero _ _ _ _ _ _ _ _ I NT). exact G2.
    + assert (HTp : T p) by now apply HT.
      rewrite (i_v _ _ _ _ _ _ _ I p L). destruct (setval_ok _ _ _ _ _ _ _ p (g (f p)) I L HTp) as (ns' & G1 & G2).
      rewrite G1. eexists. exists c. split; [reflexivity|]. exact G2.
  - rewrite (node_nonlocal _ _ _ _ _ _ _ _ I L). eexists. exists c. split; [reflexivity|]. now apply nonlocal_ok.
Qed.

Lemma get_ok : forall s b e srt f T c p, inv s b e srt f T c ->
  (T p -> get s p = Some (f p)) /\ (~ T p -> get s p = None).
Proof.
  intros s b e srt f T c p I. unfold get. destruct (local_dec b e p) as [L|L].
  - rewrite (node_local _ _ _ _ _ _ _ _ I L). destruct (link_T _ _ _ _ _ _ _ _ I L) as (l & E & HT). rewrite E.
    destruct (is_undef l); split; auto; intro H.
    + apply HT in H. discriminate.
    + exfalso. apply H. now apply HT.
  - rewrite (node_nonlocal _ _ _ _ _ _ _ _ I L).
    assert (HT := i_nlT _ _ _ _ _ _ _ I p). assert (V := i_vn _ _ _ _ _ _ _ I p L).
    assert (ND : NoDup (map fst (nonlocal s))).
    { pose proof (i_nl _ _ _ _ _ _ _ I) as Q. clear - Q. induction Q as [|a l Q IH F]; constructor; auto.
      intro H. rewrite Forall_forall in F. apply F in H. lia. }
    rewrite <- (get_safe_total r0 r1 radd rmul rsub ropp Rth Nat.eq_dec Nat.eqb nat_eqb_spec) in V by auto.
    assert (G := get_at_some (R:=R) Nat.eqb nat_eqb_spec (nonlocal s) p).
    unfold get_safe in V. destruct (get_at Nat.eqb (nonlocal s) p) as [v|] eqn:Q.
    + split; [now subst|]. intro N. exfalso. apply N. apply HT. apply G. eauto.
    + split; auto. intro H. assert (In p (map fst (nonlocal s))) by (apply HT; auto). apply G in H0. destruct H0; discriminate.
Qed.

Definition cols (r : list (nat * R)) : list nat := map fst r.
Definition Tcols (T : nat -> Prop) (r : list (nat * R)) : nat -> Prop := fun q => In q (cols r) \/ T q.

Lemma add_loop_ok : forall r coef s b e srt f T c pre i post, inv s b e srt f T c ->
  (srt = true -> StronglySorted lt (cols r)) ->
  0 :: c = pre ++ i :: post -> (srt = true -> forall p, In p (cols r) -> local b e p -> i < rel b p) -> (srt = false -> i = 0) ->
  exists s' c', add_loop r0 radd rmul s coef i r = Some s' /\
    inv s' b e srt (fun q => f q + coef * at_row r q) (Tcols T r) c'.
Proof.
  induction r as [|[p v] r IH]; intros coef s b e srt f T c pre i post I HS E H1 H2; cbn [add_loop].
  - exists s, c. split; auto. eapply inv_ext; [exact I| |].
    + intro q. unfold total. cbn. ring.
    + intro q. unfold Tcols. cbn. tauto.
  - assert (HS' : srt = true -> StronglySorted lt (cols r)).
    { intro Q. specialize (HS Q). cbn in HS. now inversion HS. }
    assert (HN : next_ok srt p r = true).
    { unfold next_ok. destruct srt; auto. destruct r as [|[k w] r]; auto. specialize (HS eq_refl). cbn in HS.
      inversion HS as [|? ? _ F]; subst. inversion F; subst. now apply Nat.ltb_lt. }
    assert (Nx : forall (q : nat), srt = true -> In q (cols r) -> p < q).
    { intros q Q Hq. specialize (HS Q). cbn in HS. inversion HS as [|? ? _ F]; subst. rewrite Forall_forall in F. auto. }
    rewrite (i_b _ _ _ _ _ _ _ I), (i_e _ _ _ _ _ _ _ I), (i_s _ _ _ _ _ _ _ I), HN.
    assert (Fin : forall s1 c1 pre1 i1 post1, inv s1 b e srt (fupd f p (f p + coef * v)) (Tadd T p) c1 ->
      0 :: c1 = pre1 ++ i1 :: post1 -> (srt = true -> local b e p -> i1 < rel b p) -> 
      (srt = true -> forall p, In p (cols r) -> local b e p -> i1 < rel b p) -> (srt = false -> i1 = 0) ->
      exists s' c', add_loop r0 radd rmul s1 coef i1 r = Some s' /\
        inv s' b e srt (fun q => f q + coef * at_row ((p, v) :: r) q) (Tcols T ((p, v) :: r)) c').
    { intros s1 c1 pre1 i1 post1 I1 E1 G0 G1 G2. destruct (IH coef s1 b e srt _ _ c1 pre1 i1 post1 I1 HS' E1) as (s' & c' & A1 & A2); auto.
      exists s', c'. split; auto. eapply inv_ext; [exact A2| |].
      - intro q. rewrite total_cons. unfold fupd. destruct (Nat.eq_dec p q), (Nat.eqb_spec q p); subst; try congruence; ring.
      - intro q. unfold Tcols, Tadd. cbn. intuition. }
    destruct (local_dec b e p) as [L|L].
    + rewrite (node_local _ _ _ _ _ _ _ _ I L). destruct (link_T _ _ _ _ _ _ _ _ I L) as (l & El & HT). rewrite El.
      assert (Hip : srt = true -> i < rel b p) by (intro Q; apply H1; auto; now left).
      destruct (is_undef l) eqn:U.
      * assert (NT : ~ T p) by (rewrite <- HT; discriminate).
        destruct (insert_from_ok s b e srt f T c p pre i post I L NT E Hip H2) as (i' & ns & c' & pre' & post' & F1 & F2 & F3 & F4 & F5 & F6).
        rewrite F1. destruct (F6 (coef * v)) as (ns' & G1 & G2). rewrite G1.
        eapply Fin; eauto.
        -- eapply inv_ext; [exact G2| |reflexivity]. intro q. unfold fupd. destruct (Nat.eqb_spec q p); auto.
           rewrite (absent_zero _ _ _ _ _ _ _ _ I NT). ring.
        -- intros Q q Hq Lq. specialize (F4 Q). specialize (Nx q Q Hq). unfold rel, local in *. lia.
      * assert (HTp : T p) by now apply HT.
        destruct (setval_ok _ _ _ _ _ _ _ p (f p + coef * v) I L HTp) as (ns' & G1 & G2). rewrite G1.
        eapply Fin; eauto. intros Q q Hq Lq. apply H1; auto. now right.
    + rewrite (node_nonlocal _ _ _ _ _ _ _ _ I L). eapply Fin; eauto.
      * apply (nonlocal_ok _ _ _ _ _ _ _ p (fun x => x + coef * v) I L).
      * intros Q q. contradiction.
      * intros Q q Hq Lq. apply H1; auto. now right.
Qed.

Lemma add_row_ok : forall s b e srt f T c coef r, inv s b e srt f T c -> (srt = true -> StronglySorted lt (cols r)) ->
  exists s' c', add_row r0 radd rmul iszero s coef r = Some s' /\
    inv s' b e srt (fun q => f q + coef * at_row r q) (fun q => (iszero coef = false /\ In q (cols r)) \/ T q) c'.
Proof.
  intros s b e srt f T c coef r I HS. unfold add_row. destruct (iszero coef) eqn:Z.
  - exists s, c. split; auto. apply iszero_spec in Z. subst coef. eapply inv_ext; [exact I| |].
    + intro q. ring.
    + intro q. split; [intros [[H _]|H]|]; auto. discriminate.
  - destruct (add_loop_ok r coef s b e srt f T c [] 0 c I HS eq_refl) as (s' & c' & A1 & A2); auto.
    + intros _ p _ _. unfold rel. lia.
    + exists s', c'. split; auto. eapply inv_ext; [exact A2|reflexivity|]. intro q. unfold Tcols. tauto.
Qed.

Lemma push_loop_ok : forall r coef s b e srt f T c, inv s b e srt f T c ->
  (srt = true -> StronglySorted lt (cols r)) -> NoDup (cols r) -> (forall q, In q (cols r) -> ~ T q) ->
  (srt = true -> forall q k, In q (cols r) -> local b e q -> In k c -> k < rel b q) ->
  exists s' c', push_loop r0 rmul s coef (last c 0) r = Some s' /\
    inv s' b e srt (fun q => f q + coef * at_row r q) (Tcols T r) c'.
Proof.
  induction r as [|[p v] r IH]; intros coef s b e srt f T c I HS ND HT HL; cbn [push_loop].
  - exists s, c. split; auto. eapply inv_ext; [exact I| |].
    + intro q. unfold total. cbn. ring.
    + intro q. unfold Tcols. cbn. tauto.
  - assert (HS' : srt = true -> StronglySorted lt (cols r)).
    { intro Q. specialize (HS Q). cbn in HS. now inversion HS. }
    assert (HN : next_ok srt p r = true).
    { unfold next_ok. destruct srt; auto. destruct r as [|[k w] r]; auto. specialize (HS eq_refl). cbn in HS.
      inversion HS as [|? ? _ F]; subst. inversion F; subst. now apply Nat.ltb_lt. }
    assert (Nx : forall (q : nat), srt = true -> In q (cols r) -> p < q).
    { intros q Q Hq. specialize (HS Q). cbn in HS. inversion HS as [|? ? _ F]; subst. rewrite Forall_forall in F. auto. }
    cbn [cols map fst] in ND. inversion ND as [|? ? N1 N2]; subst.
    assert (NT : ~ T p) by (apply HT; now left).
    rewrite (i_b _ _ _ _ _ _ _ I), (i_e _ _ _ _ _ _ _ I), (i_s _ _ _ _ _ _ _ I), HN.
    assert (Fin : forall s1 c1, inv s1 b e srt (fupd f p (v * coef)) (Tadd T p) c1 ->
      (srt = true -> forall q k, In q (cols r) -> local b e q -> In k c1 -> k < rel b q) ->
      exists s' c', push_loop r0 rmul s1 coef (last c1 0) r = Some s' /\
        inv s' b e srt (fun q => f q + coef * at_row ((p, v) :: r) q) (Tcols T ((p, v) :: r)) c').
    { intros s1 c1 I1 G1. destruct (IH coef s1 b e srt _ _ c1 I1 HS' N2) as (s' & c' & A1 & A2); auto.
      { intros q Hq [->|Hq']; [contradiction|]. apply (HT q); auto. now right. }
      exists s', c'. split; auto. eapply inv_ext; [exact A2| |].
      - intro q. rewrite total_cons. unfold fupd. destruct (Nat.eq_dec p q), (Nat.eqb_spec q p); subst; try congruence; try ring.
        rewrite (absent_zero _ _ _ _ _ _ _ _ I NT). ring.
      - intro q. unfold Tcols, Tadd. cbn. intuition. }
    destruct (local_dec b e p) as [L|L].
    + rewrite (node_local _ _ _ _ _ _ _ _ I L).
      rewrite <- (app_nil_r c) in I. destruct (insert_ok s b e srt f T c [] p (last c 0) I L NT eq_refl) as (ns & F1 & F2 & F3).
      { intro Q. split; [|intros k []]. intros k Hk. apply HL; auto. now left. }
      cbn [hdlink] in F1. rewrite F1. destruct (F3 (v * coef)) as (ns' & G1 & G2). rewrite G1.
      specialize (Fin _ _ G2). rewrite last_last in Fin.
      apply Fin; auto. intros Q q k Hq Lq Hk. apply in_app_iff in Hk. destruct Hk as [Hk|[<-|[]]].
      * apply HL; auto. now right.
      * specialize (Nx q Q Hq). unfold rel, local in *. lia.
    + rewrite (node_nonlocal _ _ _ _ _ _ _ _ I L). apply Fin.
      * apply (nonlocal_ok _ _ _ _ _ _ _ p (fun _ => v * coef) I L).
      * intros Q q k Hq Lq Hk. apply HL; auto. now right.
Qed.

Lemma push_row_ok : forall s b e srt f T c coef r, inv s b e srt f T c -> (forall q, ~ T q) ->
  (srt = true -> StronglySorted lt (cols r)) -> NoDup (cols r) ->
  exists s' c', push_row r0 rmul iszero s coef r = Some s' /\
    inv s' b e srt (fun q => f q + coef * at_row r q) (fun q => (iszero coef = false /\ In q (cols r)) \/ T q) c'.
Proof.
  intros s b e srt f T c coef r I HT HS ND.
  assert (Hc : c = []).
  { destruct c as [|k c]; auto. exfalso. destruct (inv_in_c _ _ _ _ _ _ _ k I) as [K1 K2]; [now left|].
    apply (HT (b + (k - 1))%nat). apply (i_T _ _ _ _ _ _ _ I); [unfold local; lia|]. left. unfold rel. lia. }
  subst c. unfold push_row. rewrite (path_link _ _ _ (i_path _ _ _ _ _ _ _ I)), (i_nz _ _ _ _ _ _ _ I). cbn [hdlink length Nat.eqb].
  destruct (iszero coef) eqn:Z.
  - exists s, []. split; auto. apply iszero_spec in Z. subst coef. eapply inv_ext; [exact I| |].
    + intro q. ring.
    + intro q. split; [intros [[H _]|H]|]; auto. discriminate.
  - destruct (push_loop_ok r coef s b e srt f T [] I HS ND) as (s' & c' & A1 & A2); auto.
    + intros _ q k _ _ [].
    + exists s', c'. split; auto. eapply inv_ext; [exact A2|reflexivity|]. intro q. unfold Tcols. tauto.
Qed.

(** Multiply *)
Lemma mul_loop_ok : forall coef c fuel ns i, path ns i c -> NoDup (i :: c) -> length c <= fuel ->
  exists ns', mul_loop rmul fuel coef ns (hdlink c) = Some ns' /\ length ns' = length ns /\
    (forall k, link_at ns' k = link_at ns k) /\
    (forall k, In k c -> val_at ns' k = option_map (fun v => v * coef) (val_at ns k)) /\
    (forall k, ~ In k c -> nth_error ns' k = nth_error ns k).
Proof.
  intros coef. induction c as [|k c IH]; intros fuel ns i P ND Hf.
  - exists ns. destruct fuel; cbn; split; auto; split; auto; split; auto; split; auto; intros k [].
  - destruct P as [P1 P2]. destruct fuel as [|fuel]; [cbn in Hf; lia|]. cbn [hdlink mul_loop].
    pose proof (path_link _ _ _ P2) as Lk. unfold link_at in Lk. destruct (nth_error ns k) as [[j v]|] eqn:E; [|discriminate].
    injection Lk as ->.
    assert (Kl : k < length ns) by (apply nth_error_Some; congruence).
    assert (LK : forall q, link_at (lset ns k (hdlink c, v * coef)) q = link_at ns q).
    { intro q. rewrite link_at_lset by auto. destruct (Nat.eqb_spec q k); auto. subst. unfold link_at. now rewrite E. }
    inversion ND as [|? ? N1 N2]; subst. inversion N2 as [|? ? N3 N4]; subst.
    destruct (IH fuel (lset ns k (hdlink c, v * coef)) k) as (ns' & A1 & A2 & A3 & A4 & A5); auto.
    { eapply path_ext; [|exact P2]. auto. } { cbn in Hf; lia. }
    exists ns'. split; auto. split; [rewrite A2; apply lset_length|]. split; [intro q; rewrite A3; auto|]. split.
    + intros q [<-|Hq].
      * assert (Q := A5 k N3). unfold val_at. rewrite Q, nth_error_lset_eq, E by auto. reflexivity.
      * rewrite A4 by auto. rewrite val_at_lset by auto. destruct (Nat.eqb_spec q k); [subst; contradiction|auto].
    + intros q Hq. rewrite A5 by (intro; apply Hq; now right). apply nth_error_lset_ne. intros ->. apply Hq. now left.
Qed.

Lemma chain_len : forall s b e srt f T c, inv s b e srt f T c -> length c <= e - b.
Proof.
  intros s b e srt f T c I. pose proof (i_nd _ _ _ _ _ _ _ I) as ND. inversion ND as [|? ? N1 N2]; subst x l.
  rewrite <- (seq_length (e - b) 1). apply NoDup_incl_length; auto. intros k Hk.
  apply in_seq. pose proof (inv_in_c _ _ _ _ _ _ _ k I Hk). lia.
Qed.

Lemma multiply_ok : forall s b e srt f T c coef, inv s b e srt f T c ->
  exists s', multiply rmul s coef = Some s' /\ inv s' b e srt (fun q => f q * coef) T c.
Proof.
  intros s b e srt f T c coef I. unfold multiply.
  rewrite (path_link _ _ _ (i_path _ _ _ _ _ _ _ I)).
  destruct (mul_loop_ok coef c (S (length (nodes s))) (nodes s) 0 (i_path _ _ _ _ _ _ _ I) (i_nd _ _ _ _ _ _ _ I))
    as (ns' & A1 & A2 & A3 & A4 & A5).
  { rewrite (i_len _ _ _ _ _ _ _ I). pose proof (chain_len _ _ _ _ _ _ _ I). lia. }
  rewrite A1. eexists. split; [reflexivity|].
  assert (ND := i_nd _ _ _ _ _ _ _ I). inversion ND as [|? ? N1 N2]; subst x l.
  assert (AZ := fun p => absent_zero _ _ _ _ _ _ _ p I).
  destruct I. constructor; cbn [msorted nonzeros ibeg iend nodes nonlocal]; auto.
  - lia.
  - eapply path_ext; [|exact i_path0]. auto.
  - intros k K1 K2. rewrite A5 by (intro; apply K2; now right). apply i_out0; auto. lia.
  - unfold val_at. now rewrite A5.
  - rewrite map_map. exact i_nl0.
  - intro p. rewrite map_map. apply i_nlT0.
  - intros p L. destruct (in_dec Nat.eq_dec (rel b p) c) as [H|H].
    + rewrite A4, i_v0 by auto. reflexivity.
    + unfold val_at. rewrite A5 by auto. fold (val_at (nodes s) (rel b p)). rewrite i_v0 by auto.
      rewrite AZ. * f_equal. ring. * now rewrite <- i_T0.
  - intros p L. rewrite <- i_vn0 by auto. generalize (nonlocal s). induction l as [|[k v] l IHl]; [unfold total; cbn; ring|].
    cbn [map fst snd]. rewrite !total_cons, IHl. destruct (Nat.eq_dec k p); ring.
Qed.

(** Clear *)
Fixpoint lpath (ns : list (link * R)) (l : link) (c : list nat) : Prop :=
  match c with
  | [] => l = Eol
  | k :: c' => l = At k /\ exists j, link_at ns k = Some j /\ lpath ns j c'
  end.
Lemma path_lpath : forall ns c i, path ns i c -> lpath ns (hdlink c) c.
Proof.
  induction c as [|k c IH]; intros i P; [reflexivity|]. destruct P as [_ P]. split; auto.
  exists (hdlink c). split; [now apply path_link|]. eapply IH; eauto.
Qed.
Lemma lpath_ext : forall ns ns' c l, (forall k, In k c -> link_at ns' k = link_at ns k) -> lpath ns l c -> lpath ns' l c.
Proof.
  induction c as [|k c IH]; intros l E P; auto. destruct P as (-> & j & P1 & P2). split; auto. exists j.
  split; [rewrite E; auto; now left|]. apply IH; auto. intros; apply E; now right.
Qed.
Lemma clear_loop_ok : forall c fuel ns l, lpath ns l c -> NoDup c -> length c <= fuel ->
  exists ns', clear_loop r0 fuel ns l = Some ns' /\ length ns' = length ns /\
    (forall k, In k c -> nth_error ns' k = Some (Undef, r0)) /\
    (forall k, ~ In k c -> nth_error ns' k = nth_error ns k).
Proof.
  induction c as [|k c IH]; intros fuel ns l P ND Hf.
  - cbn in P. subst l. exists ns. destruct fuel; cbn; split; auto; split; auto; split; auto; intros k [].
  - destruct P as (-> & j & P1 & P2). destruct fuel as [|fuel]; [cbn in Hf; lia|]. cbn [clear_loop]. rewrite P1.
    pose proof (link_at_lt _ _ _ P1) as Kl. inversion ND as [|? ? N1 N2]; subst.
    destruct (IH fuel (lset ns k (Undef, r0)) j) as (ns' & A1 & A2 & A3 & A4); auto.
    { eapply lpath_ext; [|exact P2]. intros q Hq. rewrite link_at_lset by auto. destruct (Nat.eqb_spec q k); auto. subst; contradiction. }
    { cbn in Hf; lia. }
    exists ns'. split; auto. split; [rewrite A2; apply lset_length|]. split.
    + intros q [<-|Hq]; auto. rewrite A4 by auto. now apply nth_error_lset_eq.
    + intros q Hq. rewrite A4 by (intro; apply Hq; now right). apply nth_error_lset_ne. intros ->. apply Hq. now left.
Qed.

Lemma clear_ok : forall s b e srt f T c, inv s b e srt f T c -> clear r0 s = Some (fresh r0 b e srt).
Proof.
  intros s b e srt f T c I. unfold clear. rewrite (path_link _ _ _ (i_path _ _ _ _ _ _ _ I)).
  pose proof (i_len _ _ _ _ _ _ _ I) as Len.
  destruct (set_link_ok (nodes s) 0 Eol) as (ns & E & L & LK & V); [lia|]. rewrite E.
  assert (ND := i_nd _ _ _ _ _ _ _ I). inversion ND as [|? ? N1 N2]; subst x l.
  destruct (clear_loop_ok c (S (length ns)) ns (hdlink c)) as (ns' & A1 & A2 & A3 & A4); auto.
  { eapply lpath_ext; [|eapply path_lpath; apply (i_path _ _ _ _ _ _ _ I)]. intros k Hk. rewrite LK.
    destruct (Nat.eqb_spec k 0); auto. subst; contradiction. }
  { pose proof (chain_len _ _ _ _ _ _ _ I). lia. }
  rewrite A1, (i_b _ _ _ _ _ _ _ I), (i_e _ _ _ _ _ _ _ I), (i_s _ _ _ _ _ _ _ I). unfold fresh. f_equal. f_equal.
  apply nth_error_ext. intro k. destruct k as [|k].
  - rewrite A4 by auto. cbn [nth_error]. assert (Q := LK 0). assert (Q2 := V 0). rewrite (i_head _ _ _ _ _ _ _ I) in Q2.
    cbn [Nat.eqb] in Q. unfold link_at, val_at in Q, Q2. cbn [nth_error] in Q, Q2. destruct ns as [|[l v] ns]; [discriminate|]. injection Q as ->. injection Q2 as ->. reflexivity.
  - replace (nth_error ((Eol, r0) :: repeat (Undef, r0) (e - b)) (S k)) with (nth_error (repeat (Undef, r0) (e - b)) k) by reflexivity.
    rewrite nth_error_repeat_if.
    destruct (in_dec Nat.eq_dec (S k) c) as [H|H].
    + rewrite A3 by auto. pose proof (inv_in_c _ _ _ _ _ _ _ _ I H). natcases; try lia; auto.
    + rewrite A4 by auto. destruct (Nat.lt_ge_cases k (e - b)) as [Q|Q].
      * replace (k <? e - b) with true by (symmetry; now apply Nat.ltb_lt).
        assert (O := i_out _ _ _ _ _ _ _ I (S k)). assert (Q1 := LK (S k)). assert (Q2 := V (S k)).
        cbn [Nat.eqb] in Q1. unfold link_at, val_at in Q1, Q2. rewrite O in Q1, Q2.
        -- destruct (nth_error ns (S k)) as [[? ?]|]; congruence.
        -- lia.
        -- intros [H'|H']; [discriminate|auto].
        -- lia.
        -- intros [H'|H']; [discriminate|auto].
      * replace (k <? e - b) with false by (symmetry; now apply Nat.ltb_ge). apply nth_error_None. lia.
Qed.

(** RetrieveRow *)
Definition keep (e : nat * R) : bool := negb (iszero (snd e)).
Lemma retrieve_loop_ok : forall s b e srt f T c0, inv s b e srt f T c0 ->
  forall c fuel l, lpath (nodes s) l c -> length c <= fuel -> incl c c0 ->
  exists r, retrieve_loop iszero fuel s l = Some r /\
    r = filter keep (map (fun k => ((b + k - 1)%nat, f (b + k - 1)%nat)) c).
Proof.
  intros s b e srt f T c0 I. induction c as [|k c IH]; intros fuel l P Hf Hi.
  - cbn in P. subst l. exists []. destruct fuel; auto.
  - destruct P as (-> & j & P1 & P2). destruct fuel as [|fuel]; [cbn in Hf; lia|]. cbn [retrieve_loop].
    destruct (inv_in_c _ _ _ _ _ _ _ k I (Hi k (or_introl eq_refl))) as [K1 K2].
    assert (L : local b e (b + k - 1)) by (unfold local; lia).
    assert (V := i_v _ _ _ _ _ _ _ I _ L). replace (rel b (b + k - 1)) with k in V by (unfold rel; lia).
    unfold link_at in P1. unfold val_at in V. destruct (nth_error (nodes s) k) as [[j' v]|]; [|discriminate].
    injection P1 as ->. injection V as ->.
    destruct (IH fuel j P2) as (r & A1 & A2); [cbn in Hf; lia|intros q Hq; apply Hi; now right|].
    rewrite A1. eexists. split; [reflexivity|]. rewrite (i_b _ _ _ _ _ _ _ I). cbn [map filter]. rewrite <- A2.
    unfold keep at 1. cbn [snd]. destruct (iszero (f (b + k - 1)%nat)); reflexivity.
Qed.

Lemma filter_len : forall A (g : A -> bool) l, length (filter g l) <= length l.
Proof. induction l as [|a l IH]; cbn; [lia|]. destruct (g a); cbn; lia. Qed.

Lemma retrieve_ok : forall s b e srt f T c, inv s b e srt f T c ->
  retrieve iszero s = Some (filter keep (map (fun k => ((b + k - 1)%nat, f (b + k - 1)%nat)) c) ++ filter keep (nonlocal s)).
Proof.
  intros s b e srt f T c I. unfold retrieve. rewrite (path_link _ _ _ (i_path _ _ _ _ _ _ _ I)).
  destruct (retrieve_loop_ok s b e srt f T c I c (S (length (nodes s))) (hdlink c)) as (r & A1 & ->).
  - eapply path_lpath. apply (i_path _ _ _ _ _ _ _ I).
  - rewrite (i_len _ _ _ _ _ _ _ I). pose proof (chain_len _ _ _ _ _ _ _ I). lia.
  - intros q H; exact H.
  - rewrite A1. fold keep.
    set (r := _ ++ _). assert (length r <= nonzeros s + length (nonlocal s))%nat.
    { unfold r. rewrite app_length, (i_nz _ _ _ _ _ _ _ I).
      pose proof (filter_len _ keep (map (fun k => ((b + k - 1)%nat, f (b + k - 1)%nat)) c)) as Q. rewrite map_length in Q.
      pose proof (filter_len _ keep (nonlocal s)). lia. }
    change (filter (fun e0 : nat * R => negb (iszero (snd e0))) (nonlocal s)) with (filter keep (nonlocal s)). fold r.
    replace (length r <=? (nonzeros s + length (nonlocal s))%nat) with true by (symmetry; now apply Nat.leb_le). reflexivity.
Qed.

Lemma total_filter : forall l p, at_row (filter keep l) p = at_row l p.
Proof.
  induction l as [|[k v] l IH]; intro p; auto. cbn [filter]. unfold keep at 1. cbn [snd].
  destruct (iszero v) eqn:Z; cbn [negb]; rewrite !total_cons, ?IH; auto.
  apply iszero_spec in Z. subst. destruct (Nat.eq_dec k p); auto. ring.
Qed.
Lemma total_app : forall l m p, at_row (l ++ m) p = at_row l p + at_row m p.
Proof.
  induction l as [|[k v] l IH]; intros m p; cbn [app]; [unfold total at 2; cbn; ring|].
  rewrite !total_cons, IH. destruct (Nat.eq_dec k p); ring.
Qed.
Lemma total_graph : forall (f : nat -> R) ks p, NoDup ks ->
  at_row (map (fun k => (k, f k)) ks) p = if in_dec Nat.eq_dec p ks then f p else r0.
Proof.
  induction ks as [|k ks IH]; intros p ND; auto. inversion ND as [|? ? N1 N2]; subst. cbn [map].
  rewrite total_cons, IH by auto. destruct (Nat.eq_dec k p) as [->|N].
  - destruct (in_dec Nat.eq_dec p ks); [contradiction|]. destruct (in_dec Nat.eq_dec p (p :: ks)) as [|H]; [ring|]. exfalso; apply H; now left.
  - destruct (in_dec Nat.eq_dec p ks) as [H|H], (in_dec Nat.eq_dec p (k :: ks)) as [H'|H']; auto.
    + exfalso; apply H'; now right.
    + destruct H'; [congruence|contradiction].
Qed.

Definition bool_local (b e p : nat) : bool := (b <=? p) && (p <? e).
Lemma bool_local_spec : forall b e p, bool_local b e p = true <-> local b e p.
Proof. intros. unfold bool_local, local. rewrite andb_true_iff, Nat.leb_le, Nat.ltb_lt. tauto. Qed.

Lemma in_filter_fst : forall l p, In p (map fst (filter keep l)) -> In p (map fst l).
Proof. intros l p H. apply in_map_iff in H. destruct H as (x & <- & H). apply filter_In in H. apply in_map. tauto. Qed.
Lemma nodup_filter_fst : forall l, NoDup (map fst l) -> NoDup (map fst (filter keep l)).
Proof.
  induction l as [|x l IH]; intro H; cbn; [constructor|]. cbn in H. inversion H; subst. destruct (keep x); auto.
  cbn. constructor; auto. intro Q. apply in_filter_fst in Q. contradiction.
Qed.
Lemma sorted_filter_fst : forall l, StronglySorted lt (map fst l) -> StronglySorted lt (map fst (filter keep l)).
Proof.
  induction l as [|x l IH]; intro H; cbn; [constructor|]. cbn in H. inversion H as [|? ? H1 H2]; subst. destruct (keep x); auto.
  cbn. constructor; auto. rewrite Forall_forall in *. intros q Q. apply in_filter_fst in Q. auto.
Qed.

Lemma retrieve_spec : forall s b e srt f T c, inv s b e srt f T c ->
  exists r1 r2, retrieve iszero s = Some (r1 ++ r2) /\
    (forall p, at_row (r1 ++ r2) p = f p) /\ NoDup (map fst (r1 ++ r2)) /\
    (forall x, In x (r1 ++ r2) -> snd x <> r0) /\
    (forall p, In p (map fst r1) -> local b e p) /\ (forall p, In p (map fst r2) -> ~ local b e p) /\
    (srt = true -> StronglySorted lt (map fst r1)) /\ StronglySorted lt (map fst r2).
Proof.
  intros s b e srt f T c I.
  set (ks := map (fun k => (b + k - 1)%nat) c).
  assert (Eks : map (fun k => ((b + k - 1)%nat, f (b + k - 1)%nat)) c = map (fun k => (k, f k)) ks).
  { unfold ks. now rewrite map_map. }
  assert (Inks : forall p, In p ks <-> local b e p /\ T p).
  { intro p. unfold ks. rewrite in_map_iff. split.
    - intros (k & <- & Hk). destruct (inv_in_c _ _ _ _ _ _ _ k I Hk) as [K1 K2].
      assert (L : local b e (b + k - 1)) by (unfold local; lia). split; auto. apply (i_T _ _ _ _ _ _ _ I); auto.
      replace (rel b (b + k - 1)) with k by (unfold rel; lia). auto.
    - intros [L H]. exists (rel b p). split; [unfold rel, local in *; lia|]. now apply (i_T _ _ _ _ _ _ _ I). }
  assert (NDk : NoDup ks).
  { assert (ND := i_nd _ _ _ _ _ _ _ I). inversion ND as [|? ? N1 N2]; subst x l. unfold ks.
    assert (Rp : forall k, In k c -> 0 < k) by (intros k Hk; destruct (inv_in_c _ _ _ _ _ _ _ k I Hk); auto).
    clear - N2 Rp. induction N2 as [|k c N1 N2 IH]; cbn [map]; [constructor|]. constructor.
    - intro H. apply in_map_iff in H. destruct H as (q & E & H). assert (0 < k) by (apply Rp; now left).
      assert (0 < q) by (apply Rp; now right). assert (q = k) by lia. subst. contradiction.
    - apply IH. intros; apply Rp; now right. }
  assert (NDn : NoDup (map fst (nonlocal s))).
  { pose proof (i_nl _ _ _ _ _ _ _ I) as Q. clear - Q. induction Q as [|a l Q IH F]; constructor; auto.
    intro H. rewrite Forall_forall in F. apply F in H. lia. }
  assert (Mk : map fst (map (fun k => (k, f k)) ks) = ks) by (rewrite map_map; apply map_id).
  assert (L1 : forall p, In p (map fst (filter keep (map (fun k => (k, f k)) ks))) -> local b e p).
  { intros p H. apply in_filter_fst in H. rewrite Mk in H. now apply Inks. }
  assert (L2 : forall p, In p (map fst (filter keep (nonlocal s))) -> ~ local b e p).
  { intros p H. apply in_filter_fst in H. now apply (i_nlT _ _ _ _ _ _ _ I) in H. }
  exists (filter keep (map (fun k => (k, f k)) ks)), (filter keep (nonlocal s)).
  split; [rewrite <- Eks; eapply retrieve_ok; eauto|]. split; [|split; [|split; [|split; [|split; [|split]]]]]; auto.
  - intro p. rewrite total_app, !total_filter, total_graph by auto. destruct (local_dec b e p) as [L|L].
    + rewrite (total_absent r0 radd Nat.eq_dec (nonlocal s)) by (rewrite (i_nlT _ _ _ _ _ _ _ I); tauto).
      destruct (in_dec Nat.eq_dec p ks) as [H|H]; [ring|]. rewrite (absent_zero _ _ _ _ _ _ _ p I); [ring|].
      intro Q. apply H, Inks. auto.
    + rewrite (i_vn _ _ _ _ _ _ _ I p L). destruct (in_dec Nat.eq_dec p ks) as [H|H]; [|ring]. apply Inks in H. tauto.
  - rewrite map_app. assert (Q1 := nodup_filter_fst (map (fun k => (k, f k)) ks)). rewrite Mk in Q1. specialize (Q1 NDk).
    assert (Q2 := nodup_filter_fst _ NDn). revert Q1 L1.
    generalize (map fst (filter keep (map (fun k => (k, f k)) ks))). induction l as [|x l IHl]; intros Q1 L1; auto. cbn [app].
    inversion Q1; subst. constructor.
    + intro H. apply in_app_iff in H. destruct H as [H|H]; [contradiction|]. apply L2 in H. apply H, L1. now left.
    + apply IHl; auto. intros; apply L1; now right.
  - intros x H. apply in_app_iff in H. assert (K : keep x = true) by (destruct H as [H|H]; apply filter_In in H; tauto).
    unfold keep in K. intro E. rewrite (proj2 (iszero_spec _) E) in K. discriminate.
  - intro Q. apply sorted_filter_fst. rewrite Mk. unfold ks.
    assert (Rp : forall k, In k c -> 0 < k) by (intros k Hk; destruct (inv_in_c _ _ _ _ _ _ _ k I Hk); auto).
    assert (SS := i_sort _ _ _ _ _ _ _ I Q). clear - SS Rp. induction SS as [|k c SS IH F]; cbn [map]; constructor.
    + apply IH. intros; apply Rp; now right.
    + apply Forall_forall. intros x H. apply in_map_iff in H. destruct H as (q & <- & H).
      rewrite Forall_forall in F. specialize (F q H). assert (0 < k) by (apply Rp; now left). lia.
  - apply sorted_filter_fst. apply (i_nl _ _ _ _ _ _ _ I).
Qed.

Lemma size_spec : forall s b e srt f T c, inv s b e srt f T c -> forall ps, NoDup ps ->
  (forall p, In p ps <-> local b e p /\ T p) -> nonzeros s = length ps.
Proof.
  intros s b e srt f T c I ps ND H. rewrite (i_nz _ _ _ _ _ _ _ I).
  assert (ND' := i_nd _ _ _ _ _ _ _ I). inversion ND' as [|? ? N1 N2]; subst x l.
  rewrite <- (map_length (rel b) ps).
  assert (NDr : NoDup (map (rel b) ps)).
  { assert (L : forall p, In p ps -> local b e p) by (intros p Hp; now apply H). clear H.
    induction ND as [|p ps M1 M2 IH]; cbn [map]; constructor.
    - intro Q. apply in_map_iff in Q. destruct Q as (q & E & Hq). apply (rel_inj b e) in E; [subst; contradiction|apply L; now right|apply L; now left].
    - apply IH. intros; apply L; now right. }
  assert (A : forall k, In k c <-> In k (map (rel b) ps)).
  { intro k. rewrite in_map_iff. split.
    - intro Hk. destruct (inv_in_c _ _ _ _ _ _ _ k I Hk) as [K1 K2]. exists (b + k - 1)%nat.
      assert (rel b (b + k - 1) = k) by (unfold rel; lia). split; auto. apply H.
      assert (L : local b e (b + k - 1)) by (unfold local; lia). split; auto. apply (i_T _ _ _ _ _ _ _ I); auto. congruence.
    - intros (p & <- & Hp). apply H in Hp. now apply (i_T _ _ _ _ _ _ _ I). }
  apply Nat.le_antisymm; apply NoDup_incl_length; auto; intros k Hk; now apply A.
Qed.
End Merger.
