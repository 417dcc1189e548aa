(** Lemmas about the distributed bookkeeping. *)
From Coq Require Import List Bool Arith ZArith Lia Permutation Sorted.
From Verif Require Import Util Algo Par_Model Par_Spec.
Import ListNotations.

(** * Sorting *)
Lemma insert_by_perm : forall key x l, Permutation (insert_by key x l) (x :: l).
Proof.
  intros key x l. induction l as [|y r IH]; cbn [insert_by]; auto.
  destruct (key y <? key x)%Z; auto. rewrite IH. constructor.
Qed.
Lemma sort_by_perm : forall key l, Permutation (sort_by key l) l.
Proof.
  intros key l. induction l as [|x r IH]; cbn [sort_by]; auto. rewrite insert_by_perm. auto.
Qed.
Lemma sort_by_in : forall key l i, In i (sort_by key l) <-> In i l.
Proof.
  intros. split; apply Permutation_in; [|apply Permutation_sym]; apply sort_by_perm.
Qed.
Lemma sort_by_nodup : forall key l, NoDup l -> NoDup (sort_by key l).
Proof. intros. eapply Permutation_NoDup; [|eassumption]. apply Permutation_sym, sort_by_perm. Qed.

Definition le_key (key : nat -> Z) (a b : nat) : Prop := (key a <= key b)%Z.
Lemma insert_by_sorted : forall key x l, StronglySorted (le_key key) l ->
  StronglySorted (le_key key) (insert_by key x l).
Proof.
  intros key x l. induction l as [|y r IH]; intros Hs; cbn [insert_by].
  - repeat constructor.
  - inversion Hs as [|? ? Hr Hy]; subst. destruct (Z.ltb_spec (key y) (key x)).
    + constructor; [auto|]. apply Forall_forall. intros z Hz.
      apply (Permutation_in _ (insert_by_perm key x r)) in Hz. destruct Hz as [<-|Hz].
      * unfold le_key. lia.
      * rewrite Forall_forall in Hy. auto.
    + constructor; [auto|]. constructor; [unfold le_key; lia|].
      eapply Forall_impl; [|exact Hy]. unfold le_key. intros. lia.
Qed.
Lemma sort_by_sorted : forall key l, StronglySorted (le_key key) (sort_by key l).
Proof.
  intros key l. induction l as [|x r IH]; cbn [sort_by]; [constructor|]. apply insert_by_sorted, IH.
Qed.

Lemma strict_keys : forall (key : nat -> Z) l, StronglySorted (le_key key) l -> NoDup (map key l) ->
  StronglySorted Z.lt (map key l).
Proof.
  intros key l. induction l as [|x r IH]; intros Hs Hn; cbn [map]; [constructor|].
  inversion Hs as [|? ? Hr Hx]; subst. inversion Hn as [|? ? Hni Hn']; subst.
  constructor; [auto|]. apply Forall_forall. intros z Hz. pose proof Hz as Hz'.
  apply in_map_iff in Hz as (y & <- & Hy). rewrite Forall_forall in Hx.
  specialize (Hx _ Hy). unfold le_key in Hx.
  destruct (Z.eq_dec (key x) (key y)) as [E|E]; [|lia]. rewrite E in Hni. contradiction.
Qed.

Lemma strict_unique : forall l1 l2, StronglySorted Z.lt l1 -> StronglySorted Z.lt l2 ->
  (forall x, In x l1 <-> In x l2) -> l1 = l2.
Proof.
  induction l1 as [|a r IH]; intros [|b s] H1 H2 H; auto.
  - destruct (proj2 (H b) (or_introl eq_refl)).
  - destruct (proj1 (H a) (or_introl eq_refl)).
  - inversion H1 as [|? ? Hr Ha]; subst. inversion H2 as [|? ? Hs Hb]; subst.
    rewrite Forall_forall in Ha, Hb.
    assert (a = b) as <-.
    { destruct (proj1 (H a) (or_introl eq_refl)) as [E|E]; auto.
      destruct (proj2 (H b) (or_introl eq_refl)) as [E'|E']; auto.
      specialize (Ha _ E'). specialize (Hb _ E). lia. }
    f_equal. apply IH; auto. intros x. split; intros Hx.
    + destruct (proj1 (H x) (or_intror Hx)) as [E|E]; auto. subst. specialize (Ha _ Hx). lia.
    + destruct (proj2 (H x) (or_intror Hx)) as [E|E]; auto. subst. specialize (Hb _ Hx). lia.
Qed.

(** * The exchange lists *)
Lemma indexed_from : forall A (l : list A) k i e,
  In (i, e) (combine (seq k (length l)) l) <-> k <= i /\ nth_error l (i - k) = Some e.
Proof.
  intros A l. induction l as [|x r IH]; intros k i e; cbn [length seq combine In].
  - split; [tauto|]. intros [_ H]. destruct (i - k); discriminate.
  - rewrite IH. split.
    + intros [H|[H1 H2]].
      * injection H as <- <-. split; [lia|]. rewrite Nat.sub_diag. reflexivity.
      * split; [lia|]. replace (i - k) with (S (i - S k)) by lia. exact H2.
    + intros [H1 H2]. destruct (Nat.eq_dec i k) as [->|N].
      * rewrite Nat.sub_diag in H2. cbn in H2. injection H2 as <-. auto.
      * right. split; [lia|]. replace (i - k) with (S (i - S k)) in H2 by lia. exact H2.
Qed.
Lemma in_indexed : forall A (l : list A) i e, In (i, e) (indexed l) <-> nth_error l i = Some e.
Proof. intros. unfold indexed. rewrite indexed_from, Nat.sub_0_r. split; [tauto|]. intros; split; [lia|auto]. Qed.

Lemma indexed_nodup_from : forall A (l : list A) k, NoDup (map fst (combine (seq k (length l)) l)).
Proof.
  intros A l. induction l as [|x r IH]; intros k; cbn [length seq combine map]; [constructor|].
  constructor; [|apply IH]. cbn [fst]. intros H. apply in_map_iff in H as ((i & e) & E & H).
  apply indexed_from in H. cbn in E. lia.
Qed.

Lemma flat_map_nodup : forall A (f : A -> list nat) (g : A -> nat) l,
  (forall x i, In x l -> In i (f x) -> i = g x) -> (forall x, In x l -> length (f x) <= 1) ->
  NoDup (map g l) -> NoDup (flat_map f l).
Proof.
  intros A f g l. induction l as [|x r IH]; intros H1 H2 Hn; cbn [flat_map]; [constructor|].
  cbn [map] in Hn. inversion Hn as [|? ? Hx Hr]; subst.
  assert (NoDup (flat_map f r)) as Hnr by (apply IH; auto; intros; [eapply H1|eapply H2]; auto using in_cons).
  specialize (H2 x (or_introl eq_refl)). pose proof (H1 x) as H1x.
  destruct (f x) as [|i [|]] eqn:Ef; cbn [length] in H2; [exact Hnr| |lia].
  cbn [app]. constructor; auto. intros Hi. apply in_flat_map in Hi as (y & Hy & Hi).
  apply Hx. rewrite <- (H1x i (or_introl eq_refl) (or_introl eq_refl)).
  rewrite (H1 y i (or_intror Hy) Hi). apply in_map, Hy.
Qed.

Lemma filter_eq_len : forall (f : nat -> bool) q l, NoDup l -> (forall v, f v = true -> v = q) ->
  length (filter f l) <= 1.
Proof.
  intros f q l Hn Hf. induction l as [|x r IH]; cbn [filter]; [cbn; lia|].
  inversion Hn as [|? ? Hx Hr]; subst. destruct (f x) eqn:E; [|auto].
  pose proof (Hf _ E) as ->. cbn [length].
  destruct (filter f r) as [|y s] eqn:Es; [cbn; lia|].
  assert (In y (filter f r)) as Hy by (rewrite Es; left; reflexivity).
  apply filter_In in Hy as [Hy Ey]. rewrite (Hf _ Ey) in Hy. contradiction.
Qed.

Lemma in_gather_shared : forall p q l i, In i (gather_shared p q l) <->
  exists e, nth_error l i = Some e /\ estat e = SShared /\ In q (eprocs e) /\ q <> p.
Proof.
  intros p q l i. unfold gather_shared. rewrite in_flat_map. split.
  - intros ((j & e) & Hj & Hi). apply in_indexed in Hj. cbn [fst snd] in Hi.
    unfold is_shared in Hi. destruct (estat e) eqn:Es; try (destruct Hi; fail).
    apply in_map_iff in Hi as (v & -> & Hv). apply filter_In in Hv as [Hv E].
    apply andb_true_iff in E as [E1 E2]. apply Nat.eqb_eq in E1 as ->.
    apply negb_true_iff, Nat.eqb_neq in E2. eauto 6.
  - intros (e & Hi & Hs & Hq & Hp). exists (i, e). split; [apply in_indexed, Hi|].
    cbn [fst snd]. unfold is_shared. rewrite Hs. apply in_map_iff. exists q. split; auto.
    apply filter_In. split; auto. rewrite Nat.eqb_refl. apply Nat.eqb_neq in Hp. rewrite Hp. reflexivity.
Qed.
Lemma gather_shared_nodup : forall p q l,
  (forall i e, nth_error l i = Some e -> estat e = SShared -> NoDup (eprocs e)) ->
  NoDup (gather_shared p q l).
Proof.
  intros p q l H. apply flat_map_nodup with (g := fst).
  - intros (j & e) i Hj Hi. cbn [fst snd] in *. destruct (is_shared e); [|destruct Hi].
    apply in_map_iff in Hi as (v & -> & _). reflexivity.
  - intros (j & e) Hj. apply in_indexed in Hj. cbn [fst snd]. unfold is_shared.
    destruct (estat e) eqn:Es; try (cbn; lia). rewrite map_length.
    apply filter_eq_len with (q := q); [eauto|]. intros v Hv.
    apply andb_true_iff in Hv as [Hv _]. apply Nat.eqb_eq, Hv.
  - apply indexed_nodup_from.
Qed.
Lemma in_gather_ghost : forall o l i, In i (gather_ghost o l) <->
  exists e, nth_error l i = Some e /\ estat e = SGhost /\ eowner e = o.
Proof.
  intros o l i. unfold gather_ghost. rewrite in_flat_map. split.
  - intros ((j & e) & Hj & Hi). apply in_indexed in Hj. cbn [fst snd] in Hi.
    unfold is_ghost in Hi. destruct (estat e) eqn:Es; try (destruct Hi; fail). cbn [andb] in Hi.
    destruct (Nat.eqb_spec (eowner e) o); [|destruct Hi]. destruct Hi as [<-|[]]. eauto.
  - intros (e & Hi & Hs & Ho). exists (i, e). split; [apply in_indexed, Hi|].
    cbn [fst snd]. unfold is_ghost. rewrite Hs, Ho, Nat.eqb_refl. left. reflexivity.
Qed.
Lemma gather_ghost_nodup : forall o l, NoDup (gather_ghost o l).
Proof.
  intros o l. apply flat_map_nodup with (g := fst).
  - intros (j & e) i Hj Hi. cbn [fst snd] in *. destruct (is_ghost e && _); [|destruct Hi].
    destruct Hi as [<-|[]]. reflexivity.
  - intros (j & e) Hj. destruct (_ && _); cbn; lia.
  - apply indexed_nodup_from.
Qed.

Lemma key_inj : forall l i j e f, NoDup (map ekey l) -> nth_error l i = Some e ->
  nth_error l j = Some f -> ekey e = ekey f -> i = j.
Proof.
  intros l i j e f Hn Hi Hj E.
  assert (i < length (map ekey l)) as L.
  { rewrite map_length. apply nth_error_Some. congruence. }
  apply (proj1 (NoDup_nth_error (map ekey l)) Hn i j L).
  rewrite !nth_error_map, Hi, Hj. cbn. congruence.
Qed.
Lemma key_at_some : forall l i e, nth_error l i = Some e -> key_at l i = ekey e.
Proof. intros l i e H. unfold key_at. rewrite H. reflexivity. Qed.

Lemma nodup_keys : forall l idx, NoDup (map ekey l) -> NoDup idx ->
  (forall i, In i idx -> exists e, nth_error l i = Some e) -> NoDup (map (key_at l) idx).
Proof.
  intros l idx Hl. induction idx as [|i r IH]; intros Hn H; cbn [map]; [constructor|].
  inversion Hn as [|? ? Hi Hr]; subst. constructor; [|apply IH; auto using in_cons].
  intros Hin. apply in_map_iff in Hin as (j & E & Hj).
  destruct (H i (or_introl eq_refl)) as (e & He). destruct (H j (or_intror Hj)) as (f & Hf).
  rewrite (key_at_some _ _ _ He), (key_at_some _ _ _ Hf) in E.
  rewrite (key_inj l j i f e Hl Hf He E) in Hj. contradiction.
Qed.

Section Consistent.
Variable w : world.
Hypothesis W : consistent w.

Lemma in_shared_list : forall p q i, In i (shared_list w p q) <->
  exists e, at_ w p i e /\ estat e = SShared /\ In q (eprocs e) /\ q <> p.
Proof. intros. unfold shared_list. rewrite sort_by_in, in_gather_shared. reflexivity. Qed.
Lemma in_ghost_list : forall p o i, In i (ghost_list w p o) <->
  exists e, at_ w p i e /\ estat e = SGhost /\ eowner e = o.
Proof. intros. unfold ghost_list. rewrite sort_by_in, in_gather_ghost. reflexivity. Qed.
Lemma shared_list_nodup : forall p q, NoDup (shared_list w p q).
Proof.
  intros p q. apply sort_by_nodup, gather_shared_nodup.
  intros i e Hi Hs. apply (c_procs w W p i e Hi Hs).
Qed.
Lemma ghost_list_nodup : forall p o, NoDup (ghost_list w p o).
Proof. intros p q. apply sort_by_nodup, gather_ghost_nodup. Qed.

Lemma shared_sorted : forall p q,
  StronglySorted Z.lt (map (key_at (elems w p)) (shared_list w p q)).
Proof.
  intros p q. apply strict_keys; [apply sort_by_sorted|].
  apply nodup_keys; [apply W|apply shared_list_nodup|]. intros i Hi.
  apply in_shared_list in Hi as (e & He & _). eauto.
Qed.
Lemma ghost_sorted : forall p o,
  StronglySorted Z.lt (map (key_at (elems w p)) (ghost_list w p o)).
Proof.
  intros p q. apply strict_keys; [apply sort_by_sorted|].
  apply nodup_keys; [apply W|apply ghost_list_nodup|]. intros i Hi.
  apply in_ghost_list in Hi as (e & He & _). eauto.
Qed.

(** The two ends of a channel list the same elements in the same order *)
Lemma keys_match : forall p q, p <> q ->
  map (key_at (elems w p)) (shared_list w p q) = map (key_at (elems w q)) (ghost_list w q p).
Proof.
  intros p q N. apply strict_unique; [apply shared_sorted|apply ghost_sorted|].
  intros k. rewrite !in_map_iff. split.
  - intros (i & <- & Hi). apply in_shared_list in Hi as (e & He & Hs & Hq & Hp).
    destruct (c_shared w W p i e q He Hs Hq Hp) as (j & f & Hf & Hg & Ho & Hk).
    exists j. rewrite (key_at_some _ _ _ Hf), (key_at_some _ _ _ He). split; auto.
    apply in_ghost_list. eauto.
  - intros (j & <- & Hj). apply in_ghost_list in Hj as (f & Hf & Hg & Ho).
    destruct (c_ghost w W q j f Hf Hg) as (i & e & He & Hs & Hk & Hq). rewrite Ho in He.
    exists i. rewrite (key_at_some _ _ _ Hf), (key_at_some _ _ _ He). split; auto.
    apply in_shared_list. eauto.
Qed.

Lemma match_at : forall p q i e j f, p <> q -> at_ w p i e -> at_ w q j f -> ekey e = ekey f ->
  In i (shared_list w p q) ->
  exists n, nth_error (shared_list w p q) n = Some i /\ nth_error (ghost_list w q p) n = Some j.
Proof.
  intros p q i e j f N Hi Hj E H. apply In_nth_error in H as (n & Hn). exists n. split; auto.
  pose proof (keys_match p q N) as M. apply (f_equal (fun l => nth_error l n)) in M.
  rewrite !nth_error_map, Hn in M. cbn in M. rewrite (key_at_some _ _ _ Hi) in M.
  destruct (nth_error (ghost_list w q p) n) as [j'|] eqn:Ej; [|discriminate]. cbn in M.
  injection M as M. assert (In j' (ghost_list w q p)) as Hin by (eapply nth_error_In, Ej).
  apply in_ghost_list in Hin as (f' & Hf' & _). rewrite (key_at_some _ _ _ Hf') in M.
  f_equal. eapply (key_inj (elems w q) j' j); [apply W|exact Hf'|exact Hj|congruence].
Qed.
End Consistent.

(** * Unpacking *)
Lemma upd_same : forall D (d : nat -> option D) i v, upd d i v i = v.
Proof. intros. unfold upd. rewrite Nat.eqb_refl. reflexivity. Qed.
Lemma upd_other : forall D (d : nat -> option D) i v j, j <> i -> upd d i v j = d j.
Proof. intros. unfold upd. apply Nat.eqb_neq in H. rewrite H. reflexivity. Qed.

Lemma unpack_out : forall D op (msg : list (option D)) to d i, ~ In i to -> unpack op msg to d i = d i.
Proof.
  intros D op msg. induction msg as [|m r IH]; intros [|t to] d i H; cbn [unpack]; auto.
  rewrite IH by (intros X; apply H; right; exact X). destruct m; auto.
  apply upd_other. intros ->. apply H. left. reflexivity.
Qed.
Lemma unpack_at : forall D op (msg : list (option D)) to d i n m, NoDup to ->
  nth_error to n = Some i -> nth_error msg n = Some m ->
  unpack op msg to d i = match m with Some x => op (d i) x | None => d i end.
Proof.
  intros D op msg. induction msg as [|m0 r IH]; intros [|t to] d i n m Hn Hi Hm;
    try (destruct n; discriminate).
  inversion Hn as [|? ? Ht Hto]; subst. cbn [unpack]. destruct n as [|n]; cbn in Hi, Hm.
  - injection Hi as ->. injection Hm as ->. rewrite unpack_out by exact Ht.
    destruct m; auto. apply upd_same.
  - rewrite (IH to _ i n m Hto Hi Hm).
    assert (i <> t) as N by (intros ->; apply Ht; eapply nth_error_In, Hi).
    destruct m0; auto. rewrite upd_other by exact N. reflexivity.
Qed.

Lemma fold_unpack : forall D op (msg : nat -> list (option D)) to (g : nat -> option D -> option D) i L d,
  (forall p dq, In p L -> unpack op (msg p) (to p) dq i = g p (dq i)) ->
  fold_left (fun dq p => unpack op (msg p) (to p) dq) L d i = fold_left (fun acc p => g p acc) L (d i).
Proof.
  intros D op msg to g i L. induction L as [|p r IH]; intros d H; cbn [fold_left]; auto.
  rewrite IH by auto using in_cons. rewrite H by (left; reflexivity). reflexivity.
Qed.

Lemma fold_id : forall A B (L : list A) (g : A -> B -> B) b, (forall p x, In p L -> g p x = x) ->
  fold_left (fun acc p => g p acc) L b = b.
Proof.
  intros A B L g. induction L as [|p r IH]; intros b H; cbn [fold_left]; auto.
  rewrite H by (left; reflexivity). apply IH. auto using in_cons.
Qed.
Lemma fold_once : forall B (L : list nat) (g : nat -> B -> B) o b, NoDup L -> In o L ->
  (forall p x, In p L -> p <> o -> g p x = x) -> fold_left (fun acc p => g p acc) L b = g o b.
Proof.
  intros B L g o. induction L as [|p r IH]; intros b Hn Ho H; [destruct Ho|].
  inversion Hn as [|? ? Hp Hr]; subst. cbn [fold_left]. destruct Ho as [->|Ho].
  - apply fold_id. intros p x Hpr. apply H; [right; auto|]. intros ->. contradiction.
  - assert (p <> o) as N by (intros ->; contradiction).
    rewrite (H p b (or_introl eq_refl) N). apply IH; auto using in_cons.
Qed.
Lemma fold_filter : forall B (L : list nat) (s : nat -> bool) (g : nat -> B -> B) b,
  fold_left (fun acc p => if s p then g p acc else acc) L b
  = fold_left (fun acc p => g p acc) (filter s L) b.
Proof.
  intros B L s g. induction L as [|p r IH]; intros b; cbn [fold_left filter]; auto.
  destruct (s p); cbn [fold_left]; apply IH.
Qed.
Lemma fold_ext_in : forall A B (L : list A) (g h : B -> A -> B) b,
  (forall p x, In p L -> g x p = h x p) -> fold_left g L b = fold_left h L b.
Proof.
  intros A B L g h. induction L as [|p r IH]; intros b H; cbn [fold_left]; auto.
  rewrite H by (left; reflexivity). apply IH. auto using in_cons.
Qed.
Lemma fold_perm : forall A B (g : A -> B -> B) L L', Permutation L L' ->
  (forall p q x, g p (g q x) = g q (g p x)) ->
  forall b, fold_left (fun acc p => g p acc) L b = fold_left (fun acc p => g p acc) L' b.
Proof.
  intros A B g L L' P H. induction P; intros b; cbn [fold_left]; auto.
  - rewrite H. reflexivity.
  - rewrite IHP1. apply IHP2.
Qed.

Section Exchange.
Variable w : world.
Hypothesis W : consistent w.
Variable order : nat -> list nat.
Hypothesis O : arrivals w order.

Lemma in_world : forall p i e, at_ w p i e -> p < length w.
Proof.
  intros p i e H. unfold at_, elems in H. destruct (Nat.lt_ge_cases p (length w)); auto.
  rewrite nth_overflow in H by auto. destruct i; discriminate.
Qed.

(** ** Exchange *)
Lemma exchange_ghost : forall D (d : nat -> nat -> option D) q j f i e,
  at_ w q j f -> estat f = SGhost -> at_ w (eowner f) i e -> ekey e = ekey f ->
  ExchangeData w order d q j = match d (eowner f) i with Some x => Some x | None => d q j end.
Proof.
  intros D d q j f i e Hf Hg He Hk. unfold ExchangeData, exchange.
  destruct (c_owner w W q j f Hf Hg) as [Lo No].
  destruct (O q (in_world _ _ _ Hf)) as [On Oi].
  rewrite (fold_unpack D (fun _ x => Some x) (fun p => map (d p) (shared_list w p q)) (ghost_list w q)
    (fun p acc => if p =? eowner f then match d (eowner f) i with Some x => Some x | None => acc end else acc)).
  - rewrite (fold_once _ (order q) (fun p acc => if p =? eowner f then _ else acc) (eowner f)); auto.
    + rewrite Nat.eqb_refl. reflexivity.
    + apply Oi. split; auto.
    + intros p x _ N. apply Nat.eqb_neq in N. rewrite N. reflexivity.
  - intros p dq Hp. apply Oi in Hp as [Lp Np].
    destruct (Nat.eqb_spec p (eowner f)) as [->|N].
    + destruct (c_ghost w W q j f Hf Hg) as (i' & e' & He' & Hs' & Hk' & Hq').
      assert (i' = i) as ->.
      { eapply (key_inj (elems w (eowner f)) i' i); [apply W|exact He'|exact He|congruence]. }
      assert (e' = e) as -> by (unfold at_ in *; congruence).
      destruct (match_at w W (eowner f) q i e j f Np He Hf Hk) as (n & H1 & H2).
      { apply in_shared_list. eauto. }
      rewrite (unpack_at _ _ _ (ghost_list w q (eowner f)) dq j n (d (eowner f) i)).
      * destruct (d (eowner f) i); reflexivity.
      * apply ghost_list_nodup.
      * exact H2.
      * rewrite nth_error_map, H1. reflexivity.
    + rewrite unpack_out; auto. intros H. apply in_ghost_list in H as (f' & Hf' & _ & Ho).
      unfold at_ in *. congruence.
Qed.
Lemma exchange_other : forall D (d : nat -> nat -> option D) q j,
  (forall f, at_ w q j f -> estat f <> SGhost) -> ExchangeData w order d q j = d q j.
Proof.
  intros D d q j H. unfold ExchangeData, exchange.
  rewrite (fold_unpack D (fun _ x => Some x) (fun p => map (d p) (shared_list w p q)) (ghost_list w q)
    (fun p acc => acc)).
  - apply (fold_id _ _ (order q) (fun p acc => acc)). auto.
  - intros p dq _. apply unpack_out. intros Hi. apply in_ghost_list in Hi as (f & Hf & Hg & _).
    apply (H f Hf Hg).
Qed.

(** ** Reduction *)
Definition from_copy {D} (op : option D -> D -> option D) (d : nat -> nat -> option D) (c : nat -> nat)
    (acc : option D) (q : nat) : option D :=
  match d q (c q) with Some x => op acc x | None => acc end.

Lemma mem_others : forall p e q, existsb (Nat.eqb q) (others p e) = true <-> In q (eprocs e) /\ q <> p.
Proof.
  intros p e q. rewrite existsb_exists. unfold others. split.
  - intros (x & Hx & E). apply Nat.eqb_eq in E as <-. apply filter_In in Hx as [H1 H2].
    apply negb_true_iff, Nat.eqb_neq in H2. auto.
  - intros [H1 H2]. exists q. rewrite Nat.eqb_refl. split; auto. apply filter_In. split; auto.
    apply Nat.eqb_neq in H2. rewrite H2. reflexivity.
Qed.
Lemma in_others : forall p e q, In q (others p e) <-> In q (eprocs e) /\ q <> p.
Proof.
  intros p e q. unfold others. rewrite filter_In, negb_true_iff, Nat.eqb_neq. reflexivity.
Qed.

Lemma reduce_shared : forall D op (d : nat -> nat -> option D) p i e c,
  at_ w p i e -> estat e = SShared -> copies_of w p e c ->
  ReduceData op w order d p i
  = fold_left (from_copy op d c) (filter (fun q => existsb (Nat.eqb q) (others p e)) (order p)) (d p i).
Proof.
  intros D op d p i e c He Hs Hc. unfold ReduceData, exchange.
  destruct (O p (in_world _ _ _ He)) as [On Oi].
  rewrite (fold_unpack D op (fun q => map (d q) (ghost_list w q p)) (shared_list w p)
    (fun q acc => if existsb (Nat.eqb q) (others p e) then from_copy op d c acc q else acc)).
  - rewrite (fold_filter _ (order p) (fun q => existsb (Nat.eqb q) (others p e))
      (fun q acc => from_copy op d c acc q)). reflexivity.
  - intros q dq Hq. apply Oi in Hq as [Lq Nq].
    destruct (existsb (Nat.eqb q) (others p e)) eqn:E.
    + apply mem_others in E as [Hin Np]. unfold from_copy.
      destruct (Hc q) as (f & Hf & Hk); [apply in_others; auto|].
      destruct (match_at w W p q i e (c q) f (not_eq_sym Nq) He Hf (eq_sym Hk)) as (n & H1 & H2).
      { apply in_shared_list. eauto. }
      rewrite (unpack_at _ op _ (shared_list w p q) dq i n (d q (c q))); auto.
      * apply shared_list_nodup, W.
      * rewrite nth_error_map, H2. reflexivity.
    + apply unpack_out. intros H. apply in_shared_list in H as (e' & He' & _ & Hin & Np).
      assert (e' = e) as -> by (unfold at_ in *; congruence).
      rewrite (proj2 (mem_others p e q) (conj Hin Np)) in E. discriminate.
Qed.
Lemma reduce_other : forall D op (d : nat -> nat -> option D) p i,
  (forall e, at_ w p i e -> estat e <> SShared) -> ReduceData op w order d p i = d p i.
Proof.
  intros D op d q j H. unfold ReduceData, exchange.
  rewrite (fold_unpack D op (fun p => map (d p) (ghost_list w p q)) (shared_list w q)
    (fun p acc => acc)).
  - apply (fold_id _ _ (order q) (fun p acc => acc)). auto.
  - intros p dq _. apply unpack_out. intros Hi. apply in_shared_list in Hi as (f & Hf & Hg & _).
    apply (H f Hf Hg).
Qed.

Lemma order_others : forall p i e, at_ w p i e -> estat e = SShared ->
  Permutation (filter (fun q => existsb (Nat.eqb q) (others p e)) (order p)) (others p e).
Proof.
  intros p i e He Hs. destruct (c_procs w W p i e He Hs) as [Np Lp].
  destruct (O p (in_world _ _ _ He)) as [On Oi]. apply NoDup_Permutation.
  - apply NoDup_filter, On.
  - apply NoDup_filter, Np.
  - intros q. rewrite filter_In, mem_others, in_others, Oi. intuition.
Qed.
Lemma copies_exist : forall p i e, at_ w p i e -> estat e = SShared -> exists c, copies_of w p e c.
Proof.
  intros p i e He Hs. unfold copies_of.
  assert (forall L, (forall q, In q L -> In q (others p e)) -> exists c : nat -> nat,
    forall q, In q L -> exists f, at_ w q (c q) f /\ ekey f = ekey e) as G.
  { induction L as [|q r IH]; intros H; [exists (fun _ => 0); intros q []|].
    destruct IH as (c & Hc); [auto using in_cons|].
    pose proof (H q (or_introl eq_refl)) as Hq. apply in_others in Hq as [Hq Nq].
    destruct (c_shared w W p i e q He Hs Hq Nq) as (j & f & Hf & _ & _ & Hk).
    exists (fun x => if x =? q then j else c x). intros x [<-|Hx].
    - rewrite Nat.eqb_refl. eauto.
    - destruct (Nat.eqb_spec x q) as [->|]; eauto. }
  apply G. auto.
Qed.
End Exchange.

(** * Markers *)
Section Sync.
Variable w : world.
Hypothesis W : consistent w.

Lemma ghost_at_true : forall p i, ghost_at w p i = true <-> exists e, at_ w p i e /\ estat e = SGhost.
Proof.
  intros p i. unfold ghost_at, status_at, at_. destruct (nth_error (elems w p) i) as [e|]; cbn.
  - split; [|intros (e' & E & H); injection E as <-; rewrite H; reflexivity].
    destruct (estat e) eqn:E; try discriminate. eauto.
  - split; [discriminate|]. intros (e & E & _). discriminate.
Qed.
Lemma shared_at_true : forall p i, shared_at w p i = true <-> exists e, at_ w p i e /\ estat e = SShared.
Proof.
  intros p i. unfold shared_at, status_at, at_. destruct (nth_error (elems w p) i) as [e|]; cbn.
  - split; [|intros (e' & E & H); injection E as <-; rewrite H; reflexivity].
    destruct (estat e) eqn:E; try discriminate. eauto.
  - split; [discriminate|]. intros (e & E & _). discriminate.
Qed.
Lemma stat_ghost : forall p i e, at_ w p i e -> estat e = SGhost ->
  ghost_at w p i = true /\ shared_at w p i = false /\ own_at w p i = false.
Proof. intros p i e H E. unfold ghost_at, shared_at, own_at, status_at. rewrite H. cbn. rewrite E. auto. Qed.
Lemma stat_shared : forall p i e, at_ w p i e -> estat e = SShared ->
  ghost_at w p i = false /\ shared_at w p i = true /\ own_at w p i = false.
Proof. intros p i e H E. unfold ghost_at, shared_at, own_at, status_at. rewrite H. cbn. rewrite E. auto. Qed.

Lemma copy_ghost : forall p i e c q, at_ w p i e -> estat e = SShared -> copies_of w p e c ->
  In q (others p e) -> exists f, at_ w q (c q) f /\ estat f = SGhost /\ eowner f = p /\ ekey f = ekey e.
Proof.
  intros p i e c q He Hs Hc Hq. destruct (Hc q Hq) as (f & Hf & Hk).
  apply in_others in Hq as [Hq Nq].
  destruct (c_shared w W p i e q He Hs Hq Nq) as (j & f' & Hf' & Hg & Ho & Hk').
  assert (j = c q) as -> by (eapply (key_inj (elems w q)); [apply W|exact Hf'|exact Hf|congruence]).
  assert (f' = f) as -> by (unfold at_ in *; congruence). eauto.
Qed.

Definition bit (o : option Z) : bool := have o && negb (bulk o =? 0)%Z.
Definition tri (o : option Z) : Prop := o = None \/ o = Some 0%Z \/ o = Some 1%Z.
Definition of_mark (b : bool) : option Z := if b then Some 1%Z else None.

Lemma fold_or : forall L acc (m : nat -> bool),
  have (fold_left (fun a q => match of_mark (m q) with Some x => op_or a x | None => a end) L acc)
  = have acc || existsb m L.
Proof.
  induction L as [|q r IH]; intros acc m; cbn [fold_left existsb]; [rewrite orb_false_r; reflexivity|].
  rewrite IH. destruct (m q); cbn; destruct (have acc), (existsb m r); reflexivity.
Qed.
Lemma fold_xor : forall L acc (m : nat -> bool), tri acc ->
  let r := fold_left (fun a q => match of_mark (m q) with Some x => op_xor a x | None => a end) L acc in
  tri r /\ bit r = fold_right xorb (bit acc) (map m L) /\ have r = have acc || existsb m L.
Proof.
  induction L as [|q r IH]; intros acc m H; cbn [fold_left map fold_right existsb].
  - rewrite orb_false_r. auto.
  - cbv zeta in IH. cbn zeta. destruct (m q); cbn [of_mark].
    + destruct (IH (op_xor acc 1%Z) m) as (I1 & I2 & I3).
      { unfold op_xor, tri. destruct H as [->|[->| ->]]; cbn; auto. }
      split; auto. rewrite I2, I3. split.
      * assert (bit (op_xor acc 1%Z) = negb (bit acc)) as ->.
        { destruct H as [->|[->| ->]]; reflexivity. }
        clear. generalize (map m r) (bit acc). induction l as [|x l IH]; intros b; cbn [fold_right].
        { destruct b; reflexivity. }
        rewrite IH. destruct x, b; cbn; destruct (fold_right xorb _ l); reflexivity.
      * cbn. destruct (have acc); reflexivity.
    + destruct (IH acc m H) as (I1 & I2 & I3). split; auto. rewrite I2, I3. split.
      * destruct (fold_right xorb _ _); reflexivity.
      * cbn. reflexivity.
Qed.
Lemma fold_and : forall L acc (m : nat -> bool), tri acc ->
  let r := fold_left (fun a q => match of_mark (m q) with Some x => op_and a x | None => a end) L acc in
  tri r /\ bit r = bit acc /\ have r = have acc || existsb m L.
Proof.
  induction L as [|q r IH]; intros acc m H; cbn [fold_left existsb].
  - rewrite orb_false_r. auto.
  - cbv zeta in IH. cbn zeta. destruct (m q); cbn [of_mark].
    + destruct (IH (op_and acc 1%Z) m) as (I1 & I2 & I3).
      { unfold op_and, tri. destruct H as [->|[->| ->]]; cbn; auto. }
      split; auto. rewrite I2, I3. split.
      * destruct H as [->|[->| ->]]; reflexivity.
      * cbn. destruct (have acc); reflexivity.
    + destruct (IH acc m H) as (I1 & I2 & I3). auto.
Qed.

Lemma existsb_perm : forall (m : nat -> bool) L L', Permutation L L' -> existsb m L = existsb m L'.
Proof.
  intros m L L' P. induction P; cbn [existsb]; auto.
  - rewrite IHP. reflexivity.
  - rewrite !orb_assoc, (orb_comm (m y)). reflexivity.
  - congruence.
Qed.
Lemma xorb_perm : forall b L L', Permutation L L' -> fold_right xorb b L = fold_right xorb b L'.
Proof.
  intros b L L' P. induction P; cbn [fold_right]; auto.
  - rewrite IHP. reflexivity.
  - rewrite <- !xorb_assoc, (xorb_comm y). reflexivity.
  - congruence.
Qed.

Section Ops.
Variables ord1 ord2 : nat -> list nat.
Hypothesis O1 : arrivals w ord1.
Hypothesis O2 : arrivals w ord2.
Variable mark : nat -> nat -> bool.

(** The temporary tag on a shared element and on its copies *)
Lemma tag_shared : forall op p i e, at_ w p i e -> estat e = SShared ->
  sync_tag w op mark p i = of_mark (mark p i).
Proof.
  intros op p i e He Hs. unfold sync_tag. destruct (stat_shared _ _ _ He Hs) as (-> & -> & _).
  cbn. rewrite andb_true_r. destruct (mark p i); reflexivity.
Qed.
Lemma tag_ghost : forall op q j f, at_ w q j f -> estat f = SGhost ->
  sync_tag w op mark q j = match op with SYNC_SET => None | _ => of_mark (mark q j) end.
Proof.
  intros op p i e He Hs. unfold sync_tag. destruct (stat_ghost _ _ _ He Hs) as (-> & -> & _).
  destruct op; cbn; rewrite ?andb_false_r, ?andb_true_r; reflexivity.
Qed.

Lemma reduced : forall op sop p i e c, sop <> SYNC_SET -> at_ w p i e -> estat e = SShared ->
  copies_of w p e c ->
  exists L, Permutation L (others p e) /\
  ReduceData op w ord1 (sync_tag w sop mark) p i
  = fold_left (fun a q => match of_mark (mark q (c q)) with Some x => op a x | None => a end) L
      (of_mark (mark p i)).
Proof.
  intros op sop p i e c Ns He Hs Hc.
  exists (filter (fun q => existsb (Nat.eqb q) (others p e)) (ord1 p)).
  assert (Permutation (filter (fun q => existsb (Nat.eqb q) (others p e)) (ord1 p)) (others p e)) as P
    by (eapply order_others; eauto).
  split; auto. rewrite (reduce_shared w W ord1 O1 _ op _ p i e c He Hs Hc).
  rewrite (tag_shared sop p i e He Hs). apply fold_ext_in. intros q a Hq.
  apply (Permutation_in _ P) in Hq. destruct (copy_ghost p i e c q He Hs Hc Hq) as (f & Hf & Hg & _).
  unfold from_copy. rewrite (tag_ghost sop q (c q) f Hf Hg). destruct sop; congruence.
Qed.

(** The tag on a copy after the exchange *)
Lemma exchanged_copy : forall op sop p i e c q, sop <> SYNC_SET -> at_ w p i e -> estat e = SShared ->
  copies_of w p e c -> In q (others p e) ->
  ExchangeData w ord2 (ReduceData op w ord1 (sync_tag w sop mark)) q (c q)
  = match ReduceData op w ord1 (sync_tag w sop mark) p i with
    | Some x => Some x | None => of_mark (mark q (c q)) end.
Proof.
  intros op sop p i e c q Ns He Hs Hc Hq.
  destruct (copy_ghost p i e c q He Hs Hc Hq) as (f & Hf & Hg & Ho & Hk). subst p.
  rewrite (exchange_ghost w W ord2 O2 _ _ q (c q) f i e Hf Hg He (eq_sym Hk)).
  destruct (ReduceData op w ord1 (sync_tag w sop mark) (eowner f) i); auto.
  rewrite reduce_other.
  - rewrite (tag_ghost sop _ _ f Hf Hg). destruct sop; congruence.
  - intros e' He' E. unfold at_ in *. congruence.
Qed.
Lemma exchanged_shared : forall op sop p i e, at_ w p i e -> estat e = SShared ->
  ExchangeData w ord2 (ReduceData op w ord1 (sync_tag w sop mark)) p i
  = ReduceData op w ord1 (sync_tag w sop mark) p i.
Proof.
  intros op sop p i e He Hs. apply exchange_other.
  intros f Hf E. unfold at_ in *. congruence.
Qed.

Lemma sync_or_ok : forall p i e c, at_ w p i e -> estat e = SShared -> copies_of w p e c ->
  let m' := SynchronizeMarker w SYNC_OR ord1 ord2 mark in
  let b := mark p i || existsb (fun q => mark q (c q)) (others p e) in
  m' p i = b /\ forall q, In q (others p e) -> m' q (c q) = b.
Proof.
  intros p i e c He Hs Hc m' b. unfold m', SynchronizeMarker. cbv zeta.
  destruct (reduced op_or SYNC_OR p i e c) as (L & P & HR); auto; try discriminate.
  assert (have (ReduceData op_or w ord1 (sync_tag w SYNC_OR mark) p i) = b) as HB.
  { rewrite HR, fold_or, (existsb_perm _ _ _ P). unfold b. destruct (mark p i); reflexivity. }
  destruct (stat_shared _ _ _ He Hs) as (S1 & S2 & _). split.
  - rewrite S1, S2. cbn [orb]. rewrite (exchanged_shared _ _ _ _ _ He Hs), HB. unfold b.
    destruct (mark p i); cbn; auto. destruct (existsb _ _); reflexivity.
  - intros q Hq. destruct (copy_ghost p i e c q He Hs Hc Hq) as (f & Hf & Hg & _).
    destruct (stat_ghost _ _ _ Hf Hg) as (-> & -> & _). cbn [orb].
    rewrite (exchanged_copy op_or SYNC_OR p i e c q) by (auto; discriminate).
    destruct (ReduceData op_or w ord1 (sync_tag w SYNC_OR mark) p i) as [x|]; cbn [have] in HB.
    + rewrite <- HB. cbn [have]. destruct (mark q (c q)); reflexivity.
    + assert (mark q (c q) = false) as E.
      { destruct (mark q (c q)) eqn:E; auto. symmetry in HB. unfold b in HB.
        apply orb_false_iff in HB as [_ HB].
        assert (existsb (fun q => mark q (c q)) (others p e) = true) by (apply existsb_exists; eauto).
        congruence. }
      rewrite E. cbn. exact HB.
Qed.
Lemma bit_ok : forall (F : option Z -> Z -> option Z) sop p i e c b,
  sop = SYNC_XOR \/ sop = SYNC_AND -> F = match sop with SYNC_XOR => op_xor | _ => op_and end ->
  at_ w p i e -> estat e = SShared -> copies_of w p e c ->
  bit (ReduceData F w ord1 (sync_tag w sop mark) p i) = b ->
  have (ReduceData F w ord1 (sync_tag w sop mark) p i)
    = mark p i || existsb (fun q => mark q (c q)) (others p e) ->
  let m' := SynchronizeMarker w sop ord1 ord2 mark in
  m' p i = b /\ forall q, In q (others p e) -> m' q (c q) = b.
Proof.
  intros F sop p i e c b Hop HF He Hs Hc HB HH.
  assert (sop <> SYNC_SET) as Ns by (intros ->; destruct Hop; discriminate).
  destruct (stat_shared _ _ _ He Hs) as (S1 & S2 & _).
  assert (forall q j, SynchronizeMarker w sop ord1 ord2 mark q j =
    if ghost_at w q j || shared_at w q j
    then bit (ExchangeData w ord2 (ReduceData F w ord1 (sync_tag w sop mark)) q j) else mark q j) as E.
  { intros q j. subst F. destruct Hop as [->| ->]; reflexivity. }
  cbv zeta. split.
  - rewrite E, S1, S2. cbn [orb]. rewrite (exchanged_shared F sop p i e) by auto. exact HB.
  - intros q Hq. rewrite E. destruct (copy_ghost p i e c q He Hs Hc Hq) as (f & Hf & Hg & _).
    destruct (stat_ghost _ _ _ Hf Hg) as (-> & -> & _). cbn [orb].
    rewrite (exchanged_copy F sop p i e c q) by auto.
    destruct (ReduceData F w ord1 (sync_tag w sop mark) p i) as [x|]; auto.
    assert (mark q (c q) = false) as ->; [|exact HB].
    destruct (mark q (c q)) eqn:Em; auto. symmetry in HH. cbn [have] in HH.
    apply orb_false_iff in HH as [_ HH].
    assert (existsb (fun q => mark q (c q)) (others p e) = true) by (apply existsb_exists; eauto).
    congruence.
Qed.
Lemma tri_mark : forall b, tri (of_mark b).
Proof. intros [|]; unfold tri; cbn; auto. Qed.
Lemma sync_xor_ok : forall p i e c, at_ w p i e -> estat e = SShared -> copies_of w p e c ->
  let m' := SynchronizeMarker w SYNC_XOR ord1 ord2 mark in
  let b := fold_right xorb (mark p i) (map (fun q => mark q (c q)) (others p e)) in
  m' p i = b /\ forall q, In q (others p e) -> m' q (c q) = b.
Proof.
  intros p i e c He Hs Hc m' b.
  destruct (reduced op_xor SYNC_XOR p i e c) as (L & P & HR); auto; try discriminate.
  destruct (fold_xor L (of_mark (mark p i)) (fun q => mark q (c q)) (tri_mark _)) as (_ & H1 & H2).
  rewrite <- HR in H1, H2. apply (bit_ok op_xor SYNC_XOR p i e c); auto.
  - rewrite H1. rewrite (xorb_perm _ _ _ (Permutation_map _ P)). unfold b. destruct (mark p i); reflexivity.
  - rewrite H2, (existsb_perm _ _ _ P). destruct (mark p i); reflexivity.
Qed.
Lemma sync_and_ok : forall p i e c, at_ w p i e -> estat e = SShared -> copies_of w p e c ->
  let m' := SynchronizeMarker w SYNC_AND ord1 ord2 mark in
  m' p i = mark p i /\ forall q, In q (others p e) -> m' q (c q) = mark p i.
Proof.
  intros p i e c He Hs Hc m'.
  destruct (reduced op_and SYNC_AND p i e c) as (L & P & HR); auto; try discriminate.
  destruct (fold_and L (of_mark (mark p i)) (fun q => mark q (c q)) (tri_mark _)) as (_ & H1 & H2).
  rewrite <- HR in H1, H2. apply (bit_ok op_and SYNC_AND p i e c); auto.
  - rewrite H1. destruct (mark p i); reflexivity.
  - rewrite H2, (existsb_perm _ _ _ P). destruct (mark p i); reflexivity.
Qed.
Lemma sync_set_ok : forall p i e c, at_ w p i e -> estat e = SShared -> copies_of w p e c ->
  let m' := SynchronizeMarker w SYNC_SET ord1 ord2 mark in
  m' p i = mark p i /\ forall q, In q (others p e) -> m' q (c q) = mark p i.
Proof.
  intros p i e c He Hs Hc m'. unfold m', SynchronizeMarker. cbv zeta.
  destruct (stat_shared _ _ _ He Hs) as (-> & S2 & _). split; auto.
  intros q Hq. destruct (copy_ghost p i e c q He Hs Hc Hq) as (f & Hf & Hg & Ho & Hk). subst p.
  destruct (stat_ghost _ _ _ Hf Hg) as (-> & _ & _).
  rewrite (exchange_ghost w W ord2 O2 _ _ q (c q) f i e Hf Hg He (eq_sym Hk)).
  rewrite (tag_shared SYNC_SET _ i e He Hs), (tag_ghost SYNC_SET _ _ f Hf Hg).
  destruct (mark (eowner f) i); reflexivity.
Qed.
Lemma sync_rest : forall op p i, (forall e, at_ w p i e -> estat e <> SShared /\ estat e <> SGhost) ->
  SynchronizeMarker w op ord1 ord2 mark p i = mark p i.
Proof.
  intros op p i H.
  assert (ghost_at w p i = false) as G.
  { destruct (ghost_at w p i) eqn:E; auto. apply ghost_at_true in E as (e & He & E). destruct (H e He). congruence. }
  assert (shared_at w p i = false) as G'.
  { destruct (shared_at w p i) eqn:E; auto. apply shared_at_true in E as (e & He & E). destruct (H e He). congruence. }
  destruct op; cbn [SynchronizeMarker]; cbv zeta; rewrite G, ?G'; reflexivity.
Qed.
End Ops.
End Sync.
