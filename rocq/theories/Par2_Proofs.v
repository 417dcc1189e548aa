(** Lemmas about the numbering and the sums over all processes. *)
From Coq Require Import List Bool Arith ZArith Lia Permutation Sorted.
From Verif Require Import Util Algo Par_Model Par_Spec Par_Proofs.
Import ListNotations.

Lemma NoDup_app_intro : forall A (a b : list A), NoDup a -> NoDup b ->
  (forall x, In x a -> ~ In x b) -> NoDup (a ++ b).
Proof.
  intros A a b Ha Hb H. induction Ha as [|x l Hx Hl IH]; cbn [app]; auto. constructor.
  - rewrite in_app_iff. intros [|X]; [contradiction|]. apply (H x (or_introl eq_refl) X).
  - apply IH. intros y Hy. apply H. right. exact Hy.
Qed.

(** * One pass of numbering *)
Definition local_sel (sel : (nat -> option Z) -> nat -> bool) : Prop :=
  forall d d' i, d i = d' i -> sel d i = sel d' i.

Lemma number_pass_ok : forall sel items s d, local_sel sel -> NoDup items ->
  let r := number_pass sel items (s, d) in
  let L := filter (sel d) items in
  fst r = (s + Z.of_nat (length L))%Z /\
  (forall n i, nth_error L n = Some i -> snd r i = Some (s + Z.of_nat n)%Z) /\
  (forall i, ~ In i L -> snd r i = d i).
Proof.
  intros sel items. induction items as [|x xs IH]; intros s d Hl Hn; cbv zeta.
  - cbn. split; [lia|]. split; auto. intros [|n] i H; discriminate.
  - inversion Hn as [|? ? Hx Hxs]; subst. unfold number_pass. cbn [fold_left fst snd filter].
    destruct (sel d x) eqn:E.
    + assert (filter (sel (upd d x (Some s))) xs = filter (sel d) xs) as F.
      { apply filter_ext_in. intros i Hi. apply Hl. apply upd_other. intros ->. contradiction. }
      destruct (IH (s + 1)%Z (upd d x (Some s)) Hl Hxs) as (I1 & I2 & I3). rewrite F in I1, I2, I3.
      unfold number_pass in I1, I2, I3. split; [rewrite I1; cbn [length]; lia|]. split.
      * intros [|n] i Hi; cbn in Hi.
        { injection Hi as <-. rewrite I3.
          - rewrite upd_same. f_equal. lia.
          - rewrite filter_In. tauto. }
        rewrite (I2 n i Hi). f_equal. lia.
      * intros i Hi. cbn [In] in Hi. rewrite I3 by tauto. apply upd_other. intros ->. apply Hi. auto.
    + destruct (IH s d Hl Hxs) as (I1 & I2 & I3). split; [exact I1|]. split; auto.
Qed.

(** * Prefix sums *)
Definition before (f : nat -> Z) (p : nat) : Z := fold_right Z.add 0%Z (map f (seq 0 p)).
Lemma sum_app : forall l l', fold_right Z.add 0%Z (l ++ l') = (fold_right Z.add 0 l + fold_right Z.add 0 l')%Z.
Proof. induction l as [|x r IH]; intros l'; cbn [fold_right app]; auto. rewrite IH. lia. Qed.
Lemma before_S : forall f p, before f (S p) = (before f p + f p)%Z.
Proof. intros f p. unfold before. rewrite seq_S, map_app, sum_app. cbn. lia. Qed.
Lemma scan_before : forall f p, scan f p = (before f p + f p)%Z.
Proof. intros f p. rewrite <- before_S. reflexivity. Qed.
Lemma before_le : forall f p q, (forall r, 0 <= f r)%Z -> p <= q -> (before f p <= before f q)%Z.
Proof.
  intros f p q H L. induction L; [lia|]. rewrite before_S. specialize (H m). lia.
Qed.
Lemma before_lt : forall f p q, (forall r, 0 <= f r)%Z -> p < q -> (before f p + f p <= before f q)%Z.
Proof. intros f p q H L. rewrite <- before_S. apply before_le; auto. Qed.
Lemma before_find : forall f P v, (0 <= v < before f P)%Z -> (forall r, 0 <= f r)%Z ->
  exists p, p < P /\ (before f p <= v < before f p + f p)%Z.
Proof.
  intros f P v Hv Hf. induction P as [|P IH].
  - unfold before in Hv. cbn in Hv. lia.
  - rewrite before_S in Hv. destruct (Z.lt_ge_cases v (before f P)) as [L|L].
    + destruct IH as (p & Hp & H); [lia|]. exists p. split; [lia|auto].
    + exists P. split; [lia|]. lia.
Qed.

(** * A numbering of lists [L p], p < P, one after another *)
Section Blocks.
Variable P : nat.
Variable L : nat -> list nat.
Variable start : Z.
Let f (p : nat) : Z := Z.of_nat (length (L p)).
Variable g : nat -> nat -> option Z.
Hypothesis G : forall p n i, p < P -> nth_error (L p) n = Some i ->
  g p i = Some (start + before f p + Z.of_nat n)%Z.

Lemma f_pos : forall r, (0 <= f r)%Z.
Proof. intros r. unfold f. lia. Qed.
Lemma pos_lt : forall p n i, nth_error (L p) n = Some i -> (Z.of_nat n < f p)%Z.
Proof. intros p n i H. unfold f. assert (n < length (L p)) by (apply nth_error_Some; congruence). lia. Qed.

Lemma blocks_range : forall p i, p < P -> In i (L p) ->
  exists v, g p i = Some v /\ (start <= v < start + before f P)%Z.
Proof.
  intros p i Hp Hi. apply In_nth_error in Hi as (n & Hn). rewrite (G p n i Hp Hn).
  eexists. split; [reflexivity|]. pose proof (pos_lt p n i Hn). pose proof (before_lt f p P f_pos Hp).
  pose proof (before_le f 0 p f_pos (Nat.le_0_l p)) as B. unfold before in B at 1. cbn in B. lia.
Qed.
Lemma blocks_order : forall p q i j v u, p < q -> q < P -> In i (L p) -> In j (L q) ->
  g p i = Some v -> g q j = Some u -> (v < u)%Z.
Proof.
  intros p q i j v u Hpq Hq Hi Hj Hv Hu. apply In_nth_error in Hi as (n & Hn).
  apply In_nth_error in Hj as (m & Hm). rewrite (G p n i) in Hv by (auto; lia). rewrite (G q m j) in Hu by auto.
  injection Hv as <-. injection Hu as <-. pose proof (pos_lt p n i Hn). pose proof (before_lt f p q f_pos Hpq). lia.
Qed.
Lemma blocks_inj : forall p q i j, p < P -> q < P -> In i (L p) -> In j (L q) ->
  g p i = g q j -> p = q /\ i = j.
Proof.
  intros p q i j Hp Hq Hi Hj E.
  destruct (blocks_range p i Hp Hi) as (v & Hv & _). rewrite Hv in E. symmetry in E.
  destruct (Nat.lt_trichotomy p q) as [H|[<-|H]].
  - pose proof (blocks_order p q i j v v H Hq Hi Hj Hv E). lia.
  - split; auto. apply In_nth_error in Hi as (n & Hn). apply In_nth_error in Hj as (m & Hm).
    rewrite (G p n i Hp Hn) in Hv. rewrite (G p m j Hp Hm) in E.
    injection Hv as Hv. injection E as E.
    assert (n = m) as <- by lia. congruence.
  - pose proof (blocks_order q p j i v v H Hp Hj Hi E Hv). lia.
Qed.
Lemma blocks_onto : forall v, (start <= v < start + before f P)%Z ->
  exists p i, p < P /\ In i (L p) /\ g p i = Some v.
Proof.
  intros v Hv. destruct (before_find f P (v - start)%Z) as (p & Hp & H); [lia|apply f_pos|].
  set (n := Z.to_nat (v - start - before f p)).
  destruct (nth_error (L p) n) as [i|] eqn:E.
  - exists p, i. split; auto. split; [eapply nth_error_In, E|]. rewrite (G p n i Hp E). f_equal.
    unfold n. lia.
  - apply nth_error_None in E. unfold n in E. unfold f in H at 3. lia.
Qed.
Lemma blocks_local : forall p n m i j v u, p < P -> nth_error (L p) n = Some i -> nth_error (L p) m = Some j ->
  n < m -> g p i = Some v -> g p j = Some u -> (v < u)%Z.
Proof.
  intros p n m i j v u Hp Hn Hm Hnm Hv Hu. rewrite (G p n i Hp Hn) in Hv. rewrite (G p m j Hp Hm) in Hu.
  injection Hv as <-. injection Hu as <-. lia.
Qed.
End Blocks.

(** * Enumerate *)
Section Enumerate.
Variable w : world.
Hypothesis W : consistent w.
Hypothesis Wn : 0 < length w.
Variable order : nat -> list nat.
Hypothesis O : arrivals w order.
Variable items : nat -> list nat.
Hypothesis In_ : forall p, NoDup (items p).
Hypothesis Ir : forall p i, In i (items p) -> exists e, at_ w p i e.
Variable define : bool.
Variable start : Z.
Variable d : nat -> nat -> option Z.

Definition own_list (p : nat) : list nat :=
  filter (fun i => own_at w p i && (define || have (d p i))) (items p).
Definition sh_list (p : nat) : list nat :=
  filter (fun i => shared_at w p i && (define || have (d p i))) (items p).
Definition num_list (p : nat) : list nat := own_list p ++ sh_list p.

Lemma at_cases : forall p i e, at_ w p i e ->
  own_at w p i = match estat e with SOwned | SAny => true | _ => false end /\
  shared_at w p i = match estat e with SShared => true | _ => false end /\
  ghost_at w p i = match estat e with SGhost => true | _ => false end.
Proof.
  intros p i e H. unfold own_at, shared_at, ghost_at, status_at. rewrite H. cbn.
  destruct (estat e); auto.
Qed.
Lemma in_num_list : forall p i, In i (num_list p) <->
  In i (items p) /\ ghost_at w p i = false /\ (define = true \/ d p i <> None).
Proof.
  intros p i. unfold num_list, own_list, sh_list. rewrite in_app_iff, !filter_In, !andb_true_iff, !orb_true_iff.
  assert (have (d p i) = true <-> d p i <> None) as E.
  { destruct (d p i); cbn; split; intros; congruence. }
  rewrite E. split.
  - intros [(H1 & H2 & H3)|(H1 & H2 & H3)]; (split; [auto|]); destruct (Ir p i H1) as (e & He);
      destruct (at_cases p i e He) as (A1 & A2 & A3); rewrite A3; rewrite ?A1, ?A2 in *;
      destruct (estat e); try discriminate; auto.
  - intros (H1 & H2 & H3). destruct (Ir p i H1) as (e & He).
    destruct (at_cases p i e He) as (A1 & A2 & A3). rewrite A1, A2. rewrite A3 in H2.
    destruct (estat e); try discriminate; auto 6.
Qed.
Lemma num_list_nodup : forall p, NoDup (num_list p).
Proof.
  intros p. unfold num_list. apply NoDup_app_intro.
  - apply NoDup_filter, In_.
  - apply NoDup_filter, In_.
  - intros i H1 H2. unfold own_list, sh_list in *. rewrite filter_In, andb_true_iff in H1, H2.
    destruct H1 as (H & H1 & _). destruct H2 as (_ & H2 & _).
    destruct (Ir p i H) as (e & He). destruct (at_cases p i e He) as (A1 & A2 & A3).
    rewrite A1 in H1. rewrite A2 in H2. destruct (estat e); discriminate.
Qed.
Lemma num_list_length : forall p, number_of w items define d p = Z.of_nat (length (num_list p)).
Proof.
  intros p. unfold number_of. f_equal. apply Permutation_length. apply NoDup_Permutation.
  - apply NoDup_filter, In_.
  - apply num_list_nodup.
  - intros i. rewrite in_num_list, filter_In. unfold to_number. rewrite andb_true_iff, negb_true_iff, orb_true_iff.
    assert (have (d p i) = true <-> d p i <> None) as E.
    { destruct (d p i); cbn; split; intros; congruence. }
    rewrite E. tauto.
Qed.

Let f (p : nat) : Z := Z.of_nat (length (num_list p)).
Lemma before_ext : forall (f f' : nat -> Z) p, (forall r, f r = f' r) -> before f p = before f' p.
Proof. intros h h' p H. unfold before. f_equal. apply map_ext, H. Qed.

Lemma local_ok : forall p,
  let r := enumerate_local w items define start d p in
  fst r = (start + before f p + f p)%Z /\
  (forall n i, nth_error (num_list p) n = Some i -> snd r i = Some (start + before f p + Z.of_nat n)%Z) /\
  (forall i, ~ In i (num_list p) -> snd r i = d p i).
Proof.
  intros p r. unfold r, enumerate_local. cbv zeta.
  rewrite num_list_length, scan_before, num_list_length.
  rewrite (before_ext _ f p num_list_length).
  replace (before f p + Z.of_nat (length (num_list p)) - Z.of_nat (length (num_list p)) + start)%Z
    with (start + before f p)%Z by lia.
  set (s := (start + before f p)%Z).
  destruct (number_pass_ok (fun d i => own_at w p i && (define || have (d i))) (items p) s (d p))
    as (A1 & A2 & A3).
  { intros d1 d2 i E. rewrite E. reflexivity. } { apply In_. }
  fold (own_list p) in A1, A2, A3. destruct (number_pass _ (items p) (s, d p)) as (s1 & d1) eqn:E1.
  cbn [fst snd] in A1, A2, A3.
  destruct (number_pass_ok (fun d i => shared_at w p i && (define || have (d i))) (items p) s1 d1)
    as (B1 & B2 & B3).
  { intros d2 d3 i E. rewrite E. reflexivity. } { apply In_. }
  assert (filter (fun i => shared_at w p i && (define || have (d1 i))) (items p) = sh_list p) as F.
  { apply filter_ext_in. intros i Hi. destruct (shared_at w p i) eqn:Es; auto. rewrite A3; auto.
    intros H. unfold own_list in H. rewrite filter_In, andb_true_iff in H.
    destruct (Ir p i Hi) as (e & He). destruct (at_cases p i e He) as (C1 & C2 & C3).
    destruct H as (_ & H & _). rewrite C1 in H. rewrite C2 in Es. destruct (estat e); discriminate. }
  rewrite F in B1, B2, B3. split; [|split].
  - rewrite B1, A1. unfold f, num_list. rewrite app_length. unfold s. lia.
  - intros n i Hi. unfold num_list in Hi. destruct (Nat.lt_ge_cases n (length (own_list p))) as [Hn|Hn].
    + rewrite nth_error_app1 in Hi by auto. rewrite B3.
      * apply A2, Hi.
      * intros H. pose proof (num_list_nodup p) as Nd. unfold num_list in Nd.
        apply nth_error_In in Hi. revert Nd Hi H. clear. intros Nd H1 H2.
        induction (own_list p) as [|x r IH]; [destruct H1|]. cbn [app] in Nd.
        inversion Nd as [|? ? Hx Hr]; subst. destruct H1 as [->|H1]; [|auto].
        apply Hx, in_app_iff. auto.
    + rewrite nth_error_app2 in Hi by auto. rewrite (B2 _ _ Hi), A1. f_equal. unfold s. lia.
  - intros i Hi. unfold num_list in Hi. rewrite in_app_iff in Hi.
    rewrite B3 by tauto. apply A3. tauto.
Qed.

Lemma enumerate_ret : fst (Enumerate w order items define start d) = (start + before f (length w))%Z.
Proof.
  unfold Enumerate. cbv zeta. cbn [fst]. destruct (local_ok (length w - 1)) as (H & _ & _).
  rewrite H. replace (length w) with (S (length w - 1)) at 3 by lia. rewrite before_S. lia.
Qed.
Lemma enumerate_nonghost : forall p i, ghost_at w p i = false ->
  snd (Enumerate w order items define start d) p i = snd (enumerate_local w items define start d p) i.
Proof.
  intros p i H. unfold Enumerate. cbv zeta. cbn [snd]. apply exchange_other.
  intros e He E. destruct (at_cases p i e He) as (_ & _ & A). rewrite E in A. congruence.
Qed.
Lemma enumerate_G : forall p n i, p < length w -> nth_error (num_list p) n = Some i ->
  snd (Enumerate w order items define start d) p i = Some (start + before f p + Z.of_nat n)%Z.
Proof.
  intros p n i _ Hn. rewrite enumerate_nonghost.
  - apply local_ok, Hn.
  - apply nth_error_In in Hn. apply in_num_list in Hn. tauto.
Qed.
Lemma enumerate_rest : forall p i, ghost_at w p i = false -> ~ In i (num_list p) ->
  snd (Enumerate w order items define start d) p i = d p i.
Proof. intros p i H1 H2. rewrite enumerate_nonghost by auto. apply local_ok, H2. Qed.
Lemma enumerate_ghost : forall q j h i e, at_ w q j h -> estat h = SGhost ->
  at_ w (eowner h) i e -> ekey e = ekey h ->
  snd (Enumerate w order items define start d) q j
  = match snd (Enumerate w order items define start d) (eowner h) i with
    | Some x => Some x | None => d q j end.
Proof.
  intros q j h i e Hh Hg He Hk.
  destruct (c_ghost w W q j h Hh Hg) as (i' & e' & He' & Hs' & Hk' & _).
  assert (i' = i) as -> by (eapply (key_inj (elems w (eowner h))); [apply W|exact He'|exact He|congruence]).
  assert (e' = e) as -> by (unfold at_ in *; congruence).
  destruct (at_cases _ _ _ He) as (_ & _ & A). rewrite Hs' in A.
  rewrite (enumerate_nonghost _ _ A). unfold Enumerate. cbv zeta. cbn [snd].
  rewrite (exchange_ghost w W order O _ _ q j h i e Hh Hg He Hk).
  destruct (snd (enumerate_local w items define start d (eowner h)) i); auto.
  apply local_ok. rewrite in_num_list. destruct (at_cases _ _ _ Hh) as (_ & _ & B). rewrite Hg in B.
  rewrite B. intros (_ & ? & _). discriminate.
Qed.

(** Owned elements are numbered before the shared ones *)
Lemma enumerate_own_first : forall p i j v u, p < length w -> In i (num_list p) -> In j (num_list p) ->
  own_at w p i = true -> shared_at w p j = true ->
  snd (Enumerate w order items define start d) p i = Some v ->
  snd (Enumerate w order items define start d) p j = Some u -> (v < u)%Z.
Proof.
  intros p i j v u Hp Hi Hj Oi Sj Hv Hu.
  assert (In i (own_list p)) as Hio.
  { unfold num_list in Hi. apply in_app_iff in Hi as [|H]; auto. unfold sh_list in H.
    rewrite filter_In, andb_true_iff in H. destruct H as (H & H' & _). destruct (Ir p i H) as (e & He).
    destruct (at_cases _ _ _ He) as (A1 & A2 & _). rewrite A1 in Oi. rewrite A2 in H'. destruct (estat e); discriminate. }
  assert (In j (sh_list p)) as Hjs.
  { unfold num_list in Hj. apply in_app_iff in Hj as [H|]; auto. unfold own_list in H.
    rewrite filter_In, andb_true_iff in H. destruct H as (H & H' & _). destruct (Ir p j H) as (e & He).
    destruct (at_cases _ _ _ He) as (A1 & A2 & _). rewrite A1 in H'. rewrite A2 in Sj. destruct (estat e); discriminate. }
  apply In_nth_error in Hio as (n & Hn). apply In_nth_error in Hjs as (m & Hm).
  apply (blocks_local (length w) num_list start _ enumerate_G p n (length (own_list p) + m) i j v u Hp); auto.
  - unfold num_list. rewrite nth_error_app1; auto. apply nth_error_Some. congruence.
  - unfold num_list. rewrite nth_error_app2 by lia.
    replace (length (own_list p) + m - length (own_list p)) with m by lia. exact Hm.
  - assert (n < length (own_list p)) by (apply nth_error_Some; congruence). lia.
Qed.
End Enumerate.

(** * AssignGlobalID *)
Section Assign.
Variable w : world.
Definition ng_list (p : nat) : list nat := filter (fun i => negb (ghost_at w p i)) (all_items w p).
Lemma in_all : forall p i, In i (all_items w p) <-> exists e, at_ w p i e.
Proof.
  intros p i. unfold all_items, at_. rewrite in_seq. split.
  - intros [_ H]. cbn in H. destruct (nth_error (elems w p) i) eqn:E; eauto. apply nth_error_None in E. lia.
  - intros (e & He). split; [lia|]. cbn. apply nth_error_Some. congruence.
Qed.
Lemma in_ng : forall p i, In i (ng_list p) <-> exists e, at_ w p i e /\ estat e <> SGhost.
Proof.
  intros p i. unfold ng_list. rewrite filter_In, in_all, negb_true_iff. split.
  - intros [(e & He) H]. exists e. split; auto. intros E. destruct (at_cases w p i e He) as (_ & _ & A).
    rewrite E in A. congruence.
  - intros (e & He & E). split; [eauto|]. destruct (at_cases w p i e He) as (_ & _ & A). rewrite A.
    destruct (estat e); congruence.
Qed.
Hypothesis W : consistent w.
Variable order : nat -> list nat.
Hypothesis O : arrivals w order.
Variable d : nat -> nat -> option Z.

Lemma ng_nodup : forall p, NoDup (ng_list p).
Proof. intros p. apply NoDup_filter, seq_NoDup. Qed.

Let f (p : nat) : Z := Z.of_nat (length (ng_list p)).
Lemma assign_local_ok : forall p,
  (forall n i, nth_error (ng_list p) n = Some i ->
     assign_local w p (d p) i = Some (0 + before f p + Z.of_nat n)%Z) /\
  (forall i, ~ In i (ng_list p) -> assign_local w p (d p) i = d p i).
Proof.
  intros p. unfold assign_local. rewrite scan_before.
  assert (forall r, nonghosts w r = f r) as E by reflexivity. rewrite E.
  replace (before (nonghosts w) p + f p - f p)%Z with (0 + before f p)%Z
    by (rewrite (before_ext (nonghosts w) f p E); lia).
  destruct (number_pass_ok (fun _ i => negb (ghost_at w p i)) (all_items w p) (0 + before f p)%Z (d p))
    as (A1 & A2 & A3).
  { intros d1 d2 i _. reflexivity. } { apply seq_NoDup. }
  fold (ng_list p) in A2, A3. auto.
Qed.
Let g := AssignGlobalID w order d.
Lemma assign_nonghost : forall p i, (forall e, at_ w p i e -> estat e <> SGhost) ->
  g p i = assign_local w p (d p) i.
Proof. intros p i H. unfold g, AssignGlobalID. apply exchange_other. exact H. Qed.
Lemma assign_G : forall p n i, p < length w -> nth_error (ng_list p) n = Some i ->
  g p i = Some (0 + before f p + Z.of_nat n)%Z.
Proof.
  intros p n i _ Hn. rewrite assign_nonghost; [apply assign_local_ok, Hn|].
  apply nth_error_In, in_ng in Hn as (e & He & E). intros e' He'. unfold at_ in *. congruence.
Qed.
Lemma assign_ghost : forall q j h i e, at_ w q j h -> estat h = SGhost ->
  at_ w (eowner h) i e -> ekey e = ekey h -> g q j = g (eowner h) i.
Proof.
  intros q j h i e Hh Hg He Hk.
  destruct (c_ghost w W q j h Hh Hg) as (i' & e' & He' & Hs' & Hk' & _).
  assert (i' = i) as -> by (eapply (key_inj (elems w (eowner h))); [apply W|exact He'|exact He|congruence]).
  assert (e' = e) as -> by (unfold at_ in *; congruence).
  assert (In i (ng_list (eowner h))) as Hin by (apply in_ng; exists e; split; auto; congruence).
  apply In_nth_error in Hin as (n & Hn).
  rewrite (assign_G (eowner h) n i) by (auto; eapply in_world, He).
  unfold g, AssignGlobalID. rewrite (exchange_ghost w W order O _ _ q j h i e Hh Hg He Hk).
  rewrite (proj1 (assign_local_ok (eowner h)) n i Hn). reflexivity.
Qed.

(** Every element of a process has a representative that is not a ghost *)
Lemma representative : forall p i e, at_ w p i e -> exists o i' e', o < length w /\ at_ w o i' e' /\
  estat e' <> SGhost /\ ekey e' = ekey e /\ g p i = g o i' /\
  ((estat e <> SGhost /\ o = p /\ i' = i) \/ (estat e = SGhost /\ o = eowner e /\ o <> p)).
Proof.
  intros p i e He.
  assert (estat e = SGhost \/ estat e <> SGhost) as [E|E] by (destruct (estat e); auto; right; discriminate).
  - destruct (c_ghost w W p i e He E) as (i' & e' & He' & Hs' & Hk' & _).
    destruct (c_owner w W p i e He E) as [Lo No].
    exists (eowner e), i', e'. repeat (split; auto); try congruence.
    apply (assign_ghost p i e i' e'); auto.
  - exists p, i, e. split; [eapply in_world, He|]. repeat (split; auto).
Qed.
Lemma assign_some : forall p i e, at_ w p i e -> exists v, g p i = Some v /\ (0 <= v < before f (length w))%Z.
Proof.
  intros p i e He. destruct (representative p i e He) as (o & i' & e' & Lo & He' & Hn & _ & Eg & _).
  rewrite Eg. apply (blocks_range (length w) ng_list 0%Z g assign_G o i' Lo). apply in_ng. eauto.
Qed.
(** the global ids tell the elements of one process apart *)
Lemma assign_local_inj : forall p i j e h, at_ w p i e -> at_ w p j h -> g p i = g p j -> i = j.
Proof.
  intros p i j e h He Hh E.
  destruct (representative p i e He) as (o & i' & e' & Lo & He' & Hn & Hk & Eg & C).
  destruct (representative p j h Hh) as (u & j' & h' & Lu & Hh' & Hm & Hk2 & Eg2 & C2).
  assert (o = u /\ i' = j') as [-> ->].
  { apply (blocks_inj (length w) ng_list 0%Z g assign_G); auto; try (apply in_ng; eauto). congruence. }
  assert (h' = e') as -> by (unfold at_ in *; congruence).
  eapply (key_inj (elems w p)); [apply W|exact He|exact Hh|congruence].
Qed.

(** ** The lists sorted by the new ids *)
Lemma sorted_find : forall (key : nat -> Z) l v, StronglySorted Z.lt (map key l) ->
  forall i, (match nth_error l (lower_bound (fun i => (key i <? v)%Z) l) with
             | Some i => if (key i =? v)%Z then Some i else None | None => None end) = Some i
  <-> In i l /\ key i = v.
Proof.
  intros key l v Hs.
  assert (forall n m x y, nth_error l n = Some x -> nth_error l m = Some y -> n < m -> (key x < key y)%Z) as M.
  { clear v. induction l as [|a r IH]; intros n m x y Hn Hm L; [destruct n; discriminate|].
    cbn [map] in Hs. inversion Hs as [|? ? Hr Ha]; subst. destruct m as [|m]; [lia|]. cbn in Hm.
    destruct n as [|n]; cbn in Hn.
    - injection Hn as <-. rewrite Forall_forall in Ha. apply Ha. apply in_map. eapply nth_error_In, Hm.
    - apply (IH Hr n m x y); auto. lia. }
  destruct (lower_bound_ok (fun i => (key i <? v)%Z) l) as (K1 & K2 & K3).
  { intros n m x y L Hn Hm H. apply Z.ltb_lt in H. apply Z.ltb_lt.
    destruct (Nat.eq_dec n m) as [->|N]; [congruence|]. specialize (M n m x y Hn Hm). lia. }
  set (k := lower_bound (fun i => (key i <? v)%Z) l) in *. intros i. split.
  - destruct (nth_error l k) as [x|] eqn:E; [|discriminate].
    destruct (Z.eqb_spec (key x) v) as [Ev|]; [|discriminate]. intros H. injection H as <-.
    split; auto. eapply nth_error_In, E.
  - intros [Hi Hv]. apply In_nth_error in Hi as (n & Hn).
    assert (n = k) as <-.
    { destruct (Nat.lt_trichotomy n k) as [L|[?|L]]; auto.
      - pose proof (K2 n i L Hn) as X. apply Z.ltb_lt in X. lia.
      - destruct (nth_error l k) as [x|] eqn:E.
        + pose proof (K3 k x (Nat.le_refl k) E) as X. apply Z.ltb_ge in X.
          pose proof (M k n x i E Hn L). lia.
        + apply nth_error_None in E. assert (n < length l) by (apply nth_error_Some; congruence). lia. }
    rewrite Hn. rewrite (proj2 (Z.eqb_eq _ _) Hv). reflexivity.
Qed.

Lemma gid_some : forall p i v, gid_key (g p) i = v -> (exists e, at_ w p i e) -> g p i = Some v.
Proof.
  intros p i v H (e & He). destruct (assign_some p i e He) as (u & Hu & _). unfold gid_key in H.
  rewrite Hu in *. congruence.
Qed.
Lemma gid_nodup : forall p l, NoDup l -> (forall i, In i l -> exists e, at_ w p i e) ->
  NoDup (map (gid_key (g p)) l).
Proof.
  intros p l. induction l as [|i r IH]; intros Hn H; cbn [map]; [constructor|].
  inversion Hn as [|? ? Hi Hr]; subst. constructor; [|apply IH; auto using in_cons].
  intros Hin. apply in_map_iff in Hin as (j & E & Hj).
  destruct (H i (or_introl eq_refl)) as (e & He). destruct (H j (or_intror Hj)) as (h & Hh).
  pose proof (gid_some p i _ eq_refl (ex_intro _ e He)) as G1.
  pose proof (gid_some p j _ eq_refl (ex_intro _ h Hh)) as G2.
  rewrite (assign_local_inj p i j e h He Hh) in Hi by congruence. contradiction.
Qed.
Lemma resorted_sorted : forall p l, NoDup l -> (forall i, In i l -> exists e, at_ w p i e) ->
  StronglySorted Z.lt (map (gid_key (g p)) (sort_by (gid_key (g p)) l)).
Proof.
  intros p l Hn H. apply strict_keys; [apply sort_by_sorted|]. apply gid_nodup.
  - apply sort_by_nodup, Hn.
  - intros i Hi. apply H. eapply sort_by_in, Hi.
Qed.

Lemma find_ok : forall rank v src own i,
  FindSharedGhost (resorted_shared w g rank) (resorted_ghost w g rank) (gid_key (g rank)) rank v src own = Some i
  <-> exists e, at_ w rank i e /\ g rank i = Some v /\
      if own =? rank then estat e = SShared /\ In src (eprocs e) /\ src <> rank
      else estat e = SGhost /\ eowner e = own.
Proof.
  intros rank v src own i. unfold FindSharedGhost, resorted_shared, resorted_ghost.
  destruct (Nat.eqb_spec own rank) as [->|N]; cbv zeta.
  - rewrite sorted_find.
    + rewrite sort_by_in, in_shared_list. split.
      * intros [(e & He & Hs) Hv]. exists e. split; auto. split; auto. apply gid_some; eauto.
      * intros (e & He & Hv & Hs). split; [eauto|]. unfold gid_key. rewrite Hv. reflexivity.
    + apply resorted_sorted; [apply shared_list_nodup, W|]. intros j Hj.
      apply in_shared_list in Hj as (e & He & _). eauto.
  - rewrite sorted_find.
    + rewrite sort_by_in, in_ghost_list. split.
      * intros [(e & He & Hs) Hv]. exists e. split; auto. split; auto. apply gid_some; eauto.
      * intros (e & He & Hv & Hs). split; [eauto|]. unfold gid_key. rewrite Hv. reflexivity.
    + apply resorted_sorted; [apply ghost_list_nodup|]. intros j Hj.
      apply in_ghost_list in Hj as (e & He & _). eauto.
Qed.

(** ** The mesh with the new keys *)
Lemma nth_error_indexed : forall A (l : list A) i, nth_error (indexed l) i = option_map (fun e => (i, e)) (nth_error l i).
Proof.
  intros A l. unfold indexed. assert (forall k i, nth_error (combine (seq k (length l)) l) i
    = option_map (fun e => (k + i, e)) (nth_error l i)) as G.
  { induction l as [|x r IH]; intros k i; cbn [length seq combine]; [destruct i; reflexivity|].
    destruct i as [|i]; cbn [nth_error option_map]; [rewrite Nat.add_0_r; reflexivity|].
    rewrite IH. destruct (nth_error r i); cbn; auto. rewrite <- plus_n_Sm. reflexivity. }
  intros i. apply (G 0 i).
Qed.
Definition newkey (p i : nat) (e : elem) : elem := Elem (gid_key (g p) i) (estat e) (eowner e) (eprocs e).
Lemma rekey_length : length (rekey w g) = length w.
Proof. unfold rekey, indexed. rewrite map_length, combine_length, seq_length. lia. Qed.
Lemma elems_rekey : forall p i, nth_error (elems (rekey w g) p) i = option_map (newkey p i) (nth_error (elems w p) i).
Proof.
  intros p i. unfold elems. destruct (nth_error w p) as [l|] eqn:E.
  - assert (nth_error (rekey w g) p = Some (map (fun ie : nat * elem =>
      Elem (gid_key (g p) (fst ie)) (estat (snd ie)) (eowner (snd ie)) (eprocs (snd ie))) (indexed l))) as E'.
    { unfold rekey. rewrite nth_error_map, nth_error_indexed, E. reflexivity. }
    rewrite (nth_error_nth _ _ [] E), (nth_error_nth _ _ [] E').
    rewrite nth_error_map, nth_error_indexed. destruct (nth_error l i); reflexivity.
  - apply nth_error_None in E. rewrite !nth_overflow by (rewrite ?rekey_length; auto). destruct i; reflexivity.
Qed.
Lemma at_rekey : forall p i e', at_ (rekey w g) p i e' <-> exists e, at_ w p i e /\ e' = newkey p i e.
Proof.
  intros p i e'. unfold at_. rewrite elems_rekey. destruct (nth_error (elems w p) i) as [e|]; cbn.
  - split; [intros H; injection H as <-; eauto|]. intros (e0 & E & ->). congruence.
  - split; [discriminate|]. intros (e & E & _). discriminate.
Qed.
Lemma copy_gid : forall q j f i e, at_ w q j f -> estat f = SGhost -> at_ w (eowner f) i e ->
  ekey e = ekey f -> gid_key (g q) j = gid_key (g (eowner f)) i.
Proof. intros q j f' i e Hf Hg He Hk. unfold gid_key. rewrite (assign_ghost q j f' i e); auto. Qed.

Lemma rekey_consistent : consistent (rekey w g).
Proof.
  constructor.
  - intros p. apply NoDup_nth_error. intros i j Li E. rewrite map_length in Li.
    rewrite !nth_error_map in E.
    destruct (nth_error (elems (rekey w g) p) i) as [e'|] eqn:Ei.
    2:{ apply nth_error_None in Ei. lia. }
    destruct (nth_error (elems (rekey w g) p) j) as [h'|] eqn:Ej; [|discriminate].
    cbn in E. apply at_rekey in Ei as (e & He & ->). apply at_rekey in Ej as (h & Hh & ->).
    cbn in E. injection E as E.
    pose proof (gid_some p i _ eq_refl (ex_intro _ e He)) as G1.
    pose proof (gid_some p j _ eq_refl (ex_intro _ h Hh)) as G2.
    apply (assign_local_inj p i j e h He Hh). congruence.
  - intros p i e' H Hs. apply at_rekey in H as (e & He & ->). cbn in *. rewrite rekey_length.
    apply (c_procs w W p i e He Hs).
  - intros q i f' H Hs. apply at_rekey in H as (e & He & ->). cbn in *. rewrite rekey_length.
    apply (c_owner w W q i e He Hs).
  - intros p i e' q H Hs Hq Nq. apply at_rekey in H as (e & He & ->). cbn in *.
    destruct (c_shared w W p i e q He Hs Hq Nq) as (j & h & Hh & Hg & Ho & Hk).
    exists j, (newkey q j h). split; [apply at_rekey; eauto|]. cbn. split; auto. split; auto.
    subst p. apply (copy_gid q j h i e); auto.
  - intros q j f' H Hg. apply at_rekey in H as (h & Hh & ->). cbn in *.
    destruct (c_ghost w W q j h Hh Hg) as (i & e & He & Hs & Hk & Hq).
    exists i, (newkey (eowner h) i e). split; [apply at_rekey; eauto|]. cbn. split; auto. split; auto.
    symmetry. apply (copy_gid q j h i e); auto.
Qed.
Lemma rekey_separate : separate (rekey w g).
Proof.
  intros p q i j e' h' He' Hh' Ne Nh E. apply at_rekey in He' as (e & He & ->).
  apply at_rekey in Hh' as (h & Hh & ->). cbn in *.
  pose proof (gid_some p i _ eq_refl (ex_intro _ e He)) as G1.
  pose proof (gid_some q j _ eq_refl (ex_intro _ h Hh)) as G2.
  apply (blocks_inj (length w) ng_list 0%Z g assign_G p q i j).
  - eapply in_world, He.
  - eapply in_world, Hh.
  - apply in_ng; eauto.
  - apply in_ng; eauto.
  - congruence.
Qed.

Lemma sorted_same : forall (key : nat -> Z) l1 l2, StronglySorted Z.lt (map key l1) ->
  StronglySorted Z.lt (map key l2) -> (forall i, In i l1 <-> In i l2) -> l1 = l2.
Proof.
  intros key. induction l1 as [|a r IH]; intros [|b s] H1 H2 H; auto.
  - destruct (proj2 (H b) (or_introl eq_refl)).
  - destruct (proj1 (H a) (or_introl eq_refl)).
  - cbn [map] in *. inversion H1 as [|? ? Hr Ha]; subst. inversion H2 as [|? ? Hs Hb]; subst.
    rewrite Forall_forall in Ha, Hb.
    assert (a = b) as <-.
    { destruct (proj1 (H a) (or_introl eq_refl)) as [E|E]; auto.
      destruct (proj2 (H b) (or_introl eq_refl)) as [E'|E']; auto.
      specialize (Ha _ (in_map key _ _ E')). specialize (Hb _ (in_map key _ _ E)). lia. }
    f_equal. apply IH; auto. intros x. split; intros Hx.
    + destruct (proj1 (H x) (or_intror Hx)) as [E|E]; auto. subst. specialize (Ha _ (in_map key _ _ Hx)). lia.
    + destruct (proj2 (H x) (or_intror Hx)) as [E|E]; auto. subst. specialize (Hb _ (in_map key _ _ Hx)). lia.
Qed.
Lemma key_at_rekey : forall p l, (forall i, In i l -> exists e, at_ w p i e) ->
  map (key_at (elems (rekey w g) p)) l = map (gid_key (g p)) l.
Proof.
  intros p l H. apply map_ext_in. intros i Hi. destruct (H i Hi) as (e & He).
  unfold key_at. rewrite elems_rekey, He. reflexivity.
Qed.
(** The re-sorted lists are the lists that would be gathered anew *)
Lemma resorted_shared_ok : forall p q, resorted_shared w g p q = shared_list (rekey w g) p q.
Proof.
  intros p q. apply (sorted_same (gid_key (g p))).
  - apply resorted_sorted; [apply shared_list_nodup, W|]. intros i Hi.
    apply in_shared_list in Hi as (e & He & _). eauto.
  - rewrite <- key_at_rekey.
    + apply shared_sorted, rekey_consistent.
    + intros i Hi. apply in_shared_list in Hi as (e' & He' & _). apply at_rekey in He' as (e & He & _). eauto.
  - intros i. unfold resorted_shared. rewrite sort_by_in, !in_shared_list. split.
    + intros (e & He & H). exists (newkey p i e). split; [apply at_rekey; eauto|exact H].
    + intros (e' & He' & H). apply at_rekey in He' as (e & He & ->). exists e. auto.
Qed.
Lemma resorted_ghost_ok : forall p o, resorted_ghost w g p o = ghost_list (rekey w g) p o.
Proof.
  intros p q. apply (sorted_same (gid_key (g p))).
  - apply resorted_sorted; [apply ghost_list_nodup|]. intros i Hi.
    apply in_ghost_list in Hi as (e & He & _). eauto.
  - rewrite <- key_at_rekey.
    + apply ghost_sorted, rekey_consistent.
    + intros i Hi. apply in_ghost_list in Hi as (e' & He' & _). apply at_rekey in He' as (e & He & _). eauto.
  - intros i. unfold resorted_ghost. rewrite sort_by_in, !in_ghost_list. split.
    + intros (e & He & H). exists (newkey p i e). split; [apply at_rekey; eauto|exact H].
    + intros (e' & He' & H). apply at_rekey in He' as (e & He & ->). exists e. auto.
Qed.
End Assign.

(** * Sums *)
Definition all_keys (w : world) : list Z := map ekey (concat w).
Definition ng_keys (l : list elem) : list Z := map ekey (filter (fun e => negb (is_ghost e)) l).

Lemma in_concat_at : forall w e, In e (concat w) <-> exists p i, at_ w p i e.
Proof.
  intros w e. rewrite in_concat. split.
  - intros (l & Hl & He). apply In_nth_error in Hl as (p & Hp). apply In_nth_error in He as (i & Hi).
    exists p, i. unfold at_, elems. rewrite (nth_error_nth _ _ [] Hp). exact Hi.
  - intros (p & i & H). exists (elems w p). split; [|eapply nth_error_In, H].
    apply nth_In. eapply in_world, H.
Qed.
Lemma ng_keys_nodup : forall w, consistent w -> separate w ->
  NoDup (concat (map ng_keys w)).
Proof.
  intros w W Sep. unfold separate in Sep.
  assert (forall l, In l w -> NoDup (map ekey l)) as K.
  { intros l Hl. apply In_nth_error in Hl as (p & Hp). pose proof (c_keys w W p) as H. unfold elems in H.
    rewrite (nth_error_nth _ _ [] Hp) in H. exact H. }
  assert (forall p q l m k, nth_error w p = Some l -> nth_error w q = Some m ->
    In k (ng_keys l) -> In k (ng_keys m) -> p = q) as D.
  { intros p q l m k Hp Hq Hk Hk'. unfold ng_keys in *.
    apply in_map_iff in Hk as (e & He & Hin). apply in_map_iff in Hk' as (f & Hf & Hin').
    apply filter_In in Hin as [Hin Ng]. apply filter_In in Hin' as [Hin' Ng'].
    apply In_nth_error in Hin as (i & Hi). apply In_nth_error in Hin' as (j & Hj).
    apply (Sep p q i j e f).
    - unfold at_, elems. rewrite (nth_error_nth _ _ [] Hp). exact Hi.
    - unfold at_, elems. rewrite (nth_error_nth _ _ [] Hq). exact Hj.
    - unfold is_ghost in Ng. intros E. rewrite E in Ng. discriminate.
    - unfold is_ghost in Ng'. intros E. rewrite E in Ng'. discriminate.
    - congruence. }
  clear W Sep. induction w as [|l r IH]; cbn [map concat]; [constructor|].
  apply NoDup_app_intro.
  - pose proof (K l (or_introl eq_refl)) as Hl. clear - Hl. unfold ng_keys.
    induction l as [|e l IH]; cbn [filter map]; [constructor|]. cbn [map] in Hl.
    inversion Hl as [|? ? He Hl']; subst. destruct (negb (is_ghost e)); auto. cbn [map]. constructor; auto.
    intros H. apply in_map_iff in H as (f & E & Hf). apply filter_In in Hf as [Hf _].
    apply He. rewrite <- E. apply in_map, Hf.
  - apply IH; [auto using in_cons|]. intros p q l' m k Hp Hq H1 H2.
    pose proof (D (S p) (S q) l' m k Hp Hq H1 H2). lia.
  - intros k H1 H2. apply in_concat in H2 as (ks & Hks & Hk). apply in_map_iff in Hks as (m & <- & Hm).
    apply In_nth_error in Hm as (q & Hq). pose proof (D 0 (S q) l m k eq_refl Hq H1 Hk). lia.
Qed.
Lemma ng_keys_all : forall w k, consistent w ->
  In k (concat (map ng_keys w)) <-> In k (all_keys w).
Proof.
  intros w k W.
  assert (In k (concat (map ng_keys w)) <-> exists p i e, at_ w p i e /\ estat e <> SGhost /\ ekey e = k) as E.
  { rewrite in_concat. split.
    - intros (ks & Hks & Hk). apply in_map_iff in Hks as (l & <- & Hl). unfold ng_keys in Hk.
      apply in_map_iff in Hk as (e & He & Hin). apply filter_In in Hin as [Hin Ng].
      apply In_nth_error in Hl as (p & Hp). apply In_nth_error in Hin as (i & Hi).
      exists p, i, e. split; [unfold at_, elems; rewrite (nth_error_nth _ _ [] Hp); exact Hi|]. split; auto.
      unfold is_ghost in Ng. intros E. rewrite E in Ng. discriminate.
    - intros (p & i & e & He & Ng & <-). exists (ng_keys (elems w p)). split.
      + apply in_map. apply nth_In. eapply in_world, He.
      + unfold ng_keys. apply in_map. apply filter_In. split; [eapply nth_error_In, He|].
        unfold is_ghost. destruct (estat e); auto. }
  rewrite E. unfold all_keys. rewrite in_map_iff. split.
  - intros (p & i & e & He & _ & <-). exists e. split; auto. apply in_concat_at. eauto.
  - intros (e & <- & He). apply in_concat_at in He as (p & i & He).
    assert (estat e = SGhost \/ estat e <> SGhost) as [Eg|Eg] by (destruct (estat e); auto; right; discriminate).
    + destruct (c_ghost w W p i e He Eg) as (i' & e' & He' & Hs & Hk & _).
      exists (eowner e), i', e'. split; auto. split; auto. congruence.
    + exists p, i, e. auto.
Qed.
Lemma ng_keys_perm : forall w, consistent w -> separate w ->
  Permutation (concat (map ng_keys w)) (nodup Z.eq_dec (all_keys w)).
Proof.
  intros w W Sep. apply NoDup_Permutation; [apply ng_keys_nodup; auto|apply NoDup_nodup|].
  intros k. rewrite nodup_In. apply ng_keys_all, W.
Qed.

(** a fold over the indices is a fold over the elements *)
Lemma fold_index : forall A B (l : list A) (h : B -> nat -> A -> B) (F : B -> nat -> B) b,
  (forall i e x, nth_error l i = Some e -> F x i = h x i e) ->
  fold_left F (seq 0 (length l)) b = fold_left (fun x ie => h x (fst ie) (snd ie)) (indexed l) b.
Proof.
  intros A B l h F b H. unfold indexed.
  assert (forall k b, (forall i e x, nth_error l i = Some e -> F x (k + i) = h x (k + i) e) ->
    fold_left F (seq k (length l)) b
    = fold_left (fun x ie => h x (fst ie) (snd ie)) (combine (seq k (length l)) l) b) as G.
  { clear. induction l as [|a r IH]; intros k b H; cbn [length seq combine fold_left]; auto.
    pose proof (H 0 a b eq_refl) as E. rewrite Nat.add_0_r in E. rewrite E. cbn [fst snd].
    apply IH. intros i e x Hi. specialize (H (S i) e x Hi). rewrite <- plus_n_Sm in H. exact H. }
  apply G. exact H.
Qed.
Lemma before_world : forall (f : nat -> Z) (h : list elem -> Z) w,
  (forall p, f p = h (elems w p)) -> before f (length w) = fold_right Z.add 0%Z (map h w).
Proof.
  intros f h w H. unfold before. f_equal. unfold elems in H.
  assert (forall k, (forall p, f (k + p) = h (nth p w [])) -> map f (seq k (length w)) = map h w) as G.
  { clear. induction w as [|l r IH]; intros k H; cbn [length seq map]; auto. f_equal.
    - specialize (H 0). rewrite Nat.add_0_r in H. exact H.
    - apply IH. intros p. specialize (H (S p)). rewrite <- plus_n_Sm in H. exact H. }
  apply G. exact H.
Qed.
Lemma nonghosts_length : forall w p, nonghosts w p = Z.of_nat (length (ng_keys (elems w p))).
Proof.
  intros w p. unfold nonghosts, ng_keys. rewrite map_length. f_equal.
  unfold all_items, ghost_at, status_at. generalize (elems w p). intros l.
  assert (forall k, length (filter (fun i => negb (match option_map estat (nth_error l (i - k)) with Some SGhost => true | _ => false end))
    (seq k (length l))) = length (filter (fun e => negb (is_ghost e)) l)) as G.
  { induction l as [|a r IH]; intros k; cbn [length seq filter]; auto.
    rewrite Nat.sub_diag. cbn [nth_error option_map].
    assert (filter (fun i => negb (match option_map estat (nth_error (a :: r) (i - k)) with Some SGhost => true | _ => false end))
      (seq (S k) (length r)) = filter (fun i => negb (match option_map estat (nth_error r (i - S k)) with Some SGhost => true | _ => false end))
      (seq (S k) (length r))) as ->.
    { apply filter_ext_in. intros i Hi. apply in_seq in Hi. replace (i - k) with (S (i - S k)) by lia. reflexivity. }
    unfold is_ghost at 1. destruct (estat a); cbn [negb length]; rewrite IH; reflexivity. }
  rewrite <- (G 0). f_equal. apply filter_ext. intros i. rewrite Nat.sub_0_r. reflexivity.
Qed.
Lemma scan_world : forall f (w : world), 0 < length w -> scan f (length w - 1) = before f (length w).
Proof. intros f w H. unfold scan, before. replace (S (length w - 1)) with (length w) by lia. reflexivity. Qed.

Lemma total_ok : forall w, 0 < length w -> consistent w -> separate w ->
  TotalNumberOf w = Z.of_nat (length (nodup Z.eq_dec (all_keys w))).
Proof.
  intros w Hn W Sep. unfold TotalNumberOf. rewrite scan_world by auto.
  rewrite (before_world _ (fun l => Z.of_nat (length (ng_keys l)))) by (intros; apply nonghosts_length).
  rewrite <- (Permutation_length (ng_keys_perm w W Sep)). clear.
  induction w as [|l r IH]; cbn [map fold_right concat]; auto. rewrite IH, app_length. lia.
Qed.

(** ** Integrate *)
Definition entry_of (entry : nat) (o : option (list Z)) : Z :=
  match o with Some arr => match nth_error arr entry with Some x => x | None => 0%Z end | None => 0%Z end.
Lemma sum_perm : forall l l', Permutation l l' -> fold_right Z.add 0%Z l = fold_right Z.add 0%Z l'.
Proof. intros l l' P. induction P; cbn [fold_right]; lia. Qed.

Lemma local_sum_ok : forall w entry d (val : Z -> option (list Z)) p,
  (forall i e, at_ w p i e -> estat e <> SGhost -> d p i = val (ekey e)) ->
  local_sum w entry d p = fold_right Z.add 0%Z (map (fun k => entry_of entry (val k)) (ng_keys (elems w p))).
Proof.
  intros w entry d val p H. unfold local_sum, all_items.
  rewrite (fold_index elem Z (elems w p)
    (fun s _ e => if negb (is_ghost e) then (s + entry_of entry (val (ekey e)))%Z else s)).
  - unfold indexed, ng_keys. rewrite map_map.
    assert (forall l k s, fold_left (fun (x : Z) (ie : nat * elem) =>
      if negb (is_ghost (snd ie)) then (x + entry_of entry (val (ekey (snd ie))))%Z else x)
      (combine (seq k (length l)) l) s
      = (s + fold_right Z.add 0 (map (fun x => entry_of entry (val (ekey x))) (filter (fun e => negb (is_ghost e)) l)))%Z) as G.
    { induction l as [|a r IH]; intros k s; cbn [length seq combine fold_left filter map fold_right fst snd]; [lia|].
      rewrite IH. destruct (negb (is_ghost a)); cbn [map fold_right]; lia. }
    rewrite G. lia.
  - intros i e x Hi. unfold ghost_at, status_at, is_ghost. rewrite Hi. cbn [option_map].
    assert (estat e = SGhost \/ estat e <> SGhost) as [E|E] by (destruct (estat e); auto; right; discriminate).
    + rewrite E. destruct (d p i); reflexivity.
    + rewrite (H i e Hi E). destruct (estat e); try congruence; cbn [negb];
        destruct (val (ekey e)) as [arr|]; cbn [entry_of]; try lia; destruct (nth_error arr entry); lia.
Qed.
Lemma integrate_ok : forall w entry d (val : Z -> option (list Z)), 0 < length w ->
  consistent w -> separate w ->
  (forall p i e, at_ w p i e -> estat e <> SGhost -> d p i = val (ekey e)) ->
  Integrate w entry d
  = fold_right Z.add 0%Z (map (fun k => entry_of entry (val k)) (nodup Z.eq_dec (all_keys w))).
Proof.
  intros w entry d val Hn W Sep H. unfold Integrate. rewrite scan_world by auto.
  rewrite (before_world _ (fun l => fold_right Z.add 0%Z (map (fun k => entry_of entry (val k)) (ng_keys l)))).
  2:{ intros p. apply local_sum_ok. intros i e He. apply (H p i e He). }
  rewrite <- (sum_perm _ _ (Permutation_map _ (ng_keys_perm w W Sep))). clear.
  induction w as [|l r IH]; cbn [map fold_right concat]; auto. rewrite IH, map_app, sum_app. lia.
Qed.
