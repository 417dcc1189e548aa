(** Properties of tables of a function ([keyval_table]). *)
From Coq Require Import List Arith ZArith Lia Bool Field QArith Qcanon.
From Verif Require Import Util OField Table_Spec Table_Model Table_Proofs.
Import ListNotations.
Open Scope nat_scope.

Section Props.
Variable F : ofield.
Add Field Ft : (fth F).
Notation le := (le F).

Lemma make_all : forall args vals, table F args vals -> make F args vals (length args) = of_lists F args vals.
Proof. intros args vals (_ & E & _). unfold make, of_lists. rewrite firstn_all. rewrite <- E at 1. rewrite firstn_all. reflexivity. Qed.

Lemma first_some : forall args vals, table F args vals -> exists a0 v0, nth_error args 0 = Some a0 /\ nth_error vals 0 = Some v0.
Proof.
  intros args vals T. destruct (nth_error args 0) as [a0|] eqn:A0; [|apply nth_error_None in A0; destruct T; lia].
  destruct (vals_some F _ _ _ _ T A0) as [v0 V0]. eauto.
Qed.

Lemma first_least : forall args vals a0 i a, table F args vals -> nth_error args 0 = Some a0 -> nth_error args i = Some a -> le a0 a.
Proof.
  intros args vals a0 [|i] a T A0 A; [rewrite A0 in A; injection A as <-; apply le_refl|].
  apply lt_le. destruct T as (_ & _ & T). apply (T 0 (S i)); auto. lia.
Qed.

(** The chosen segment, compared with a closed segment containing the argument. *)
Lemma same_or_next : forall args vals i j a b c d x, table F args vals ->
  nth_error args i = Some a -> nth_error args (S i) = Some b -> le a x ->
  nth_error args j = Some c -> nth_error args (S j) = Some d -> le c x -> ((x <? d)%F = true \/ S (S j) = length args) ->
  (le x b \/ S (S i) = length args) -> i = j \/ (j = S i /\ x = b).
Proof.
  intros args vals i j a b c d x T Ea Eb La Ec Ed Lc Ld Lb.
  assert (I : i <= j) by (eapply (seg_order F args vals i j); try eassumption; apply le_refl).
  destruct (Nat.eq_dec i j) as [|NE]; [now left|right].
  assert (JL : S j < length args) by (apply nth_error_Some; congruence).
  destruct Lb as [Lb|Lb]; [|lia].
  destruct (Nat.eq_dec j (S i)) as [->|NE2].
  - split; [reflexivity|]. rewrite Eb in Ec. injection Ec as <-. now apply (flt_total F).
  - exfalso. assert (X : (b <? c)%F = true) by (destruct T as (_ & _ & T); apply (T (S i) j); auto; lia).
    assert (Y : le c b) by (eapply le_trans; eassumption). unfold Table_Spec.le in Y. congruence.
Qed.

(** C135: every query is answered; below the first argument the value is the first
    value, between two neighbouring arguments it lies on the straight line through
    the two entries, and above the last argument on the line through the last two. *)
Theorem C135_interpolates : forall args vals x, table F args vals ->
  exists v, get_value F (make F args vals (length args)) x = Some v /\
    (forall a0 v0, nth_error args 0 = Some a0 -> nth_error vals 0 = Some v0 -> (x <? a0)%F = true -> v = v0) /\
    (forall i a b, nth_error args i = Some a -> nth_error args (S i) = Some b ->
       le a x -> (le x b \/ S (S i) = length args) -> on_line F args vals i x v).
Proof.
  intros args vals x T. rewrite make_all by exact T. destruct (first_some _ _ T) as (a0 & v0 & A0 & V0).
  destruct (x <? a0)%F eqn:X.
  - destruct (below F args vals x a0 v0 A0 V0 X) as (E & _). exists v0. split; [exact E|]. split.
    + intros a1 v1 A1 V1 _. congruence.
    + intros i a b Ea Eb La _. exfalso. assert (Y : le a0 x) by (apply le_trans with a; [apply (first_least args vals a0 i a T A0 Ea)|exact La]).
      unfold Table_Spec.le in Y. congruence.
  - destruct (queries F args vals x a0 T A0 X) as (j & c & d & u & w & Ec & Ed & Eu & Ew & Lc & Ld & E & _).
    eexists. split; [exact E|]. split.
    + intros a1 v1 A1 V1 Y. congruence.
    + intros i a b Ea Eb La Lb.
      destruct (same_or_next args vals i j a b c d x T Ea Eb La Ec Ed Lc Ld Lb) as [<-|[-> ->]].
      * rewrite Ea in Ec; injection Ec as <-. rewrite Eb in Ed; injection Ed as <-.
        exists a, b, u, w. repeat (split; [assumption|]). assert (N := pos_neq F _ (gap F _ _ _ _ _ T Ea Eb)). field. exact N.
      * rewrite Eb in Ec; injection Ec as <-. destruct (vals_some F _ _ _ _ T Ea) as [u' Eu'].
        exists a, b, u', u. repeat (split; [assumption|]). assert (N := pos_neq F _ (gap F _ _ _ _ _ T Eb Ed)). field. exact N.
Qed.

(** C135: an argument of the table gives its value back. *)
Theorem C135_exact : forall args vals i a u, table F args vals -> nth_error args i = Some a -> nth_error vals i = Some u ->
  get_value F (make F args vals (length args)) a = Some u.
Proof.
  intros args vals i a u T A U. destruct (C135_interpolates args vals a T) as (v & E & _ & L). rewrite E. f_equal.
  assert (IL : i < length args) by (apply nth_error_Some; congruence).
  destruct (nth_error args (S i)) as [b|] eqn:B.
  - destruct (L i a b A B (le_refl F a)) as (a' & b' & u' & w' & A' & B' & U' & W' & Q).
    { left. apply lt_le. destruct T as (_ & _ & T). apply (T i (S i)); auto. }
    rewrite A in A'; injection A' as <-. rewrite B in B'; injection B' as <-. rewrite U in U'; injection U' as <-.
    assert (N := pos_neq F _ (gap F _ _ _ _ _ T A B)).
    assert (Z' : ((v - u) * (b - a) = 0)%F) by (rewrite Q; ring).
    replace v with (u + (v - u) * (b - a) / (b - a))%F by (field; exact N). rewrite Z'. field. exact N.
  - apply nth_error_None in B. destruct i as [|i]; [destruct T; lia|].
    destruct (nth_error args i) as [c|] eqn:C; [|apply nth_error_None in C; lia].
    destruct (L i c a C A) as (a' & b' & u' & w' & A' & B' & U' & W' & Q).
    { apply lt_le. destruct T as (_ & _ & T). apply (T i (S i)); auto. }
    { left. apply le_refl. }
    rewrite C in A'; injection A' as <-. rewrite A in B'; injection B' as <-. rewrite U in W'; injection W' as <-.
    assert (N := pos_neq F _ (gap F _ _ _ _ _ T C A)).
    replace v with (u' + (v - u') * (a - c) / (a - c))%F by (field; exact N). rewrite Q. field. exact N.
Qed.

(** C136: the derivative is zero below the first argument and otherwise the slope
    of the segment that starts at or before the argument. *)
Theorem C136_derivative : forall args vals x, table F args vals ->
  exists d, get_derivative F (make F args vals (length args)) x = Some d /\
    (forall a0, nth_error args 0 = Some a0 -> (x <? a0)%F = true -> d = 0%F) /\
    (forall i a b, nth_error args i = Some a -> nth_error args (S i) = Some b ->
       le a x -> ((x <? b)%F = true \/ S (S i) = length args) -> slope F args vals i d).
Proof.
  intros args vals x T. rewrite make_all by exact T. destruct (first_some _ _ T) as (a0 & v0 & A0 & V0).
  destruct (x <? a0)%F eqn:X.
  - destruct (below F args vals x a0 v0 A0 V0 X) as (_ & E & _). exists 0%F. split; [exact E|]. split; [auto|].
    intros i a b Ea Eb La _. exfalso. assert (Y : le a0 x) by (apply le_trans with a; [apply (first_least args vals a0 i a T A0 Ea)|exact La]).
    unfold Table_Spec.le in Y. congruence.
  - destruct (queries F args vals x a0 T A0 X) as (j & c & d & u & w & Ec & Ed & Eu & Ew & Lc & Ld & _ & E & _).
    eexists. split; [exact E|]. split; [intros; congruence|].
    intros i a b Ea Eb La Lb.
    assert (i = j) as <-.
    { apply Nat.le_antisymm; eapply (seg_order F args vals); try eassumption; apply le_refl. }
    rewrite Ea in Ec; injection Ec as <-. rewrite Eb in Ed; injection Ed as <-.
    exists a, b, u, w. repeat (split; [assumption|]). assert (N := pos_neq F _ (gap F _ _ _ _ _ T Ea Eb)). field. exact N.
Qed.

(** C136: the pair of value and derivative is the value and the derivative. *)
Theorem C136_both : forall args vals x, table F args vals ->
  exists v d, get_both F (make F args vals (length args)) x = Some (v, d) /\
    get_value F (make F args vals (length args)) x = Some v /\
    get_derivative F (make F args vals (length args)) x = Some d.
Proof.
  intros args vals x T. rewrite make_all by exact T. destruct (first_some _ _ T) as (a0 & v0 & A0 & V0).
  destruct (x <? a0)%F eqn:X.
  - destruct (below F args vals x a0 v0 A0 V0 X) as (E1 & E2 & E3). eauto.
  - destruct (queries F args vals x a0 T A0 X) as (j & c & d & u & w & Ec & Ed & Eu & Ew & Lc & Ld & E1 & E2 & E3).
    eexists _, _. split; [exact E3|]. split; [|exact E2]. rewrite E1. f_equal.
    assert (N := pos_neq F _ (gap F _ _ _ _ _ T Ec Ed)). field. exact N.
Qed.

(** C136: within a segment the value grows by the derivative times the step. *)
Theorem C136_increment : forall args vals i a b x y d vx vy, table F args vals ->
  nth_error args i = Some a -> nth_error args (S i) = Some b -> le a x -> (x <? b)%F = true -> le a y -> le y b ->
  get_derivative F (make F args vals (length args)) x = Some d ->
  get_value F (make F args vals (length args)) x = Some vx -> get_value F (make F args vals (length args)) y = Some vy ->
  (vy - vx = d * (y - x))%F.
Proof.
  intros args vals i a b x y d vx vy T A B LX LX' LY LY' ED EX EY.
  destruct (C136_derivative args vals x T) as (d' & ED' & _ & SL). rewrite ED in ED'; injection ED' as <-.
  destruct (C135_interpolates args vals x T) as (v1 & EX' & _ & L1). rewrite EX in EX'; injection EX' as <-.
  destruct (C135_interpolates args vals y T) as (v2 & EY' & _ & L2). rewrite EY in EY'; injection EY' as <-.
  destruct (SL i a b A B LX (or_introl LX')) as (a1 & b1 & u1 & w1 & A1 & B1 & U1 & W1 & Q1).
  destruct (L1 i a b A B LX (or_introl (lt_le F _ _ LX'))) as (a2 & b2 & u2 & w2 & A2 & B2 & U2 & W2 & Q2).
  destruct (L2 i a b A B LY (or_introl LY')) as (a3 & b3 & u3 & w3 & A3 & B3 & U3 & W3 & Q3).
  assert (a1 = a) by congruence. assert (a2 = a) by congruence. assert (a3 = a) by congruence.
  assert (b1 = b) by congruence. assert (b2 = b) by congruence. assert (b3 = b) by congruence.
  assert (u2 = u1) by congruence. assert (u3 = u1) by congruence. assert (w2 = w1) by congruence. assert (w3 = w1) by congruence. subst.
  assert (N := pos_neq F _ (gap F _ _ _ _ _ T A B)).
  assert (Z' : ((vy - vx) * (b - a) = (d * (y - x)) * (b - a))%F).
  { replace ((vy - vx) * (b - a))%F with ((vy - u1) * (b - a) - (vx - u1) * (b - a))%F by ring. rewrite Q2, Q3, <- Q1. ring. }
  replace (vy - vx)%F with ((vy - vx) * (b - a) / (b - a))%F by (field; exact N). rewrite Z'. field. exact N.
Qed.

(** C137: increasing values give an increasing function, also outside the table. *)
Theorem C137_monotone : forall args vals x y v v', table F args vals ->
  (forall i u w, nth_error vals i = Some u -> nth_error vals (S i) = Some w -> le u w) -> le x y ->
  get_value F (make F args vals (length args)) x = Some v ->
  get_value F (make F args vals (length args)) y = Some v' -> le v v'.
Proof. intros args vals x y v v' T M L. rewrite !make_all by exact T. now apply value_mono. Qed.

(** C137: up to the last argument the value stays within any bounds on the values
    of the table. *)
Theorem C137_bounded : forall args vals x v lo hi, table F args vals ->
  (forall i u, nth_error vals i = Some u -> le lo u /\ le u hi) ->
  (forall b, nth_error args (length args - 1) = Some b -> le x b) ->
  get_value F (make F args vals (length args)) x = Some v -> le lo v /\ le v hi.
Proof.
  intros args vals x v lo hi T B L. rewrite make_all by exact T. destruct (first_some _ _ T) as (a0 & v0 & A0 & V0). intro E.
  destruct (x <? a0)%F eqn:X.
  - destruct (below F args vals x a0 v0 A0 V0 X) as (E' & _). rewrite E in E'; injection E' as ->. eauto.
  - destruct (queries F args vals x a0 T A0 X) as (j & c & d & u & w & Ec & Ed & Eu & Ew & Lc & Ld & E' & _).
    rewrite E in E'; injection E' as ->.
    assert (LD : le x d).
    { destruct Ld as [Ld|Ld]; [now apply lt_le|]. apply L. now replace (length args - 1) with (S j) by lia. }
    assert (G := gap F _ _ _ _ _ T Ec Ed). assert (N := pos_neq F _ G).
    destruct (B _ _ Eu) as [U1 U2]. destruct (B _ _ Ew) as [W1 W2].
    apply le_sub0 in U1. apply le_sub0 in U2. apply le_sub0 in W1. apply le_sub0 in W2. apply le_sub0 in Lc. apply le_sub0 in LD.
    split; apply le_sub0.
    + replace (u + (w - u) * (x - c) / (d - c) - lo)%F with (((u - lo) * (d - x) + (w - lo) * (x - c)) / (d - c))%F by (field; exact N).
      apply div_nneg; [|exact G]. apply add_nneg; now apply mul_nneg.
    + replace (hi - (u + (w - u) * (x - c) / (d - c)))%F with (((hi - u) * (d - x) + (hi - w) * (x - c)) / (d - c))%F by (field; exact N).
      apply div_nneg; [|exact G]. apply add_nneg; now apply mul_nneg.
Qed.

(** C138: a table with one entry, and an empty one, cannot be evaluated: at or above
    its only argument the first reads outside the arrays, the second always does. *)
Theorem C138_single_entry_refuted : forall a v x, (x <? a)%F = false ->
  get_value F (make F [a] [v] 1) x = None /\ get_derivative F (make F [a] [v] 1) x = None.
Proof.
  intros a v x H. assert (B : binary_search F (make F [a] [v] 1) x = Some (-1)%Z).
  { unfold binary_search, make. cbn. rewrite H. destruct (a <? x)%F; reflexivity. }
  unfold get_value, get_derivative. cbn [at_]. unfold at_ at 1 3. cbn -[binary_search segment flt]. rewrite H, B. split; reflexivity.
Qed.

Theorem C138_empty : forall x, get_value F (make F [] [] 0) x = None /\ get_derivative F (make F [] [] 0) x = None.
Proof. intros x. split; reflexivity. Qed.

(** C138: assignment makes the left table equal to the right one and touches no
    other; the two may not be the same table. *)
Theorem C138_assign : forall ts x y t other, x <> y -> nth_error ts x = Some t -> nth_error ts y = Some other ->
  length (kv_args F other) = kv_size F other -> length (kv_vals F other) = kv_size F other ->
  nth_error (assign F ts x y) x = Some other /\
  (forall z, z <> x -> nth_error (assign F ts x y) z = nth_error ts z) /\ length (assign F ts x y) = length ts.
Proof.
  intros ts x y t other N X Y LA LV. unfold assign. rewrite X.
  assert (XL : x < length ts) by (apply nth_error_Some; congruence).
  rewrite nth_error_lset_ne by auto. rewrite Y.
  assert (E : mk_kv F (firstn (kv_size F other) (kv_args F other)) (firstn (kv_size F other) (kv_vals F other)) (kv_size F other) = other).
  { destruct other as [oa ov on]. cbn [kv_args kv_vals kv_size] in *. rewrite <- LA at 1. rewrite firstn_all. rewrite <- LV at 1. now rewrite firstn_all. }
  rewrite E. split; [|split].
  - rewrite nth_error_lset_eq; [reflexivity|]. now rewrite lset_length.
  - intros z NZ. rewrite !nth_error_lset_ne by auto. reflexivity.
  - now rewrite !lset_length.
Qed.

Theorem C138_self_assign_refuted : forall ts x t, nth_error ts x = Some t ->
  nth_error (assign F ts x x) x = Some (mk_kv F [] [] 0).
Proof.
  intros ts x t X. unfold assign. rewrite X. assert (XL : x < length ts) by (apply nth_error_Some; congruence).
  rewrite nth_error_lset_eq by exact XL. rewrite nth_error_lset_eq by (now rewrite lset_length). reflexivity.
Qed.

End Props.

(** C135: above the last argument the value is not held constant, unlike below the
    first. *)
Theorem C135_held_above_refuted : ~ forall (F : ofield) args vals x b w, table F args vals ->
  nth_error args (length args - 1) = Some b -> nth_error vals (length args - 1) = Some w -> (b <? x)%F = true ->
  get_value F (make F args vals (length args)) x = Some w.
Proof.
  intro H.
  set (q := fun z : Z => Q2Qc (inject_Z z) : Qc_ofield).
  assert (T : table Qc_ofield [q 0; q 1]%Z [q 0; q 1]%Z).
  { split; [cbn; lia|]. split; [reflexivity|]. intros i j a b I A B.
    destruct j as [|[|[|j]]]; try lia; destruct i as [|[|i]]; try lia; cbn in A, B; try discriminate; try (destruct i; discriminate); injection A as <-; injection B as <-; reflexivity. }
  specialize (H Qc_ofield [q 0; q 1]%Z [q 0; q 1]%Z (q 2%Z) (q 1%Z) (q 1%Z) T eq_refl eq_refl eq_refl).
  vm_compute in H. discriminate.
Qed.

Definition q (z : Z) : Qc_ofield := Q2Qc (inject_Z z).

(** A table of four entries with unequal steps. *)
Example C135_nonvacuous : table Qc_ofield [q 0; q 1; q 3; q 4]%Z [q 5; q 7; q 7; q 10]%Z.
Proof.
  split; [cbn; lia|]. split; [reflexivity|]. intros i j a b I A B.
  destruct j as [|[|[|[|[|j]]]]]; try lia; try discriminate; destruct i as [|[|[|[|i]]]]; try lia; cbn in A, B;
    try discriminate; injection A as <-; injection B as <-; reflexivity.
Qed.

Example C135_nonvacuous_values :
  map (fun z => get_value Qc_ofield (make Qc_ofield [q 0; q 1; q 3; q 4]%Z [q 5; q 7; q 7; q 10]%Z 4) (q z)) [-1; 0; 1; 2; 3; 4; 5]%Z =
  map (fun z => Some (q z)) [5; 5; 7; 7; 7; 10; 13]%Z.
Proof. vm_compute. reflexivity. Qed.

Example C136_nonvacuous :
  map (fun z => option_map (fun p => (this (fst p), this (snd p)))
         (get_both Qc_ofield (make Qc_ofield [q 0; q 1; q 3; q 4]%Z [q 5; q 7; q 7; q 10]%Z 4) (q z))) [-1; 0; 1; 3; 4; 5]%Z =
  map (fun p => Some (inject_Z (fst p), inject_Z (snd p))) [(5, 0); (5, 2); (7, 0); (7, 3); (10, 3); (13, 3)]%Z.
Proof. vm_compute. reflexivity. Qed.

Example C137_nonvacuous : forall i u w, nth_error [q 5; q 7; q 7; q 10]%Z i = Some u ->
  nth_error [q 5; q 7; q 7; q 10]%Z (S i) = Some w -> le Qc_ofield u w /\ le Qc_ofield (q 5%Z) u /\ le Qc_ofield u (q 10%Z).
Proof.
  intros i u w A B. destruct i as [|[|[|[|i]]]]; cbn in A, B; try discriminate; try (destruct i; discriminate); injection A as <-; injection B as <-; repeat split; reflexivity.
Qed.

Example C138_nonvacuous :
  let s := make Qc_ofield [q 0; q 1]%Z [q 2; q 3]%Z 2 in let t := make Qc_ofield [q 4; q 5; q 6]%Z [q 7; q 8; q 9]%Z 3 in
  assign Qc_ofield [s; t] 0 1 = [t; t] /\ length (kv_args Qc_ofield t) = kv_size Qc_ofield t.
Proof. split; reflexivity. Qed.

Print Assumptions C135_interpolates.
Print Assumptions C135_exact.
Print Assumptions C135_held_above_refuted.
Print Assumptions C136_derivative.
Print Assumptions C136_both.
Print Assumptions C136_increment.
Print Assumptions C137_monotone.
Print Assumptions C137_bounded.
Print Assumptions C138_single_entry_refuted.
Print Assumptions C138_empty.
Print Assumptions C138_assign.
Print Assumptions C138_self_assign_refuted.
