(** Properties C28 and C30. *)
From Coq Require Import List Bool Arith Lia Ring ZArith QArith Qcanon Sorted.
Close Scope Q_scope. Close Scope Qc_scope. Open Scope nat_scope.
From Verif Require Import Util Row_Model Row_Proofs.
Import ListNotations.

(** ** Specification *)

(** Value of a list of entries at an index: the sum of the values stored with it. *)
Definition at_index {R K : Type} (r0 : R) (radd : R -> R -> R)
  (eqd : forall a b : K, {a = b} + {a <> b}) (l : list (K * R)) (i : K) : R :=
  fold_right radd r0 (map snd (filter (fun e => if eqd (fst e) i then true else false) l)).

(** Order of pairs of columns. *)
Definition pair_lt (p q : nat * nat) : Prop := fst p < fst q \/ (fst p = fst q /\ snd p < snd q).
Definition pair_le (p q : nat * nat) : Prop := pair_lt p q \/ p = q.
Definition pair_dec : forall a b : nat * nat, {a = b} + {a <> b}.
Proof. decide equality; apply Nat.eq_dec. Defined.

(** Linear and quadratic form of a gradient row and of a Hessian row, an entry
    (i,j) being the coefficient of x_i x_j. *)
Definition linear_form {R} (r0 : R) (radd rmul : R -> R -> R) (J : list (nat * R)) (x : nat -> R) : R :=
  fold_right (fun e s => radd (rmul (x (fst e)) (snd e)) s) r0 J.
Definition quadratic_form {R} (r0 : R) (radd rmul : R -> R -> R) (H : list ((nat * nat) * R)) (x : nat -> R) : R :=
  fold_right (fun e s => radd (rmul (rmul (x (fst (fst e))) (x (snd (fst e)))) (snd e)) s) r0 H.

Section P.
Context (R : Type) (r0 r1 : R) (radd rmul rsub : R -> R -> R) (ropp : R -> R).
Context (Rth : ring_theory r0 r1 radd rmul rsub ropp eq).
Add Ring Rring2 : Rth.
Infix "+" := radd.
Infix "*" := rmul.

Lemma sorted_transfer : forall K (r s : K -> K -> Prop) l, (forall a b, r a b -> s a b) ->
  StronglySorted r l -> StronglySorted s l.
Proof.
  intros K r s l H Q. induction Q as [|x l Q IH F]; constructor; auto.
  eapply Forall_impl; [|exact F]. intros y. apply H.
Qed.
Lemma nle_k : forall a b, a <= b -> kle Nat.ltb a b.
Proof. intros. apply Nat.ltb_ge. auto. Qed.
Lemma k_nle : forall a b, kle Nat.ltb a b -> a <= b.
Proof. intros a b H. now apply Nat.ltb_ge in H. Qed.
Lemma nlt_k : forall a b, a < b -> klt Nat.ltb a b.
Proof. intros. now apply Nat.ltb_lt. Qed.
Lemma k_nlt : forall a b, klt Nat.ltb a b -> a < b.
Proof. intros a b H. now apply Nat.ltb_lt in H. Qed.
Lemma plt_k : forall a b, pair_lt a b -> klt hlt a b.
Proof. intros a b H. now apply hlt_spec. Qed.
Lemma k_plt : forall a b, klt hlt a b -> pair_lt a b.
Proof. intros a b H. now apply hlt_spec in H. Qed.
Lemma ple_k : forall a b, pair_le a b -> kle hlt a b.
Proof. intros a b H. apply hle_spec. unfold pair_le, pair_lt in H. destruct H as [H| ->]; lia. Qed.
Lemma k_ple : forall a b, kle hlt a b -> pair_le a b.
Proof.
  intros [a1 a2] [b1 b2] H. apply hle_spec in H. unfold pair_le, pair_lt. cbn [fst snd] in *.
  destruct (Nat.eq_dec a1 b1); destruct (Nat.eq_dec a2 b2); subst; auto; left; lia.
Qed.

Lemma merge_gen : forall K keqb kltb (eqd : forall a b : K, {a = b} + {a <> b})
  (ks : forall a b, keqb a b = true <-> a = b)
  (tr : forall a b c, kltb a b = true -> kltb b c = true -> kltb a c = true)
  (tt : forall a b, kltb a b = false -> a <> b -> kltb b a = true)
  (ir : forall a, kltb a a = false) alpha beta (l r : list (K * R)),
  le_sorted kltb l -> le_sorted kltb r ->
  exists o, merge_sorted radd rmul keqb kltb alpha l beta r = Some o /\
    (forall i, at_index r0 radd eqd o i = alpha * at_index r0 radd eqd l i + beta * at_index r0 radd eqd r i) /\
    le_sorted kltb o /\ (lt_sorted kltb l -> lt_sorted kltb r -> lt_sorted kltb o) /\
    length o <= length l + length r.
Proof.
  intros K keqb kltb eqd ks tr tt ir alpha beta l r Hl Hr.
  destruct (merge_sorted radd rmul keqb kltb alpha l beta r) as [o|] eqn:E.
  2:{ exfalso. unfold merge_sorted in E. rewrite (proj2 (is_sorted_spec keqb kltb ks tr tt ir l) Hl) in E.
      rewrite (proj2 (is_sorted_spec keqb kltb ks tr tt ir r) Hr) in E. cbn [andb] in E.
      destruct (merge_both radd rmul keqb kltb alpha beta l r []) as [[? ?] ?]. discriminate. }
  exists o. split; auto. split; [|split; [|split]].
  - intro i. change (@at_index R K r0 radd eqd) with (total r0 radd eqd). rewrite !(total_lin _ _ _ _ _ _ Rth).
    unfold merge_sorted in E. destruct (_ && _); [|discriminate].
    destruct (merge_both radd rmul keqb kltb alpha beta l r []) as [[ll rr] acc] eqn:M. injection E as <-.
    destruct (merge_both_lin _ _ _ _ _ _ Rth keqb kltb ks (ind r0 r1 eqd i) _ _ _ _ _ _ _ _ M) as [ME _].
    rewrite (lin_rev _ _ _ _ _ _ Rth).
    rewrite !(merge_rest_lin _ _ _ _ _ _ Rth keqb ks).
    change (lin r0 radd rmul (ind r0 r1 eqd i) []) with r0 in ME.
    transitivity (r0 + (alpha * lin r0 radd rmul (ind r0 r1 eqd i) l + beta * lin r0 radd rmul (ind r0 r1 eqd i) r)); [|ring].
    rewrite <- ME. ring.
  - unfold le_sorted. eapply (merge_sorted_rel _ _ _ _ _ _ Rth keqb kltb ks tr tt ir (kle kltb)); [left; tauto|exact Hl|exact Hr|exact E].
  - intros Sl Sr. eapply (merge_sorted_rel _ _ _ _ _ _ Rth keqb kltb ks tr tt ir (klt kltb)); [right; tauto|exact Sl|exact Sr|exact E].
  - unfold merge_sorted in E. destruct (_ && _); [|discriminate].
    destruct (merge_both radd rmul keqb kltb alpha beta l r []) as [[ll rr] acc] eqn:M. injection E as <-.
    apply (merge_both_len radd rmul keqb kltb ks) in M. rewrite rev_length.
    pose proof (merge_rest_len radd rmul keqb kltb ks beta rr (merge_rest radd rmul keqb alpha ll acc)).
    pose proof (merge_rest_len radd rmul keqb kltb ks alpha ll acc). cbn [length] in M. lia.
Qed.

(** C28: MergeSortedRows of two rows with nondecreasing columns does not fail,
    writes at most as many entries as the output was sized for, and for every
    column stores alpha*left + beta*right; the columns of the result are
    nondecreasing, and distinct if they were in the operands. *)
Theorem C28_merge_sorted_rows : forall (alpha beta : R) (left right : list (nat * R)),
  StronglySorted le (map fst left) -> StronglySorted le (map fst right) ->
  exists o, merge_sorted radd rmul Nat.eqb Nat.ltb alpha left beta right = Some o /\
    (forall i, at_index r0 radd Nat.eq_dec o i =
       alpha * at_index r0 radd Nat.eq_dec left i + beta * at_index r0 radd Nat.eq_dec right i) /\
    StronglySorted le (map fst o) /\
    (StronglySorted lt (map fst left) -> StronglySorted lt (map fst right) -> StronglySorted lt (map fst o)) /\
    length o <= length left + length right.
Proof.
  intros alpha beta l r Hl Hr.
  destruct (merge_gen nat Nat.eqb Nat.ltb Nat.eq_dec nat_eqb_spec nat_ltb_trans nat_ltb_total Nat.ltb_irrefl
    alpha beta l r) as (o & A1 & A2 & A3 & A4 & A5).
  - eapply sorted_transfer; [|exact Hl]. exact nle_k.
  - eapply sorted_transfer; [|exact Hr]. exact nle_k.
  - exists o. split; auto. split; auto. split; [|split; auto].
    + eapply sorted_transfer; [|exact A3]. exact k_nle.
    + intros Sl Sr. eapply sorted_transfer; [|apply A4]; [exact k_nlt| |].
      * eapply sorted_transfer; [|exact Sl]. exact nlt_k.
      * eapply sorted_transfer; [|exact Sr]. exact nlt_k.
Qed.

(** The same for rows of second derivatives. *)
Theorem C28_merge_sorted_hessian_rows : forall (alpha beta : R) (left right : list ((nat * nat) * R)),
  StronglySorted pair_le (map fst left) -> StronglySorted pair_le (map fst right) ->
  exists o, merge_sorted radd rmul heq hlt alpha left beta right = Some o /\
    (forall i, at_index r0 radd pair_dec o i =
       alpha * at_index r0 radd pair_dec left i + beta * at_index r0 radd pair_dec right i) /\
    StronglySorted pair_le (map fst o) /\
    (StronglySorted pair_lt (map fst left) -> StronglySorted pair_lt (map fst right) -> StronglySorted pair_lt (map fst o)) /\
    length o <= length left + length right.
Proof.
  intros alpha beta l r Hl Hr.
  destruct (merge_gen hindex heq hlt pair_dec heq_spec hlt_trans hlt_total hlt_irr
    alpha beta l r) as (o & A1 & A2 & A3 & A4 & A5).
  - eapply sorted_transfer; [|exact Hl]. exact ple_k.
  - eapply sorted_transfer; [|exact Hr]. exact ple_k.
  - exists o. split; auto. split; auto. split; [|split; auto].
    + eapply sorted_transfer; [|exact A3]. exact k_ple.
    + intros Sl Sr. eapply sorted_transfer; [|apply A4]; [exact k_plt| |].
      * eapply sorted_transfer; [|exact Sl]. exact plt_k.
      * eapply sorted_transfer; [|exact Sr]. exact plt_k.
Qed.

(** Element access of a row with distinct columns: get_safe reads the value at a
    column (0 if absent), the const operator[] works exactly on stored columns,
    and an update through operator[] changes that column only, adding it if it
    was absent. *)
Theorem C28_row_access : forall (l : list (nat * R)) (i : nat) (f : R -> R),
  NoDup (map fst l) ->
  get_safe r0 Nat.eqb l i = at_index r0 radd Nat.eq_dec l i /\
  ((exists v, get_at Nat.eqb l i = Some v) <-> In i (map fst l)) /\
  NoDup (map fst (upd_at r0 Nat.eqb l i f)) /\
  (forall k, In k (map fst (upd_at r0 Nat.eqb l i f)) <-> k = i \/ In k (map fst l)) /\
  (forall j, at_index r0 radd Nat.eq_dec (upd_at r0 Nat.eqb l i f) j =
     if Nat.eq_dec j i then f (at_index r0 radd Nat.eq_dec l i) else at_index r0 radd Nat.eq_dec l j).
Proof.
  intros l i f H. split; [|split; [|split; [|split]]].
  - apply (get_safe_total _ _ _ _ _ _ Rth Nat.eq_dec Nat.eqb nat_eqb_spec); auto.
  - apply (get_at_some Nat.eqb nat_eqb_spec).
  - apply (upd_at_keys r0 Nat.eqb nat_eqb_spec); auto.
  - apply (upd_at_keys r0 Nat.eqb nat_eqb_spec); auto.
  - intro j. apply (upd_at_total _ _ _ _ _ _ Rth Nat.eq_dec Nat.eqb nat_eqb_spec); auto.
Qed.

Lemma C30_gen : forall (half : R), half + half = r1 ->
  forall (a : R) (JL JR : list (nat * R)) (H : list (R * list ((nat * nat) * R))),
  StronglySorted lt (map fst JL) -> StronglySorted lt (map fst JR) -> (JL = [] <-> JR = []) ->
  Forall (fun x => StronglySorted pair_le (map fst (snd x))) H ->
  exists o, merge_jh radd rmul half a JL JR H = Some o /\ StronglySorted pair_lt (map fst o) /\
    (forall i j, i <= j -> at_index r0 radd pair_dec o (i, j) =
       a * (at_index r0 radd Nat.eq_dec JL i * at_index r0 radd Nat.eq_dec JR j +
            (if Nat.eq_dec i j then r0 else at_index r0 radd Nat.eq_dec JL j * at_index r0 radd Nat.eq_dec JR i)) +
       fold_right (fun x s => fst x * at_index r0 radd pair_dec (snd x) (i, j) + s) r0 H) /\
    (forall i j, j < i -> at_index r0 radd pair_dec o (i, j) =
       fold_right (fun x s => fst x * at_index r0 radd pair_dec (snd x) (i, j) + s) r0 H) /\
    (forall x, quadratic_form r0 radd rmul o x =
       a * (linear_form r0 radd rmul JL x * linear_form r0 radd rmul JR x) +
       fold_right (fun h s => fst h * quadratic_form r0 radd rmul (snd h) x + s) r0 H).
Proof.
  intros half Hh a JL JR H SL SR HE HS.
  assert (SL' : lt_sorted Nat.ltb JL) by (eapply sorted_transfer; [|exact SL]; exact nlt_k).
  assert (SR' : lt_sorted Nat.ltb JR) by (eapply sorted_transfer; [|exact SR]; exact nlt_k).
  destruct (merge_jh_ok r0 r1 radd rmul rsub ropp Rth half JL JR a SL' SR' Hh H HE) as (o & A1 & A2 & A3).
  { eapply Forall_impl; [|exact HS]. intros x Hx. cbn in Hx. unfold le_sorted. eapply sorted_transfer; [|exact Hx]. exact ple_k. }
  exists o. split; auto. split; [eapply sorted_transfer; [|exact A2]; exact k_plt|].
  assert (T : forall l ij, at_index r0 radd pair_dec l ij = lin r0 radd rmul (ind r0 r1 hdec ij) l).
  { intros l ij. rewrite <- (total_lin _ _ _ _ _ _ Rth). reflexivity. }
  split; [|split].
  - intros i j Hij. rewrite T, A3. f_equal.
    + f_equal. exact (pair_sum_entry r0 r1 radd rmul rsub ropp Rth i j JL JR Hij).
    + unfold sumf. induction H as [|x H' IH]; auto. cbn [fold_right]. rewrite T. f_equal.
      clear - T. induction H' as [|y H' IH]; auto. cbn [fold_right]. now rewrite T, IH.
  - intros i j Hij. rewrite T, A3. rewrite (pair_sum_low r0 r1 radd rmul rsub ropp Rth i j JL JR Hij).
    transitivity (sumf r0 radd (fun x => fst x * lin r0 radd rmul (ind r0 r1 hdec (i, j)) (snd x)) H); [ring|].
    unfold sumf. clear - T. induction H as [|y H' IH]; auto. cbn [fold_right]. now rewrite T, IH.
  - intro x. specialize (A3 (fun ij => x (fst ij) * x (snd ij))).
    rewrite (pair_sum_quad r0 r1 radd rmul rsub ropp Rth x JL JR) in A3. exact A3.
Qed.

(** C30: MergeJacobianHessian.  For gradient rows with increasing columns, both
    empty or both not, and Hessian rows with nondecreasing indices, the call
    does not leave any row and returns strictly increasing indices; entry (i,j),
    i <= j, is a*(JL_i JR_j + JL_j JR_i) (a*JL_i*JR_i on the diagonal) plus
    b*HL_ij + c*HR_ij, i.e. the quadratic form of the result is
    a * JL(x) * JR(x) + b * HL(x,x) + c * HR(x,x). *)
Theorem C30_merge_jacobian_hessian : forall (half : R), half + half = r1 ->
  forall (a : R) (JL JR : list (nat * R)) (b : R) (HL : list ((nat * nat) * R)) (c : R) (HR : list ((nat * nat) * R)),
  StronglySorted lt (map fst JL) -> StronglySorted lt (map fst JR) -> (JL = [] <-> JR = []) ->
  StronglySorted pair_le (map fst HL) -> StronglySorted pair_le (map fst HR) ->
  exists o, merge_jh2 radd rmul half a JL JR b HL c HR = Some o /\ StronglySorted pair_lt (map fst o) /\
    (forall i j, at_index r0 radd pair_dec o (i, j) =
       (if i <=? j then
          a * (at_index r0 radd Nat.eq_dec JL i * at_index r0 radd Nat.eq_dec JR j +
            (if Nat.eq_dec i j then r0 else at_index r0 radd Nat.eq_dec JL j * at_index r0 radd Nat.eq_dec JR i))
        else r0) +
       (b * at_index r0 radd pair_dec HL (i, j) + c * at_index r0 radd pair_dec HR (i, j))) /\
    (forall x, quadratic_form r0 radd rmul o x =
       a * (linear_form r0 radd rmul JL x * linear_form r0 radd rmul JR x) +
       (b * quadratic_form r0 radd rmul HL x + c * quadratic_form r0 radd rmul HR x)).
Proof.
  intros half Hh a JL JR b HL c HR SL SR HE H1 H2.
  destruct (C30_gen half Hh a JL JR [(b, HL); (c, HR)] SL SR HE) as (o & A1 & A2 & A3 & A4 & A5).
  { constructor; auto. }
  exists o. split; [exact A1|]. split; auto. split.
  - intros i j. destruct (Nat.leb_spec i j) as [L|L].
    + rewrite A3 by auto. cbn [fold_right fst snd]. ring.
    + rewrite A4 by auto. cbn [fold_right fst snd]. ring.
  - intro x. rewrite A5. cbn [fold_right fst snd]. ring.
Qed.

(** The overload with one Hessian. *)
Theorem C30_merge_jacobian_one_hessian : forall (half : R), half + half = r1 ->
  forall (a : R) (JL JR : list (nat * R)) (b : R) (H : list ((nat * nat) * R)),
  StronglySorted lt (map fst JL) -> StronglySorted lt (map fst JR) -> (JL = [] <-> JR = []) ->
  StronglySorted pair_le (map fst H) ->
  exists o, merge_jh1 radd rmul half a JL JR b H = Some o /\ StronglySorted pair_lt (map fst o) /\
    (forall i j, at_index r0 radd pair_dec o (i, j) =
       (if i <=? j then
          a * (at_index r0 radd Nat.eq_dec JL i * at_index r0 radd Nat.eq_dec JR j +
            (if Nat.eq_dec i j then r0 else at_index r0 radd Nat.eq_dec JL j * at_index r0 radd Nat.eq_dec JR i))
        else r0) +
       b * at_index r0 radd pair_dec H (i, j)) /\
    (forall x, quadratic_form r0 radd rmul o x =
       a * (linear_form r0 radd rmul JL x * linear_form r0 radd rmul JR x) + b * quadratic_form r0 radd rmul H x).
Proof.
  intros half Hh a JL JR b H SL SR HE H1.
  destruct (C30_gen half Hh a JL JR [(b, H)] SL SR HE) as (o & A1 & A2 & A3 & A4 & A5).
  { constructor; auto. }
  exists o. split; [exact A1|]. split; auto. split.
  - intros i j. destruct (Nat.leb_spec i j) as [L|L].
    + rewrite A3 by auto. cbn [fold_right fst snd]. ring.
    + rewrite A4 by auto. cbn [fold_right fst snd]. ring.
  - intro x. rewrite A5. cbn [fold_right fst snd]. ring.
Qed.

(** With exactly one gradient row empty the call reads outside of it, whatever
    the other operands are. *)
Theorem C30_one_empty_refuted : forall (half a b c : R) (e : nat * R) (J : list (nat * R)) HL HR,
  merge_jh2 radd rmul half a [] (e :: J) b HL c HR = None /\
  merge_jh2 radd rmul half a (e :: J) [] b HL c HR = None.
Proof.
  intros half a b c [k v] J HL HR. unfold merge_jh2, merge_jh. split.
  - destruct (_ && _); auto.
  - destruct (_ && _); auto.
Qed.
End P.
Print Assumptions C28_merge_sorted_rows.
Print Assumptions C28_merge_sorted_hessian_rows.
Print Assumptions C28_row_access.
Print Assumptions C30_merge_jacobian_hessian.
Print Assumptions C30_merge_jacobian_one_hessian.
Print Assumptions C30_one_empty_refuted.

(** Concrete rows: integers, and rationals where 1/2 is needed. *)
Example C28_nonvacuous :
  merge_sorted Z.add Z.mul Nat.eqb Nat.ltb 2%Z [(1, 3%Z); (4, 5%Z)] 3%Z [(0, 1%Z); (4, 7%Z); (6, 1%Z)] =
    Some [(0, 3%Z); (1, 6%Z); (4, 31%Z); (6, 3%Z)] /\
  StronglySorted le (map fst [(1, 3%Z); (4, 5%Z)]) /\
  merge_sorted Z.add Z.mul Nat.eqb Nat.ltb 2%Z [(4, 3%Z); (1, 5%Z)] 3%Z [] = None /\
  upd_at 0%Z Nat.eqb [(4, 3%Z); (1, 5%Z)] 2 (Z.add 9) = [(4, 3%Z); (1, 5%Z); (2, 9%Z)].
Proof. split; [reflexivity|]. split; [repeat constructor|]. split; reflexivity. Qed.

Definition q (z : Z) : Qc := Q2Qc (inject_Z z).
Definition qhalf : Qc := Q2Qc (1 # 2).
Example C30_nonvacuous :
  option_map (map (fun e => (fst e, this (snd e))))
    (merge_jh2 Qcplus Qcmult qhalf (q 2) [(0, q 3); (2, q 5)] [(0, q 7); (1, q 1); (2, q 1)]
       (q 1) [((0, 2), q 4)] (q 10) [((2, 1), q 1)]) =
  Some [((0, 0), (42#1)%Q); ((0, 1), (6#1)%Q); ((0, 2), (80#1)%Q); ((1, 2), (10#1)%Q); ((2, 1), (10#1)%Q); ((2, 2), (10#1)%Q)] /\
  ring_theory (q 0) (q 1) Qcplus Qcmult Qcminus Qcopp eq /\ Qcplus qhalf qhalf = q 1.
Proof.
  split; [vm_compute; reflexivity|]. split; [exact Qcrt|]. apply Qc_is_canon. reflexivity.
Qed.
