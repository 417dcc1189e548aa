(** Exact arithmetic for the numerical parts of the library.  The code computes
    with [INMOST_DATA_REAL_TYPE] (double); the models of the dense matrix
    algorithms replace it by an arbitrary ordered field, so rounding is not
    modelled but every comparison with a threshold is.  Instances: the rational
    numbers (used for the computed examples) and the reals. *)
From Coq Require Import List Arith Lia Bool Field_theory Ring_theory Field QArith Qcanon Reals Lra.
Import ListNotations.
Open Scope nat_scope.

Record ofield := mk_ofield {
  K :> Type;
  f0 : K; f1 : K;
  fadd : K -> K -> K; fmul : K -> K -> K; fsub : K -> K -> K;
  fopp : K -> K; fdiv : K -> K -> K; finv : K -> K;
  flt : K -> K -> bool;
  fth : field_theory f0 f1 fadd fmul fsub fopp fdiv finv (@eq K);
  flt_irr : forall x, flt x x = false;
  flt_trans : forall x y z, flt x y = true -> flt y z = true -> flt x z = true;
  flt_total : forall x y, flt x y = false -> flt y x = false -> x = y;
  flt_add : forall x y z, flt x y = true -> flt (fadd x z) (fadd y z) = true;
  flt_mul : forall x y, flt f0 x = true -> flt f0 y = true -> flt f0 (fmul x y) = true
}.

Arguments f0 {_}. Arguments f1 {_}. Arguments fadd {_} _ _. Arguments fmul {_} _ _.
Arguments fsub {_} _ _. Arguments fopp {_} _. Arguments fdiv {_} _ _. Arguments finv {_} _.
Arguments flt {_} _ _.

Declare Scope of_scope.
Delimit Scope of_scope with F.
Notation "0" := f0 : of_scope.
Notation "1" := f1 : of_scope.
Infix "+" := fadd : of_scope.
Infix "*" := fmul : of_scope.
Infix "-" := fsub : of_scope.
Infix "/" := fdiv : of_scope.
Notation "- x" := (fopp x) : of_scope.
Infix "<?" := flt : of_scope.

(** [fabs]. *)
Definition fabs {F : ofield} (x : F) : F := (if x <? 0 then - x else x)%F.

(** The literal 10^-n ("1.0e-n"). *)
Definition ften {F : ofield} : F := (let two := 1 + 1 in let four := two * two in four * two + two)%F.
Fixpoint fpow {F : ofield} (x : F) (n : nat) : F := (match n with O => 1 | S k => x * fpow x k end)%F.
Definition e_minus {F : ofield} (n : nat) : F := (1 / fpow ften n)%F.

(** Sums over the indices below [n]. *)
Fixpoint fsum {F : ofield} (n : nat) (f : nat -> F) : F :=
  match n with O => 0%F | S k => (fsum k f + f k)%F end.

Section Lemmas.
Variable F : ofield.
Add Field Ff : (fth F).
Open Scope of_scope.
Implicit Types x y z : F.

Lemma f_dec : forall x y, x = y \/ x <> y.
Proof.
  intros x y. destruct (x <? y) eqn:A.
  - right. intros ->. rewrite (flt_irr F) in A. discriminate.
  - destruct (y <? x) eqn:B.
    + right. intros ->. rewrite (flt_irr F) in B. discriminate.
    + left. now apply (flt_total F).
Qed.

Lemma flt_asym : forall x y, (x <? y) = true -> (y <? x) = false.
Proof.
  intros x y A. destruct (y <? x) eqn:B; [|reflexivity].
  pose proof (flt_trans F _ _ _ A B) as C. now rewrite (flt_irr F) in C.
Qed.

Lemma flt_ge_trans : forall x y z, (x <? y) = false -> (y <? z) = false -> (x <? z) = false.
Proof.
  intros x y z A B. destruct (x <? z) eqn:C; [|reflexivity].
  destruct (y <? x) eqn:D.
  - now rewrite (flt_trans F _ _ _ D C) in B.
  - rewrite (flt_total F _ _ A D) in C. congruence.
Qed.

Lemma flt_lt_le : forall x y z, (x <? y) = true -> (z <? y) = false -> (x <? z) = true.
Proof.
  intros x y z A B. destruct (x <? z) eqn:C; [reflexivity|].
  exfalso. pose proof (flt_ge_trans _ _ _ C B) as D. congruence.
Qed.

Lemma flt_le_lt : forall x y z, (y <? x) = false -> (y <? z) = true -> (x <? z) = true.
Proof.
  intros x y z A B. destruct (x <? z) eqn:C; [reflexivity|].
  exfalso. pose proof (flt_ge_trans _ _ _ A C) as D. congruence.
Qed.

Lemma flt_opp : forall x, (x <? 0) = true -> (0 <? - x) = true.
Proof.
  intros x A. pose proof (flt_add F _ _ (- x) A) as B.
  replace (x + - x) with (0 : F) in B by ring. replace (0 + - x) with (- x) in B by ring. exact B.
Qed.

Lemma flt_opp_neg : forall x, (0 <? x) = true -> (- x <? 0) = true.
Proof.
  intros x A. pose proof (flt_add F _ _ (- x) A) as B.
  replace (x + - x) with (0 : F) in B by ring. replace (0 + - x) with (- x) in B by ring. exact B.
Qed.

Lemma flt_sub : forall x y, (x <? y) = true <-> (0 <? y - x) = true.
Proof.
  intros x y. split; intro A.
  - pose proof (flt_add F _ _ (- x) A) as B.
    replace (x + - x) with (0 : F) in B by ring. replace (y + - x) with (y - x) in B by ring. exact B.
  - pose proof (flt_add F _ _ x A) as B.
    replace (0 + x) with x in B by ring. replace (y - x + x) with y in B by ring. exact B.
Qed.

Lemma sq_pos : forall x, x <> 0 -> (0 <? x * x) = true.
Proof.
  intros x N. destruct (0 <? x) eqn:A.
  - now apply (flt_mul F).
  - destruct (x <? 0) eqn:B.
    + replace (x * x) with ((- x) * (- x)) by ring. apply (flt_mul F); now apply flt_opp.
    + exfalso. apply N. now apply (flt_total F).
Qed.

Lemma sq_nneg : forall x, (x * x <? 0) = false.
Proof.
  intro x. destruct (f_dec x 0) as [->|N].
  - replace (0 * 0) with (0 : F) by ring. apply (flt_irr F).
  - apply flt_asym. now apply sq_pos.
Qed.

Lemma f1_pos : (0 <? (1 : F)) = true.
Proof.
  assert (N : (1 : F) <> 0) by (apply (F_1_neq_0 (fth F))).
  pose proof (sq_pos _ N) as A. replace (1 * 1) with (1 : F) in A by ring. exact A.
Qed.

Lemma add_pos : forall x y, (0 <? x) = true -> (y <? 0) = false -> (0 <? x + y) = true.
Proof.
  intros x y A B. apply (flt_le_lt 0 y).
  - exact B.
  - pose proof (flt_add F _ _ y A) as C. now replace (0 + y) with y in C by ring.
Qed.

Lemma add_nneg : forall x y, (x <? 0) = false -> (y <? 0) = false -> (x + y <? 0) = false.
Proof.
  intros x y A B. destruct (f_dec x 0) as [->|N].
  - now replace (0 + y) with y by ring.
  - apply flt_asym, add_pos; [|exact B].
    destruct (0 <? x) eqn:C; [reflexivity|]. exfalso. apply N. now apply (flt_total F).
Qed.

Lemma mul_nneg : forall x y, (x <? 0) = false -> (y <? 0) = false -> (x * y <? 0) = false.
Proof.
  intros x y A B. destruct (f_dec x 0) as [->|N]; [replace (0 * y) with (0 : F) by ring; apply (flt_irr F)|].
  destruct (f_dec y 0) as [->|N']; [replace (x * 0) with (0 : F) by ring; apply (flt_irr F)|].
  apply flt_asym, (flt_mul F).
  - destruct (0 <? x) eqn:C; [reflexivity|]. exfalso. apply N. now apply (flt_total F).
  - destruct (0 <? y) eqn:C; [reflexivity|]. exfalso. apply N'. now apply (flt_total F).
Qed.

Lemma fabs_nneg : forall x, (fabs x <? 0) = false.
Proof.
  intro x. unfold fabs. destruct (x <? 0) eqn:A; [|exact A].
  apply flt_asym. now apply flt_opp.
Qed.

Lemma fabs_0 : fabs (0 : F) = 0.
Proof. unfold fabs. now rewrite (flt_irr F). Qed.

Lemma fabs_eq_0 : forall x, fabs x = 0 -> x = 0.
Proof.
  intros x. unfold fabs. destruct (x <? 0) eqn:A; intro E; [|exact E].
  replace x with (- - x) by ring. rewrite E. ring.
Qed.

Lemma fabs_le_0 : forall x, (0 <? fabs x) = false -> x = 0.
Proof. intros x A. apply fabs_eq_0. apply (flt_total F); [apply fabs_nneg|exact A]. Qed.

Lemma ften_pos : (0 <? (ften : F)) = true.
Proof.
  unfold ften. assert (A : (0 <? (1 + 1 : F)) = true).
  { apply add_pos; [apply f1_pos|]. apply flt_asym, f1_pos. }
  apply add_pos; [|apply flt_asym; exact A].
  apply (flt_mul F); [|exact A]. now apply (flt_mul F).
Qed.

Lemma fpow_pos : forall x n, (0 <? x) = true -> (0 <? fpow x n) = true.
Proof. intros x n A. induction n; cbn [fpow]; [apply f1_pos|now apply (flt_mul F)]. Qed.

Lemma pos_neq : forall x, (0 <? x) = true -> x <> 0.
Proof. intros x A ->. now rewrite (flt_irr F) in A. Qed.

Lemma inv_pos : forall x, (0 <? x) = true -> (0 <? 1 / x) = true.
Proof.
  intros x A. pose proof (pos_neq _ A) as N.
  assert (M : 1 / x <> 0).
  { intro E. apply (F_1_neq_0 (fth F)). replace (1 : F) with (1 / x * x) by (now field). rewrite E. ring. }
  pose proof (flt_mul F _ _ A (sq_pos _ M)) as B.
  replace (x * (1 / x * (1 / x))) with (1 / x) in B by (now field). exact B.
Qed.

Lemma e_minus_pos : forall n, (0 <? (e_minus n : F)) = true.
Proof. intro n. apply inv_pos, fpow_pos, ften_pos. Qed.

(** Sums. *)
Lemma fsum_ext : forall n (f g : nat -> F),
  (forall i, (i < n)%nat -> f i = g i) -> fsum n f = fsum n g.
Proof.
  induction n as [|n IH]; intros f g E; cbn [fsum]; [reflexivity|].
  rewrite (IH f g), (E n); [reflexivity|lia|]. intros i L. apply E. lia.
Qed.

Lemma fsum_0 : forall n (f : nat -> F), (forall i, (i < n)%nat -> f i = 0) -> fsum n f = 0.
Proof.
  induction n as [|n IH]; intros f E; cbn [fsum]; [reflexivity|].
  rewrite IH, E; [ring|lia|]. intros i L. apply E. lia.
Qed.

Lemma fsum_add : forall n (f g : nat -> F), fsum n (fun i => f i + g i) = fsum n f + fsum n g.
Proof. induction n as [|n IH]; intros f g; cbn [fsum]; [ring|]. rewrite IH. ring. Qed.

Lemma fsum_sub : forall n (f g : nat -> F), fsum n (fun i => f i - g i) = fsum n f - fsum n g.
Proof. induction n as [|n IH]; intros f g; cbn [fsum]; [ring|]. rewrite IH. ring. Qed.

Lemma fsum_mul_l : forall n c (f : nat -> F), fsum n (fun i => c * f i) = c * fsum n f.
Proof. induction n as [|n IH]; intros c f; cbn [fsum]; [ring|]. rewrite IH. ring. Qed.

Lemma fsum_mul_r : forall n c (f : nat -> F), fsum n (fun i => f i * c) = fsum n f * c.
Proof. induction n as [|n IH]; intros c f; cbn [fsum]; [ring|]. rewrite IH. ring. Qed.

Lemma fsum_swap : forall n m (f : nat -> nat -> F),
  fsum n (fun i => fsum m (fun j => f i j)) = fsum m (fun j => fsum n (fun i => f i j)).
Proof.
  induction n as [|n IH]; intros m f; cbn [fsum].
  - symmetry. now apply fsum_0.
  - rewrite IH, fsum_add. reflexivity.
Qed.

Lemma fsum_one : forall n k (f : nat -> F), (k < n)%nat ->
  (forall i, (i < n)%nat -> i <> k -> f i = 0) -> fsum n f = f k.
Proof.
  induction n as [|n IH]; intros k f L E; [lia|]. cbn [fsum].
  destruct (Nat.eq_dec k n) as [->|N].
  - rewrite fsum_0; [ring|]. intros i Li. apply E; lia.
  - rewrite (IH k f); [|lia|intros i Li; apply E; lia]. rewrite (E n); [ring|lia|lia].
Qed.

Lemma fsum_nneg : forall n (f : nat -> F), (forall i, (i < n)%nat -> (f i <? 0) = false) -> (fsum n f <? 0) = false.
Proof.
  induction n as [|n IH]; intros f E; cbn [fsum]; [apply (flt_irr F)|].
  apply add_nneg; [|apply E; lia]. apply IH. intros i L. apply E. lia.
Qed.

Lemma fsum_sq_0 : forall n (f : nat -> F), fsum n (fun i => f i * f i) = 0 ->
  forall i, (i < n)%nat -> f i = 0.
Proof.
  induction n as [|n IH]; intros f E i L; [lia|]. cbn [fsum] in E.
  destruct (f_dec (f n) 0) as [Z|N].
  - destruct (Nat.eq_dec i n) as [->|M]; [exact Z|]. apply IH; [|lia].
    rewrite Z in E. rewrite <- E. ring.
  - exfalso. pose proof (sq_pos _ N) as A.
    assert (B : (fsum n (fun i => f i * f i) <? 0) = false) by (apply fsum_nneg; intros; apply sq_nneg).
    pose proof (add_pos _ _ A B) as C.
    replace (f n * f n + fsum n (fun i => f i * f i)) with (0 : F) in C; [now rewrite (flt_irr F) in C|].
    rewrite <- E. ring.
Qed.

Lemma fsum_split : forall n k (f : nat -> F), (k <= n)%nat ->
  fsum n f = fsum k f + fsum (n - k) (fun i => f (k + i)%nat).
Proof.
  induction n as [|n IH]; intros k f L.
  - replace k with O by lia. cbn [fsum Nat.sub]. ring.
  - destruct (Nat.eq_dec k (S n)) as [->|N].
    + rewrite Nat.sub_diag. cbn [fsum]. ring.
    + replace (S n - k)%nat with (S (n - k)) by lia. cbn [fsum]. rewrite (IH k f) by lia.
      replace (k + (n - k))%nat with n by lia. ring.
Qed.

Lemma fsum_perm : forall n (p : nat -> nat) (f : nat -> F),
  (forall i, (i < n)%nat -> (p i < n)%nat) ->
  (forall i j, (i < n)%nat -> (j < n)%nat -> p i = p j -> i = j) ->
  fsum n (fun i => f (p i)) = fsum n f.
Proof.
  intros n p f R I.
  transitivity (fsum n (fun i => fsum n (fun j => if Nat.eqb (p i) j then f j else 0))).
  { apply fsum_ext. intros i L. symmetry.
    rewrite (fsum_one n (p i)); [now rewrite Nat.eqb_refl|now apply R|].
    intros j Lj N. destruct (Nat.eqb_spec (p i) j); [congruence|reflexivity]. }
  rewrite fsum_swap. apply fsum_ext. intros j Lj.
  (* surjectivity of an injective map of a finite set *)
  assert (S : exists i, (i < n)%nat /\ p i = j).
  { assert (Nd : NoDup (map p (seq 0 n))).
    { assert (forall k, (k <= n)%nat -> NoDup (map p (seq 0 k))) as Hk.
      { induction k as [|k IHk]; intro Lk; [constructor|].
        rewrite seq_S, map_app. cbn [map Nat.add].
        rewrite <- (rev_involutive (map p (seq 0 k) ++ [p k])). apply NoDup_rev.
        rewrite rev_app_distr. cbn [rev app]. constructor.
        - rewrite <- in_rev, in_map_iff. intros [a [Ea Ia]]. apply in_seq in Ia.
          apply I in Ea; lia.
        - apply NoDup_rev. apply IHk. lia. }
      apply Hk. lia. }
    assert (Inc : incl (seq 0 n) (map p (seq 0 n))).
    { apply NoDup_length_incl; [exact Nd|rewrite map_length; lia|].
      intros a Ia. apply in_map_iff in Ia. destruct Ia as [b [<- Ib]]. apply in_seq in Ib.
      apply in_seq. specialize (R b). lia. }
    specialize (Inc j). rewrite in_seq in Inc. specialize (Inc ltac:(lia)).
    apply in_map_iff in Inc. destruct Inc as [i [Ei Ii]]. apply in_seq in Ii. exists i. split; [lia|exact Ei]. }
  destruct S as [i [Li Ei]].
  rewrite (fsum_one n i); [now rewrite Ei, Nat.eqb_refl|exact Li|].
  intros a La N. destruct (Nat.eqb_spec (p a) j) as [E|]; [|reflexivity].
  exfalso. apply N. apply I; congruence.
Qed.

End Lemmas.

(** The rational numbers. *)
Definition Qc_ofield : ofield.
Proof.
  refine (mk_ofield Qc 0%Qc 1%Qc Qcplus Qcmult Qcminus Qcopp Qcdiv Qcinv
            (fun x y => if Qclt_le_dec x y then true else false) Qcft _ _ _ _ _).
  - intro x. destruct (Qclt_le_dec x x) as [L|]; [|reflexivity].
    exfalso. exact (Qclt_not_eq _ _ L eq_refl).
  - intros x y z. destruct (Qclt_le_dec x y) as [A|]; [|discriminate].
    destruct (Qclt_le_dec y z) as [B|]; [|discriminate]. intros _ _.
    destruct (Qclt_le_dec x z) as [|C]; [reflexivity|].
    exfalso. exact (Qclt_not_le _ _ (Qclt_trans _ _ _ A B) C).
  - intros x y. destruct (Qclt_le_dec x y) as [|A]; [discriminate|].
    destruct (Qclt_le_dec y x) as [|B]; [discriminate|]. intros _ _. now apply Qcle_antisym.
  - intros x y z. destruct (Qclt_le_dec x y) as [A|]; [|discriminate]. intros _.
    destruct (Qclt_le_dec (x + z) (y + z)) as [|C]; [reflexivity|]. exfalso.
    apply (Qclt_not_le _ _ A).
    replace x with (x + z - z)%Qc by ring. replace y with (y + z - z)%Qc by ring.
    apply Qcplus_le_compat; [exact C|apply Qcle_refl].
  - intros x y. destruct (Qclt_le_dec 0 x) as [A|]; [|discriminate].
    destruct (Qclt_le_dec 0 y) as [B|]; [|discriminate]. intros _ _.
    destruct (Qclt_le_dec 0 (x * y)) as [|C]; [reflexivity|]. exfalso.
    apply (Qclt_not_le _ _ A). apply Qcmult_lt_0_le_reg_r with y; [exact B|].
    now replace (0 * y)%Qc with 0%Qc by ring.
Defined.

(** The real numbers. *)
Definition R_ofield : ofield.
Proof.
  refine (mk_ofield R 0%R 1%R Rplus Rmult Rminus Ropp Rdiv Rinv
            (fun x y => if Rlt_dec x y then true else false) Rfield _ _ _ _ _).
  - intro x. destruct (Rlt_dec x x); [lra|reflexivity].
  - intros x y z. destruct (Rlt_dec x y); [|discriminate]. destruct (Rlt_dec y z); [|discriminate].
    destruct (Rlt_dec x z); [reflexivity|lra].
  - intros x y. destruct (Rlt_dec x y); [discriminate|]. destruct (Rlt_dec y x); [discriminate|]. lra.
  - intros x y z. destruct (Rlt_dec x y); [|discriminate]. destruct (Rlt_dec (x + z) (y + z)); [reflexivity|lra].
  - intros x y. destruct (Rlt_dec 0 x); [|discriminate]. destruct (Rlt_dec 0 y); [|discriminate].
    destruct (Rlt_dec 0 (x * y)) as [|C]; [reflexivity|]. exfalso. apply C. now apply Rmult_lt_0_compat.
Defined.
