(** Independent specification of the dense linear algebra: textbook notions,
    stated without reference to the algorithms of the library. *)
From Coq Require Import List Arith Bool.
From Verif Require Import OField.
Open Scope nat_scope.

Section Spec.
Variable F : ofield.
Local Open Scope of_scope.

(** (A X)(i,k) for a matrix A with m columns. *)
Definition prod (m : nat) (A X : nat -> nat -> F) (i k : nat) : F := fsum m (fun j => A i j * X j k).

(** Squared norm of column k of A X - B, with n rows. *)
Definition residual (n m : nat) (A B X : nat -> nat -> F) (k : nat) : F :=
  fsum n (fun i => (prod m A X i k - B i k) * (prod m A X i k - B i k)).

(** The symmetric matrix given by the upper triangle of A. *)
Definition upper_sym (A : nat -> nat -> F) (i j : nat) : F := A (Nat.min i j) (Nat.max i j).

(** x^T S x. *)
Definition quad (n : nat) (S : nat -> nat -> F) (x : nat -> F) : F :=
  fsum n (fun i => fsum n (fun j => x i * S i j * x j)).

Definition positive_definite (n : nat) (S : nat -> nat -> F) : Prop :=
  forall x : nat -> F, (exists i, (i < n)%nat /\ x i <> 0) -> (0 <? quad n S x) = true.

(** The determinant by expansion along the first column. *)
Fixpoint sgn (p : nat) : F := match p with O => 1 | S p => - sgn p end.

Definition minor (p : nat) (M : nat -> nat -> F) : nat -> nat -> F :=
  fun i j => M (if (i <? p)%nat then i else S i) (S j).

Fixpoint determinant (n : nat) (M : nat -> nat -> F) : F :=
  match n with
  | O => 1
  | S k => fsum (S k) (fun p => sgn p * M p 0%nat * determinant k (minor p M))
  end.

End Spec.
