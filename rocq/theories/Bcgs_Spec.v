(** The residual of a system. *)
From Coq Require Import List Arith Reals.
From Verif Require Import Ilu_Model Ilu_Spec.
Open Scope R_scope.
(** b - Ax and its length *)
Definition residual (A : mat) (b x : nat -> R) (k : nat) : R := b k - matvec A x k.
Definition norm (n : nat) (x : nat -> R) : R := sqrt (rs n (fun k => x k ^ 2)).
(** M is a right inverse of A *)
Definition exact_inverse (A : mat) (M : nat -> (nat -> R) -> nat -> R) : Prop :=
  forall j x k, (k < length A)%nat -> matvec A (M j x) k = x k.
