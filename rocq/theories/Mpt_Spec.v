(** Specification of a maximum product transversal, independent of how it is computed. *)
From Coq Require Import List Bool Arith Reals.
Import ListNotations.
Local Open Scope R_scope.

(** a matrix by rows, each row a list of columns and values; elements that are not stored are 0 *)
Definition matrix := list (list (nat * R)).
Definition el (A : matrix) (k i : nat) : R :=
  match find (fun e => fst e =? i) (nth k A []) with Some e => snd e | None => 0 end.
Definition rows (A : matrix) : nat := length A.
(** [m] columns, no column twice in a row *)
Definition well_formed (A : matrix) (m : nat) : Prop :=
  forall row, In row A -> NoDup (map fst row) /\ forall e, In e row -> (fst e < m)%nat.
(** a stored column is not zero *)
Definition no_zero_column (A : matrix) : Prop :=
  forall row e, In row A -> In e row -> exists k, el A k (fst e) <> 0.
(** different rows get different columns *)
Definition assignment (n m : nat) (f : nat -> nat) : Prop :=
  (forall k, (k < n)%nat -> (f k < m)%nat) /\ forall k l, (k < n)%nat -> (l < n)%nat -> f k = f l -> k = l.
Definition transversal_of (A : matrix) (m : nat) (f : nat -> nat) : Prop :=
  assignment (rows A) m f /\ forall k, (k < rows A)%nat -> el A k (f k) <> 0.
(** product over k < n *)
Fixpoint prod (n : nat) (x : nat -> R) : R := match n with O => 1 | S n' => prod n' x * x n' end.
Definition product (A : matrix) (f : nat -> nat) : R := prod (rows A) (fun k => Rabs (el A k (f k))).
(** the largest absolute value in a column *)
Definition column_max (A : matrix) (i : nat) (M : R) : Prop :=
  (forall k, Rabs (el A k i) <= M) /\ exists k, Rabs (el A k i) = M.
