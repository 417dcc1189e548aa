(** Specification of matrix-vector products and of systems of equations, independent of the code. *)
From Coq Require Import List Bool Arith Reals.
Import ListNotations.
Local Open Scope R_scope.

(** sum over i < n *)
Fixpoint sum (n : nat) (f : nat -> R) : R := match n with O => 0 | S m => sum m f + f m end.
(** a list of values that starts at index b, as a function; 0 elsewhere *)
Definition value (b : nat) (l : list R) (i : nat) : R := if (i <? b)%nat then 0 else nth (i - b) l 0.
(** the element in column c of a sparse row: the values stored for c add up *)
Fixpoint coef (r : list (nat * R)) (c : nat) : R :=
  match r with [] => 0 | (d, a) :: r' => (if (d =? c)%nat then a else 0) + coef r' c end.
(** rows that start at index b, as a function *)
Definition elem (b : nat) (rows : list (list (nat * R))) (i c : nat) : R :=
  if (i <? b)%nat then 0 else coef (nth (i - b) rows []) c.
(** a symmetric matrix given by some of its elements *)
Fixpoint sym (h : list ((nat * nat) * R)) (i j : nat) : R :=
  match h with
  | [] => 0
  | ((a, b), v) :: h' => (if ((a =? i) && (b =? j) || (a =? j) && (b =? i))%nat%bool then v else 0) + sym h' i j
  end.
(** all indices below n *)
Definition columns_in (lo hi : nat) (rows : list (list (nat * R))) : Prop :=
  forall r e, In r rows -> In e r -> (lo <= fst e < hi)%nat.
(** x solves the equation with coefficients r and right hand side b *)
Definition solves (n : nat) (r : list (nat * R)) (b : R) (x : nat -> R) : Prop := sum n (fun c => coef r c * x c) = b.
(** norms equal to one *)
Definition unit_max (r : list (nat * R)) : Prop :=
  (forall e, In e r -> Rabs (snd e) <= 1) /\ exists e, In e r /\ Rabs (snd e) = 1.
Fixpoint powers (p : nat) (r : list (nat * R)) : R := match r with [] => 0 | e :: r' => Rabs (snd e) ^ p + powers p r' end.
