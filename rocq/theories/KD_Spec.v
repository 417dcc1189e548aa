(** Geometric notions used to state the properties of the search tree. *)
From Coq Require Import List Bool Arith ZArith QArith.
Import ListNotations.
Open Scope Q_scope.

(** [p] lies, in each of the first [dims] coordinates, between two of the points [xs]; every point
    of the convex hull of [xs] does.  Other coordinates are not unreasonably large. *)
Definition spanned (xs : list (nat -> Q)) (dims : nat) (p : nat -> Q) : Prop := forall i, (i < 3)%nat ->
  if (i <? dims)%nat then exists x y, In x xs /\ In y xs /\ x i <= p i <= y i
  else - inject_Z 100000002004087734272 <= p i <= inject_Z 100000002004087734272.

(** the point of the segment from [p1] to [p2] with parameter [t] *)
Definition on_segment (p1 p2 : nat -> Q) (t : Q) : nat -> Q := fun i => p1 i + t * (p2 i - p1 i).

(** a convex combination *)
Fixpoint combine_points (ws : list Q) (xs : list (nat -> Q)) (i : nat) : Q :=
  match ws, xs with w :: ws, x :: xs => w * x i + combine_points ws xs i | _, _ => 0 end.
