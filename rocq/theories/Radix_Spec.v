(** What sorting means, and the numbers that float bit patterns stand for. *)
From Coq Require Import List Bool ZArith Sorting.
Import ListNotations.
Open Scope Z_scope.

(** IEEE binary32: value times 2^149.  Infinity gets the value that continues the scale. *)
Definition float_magnitude (x : Z) : Z :=
  let e := x / 2 ^ 23 in
  let f := x mod 2 ^ 23 in
  if e =? 0 then f else (2 ^ 23 + f) * 2 ^ (e - 1).
Definition float_value (x : Z) : Z :=
  if x <? 2 ^ 31 then float_magnitude x else - float_magnitude (x - 2 ^ 31).
(** no later element is smaller *)
Definition ordered {E} (value : E -> Z) (l : list E) : Prop :=
  forall i j x y, (i < j)%nat -> nth_error l i = Some x -> nth_error l j = Some y -> value x <= value y.
