(** Tables of a function: increasing arguments with values, and the piecewise
    linear function through them. *)
From Coq Require Import List Arith Lia Bool.
From Verif Require Import Util OField.
Import ListNotations.

Section Spec.
Variable F : ofield.

(** [x <= y]. *)
Definition le (x y : F) : Prop := (y <? x)%F = false.

(** A table: at least two entries, as many values as arguments, arguments
    strictly increasing. *)
Definition table (args vals : list F) : Prop :=
  2 <= length args /\ length vals = length args /\
  forall i j a b, i < j -> nth_error args i = Some a -> nth_error args j = Some b -> (a <? b)%F = true.

(** [v] is the value at [x] of the straight line through the entries [i] and
    [i+1], and [d] its slope. *)
Definition on_line (args vals : list F) (i : nat) (x v : F) : Prop :=
  exists a b u w, nth_error args i = Some a /\ nth_error args (S i) = Some b /\
    nth_error vals i = Some u /\ nth_error vals (S i) = Some w /\
    ((v - u) * (b - a) = (w - u) * (x - a))%F.
Definition slope (args vals : list F) (i : nat) (d : F) : Prop :=
  exists a b u w, nth_error args i = Some a /\ nth_error args (S i) = Some b /\
    nth_error vals i = Some u /\ nth_error vals (S i) = Some w /\
    (d * (b - a) = w - u)%F.

End Spec.
