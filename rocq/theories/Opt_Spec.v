(** What a user of the optimizers relies on. *)
From Coq Require Import List Arith Lia Bool.
From Verif Require Import Util OField.
Import ListNotations.

Section Spec.
Variable F : ofield.

Definition le (x y : F) : Prop := (y <? x)%F = false.

(** [n] steps. *)
Definition steps (n : nat) (s : F) : F := fsum n (fun _ => s).

(** [n] is the quotient [x / s] without its fraction. *)
Definition whole_quotient (n : nat) (x s : F) : Prop := le (steps n s) x /\ (x <? steps (S n) s)%F = true.

(** Position [k] holds the first element with the smallest key. *)
Definition first_smallest {A} (key : A -> F) (l : list A) (k : nat) : Prop :=
  exists x, nth_error l k = Some x /\
    (forall j y, nth_error l j = Some y -> le (key x) (key y)) /\
    (forall j y, j < k -> nth_error l j = Some y -> (key x <? key y)%F = true).

(** The last [c] elements of a list, the last one first. *)
Definition latest {A} (c : nat) (l : list A) : list A := firstn c (rev l).

End Spec.
