(** Rows of second derivatives as symmetric data, stated without the program. *)
From Coq Require Import List Arith ZArith.
Import ListNotations.

(** An entry: two columns and a value; the order of columns has no meaning. *)
Definition entry : Type := (nat * nat) * Z.
Definition same_cols (a b : nat * nat) : Prop := a = b \/ a = (snd b, fst b).
(** No pair of columns appears twice, in whatever order. *)
Definition simple_row (r : list entry) : Prop := ForallOrdPairs (fun a b => ~ same_cols (fst a) (fst b)) r.
(** Smaller column first. *)
Definition ordered (c : nat * nat) : nat * nat := (Nat.min (fst c) (snd c), Nat.max (fst c) (snd c)).
