(** Change of the number of coordinates, stated without the program. *)
From Coq Require Import Ascii String List Arith ZArith.
Import ListNotations.

(** Coordinates that fit are kept, new ones are zero. *)
Definition resized (d : nat) (x : list Z) : list Z := map (fun i => nth i x 0%Z) (seq 0 d).
(** Tags of the library have names that start so, they are skipped by functions that list the data of the user. *)
Definition reserved (name : string) : bool := String.eqb (substring 0 9 name) "PROTECTED".
