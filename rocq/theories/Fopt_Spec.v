(** What a user expects of options for files and of the names of files. *)
From Coq Require Import List Ascii String.
Import ListNotations.

Definition text : Type := list ascii.
Definition lit (s : string) : text := list_ascii_of_string s.

(** The last value given for a key. *)
Inductive last_set (key : text) : list (text * text) -> option text -> Prop :=
| last_none : last_set key [] None
| last_this : forall h v, last_set key (h ++ [(key, v)]) (Some v)
| last_other : forall h k v r, k <> key -> last_set key h r -> last_set key (h ++ [(k, v)]) r.

(** Part of a text. *)
Definition part (x s : text) : Prop := exists a b, s = a ++ x ++ b.
