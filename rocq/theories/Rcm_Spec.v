(** What a user expects from the partitioner INNER_RCM: neighbours, numbering and parts. *)
From Coq Require Import List Bool Arith.
Import ListNotations.

(** The mesh is the list of cells with their faces. *)
Definition neighbours (cells : list (list nat)) (a b : nat) : Prop :=
  a < length cells /\ b < length cells /\ a <> b /\ exists f, In f (nth a cells []) /\ In f (nth b cells []).
(** Faces between two cells. *)
Definition interior (cells : list (list nat)) (a f : nat) : Prop :=
  In f (nth a cells []) /\ exists b, neighbours cells a b /\ In f (nth b cells []).

(** Every cell gets one number out of 1 .. number of cells. *)
Definition numbering (n : nat) (idx : nat -> nat) : Prop :=
  (forall c, c < n -> 1 <= idx c <= n) /\ (forall c d, c < n -> d < n -> idx c = idx d -> c = d).

(** Cells of a part. *)
Definition members (n : nat) (part : nat -> nat) (k : nat) : list nat := filter (fun c => part c =? k) (seq 0 n).

(** A path of neighbours inside a set of cells. *)
Inductive joined (cells : list (list nat)) (S : nat -> Prop) : nat -> nat -> Prop :=
| joined_self a : S a -> joined cells S a a
| joined_step a b c : joined cells S a b -> neighbours cells b c -> S c -> joined cells S a c.

(** [d] is the first cell of a piece: the cells of the part that are numbered before it have
    no neighbours from it on, and no cell from it on has fewer faces to other cells. *)
Definition starts (cells : list (list nat)) (degree : nat -> nat) (idx : nat -> nat) (size d : nat) : Prop :=
  (forall e b, neighbours cells e b -> idx e / size = idx d / size -> idx e < idx d -> idx b < idx d) /\
  (forall c, c < length cells -> idx d <= idx c -> degree d <= degree c).
(** [d] was reached from [e]. *)
Definition follows (cells : list (list nat)) (degree : nat -> nat) (idx : nat -> nat) (size e d : nat) : Prop :=
  neighbours cells e d /\ idx e < idx d /\
  (idx e / size = idx d / size \/ idx e + 1 = idx d / size * size /\ starts cells degree idx size e).
