(** What is meant by consistent ownership in a distributed mesh and by the distance of a cell
    to the own cells of a process. *)
From Coq Require Import List Arith.
Import ListNotations.

Inductive status := Owned | Shared | Ghost.

(** Status on process [q] of an element that is on the processes [h] and belongs to [o]. *)
Definition right_status (h : list nat) (o q : nat) : status :=
  match h with [_] => Owned | _ => if Nat.eqb q o then Shared else Ghost end.
(** All processes with an element agree on its owner, which is one of them, and know their role;
    [owner q e], [stat q e] are the data of process [q]. *)
Definition consistent (holders : nat -> list nat) (owner : nat -> nat -> nat) (stat : nat -> nat -> status) : Prop :=
  forall e, holders e <> [] -> exists o, In o (holders e) /\ forall q, In q (holders e) -> owner q e = o /\ stat q e = right_status (holders e) o q.

(** [walk d c]: [d] steps between neighbours lead from an own cell to [c], all others are not own. *)
Inductive walk (own : nat -> Prop) (adjacent : nat -> nat -> Prop) : nat -> nat -> Prop :=
| walk_first : forall c l, ~ own c -> adjacent c l -> own l -> walk own adjacent 1 c
| walk_next : forall d c x, walk own adjacent d c -> adjacent c x -> ~ own x -> walk own adjacent (S d) x.
Definition distance (own : nat -> Prop) (adjacent : nat -> nat -> Prop) (d c : nat) : Prop :=
  walk own adjacent d c /\ forall d', walk own adjacent d' c -> d <= d'.
