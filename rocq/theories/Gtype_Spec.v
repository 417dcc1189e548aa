(** Closed surfaces of cells and handles of edges, stated without the program. *)
From Coq Require Import List Arith Permutation.
From Verif Require Import Vtk_Spec.
Import ListNotations.

(** Faces have at least three nodes, each once, and every edge is passed once in each direction. *)
Definition surface (l : list loop) : Prop :=
  Forall (fun f => 3 <= length f /\ NoDup f) l /\ NoDup (flat_map loop_edges l) /\ closed l.
(** Handles of edges: two nodes have one edge, the same in both directions. *)
Definition edge_handles (h : nat * nat -> nat) : Prop :=
  forall a b c d, h (a, b) = h (c, d) <-> (a = c /\ b = d) \/ (a = d /\ b = c).
(** Number of different nodes of the faces. *)
Definition nodes_of (l : list loop) : list nat := nodup Nat.eq_dec (concat l).
