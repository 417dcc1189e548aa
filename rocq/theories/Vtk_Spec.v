(** Cells of VTK files as closed surfaces of oriented faces (VTK file formats, linear cell types),
    stated without the program. *)
From Coq Require Import List Arith Permutation.
Import ListNotations.

(** A face is a loop of nodes, seen from outside counterclockwise. *)
Definition loop : Type := list nat.
Definition rotated (a b : loop) : Prop := exists u v, a = u ++ v /\ b = v ++ u.
(** The same faces in another order, each with another first node. *)
Definition same_surface (l l' : list loop) : Prop := exists m, Permutation l m /\ Forall2 rotated m l'.

Inductive shape := Tet | Hex | Wedge | Pyramid | Prism5 | Prism6.
Definition shape_size (s : shape) : nat := match s with Tet => 4 | Hex => 8 | Wedge => 6 | Pyramid => 5 | Prism5 => 10 | Prism6 => 12 end.
(** Faces of the cells in the documentation of VTK with numbers of nodes: the base 0,1,2 of the
    wedge is seen from outside, the base 0,1,2,3 of the hexahedron and the pyramid from inside. *)
Definition shape_loops (s : shape) : list (list nat) :=
  match s with
  | Tet => [[0;1;3]; [1;2;3]; [2;0;3]; [0;2;1]]
  | Hex => [[0;4;7;3]; [1;2;6;5]; [0;1;5;4]; [3;7;6;2]; [0;3;2;1]; [4;5;6;7]]
  | Wedge => [[0;1;2]; [3;5;4]; [0;3;4;1]; [1;4;5;2]; [2;5;3;0]]
  | Pyramid => [[0;3;2;1]; [0;1;4]; [1;2;4]; [2;3;4]; [3;0;4]]
  | Prism5 => [[0;4;3;2;1]; [5;6;7;8;9]; [0;1;6;5]; [1;2;7;6]; [2;3;8;7]; [3;4;9;8]; [4;0;5;9]]
  | Prism6 => [[0;5;4;3;2;1]; [6;7;8;9;10;11]; [0;1;7;6]; [1;2;8;7]; [2;3;9;8]; [3;4;10;9]; [4;5;11;10]; [5;0;6;11]]
  end.
Definition pick (nodes : list nat) (i : nat) : nat := nth i nodes 0.
Definition shape_faces (s : shape) (nodes : list nat) : list loop := map (map (pick nodes)) (shape_loops s).

(** Every edge is passed once in both directions: the surface is closed and oriented. *)
Definition loop_edges (l : loop) : list (nat * nat) :=
  match l with [] => [] | a :: r => combine l (r ++ [a]) end.
Definition closed (l : list loop) : Prop :=
  Permutation (flat_map loop_edges l) (map (fun e => (snd e, fst e)) (flat_map loop_edges l)).

(** A face of a cell in the mesh: its nodes and whether they are seen from outside. *)
Definition face : Type := list nat * bool.
Definition outward (f : face) : loop := if snd f then fst f else rev (fst f).
