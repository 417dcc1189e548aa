(** Closed surfaces, planar polygons and exact integrals, stated without the algorithms. *)
From Coq Require Import List Reals Permutation.
From Verif Require Import Geom_Model.
Import ListNotations.
Open Scope R_scope.

(** the directed edges of a loop of nodes, and of an oriented face (reversed or not) *)
Definition loop_edges {A} (l : list A) : list (A * A) :=
  match l with [] => [] | a :: _ => pairs (l ++ [a]) end.
Definition flip {A} (e : A * A) : A * A := (snd e, fst e).
Definition face_edges {A} (f : bool * list A) : list (A * A) :=
  if fst f then map flip (loop_edges (snd f)) else loop_edges (snd f).
(** A closed surface with consistent orientation: every edge is run through equally often in
    both directions. *)
Definition closed {A} (faces : list (bool * list A)) : Prop :=
  Permutation (flat_map face_edges faces) (map flip (flat_map face_edges faces)).
(** the plane through p spanned by e1, e2 *)
Definition in_plane (p e1 e2 v : vec) : Prop := exists a b, v = vadd p (vadd (vmul a e1) (vmul b e2)).
(** all nodes lie in one plane *)
Definition planar (nodes : list vec) : Prop :=
  exists p e1 e2, forall v, In v nodes -> in_plane p e1 e2 v.
Definition vsum (l : list vec) : vec := fold_right vadd vzero l.
Definition rsum (l : list R) : R := fold_right Rplus 0 l.
Definition shift (t : vec) (nodes : list vec) : list vec := map (vadd t) nodes.
Definition shift_faces (t : vec) (fs : list (bool * list vec)) := map (fun f => (fst f, shift t (snd f))) fs.
(** six times the signed volume and the first moment of the tetrahedra with apex o over the
    fan triangles of a face *)
Definition fan_tets (nodes : list vec) : list (vec * vec * vec) :=
  match nodes with [] => [] | v0 :: r => map (fun t => (v0, fst t, snd t)) (pairs r) end.
Definition tet6 (o : vec) (t : vec * vec * vec) : R := det4v o (fst (fst t)) (snd (fst t)) (snd t).
Definition tet_mean (o : vec) (t : vec * vec * vec) : vec :=
  vmul (1/4) (vadd o (vadd (fst (fst t)) (vadd (snd (fst t)) (snd t)))).
Definition vol6 (o : vec) (faces : list (bool * list vec)) : R :=
  rsum (map (fun f => sgn (fst f) * rsum (map (tet6 o) (fan_tets (snd f)))) faces).
Definition mom24 (o : vec) (faces : list (bool * list vec)) : vec :=
  vsum (map (fun f => vmul (sgn (fst f)) (vsum (map (fun t => vmul (tet6 o t) (tet_mean o t)) (fan_tets (snd f))))) faces).
(** The centre of mass of a planar polygon with normal n: the signed areas of the triangles
    with apex o over its edges weigh their centres. *)
Definition area_center (o n : vec) (nodes : list vec) : vec :=
  vsum (map (fun e => vmul (dot n (half_cross o e) / dot n n) (vmul (1/3) (vadd o (vadd (fst e) (snd e))))) (loop_edges nodes)).
(** the closed triangle *)
Definition in_triangle (q a b c : vec) : Prop :=
  exists k l m, 0 <= k /\ 0 <= l /\ 0 <= m /\ k + l + m = 1 /\ q = vadd (vmul k a) (vadd (vmul l b) (vmul m c)).
(** the faces of the tetrahedron a b c d, seen from outside if det4v a b c d > 0 *)
Definition tetrahedron (a b c d : vec) : list (bool * list vec) :=
  [(false, [b; c; d]); (false, [a; d; c]); (true, [a; d; b]); (false, [a; c; b])].
