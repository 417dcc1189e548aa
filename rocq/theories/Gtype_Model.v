(** Model of Mesh::ComputeGeometricType and Mesh::TestClosure (Source/Mesh/geometry.cpp 863-1016) for
    edges, faces and cells.  A sub-element is its geometric type with the handles of its own
    sub-elements.  Simplified: no hidden elements (no modification in progress). *)
From Coq Require Import List Arith Bool.
Import ListNotations.

(** Element::GeometricType (Source/Headers/inmost_mesh.h) *)
Inductive gtype := GUnset | GVertex | GLine | GMultiLine | GTri | GQuad | GPolygon | GMultiPolygon | GTet | GHex | GPrism | GPyramid | GPolyhedron.
Definition gtype_eqb (a b : gtype) : bool :=
  match a, b with
  | GUnset, GUnset | GVertex, GVertex | GLine, GLine | GMultiLine, GMultiLine | GTri, GTri | GQuad, GQuad | GPolygon, GPolygon
  | GMultiPolygon, GMultiPolygon | GTet, GTet | GHex, GHex | GPrism, GPrism | GPyramid, GPyramid | GPolyhedron, GPolyhedron => true
  | _, _ => false
  end.
(** Element::GetGeometricDimension (Source/Mesh/element.cpp 30-49) plus one; zero is UINT_MAX, -1 as int *)
Definition gdim1 (t : gtype) : nat :=
  match t with
  | GVertex => 1
  | GLine => 2
  | GMultiLine | GTri | GQuad | GPolygon => 3
  | GMultiPolygon | GTet | GHex | GPrism | GPyramid | GPolyhedron => 4
  | GUnset => 0
  end.
Definition sub : Type := gtype * list nat.

Definition marked_in (e : nat) (l : list nat) : bool := existsb (Nat.eqb e) l.
(** geometry.cpp 863-892: every visited handle is visited twice *)
Definition visits (lc : list sub) : list nat := flat_map snd lc.
Definition test_closure (lc : list sub) : bool := forallb (fun e => Nat.eqb (count_occ Nat.eq_dec (visits lc) e) 2) (visits lc).
(** geometry.cpp 914-919, 942-947 *)
Definition dmax (lc : list sub) : nat := fold_left (fun m x => if m <? gdim1 (fst x) then gdim1 (fst x) else m) lc 0.
Definition dmin (lc : list sub) : nat := fold_left (fun m x => if gdim1 (fst x) <? m then gdim1 (fst x) else m) lc 5.
(** geometry.cpp 931-936, 956-961 *)
Definition polygon (test : bool) (lc : list sub) : gtype :=
  if negb test || test_closure lc then
    if Nat.eqb (length lc) 3 then GTri else if Nat.eqb (length lc) 4 then GQuad else GPolygon
  else GMultiLine.
(** geometry.cpp 905-910 *)
Definition edge_type (s : nat) : gtype := if Nat.eqb s 1 then GVertex else if Nat.eqb s 2 then GLine else GUnset.
(** geometry.cpp 911-939 *)
Definition face_type (test : bool) (lc : list sub) : gtype :=
  if Nat.eqb (length lc) 0 then GUnset
  else if negb (Nat.eqb (dmax lc) (dmin lc)) then GMultiLine
  else if Nat.eqb (dmax lc) 1 then GLine
  else polygon test lc.
(** geometry.cpp 977-980: edges of the second face that are marked *)
Definition common (a b : sub) : nat := length (filter (fun e => marked_in e (snd a)) (snd b)).
(** geometry.cpp 969-984 *)
Fixpoint check (lc : list sub) : bool :=
  match lc with
  | [] => true
  | a :: r => forallb (fun b => Nat.leb (common a b) 1) r && check r
  end.
Definition count_type (t : gtype) (lc : list sub) : nat := length (filter (fun x => gtype_eqb (fst x) t) lc).
(** geometry.cpp 988-1007 *)
Definition polyhedron (lc : list sub) : gtype :=
  let s := length lc in
  let tris := count_type GTri lc in
  let quads := count_type GQuad lc in
  if Nat.eqb tris 4 && Nat.eqb s 4 then GTet
  else if Nat.eqb quads 6 && Nat.eqb s 6 then GHex
  else if Nat.eqb tris 4 && Nat.eqb quads 1 && Nat.eqb s (tris + quads) then GPyramid
  else if Nat.eqb quads 3 && Nat.eqb tris 2 && Nat.eqb s (tris + quads) then GPrism
  else GPolyhedron.
(** geometry.cpp 940-1012 *)
Definition cell_type (test : bool) (lc : list sub) : gtype :=
  if Nat.eqb (length lc) 0 then GUnset
  else if negb (Nat.eqb (dmax lc) (dmin lc)) then GMultiPolygon
  else if Nat.eqb (dmax lc) 2 then polygon test lc
  else if negb test || test_closure lc then (if check lc then polyhedron lc else GPolyhedron)
  else GMultiPolygon.
