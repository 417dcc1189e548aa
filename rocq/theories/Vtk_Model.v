(** Model of the order of nodes of cells in VTK files: Mesh::RestoreCellNodes (Source/Mesh/mesh.cpp
    1437-1626), tables of faces, section CELLS written by SaveVTK and read by LoadVTK
    (Source/IO/mesh_vtk_file.cpp 119-157, 217-338, 1650-2158).  A cell is the list of its faces; a face is
    the loop of its nodes with the result of FaceOrientedOutside.  Handles are natural numbers; markers are
    membership in the list of marked nodes.  Hidden elements are not part of the model. *)
From Coq Require Import List Arith Bool.
From Verif Require Import Vtk_Spec.
Import ListNotations.

Definition mem (x : nat) (l : list nat) : bool := existsb (Nat.eqb x) l.
(** mesh.cpp 1474-1480, 1527-1531, 1579-1583, 1608-1614: nodes in reverse order if the face is oriented outside *)
Definition inward (f : face) : list nat := if snd f then rev (fst f) else fst f.
(** mesh.cpp 1485, 1538: number of marked nodes *)
Definition marked (base : list nat) (f : face) : nat := length (filter (fun v => mem v base) (fst f)).
(** mesh.cpp 1492-1497, 1545-1550: position among the nodes of the base *)
Fixpoint position (x : nat) (l : list nat) : option nat :=
  match l with
  | [] => None
  | y :: r => if Nat.eqb y x then Some 0 else match position x r with Some k => Some (S k) | None => None end
  end.
Fixpoint put (i : nat) (v : nat) (l : list (option nat)) : list (option nat) :=
  match l with
  | [] => []
  | a :: r => match i with O => Some v :: r | S j => a :: put j v r end
  end.
(** mesh.cpp 1489-1506, 1542-1559: one node of the face; outer [None] is a failed assertion *)
Definition visit (base verts : list nat) (up : option (list (option nat))) (q : nat) : option (list (option nat)) :=
  match up, nth_error verts q with
  | Some u, Some x =>
      if mem x base then
        match position x base, nth_error verts ((q + 1) mod length verts), nth_error verts ((q + length verts - 1) mod length verts) with
        | Some l, Some nxt, Some prv =>
            if mem nxt base then Some (put l prv u)
            else if mem prv base then Some (put l nxt u)
            else None
        | _, _, _ => None
        end
      else Some u
  | _, _ => None
  end.
(** mesh.cpp 1485-1507, 1538-1560 *)
Definition raise_face (base : list nat) (up : option (list (option nat))) (f : face) : option (list (option nat)) :=
  if Nat.eqb (marked base f) 2 then fold_left (visit base (fst f)) (seq 0 (length (fst f))) up else up.
Fixpoint all_some (l : list (option nat)) : option (list nat) :=
  match l with
  | [] => Some []
  | None :: _ => None
  | Some a :: r => match all_some r with Some s => Some (a :: s) | None => None end
  end.
(** the nodes of the base followed by the nodes above them; [None] also stands for invalid nodes *)
Definition raise (base : list nat) (faces : list face) : option (list nat) :=
  match fold_left (raise_face base) faces (Some (repeat None (length base))) with
  | Some u => match all_some u with Some s => Some (base ++ s) | None => None end
  | None => None
  end.
(** mesh.cpp 1590, 1616: nodes of the face that are not marked, added to the set *)
Definition unite (base : list nat) (f : face) : list nat := base ++ filter (fun v => negb (mem v base)) (fst f).
(** mesh.cpp 1469-1512 *)
Definition restore_hex (faces : list face) : option (list nat) :=
  match faces with f :: r => raise (inward f) r | [] => None end.
(** mesh.cpp 1519-1565 *)
Definition restore_wedge (faces : list face) : option (list nat) :=
  match find (fun f : face => Nat.eqb (length (fst f)) 3) faces with Some f => raise (inward f) faces | None => None end.
(** mesh.cpp 1571-1597 *)
Definition restore_pyramid (faces : list face) : option (list nat) :=
  match find (fun f : face => Nat.eqb (length (fst f)) 4) faces, find (fun f : face => Nat.eqb (length (fst f)) 3) faces with
  | Some f, Some g => let r := unite (inward f) g in if Nat.eqb (length r) 5 then Some r else None
  | _, _ => None
  end.
(** mesh.cpp 1603-1621 *)
Definition restore_tet (faces : list face) : option (list nat) :=
  match faces with f :: g :: _ => let r := unite (inward f) g in if Nat.eqb (length r) 4 then Some r else None | _ => None end.
Definition restore (s : shape) (faces : list face) : option (list nat) :=
  match s with Tet => restore_tet faces | Hex => restore_hex faces | Wedge => restore_wedge faces | Pyramid => restore_pyramid faces | _ => None end.

(** tables of faces in LoadVTK, mesh_vtk_file.cpp 1930-1931, 1970-1971, 1986-1988, 2002-2003, 2017-2029, 2043-2056 *)
Definition table (s : shape) : list nat * list nat :=
  match s with
  | Tet => ([0;2;1;0;1;3;1;2;3;0;3;2], [3;3;3;3])
  | Hex => ([0;4;7;3;1;2;6;5;0;1;5;4;3;7;6;2;0;3;2;1;4;5;6;7], [4;4;4;4;4;4])
  | Wedge => ([0;2;5;3;1;4;5;2;0;3;4;1;3;5;4;0;1;2], [4;4;4;3;3])
  | Pyramid => ([0;4;3;0;1;4;1;2;4;3;4;2;0;3;2;1], [3;3;3;3;4])
  | Prism5 => ([0;1;6;5;1;2;7;6;2;3;8;7;3;4;9;8;4;0;5;9;5;6;7;8;9;4;3;2;1;0], [4;4;4;4;4;5;5])
  | Prism6 => ([0;1;7;6;1;2;8;7;2;3;9;8;3;4;10;9;4;5;11;10;5;0;6;11;6;7;8;9;10;11;5;4;3;2;1;0], [4;4;4;4;4;4;6;6])
  end.
(** CreateCell with nodesnum and sizes (mesh.cpp 1419-1434): faces one after another *)
Fixpoint split_faces (c_nodes nums sizes : list nat) : list loop :=
  match sizes with
  | [] => []
  | n :: r => map (pick c_nodes) (firstn n nums) :: split_faces c_nodes (skipn n nums) r
  end.
Definition load_faces (s : shape) (c_nodes : list nat) : list loop := split_faces c_nodes (fst (table s)) (snd (table s)).
(** VTK_VOXEL, mesh_vtk_file.cpp 1945-1953: two swaps, then a hexahedron *)
Definition load_voxel (c_nodes : list nat) : list loop :=
  match c_nodes with
  | [a; b; c; d; e; f; g; h] => load_faces Hex [a; b; d; c; e; f; h; g]
  | _ => []
  end.

(** * section CELLS *)
(** cells of a mesh with three dimensions: a known shape or a polyhedron *)
Inductive cell := Simple (s : shape) (faces : list face) | Poly (faces : list face).
(** mesh_vtk_file.cpp 119-137 *)
Definition vtk_type (s : shape) : nat := match s with Tet => 10 | Hex => 12 | Wedge => 13 | Pyramid => 14 | Prism5 => 15 | Prism6 => 16 end.
(** mesh_vtk_file.cpp 250-272 *)
Definition poly_values (faces : list face) : list nat :=
  (1 + length faces + fold_left (fun t f => t + length (fst f)) faces 0) :: length faces ::
  flat_map (fun f => length (fst f) :: outward f) faces.
(** mesh_vtk_file.cpp 219-272 and 319-326: values and the type; the branch for a number of nodes that
    does not fit is taken only for cells of wrong topology *)
Definition save_cell (c : cell) : option (nat * list nat) :=
  match c with
  | Simple s faces =>
      match restore s faces with
      | Some r => if Nat.eqb (length r) (shape_size s) then Some (vtk_type s, length r :: r) else None
      | None => None
      end
  | Poly faces => Some (42, poly_values faces)
  end.
Fixpoint save_cells (l : list cell) : option (list nat * list nat) :=
  match l with
  | [] => Some ([], [])
  | c :: r => match save_cell c, save_cells r with
              | Some (t, v), Some (ts, vs) => Some (t :: ts, v ++ vs)
              | _, _ => None
              end
  end.
(** mesh_vtk_file.cpp 2146-2154 *)
Fixpoint read_loops (n : nat) (cp : list nat) : option (list loop * list nat) :=
  match n with
  | O => Some ([], cp)
  | S m => match cp with
           | [] => None
           | k :: r => if Nat.leb k (length r) then match read_loops m (skipn k r) with Some (ls, rest) => Some (firstn k r :: ls, rest) | None => None end else None
           end
  end.
(** mesh_vtk_file.cpp 1921-2158: faces of the new cell and the values that follow; [None] is the
    exception BadFile or reading beyond the end *)
Definition load_cell (t : nat) (cp : list nat) : option (list loop * list nat) :=
  let simple s := match cp with
    | [] => None
    | n :: r => if Nat.leb n (length r) && Nat.eqb n (shape_size s) then Some (load_faces s (firstn n r), skipn n r) else None
    end in
  match t with
  | 10 => simple Tet
  | 12 => simple Hex
  | 13 => simple Wedge
  | 14 => simple Pyramid
  | 15 => simple Prism5
  | 16 => simple Prism6
  | 42 => match cp with _ :: n :: r => read_loops n r | _ => None end
  | _ => None
  end.
Fixpoint load_cells (ts cp : list nat) : option (list (list loop)) :=
  match ts with
  | [] => Some []
  | t :: r => match load_cell t cp with
              | Some (fs, rest) => match load_cells r rest with Some l => Some (fs :: l) | None => None end
              | None => None
              end
  end.
