(** Model of the geometric data of elements (geometry.cpp): normals, areas, barycenters,
    volumes and the test whether a point is inside of a cell.

    Numbers are real numbers, rounding is not modelled. A point has three coordinates; a mesh
    of dimension two is the case of zero third coordinates, as in the code, where the arrays
    l1, l2 are filled with zeros before two of their entries are set. A face of dimension two
    is the list of the positions of its nodes in the order of getNodes (C86). Data are not
    precomputed (HaveGeometricData is false). *)
From Coq Require Import List Reals Bool.
Import ListNotations.
Open Scope R_scope.

Record vec := V { vx : R; vy : R; vz : R }.
Definition vzero := V 0 0 0.
Definition vadd a b := V (vx a + vx b) (vy a + vy b) (vz a + vz b).
(** vec_diff, geometry.cpp:25-41 *)
Definition vsub a b := V (vx a - vx b) (vy a - vy b) (vz a - vz b).
Definition vmul (k : R) a := V (k * vx a) (k * vy a) (k * vz a).
(** vec_cross_product, 44-53; vec_dot_product, 55-61; vec_len, 68-71; det3d, 73-78; det4v, 85-88 *)
Definition cross a b :=
  V (vy a * vz b - vz a * vy b) (vz a * vx b - vx a * vz b) (vx a * vy b - vy a * vx b).
Definition dot a b := vx a * vx b + vy a * vy b + vz a * vz b.
Definition len a := sqrt (dot a a).
Definition det3d a b c d e f g h i := a*e*i - c*e*g + b*f*g - a*f*h + c*d*h - b*d*i.
Definition det3v x y z := det3d (vx x) (vy x) (vz x) (vx y) (vy y) (vz y) (vx z) (vy z) (vz z).
Definition det4v w x y z := det3v (vsub x w) (vsub y w) (vsub z w).

(** the two ends i, i+1 of the loops for(i = 1; i < nodes.size()-1; i++) *)
Fixpoint pairs {A} (l : list A) : list (A * A) :=
  match l with a :: ((b :: _) as r) => (a, b) :: pairs r | _ => [] end.

(** nt*0.5 of one triangle of the fan from nodes[0], e.g. 1676-1680 *)
Definition half_cross v0 (t : vec * vec) := vmul (1/2) (cross (vsub (fst t) v0) (vsub (snd t) v0)).
(** NORMAL for dimension two (2005-2022); n0 in the other requests (1671-1681, 1732-1741) *)
Definition face_normal (nodes : list vec) : vec :=
  match nodes with
  | [] => vzero
  | v0 :: r => fold_left (fun n t => vadd n (half_cross v0 t)) (pairs r) vzero
  end.
(** MEASURE for dimension two (1663-1704) *)
Definition face_area (nodes : list vec) : R := if Nat.ltb 2 (length nodes) then len (face_normal nodes) else 0.
(** MEASURE for dimension one (1648-1662) *)
Definition edge_length a b : R := len (vsub a b).
(** triarea3d, 103-115: Heron's formula *)
Definition triarea p1 p2 p3 : R :=
  let l12 := len (vsub p2 p1) in let l13 := len (vsub p3 p1) in let l23 := len (vsub p3 p2) in
  let h := 1/2 * (l12 + l13 + l23) in
  sqrt (Rmax 0 (h * (h - l12) * (h - l13) * (h - l23))).

(** ss = dot(n0,nt); if( ss ) ss /= fabs(ss); at = sqrt(dot(nt,nt))*ss (1752-1755, 1858-1860) *)
Definition weight n0 nt : R :=
  let ss := dot n0 nt in
  len nt * (if Req_EM_T ss 0 then ss else ss / Rabs ss).
(** a and x of the loops 1742-1761, 1848-1864, 1934-1956; [xf] is subtracted from the nodes *)
Definition fan_moment (xf n0 v0 : vec) (ts : list (vec * vec)) : R * vec :=
  fold_left (fun s t =>
    let at_ := weight n0 (half_cross v0 t) in
    (fst s + at_, vadd (snd s) (vmul (1/3) (vmul at_ (vadd (vadd (vsub v0 xf) (vsub (fst t) xf)) (vsub (snd t) xf))))))
    ts (0, vzero).
(** CENTROID (1790-1801); xf, xc *)
Definition mean (nodes : list vec) : vec := vmul (/ INR (length nodes)) (fold_left vadd nodes vzero).
(** BARYCENTER for dimension two (1829-1872) *)
Definition face_bary (nodes : list vec) : vec :=
  match nodes with
  | v0 :: r =>
    if Nat.ltb 2 (length nodes) then
      let xf := mean nodes in
      let m := fan_moment xf (face_normal nodes) v0 (pairs r) in
      if Req_EM_T (fst m) 0 then xf else vadd (vmul (/ fst m) (snd m)) xf
    else vzero
  | [] => vzero
  end.

(** A face of a cell: reversed or not (the mark rev set by FacesOrientation), nodes *)
Definition sgn (rev : bool) : R := if rev then -1 else 1.
(** volp (1723-1770): [cx] is the centroid of the cell, taken if a = 0 *)
Definition vol_term (cx : vec) (nodes : list vec) : R :=
  match nodes with
  | v0 :: r =>
    let n0 := face_normal nodes in
    let m := fan_moment vzero n0 v0 (pairs r) in
    let x := if Req_EM_T (fst m) 0 then cx else vmul (/ fst m) (snd m) in
    dot x n0 / 3
  | [] => 0
  end.
Definition vol_sum (cx : vec) (faces : list (bool * list vec)) : R :=
  fold_left (fun v f => v + sgn (fst f) * vol_term cx (snd f)) faces 0.
(** MEASURE for dimension three (1705-1782); None: assert(vol > 0) *)
Definition cell_volume (cx : vec) (faces : list (bool * list vec)) : option R :=
  let v := vol_sum cx faces in
  let v := if Rlt_dec v 0 then - v else v in
  if Rlt_dec 0 v then Some v else None.

(** BARYCENTER for dimension three (1873-1990). c of one triangle of the face, per coordinate
    (1951-1953), [xc] the mean of the nodes of the cell *)
Definition moment1 (n a b c : R) : R := n * ((a + b)^2 + (a + c)^2 + (b + c)^2) / 24.
Definition tri_moment xc v0 (t : vec * vec) : vec :=
  let n := half_cross v0 t in let a := vsub v0 xc in let b := vsub (fst t) xc in let c := vsub (snd t) xc in
  V (moment1 (vx n) (vx a) (vx b) (vx c)) (moment1 (vy n) (vy a) (vy b) (vy c)) (moment1 (vz n) (vz a) (vz b) (vz c)).
Definition cell_moment xc (faces : list (bool * list vec)) : vec :=
  fold_left (fun c f => match snd f with
    | v0 :: r => fold_left (fun c t => vadd c (vmul (sgn (fst f)) (tri_moment xc v0 t))) (pairs r) c
    | [] => c end) faces vzero.
(** volp here (1909-1972): the barycenter of the face is found relative to xf *)
Definition vol_term' (nodes : list vec) : R :=
  match nodes with
  | v0 :: r =>
    let n0 := face_normal nodes in
    let xf := mean nodes in
    let m := fan_moment xf n0 v0 (pairs r) in
    let x := if Req_EM_T (fst m) 0 then xf else vadd (vmul (/ fst m) (snd m)) xf in
    dot x n0 / 3
  | [] => 0
  end.
Definition cell_bary (cnodes : list vec) (faces : list (bool * list vec)) : vec :=
  let xc := mean cnodes in
  let c := cell_moment xc faces in
  let vol := fold_left (fun v f => v + sgn (fst f) * vol_term' (snd f)) faces 0 in
  let '(vol, c) := if Rlt_dec vol 0 then (- vol, vmul (-1) c) else (vol, c) in
  if Req_EM_T vol 0 then xc else vadd (vmul (/ vol) c) xc.

(** Cell::Inside for dimension three (487-521): the sum d over the loop of nodes, starting
    from nodes.back(); [v0] the centroid of the face *)
Definition inside_sum (p v0 : vec) (nodes : list vec) : R :=
  snd (fold_left (fun s v2 => (v2, snd s + det4v p v0 (fst s) v2)) nodes (last nodes vzero, 0)).
(** vp, vm and the answer !(vp*vm > 0) (503-521) *)
Definition inside (eps : R) (p : vec) (faces : list (bool * (vec * list vec))) : bool :=
  let c f := sgn (fst f) * inside_sum p (fst (snd f)) (snd (snd f)) in
  let vp := fold_left (fun k f => if Rlt_dec eps (c f) then S k else k) faces 0%nat in
  let vm := fold_left (fun k f => if Rlt_dec eps (c f) then k else if Rlt_dec (c f) (- eps) then S k else k) faces 0%nat in
  negb (Nat.ltb 0 (vp * vm)).
(** Cell::Inside for dimension two (548-576), [d3]: the mesh has dimension 3. In a mesh of
    dimension 2 the dot products have two terms. *)
Definition dotn (d3 : bool) a b : R := if d3 then dot a b else vx a * vx b + vy a * vy b.
Definition ge0 (r : R) : bool := if Rle_dec 0 r then true else false.
Definition inside_tri (d3 : bool) (p c : vec) (t : vec * vec) : bool :=
  let a := vsub p c in let b := vsub p (fst t) in let d := vsub p (snd t) in
  let n1 := cross a b in let n2 := cross b d in let n3 := cross d a in
  ge0 (dotn d3 n1 n2) && ge0 (dotn d3 n2 n3) && ge0 (dotn d3 n1 n3).
Definition inside2 (d3 : bool) (p c : vec) (nodes : list vec) : bool :=
  match nodes with [] => false | v0 :: _ => existsb (inside_tri d3 p c) (pairs (nodes ++ [v0])) end.
