(** Distance and intersection tests of SearchKDTree, kdtree.cpp, over the real numbers (the rounding
    of double arithmetic is left out). *)
From Coq Require Import List Bool Reals.
Import ListNotations.
Open Scope R_scope.

(** Storage::real v[3] *)
Record vec : Type := V { vx : R; vy : R; vz : R }.
Definition vsub (a b : vec) : vec := V (vx a - vx b) (vy a - vy b) (vz a - vz b).
Definition vadd (a b : vec) : vec := V (vx a + vx b) (vy a + vy b) (vz a + vz b).
Definition vscale (t : R) (a : vec) : vec := V (t * vx a) (t * vy a) (t * vz a).
(** kdtree.cpp:10-15 crossproduct *)
Definition crossproduct (a b : vec) : vec :=
  V (vy a * vz b - vz a * vy b) (vz a * vx b - vx a * vz b) (vx a * vy b - vy a * vx b).
(** kdtree.cpp:17-20 dotproduct *)
Definition dotproduct (a b : vec) : R := vx a * vx b + vy a * vy b + vz a * vz b.

Definition leb (x y : R) : bool := if Rle_dec x y then true else false.
Definition ltb (x y : R) : bool := if Rlt_dec x y then true else false.
Definition eqb (x y : R) : bool := if Req_EM_T x y then true else false.

(** sqrt((pout[0]-p[0])*(pout[0]-p[0])+...) *)
Definition pdist (a p : vec) : R := sqrt (dotproduct (vsub a p) (vsub a p)).

(** kdtree.cpp:75-107 segment_distance *)
Definition segment_distance (a b p : vec) : R :=
  let v := vsub b a in
  let d := dotproduct v v in
  if eqb d 0 then pdist a p
  else
    let t := dotproduct v (vsub p a) / d in
    let pout := if leb 0 t && leb t 1 then vadd a (vscale t v)
                else if ltb t 0 then a else b in
    pdist pout p.

(** kdtree.cpp:109-145 triangle_distance *)
Definition normalise (n : vec) : vec :=
  let d := sqrt (dotproduct n n) in
  if eqb d 0 then n else V (vx n / d) (vy n / d) (vz n / d).
Definition triangle_distance (a b c p : vec) : R :=
  let n := normalise (crossproduct (vsub b a) (vsub c a)) in
  let t := dotproduct (vsub a p) n in
  let pout := vadd p (vscale t n) in
  let q1 := crossproduct (vsub pout a) (vsub pout b) in
  let q2 := crossproduct (vsub pout b) (vsub pout c) in
  let q3 := crossproduct (vsub pout c) (vsub pout a) in
  if leb 0 (dotproduct q1 q2) && leb 0 (dotproduct q2 q3) && leb 0 (dotproduct q1 q3) then Rabs t
  else Rmin (Rmin (segment_distance a b p) (segment_distance b c p)) (segment_distance c a p).

(** kdtree.cpp:537-540 sphere_tri *)
Definition sphere_tri (t0 t1 t2 p : vec) (r : R) : bool := leb (triangle_distance t0 t1 t2 p) r.

(** kdtree.cpp:542-596 segment_tri; the division by [invdenom] is reached only when the vector n is
    not zero (m is 0 otherwise), and then [invdenom] is not zero *)
Definition segment_tri (t0 t1 t2 p1 p2 : vec) : bool :=
  let ray := vsub p2 p1 in
  let a := vsub t0 t2 in
  let b := vsub t1 t2 in
  let n := normalise (crossproduct a b) in
  let d := - dotproduct n t2 in
  let m := dotproduct n ray in
  if ltb (Rabs m) (/ 10 ^ 25) then false
  else
    let k := - (d + dotproduct n p1) / m in
    if ltb k (- / 10 ^ 10) || ltb (1 + / 10 ^ 10) k then false
    else
      let c := vsub (vadd p1 (vscale k ray)) t2 in
      let dot00 := dotproduct a a in
      let dot01 := dotproduct a b in
      let dot02 := dotproduct a c in
      let dot11 := dotproduct b b in
      let dot12 := dotproduct b c in
      let invdenom := dot00 * dot11 - dot01 * dot01 in
      let uq := dot11 * dot02 - dot01 * dot12 in
      let vq := dot00 * dot12 - dot01 * dot02 in
      if ltb (Rabs invdenom) (/ 10 ^ 25) && ltb 0 (Rabs uq) && ltb 0 (Rabs vq) then false
      else
        let uq := uq / invdenom in
        let vq := vq / invdenom in
        leb (- / 10 ^ 7) uq && leb (- / 10 ^ 7) vq && leb (- / 10 ^ 7) (1 - (uq + vq)).

(** kdtree.cpp:738-753, 780-795 segment_face, sphere_face: triangles (node k, node k+1, centroid) *)
Definition fan (nodes : list vec) : list (vec * vec) :=
  combine nodes (tl nodes ++ firstn 1 nodes).
Definition segment_face (centre : vec) (nodes : list vec) (p1 p2 : vec) : bool :=
  existsb (fun e => segment_tri (fst e) (snd e) centre p1 p2) (fan nodes).
Definition sphere_face (centre : vec) (nodes : list vec) (p : vec) (r : R) : bool :=
  existsb (fun e => sphere_tri (fst e) (snd e) centre p r) (fan nodes).
(** kdtree.cpp:797-811 segment_cell, sphere_cell: a cell is the list of its faces (centroid, nodes) *)
Definition segment_cell (faces : list (vec * list vec)) (p1 p2 : vec) : bool :=
  existsb (fun f => segment_face (fst f) (snd f) p1 p2) faces.
Definition sphere_cell (faces : list (vec * list vec)) (p : vec) (r : R) : bool :=
  existsb (fun f => sphere_face (fst f) (snd f) p r) faces.
