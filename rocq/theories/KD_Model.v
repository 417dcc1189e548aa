(** Search tree of bounding boxes, kdtree.cpp: SearchKDTree.

    Coordinates are rational numbers (every double is one) and the arithmetic of the box tests is
    exact; the conversion of coordinates to float is the function [rnd].  The sorting of the
    entries by centroid (radix_sort or qsort) is an arbitrary function [srt dim] of the list: it
    decides which elements share a subtree, and the theorems hold for every permutation.
    The tests on single elements (Cell::Inside, segment_face, segment_cell, sphere_face,
    sphere_cell) are parameters here; see Tri_Model.v for the triangle tests.
    Hidden elements (modification) are left out. *)
From Coq Require Import List Bool Arith ZArith QArith Lia.
From Verif Require Import Util.
Import ListNotations.
Open Scope Q_scope.

Definition point : Type := nat -> Q.
(** float bbox[6]: [fst (b i)] is bbox[2*i], [snd (b i)] is bbox[2*i+1] *)
Definition box : Type := nat -> Q * Q.

Definition qlt (a b : Q) : bool := negb (Qle_bool b a).
Definition qmin (a b : Q) : Q := if qlt b a then b else a.
Definition qmax (a b : Q) : Q := if qlt a b then b else a.

(** 1.0e20f as a float *)
Definition big : Q := inject_Z 100000002004087734272.
(** 1.0e-3; the nearest double is larger by less than 1.0e-19, which is neglected *)
Definition margin : Q := 1 # 1000.

(** kdtree.cpp:21-30 bbox_point *)
Definition bbox_point (p : point) (b : box) : bool :=
  forallb (fun i => negb (qlt (p i) (fst (b i) - margin) || qlt (snd (b i) + margin) (p i))) [0;1;2]%nat.

(** kdtree.cpp:51-63 bbox_closest_point *)
Definition bbox_closest_point (p : point) (b : box) : point := fun i =>
  if qlt (p i) (fst (b i)) then fst (b i)
  else if qlt (snd (b i)) (p i) then snd (b i) else p i.

Definition dist2 (p q : point) : Q :=
  (p 0%nat - q 0%nat) * (p 0%nat - q 0%nat) + (p 1%nat - q 1%nat) * (p 1%nat - q 1%nat)
  + (p 2%nat - q 2%nat) * (p 2%nat - q 2%nat).

(** kdtree.cpp:65-72 bbox_sphere; sqrt(x) <= r is written 0 <= r and x <= r*r *)
Definition bbox_sphere (p : point) (r : Q) (b : box) : bool :=
  Qle_bool 0 r && Qle_bool (dist2 (bbox_closest_point p b) p) (r * r).

(** kdtree.cpp:677-706 segment_bbox; the state is tnear, tfar, None after return 0 *)
Definition qabs (x : Q) : Q := if qlt x 0 then - x else x.
Definition segment_axis (p1 p2 : point) (b : box) (st : option (Q * Q)) (i : nat) : option (Q * Q) :=
  match st with
  | None => None
  | Some (tnear, tfar) =>
      if qlt (qabs (p2 i - p1 i)) (1 # 1000000000000000) then
        if qlt (p1 i) (fst (b i) - margin) || qlt (snd (b i) + margin) (p1 i) then None
        else Some (tnear, tfar)
      else
        let t1 := (fst (b i) - margin - p1 i) / (p2 i - p1 i) in
        let t2 := (snd (b i) + margin - p1 i) / (p2 i - p1 i) in
        let '(t1, t2) := if qlt t2 t1 then (t2, t1) else (t1, t2) in
        let tnear := if qlt tnear t1 then t1 else tnear in
        let tfar := if qlt t2 tfar then t2 else tfar in
        if qlt tfar tnear then None
        else if qlt tfar 0 then None
        else if qlt 1 tnear then None
        else Some (tnear, tfar)
  end.
(** double constants -1.0e20 and 1.0e20 *)
Definition segment_bbox (p1 p2 : point) (b : box) : bool :=
  match fold_left (segment_axis p1 p2 b) [0;1;2]%nat
          (Some (inject_Z (-100000000000000000000), inject_Z 100000000000000000000)) with
  | Some _ => true | None => false end.

Section Tree.
Variable A : Type.                          (* handle of an element *)
Variable nodes : A -> list point.           (* coordinates of its nodes *)
Variable dims : nat.                        (* m->GetDimensions() *)
Variable rnd : Q -> Q.                      (* conversion to float *)
Variable srt : nat -> list A -> list A.     (* sorting of the entries along an axis *)

Inductive tree : Type := Leaf (e : A) (b : box) | Node (b : box) (l r : tree).
Definition tbox (t : tree) : box := match t with Leaf _ b => b | Node b _ _ => b end.

(** kdtree.cpp:291-327 the box of one element *)
Definition leaf_axis (e : A) (i : nat) : Q * Q :=
  if (i <? dims)%nat then
    fold_left (fun b x => (qmin (fst b) (rnd (x i)), qmax (snd b) (rnd (x i)))) (nodes e) (big, - big)
  else (- big, big).

(** kdtree.cpp:231-235 and 494-501 the box of a subtree *)
Definition join (b c : box) : box := fun k => (qmin (fst (b k)) (fst (c k)), qmax (snd (b k)) (snd (c k))).

(** kdtree.cpp:208-330 kdtree_build; None: assert(size == 1) fails *)
Fixpoint build (fuel dim : nat) (l : list A) : option tree :=
  match fuel with
  | O => None
  | S f =>
      match l with
      | [] => None
      | [e] => Some (Leaf e (leaf_axis e))
      | _ =>
          let l := srt dim l in
          let h := (length l / 2)%nat in
          match build f ((dim + 1) mod 3) (firstn h l), build f ((dim + 1) mod 3) (skipn h l) with
          | Some t1, Some t2 => Some (Node (join (tbox t1) (tbox t2)) t1 t2)
          | _, _ => None
          end
      end
  end.
(** kdtree.cpp:473-535 constructors: all cells of the mesh or a set of handles *)
Definition SearchKDTree (l : list A) : option tree := build (length l) 0 l.

(** kdtree.cpp:332-362 SubSearchCell, 1111 SearchCell *)
Variable inside : A -> point -> bool.       (* Cell::Inside *)
Fixpoint SubSearchCell (t : tree) (p : point) : option A :=
  match t with
  | Leaf e _ => if inside e p then Some e else None
  | Node b l r =>
      if bbox_point p b then
        match SubSearchCell l p with Some c => Some c | None => SubSearchCell r p end
      else None
  end.

(** kdtree.cpp:955-994 sub_intersect_segment; 1061-1100 sub_intersect_sphere.  The private
    marker is set exactly on the elements of [hits]. *)
Variable eqb : A -> A -> bool.
Variable hit : A -> bool.                   (* test of the element *)
Variable cross : box -> bool.               (* segment_bbox or sphere_bbox *)
Fixpoint sub_intersect (t : tree) (hits : list A) : list A :=
  match t with
  | Leaf e _ =>
      if existsb (eqb e) hits then hits
      else if hit e then hits ++ [e] else hits
  | Node b l r => if cross b then sub_intersect r (sub_intersect l hits) else hits
  end.
End Tree.
Arguments Leaf {A}. Arguments Node {A}. Arguments tbox {A}.

(** kdtree.cpp:813-838, 901-926 IntersectSegment/IntersectSphere with an array of cells:
    [is_cell e]: cell, otherwise a face; [cells f]: cells of the face *)
Definition push_new {B} (eqb : B -> B -> bool) (acc : list B) (x : B) : list B :=
  if existsb (eqb x) acc then acc else acc ++ [x].
Definition collect_cells (is_cell : nat -> bool) (cells : nat -> list nat) (temp : list nat) : list nat :=
  fold_left (fun acc e => if is_cell e then push_new Nat.eqb acc e
                          else fold_left (push_new Nat.eqb) (cells e) acc) temp [].
(** kdtree.cpp:840-865, 928-953 with an array of faces; the face itself is pushed without a test *)
Definition collect_faces (is_cell : nat -> bool) (faces : nat -> list nat) (temp : list nat) : list nat :=
  fold_left (fun acc e => if is_cell e then fold_left (push_new Nat.eqb) (faces e) acc
                          else acc ++ [e]) temp [].

(** * Conversion to float: round to nearest, ties to even, 24 bits; without underflow and overflow *)
Definition qpow2 (e : Z) : Q := if (0 <=? e)%Z then inject_Z (2 ^ e) else / inject_Z (2 ^ (- e)).
Definition round_even (x : Q) : Z :=
  let f := (Qnum x / Zpos (Qden x))%Z in
  let r := (2 * (Qnum x - f * Zpos (Qden x)))%Z in   (* twice the remainder *)
  if (r <? Zpos (Qden x))%Z then f
  else if (Zpos (Qden x) <? r)%Z then (f + 1)%Z
  else if Z.even f then f else (f + 1)%Z.
Definition rnd32 (x : Q) : Q :=
  if (Qnum x =? 0)%Z then 0 else
  (* 2^e <= |x| < 2^(e+1), for |x| >= 2^-1000 *)
  let e := (Z.log2 (Z.abs (Qnum x) * 2 ^ 1000 / Zpos (Qden x)) - 1000)%Z in
  inject_Z (round_even (x * qpow2 (23 - e))) * qpow2 (e - 23).
