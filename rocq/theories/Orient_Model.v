(** Model of the functions that find a common orientation of the faces of a cell
    (Mesh::FacesOrientation, Mesh::CheckConvexity, Cell::Inside, Face::CheckNormalOrientation,
    Face::FixNormalOrientation in geometry.cpp).

    Nodes, edges and faces are numbers. The mesh is not under modification; a face of
    dimension two has its edges in the order of the loop (C86-C88), an edge has two ends. *)
From Coq Require Import List Arith Bool Reals.
From Verif Require Import Geom_Model.
Import ListNotations.

(** getBeg and getEnd of an edge, LowConn of a face, HighConn of an edge *)
Record surf := Surf { ends : nat -> nat * nat; fedges : nat -> list nat; efaces : nat -> list nat }.

(** geometry.cpp:1498-1514, 1553-1568: the ends of the first edge, the second one on the next edge *)
Definition start_nodes (s : surf) (e0 e1 : nat) : nat * nat :=
  let '(b, e) := ends s e0 in
  if (b =? fst (ends s e1)) || (b =? snd (ends s e1)) then (e, b) else (b, e).
(** 1540-1547, 1590-1596: the other end of the next edge *)
Definition other (s : surf) (e n : nat) : nat := if n =? fst (ends s e) then snd (ends s e) else fst (ends s e).
(** the values of ej, n1, n2 in the loops 1516-1548 and 1570-1597 *)
Fixpoint trace_from (s : surf) (n1 n2 : nat) (es next : list nat) : list (nat * (nat * nat)) :=
  match es, next with
  | e :: es', en :: next' => (e, (n1, n2)) :: trace_from s n2 (other s en n2) es' next'
  | _, _ => []
  end.
(** None: the second edge is read out of bounds *)
Definition trace (s : surf) (es : list nat) : option (list (nat * (nat * nat))) :=
  match es with
  | e0 :: e1 :: r => let '(n1, n2) := start_nodes s e0 e1 in Some (trace_from s n1 n2 es (e1 :: r ++ [e0]))
  | _ => None
  end.

Definition set (m : nat -> bool) (x : nat) (v : bool) : nat -> bool := fun y => if y =? x then v else m y.
(** an entry of the queue: orient_face(bridge, first, face), geometry.cpp:15-22 *)
Definition entry := (nat * nat * nat)%type.
(** 1518-1530: marked faces of one edge are unmarked and put into the queue *)
Definition schedule (s : surf) (reverse : bool) (st : (nat -> bool) * list entry) (t : nat * (nat * nat)) :
    (nat -> bool) * list entry :=
  fold_left (fun (st : (nat -> bool) * list entry) g => if fst st g then (set (fst st) g false, snd st ++ [(fst t, if reverse then snd (snd t) else fst (snd t), g)]) else st)
    (efaces s (fst t)) st.
(** 1570-1590: whether the new face has to be reversed *)
Definition reversed (tr : list (nat * (nat * nat))) (bridge first : nat) : bool :=
  match find (fun t => fst t =? bridge) tr with Some t => first =? fst (snd t) | None => false end.
(** The loop 1496-1598. [stale]: Cell::Inside (385-468), where the reference cur_edges stays on
    the edges of the first face. [rev] are the marks set. None: out of bounds or out of fuel. *)
Fixpoint run (s : surf) (stale : bool) (fuel : nat) (f0 cur : nat) (reverse : bool) (marks : nat -> bool)
  (queue : list entry) (rev : nat -> bool) : option (nat -> bool) :=
  match trace s (fedges s (if stale then f0 else cur)) with
  | None => None
  | Some tr =>
    let st := fold_left (schedule s reverse) tr (marks, queue) in
    match snd st with
    | [] => Some rev
    | (bridge, first, g) :: q =>
      match fuel with
      | 0 => None
      | S fuel' =>
        match trace s (fedges s g) with
        | None => None
        | Some tr' =>
          let reverse' := reversed tr' bridge first in
          run s stale fuel' f0 g reverse' (fst st) q (if reverse' then set rev g true else rev)
        end
      end
    end
  end.
(** FacesOrientation without convexity (1485-1602) for f0 = faces[0]; Cell::Inside (370-471) with
    [stale]; CheckNormalOrientation (2188-2299) for any face f0 of the cell *)
Definition orientation (s : surf) (stale : bool) (faces : list nat) (f0 : nat) : option (nat -> bool) :=
  run s stale (length faces) f0 f0 false (set (fun g => existsb (Nat.eqb g) faces) f0 false) [] (fun _ => false).

Open Scope R_scope.
(** A face by its centroid and its normal. CheckConvexity, 1417-1451: the values dotv for face f *)
Definition dotvs (faces : list (vec * vec)) (f : vec * vec) : list R :=
  map (fun m => dot (snd f) (vsub (fst m) (fst f))) faces.
Definition check_convexity (eps : R) (faces : list (vec * vec)) : bool :=
  forallb (fun f =>
    let dots := fold_left Rplus (dotvs faces f) 0 in
    let dota := fold_left (fun a d => a + Rabs d) (dotvs faces f) 0 in
    if Rlt_dec eps (Rabs (Rabs dots - dota)) then false else true) faces.
(** FacesOrientation for a convex set of faces (1460-1484): the marks *)
Definition convex_marks (faces : list (vec * vec)) : list bool :=
  let xc := mean (map fst faces) in
  map (fun f => if Rlt_dec (dot (snd f) (vsub (fst f) xc)) 0 then true else false) faces.
(** getNodes of a face, Loop_Model.face_nodes (C86): the first node of every step of the loop *)
Definition face_nodes (s : surf) (f : nat) : list nat :=
  match trace s (fedges s f) with Some tr => map (fun t => fst (snd t)) tr | None => [] end.
(** CheckNormalOrientation without convexity (2300-2334); [pos] the coordinates of the nodes, [rev] marks *)
Definition measure (s : surf) (pos : nat -> vec) (faces : list nat) (rev : nat -> bool) : R :=
  fold_left (fun m f => let l := map pos (face_nodes s f) in m + sgn (rev f) * dot (face_bary l) (face_normal l)) faces 0.
Definition check_normal (s : surf) (pos : nat -> vec) (faces : list nat) (f : nat) : option bool :=
  match orientation s false faces f with
  | None => None
  | Some rev => Some (if Rlt_dec (measure s pos faces rev) 0 then false else true)
  end.
(** FixNormalOrientation without a swap of the cells (2338-2366): ReorderEdges reverses the list
    of edges (C89) *)
Definition reorder_face (s : surf) (f : nat) : surf :=
  Surf (ends s) (fun g => if g =? f then rev (fedges s g) else fedges s g) (efaces s).
Definition fix_normal (s : surf) (pos : nat -> vec) (faces : list nat) (f : nat) : option surf :=
  match check_normal s pos faces f with
  | None => None
  | Some true => Some s
  | Some false => Some (reorder_face s f)
  end.
