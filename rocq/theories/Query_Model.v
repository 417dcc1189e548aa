(** Model of the adjacency requests: Element::getAdjElements, Element::nbAdjElements
    (element.cpp:66-1621), Element::BridgeAdjacencies (element.cpp:1863-1885) and the
    requests of Cell for cells of dimension two (cell.cpp). The mesh is that of Adj_Model.

    Masks: [ok y] stands for invert ^ GetMarker(y,mask) or invert ^ GetPrivateMarker(y,mask),
    constantly true for the requests without mask. A temporary marker is the set of elements
    that bear it; CreatePrivateMarker gives an empty one (C06). The functions return the
    state of each temporary marker at its release. The branches with and without HideMarker
    are one definition: without the marker everything is visible. *)
From Coq Require Import List Arith Bool.
From Verif Require Import Util Adj_Model Loop_Model.
Import ListNotations.

Definition marks := elem -> bool.
Definition fresh : marks := fun _ => false.
(** RemPrivateMarker for all elements of a list (element.cpp: ElementArray::RemPrivateMarker,
    Mesh::RemPrivateMarkerArray) *)
Definition unmark (l : list elem) (mk : marks) : marks := fold_left (fun s y => upd s y false) l mk.

(** the innermost loop, e.g. element.cpp:108-113, 1038-1043, 1331-1336 *)
Definition gather (m : mesh) (ok : elem -> bool) (st : list elem * marks) (l : list elem) : list elem * marks :=
  fold_left (fun s y => if visible m y && ok y && negb (snd s y) then (fst s ++ [y], upd (snd s) y true) else s) l st.
(** the outer loops (105-114, 145-159): [n] levels above the innermost one along
    [c] = LowConn or HighConn *)
Fixpoint away (m : mesh) (ok : elem -> bool) (c : elem -> list elem) (n : nat) (st : list elem * marks) (x : elem)
  : list elem * marks :=
  match n with
  | 0 => gather m ok st (c x)
  | S n' => fold_left (fun s e => if visible m e then away m ok c n' s e else s) (c x) st
  end.
Definition select (m : mesh) (ok : elem -> bool) (l : list elem) : list elem :=
  filter (fun y => visible m y && ok y) l.

(** getAdjElements: one turn of the loop over types, element.cpp:884-993, 998-1111 and the
    same with masks 1131-1618. [res] is the result so far; the temporary marker is removed
    from all of it. *)
Definition adj_type (m : mesh) (ok : elem -> bool) (x : elem) (res : list elem) (i : nat) : list elem * list marks :=
  let collect n c := let st := away m ok c n (res, fresh) x in (fst st, [unmark (fst st) (snd st)]) in
  let t := fst x in
  if Nat.eqb i t then (if visible m x && ok x then res ++ [x] else res, [])
  else if Nat.eqb i (t + 1) then (res ++ select m ok (high m x), [])
  else if Nat.eqb (i + 1) t then (res ++ select m ok (low m x), [])
  else if Nat.eqb i (t + 2) then collect 1 (high m)
  else if Nat.eqb (i + 2) t then collect 1 (low m)
  else if Nat.eqb i (t + 3) then (if cn m then (res ++ select m ok (low m x), []) else collect 2 (high m))
  else if Nat.eqb (i + 3) t then (if cn m then (res ++ select m ok (high m x), []) else collect 2 (low m))
  else (res, []).
Definition get_adj (m : mesh) (ok : elem -> bool) (types : nat -> bool) (x : elem) : list elem * list marks :=
  fold_left (fun s i => if types i then let p := adj_type m ok x (fst s) i in (fst p, snd s ++ snd p) else s)
            [0; 1; 2; 3] ([], []).
(** nbAdjElements, element.cpp:82-320, 343-860: counted separately, with a vector of its own *)
Definition nb_type (m : mesh) (ok : elem -> bool) (x : elem) (i : nat) : nat * list marks :=
  let collect n c := let st := away m ok c n ([], fresh) x in (length (fst st), [unmark (fst st) (snd st)]) in
  let t := fst x in
  if Nat.eqb i t then (if visible m x && ok x then 1 else 0, [])
  else if Nat.eqb i (t + 1) then (length (select m ok (high m x)), [])
  else if Nat.eqb (i + 1) t then (length (select m ok (low m x)), [])
  else if Nat.eqb i (t + 2) then collect 1 (high m)
  else if Nat.eqb (i + 2) t then collect 1 (low m)
  else if Nat.eqb i (t + 3) then (if cn m then (length (select m ok (low m x)), []) else collect 2 (high m))
  else if Nat.eqb (i + 3) t then (if cn m then (length (select m ok (high m x)), []) else collect 2 (low m))
  else (0, []).
Definition nb_adj (m : mesh) (ok : elem -> bool) (types : nat -> bool) (x : elem) : nat * list marks :=
  fold_left (fun s i => if types i then let p := nb_type m ok x i in (fst s + fst p, snd s ++ snd p) else s)
            [0; 1; 2; 3] (0, []).

Definition all_ok : elem -> bool := fun _ => true.

(** BridgeAdjacencies (element.cpp:1863-1885; 1888-1983 are the same with a type fixed).
    [bok], [tok]: the tests with bridge_mask and target_mask, true if the mask is 0. *)
Definition bridge (m : mesh) (btypes dtypes : nat -> bool) (bok tok : elem -> bool) (x : elem) : list elem * marks :=
  let adjfaces := fst (get_adj m all_ok btypes x) in
  let my := if btypes (fst x) then [] else fst (get_adj m all_ok dtypes x) in
  let mk0 := fold_left (fun s y => upd s y true) my fresh in
  let st := fold_left (fun s b => if bok b then
              fold_left (fun s y => if negb (snd s y) && tok y then (fst s ++ [y], upd (snd s) y true) else s)
                        (fst (get_adj m all_ok dtypes b)) s else s) adjfaces ([], mk0) in
  (fst st, unmark my (unmark (fst st) (snd st))).

(** Cell::getNodes of a cell of dimension two without stored cell nodes (cell.cpp:336-371,
    387-445): the loop of its faces gives edges, the first visible node of each is returned.
    [None]: an assertion or an access outside of an array. *)
Fixpoint first_nodes (low : elem -> list elem) (h : elem -> bool) (es : list elem) : option (list elem) :=
  match es with
  | [] => Some []
  | e :: r => do n <- nth_error (low e) (get_next h (low e) 0) ;; do t <- first_nodes low h r ;; Some (n :: t)
  end.
Definition cell2_nodes low h modif lc := do es <- face_nodes low h modif lc ;; first_nodes low h es.
(** Cell::getNodes(mask,invert) (cell.cpp:530-579, 606-668, 696-745, 772-830): the mask is
    asked of the edges of the loop *)
Definition cell2_nodes_mask low h (modif priv : bool) ok lc :=
  do es <- face_nodes_mask low h modif priv ok lc ;; first_nodes low h es.
(** Cell::getEdges of a cell of dimension two: without the marker (cell.cpp:845-877, for
    faces with two edges) the loop of C86; with it (898-940) the loop starts from index 1 and
    stops before the last entry, hidden or not *)
Definition cell2_edges (low : elem -> list elem) (h : elem -> bool) (modif : bool) (lc : list elem) : option (list elem) :=
  if modif then
    let i0 := get_next h lc 0 in
    do q <- nth_error lc i0 ;; do p <- visible_two h (low q) ;;
    let i1 := get_next h lc (S i0) in
    do r <- nth_error lc i1 ;; do p' <- visible_two h (low r) ;;
    let (x, y) := orient p p' in
    do t <- walk (fun e => visible_two h (low e)) y (unhidden h (firstn (length lc - 2) (skipn 1 lc))) ;;
    Some (x :: y :: t)
  else ring low lc.
