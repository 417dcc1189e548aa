(** Model of the functions that walk along the edges of a face, or along the faces of a
    two-dimensional cell (face.cpp, cell.cpp, edge.cpp).

    [low e] is the array LowConn(e) and [hid e] the hide marker of e; [lc] is LowConn of the
    face or of the cell. [None] is a failed assertion or a read outside of an array.
    For a two-dimensional cell the members of [lc] are its faces and their ends are the
    elements of type edge that stand for nodes. *)
From Coq Require Import List Arith Bool.
From Verif Require Import Util Adj_Model.
Import ListNotations.

Definition bind {A B} (x : option A) (f : A -> option B) : option B :=
  match x with Some a => f a | None => None end.
Notation "'do' p <- x ;; y" := (bind x (fun p => y)) (at level 200, p pattern, x at level 100, y at level 200).

(** Mesh::getNext (modify.cpp:2300-2305); the argument is the index after the increment,
    so ENUMUNDEF is 0 *)
Fixpoint lead (h : elem -> bool) (l : list elem) : nat :=
  match l with [] => 0 | x :: r => if h x then S (lead h r) else 0 end.
Definition get_next (h : elem -> bool) (l : list elem) (k : nat) : nat := k + lead h (skipn k l).
(** Mesh::Count (modify.cpp:2307-2317) *)
Definition count (h : elem -> bool) (l : list elem) : nat := length (filter (fun x => negb (h x)) l).

(** assert(l.size() == 2) and the two entries; reading of the first two entries; the first
    two visible entries; the same with the assertion on the count *)
Definition two (l : list elem) : option (elem * elem) :=
  match l with [a; b] => Some (a, b) | _ => None end.
Definition first_two (l : list elem) : option (elem * elem) :=
  match l with a :: b :: _ => Some (a, b) | _ => None end.
Definition visible_two (h : elem -> bool) (l : list elem) : option (elem * elem) :=
  let k1 := get_next h l 0 in
  let k2 := get_next h l (S k1) in
  do a <- nth_error l k1 ;; do b <- nth_error l k2 ;; Some (a, b).
Definition exactly_two (h : elem -> bool) (l : list elem) : option (elem * elem) :=
  if Nat.eqb (count h l) 2 then visible_two h l else None.

Definition touches (x : elem) (p : elem * elem) : bool := eqe x (fst p) || eqe x (snd p).
(** the ends of the first edge ordered so that the second one touches the next edge *)
Definition orient (p q : elem * elem) : elem * elem :=
  if touches (fst p) q then (snd p, fst p) else p.

(** * Nodes of a face, face.cpp:475-585 *)

(** The loop of lines 509-516 over a part of the edges *)
Fixpoint walk (pair : elem -> option (elem * elem)) (last : elem) (es : list elem) : option (list elem) :=
  match es with
  | [] => Some []
  | e :: r =>
    do (a, b) <- pair e ;;
    let x := if eqe last a then b else a in
    do t <- walk pair x r ;; Some (x :: t)
  end.
(** lines 489-517; also the faces' ends of a cell in cell.cpp:332-359 *)
Definition ring (low : elem -> list elem) (lc : list elem) : option (list elem) :=
  if Nat.leb (length lc) 2 then None else
  do q <- nth_error lc 0 ;; do p <- two (low q) ;;
  do r <- nth_error lc 1 ;; do p' <- two (low r) ;;
  let (x, y) := orient p p' in
  do t <- walk (fun e => two (low e)) y (firstn (length lc - 2) (skipn 1 lc)) ;; Some (x :: y :: t).
(** line 556: while(hidden(lc[iend]) && iend > 0) iend-- *)
Fixpoint trim (h : elem -> bool) (lc : list elem) (k : nat) : nat :=
  match k with
  | 0 => 0
  | S k' => match nth_error lc k with Some e => if h e then trim h lc k' else k | None => k end
  end.
(** lines 535-579; cell.cpp:387-437. Hidden edges are passed over. *)
Definition unhidden (h : elem -> bool) (l : list elem) : list elem := filter (fun x => negb (h x)) l.
Definition ring_hidden (low : elem -> list elem) (h : elem -> bool) (lc : list elem) : option (list elem) :=
  let i0 := get_next h lc 0 in
  do q <- nth_error lc i0 ;; do p <- exactly_two h (low q) ;;
  let i1 := get_next h lc (S i0) in
  do r <- nth_error lc i1 ;; do p' <- exactly_two h (low r) ;;
  let (x, y) := orient p p' in
  let iend := trim h lc (length lc - 1) in
  do t <- walk (fun e => exactly_two h (low e)) y (unhidden h (firstn (iend - i1) (skipn i1 lc))) ;;
  Some (x :: y :: t).
(** Face::getNodes of a face of dimension two *)
Definition face_nodes (low : elem -> list elem) (h : elem -> bool) (modif : bool) (lc : list elem) :=
  if modif then ring_hidden low h lc else ring low lc.

(** * Face::getNodes(mask,invert), face.cpp:587-850; [ok] tells the selected nodes *)

Fixpoint walk_mask (pair : elem -> option (elem * elem)) (ok : elem -> bool) (last : elem) (es : list elem) : option (list elem) :=
  match es with
  | [] => Some []
  | e :: r =>
    do (a, b) <- pair e ;;
    let x := if eqe last a then b else a in
    do t <- walk_mask pair ok x r ;; Some (if ok x then x :: t else t)
  end.
(** lines 612-627: the part of the result for the first edge and the node to go on from *)
Definition first_edge (ok : elem -> bool) (p q : elem * elem) : list elem * elem :=
  let a0 := filter ok [fst p; snd p] in
  if touches (fst p) q
  then (match a0 with [a; b] => [b; a] | _ => a0 end, fst p)
  else (a0, snd p).
(** lines 608-646 and 733-771 *)
Definition ring_mask (low : elem -> list elem) (ok : elem -> bool) (lc : list elem) : option (list elem) :=
  do q <- nth_error lc 0 ;; do p <- first_two (low q) ;;
  do r <- nth_error lc 1 ;; do p' <- first_two (low r) ;;
  let (a, last) := first_edge ok p p' in
  do t <- walk_mask (fun e => first_two (low e)) ok last (firstn (length lc - 2) (skipn 1 lc)) ;; Some (a ++ t).
(** lines 667-716 for a private mask and 792-845 otherwise: both start from index 1, only
    the second one looks for the last visible edge *)
Definition ring_mask_hidden (low : elem -> list elem) (h : elem -> bool) (priv : bool) (ok : elem -> bool)
  (lc : list elem) : option (list elem) :=
  let i0 := get_next h lc 0 in
  do q <- nth_error lc i0 ;; do p <- visible_two h (low q) ;;
  let i1 := get_next h lc (S i0) in
  do r <- nth_error lc i1 ;; do p' <- visible_two h (low r) ;;
  let (a, last) := first_edge ok p p' in
  let iend := if priv then length lc - 1 else trim h lc (length lc - 1) in
  do t <- walk_mask (fun e => visible_two h (low e)) ok last (unhidden h (firstn (iend - 1) (skipn 1 lc))) ;;
  Some (a ++ t).
Definition face_nodes_mask low h (modif priv : bool) ok lc :=
  if modif then ring_mask_hidden low h priv ok lc else ring_mask low ok lc.

(** * CheckEdgeOrder, face.cpp:163-256, cell.cpp:8-88 *)

(** [strict]: the ends are counted (faces), otherwise two ends are read (cells) *)
Fixpoint chain (pair : elem -> option (elem * elem)) (strict : bool) (last : elem) (es : list elem) : option bool :=
  match es with
  | [] => Some true
  | e :: r =>
    match pair e with
    | None => if strict then Some false else None
    | Some (a, b) =>
      if eqe last a then chain pair strict b r
      else if eqe last b then chain pair strict a r
      else Some false
    end
  end.
Definition check_plain (low : elem -> list elem) (strict : bool) (lc : list elem) : option bool :=
  if Nat.ltb (length lc) 3 then Some false else
  do q <- nth_error lc 0 ;; do p <- first_two (low q) ;;
  do r <- nth_error lc 1 ;; do p' <- first_two (low r) ;;
  if touches (fst p) p' || touches (snd p) p'
  then chain (fun e => if strict then two (low e) else first_two (low e)) strict (snd (orient p p'))
         (firstn (length lc - 2) (skipn 1 lc))
  else Some false.
(** face.cpp:199-253: from index 1 up to the last entry, hidden or not *)
Definition check_hidden (low : elem -> list elem) (h : elem -> bool) (strict : bool) (lc : list elem) : option bool :=
  if Nat.ltb (count h lc) 3 then Some false else
  let i0 := get_next h lc 0 in
  do q <- nth_error lc i0 ;; do p <- visible_two h (low q) ;;
  let i1 := get_next h lc (S i0) in
  do r <- nth_error lc i1 ;; do p' <- visible_two h (low r) ;;
  if touches (fst p) p' || touches (snd p) p'
  then chain (fun e => if strict then exactly_two h (low e) else visible_two h (low e)) strict (snd (orient p p'))
         (unhidden h (firstn (length lc - 2) (skipn 1 lc)))
  else Some false.

(** * FixEdgeOrder, face.cpp:258-472, cell.cpp:90-302 *)

(** Without the marker. [None] is an execution that has not ended within the given number
    of steps. [Bad]: an edge without two ends was met. *)
Inductive probe := Found (j : nat) | Missing | Bad.
Fixpoint search (low : elem -> list elem) (adv : bool) (fuel : nat) (hit : elem * elem -> bool)
  (lc : list elem) (j : nat) : option probe :=
  match fuel with
  | 0 => None
  | S f =>
    match nth_error lc j with
    | None => Some Missing
    | Some e =>
      match two (low e) with
      | None => Some Bad
      | Some p => if hit p then Some (Found j) else search low adv f hit lc (if adv then S j else j)
      end
    end
  end.
Definition swap (l : list elem) (i j : nat) : list elem :=
  match nth_error l i, nth_error l j with
  | Some a, Some b => lset (lset l i b) j a
  | _, _ => l
  end.
(** [Stop lc]: return false; [Go last lc]: the end reached and the edges *)
Inductive stage := Stop (lc : list elem) | Go (last : elem) (lc : list elem).
(** face.cpp:319-351; cell.cpp:145-177, where the counter of the inner loop is not
    advanced ([adv] = false) *)
Fixpoint order (low : elem -> list elem) (adv : bool) (fuel : nat) (lc : list elem) (last : elem) (it iend : nat)
  : option stage :=
  match fuel with
  | 0 => None
  | S f =>
    if Nat.ltb it iend then
      match nth_error lc it with
      | None => Some (Stop lc)
      | Some e =>
        match two (low e) with
        | None => Some (Stop lc)
        | Some (a, b) =>
          if eqe last a then order low adv f lc b (S it) iend
          else if eqe last b then order low adv f lc a (S it) iend
          else
            match search low adv f (touches last) lc (S it) with
            | None => None
            | Some (Found j) => order low adv f (swap lc it j) last it iend
            | Some _ => Some (Stop lc)
            end
        end
      end
    else Some (Go last lc)
  end.
(** face.cpp:281-317: the second edge; [a], [b] are the ends of the first edge and [p'] those
    of the second one. The result is the node to come back to and the node to go on from. *)
Definition start (low : elem -> list elem) (fuel : nat) (lc : list elem) (a b : elem) (p' : elem * elem)
  : option (elem * stage) :=
  if touches a p' then Some (b, Go a lc)
  else if touches b p' then Some (a, Go b lc)
  else
    match search low true fuel (fun p => touches a p || touches b p) lc 2 with
    | None => None
    | Some (Found j) =>
      match nth_error lc j with
      | Some e => if existsb (eqe a) (low e) then Some (b, Go a (swap lc 1 j)) else Some (a, Go b (swap lc 1 j))
      | None => None
      end
    | Some _ => Some (a, Stop lc)
    end.
(** face.cpp:269-357. The result is the returned value and LowConn afterwards. *)
Definition fix_order (low : elem -> list elem) (adv : bool) (fuel : nat) (lc : list elem) : option (bool * list elem) :=
  if Nat.ltb (length lc) 3 then Some (false, lc) else
  match lc with
  | q :: r :: _ =>
    match two (low q), two (low r) with
    | Some (a, b), Some p' =>
      match start low fuel lc a b p' with
      | None => None
      | Some (_, Stop l) => Some (false, l)
      | Some (first, Go last l) =>
        match order low adv fuel l last 1 (length l - 1) with
        | None => None
        | Some (Stop l') => Some (false, l')
        | Some (Go last' l') =>
          match nth_error l' (length l' - 1) with
          | None => None
          | Some e =>
            match two (low e) with
            | None => Some (false, l')
            | Some (x, y) =>
              Some ((eqe x last' && eqe y first) || (eqe x first && eqe y last'), l')
            end
          end
        end
      end
    | _, _ => Some (false, lc)
    end
  | _ => None
  end.

(** With the marker (face.cpp:360-468), restricted to the call on edges in which no swap is
    needed: the loop goes on from the second visible edge to the last entry of the array
    and the last entry is compared with the start, hidden or not. [None] when a swap would
    be done or an edge does not have two visible ends. *)
Fixpoint follow (pair : elem -> option (elem * elem)) (last : elem) (es : list elem) : option elem :=
  match es with
  | [] => Some last
  | e :: r =>
    do (a, b) <- pair e ;;
    if eqe last a then follow pair b r else if eqe last b then follow pair a r else None
  end.
Definition fix_hidden_ordered (low : elem -> list elem) (h : elem -> bool) (lc : list elem) : option bool :=
  if Nat.ltb (count h lc) 3 then Some false else
  let i0 := get_next h lc 0 in
  do q <- nth_error lc i0 ;; do p <- exactly_two h (low q) ;;
  let i1 := get_next h lc (S i0) in
  do r <- nth_error lc i1 ;; do p' <- exactly_two h (low r) ;;
  if touches (fst p) p' || touches (snd p) p' then
    let (first, last) := orient p p' in
    do last' <- follow (fun e => exactly_two h (low e)) last (unhidden h (firstn (length lc - 1 - i1) (skipn i1 lc))) ;;
    do e <- nth_error lc (length lc - 1) ;;
    match exactly_two h (low e) with
    | None => Some false
    | Some (x, y) => Some ((eqe x last' && eqe y first) || (eqe x first && eqe y last'))
    end
  else None.

(** * Orientation *)

(** Face::ReorderEdges (face.cpp:134-144), with the loop over j < size/2 *)
Fixpoint reorder_loop (n : nat) (lc : list elem) : list elem :=
  match n with 0 => lc | S j => let l := reorder_loop j lc in swap l j (length lc - 1 - j) end.
Definition reorder (lc : list elem) : list elem := reorder_loop (Nat.div2 (length lc)) lc.
(** Face::SwapCells (face.cpp:146-161), Edge::SwapEnds (edge.cpp:6-23); without the marker
    nothing is hidden *)
Definition swap_two (h : elem -> bool) (l : list elem) : list elem :=
  if Nat.eqb (count h l) 2 then
    let k1 := get_next h l 0 in swap l k1 (get_next h l (S k1))
  else l.
(** Face::BackCell, Face::FrontCell (face.cpp:8-57), [Some None] is InvalidHandle() *)
Definition back_cell (h : elem -> bool) (modif : bool) (hc : list elem) : option (option elem) :=
  if modif then
    match hc with
    | [] => Some None
    | _ => let i := get_next h hc 0 in
           if Nat.eqb i (length hc) then Some None else do x <- nth_error hc i ;; Some (Some x)
    end
  else Some (nth_error hc 0).
Definition front_cell (h : elem -> bool) (modif : bool) (hc : list elem) : option (option elem) :=
  if modif then
    match hc with
    | [] => Some None
    | _ => let i := get_next h hc 0 in
           let i' := if Nat.eqb i (length hc) then i else get_next h hc (S i) in
           if Nat.eqb i' (length hc) then Some None else do x <- nth_error hc i' ;; Some (Some x)
    end
  else Some (nth_error hc 1).
(** Edge::getBeg, Edge::getEnd (edge.cpp:25-73); the second search is done without a test *)
Definition edge_beg (h : elem -> bool) (modif : bool) (lc : list elem) : option (option elem) :=
  back_cell h modif lc.
Definition edge_end (h : elem -> bool) (modif : bool) (lc : list elem) : option (option elem) :=
  if modif then
    match lc with
    | [] => Some None
    | _ => let i := get_next h lc (S (get_next h lc 0)) in
           if Nat.eqb i (length lc) then Some None else do x <- nth_error lc i ;; Some (Some x)
    end
  else if Nat.ltb (length lc) 2 then Some None else do x <- nth_error lc (length lc - 1) ;; Some (Some x).
