(** Model of Element::Disconnect and Element::Connect with a list of elements
    (modify.cpp 2357-2708) over the mesh of Adj_Model.v.  The calls that put the edges
    of a face or cell in order (FixEdgeOrder, FixNormalOrientation) and the geometric
    quantities are left out; the elements for which they are computed again are
    returned.  [None] is a failed assertion or the use of a dead element. *)
From Coq Require Import List Arith ZArith Bool.
From Verif Require Import Adj_Model.
Import ListNotations.
Open Scope nat_scope.

(** Lines 2393-2403 and 2428-2442 (also 2508-2516): the first occurrence is erased. *)
Fixpoint remove_first (h : elem) (l : list elem) : list elem :=
  match l with [] => [] | x :: r => if eqe x h then r else x :: remove_first h r end.

(** Lines 2366-2415: the loop over the lower list [ls] of [h]; the rest of the list is
    returned.  Lines 2376-2391: for a cell, the other cell of the face is put first. *)
Fixpoint drop_low (h : elem) (mrk : elem -> bool) (ls : list elem) (m : mesh) : mesh * list elem :=
  match ls with
  | [] => (m, [])
  | x :: r =>
      if mrk x then
        let m1 := if Nat.eqb (fst h) 3 && Nat.eqb (length (filter (visible m) (high m x))) 2
                  then set_high m x (swap_first (visible m) h (high m x)) else m in
        drop_low h mrk r (set_high m1 x (remove_first h (high m1 x)))
      else let (m', k) := drop_low h mrk r m in (m', x :: k)
  end.

(** Marking with the marker [mod] and collecting. *)
Definition note (l : list elem) (x : elem) : list elem := if has l x then l else l ++ [x].

(** Lines 2417-2457: the loop over the upper list [us] of [h]; [mods] are the modified
    elements. *)
Fixpoint drop_high (h : elem) (mrk : elem -> bool) (us : list elem) (mods : list elem) (m : mesh) : mesh * list elem * list elem :=
  match us with
  | [] => (m, [], mods)
  | u :: r =>
      if mrk u then
        drop_high h mrk r (if has (low m u) h then note mods u else mods) (set_low m u (remove_first h (low m u)))
      else match drop_high h mrk r mods m with (m', k, ms) => (m', u :: k, ms) end
  end.

(** Lines 2459-2479: the elements above those collected. *)
Definition add_up (m : mesh) (l next : list elem) : list elem :=
  fold_left (fun acc x => fold_left note (high m x) acc) l next.
Definition of_type (t : nat) (l : list elem) : list elem := filter (fun x => Nat.eqb (fst x) t) l.
Definition level1 (m : mesh) (mods : list elem) : list elem := add_up m (of_type 0 mods) (of_type 1 mods).
Definition level2 (m : mesh) (mods : list elem) : list elem := add_up m (level1 m mods) (of_type 2 mods).
Definition level3 (m : mesh) (mods : list elem) : list elem := add_up m (level2 m mods) (of_type 3 mods).

(** Lines 2484-2498: nodes below a cell. *)
Definition nodes_below (m : mesh) (c : elem) : list elem :=
  fold_left (fun acc f => fold_left (fun acc e => fold_left note (low m e) acc) (low m f) acc) (low m c) [].

(** Lines 2499-2520: the cell is removed from nodes that are not below it. *)
Fixpoint leave_nodes (c : elem) (ns : list elem) (hc : list elem) (m : mesh) : mesh * list elem :=
  match hc with
  | [] => (m, [])
  | n :: r =>
      if has ns n then let (m', k) := leave_nodes c ns r m in (m', n :: k)
      else leave_nodes c ns r (set_low m n (remove_first c (low m n)))
  end.

(** Lines 2480-2538: the list of nodes of a cell.  What is collected for every new node
    (line 2494; 2646 in Connect) is not the node but the number of the marker; taken for a handle it
    belongs to an element set, [set] if there is one with this number.  The markers
    left on nodes are not modelled. *)
Definition update_nodes (set : option elem) (c : elem) (m : mesh) : option mesh :=
  let ns := nodes_below m c in
  let (m1, hc) := leave_nodes c ns (high m c) m in
  let m2 := set_high m1 c hc in
  match ns with
  | [] => Some m2
  | _ =>
      match set with
      | None => None
      | Some s =>
          if has hc s then Some m2
          else let m3 := set_high m2 c (hc ++ [s]) in
               Some (if has (low m3 s) c then m3 else set_low m3 s (low m3 s ++ [c]))
      end
  end.
Fixpoint update_cells (set : option elem) (cs : list elem) (m : mesh) : option mesh :=
  match cs with
  | [] => Some m
  | c :: r => match update_nodes set c m with None => None | Some m' => update_cells set r m' end
  end.

(** Lines 2459-2554 (2611-2706): the mesh and the elements whose geometry is computed again, in
    order. *)
Definition propagate (set : option elem) (mods : list elem) (m : mesh) : option (mesh * list elem) :=
  let l3 := level3 m mods in
  match (if cn m then update_cells set l3 m else Some m) with
  | None => None
  | Some m' => Some (m', level1 m mods ++ level2 m mods ++ l3)
  end.

(** Lines 2357-2557 Disconnect. *)
Definition disconnect (set : option elem) (h : elem) (adj : list elem) (m : mesh) : option (mesh * list elem) :=
  if negb (alive m h && forallb (alive m) adj) then None
  else
    let mrk := has adj in
    let p1 := if Nat.ltb 0 (fst h) then
                let (n, k) := drop_low h mrk (low m h) m in (set_low n h k, if existsb mrk (low m h) then [h] else [])
              else (m, []) in
    let m1 := fst p1 in
    let p2 := if Nat.ltb (fst h) 3 then
                match drop_high h mrk (high m1 h) (snd p1) m1 with (n, k, ms) => (set_high n h k, ms) end
              else (m1, snd p1) in
    propagate set (snd p2) (fst p2).

(** Lines 2565-2579: the loop over the new lower elements, with its assertions. *)
Fixpoint attach (h : elem) (adj : list elem) (mods : list elem) (m : mesh) : option (mesh * list elem) :=
  match adj with
  | [] => Some (m, mods)
  | a :: r =>
      if Nat.eqb (fst a) 3 || negb (Nat.eqb (S (fst a)) (fst h)) || (Nat.eqb (fst a) 2 && Nat.ltb 1 (length (high m a))) then None
      else attach h r (note mods a) (set_high m a (high m a ++ [h]))
  end.

(** Lines 2559-2708 Connect; line 2561 is the assertion about edges. *)
Definition connect (set : option elem) (h : elem) (adj : list elem) (m : mesh) : option (mesh * list elem) :=
  if negb (alive m h && forallb (alive m) adj) then None
  else if Nat.eqb (fst h) 1 && Nat.ltb 2 (length (low m h)) then None
  else match attach h adj [] m with
       | None => None
       | Some (m1, mods) => propagate set (note mods h) (set_low m1 h (low m1 h ++ adj))
       end.

(** Calls of a user, with those of Adj_Model.v, on a mesh without element sets. *)
Inductive call := Other (o : op) | Connect (h : elem) (adj : list elem) | Disconnect (h : elem) (adj : list elem).
Definition perform (m : mesh) (c : call) : option mesh :=
  match c with
  | Other o => step m o
  | Connect h adj => match connect None h adj m with Some (m', _) => Some m' | None => None end
  | Disconnect h adj => match disconnect None h adj m with Some (m', _) => Some m' | None => None end
  end.
Fixpoint perform_all (m : mesh) (cs : list call) : option mesh :=
  match cs with [] => Some m | c :: r => match perform m c with Some m' => perform_all m' r | None => None end end.
