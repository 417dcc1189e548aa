(** Model of the adjacency lists of a mesh (LowConn / HighConn), of the creation and
    destruction of elements and of modification epochs (mesh.cpp, modify.cpp).

    An element is a pair of its type number (0 node, 1 edge, 2 face, 3 cell) and its id.
    Sets, geometry, tag data other than the two markers, parallel storage and topology
    checks other than the search for duplicates are not modelled. [None] is a failed
    assertion, an access outside of an array or the use of a dead element. *)
From Coq Require Import List Arith ZArith Bool.
Import ListNotations.

Definition elem : Type := (nat * nat)%type.
Definition eqe (x y : elem) : bool := Nat.eqb (fst x) (fst y) && Nat.eqb (snd x) (snd y).
Definition upd {A} (f : elem -> A) (x : elem) (v : A) : elem -> A := fun y => if eqe y x then v else f y.
Definition updn {A} (f : nat -> A) (x : nat) (v : A) : nat -> A := fun y => if Nat.eqb y x then v else f y.

(** State of the mesh. [low] and [high] are the arrays behind LowConn and HighConn
    (inmost_mesh.h); for a node [low] are its cells and for a cell [high] are its nodes,
    both stored only with [cn] (cell_node_conn, mesh.cpp:207-208). [hon], [non]: the hide
    and new markers exist (hide_element, new_element); [hid], [nw]: elements that bear them.
    [next], [free]: links[].size() and the stack empty_links[]. [hcount], [hcount0]:
    hidden_count and hidden_count_zero. *)
Record mesh := {
  alive : elem -> bool; low : elem -> list elem; high : elem -> list elem;
  hid : elem -> bool; nw : elem -> bool; hon : bool; non : bool;
  next : nat -> nat; free : nat -> list nat; hcount : nat -> Z; hcount0 : nat -> Z; cn : bool }.

Definition set_conn (m : mesh) (l h : elem -> list elem) : mesh :=
  {| alive := alive m; low := l; high := h; hid := hid m; nw := nw m; hon := hon m; non := non m;
     next := next m; free := free m; hcount := hcount m; hcount0 := hcount0 m; cn := cn m |}.
Definition set_low (m : mesh) (x : elem) (l : list elem) : mesh := set_conn m (upd (low m) x l) (high m).
Definition set_high (m : mesh) (x : elem) (l : list elem) : mesh := set_conn m (low m) (upd (high m) x l).
Definition set_slots (m : mesh) (a : elem -> bool) (n : nat -> nat) (f : nat -> list nat) : mesh :=
  {| alive := a; low := low m; high := high m; hid := hid m; nw := nw m; hon := hon m; non := non m;
     next := n; free := f; hcount := hcount m; hcount0 := hcount0 m; cn := cn m |}.
Definition set_marks (m : mesh) (h n : elem -> bool) (c c0 : nat -> Z) : mesh :=
  {| alive := alive m; low := low m; high := high m; hid := h; nw := n; hon := hon m; non := non m;
     next := next m; free := free m; hcount := c; hcount0 := c0; cn := cn m |}.
Definition set_mode (m : mesh) (h n : bool) : mesh :=
  {| alive := alive m; low := low m; high := high m; hid := hid m; nw := nw m; hon := h; non := n;
     next := next m; free := free m; hcount := hcount m; hcount0 := hcount0 m; cn := cn m |}.

Definition empty_mesh (c : bool) : mesh :=
  {| alive := fun _ => false; low := fun _ => []; high := fun _ => []; hid := fun _ => false;
     nw := fun _ => false; hon := false; non := false; next := fun _ => 0; free := fun _ => [];
     hcount := fun _ => 0%Z; hcount0 := fun _ => 0%Z; cn := c |}.

(** Mesh::Hidden (modify.cpp:2260-2264); without the marker the answer is no *)
Definition hidden (m : mesh) (x : elem) : bool := hon m && hid m x.
Definition visible (m : mesh) (x : elem) : bool := negb (hidden m x).
Definition has (l : list elem) (x : elem) : bool := existsb (eqe x) l.

(** Mesh::FindSharedAdjacency (mesh.cpp:797-871); [Some None] is InvalidHandle().
    With the marker only visible arguments count; when there is none arr[s] is read. *)
Definition shared (m : mesh) (arr : list elem) : option (option elem) :=
  if existsb (fun a => Nat.eqb (fst a) 3) arr then None
  else if hon m then
    match arr, filter (visible m) arr with
    | [], _ => Some None
    | _, [] => None
    | _, k :: rest =>
      Some (find (fun x => visible m x &&
              forallb (fun a => existsb (fun y => visible m y && eqe x y) (high m a)) rest) (high m k))
    end
  else
    match arr with
    | [] => Some None
    | k :: rest => Some (find (fun x => forallb (fun a => has (high m a) x) rest) (high m k))
    end.

(** Mesh::TieElement (mesh.cpp:1947-1986), ids only *)
Definition tie (m : mesh) (t : nat) : elem * mesh :=
  match free m t with
  | i :: r => ((t, i), set_slots m (upd (alive m) (t, i) true) (next m) (updn (free m) t r))
  | [] => ((t, next m t), set_slots m (upd (alive m) (t, next m t) true) (updn (next m) t (S (next m t))) (free m))
  end.
(** Mesh::UntieElement (mesh.cpp:1928-1942) with its assertion, after DelData of the
    markers (modify.cpp:2206) *)
Definition untie (m : mesh) (x : elem) : option mesh :=
  if non m then None
  else Some (set_marks (set_slots m (upd (alive m) x false) (next m)
                          (updn (free m) (fst x) (snd x :: free m (fst x))))
               (upd (hid m) x false) (upd (nw m) x false) (hcount m) (hcount0 m)).
(** SetMarker(h,NewMarker()) *)
Definition mark_new (m : mesh) (x : elem) : mesh :=
  if non m then set_marks m (hid m) (upd (nw m) x true) (hcount m) (hcount0 m) else m.

(** Mesh::CreateNode (mesh.cpp:1190-1199) *)
Definition create_node (m : mesh) : mesh * elem :=
  let (h, m1) := tie m 0 in (mark_new m1 h, h).

Definition push_high (h : elem) (m : mesh) (a : elem) : mesh := set_high m a (high m a ++ [h]).
Definition push_low (h : elem) (m : mesh) (a : elem) : mesh := set_low m a (low m a ++ [h]).

(** Mesh::CreateEdge, CreateFace, CreateCell (mesh.cpp:1226-1301, 1328-1403, 1805-1868)
    for t = 1, 2, 3. [dup]: the check for duplicates of this type is on. [nodes]: the nodes
    of a cell, given or restored (RestoreCellNodes is not modelled). *)
Definition args_ok (m : mesh) (t : nat) (lows nodes : list elem) : bool :=
  Nat.leb 1 t && Nat.leb t 3 &&
  forallb (fun a => alive m a && Nat.eqb (S (fst a)) t) lows &&
  forallb (fun a => alive m a && Nat.eqb (fst a) 0) nodes.
Definition create (m : mesh) (t : nat) (dup : bool) (lows nodes : list elem)
  : option (mesh * option elem * bool) :=
  if negb (args_ok m t lows nodes) then None
  else match lows with
  | [] => Some (m, None, true)
  | _ =>
    match (if dup then shared m lows else Some None) with
    | None => None
    | Some (Some e) => Some (m, Some e, false)
    | Some None =>
      let (h, m1) := tie m t in
      let m2 := fold_left (push_high h) lows m1 in
      let m3 := set_low m2 h (low m2 h ++ lows) in
      let m4 :=
        if Nat.eqb t 3 && cn m then
          let n1 := fold_left (push_low h) nodes m3 in set_high n1 h (nodes ++ high n1 h)
        else m3 in
      Some (mark_new m4 h, Some h, true)
    end
  end.

(** std::swap of the entries k1 and k2 in Cell::SwapBackCell: the first visible entry is
    h and is exchanged with the next visible one. [put_next] puts h in place of the first
    visible entry of l and returns that entry. *)
Fixpoint put_next (vis : elem -> bool) (h : elem) (l : list elem) : option (elem * list elem) :=
  match l with
  | [] => None
  | x :: r =>
    if vis x then Some (x, h :: r)
    else match put_next vis h r with Some (y, r') => Some (y, x :: r') | None => None end
  end.
Fixpoint swap_first (vis : elem -> bool) (h : elem) (l : list elem) : list elem :=
  match l with
  | [] => []
  | x :: r =>
    if vis x then
      if eqe x h then match put_next vis h r with Some (y, r') => y :: r' | None => l end
      else l
    else x :: swap_first vis h r
  end.
(** Cell::SwapBackCell (modify.cpp:2323-2355) without FixNormalOrientation *)
Definition swap_back (m : mesh) (h : elem) : mesh :=
  fold_left (fun n f =>
    if visible n f && Nat.eqb (length (filter (visible n) (high n f))) 2
    then set_high n f (swap_first (visible n) h (high n f)) else n) (low m h) m.

Definition erase (h : elem) (l : list elem) : list elem := filter (fun x => negb (eqe x h)) l.

(** first loop of Element::Disconnect (modify.cpp:59-76): erases h from the lower lists of
    the elements above and collects those that had it. *)
Fixpoint cut (h : elem) (us : list elem) (m : mesh) : mesh * list elem :=
  match us with
  | [] => (m, [])
  | u :: r =>
    let flag := has (low m u) h in
    let (m', del) := cut h r (set_low m u (erase h (low m u))) in
    (m', if flag then u :: del else del)
  end.
(** loops over the elements above: [del] is applied where [test] holds *)
Fixpoint each (test : mesh -> elem -> bool) (del : elem -> mesh -> option mesh) (us : list elem) (m : mesh) : option mesh :=
  match us with
  | [] => Some m
  | u :: r =>
    match (if test m u then del u m else Some m) with
    | Some m' => each test del r m'
    | None => None
    end
  end.
(** second loop of Element::Disconnect (modify.cpp:94-106) *)
Definition unlink (h : elem) (ls : list elem) (m : mesh) : mesh :=
  fold_left (fun n l => set_high n l (erase h (high n l))) ls m.

(** Mesh::Destroy (modify.cpp:2186-2208) with Element::Disconnect(true) (modify.cpp:47-109).
    The list of the elements above is read once: deleting them does not change it. *)
Definition destroy_with (del : elem -> mesh -> option mesh) (h : elem) (m : mesh) : option mesh :=
  if negb (alive m h) then None
  else
    let m1 := if Nat.eqb (fst h) 3 then swap_back m h else m in
    let up :=
      if Nat.ltb (fst h) 3 || cn m1 then
        let (m2, us) := cut h (high m1 h) m1 in
        let r := if Nat.ltb (fst h) 3
                 then each (fun n u => if hidden m2 h then hid n u else true) del us m2
                 else Some m2 in
        match r with Some m3 => Some (set_high m3 h []) | None => None end
      else Some m1 in
    match up with
    | None => None
    | Some m4 =>
      let m5 := if Nat.ltb 0 (fst h) || cn m4 then set_low (unlink h (low m4 h) m4) h [] else m4 in
      untie m5 h
    end.

(** Mesh::Hide (modify.cpp:2210-2224) under the hide marker *)
Definition hide (m : mesh) (h : elem) : mesh :=
  if hidden m h then m
  else
    let m1 := if Nat.eqb (fst h) 3 then swap_back m h else m in
    set_marks m1 (upd (hid m1) h true) (nw m1) (updn (hcount m1) (fst h) (hcount m1 (fst h) + 1)%Z) (hcount0 m1).

(** Mesh::Delete (modify.cpp:2240-2258). The fuel bounds the depth of the recursion,
    which goes up by one type each time. *)
Fixpoint delete (f : nat) (h : elem) (m : mesh) : option mesh :=
  match f with
  | 0 => None
  | S g =>
    if negb (alive m h) then None
    else if hon m then
      let m1 := hide m h in
      if Nat.ltb (fst h) 3 then each (fun n u => negb (hidden n u)) (delete g) (high m1 h) m1 else Some m1
    else destroy_with (delete g) h m
  end.
Definition destroy (h : elem) (m : mesh) : option mesh := destroy_with (delete 4) h m.

(** Mesh::Show (modify.cpp:2226-2238) *)
Definition show (m : mesh) (h : elem) : mesh :=
  if hidden m h then
    set_marks m (upd (hid m) h false) (nw m) (updn (hcount m) (fst h) (hcount m (fst h) - 1)%Z) (hcount0 m)
  else m.

(** Mesh::BeginModification (modify.cpp:1750-1758); a second one without end is excluded *)
Definition begin_modification (m : mesh) : option mesh :=
  if hon m then None else Some (set_mode m true true).
(** Mesh::SwapModification(false) (modify.cpp:1760-1771) *)
Definition swap_modification (m : mesh) : option mesh :=
  if hon m then Some (set_marks m (nw m) (hid m) (hcount0 m) (hcount m)) else None.
(** Mesh::EndModification (modify.cpp:2121-2183): the loop over one type *)
Fixpoint end_ids (t : nat) (ids : list nat) (m : mesh) : option mesh :=
  match ids with
  | [] => Some m
  | i :: r =>
    if alive m (t, i) then
      let m1 := set_marks m (hid m) (upd (nw m) (t, i) false) (hcount m) (hcount0 m) in
      match (if hid m1 (t, i) then destroy (t, i) m1 else Some m1) with
      | Some m2 => end_ids t r m2
      | None => None
      end
    else end_ids t r m
  end.
Fixpoint end_types (ts : list nat) (m : mesh) : option mesh :=
  match ts with
  | [] => Some m
  | t :: r => match end_ids t (seq 0 (next m t)) m with Some m1 => end_types r m1 | None => None end
  end.
Definition end_modification (m : mesh) : option mesh :=
  if hon m then
    match end_types [3; 2; 1; 0] (set_mode m true false) with
    | Some m1 => Some (set_mode (set_marks m1 (hid m1) (nw m1) (fun _ => 0%Z) (fun _ => 0%Z)) false false)
    | None => None
    end
  else None.

(** Mesh::NumberOf (inmost_mesh.h:3067-3071, iterator.cpp:165-172) for one type *)
Definition number_of (m : mesh) (t : nat) : Z :=
  (Z.of_nat (next m t) - Z.of_nat (length (free m t)) - hcount m t)%Z.

(** Calls of a user *)
Inductive op :=
| ONode | OCreate (t : nat) (dup : bool) (lows nodes : list elem)
| ODestroy (h : elem) | ODelete (h : elem) | OHide (h : elem) | OShow (h : elem)
| OBegin | OSwap | OEnd.
Definition step (m : mesh) (o : op) : option mesh :=
  match o with
  | ONode => Some (fst (create_node m))
  | OCreate t dup lows nodes => match create m t dup lows nodes with Some (m', _, _) => Some m' | None => None end
  | ODestroy h => destroy h m
  | ODelete h => delete 4 h m
  | OHide h => if negb (alive m h) then None else Some (if hon m then hide m h else m)
  | OShow h => if negb (alive m h) then None else Some (if hon m then show m h else m)
  | OBegin => begin_modification m
  | OSwap => swap_modification m
  | OEnd => end_modification m
  end.
Fixpoint run (m : mesh) (os : list op) : option mesh :=
  match os with [] => Some m | o :: r => match step m o with Some m' => run m' r | None => None end end.
