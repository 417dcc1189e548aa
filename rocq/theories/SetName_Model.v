(** Model of finding sets by name: the name of every existing set (tag
    PROTECTED_SET_NAME) and the map Mesh::set_search (inmost_mesh.h:1324).

    Names are lists of bytes. The map is the list of its entries in increasing
    order of keys. Handles of sets are numbers; which handle TieElement gives a
    new set is an argument (C14 says it is unused). The contents and the links
    of sets are in ESet_Model and SetTree_Model. *)
From Coq Require Import List Bool Arith.
Import ListNotations.

Definition name := list nat.
(** std::string ==, < : comparison of bytes, a proper prefix is smaller *)
Fixpoint seq (a b : name) : bool :=
  match a, b with
  | [], [] => true
  | x :: a', y :: b' => (x =? y) && seq a' b'
  | _, _ => false
  end.
Fixpoint slt (a b : name) : bool :=
  match a, b with
  | [], _ :: _ => true
  | x :: a', y :: b' => if x =? y then slt a' b' else x <? y
  | _, _ => false
  end.

(** std::map<std::string,HandleType>: find, operator[] with assignment, erase,
    lower_bound (the entries from the iterator on) *)
Definition table := list (name * nat).
Fixpoint tfind (m : table) (k : name) : option nat :=
  match m with
  | [] => None
  | (k', h) :: r => if seq k k' then Some h else tfind r k
  end.
Fixpoint tput (m : table) (k : name) (h : nat) : table :=
  match m with
  | [] => [(k, h)]
  | (k', h') :: r =>
    if seq k k' then (k, h) :: r
    else if slt k k' then (k, h) :: m
    else (k', h') :: tput r k h
  end.
Fixpoint terase (m : table) (k : name) : table :=
  match m with
  | [] => []
  | (k', h') :: r => if seq k k' then r else (k', h') :: terase r k
  end.
Fixpoint tfrom (m : table) (k : name) : table :=
  match m with
  | [] => []
  | (k', h') :: r => if slt k' k then tfrom r k else m
  end.

Record sets := Sets {
  alive : list (nat * name);  (* existing sets and their names *)
  search : table
}.
Definition none := Sets [] [].
(** eset.cpp:161-170 GetName *)
Fixpoint name_of (l : list (nat * name)) (h : nat) : option name :=
  match l with
  | [] => None
  | (x, n) :: r => if h =? x then Some n else name_of r h
  end.

(** mesh.cpp:1870-1880 CreateSetUnique, the new set being h *)
Definition create_unique (s : sets) (h : nat) (n : name) : sets :=
  Sets ((h, n) :: alive s) (tput (search s) n h).
(** mesh.cpp:2632-2647 GetSet; None: InvalidElementSet *)
Definition get_set (s : sets) (n : name) : option nat := tfind (search s) n.
(** mesh.cpp:1882-1888 CreateSet, h being the handle a new set gets *)
Definition create_set (s : sets) (h : nat) (n : name) : sets * nat * bool :=
  match get_set s n with
  | Some x => (s, x, false)
  | None => (create_unique s h n, h, true)
  end.
(** mesh.cpp:2663-2674, the loop of GetSetsByPrefix *)
Fixpoint prefix_loop (m : table) (n : name) : list nat :=
  match m with
  | [] => []
  | (k, h) :: r =>
    let p := firstn (length n) k in
    if seq p n then h :: prefix_loop r n
    else if slt n p then []
    else prefix_loop r n
  end.
(** mesh.cpp:2649-2676 GetSetsByPrefix *)
Definition sets_by_prefix (s : sets) (n : name) : list nat := prefix_loop (tfrom (search s) n) n.
(** modify.cpp:2196-2207, Destroy of a set: set_search.erase(GetName()); None:
    assertion, no such set *)
Definition destroy_set (s : sets) (h : nat) : option sets :=
  match name_of (alive s) h with
  | Some n => Some (Sets (filter (fun x => negb (fst x =? h)) (alive s)) (terase (search s) n))
  | None => None
  end.
(** mesh.cpp:396-478, the copy constructor: the sets and the data are copied,
    set_search is not *)
Definition copy_sets (s : sets) : sets := Sets (alive s) [].
(** mesh.cpp:480-608, assignment: as the copy constructor, but the target has
    its own set_search and keeps it *)
Definition assign_sets (target s : sets) : sets := Sets (alive s) (search target).
