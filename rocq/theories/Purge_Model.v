(** Model of Mesh::RemoveLinksToDeletedElements (Source/Mesh/modify.cpp 1790-1902), called
    by ApplyModification (1904-2025) and, with a marker of its own, by the parallel
    algorithms.  A handle is a number, 0 is InvalidHandle().  [mk] is the marker: true for
    the elements that are going to be deleted.  The hierarchy of sets is the one of
    SetTree_Model.v, the elements of a set are the ones of ESet_Model.v.  [None] is a failed
    assertion or fuel that ran out.  Left out: threads, storage of tags (a tag of references
    is a list of arrays), the lists of shared and ghost elements. *)
From Coq Require Import List Bool Arith.
From Verif Require Import SetTree_Model ESet_Model.
Import ListNotations.

(** ** Reference data, modify.cpp 1792-1874 *)
Record tag := Tag { is_reference : bool; is_adjacency : bool; arrays : list (list nat) }.
Definition purge_array (mk : nat -> bool) (a : list nat) : list nat :=
  map (fun h => if negb (h =? 0) && mk h then 0 else h) a.
Definition purge_tag (mk : nat -> bool) (t : tag) : tag :=
  if is_reference t then
    if is_adjacency t then t
    else Tag (is_reference t) (is_adjacency t) (map (purge_array mk) (arrays t))
  else t.
Definition purge_tags (mk : nat -> bool) (l : list tag) : list tag := map (purge_tag mk) l.

(** ** Hierarchy of sets, modify.cpp 1883-1888 *)
(** 1883-1884: if( HaveParent() && GetParent()->GetMarker(mrk) ) GetParent()->RemChild(self()) *)
Definition leave_parent (mk : nat -> bool) (f : nat) (t : tree) (x : nat) : option tree :=
  if par t x =? 0 then Some t else if mk (par t x) then rem_child f t (par t x) x else Some t.
(** 1885-1886: while( HaveChild() && GetChild()->GetMarker(mrk) ) RemChild(GetChild()) *)
Fixpoint drop_first (mk : nat -> bool) (f : nat) (t : tree) (x : nat) : option tree :=
  match f with
  | O => None
  | S f' =>
    if chi t x =? 0 then Some t else
    if mk (chi t x) then
      match rem_child f t x (chi t x) with Some t' => drop_first mk f' t' x | None => None end
    else Some t
  end.
(** 1887-1888: while( HaveSibling() && GetSibling()->GetMarker(mrk) ) RemSibling(GetSibling()) *)
Fixpoint drop_next (mk : nat -> bool) (f : nat) (t : tree) (x : nat) : option tree :=
  match f with
  | O => None
  | S f' =>
    if sib t x =? 0 then Some t else
    if mk (sib t x) then
      match rem_sibling f t x (sib t x) with Some t' => drop_next mk f' t' x | None => None end
    else Some t
  end.
Definition unlink (mk : nat -> bool) (f : nat) (t : tree) (x : nat) : option tree :=
  match leave_parent mk f t x with
  | None => None
  | Some t1 => match drop_first mk f t1 x with None => None | Some t2 => drop_next mk f t2 x end
  end.
(** 1879: all valid sets in the order of their numbers *)
Fixpoint unlink_all (mk : nat -> bool) (f : nat) (t : tree) (sets : list nat) : option tree :=
  match sets with
  | [] => Some t
  | x :: r => match unlink mk f t x with None => None | Some t' => unlink_all mk f t' r end
  end.

(** ** Elements of a set, modify.cpp 1889-1899; [hid]: hidden elements, passed by the iterator *)
Fixpoint erase_marked (mk hid : nat -> bool) (f : nat) (s : eset) (pos : nat) : option eset :=
  match f with
  | O => None
  | S f' =>
    if pos =? length (lc s) then Some s else
    if mk (nth pos (lc s) 0) then
      match erase s pos with
      | None => None
      | Some s' => erase_marked mk hid f' s' (iter_next hid (lc s') pos)
      end
    else erase_marked mk hid f' s (iter_next hid (lc s) pos)
  end.
Definition purge_set (mk hid : nat -> bool) (f : nat) (s : eset) : option eset :=
  erase_marked mk hid f s (iter_begin hid (lc s)).

(** ** A set deleted during modification: Hide (modify.cpp 2210-2223) and Delete (2240-2258) only
    mark it, ElementSet::DeleteSet (eset.cpp 1736-1740) leaves the parent first *)
Definition delete_set (f : nat) (t : tree) (mk : nat -> bool) (x : nat) : option (tree * (nat -> bool)) :=
  match detach f t x with None => None | Some t' => Some (t', fun h => (h =? x) || mk h) end.
