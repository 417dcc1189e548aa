(** Model of the hierarchy of sets in Source/Mesh/eset.cpp. A handle is a
    number, 0 is InvalidHandle(). The first three entries of HighConn of a set
    (inmost_mesh.h:970-972) are kept as functions of the handle. A failed
    assertion is [None]; so is the lack of fuel, which stands for a recursion
    that does not end. Simplified: handles passed are those of sets (the
    assertions on the element type hold) and sets are deleted outside of mesh
    modification, so Delete is Destroy (modify.cpp:2240-2258). *)
From Coq Require Import List Bool Arith.
Import ListNotations.

Record tree := Tree { par : nat -> nat; sib : nat -> nat; chi : nat -> nat }.
Definition put (f : nat -> nat) (h v : nat) : nat -> nat := fun x => if x =? h then v else f x.
Definition set_par (t : tree) (h v : nat) := Tree (put (par t) h v) (sib t) (chi t).
Definition set_sib (t : tree) (h v : nat) := Tree (par t) (put (sib t) h v) (chi t).
Definition set_chi (t : tree) (h v : nat) := Tree (par t) (sib t) (put (chi t) h v).
(** a mesh whose sets have no links *)
Definition no_links : tree := Tree (fun _ => 0) (fun _ => 0) (fun _ => 0).

(** mesh.cpp:1872-1876 CreateSetUnique: HighConn of the new set is zero *)
Definition create (t : tree) (h : nat) : tree := set_par (set_sib (set_chi t h 0) h 0) h 0.

(** eset.cpp:93-111 AddSibling *)
Fixpoint add_sibling (f : nat) (t : tree) (cur s : nat) : option tree :=
  match f with
  | O => None
  | S f' =>
    if par t cur =? 0 then None
    else if sib t cur =? 0 then
      if par t s =? 0 then
        let t1 := set_sib t cur s in Some (set_par t1 s (par t1 cur))
      else None
    else add_sibling f' t (sib t cur) s
  end.

(** eset.cpp:75-91 AddChild *)
Definition add_child (f : nat) (t : tree) (p c : nat) : option tree :=
  if chi t p =? 0 then
    if par t c =? 0 then Some (set_chi (set_par t c p) p c) else None
  else add_sibling f t (chi t p) c.

(** eset.cpp:130-145 RemSibling *)
Fixpoint rem_sibling (f : nat) (t : tree) (cur s : nat) : option tree :=
  match f with
  | O => None
  | S f' =>
    if sib t cur =? 0 then None
    else if sib t cur =? s then
      if par t s =? par t cur then
        let t1 := set_par t s 0 in Some (set_sib t1 cur (sib t1 s))
      else None
    else rem_sibling f' t (sib t cur) s
  end.

(** eset.cpp:113-128 RemChild *)
Definition rem_child (f : nat) (t : tree) (p c : nat) : option tree :=
  if chi t p =? 0 then None
  else if chi t p =? c then
    if par t c =? p then
      let t1 := set_par t c 0 in Some (set_chi t1 p (sib t1 c))
    else None
  else rem_sibling f t (chi t p) c.

(** eset.cpp:154-159 CountSiblings; the set itself counts *)
Fixpoint count_siblings (f : nat) (t : tree) (h : nat) : option nat :=
  match f with
  | O => None
  | S f' => if sib t h =? 0 then Some 1 else option_map S (count_siblings f' t (sib t h))
  end.
(** eset.cpp:147-152 CountChildren *)
Definition count_children (f : nat) (t : tree) (h : nat) : option nat :=
  if chi t h =? 0 then Some 0 else count_siblings f t (chi t h).

(** a loop of the user: for(c = GetChild(); c.isValid(); c = c.GetSibling()) *)
Fixpoint walk (f : nat) (t : tree) (h : nat) : option (list nat) :=
  match f with
  | O => None
  | S f' => if h =? 0 then Some [] else option_map (cons h) (walk f' t (sib t h))
  end.

(** modify.cpp:2202-2203 while(HaveChild()) RemChild(GetChild()) *)
Fixpoint drop_children (f : nat) (t : tree) (h : nat) : option tree :=
  match f with
  | O => None
  | S f' =>
    if chi t h =? 0 then Some t else
    match rem_child f t h (chi t h) with
    | Some t' => drop_children f' t' h
    | None => None
    end
  end.
(** if( HaveParent() ) GetParent()->RemChild(self()), modify.cpp:2200-2201,
    eset.cpp:1728, 1745 *)
Definition detach (f : nat) (t : tree) (h : nat) : option tree :=
  if par t h =? 0 then Some t else rem_child f t (par t h) h.
(** modify.cpp:2196-2204 Destroy of a set; ElementSet::Clear (eset.cpp:1725-1734)
    before it in DeleteSet makes [detach] the first step in either case *)
Definition destroy (f : nat) (t : tree) (h : nat) : option tree :=
  match detach f t h with
  | Some t' => drop_children f t' h
  | None => None
  end.

(** eset.cpp:1742-1763 DeleteSetTree and its loop 1750-1758; the second result
    lists the sets in the order they are destroyed *)
Fixpoint delete_tree (f : nat) (t : tree) (h : nat) : option (tree * list nat) :=
  match f with
  | O => None
  | S f' =>
    match detach f t h with
    | None => None
    | Some t1 =>
      match delete_loop f' (set_chi t1 h 0) (chi t1 h) with
      | None => None
      | Some (t2, d) =>
        match destroy f t2 h with
        | Some t3 => Some (t3, d ++ [h])
        | None => None
        end
      end
    end
  end
with delete_loop (f : nat) (t : tree) (c : nat) : option (tree * list nat) :=
  match f with
  | O => None
  | S f' =>
    if c =? 0 then Some (t, []) else
    let t1 := set_par t c 0 in
    let n := sib t1 c in
    match delete_tree f' (set_sib t1 c 0) c with
    | None => None
    | Some (t2, d) =>
      match delete_loop f' t2 n with
      | Some (t3, d') => Some (t3, d ++ d')
      | None => None
      end
    end
  end.
