(** Model of the numbering of unknowns: entries (inmost_autodiff.h:29-374,
    autodiff.cpp:366-548) and Automatizator (autodiff.cpp:77-341).

    An element is (type, local id), types 0..5 being NODE..MESH. A mesh on one
    processor is given by the existing local ids per type in increasing order and
    the ghost elements. Machine integers do not overflow. *)
From Coq Require Import List Bool Arith.
From Verif Require Import Util.
Import ListNotations.

Definition elem := (nat * nat)%type.

(** ** Entries. [None] is a failed assertion or an exception, [Some None] is
    ENUMUNDEF. *)
Record head := Head {
  types : nat -> bool;    (* GetElementType() contains the type *)
  mask : elem -> bool;    (* mask == 0 || (GetMarker(mask) ^ inverse_mask) *)
  registered : bool;      (* reg_index != ENUMUNDEF *)
  offset_sparse : nat -> bool (* the offset tag is sparse: some value tag is *)
}.
Inductive kind :=
| Single (have : elem -> bool)              (* HaveData(unknown_tag) *)
| Vector (len : elem -> option nat)         (* size of the array if HaveData *)
| Block (haves : list (elem -> bool))
| StatusBlock (haves : list (elem -> bool)) (status : elem -> nat) (tbl : list (list bool)).
Inductive entry :=
| Simple (h : head) (k : kind)
| Multi (h : head) (subs : list entry).
Definition head_of (b : entry) : head := match b with Simple h _ => h | Multi h _ => h end.
(** inmost_autodiff.h:54 isValid; the offset tag is defined on GetElementType()
    as long as the entry is registered and active *)
Definition is_valid (b : entry) (e : elem) : bool :=
  registered (head_of b) && types (head_of b) (fst e) && mask (head_of b) e.

Fixpoint count {A} (f : A -> bool) (l : list A) : nat :=
  match l with [] => 0 | x :: r => (if f x then 1 else 0) + count f r end.
(** Size(e): inmost_autodiff.h:157-163, 208, 252, 365; autodiff.cpp:532-539 *)
Definition kind_size (k : kind) (e : elem) : nat :=
  match k with
  | Single have => if have e then 1 else 0
  | Vector len => match len e with Some n => n | None => 0 end
  | Block haves => count (fun f => f e) haves
  | StatusBlock haves st tbl => count (fun p => fst p e && snd p) (combine haves (nth (st e) tbl []))
  end.
Fixpoint size (b : entry) (e : elem) : nat :=
  match b with
  | Simple _ k => kind_size k e
  | Multi _ subs => fold_right (fun s n => size s e + n) 0 subs
  end.
(** MatrixSize(e): inmost_autodiff.h:153, 204, 248, 306; autodiff.cpp:366-372 *)
Definition kind_msize (k : kind) (e : elem) : nat :=
  match k with
  | Single _ => 1
  | Vector len => match len e with Some n => n | None => 0 end
  | Block haves => length haves
  | StatusBlock haves _ _ => length haves
  end.
Fixpoint msize (b : entry) (e : elem) : nat :=
  match b with
  | Simple _ k => kind_msize k e
  | Multi _ subs => fold_right (fun s n => (if is_valid s e then msize s e else 0) + n) 0 subs
  end.
(** Index(e,pos): inmost_autodiff.h:139, 190, 234, 292; off is GetOffsetTag()[e] *)
Definition kind_index (v : bool) (k : kind) (off : nat) (e : elem) (pos : nat) : option (option nat) :=
  match k with
  | Single _ => if pos =? 0 then Some (if v then Some off else None) else None
  | Vector len =>
    if pos <? (match len e with Some n => n | None => 0 end)
    then Some (if v then Some (off + pos) else None) else None
  | Block _ => Some (if v then Some (off + pos) else None)
  | StatusBlock _ st tbl =>
    Some (if v && nth pos (nth (st e) tbl []) false then Some (off + pos) else None)
  end.
(** autodiff.cpp:400-411 MultiEntry::Index; the entries kept inside were made by
    Copy (AddEntry, autodiff.cpp:502-507) and have an invalid offset tag *)
Fixpoint index (b : entry) (off : nat) (e : elem) (pos : nat) : option (option nat) :=
  match b with
  | Simple h k => kind_index (is_valid b e) k off e pos
  | Multi _ subs =>
    (fix go (l : list entry) (p : nat) : option (option nat) :=
      match l with
      | [] => None
      | s :: r =>
        if is_valid s e then
          if pos <? p + msize s e then index s 0 e (pos - p) else go r (p + msize s e)
        else go r p
      end) subs 0
  end.
(** Copy(): the copy is not registered (inmost_autodiff.h:37-38, 171, 216, 260) *)
Definition unregister_head (h : head) : head := Head (types h) (mask h) false (offset_sparse h).
Fixpoint copy_entry (b : entry) : entry :=
  match b with
  | Simple h k => Simple (unregister_head h) k
  | Multi h subs => Multi (unregister_head h) (map copy_entry subs)
  end.
(** reg_index = ret (autodiff.cpp:151) or ENUMUNDEF (autodiff.cpp:188) *)
Definition set_registered (b : entry) (v : bool) : entry :=
  let f h := Head (types h) (mask h) v (offset_sparse h) in
  match b with Simple h k => Simple (f h) k | Multi h subs => Multi (f h) subs end.
(** autodiff.cpp:502-507 AddEntry: the element types are united *)
Definition add_entry (b : entry) (s : entry) : option entry :=
  match b with
  | Multi h subs =>
    Some (Multi (Head (fun t => types h t || types (head_of s) t) (mask h) (registered h)
                      (fun t => offset_sparse h t || offset_sparse (head_of s) t))
                (subs ++ [copy_entry s]))
  | Simple _ _ => None
  end.

(** ** The registry *)
Record aut := Aut {
  reg : list (option entry);  (* reg_blocks, None is NULL *)
  act : list bool;            (* act_blocks *)
  del : list nat              (* del_blocks, back() first *)
}.
Definition empty := Aut [] [] [].
(** autodiff.cpp:124-162 RegisterEntry *)
Definition register (a : aut) (b : entry) : option (aut * nat) :=
  match del a with
  | [] =>
    Some (Aut (reg a ++ [Some (set_registered (copy_entry b) true)]) (act a ++ [true]) [], length (reg a))
  | i :: d =>
    if nth i (act a) true then None
    else Some (Aut (lset (reg a) i (Some (set_registered (copy_entry b) true))) (lset (act a) i true) d, i)
  end.
(** autodiff.cpp:172-181 UnregisterEntry *)
Definition unregister (a : aut) (i : nat) : option aut :=
  match nth_error (reg a) i with
  | Some (Some _) => Some (Aut (lset (reg a) i None) (lset (act a) i false) (i :: del a))
  | _ => None
  end.
(** autodiff.cpp:183-192 DeactivateEntry, 194-212 ActivateEntry *)
Definition set_active (v : bool) (a : aut) (i : nat) : option aut :=
  match nth_error (reg a) i with
  | Some (Some b) => Some (Aut (lset (reg a) i (Some (set_registered b v))) (lset (act a) i v) (del a))
  | _ => None
  end.
Definition get_entry (a : aut) (i : nat) : option entry :=
  match nth_error (reg a) i with Some o => o | None => None end.
(** autodiff.cpp:77-83 the copy constructor registers ListRegisteredEntries() *)
Definition copy_aut (a : aut) : option aut :=
  fold_left (fun o r =>
    match o, r with
    | Some c, Some b => option_map fst (register c b)
    | o, None => o
    | None, _ => None
    end) (reg a) (Some empty).

(** ** Enumeration on one processor *)
Record mesh := Mesh {
  lids : nat -> list nat;   (* existing local ids of a type *)
  ghost : elem -> bool      (* GetStatus() == Ghost *)
}.
(** autodiff.cpp:242: owned, valid and with unknowns *)
Definition wanted (m : mesh) (b : entry) (e : elem) : bool :=
  ((fst e =? 5) || negb (ghost m e)) && is_valid b e && negb (size b e =? 0).
(** autodiff.cpp:237-241: MESH first, NODE last *)
Definition elems (m : mesh) (b : entry) : list elem :=
  flat_map (fun t => if types (head_of b) t then map (pair t) (lids m t) else []) [5; 4; 3; 2; 1; 0].
(** the loop over active blocks; i is the position of the first of them *)
Fixpoint actives (i : nat) (r : list (option entry)) (f : list bool) : list (nat * entry) :=
  match r, f with
  | Some b :: r', true :: f' => (i, b) :: actives (S i) r' f'
  | _ :: r', _ :: f' => actives (S i) r' f'
  | _, _ => []
  end.
(** values of the offset tags, per block and element *)
Definition offsets := nat -> elem -> nat.
Definition ekey := (nat * elem)%type.
Definition ekeyb (x y : ekey) : bool :=
  (fst x =? fst y) && (fst (snd x) =? fst (snd y)) && (snd (snd x) =? snd (snd y)).
Definition put (o : offsets) (i : nat) (e : elem) (n : nat) : offsets :=
  fun j f => if ekeyb (j, f) (i, e) then n else o j f.
(** autodiff.cpp:219-230: sparse offsets are deleted, reading them later gives 0 *)
Definition reset (a : aut) (o : offsets) : offsets :=
  fun i e =>
    match get_entry a i with
    | Some b => if nth i (act a) false && offset_sparse (head_of b) (fst e) then 0 else o i e
    | None => o i e
    end.
(** autodiff.cpp:232-249 *)
Definition visit (m : mesh) (s : offsets * nat) (x : nat * entry) : offsets * nat :=
  fold_left (fun s e =>
    if wanted m (snd x) e then (put (fst s) (fst x) e (snd s), snd s + size (snd x) e) else s)
    (elems m (snd x)) s.
Definition enumerate (m : mesh) (a : aut) (o : offsets) : offsets * nat :=
  fold_left (visit m) (actives 0 (reg a) (act a)) (reset a o, 0).
(** inmost_autodiff.h GetIndex *)
Definition get_index (a : aut) (o : offsets) (i : nat) (e : elem) (pos : nat) : option (option nat) :=
  match get_entry a i with Some b => index b (o i e) e pos | None => None end.

(** ** On several processors: autodiff.cpp:251-283. MPI_Scan gives every
    processor the sum of the counts up to it; the offsets are shifted. Offsets of
    ghosts come from their owners by ExchangeData (not modelled). *)
Definition shift (m : mesh) (a : aut) (o : offsets) (d : nat) : offsets :=
  fold_left (fun o x =>
    fold_left (fun o e => if wanted m (snd x) e then put o (fst x) e (o (fst x) e + d) else o) (elems m (snd x)) o)
    (actives 0 (reg a) (act a)) o.
Record part := Part { pm : mesh; pa : aut; po : offsets }.
Record numbered := Numbered { first : nat; last : nat; offs : offsets }.
Fixpoint enumerate_all (ps : list part) (before : nat) : list numbered :=
  match ps with
  | [] => []
  | p :: r =>
    let (o, n) := enumerate (pm p) (pa p) (po p) in
    Numbered before (n + before) (shift (pm p) (pa p) o before) :: enumerate_all r (before + n)
  end.
