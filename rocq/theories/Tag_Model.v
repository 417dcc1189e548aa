(** Tag bookkeeping of the tag manager: names, positions of dense arrays,
    sparse flags.  Source: Source/Data/tag.cpp 168-499, Source/Mesh/mesh.cpp
    200-214, 298-360, 540-590.
    Element types are the numbers 0..5 (NODE, EDGE, FACE, CELL, ESET, MESH) and
    an element mask is a boolean function on them.  Names, data types and sizes
    are numbers; size [None] is ENUMUNDEF.  [tkey] stands for the address of the
    TagMemory (fresh for every new tag).  The vector of tags is kept in order of
    creation instead of sorted by address: lookups are by unique name or key.
    Failed asserts and out-of-range accesses give [None].  The contents of the
    arrays are the subject of Storage_Model; here an array is only "allocated
    with a record size" or not. *)
From Coq Require Import List Bool Arith.
From Verif Require Import Util.
Import ListNotations.

Definition ntypes : nat := 6.
Definition mask := nat -> bool.

(** TagMemory::pos: ENUMUNDEF, ENUMUNDEF-1, or a position in dense_data. *)
Inductive pos := PUndef | PSparse | PDense (p : nat).

(** TagMemory, inmost_data.h 143-188 *)
Record tagm := TagM {
  tkey : nat; tname : nat; tdtype : nat; tsize : option nat;
  tpos : list pos; tsparse : list bool
}.

(** TagManager: tags, dense_data (record size of an allocated array),
    empty_dense_data as a stack, and the supply of fresh TagMemory addresses. *)
Record tm := TM {
  tags : list tagm; dense : list (option nat); edense : list nat; fresh : nat
}.

Definition empty_tm : tm := TM [] [] [] 0.

(** Tag::GetPosition / isDefined / isSparse *)
Definition get_pos (t : tagm) (e : nat) : pos := nth e (tpos t) PUndef.
Definition is_defined (t : tagm) (e : nat) : bool :=
  match get_pos t e with PUndef => false | _ => true end.
Definition is_sparse (t : tagm) (e : nat) : bool := nth e (tsparse t) false.

(** Tag::SetPosition / SetSparse *)
Definition set_pos (t : tagm) (e : nat) (p : pos) : tagm :=
  TagM (tkey t) (tname t) (tdtype t) (tsize t) (lset (tpos t) e p) (tsparse t).
Definition set_sparse (t : tagm) (e : nat) : tagm :=
  TagM (tkey t) (tname t) (tdtype t) (tsize t) (tpos t) (lset (tsparse t) e true).

(** Tag::GetRecordSize, tag.cpp 240-243, as an abstract function of type and
    size. *)
Definition record_size (t : tagm) : nat :=
  match tsize t with Some n => S (n * tdtype t) | None => S (tdtype t) end.

(** Tag::Tag, tag.cpp 214-245 *)
Definition new_tagm (k name dtype : nat) (size : option nat) : tagm :=
  TagM k name dtype size (repeat PUndef ntypes) (repeat false ntypes).

(** Lookup by name, tag.cpp 343-360, 425-439 *)
Definition find_name (l : list tagm) (name : nat) : option tagm :=
  find (fun t => tname t =? name) l.
Definition find_key (l : list tagm) (k : nat) : option tagm :=
  find (fun t => tkey t =? k) l.

(** The tag object is shared by address: replace it in the vector. *)
Definition put (l : list tagm) (t : tagm) : list tagm :=
  map (fun u => if tkey u =? tkey t then t else u) l.

(** Body of the loop over types in CreateTag, tag.cpp 372-407: works on the tag
    memory, dense_data and empty_dense_data. *)
Definition define1 (etype sparse : mask) (e : nat)
                   (x : tagm * list (option nat) * list nat)
  : option (tagm * list (option nat) * list nat) :=
  let '(t, d, fr) := x in
  if negb (etype e) then Some x
  else match get_pos t e with
  | PUndef =>
      if sparse e then Some (set_sparse (set_pos t e PSparse) e, d, fr)
      else match fr with
      | p :: fr' =>
          if p <? length d
          then Some (set_pos t e (PDense p), lset d p (Some (record_size t)), fr')
          else None
      | [] => Some (set_pos t e (PDense (length d)), d ++ [Some (record_size t)], [])
      end
  | _ => Some x
  end.

Fixpoint define_all (etype sparse : mask) (l : list nat)
                    (x : tagm * list (option nat) * list nat) :=
  match l with
  | [] => Some x
  | e :: l' => match define1 etype sparse e x with
               | Some y => define_all etype sparse l' y
               | None => None
               end
  end.

(** TagManager::CreateTag, tag.cpp 337-424; returns the tag's key. *)
Definition create_tag (s : tm) (name dtype : nat) (etype sparse : mask)
                      (size : option nat) : option (tm * nat) :=
  let found :=
    match find_name (tags s) name with
    | Some t =>
        if (tdtype t =? dtype) &&
           (match size with
            | None => true
            | Some n => match tsize t with Some m => n =? m | None => false end
            end)
        then Some (t, tags s, fresh s)
        else None
    | None =>
        let t := new_tagm (fresh s) name dtype size in
        Some (t, tags s ++ [t], S (fresh s))
    end in
  match found with
  | None => None
  | Some (t, ts, fr) =>
      match define_all etype sparse (seq 0 ntypes) (t, dense s, edense s) with
      | Some (t', d, e) => Some (TM (put ts t') d e fr, tkey t')
      | None => None
      end
  end.

(** Loop of DeleteTag, tag.cpp 447-466; the flag is delete_entirely. *)
Definition undefine1 (m : mask) (e : nat)
                     (x : tagm * list (option nat) * list nat * bool)
  : option (tagm * list (option nat) * list nat * bool) :=
  let '(t, d, fr, b) := x in
  match get_pos t e with
  | PUndef => Some x
  | p =>
      if m e then
        if is_sparse t e then Some (set_pos t e PUndef, d, fr, b)
        else match p with
             | PDense q =>
                 if q <? length d
                 then Some (set_pos t e PUndef, lset d q None, q :: fr, b)
                 else None
             | _ => None
             end
      else Some (t, d, fr, false)
  end.

Fixpoint undefine_all (m : mask) (l : list nat)
                      (x : tagm * list (option nat) * list nat * bool) :=
  match l with
  | [] => Some x
  | e :: l' => match undefine1 m e x with
               | Some y => undefine_all m l' y
               | None => None
               end
  end.

Fixpoint remove_key (l : list tagm) (k : nat) : list tagm :=
  match l with
  | [] => []
  | u :: l' => if tkey u =? k then l' else u :: remove_key l' k
  end.

(** TagManager::DeleteTag, tag.cpp 440-499, on a tag of this mesh. *)
Definition delete_tag (s : tm) (k : nat) (m : mask) : option tm :=
  match find_key (tags s) k with
  | None => None
  | Some t =>
      match undefine_all m (seq 0 ntypes) (t, dense s, edense s, true) with
      | Some (t', d, e, entirely) =>
          Some (TM (if entirely then remove_key (tags s) k else put (tags s) t')
                   d e (fresh s))
      | None => None
      end
  end.

(** TagManager::RenameTag, tag.cpp 318-334 *)
Definition rename_tag (s : tm) (old new : nat) : tm * bool :=
  match find_name (tags s) new with
  | Some _ => (s, false)
  | None =>
      match find_name (tags s) old with
      | Some t =>
          (TM (put (tags s) (TagM (tkey t) new (tdtype t) (tsize t) (tpos t) (tsparse t)))
              (dense s) (edense s) (fresh s), true)
      | None => (s, false)
      end
  end.

(** HaveTag / GetTag, tag.cpp 425-439 *)
Definition have_tag (s : tm) (name : nat) : bool :=
  match find_name (tags s) name with Some _ => true | None => false end.

(** Arrays set up for copied tags, tag.cpp 252-262, 290-301. *)
Definition alloc_copied (ts : list tagm) (n : nat) : list (option nat) :=
  fold_left (fun d t =>
    fold_left (fun d e =>
      match get_pos t e with
      | PDense p => if is_sparse t e then d else lset d p (Some (record_size t))
      | _ => d
      end) (seq 0 ntypes) d) ts (repeat None n).

(** TagManager::operator=, tag.cpp 268-308: empty_dense_data of the target is
    left as it was.  Tag memories are new objects (keys are renumbered). *)
Definition rekey (k : nat) (ts : list tagm) : list tagm :=
  map (fun p => TagM (k + fst p) (tname (snd p)) (tdtype (snd p)) (tsize (snd p))
                     (tpos (snd p)) (tsparse (snd p)))
      (combine (seq 0 (length ts)) ts).
Definition assign_tags (dst src : tm) : tm :=
  let ts := rekey (fresh dst) (tags src) in
  TM ts (alloc_copied ts (length (dense src))) (edense dst)
     (fresh dst + length ts).

(** TagManager::TagManager(const TagManager&), tag.cpp 249-266: a new object, so
    empty_dense_data is empty. *)
Definition copy_tags (src : tm) : tm := assign_tags empty_tm src.

(** Histories of tag operations. *)
Inductive top :=
| TCreate (name dtype : nat) (etype sparse : mask) (size : option nat)
| TDelete (name : nat) (m : mask)      (* DeleteTag(GetTag(name),m) *)
| TRename (old new : nat).

Definition tstep (s : tm) (o : top) : option tm :=
  match o with
  | TCreate n d e sp sz => option_map fst (create_tag s n d e sp sz)
  | TDelete n m =>
      match find_name (tags s) n with
      | Some t => delete_tag s (tkey t) m
      | None => None  (* GetTag asserts *)
      end
  | TRename a b => Some (fst (rename_tag s a b))
  end.

Fixpoint trun (s : tm) (h : list top) : option tm :=
  match h with
  | [] => Some s
  | o :: h' => match tstep s o with Some s' => trun s' h' | None => None end
  end.

(** Mesh::Init, mesh.cpp 206-214 (cell_node_conn false, one thread): names 0..7
    are PROTECTED_COORD, HIGH_CONN, LOW_CONN, MARKERS, GEOM_TYPE, SET_NAME,
    SET_COMPARATOR, PRIVATE_MARKERS. *)
Definition mk (l : list nat) : mask := fun e => existsb (Nat.eqb e) l.
Definition init_history : list top :=
  [ TCreate 0 0 (mk [0]) (mk []) (Some 3);
    TCreate 1 3 (mk [4;2;1;0]) (mk []) None;
    TCreate 2 3 (mk [4;3;2;1]) (mk []) None;
    TCreate 3 2 (mk [3;2;1;0;4;5]) (mk []) (Some 16);
    TCreate 4 2 (mk [3;2;1;0]) (mk []) (Some 1);
    TCreate 5 2 (mk [4]) (mk []) None;
    TCreate 6 2 (mk [4]) (mk []) (Some 1);
    TCreate 7 2 (mk [3;2;1;0;4;5]) (mk []) (Some 4) ].

(** Tag part of Mesh::operator=, mesh.cpp 540-589: DeallocatePrivateMarkers,
    TagManager::operator=, then the same CreateTag calls as Init. *)
Definition mesh_assign (dst src : tm) : option tm :=
  match tstep dst (TDelete 7 (fun _ => true)) with
  | Some d1 => trun (assign_tags d1 src) init_history
  | None => None
  end.
