(** Element storage of one element type: the id -> address table [links], the
    address -> id table [back_links], the two free lists and the data columns.
    Source: Source/Mesh/mesh.cpp 1928-2050, 2160-2165, Source/Data/tag.cpp
    516-551, Source/Mesh/modify.cpp 2186-2208.
    A value type [V] stands for the record a tag keeps for one element; [dflt]
    is the freshly allocated record (zero bytes, or an empty array).  The model
    is generic in the chunk length (8192 in the code, chunk_bits_elems = 13)
    and in the smallest array size (1024 in the code).
    Out-of-range accesses and failed asserts give [None].
    Simplified: one thread; machine integers do not overflow. *)
From Coq Require Import List Bool Arith.
From Verif Require Import Util.
Import ListNotations.

Section S.
Variable V : Type.
Variable dflt : V.
Variable chunk : nat.
Variable minsz : nat.

Record st := St {
  links  : list (option nat);  (* id -> address, None is -1 *)
  back   : list (option nat);  (* address -> id, None is -1 *)
  espace : list nat;           (* empty_space as a stack, back() first *)
  elinks : list nat;           (* empty_links as a stack, back() first *)
  modif  : bool;               (* isMeshModified() *)
  cols   : list (list V);      (* one allocated column per dense tag *)
  sparse : list V;             (* sparse_data, empty when no tag is sparse *)
  needsp : bool                (* some tag is sparse on this type *)
}.

(** Whole chunks needed for [n] entries (chunk_bulk_array::resize,
    container.hpp 1424-1450, and mesh.cpp 2163-2164). *)
Definition roundup (n : nat) : nat :=
  (n / chunk + (if n mod chunk =? 0 then 0 else 1)) * chunk.

(** mesh.cpp 2162 *)
Definition occupied (s : st) : nat :=
  length (links s) - length (elinks s) + length (espace s).

(** Mesh::GetArrayCapacity, mesh.cpp 2160-2165 *)
Definition capacity (s : st) : nat := roundup (occupied s).

(** std::vector / chunk_array resize with a fill value. *)
Definition resize {A} (l : list A) (n : nat) (x : A) : list A :=
  firstn n l ++ repeat x (n - length l).

(** chunk_bulk_array::resize keeps whole chunks: entries between the new size
    and the end of the last chunk keep their bytes (container.hpp 1424-1450). *)
Definition resize_col (c : list V) (n : nat) : list V :=
  resize c (roundup n) dflt.

(** tag.cpp 402, 518: never fewer than the smallest array size. *)
Definition at_least (n : nat) : nat := if n <? minsz then minsz else n.

(** TagManager::ReallocateData, tag.cpp 516-551 (not for the MESH type). *)
Definition realloc (s : st) (n0 : nat) : st :=
  let n := at_least n0 in
  St (links s) (resize (back s) n None) (espace s) (elinks s) (modif s)
     (map (fun c => resize_col c n) (cols s))
     (if needsp s then resize (sparse s) n dflt else [])
     (needsp s).

(** Mesh::Mesh, mesh.cpp 215-216: empty tables, every array reallocated. *)
Definition init : st := realloc (St [] [] [] [] false [] [] false) 0.

(** Mesh::TieElement, mesh.cpp 1947-1986 *)
Definition tie (s : st) : option (st * nat) :=
  let old_size := capacity s in
  let '(addr, es) :=
    match espace s with
    | a :: es => if modif s then (occupied s, espace s) else (a, es)
    | [] => (occupied s, [])
    end in
  let '(id, ls, el) :=
    match elinks s with
    | i :: el => (i, lset (links s) i (Some addr), el)
    | [] => (length (links s), links s ++ [Some addr], [])
    end in
  if negb (id <? length ls) then None else
  let s1 := St ls (back s) es el (modif s) (cols s) (sparse s) (needsp s) in
  let s2 := if capacity s1 =? old_size then s1 else realloc s1 (capacity s1) in
  if addr <? length (back s2)
  then Some (St (links s2) (lset (back s2) addr (Some id)) (espace s2)
                (elinks s2) (modif s2) (cols s2) (sparse s2) (needsp s2), id)
  else None.

(** Mesh::UntieElement, mesh.cpp 1928-1942 *)
Definition untie (s : st) (id : nat) : option st :=
  if modif s then None else
  match nth_error (links s) id with
  | Some (Some addr) =>
      if addr <? length (back s)
      then Some (St (lset (links s) id None) (lset (back s) addr None)
                    (addr :: espace s) (id :: elinks s) (modif s)
                    (cols s) (sparse s) (needsp s))
      else None
  | _ => None
  end.

(** Storage part of Mesh::Destroy, modify.cpp 2186-2208: DelData of every tag
    (DelDenseData zeroes the record, mesh.cpp 2527-2549; DelSparseData drops
    the sparse entries, 2551-2573), then UntieElement. *)
Definition destroy (s : st) (id : nat) : option st :=
  match nth_error (links s) id with
  | Some (Some addr) =>
      if addr <? length (back s)
      then untie (St (links s) (back s) (espace s) (elinks s) (modif s)
                     (map (fun c => lset c addr dflt) (cols s))
                     (lset (sparse s) addr dflt) (needsp s)) id
      else None
  | _ => None
  end.

(** std::swap of two cells *)
Definition swap_cells (l : list V) (i j : nat) : list V :=
  lset (lset l i (nth j l dflt)) j (nth i l dflt).

(** Mesh::MoveStorage, mesh.cpp 1989-2015: the asserts on both addresses, then
    the tables, the sparse swap, and per dense tag CopyData + DelDenseData. *)
Definition move (s : st) (old new : nat) : option st :=
  if negb (old <? length (back s)) || negb (new <? length (back s)) then None
  else
  match nth old (back s) None with
  | None => None
  | Some id =>
      if negb (id <? length (links s)) then None else
      Some (St (lset (links s) id (Some new))
               (lset (lset (back s) old None) new (Some id))
               (espace s) (elinks s) (modif s)
               (map (fun c => lset (lset c new (nth old c dflt)) old dflt) (cols s))
               (swap_cells (sparse s) new old)
               (needsp s))
  end.

(** First loop of ReorderEmpty, mesh.cpp 2030-2031; [e] stands for cend+1. *)
Fixpoint skip_free (b : list (option nat)) (e : nat) : nat :=
  match e with
  | O => O
  | S c => match nth c b None with None => skip_free b c | Some _ => e end
  end.

Definition pop_space (s : st) : st :=
  St (links s) (back s) (tl (espace s)) (elinks s) (modif s) (cols s) (sparse s) (needsp s).

(** Main loop of ReorderEmpty, mesh.cpp 2032-2043; [e] stands for cend+1. *)
Fixpoint compact (fuel : nat) (s : st) (e : nat) : option st :=
  match fuel with
  | O => None
  | S f =>
      match e, espace s with
      | O, _ | _, [] => Some s
      | S c, last :: _ =>
          if c <=? last then compact f (pop_space s) e
          else match nth c (back s) None with
               | Some _ =>
                   match move s c last with
                   | Some s1 => compact f (pop_space s1) e
                   | None => None
                   end
               | None => compact f s c
               end
      end
  end.

(** Mesh::ReorderEmpty for one element type, mesh.cpp 2024-2050 (the loop at
    2044-2045 changes only the local cend). *)
Definition reorder (s : st) : option st :=
  match compact (S (length (espace s) + length (back s))) s
                (skip_free (back s) (length (back s))) with
  | Some s1 =>
      let s2 := St (links s1) (back s1) [] (elinks s1) (modif s1) (cols s1)
                   (sparse s1) (needsp s1) in
      Some (realloc s2 (capacity s2))
  | None => None
  end.

(** Dense data access: MGetDenseLink (inmost_mesh.h 1358-1369) is
    &column[links[id]]. *)
Definition read (s : st) (c id : nat) : option V :=
  match nth_error (links s) id, nth_error (cols s) c with
  | Some (Some a), Some col =>
      if a <? length (back s) then Some (nth a col dflt) else None
  | _, _ => None
  end.

Definition write (s : st) (c id : nat) (v : V) : option st :=
  match nth_error (links s) id, nth_error (cols s) c with
  | Some (Some a), Some col =>
      if a <? length (back s)
      then Some (St (links s) (back s) (espace s) (elinks s) (modif s)
                    (lset (cols s) c (lset col a v)) (sparse s) (needsp s))
      else None
  | _, _ => None
  end.

(** Sparse data: the whole sparse record of the element. *)
Definition read_sparse (s : st) (id : nat) : option V :=
  match nth_error (links s) id with
  | Some (Some a) => nth_error (sparse s) a
  | _ => None
  end.

Definition write_sparse (s : st) (id : nat) (v : V) : option st :=
  match nth_error (links s) id with
  | Some (Some a) =>
      if a <? length (sparse s)
      then Some (St (links s) (back s) (espace s) (elinks s) (modif s)
                    (cols s) (lset (sparse s) a v) (needsp s))
      else None
  | _ => None
  end.

(** A new dense tag: TagManager::CreateTag gives it a new column and calls
    ReallocateData for it (tag.cpp 388-404, 553-623). *)
Definition new_dense (s : st) : st :=
  St (links s) (back s) (espace s) (elinks s) (modif s)
     (cols s ++ [resize_col [] (at_least (capacity s))]) (sparse s) (needsp s).

(** A new sparse tag allocates sparse_data on first use, tag.cpp 408-421. *)
Definition new_sparse (s : st) : st :=
  St (links s) (back s) (espace s) (elinks s) (modif s) (cols s)
     (match sparse s with [] => repeat dflt (at_least (capacity s)) | _ => sparse s end)
     true.

Definition set_modif (s : st) (b : bool) : st :=
  St (links s) (back s) (espace s) (elinks s) b (cols s) (sparse s) (needsp s).

(** Histories. *)
Inductive op :=
| OTie | ODestroy (id : nat) | OReorder
| OWrite (c id : nat) (v : V) | OWriteSparse (id : nat) (v : V)
| ONewDense | ONewSparse | OModif (b : bool).

(** One call: new state and the id a creation returns. *)
Definition step (s : st) (o : op) : option (st * option nat) :=
  match o with
  | OTie => match tie s with Some (s', i) => Some (s', Some i) | None => None end
  | ODestroy id => option_map (fun s' => (s', None)) (destroy s id)
  | OReorder => option_map (fun s' => (s', None)) (reorder s)
  | OWrite c id v => option_map (fun s' => (s', None)) (write s c id v)
  | OWriteSparse id v => option_map (fun s' => (s', None)) (write_sparse s id v)
  | ONewDense => Some (new_dense s, None)
  | ONewSparse => Some (new_sparse s, None)
  | OModif b => Some (set_modif s b, None)
  end.

(** A history, with the list of ids returned. *)
Fixpoint run (s : st) (h : list op) : option (st * list (option nat)) :=
  match h with
  | [] => Some (s, [])
  | o :: h' =>
      match step s o with
      | Some (s', r) =>
          match run s' h' with
          | Some (s'', rs) => Some (s'', r :: rs)
          | None => None
          end
      | None => None
      end
  end.
End S.
