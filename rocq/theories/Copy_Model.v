(** Model of copying a mesh: Mesh::Mesh(const Mesh&), mesh.cpp:396-478, and the
    same loops of operator=, mesh.cpp:540-578, for one element type on top of
    Storage_Model.

    Modelled: the link tables, the dense columns and the sparse records.
    Not modelled: system tags, geometric tables, the communicator. *)
From Coq Require Import List Bool Arith.
From Verif Require Import Util Storage_Model.
Import ListNotations.

Section S.
Variable V : Type.
Variable dflt : V.
Variable chunk : nat.
Variable minsz : nat.
(** what becomes of one sparse record *)
Variable spc : V -> V.

(** mesh.cpp:423-447: for every existing element the record of [src] is copied
    to the same address of the new column *)
Definition copy_live (f : V -> V) (ls : list (option nat)) (src dst : list V) : list V :=
  fold_left (fun d l => match l with Some a => lset d a (f (nth a src dflt)) | None => d end) ls dst.

(** The new mesh has the tables [links], [empty_links], [empty_space] (mesh.cpp:
    414-419) but new arrays; back_links starts empty and is only resized, by
    ReallocateData (mesh.cpp:423, tag.cpp:516-551). *)
Definition copy (s : st V) : st V :=
  let s0 := realloc V dflt chunk minsz
    (St V (links V s) [] (espace V s) (elinks V s) (modif V s)
        (map (fun _ => []) (cols V s)) [] (needsp V s)) (capacity V chunk s) in
  St V (links V s0) (back V s0) (espace V s0) (elinks V s0) (modif V s0)
     (map (fun p => copy_live (fun v => v) (links V s) (fst p) (snd p)) (combine (cols V s) (cols V s0)))
     (if needsp V s then copy_live spc (links V s) (sparse V s) (sparse V s0) else [])
     (needsp V s).
End S.

(** ** One sparse record: pairs of a tag identity (the pointer Tag::mem) and a value *)
Section R.
Variable W : Type.
Definition record := list (nat * W).
(** mesh.cpp HaveData and inmost_mesh.h:1362: search by identity *)
Fixpoint lookup (r : record) (mem : nat) : option W :=
  match r with
  | [] => None
  | (m, v) :: t => if m =? mem then Some v else lookup t mem
  end.
(** inmost_mesh.h:1363 *)
Fixpoint put (r : record) (mem : nat) (v : W) : record :=
  match r with
  | [] => [(mem, v)]
  | (m, w) :: t => if m =? mem then (m, v) :: t else (m, w) :: put t mem v
  end.
(** mesh.cpp:428-436: for every sparse tag, given as the pair of its identity
    in the new mesh and in the other one (TagManager copy, tag.cpp:255, allocates
    a new TagMemory): if( other.HaveData(h,tags[i]) ) CopyData(...,
    other.MGetLink(h,other.tags[i])) *)
Definition copy_record (tags : list (nat * nat)) (r : record) : record :=
  fold_left (fun d t =>
    match lookup r (fst t) with
    | Some _ => match lookup r (snd t) with Some v => put d (fst t) v | None => d end
    | None => d
    end) tags [].
End R.
