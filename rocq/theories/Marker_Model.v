(** Model of shared and private markers.

    Sources:
    - Source/Headers/inmost_data.h lines 62-74 (marker layout);
    - Source/Mesh/mesh.cpp lines 2052-2088 (CreateMarker, CreatePrivateMarker),
      lines 2090-2156 (ReleaseMarker, ReleasePrivateMarker),
      lines 268-297 (Get/Set/RemPrivateMarker);
    - Source/Headers/inmost_mesh.h lines 2014, 2026, 2031 (Set/Get/RemMarker).

    A marker family is described by its number of bytes (MarkerFields = 16 for
    shared markers, MarkerFieldsPrivate = 4 for private ones) and by the bit
    or-ed into its marker values (0, or MarkerPrivateBit).  Each thread has its
    own private tag, so one thread is one instance of the model.

    Simplifications: elements are numbered 0,1,2,...; the table of allocated
    markers (the marker bytes of the mesh itself) is the field [alloc] and user
    calls that set markers on the mesh itself are not modelled. *)
From Coq Require Import ZArith List Bool.
From Verif Require Import Util.
Import ListNotations.
Open Scope Z_scope.

(** inmost_data.h 64-72 *)
Definition MarkerFields : nat := 16.
Definition MarkerFieldsPrivate : nat := 4.
Definition MarkerShift : Z := 8.
Definition MarkerMask : Z := 0xFF.
Definition MarkerPrivateBit (w : Z) : Z := 2 ^ (w - 1).
(** inmost_data.h 74: ENUMUNDEF *)
Definition InvalidMarker (w : Z) : Z := 2 ^ w - 1.
(** inmost_data.h 73 *)
Definition isPrivate (w n : Z) : bool := Z.land n (MarkerPrivateBit w) =? MarkerPrivateBit w.

Record family := { fields : nat; pbit : Z }.
Definition shared_family : family := {| fields := MarkerFields; pbit := 0 |}.
Definition private_family (w : Z) : family :=
  {| fields := MarkerFieldsPrivate; pbit := MarkerPrivateBit w |}.

(** An element: its type mask, whether its slot is occupied, its marker bytes. *)
Record elem := { etype : Z; alive : bool; bytes : list Z }.
Record state := { alloc : list Z; elems : list elem }.

(** mesh.cpp 2058 / 2076: lowest zero bit, computed in [int] and truncated to a
    byte. *)
Definition free_mask (b : Z) : Z := Z.land (Z.lnot b) (- (Z.lnot b)) mod 256.

(** mesh.cpp 2056-2065: the loop over the marker bytes of the mesh. *)
Fixpoint create_loop (k : Z) (space : list Z) : option (Z * list Z) :=
  match space with
  | [] => None
  | b :: rest =>
      let mask := free_mask b in
      if negb (mask =? 0)
      then Some (Z.lor (Z.shiftl k MarkerShift) mask, Z.lor b mask :: rest)
      else match create_loop (k + 1) rest with
           | Some (r, rest') => Some (r, b :: rest')
           | None => None
           end
  end.

(** mesh.cpp 2052-2088.  [None]: the [assert(false)] of line 2066 / 2086. *)
Definition CreateMarker (f : family) (s : state) : option (Z * state) :=
  match create_loop 0 (alloc s) with
  | Some (r, sp) => Some (Z.lor r (pbit f), {| alloc := sp; elems := elems s |})
  | None => None
  end.

(** The index and the mask used by all accesses (inmost_mesh.h 2014, 2026,
    2031; mesh.cpp 271-275). *)
Definition strip (f : family) (n : Z) : Z := Z.ldiff n (pbit f).
Definition pos (f : family) (n : Z) : nat := Z.to_nat (Z.shiftr (strip f n) MarkerShift).
Definition msk (f : family) (n : Z) : Z := Z.land (strip f n) MarkerMask.

Definition or_at (l : list Z) (p : nat) (m : Z) : list Z := lset l p (Z.lor (nth p l 0) m).
Definition clr_at (l : list Z) (p : nat) (m : Z) : list Z := lset l p (Z.ldiff (nth p l 0) m).

Definition with_bytes (e : elem) (b : list Z) : elem :=
  {| etype := etype e; alive := alive e; bytes := b |}.
Definition upd_elem (s : state) (i : nat) (g : list Z -> list Z) : option state :=
  match nth_error (elems s) i with
  | Some e =>
      if alive e then
        Some {| alloc := alloc s; elems := lset (elems s) i (with_bytes e (g (bytes e))) |}
      else None
  | None => None
  end.

(** inmost_mesh.h 2014 / mesh.cpp 280-287; an invalid element is an error. *)
Definition SetMarker (f : family) (s : state) (i : nat) (n : Z) : option state :=
  upd_elem s i (fun b => or_at b (pos f n) (msk f n)).
(** inmost_mesh.h 2031 / mesh.cpp 289-296 *)
Definition RemMarker (f : family) (s : state) (i : nat) (n : Z) : option state :=
  upd_elem s i (fun b => clr_at b (pos f n) (msk f n)).
(** inmost_mesh.h 2026 / mesh.cpp 268-278 *)
Definition GetMarker (f : family) (s : state) (i : nat) (n : Z) : bool :=
  match nth_error (elems s) i with
  | Some e => negb (Z.land (nth (pos f n) (bytes e) 0) (msk f n) =? 0)
  | None => false
  end.

(** mesh.cpp 2090-2121 / 2123-2156: clear the marker on the valid elements of
    the types in [cleanup] (the loop runs over types below MESH, and elements
    of the model are of such types), then free it on the mesh. *)
Definition ReleaseMarker (f : family) (s : state) (n cleanup : Z) : state :=
  {| alloc := clr_at (alloc s) (pos f n) (msk f n);
     elems := map (fun e =>
       if alive e && negb (Z.land cleanup (etype e) =? 0)
       then with_bytes e (clr_at (bytes e) (pos f n) (msk f n)) else e) (elems s) |}.

(** A fresh mesh with the given elements: all marker bytes are zero. *)
Definition init (f : family) (es : list (Z * bool)) : state :=
  {| alloc := repeat 0 (fields f);
     elems := map (fun p => {| etype := fst p; alive := snd p; bytes := repeat 0 (fields f) |}) es |}.

(** A history of calls.  The caller holds the list of created, not yet released
    markers and releases or uses only held markers (otherwise [None]). *)
Inductive op :=
| OCreate
| ORelease (n cleanup : Z)
| OSet (e : nat) (n : Z)
| ORem (e : nat) (n : Z).

Definition holds (held : list Z) (n : Z) : bool := existsb (Z.eqb n) held.

Definition step (f : family) (sh : state * list Z) (o : op) : option (state * list Z) :=
  let (s, held) := sh in
  match o with
  | OCreate => match CreateMarker f s with
               | Some (n, s') => Some (s', n :: held)
               | None => None
               end
  | ORelease n c => if holds held n
                    then Some (ReleaseMarker f s n c, remove Z.eq_dec n held) else None
  | OSet e n => if holds held n
                then option_map (fun s' => (s', held)) (SetMarker f s e n) else None
  | ORem e n => if holds held n
                then option_map (fun s' => (s', held)) (RemMarker f s e n) else None
  end.

Fixpoint run (f : family) (sh : state * list Z) (ops : list op) : option (state * list Z) :=
  match ops with
  | [] => Some sh
  | o :: r => match step f sh o with Some sh' => run f sh' r | None => None end
  end.
