(** Model of Source/Mesh/iterator.cpp: mesh iterators, NextHandle, PrevHandle,
    local id walks and NumberOf. A mesh is six tables (nodes, edges, faces,
    cells, sets, the mesh itself); an entry says whether the local id is in use
    (links[q][lid] != -1) and whether the element carries the hide marker.
    A handle is a pair of type number and local id (encoding: Handle_Model.v).
    Simplified: integers do not overflow. *)
From Coq Require Import ZArith List Bool Arith.
From Verif Require Import Util Handle_Model.
Import ListNotations.
Open Scope nat_scope.

Record cell := Cell { used : bool; hidden : bool }.
Definition mesh := list (list cell).

Definition row (m : mesh) (q : nat) : list cell := nth q m [].
Definition num (t : Z) : nat := Z.to_nat (ElementNum t).

(** links[q][lid] != -1 && !Hidden(...) *)
Definition shown (c : cell) : bool := used c && negb (hidden c).
Definition at_id (p : cell -> bool) (l : list cell) (i : nat) : bool :=
  match nth_error l i with Some c => p c | None => false end.

(** while(lid < size && !p(lid)) ++lid, from [lid] with [l] the rest of the table *)
Fixpoint skip_up (p : cell -> bool) (l : list cell) (lid : Z) : Z :=
  match l with
  | [] => lid
  | c :: t => if p c then lid else skip_up p t (lid + 1)
  end.

(** iterator.cpp:242-248 NextLocalIDIter; inmost_mesh.h:3057 NextLocalID with [used] *)
Definition next_local (p : cell -> bool) (l : list cell) (lid : Z) : Z :=
  skip_up p (skipn (Z.to_nat (lid + 1)) l) (lid + 1).

(** while(lid > 0 && !p(lid)) --lid *)
Fixpoint skip_down (p : cell -> bool) (l : list cell) (n : nat) : Z :=
  match n with
  | O => 0%Z
  | S n' => if at_id p l n then Z.of_nat n else skip_down p l n'
  end.

(** iterator.cpp:250-256 PrevLocalIDIter; inmost_mesh.h:3058 PrevLocalID with [used] *)
Definition prev_local (p : cell -> bool) (l : list cell) (lid : Z) : Z :=
  if (lid <=? 0)%Z then (lid - 1)%Z else skip_down p l (Z.to_nat (lid - 1)).

(** iterator.cpp:156-163 FirstLocalID ([used]), 257-264 FirstLocalIDIter ([shown]) *)
Definition first_local (p : cell -> bool) (m : mesh) (t : Z) : Z :=
  if (num t =? 5)%nat then 0%Z else skip_up p (row m (num t)) 0.

(** inmost_mesh.h:3055 LastLocalIDNum *)
Definition last_local (m : mesh) (t : Z) : Z :=
  if (num t =? 5)%nat then 1%Z else Z.of_nat (length (row m (num t))).

(** iterator.cpp:265-270 LastLocalIDIter *)
Definition last_local_iter (m : mesh) (t : Z) : Z :=
  prev_local shown (row m (num t)) (last_local m t).

(** an iterator: the type it stands at and the local id *)
Definition it := (Z * Z)%type.
(** base_iterator of a mesh only, End() *)
Definition end_it : it := (NONE, -1)%Z.

(** iterator.cpp:174-189 operator++; None: out of fuel *)
Fixpoint incr (fuel : nat) (m : mesh) (types : Z) (x : it) : option it :=
  match fuel with
  | O => None
  | S f =>
    let '(t, lid) := x in
    if (t =? NONE)%Z then Some x else
    let lid' := next_local shown (row m (num t)) lid in
    if (lid' =? last_local m t)%Z then
      match GetNextType 9 t types with
      | None => None
      | Some t' => if (t' =? NONE)%Z then Some (t', -1)%Z else incr f m types (t', -1)%Z
      end
    else Some (t, lid')
  end.

(** iterator.cpp:191-211 operator-- *)
Fixpoint decr (fuel : nat) (m : mesh) (types : Z) (x : it) : option it :=
  match fuel with
  | O => None
  | S f =>
    let '(t, lid) := x in
    if (t =? NONE)%Z then Some x else
    let lid' := prev_local shown (row m (num t)) lid in
    if (lid' =? -1)%Z then
      match GetPrevType 9 t types with
      | None => None
      | Some t' => if (t' =? NONE)%Z then Some (t', -1)%Z
                   else decr f m types (t', last_local_iter m t')
      end
    else Some (t, lid')
  end.

(** iterator.cpp:226-231 the loop over types in the constructor *)
Definition first_type (types : Z) : Z :=
  match find (fun t => negb (Z.land types t =? 0)%Z) [NODE; EDGE; FACE; CELL; ESET; MESH] with
  | Some t => t
  | None => NONE
  end.

(** iterator.cpp:213-232, 272-285 Begin(types) *)
Definition begin_it (m : mesh) (types : Z) : option it :=
  incr 7 m types (first_type types, -1)%Z.

(** a loop of the user: for(it = Begin(types); it != End(); ++it) collect *it *)
Fixpoint collect (steps : nat) (m : mesh) (types : Z) (x : it) : option (list it) :=
  match steps with
  | O => None
  | S s =>
    if ((fst x =? NONE) && (snd x =? -1))%Z then Some [] else
    match incr 7 m types x with
    | None => None
    | Some y => option_map (cons x) (collect s m types y)
    end
  end.

(** the loop backwards: for(; it != End(); --it) collect *it *)
Fixpoint collect_back (steps : nat) (m : mesh) (types : Z) (x : it) : option (list it) :=
  match steps with
  | O => None
  | S s =>
    if ((fst x =? NONE) && (snd x =? -1))%Z then Some [] else
    match decr 7 m types x with
    | None => None
    | Some y => option_map (cons x) (collect_back s m types y)
    end
  end.

(** ** Handles *)
Definition hnd := (nat * nat)%type.   (** type number, local id *)

(** iterator.cpp:42-51 the loop of NextHandle(h) *)
Fixpoint next_handle_loop (fuel : nat) (m : mesh) (n id : nat) : option hnd :=
  match fuel with
  | O => None
  | S f =>
    if n <? 5 then
      let id' := Z.to_nat (skip_up used (skipn id (row m n)) (Z.of_nat id)) in
      if id' =? length (row m n) then next_handle_loop f m (n + 1) 0 else Some (n, id')
    else Some (n, id)
  end.

(** iterator.cpp:38-54 NextHandle(h) *)
Definition next_handle (m : mesh) (h : hnd) : option hnd :=
  match next_handle_loop 7 m (fst h) (snd h + 1) with
  | Some (n, id) => Some (if (n =? 5) && (0 <? id) then (n, 1) else (n, id))
  | None => None
  end.

(** etype & (1 << q) *)
Definition has_type (types : Z) (q : nat) : bool := Z.testbit types (Z.of_nat q).

(** iterator.cpp:80-106 NextHandle(h, etype) *)
Fixpoint next_handle_types_loop (fuel : nat) (m : mesh) (types : Z) (n id : nat) : option hnd :=
  match fuel with
  | O => None
  | S f =>
    if n <? 5 then
      let id' := Z.to_nat (skip_up used (skipn id (row m n)) (Z.of_nat id)) in
      if id' =? length (row m n) then
        match find (has_type types) (seq (n + 1) (5 - (n + 1))) with
        | Some q => next_handle_types_loop f m types q 0
        | None => Some (n, id')
        end
      else Some (n, id')
    else Some (n, id)
  end.
Definition next_handle_types (m : mesh) (types : Z) (h : hnd) : option hnd :=
  match next_handle_types_loop 7 m types (fst h) (snd h + 1) with
  | Some (n, id) => Some (if (n =? 5) && (0 <? id) then (n, 1) else (n, id))
  | None => None
  end.

(** while(id >= 0 && !p(id)) --id from id = c - 1; None is id = -1 *)
Fixpoint down (p : cell -> bool) (l : list cell) (c : nat) : option nat :=
  match c with
  | O => None
  | S j => if at_id p l j then Some j else down p l j
  end.

(** iterator.cpp:66-77 the loop of PrevHandle(h), [c] = id + 1; None is
    InvalidHandle(). For type number 0 the id is not set and stays -1. *)
Fixpoint prev_handle_loop (m : mesh) (n c : nat) : option hnd :=
  match down used (row m n) c with
  | Some j => Some (n, j)
  | None =>
    match n with
    | O => None
    | S n' => prev_handle_loop m n' (if 0 <? n' then length (row m n') else 0)
    end
  end.

(** iterator.cpp:56-78 PrevHandle(h) *)
Definition prev_handle (m : mesh) (h : hnd) : option hnd :=
  if fst h =? 5 then
    match snd h with
    | O => prev_handle_loop m 4 0
    | S _ => Some (5, 0)
    end
  else prev_handle_loop m (fst h) (snd h).

(** iterator.cpp:132-151 the loop of PrevHandle(h, etype) *)
Fixpoint prev_handle_types_loop (fuel : nat) (m : mesh) (types : Z) (n c : nat) : option hnd :=
  match fuel with
  | O => None
  | S f =>
    match down used (row m n) c with
    | Some j => Some (n, j)
    | None =>
      match find (has_type types) (rev (seq 0 n)) with
      | Some q => prev_handle_types_loop f m types q (length (row m q))
      | None => None
      end
    end
  end.

(** iterator.cpp:108-154 PrevHandle(h, etype) *)
Definition prev_handle_types (m : mesh) (types : Z) (h : hnd) : option hnd :=
  if fst h =? 5 then
    match snd h with
    | O =>
      match find (has_type types) (rev (seq 0 5)) with
      | Some q => prev_handle_types_loop 7 m types q (length (row m q))
      | None => None
      end
    | S _ => Some (5, 0)
    end
  else prev_handle_types_loop 7 m types (fst h) (snd h).

(** iterator.cpp:165-172 NumberOf; [free q] = empty_links[q].size(),
    [hid q] = hidden_count[q] *)
Definition number_of (m : mesh) (free hid : nat -> Z) (types : Z) : Z :=
  (fold_right Z.add 0
     (map (fun q => Z.of_nat (length (row m q)) - free q - hid q)
        (filter (has_type types) (seq 0 5)))
   + (if has_type types 5 then 1 else 0))%Z.
