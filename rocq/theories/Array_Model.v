(** Model of array<T> (Source/Headers/container.hpp lines 65-472).

    The buffer is a list of cells; a cell is [None] when it was never written
    (default-initialised storage whose content is not relied upon).  Every read
    and write of the buffer is bounds-checked: an access outside of the
    allocated storage makes the whole operation [None] (undefined behaviour).

    Simplifications: [size_type] is a [nat] bounded by the statements (sizes up
    to 2^31); iterators are offsets from [begin()]; allocation never fails.
    shell<T> (lines 474-838) repeats the same algorithms over a borrowed
    pointer and is not modelled separately. *)
From Coq Require Import NArith List Bool Arith.
From Verif Require Import Util.
Import ListNotations.

(** lines 151-164: growth_formula, on 32-bit unsigned. *)
Definition growth (n : N) : N :=
  let v := ((n + (2 ^ 32 - 1)) mod 2 ^ 32)%N in        (* v-- *)
  let v := N.lor v (N.shiftr v 1) in
  let v := N.lor v (N.shiftr v 2) in
  let v := N.lor v (N.shiftr v 4) in
  let v := N.lor v (N.shiftr v 8) in
  let v := N.lor v (N.shiftr v 16) in
  ((v + 1) mod 2 ^ 32)%N.
Definition gf (n : nat) : nat := N.to_nat (growth (N.of_nat n)).

Section Array.
Context {A : Type}.

Definition cell := option A.
Definition buf := list cell.
Record arr := { m_arr : option buf; m_size : nat }.

Definition rd (b : buf) (i : nat) : option cell := nth_error b i.
Definition wr (b : buf) (i : nat) (x : cell) : option buf :=
  if i <? length b then Some (lset b i x) else None.

(** std::copy of an external sequence into the buffer. *)
Fixpoint copy_in (b : buf) (o : nat) (xs : list cell) : option buf :=
  match xs with
  | [] => Some b
  | x :: r => match wr b o x with Some b' => copy_in b' (S o) r | None => None end
  end.
(** std::copy inside the buffer, first element first. *)
Fixpoint copy_fwd (b : buf) (i o n : nat) : option buf :=
  match n with
  | O => Some b
  | S n' => match rd b i with
            | Some x => match wr b o x with
                        | Some b' => copy_fwd b' (S i) (S o) n'
                        | None => None end
            | None => None end
  end.
(** std::copy_backward, last element first. *)
Fixpoint copy_bwd (b : buf) (i o n : nat) : option buf :=
  match n with
  | O => Some b
  | S n' => match rd b (i + n') with
            | Some x => match wr b (o + n') x with
                        | Some b' => copy_bwd b' i o n'
                        | None => None end
            | None => None end
  end.
(** lines 191-199: array::copy chooses the direction. *)
Definition copy (b : buf) (i o n : nat) : option buf :=
  if i <? o then copy_bwd b i o n else copy_fwd b i o n.
(** std::fill *)
Definition fill (b : buf) (o n : nat) (c : A) : option buf := copy_in b o (repeat (Some c) n).

(** First [n] cells of a buffer; [None] if it is shorter. *)
Definition take (b : buf) (n : nat) : option (list cell) :=
  if n <=? length b then Some (firstn n b) else None.

(** lines 166-181: realloc.  [None] as pointer is NULL: nothing can be copied
    from it. *)
Definition realloc (p : option buf) (old_size new_size : nat) : option (option buf) :=
  if gf new_size =? gf old_size then Some p
  else
    let tmp := repeat None (gf new_size) in
    match p with
    | Some b => match take b (Nat.min old_size new_size) with
                | Some xs => option_map Some (copy_in tmp 0 xs)
                | None => None end
    | None => if Nat.min old_size new_size =? 0 then Some (Some tmp) else None
    end.
(** lines 182-190: alloc *)
Definition alloc (n : nat) : buf := repeat None (gf n).

(** line 203 *)
Definition empty : arr := {| m_arr := None; m_size := 0 |}.
(** lines 322-327 *)
Definition clear (_ : arr) : arr := empty.
(** lines 204-209 *)
Definition make (n : nat) (c : A) : option arr :=
  option_map (fun b => {| m_arr := Some b; m_size := n |}) (fill (alloc n) 0 n c).
(** lines 210-216 *)
Definition make_range (xs : list A) : option arr :=
  option_map (fun b => {| m_arr := Some b; m_size := length xs |})
             (copy_in (alloc (length xs)) 0 (map Some xs)).
(** lines 217-226 *)
Definition copy_ctor (other : arr) : option arr :=
  if m_size other =? 0 then Some empty
  else match m_arr other with
       | None => None
       | Some ob => match take ob (m_size other) with
                    | None => None
                    | Some xs => option_map (fun b => {| m_arr := Some b; m_size := m_size other |})
                                            (copy_in (alloc (m_size other)) 0 xs)
                    end
       end.
(** lines 253-267; [this] and [other] are different objects. *)
Definition assign_op (a other : arr) : option arr :=
  let a1 := match m_arr a with Some _ => clear a | None => a end in
  match m_arr other with
  | None => Some a1
  | Some ob => match take ob (m_size other) with
               | None => None
               | Some xs => option_map (fun b => {| m_arr := Some b; m_size := m_size other |})
                                       (copy_in (alloc (m_size other)) 0 xs)
               end
  end.

(** lines 228-247: access with its assertion. *)
Definition get (a : arr) (n : nat) : option cell :=
  if n <? m_size a then match m_arr a with Some b => rd b n | None => None end else None.
Definition set (a : arr) (n : nat) (x : A) : option arr :=
  if n <? m_size a then
    match m_arr a with
    | Some b => option_map (fun b' => {| m_arr := Some b'; m_size := m_size a |}) (wr b n (Some x))
    | None => None end
  else None.

Definition with_buf (p : option buf) (n : nat) (k : buf -> option buf) : option arr :=
  match p with
  | Some b => option_map (fun b' => {| m_arr := Some b'; m_size := n |}) (k b)
  | None => None
  end.

(** lines 268-272 *)
Definition push_back (a : arr) (e : A) : option arr :=
  match realloc (m_arr a) (m_size a) (S (m_size a)) with
  | Some p => with_buf p (S (m_size a)) (fun b => wr b (m_size a) (Some e))
  | None => None
  end.
(** push_back(a[i]): the argument is a reference into the buffer, read only
    after realloc; when realloc moved the storage the reference dangles. *)
Definition push_back_own (a : arr) (i : nat) : option arr :=
  if i <? m_size a then
    if gf (S (m_size a)) =? gf (m_size a) then
      match m_arr a with
      | Some b => match rd b i with
                  | Some x => with_buf (Some b) (S (m_size a)) (fun b => wr b (m_size a) x)
                  | None => None end
      | None => None end
    else None
  else None.
(** lines 273-282 *)
Definition pop_back (a : arr) : option arr :=
  match m_arr a with
  | None => None
  | Some b =>
      if 0 <? m_size a then
        option_map (fun p => {| m_arr := p; m_size := m_size a - 1 |})
                   (realloc (Some b) (m_size a) (m_size a - 1))
      else Some (clear a)
  end.
(** lines 309-319 *)
Definition resize (a : arr) (n : nat) (c : A) : option arr :=
  if 0 <? n then
    match realloc (m_arr a) (m_size a) n with
    | Some p => if m_size a <? n
                then with_buf p n (fun b => fill b (m_size a) (n - m_size a) c)
                else Some {| m_arr := p; m_size := n |}
    | None => None
    end
  else Some (clear a).

(** lines 345-357: erase of one element at offset [d]. *)
Definition erase (a : arr) (d : nat) : option arr :=
  if d <? m_size a then
    let s := m_size a - 1 - d in
    let n := m_size a - 1 in
    if 0 <? n then
      match m_arr a with
      | None => None
      | Some b =>
          match (if s =? 0 then Some b else copy b (d + 1) d s) with
          | Some b' => option_map (fun p => {| m_arr := p; m_size := n |}) (realloc (Some b') (S n) n)
          | None => None
          end
      end
    else Some (clear a)
  else None.
(** lines 358-372: erase of the range [d, e). Note the source [d+1]. *)
Definition erase_range (a : arr) (d e : nat) : option arr :=
  if (d <=? e) && (e <=? m_size a) then
    let s := m_size a - e in
    let n := e - d in
    let m := m_size a - n in
    if 0 <? m then
      match m_arr a with
      | None => None
      | Some b =>
          match (if s =? 0 then Some b else copy b (d + 1) d s) with
          | Some b' => option_map (fun p => {| m_arr := p; m_size := m |}) (realloc (Some b') (m + n) m)
          | None => None
          end
      end
    else Some (clear a)
  else None.

(** lines 373-393: insert of one element at offset [d]. *)
Definition insert_one (a : arr) (d : nat) (x : A) : option arr :=
  if d <=? m_size a then
    match m_arr a with
    | None => with_buf (Some (alloc 1)) 1 (fun b => wr b 0 (Some x))
    | Some _ =>
        let s := m_size a - d in
        match realloc (m_arr a) (m_size a) (S (m_size a)) with
        | Some p => with_buf p (S (m_size a)) (fun b =>
            match (if s =? 0 then Some b else copy b d (d + 1) s) with
            | Some b' => wr b' d (Some x)
            | None => None end)
        | None => None
        end
    end
  else None.
(** lines 394-415 (n copies: [xs = repeat x n]) and 416-440 (a range [xs]
    outside of the array). *)
Definition insert_range (a : arr) (d : nat) (xs : list A) : option arr :=
  if d <=? m_size a then
    let n := length xs in
    if 0 <? n then
      match m_arr a with
      | None => with_buf (Some (alloc n)) n (fun b => copy_in b 0 (map Some xs))
      | Some _ =>
          let s := m_size a - d in
          match realloc (m_arr a) (m_size a) (m_size a + n) with
          | Some p => with_buf p (m_size a + n) (fun b =>
              match (if s =? 0 then Some b else copy b d (d + n) s) with
              | Some b' => copy_in b' d (map Some xs)
              | None => None end)
          | None => None
          end
      end
    else Some a
  else None.
(** lines 441-466: replace [d, e) by [xs]. *)
Definition replace (a : arr) (d e : nat) (xs : list A) : option arr :=
  if (d <=? e) && (e <=? m_size a) then
    let n := length xs in
    match m_arr a with
    | None => with_buf (Some (alloc n)) n (fun b => copy_in b 0 (map Some xs))
    | Some b =>
        let q := e - d in
        let s := m_size a - e in
        if n =? q then with_buf (Some b) (m_size a) (fun b => copy_in b d (map Some xs))
        else
          let m := m_size a + n - q in
          match realloc (Some b) (m_size a) m with
          | Some p => with_buf p m (fun b =>
              match (if s =? 0 then Some b else copy b (d + q) (d + n) s) with
              | Some b' => copy_in b' d (map Some xs)
              | None => None end)
          | None => None
          end
    end
  else None.
(** lines 467-471 *)
Definition assign (a : arr) (xs : list A) : option arr := replace a 0 (m_size a) xs.

(** What a user sees: size() and the elements through operator []. *)
Definition content (a : arr) : list (option cell) := map (get a) (seq 0 (m_size a)).

(** Histories of the calls proved to behave as a sequence. *)
Inductive op :=
| OPush (x : A) | OPushOwn (i : nat) | OPop | OResize (n : nat) (c : A) | OClear
| OSet (i : nat) (x : A)
| OInsert (d : nat) (x : A) | OInsertN (d n : nat) (x : A) | OInsertR (d : nat) (xs : list A)
| OErase (d : nat) | OAssign (xs : list A).

Definition step (a : arr) (o : op) : option arr :=
  match o with
  | OPush x => push_back a x
  | OPushOwn i => push_back_own a i
  | OPop => pop_back a
  | OResize n c => resize a n c
  | OClear => Some (clear a)
  | OSet i x => set a i x
  | OInsert d x => insert_one a d x
  | OInsertN d n x => insert_range a d (repeat x n)
  | OInsertR d xs => insert_range a d xs
  | OErase d => erase a d
  | OAssign xs => assign a xs
  end.

Fixpoint run (a : arr) (ops : list op) : option arr :=
  match ops with
  | [] => Some a
  | o :: r => match step a o with Some a' => run a' r | None => None end
  end.
End Array.
Arguments arr : clear implicits.
Arguments op : clear implicits.
