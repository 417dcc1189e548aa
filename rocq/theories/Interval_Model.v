(** Model of interval<IndType,ValType> (Source/Headers/container.hpp lines 839-1012).

    [parray] is a pointer displaced so that [parray[row]] is the cell of index
    [row].  It is modelled by the allocated block [mem] ([None]: NULL or no block)
    and the displacement [poff]: [parray[row]] is cell [row + poff] of the block.
    Accesses outside of the block, failed assertions, a [delete []] of a pointer
    that is not the start of the block and [new] of a negative size give [None].
    Indices are unbounded integers: IndType wrap-around is not modelled. *)
From Coq Require Import List Bool ZArith.
From Verif Require Import Util.
Import ListNotations.
Local Open Scope Z_scope.

Section Interval.
Context {A : Type}.

(** A cell is [None] until it is written. *)
Notation cell := (option A).
Record itv := { mem : option (list cell); poff : Z; ibeg : Z; iend : Z }.

(** block[i] and block[i] = v *)
Definition brd (b : list cell) (i : Z) : option cell :=
  if i <? 0 then None else nth_error b (Z.to_nat i).
Definition bwr (b : list cell) (i : Z) (v : cell) : option (list cell) :=
  if (i <? 0) || (Z.of_nat (length b) <=? i) then None else Some (lset b (Z.to_nat i) v).
(** new ValType[n] *)
Definition alloc (n : Z) : option (list cell) :=
  if n <? 0 then None else Some (repeat None (Z.to_nat n)).
(** std::fill over [n] cells from index [i] *)
Fixpoint bfill (b : list cell) (i : Z) (n : nat) (v : cell) : option (list cell) :=
  match n with
  | O => Some b
  | S n' => match bwr b i v with Some b' => bfill b' (i + 1) n' v | None => None end
  end.
(** std::copy of [n] cells from [src] at [i] to [dst] at [j] *)
Fixpoint bcopy (src dst : list cell) (i j : Z) (n : nat) : option (list cell) :=
  match n with
  | O => Some dst
  | S n' => match brd src i with
            | Some v => match bwr dst j v with Some d => bcopy src d (i + 1) (j + 1) n' | None => None end
            | None => None end
  end.

(** lines 1010-1011 *)
Definition empty (a : itv) : bool := ibeg a =? iend a.
Definition size (a : itv) : Z := iend a - ibeg a.
(** lines 849-854 *)
Definition clear (a : itv) : option itv :=
  if empty a then Some {| mem := None; poff := 0; ibeg := ibeg a; iend := ibeg a |}
  else match mem a with
       | Some _ => if ibeg a + poff a =? 0
                   then Some {| mem := None; poff := 0; ibeg := ibeg a; iend := ibeg a |} else None
       | None => None
       end.
(** lines 871-882 *)
Definition itv0 (b : Z) : itv := {| mem := None; poff := 0; ibeg := b; iend := b |}.
(** lines 883-899 *)
Definition make (b e : Z) (c : A) : option itv :=
  if b =? e then Some {| mem := None; poff := 0; ibeg := b; iend := e |}
  else match alloc (e - b) with
       | Some m => match bfill m (b + (- b)) (Z.to_nat (e - b)) (Some c) with
                   | Some m' => Some {| mem := Some m'; poff := - b; ibeg := b; iend := e |}
                   | None => None end
       | None => None end.
(** the body shared by lines 900-917 and 922-942; [other] is not the target *)
Definition copy_of (other : itv) : option itv :=
  let b := ibeg other in let e := iend other in
  if b =? e then Some {| mem := None; poff := 0; ibeg := b; iend := e |}
  else match mem other, alloc (e - b) with
       | Some src, Some m =>
           match bcopy src m (b + poff other) (b + - b) (Z.to_nat (e - b)) with
           | Some m' => Some {| mem := Some m'; poff := - b; ibeg := b; iend := e |}
           | None => None end
       | _, _ => None end.
Definition copy_ctor (other : itv) : option itv := copy_of other.
Definition assign_op (a other : itv) : option itv :=
  match clear a with Some _ => copy_of other | None => None end.
(** lines 943-966 *)
Definition get (a : itv) (row : Z) : option cell :=
  if (ibeg a <=? row) && (row <? iend a)
  then match mem a with Some m => brd m (row + poff a) | None => None end
  else None.
Definition set (a : itv) (row : Z) (v : A) : option itv :=
  if (ibeg a <=? row) && (row <? iend a)
  then match mem a with
       | Some m => match bwr m (row + poff a) (Some v) with
                   | Some m' => Some {| mem := Some m'; poff := poff a; ibeg := ibeg a; iend := iend a |}
                   | None => None end
       | None => None end
  else None.
(** lines 998-1004 *)
Definition shift_interval (a : itv) (s : Z) : itv :=
  {| mem := mem a; poff := poff a + ibeg a - (ibeg a + s); ibeg := ibeg a + s; iend := iend a + s |}.
(** lines 967-971 *)
Definition set_interval_beg (a : itv) (b : Z) : itv := shift_interval a (b - ibeg a).
(** lines 972-996.  The fill argument is a reference: a value, or an element of
    the interval itself, which is read after [clear()] released the block. *)
Definition set_interval_end (a : itv) (e : Z) (c : A + Z) : option itv :=
  if e =? iend a then Some a
  else if ibeg a =? e then
    match clear a with
    | Some a' => Some {| mem := mem a'; poff := poff a'; ibeg := ibeg a'; iend := e |}
    | None => None end
  else
    match alloc (e - ibeg a) with
    | None => None
    | Some m0 =>
        let mend := Z.min e (iend a) in
        let copied :=
          if empty a then Some (a, m0)
          else match mem a with
               | None => None
               | Some src =>
                   match bcopy src m0 (ibeg a + poff a) (ibeg a + - ibeg a) (Z.to_nat (mend - ibeg a)), clear a with
                   | Some m1, Some a' => Some (a', m1)
                   | _, _ => None end
               end in
        match copied with
        | None => None
        | Some (a', m1) =>
            let fill := if mend <? e
                        then match (match c with inl v => Some (Some v) | inr i => get a' i end) with
                             | Some v => bfill m1 (mend + - ibeg a) (Z.to_nat (e - mend)) v
                             | None => None end
                        else Some m1 in
            match fill with
            | Some m2 => Some {| mem := Some m2; poff := - ibeg a; ibeg := ibeg a; iend := e |}
            | None => None end
        end
    end.

Inductive op := OClear | OBeg (b : Z) | OEnd (e : Z) (c : A) | OShift (s : Z) | OSet (i : Z) (v : A).
Definition step (a : itv) (o : op) : option itv :=
  match o with
  | OClear => clear a
  | OBeg b => Some (set_interval_beg a b)
  | OEnd e c => set_interval_end a e (inl c)
  | OShift s => Some (shift_interval a s)
  | OSet i v => set a i v
  end.
Fixpoint run (a : itv) (ops : list op) : option itv :=
  match ops with
  | [] => Some a
  | o :: r => match step a o with Some a' => run a' r | None => None end
  end.
(** begin() .. end() *)
Definition content (a : itv) : list (option cell) :=
  map (fun k => get a (ibeg a + Z.of_nat k)) (seq 0 (Z.to_nat (size a))).
End Interval.
Arguments itv : clear implicits.
Arguments op : clear implicits.
