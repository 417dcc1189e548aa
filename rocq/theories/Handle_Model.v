(** Model of handles and element type masks.

    Sources:
    - Source/Headers/inmost_data.h lines 29-57 (element types),
      lines 78-101 (handles);
    - Source/Mesh/iterator.cpp lines 12-36 (GetNextType, GetPrevType);
    - Source/Headers/inmost_common.h lines 196-217 (the two integer layouts).

    Machine integers are [Z] with explicit wrap-around. *)
From Coq Require Import ZArith List Bool.
Import ListNotations.
Open Scope Z_scope.

(** Unsigned [w]-bit value of an integer expression. *)
Definition wrapU (w x : Z) : Z := x mod 2 ^ w.

(** Signed (two's complement) [w]-bit value of an integer expression: the
    conversion unsigned -> signed performed by [return] in lines 91-92. *)
Definition wrapS (w x : Z) : Z :=
  let u := x mod 2 ^ w in if u <? 2 ^ (w - 1) then u else u - 2 ^ w.

(** ** Element types (inmost_data.h 29-36); [ElementType] is an unsigned char. *)
Definition NONE := 0x00.
Definition NODE := 0x01.
Definition EDGE := 0x02.
Definition FACE := 0x04.
Definition CELL := 0x08.
Definition ESET := 0x10.
Definition MESH := 0x20.

(** inmost_data.h 38 *)
Definition OneType (t : Z) : bool := (0 <? t) && (Z.land t (t - 1) =? 0).
(** inmost_data.h 40-43; results are truncated to one byte. *)
Definition LastElementType : Z := wrapU 8 (Z.shiftl MESH 1).
Definition NextElementType (t : Z) : Z := wrapU 8 (Z.shiftl t 1).
Definition PrevElementType (t : Z) : Z := Z.shiftr t 1.
Definition ElementTypeFromDim (dim : Z) : Z := wrapU 8 (Z.shiftl 1 dim).

(** inmost_data.h 45-57: three masks, each deciding one bit of the result. *)
Definition ElementNum (t : Z) : Z :=
  let bit m := if Z.land t m =? 0 then 0 else 1 in
  Z.lor (Z.lor (bit 0xAAAAAAAA) (Z.shiftl (bit 0xF0F0F0F0) 2))
        (Z.shiftl (bit 0xCCCCCCCC) 1).

(** ** Handles (inmost_data.h 78-101); [w] is the width of
    INMOST_DATA_ENUM_TYPE: 32, or 64 in the wide layout. *)
Definition handle_etype_bits : Z := 3.
Definition handle_etype_shift (w : Z) : Z := w - handle_etype_bits.
Definition handle_id_mask (w : Z) : Z := wrapU w (Z.shiftl 1 (handle_etype_shift w) - 1).

Definition InvalidHandle : Z := 0.
(** line 91: [(h & handle_id_mask)-1] is unsigned, the result is signed. *)
Definition GetHandleID (w h : Z) : Z := wrapS w (Z.land h (handle_id_mask w) - 1).
(** line 92 *)
Definition GetHandleElementNum (w h : Z) : Z := wrapS w (Z.shiftr h (handle_etype_shift w)).
(** line 93 *)
Definition GetHandleElementType (w h : Z) : Z :=
  wrapU 8 (Z.shiftl 1 (GetHandleElementNum w h)).
(** line 100. The shift of a signed [int] by 29 for set/mesh numbers 4 and 5 is
    taken modulo 2^w (what C++14 and every compiler does). *)
Definition ComposeHandleNum (w num id : Z) : Z :=
  if id =? -1 then InvalidHandle
  else wrapU w (Z.shiftl num (handle_etype_shift w) + (1 + id)).
(** line 94 *)
Definition ComposeHandle (w etype id : Z) : Z :=
  if id =? -1 then InvalidHandle
  else wrapU w (Z.shiftl (ElementNum etype) (handle_etype_shift w) + (1 + id)).
(** line 101 *)
Definition isValidHandle (h : Z) : bool := negb (h =? 0).

(** ** GetNextType / GetPrevType (iterator.cpp 12-36).  The [for] loop is run
    with fuel; [None] means the loop did not stop within the fuel. *)
Fixpoint next_loop (fuel : nat) (i types : Z) : option Z :=
  match fuel with
  | O => None
  | S f =>
      if i <=? MESH then
        if Z.land types i =? 0 then next_loop f (wrapU 8 (Z.shiftl i 1)) types
        else Some i
      else Some LastElementType
  end.
Definition GetNextType (fuel : nat) (current types : Z) : option Z :=
  match next_loop fuel (wrapU 8 (Z.shiftl current 1)) types with
  | None => None
  | Some ret => Some (if MESH <? ret then NONE else ret)
  end.

Fixpoint prev_loop (fuel : nat) (i types : Z) : option Z :=
  match fuel with
  | O => None
  | S f =>
      if NONE <? i then
        if Z.land types i =? 0 then prev_loop f (Z.shiftr i 1) types
        else Some i
      else Some LastElementType
  end.
Definition GetPrevType (fuel : nat) (current types : Z) : option Z :=
  match prev_loop fuel (Z.shiftr current 1) types with
  | None => None
  | Some ret => Some (if MESH <? ret then NONE else ret)
  end.

(** A caller's loop: start from [c], call GetNextType (GetPrevType) until NONE. *)
Fixpoint walk_next (steps : nat) (c types : Z) : option (list Z) :=
  match steps with
  | O => None
  | S s =>
      match GetNextType 9 c types with
      | None => None
      | Some t => if t =? NONE then Some []
                  else option_map (cons t) (walk_next s t types)
      end
  end.
Fixpoint walk_prev (steps : nat) (c types : Z) : option (list Z) :=
  match steps with
  | O => None
  | S s =>
      match GetPrevType 9 c types with
      | None => None
      | Some t => if t =? NONE then Some []
                  else option_map (cons t) (walk_prev s t types)
      end
  end.
