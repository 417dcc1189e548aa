(** Model of io_converter (Source/IO/io.hpp): integers and floating point
    numbers moved between machines of different byte order, width and format.
    A byte is a [Z] in 0..255, a stream is the list of the bytes not yet read,
    the buffer [temp] is a list of 255 bytes.
    Not modelled: the detection of the local formats (326-371; they are fields
    of the converter here), stream error flags, sizes above 254 with
    middle-endian order (the pair loop would touch temp[255]). *)
From Coq Require Import ZArith List Bool Reals.
From Verif Require Import Util.
Import ListNotations.
Open Scope Z_scope.

(** io.hpp:84 iByteOrder *)
Inductive iorder := LittleEndian | BigEndian | MiddleEndian | iUnknown.
(** io.hpp:85 fByteOrder *)
Inductive forder := IEEE | IBM | VAX | CRAY | fUnknown.

Definition iorder_eqb (a b : iorder) : bool :=
  match a, b with
  | LittleEndian, LittleEndian | BigEndian, BigEndian
  | MiddleEndian, MiddleEndian | iUnknown, iUnknown => true
  | _, _ => false
  end.

Definition forder_eqb (a b : forder) : bool :=
  match a, b with
  | IEEE, IEEE | IBM, IBM | VAX, VAX | CRAY, CRAY | fUnknown, fUnknown => true
  | _, _ => false
  end.

(** io.hpp:87-91 the fields *)
Record conv := MkConv {
  local_iorder : iorder; source_iorder : iorder;
  local_forder : forder; source_forder : forder;
  local_ibytes : nat; local_fbytes : nat;
  source_ibytes : nat; source_fbytes : nat;
  temp : list Z }.

Definition set_temp (c : conv) (t : list Z) : conv :=
  MkConv (local_iorder c) (source_iorder c) (local_forder c) (source_forder c)
         (local_ibytes c) (local_fbytes c) (source_ibytes c) (source_fbytes c) t.

(** io.hpp:96-98 the swap of two bytes of temp *)
Definition swap_at (t : list Z) (i j : nat) : list Z :=
  lset (lset t i (nth j t 0)) j (nth i t 0).

(** io.hpp:92-100 flip_bytes *)
Definition flip_bytes (t : list Z) (size : nat) : list Z :=
  fold_left (fun t i => swap_at t i (size - 1 - i)) (seq 0 (size / 2)) t.

(** io.hpp:136-141 and 147-152: swap of neighbours, k = 0, 2, 4, ... < size *)
Definition pair_swap (t : list Z) (size : nat) : list Z :=
  fold_left (fun t k => swap_at t (2 * k) (2 * k + 1)) (seq 0 ((size + 1) / 2)) t.

(** order & (BigEndian | LittleEndian) *)
Definition big_or_little (o : iorder) : bool :=
  match o with BigEndian | LittleEndian => true | _ => false end.

(** io.hpp:128-155 convert_endianess *)
Definition convert_endianess (t : list Z) (size : nat) (input output : iorder)
  : list Z :=
  if iorder_eqb input output then t
  else if big_or_little input && big_or_little output then flip_bytes t size
  else if iorder_eqb input MiddleEndian then
    let t := pair_swap t size in
    if iorder_eqb output LittleEndian then flip_bytes t size else t
  else if iorder_eqb output MiddleEndian then
    let t := if iorder_eqb input LittleEndian then flip_bytes t size else t in
    pair_swap t size
  else t.

(** io.hpp:393-405 write_iByteOrder *)
Definition iorder_code (o : iorder) : Z :=
  match o with LittleEndian => 1 | BigEndian => 2 | MiddleEndian => 3
             | iUnknown => 0 end.
(** io.hpp:411-424 write_fByteOrder *)
Definition forder_code (o : forder) : Z :=
  match o with IEEE => 1 | IBM => 2 | VAX => 3 | CRAY => 4 | fUnknown => 0 end.
(** io.hpp:430-442 read_iByteOrder *)
Definition iorder_of_code (c : Z) : iorder :=
  if c =? 1 then LittleEndian else if c =? 2 then BigEndian
  else if c =? 3 then MiddleEndian else iUnknown.
(** io.hpp:448-461 read_fByteOrder *)
Definition forder_of_code (c : Z) : forder :=
  if c =? 1 then IEEE else if c =? 2 then IBM else if c =? 3 then VAX
  else if c =? 4 then CRAY else fUnknown.

(** The header of a file: write_iByteOrder, write_iByteSize, write_fByteOrder,
    write_fByteSize (io.hpp:393-429) in the order used by IO/mesh_pmf_file.cpp *)
Definition write_header (c : conv) : list Z :=
  [iorder_code (local_iorder c); Z.of_nat (local_ibytes c) mod 256;
   forder_code (local_forder c); Z.of_nat (local_fbytes c) mod 256].

(** io.hpp:430-466 read_iByteOrder, read_iByteSize, read_fByteOrder,
    read_fByteSize; a missing byte leaves a variable uninitialised (None) *)
Definition read_header (c : conv) (s : list Z) : option (conv * list Z) :=
  match s with
  | b0 :: b1 :: b2 :: b3 :: s' =>
    Some (MkConv (local_iorder c) (iorder_of_code b0)
                 (local_forder c) (forder_of_code b2)
                 (local_ibytes c) (local_fbytes c)
                 (Z.to_nat b1) (Z.to_nat b3) (temp c), s')
  | _ => None
  end.

(** source.read(temp, n): the bytes available overwrite the front of temp *)
Definition read_temp (t : list Z) (n : nat) (s : list Z) : list Z :=
  let got := firstn n s in got ++ skipn (length got) t.

(** io.hpp:473-478 write_iValue: the memory of the value as it is *)
Definition write_iValue (value : list Z) : list Z := value.

(** io.hpp:488 (502): ascending copy of [m] bytes *)
Definition copy_up (bytes t : list Z) (m : nat) : list Z :=
  fold_left (fun b i => lset b i (nth i t 0)) (seq 0 m) bytes.

(** io.hpp:490 (504): [unsigned char i] counts down from source-1 while
    i >= source-min, compared as integers; [i] wraps from 0 to 255.
    None: access outside of temp or of the value (or no end) *)
Fixpoint copy_down (fuel : nat) (i : Z) (src mn loc : Z) (bytes t : list Z)
  : option (list Z) :=
  match fuel with
  | O => None
  | S fuel' =>
    if src - mn <=? i then
      let k := i + loc - src in
      if (i <? 255) && (0 <=? k) && (k <? loc)
      then copy_down fuel' ((i - 1) mod 256) src mn loc
             (lset bytes (Z.to_nat k) (nth (Z.to_nat i) t 0)) t
      else None
    else Some bytes
  end.

(** io.hpp:480-492 read_iValue with [loc] = local_ibytes, and 494-506
    read_iValue_uint64_t with [loc] = 8; the result is the memory of the value *)
Definition read_int (loc : nat) (c : conv) (s : list Z)
  : option (list Z * conv * list Z) :=
  let bytes := repeat 0 loc in
  let t := read_temp (temp c) (source_ibytes c) s in
  let t := convert_endianess t (source_ibytes c) (source_iorder c) (local_iorder c) in
  let m := Nat.min loc (source_ibytes c) in
  let r :=
    match local_iorder c with
    | LittleEndian => Some (copy_up bytes t m)
    | _ => copy_down 300 ((Z.of_nat (source_ibytes c) - 1) mod 256)
             (Z.of_nat (source_ibytes c)) (Z.of_nat m) (Z.of_nat loc) bytes t
    end in
  match r with
  | Some b => Some (b, set_temp c t, skipn (source_ibytes c) s)
  | None => None
  end.

Definition read_iValue (c : conv) (s : list Z) := read_int (local_ibytes c) c s.
Definition read_iValue_uint64_t (c : conv) (s : list Z) := read_int 8 c s.

(** [n] calls of read_iValue in a row *)
Fixpoint read_iValues (n : nat) (c : conv) (s : list Z)
  : option (list (list Z) * list Z) :=
  match n with
  | O => Some ([], s)
  | S n' =>
    match read_iValue c s with
    | Some (v, c', s') =>
      match read_iValues n' c' s' with
      | Some (vs, s'') => Some (v :: vs, s'')
      | None => None
      end
    | None => None
    end
  end.

(** ** Floating point numbers; arithmetic is exact *)

Definition byteZ (x : Z) : Z := x mod 256.

(** conversion of an [int] result to 32 bits (b << 24 on an int) *)
Definition int32 (x : Z) : Z := (x + 2 ^ 31) mod 2 ^ 32 - 2 ^ 31.

(** [fb k] is fbytes[k]; pow(2, z) of an integer is exact *)
Definition sgn (s : Z) : R := if s =? 0 then 1%R else (-1)%R.

(** io.hpp:160-185 convert_bytes_to_float, size 4, IEEE *)
Definition ieee4 (fb : nat -> Z) : R :=
  let b1 := fb 3%nat in let b2 := fb 2%nat in
  let b3 := fb 1%nat in let b4 := fb 0%nat in
  let S := Z.shiftr (Z.land b1 0x80) 7 in
  let E := Z.shiftl (Z.land b1 0x7f) 1 + Z.shiftr (Z.land b2 0x80) 7 in
  let F := Z.shiftl (Z.land b2 0x7f) 16 + Z.shiftl b3 8 + b4 in
  let M := (IZR F / 8388608)%R in
  if (0 <? E) && (E <? 255)
  then (sgn S * (1 + M) * powerRZ 2 (E - 127))%R
  else if (E =? 0) && negb (F =? 0)
  then (sgn S * M * powerRZ 2 (-126))%R
  else 0%R.

(** io.hpp:230: ( b5 << 24 ) + ( b6 << 16 ) + ( b7 << 8 ) + b8 is an [int],
    assigned to an [unsigned long] of [ulong] bits *)
Definition low_word (ulong : Z) (b5 b6 b7 b8 : Z) : Z :=
  (int32 (Z.shiftl b5 24) + Z.shiftl b6 16 + Z.shiftl b7 8 + b8) mod 2 ^ ulong.

(** io.hpp:218-248 convert_bytes_to_float, size 8, IEEE *)
Definition ieee8 (ulong : Z) (fb : nat -> Z) : R :=
  let b1 := fb 7%nat in let b2 := fb 6%nat in
  let b3 := fb 5%nat in let b4 := fb 4%nat in
  let b5 := fb 3%nat in let b6 := fb 2%nat in
  let b7 := fb 1%nat in let b8 := fb 0%nat in
  let S := Z.shiftr (Z.land b1 0x80) 7 in
  let E := Z.shiftl (Z.land b1 0x7f) 4 + Z.shiftr (Z.land b2 0xf0) 4 in
  let L1 := Z.shiftl (Z.land b2 0x0f) 16 + Z.shiftl b3 8 + b4 in
  let L2 := low_word ulong b5 b6 b7 b8 in
  let M := (IZR L1 / 1048576 + IZR L2 / 4503599627370496)%R in
  let Mzero := (L1 =? 0) && (L2 =? 0) in
  if (0 <? E) && (E <? 2047)
  then (sgn S * (1 + M) * powerRZ 2 (E - 1023))%R
  else if (E =? 0) && negb Mzero
  then (sgn S * M * powerRZ 2 1022)%R
  else 0%R.

(** A number on a machine of unknown float format, as frexp and ldexp present
    it (io.hpp:523-532): sign, m = ldexp(frexp(|v|),53) and exponent of frexp;
    m = 0 for zero *)
Record fnum := FNum { fneg : bool; fmant : Z; fexp : Z }.

(** io.hpp:521-541 write_fValue, unknown format, 8 bytes and more *)
Definition write_f8 (v : fnum) : list Z :=
  let exp := if fmant v =? 0 then 0 else fexp v + 1022 in
  let mant := fmant v in
  [byteZ mant; byteZ (Z.shiftr mant 8); byteZ (Z.shiftr mant 16);
   byteZ (Z.shiftr mant 24); byteZ (Z.shiftr mant 32); byteZ (Z.shiftr mant 40);
   byteZ (Z.lor (Z.land (Z.shiftl exp 4) 0xF0) (Z.land (Z.shiftr mant 48) 0x0F));
   byteZ (Z.lor (if fneg v then 0x80 else 0) (Z.shiftr exp 4))].

(** io.hpp:544-561 write_fValue, unknown format, 4 bytes (mantissa scaled to 24) *)
Definition write_f4 (v : fnum) : list Z :=
  let exp := if fmant v =? 0 then 0 else fexp v + 126 in
  let mant := fmant v in
  [byteZ mant; byteZ (Z.shiftr mant 8);
   byteZ (Z.lor (Z.land (Z.shiftl exp 7) 0x80) (Z.land (Z.shiftr mant 16) 0x7F));
   byteZ (Z.lor (if fneg v then 0x80 else 0) (Z.shiftr exp 1))].

(** io.hpp:101-116 extract_double, [tmp] is the 64 bit integer in temp *)
Definition extract_double (tmp : Z) : R :=
  let f := if Z.land tmp 0x7FFFFFFFFFFFFFFF =? 0 then 0%R
           else (IZR (Z.lor (Z.land tmp 0x000FFFFFFFFFFFFF) 0x0010000000000000)
                 * powerRZ 2 (Z.shiftr (Z.land tmp 0x7FF0000000000000) 52 - 1022 - 53))%R in
  if Z.land tmp 0x8000000000000000 =? 0 then f else (- f)%R.

(** io.hpp:117-127 extract_float *)
Definition extract_float (tmp : Z) : R :=
  let f := if Z.land tmp 0x7FFFFFFF =? 0 then 0%R
           else (IZR (Z.lor (Z.land tmp 0x007FFFFF) 0x00800000)
                 * powerRZ 2 (Z.shiftr (Z.land tmp 0x7F800000) 23 - 126 - 24))%R in
  if Z.land tmp 0x80000000 =? 0 then f else (- f)%R.

(** Machine semantics, not part of the library: the integer an unsigned load
    of the bytes [b] gives on a machine of each byte order *)
Fixpoint le_value (b : list Z) : Z :=
  match b with [] => 0 | x :: t => x + 256 * le_value t end.
Fixpoint swap_pairs (b : list Z) : list Z :=
  match b with x :: y :: t => y :: x :: swap_pairs t | _ => b end.
Definition load (o : iorder) (b : list Z) : Z :=
  match o with
  | LittleEndian | iUnknown => le_value b
  | BigEndian => le_value (rev b)
  | MiddleEndian => le_value (rev (swap_pairs b))
  end.

(** io.hpp:595-615 read_fValue, source of unknown format: [read_fbytes] bytes are
    converted from little-endian and taken as an integer. None: no value read *)
Definition read_f_unknown (c : conv) (s : list Z) : option (R * list Z) :=
  let n := Nat.min 8 (source_fbytes c) in
  let t := read_temp (temp c) n s in
  let t := convert_endianess t n LittleEndian (local_iorder c) in
  let tmp := load (local_iorder c) (firstn n t) in
  if (n =? 8)%nat then Some (extract_double tmp, skipn n s)
  else if (source_fbytes c =? 4)%nat then Some (extract_float tmp, skipn n s)
  else None.

(** io.hpp:580-592 read_fValue, IEEE source of a width different from the local
    one, of 4 or 8 bytes: conversion to little-endian, then by formula *)
Definition read_f_ieee (ulong : Z) (c : conv) (s : list Z) : option (R * list Z) :=
  let n := source_fbytes c in
  let t := read_temp (temp c) n s in
  let t := convert_endianess t n (source_iorder c) LittleEndian in
  if (n =? 4)%nat then Some (ieee4 (fun k => nth k t 0), skipn n s)
  else if (n =? 8)%nat then Some (ieee8 ulong (fun k => nth k t 0), skipn n s)
  else None.
