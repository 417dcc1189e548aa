(** Model of Source/Misc/base64.cpp (base64_encode, base64_decode).
    A byte is an [N] (below 256 where it matters); a string is a list of
    character codes. Not modelled: inputs of 2^31 characters or more (the
    decoder counts with a C [int]), and locales in which isalnum accepts
    characters other than the ASCII letters and digits. *)
From Coq Require Import Bool List NArith Ascii String.
Import ListNotations.
Open Scope N_scope.

(** base64.cpp:7-10 base64_chars *)
Definition base64_chars : list N :=
  map N_of_ascii (list_ascii_of_string
   "ABCDEFGHIJKLMNOPQRSTUVWXYZabcdefghijklmnopqrstuvwxyz0123456789+/").

(** '=' *)
Definition pad : N := 61.

(** isalnum in the C locale, used by base64.cpp:15 *)
Definition isalnum (c : N) : bool :=
  ((48 <=? c) && (c <=? 57)) || ((65 <=? c) && (c <=? 90))
  || ((97 <=? c) && (c <=? 122)).

(** base64.cpp:13-16 is_base64 *)
Definition is_base64 (c : N) : bool :=
  isalnum c || (c =? 43) || (c =? 47).

(** (BYTE) conversion *)
Definition byte (n : N) : N := n mod 256.

(** base64.cpp:31-34 (and 46-49): three bytes to four sextets *)
Definition sextets (c0 c1 c2 : N) : list N :=
  [ byte (N.shiftr (N.land c0 0xfc) 2);
    byte (N.shiftl (N.land c0 0x03) 4 + N.shiftr (N.land c1 0xf0) 4);
    byte (N.shiftl (N.land c1 0x0f) 2 + N.shiftr (N.land c2 0xc0) 6);
    byte (N.land c2 0x3f) ].

(** base64_chars[k]; reading past the table would be undefined, shown as 256,
    which is not a character *)
Definition char_at (k : N) : N := nth (N.to_nat k) base64_chars 256.

(** base64.cpp:41-56: the tail, [acc] are the i bytes waiting in char_array_3.
    Lines 43-44 pad with zero, 51-52 emit i+1 characters, 54-55 emit 3-i '='. *)
Definition enc_tail (acc : list N) : list N :=
  match acc with
  | [] => []
  | _ =>
    let i := List.length acc in
    let s := sextets (nth 0 acc 0) (nth 1 acc 0) (nth 2 acc 0) in
    map char_at (firstn (i + 1) s) ++ repeat pad (3 - i)
  end.

(** base64.cpp:26-39: main loop; [acc] = char_array_3[0..i) *)
Fixpoint enc_loop (acc buf : list N) : list N :=
  match buf with
  | [] => enc_tail acc
  | b :: rest =>
    let acc' := acc ++ [b] in
    if Nat.eqb (List.length acc') 3
    then map char_at (sextets (nth 0 acc' 0) (nth 1 acc' 0) (nth 2 acc' 0))
           ++ enc_loop [] rest
    else enc_loop acc' rest
  end.

(** base64.cpp:18-59 *)
Definition base64_encode (buf : list N) : list N := enc_loop [] buf.

(** std::string::find(char): position of the first occurrence, npos if absent;
    npos converted to BYTE is 255 (base64.cpp:76, 94) *)
Fixpoint find_from (c : N) (l : list N) (pos : N) : N :=
  match l with
  | [] => 255
  | h :: t => if h =? c then byte pos else find_from c t (pos + 1)
  end.
Definition find_char (c : N) : N := find_from c base64_chars 0.

(** base64.cpp:78-80 (and 96-98): four sextets to three bytes *)
Definition octets (c0 c1 c2 c3 : N) : list N :=
  [ byte (N.shiftl c0 2 + N.shiftr (N.land c1 0x30) 4);
    byte (N.shiftl (N.land c1 0xf) 4 + N.shiftr (N.land c2 0x3c) 2);
    byte (N.shiftl (N.land c2 0x3) 6 + c3) ].

(** base64.cpp:88-101: the tail, padding characters are the NUL character *)
Definition dec_tail (acc : list N) : list N :=
  match acc with
  | [] => []
  | _ =>
    let i := List.length acc in
    let f k := find_char (nth k acc 0) in
    firstn (i - 1) (octets (f 0%nat) (f 1%nat) (f 2%nat) (f 3%nat))
  end.

(** base64.cpp:70-86: main loop; stops at '=' or at a foreign character *)
Fixpoint dec_loop (acc s : list N) : list N :=
  match s with
  | [] => dec_tail acc
  | c :: rest =>
    if negb (c =? pad) && is_base64 c then
      let acc' := acc ++ [c] in
      if Nat.eqb (List.length acc') 4
      then let f k := find_char (nth k acc' 0) in
           octets (f 0%nat) (f 1%nat) (f 2%nat) (f 3%nat) ++ dec_loop [] rest
      else dec_loop acc' rest
    else dec_tail acc
  end.

(** base64.cpp:61-104 *)
Definition base64_decode (s : list N) : list N := dec_loop [] s.
