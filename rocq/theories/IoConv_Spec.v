(** What integers look like in the memory of a machine. *)
From Coq Require Import ZArith List Bool Lia.
From Verif Require Import IoConv_Model.
Import ListNotations.
Open Scope Z_scope.

(** The power of 256 to which byte [i] of an [n] byte integer belongs:
    little-endian: the lowest first; big-endian: the highest first;
    middle-endian (PDP): 16 bit words highest first, bytes in a word lowest first *)
Definition place (o : iorder) (n i : nat) : nat :=
  match o with
  | LittleEndian | iUnknown => i
  | BigEndian => n - 1 - i
  | MiddleEndian => n - 1 - (if Nat.even i then i + 1 else i - 1)
  end.

(** The memory of the integer [v] (two's complement when negative) *)
Definition mem (o : iorder) (n : nat) (v : Z) : list Z :=
  map (fun i => v / 256 ^ Z.of_nat (place o n i) mod 256) (seq 0 n).

(** Orders a machine can have, with an even number of bytes for the
    middle-endian one *)
Definition machine (o : iorder) (n : nat) : Prop :=
  match o with
  | LittleEndian | BigEndian => (1 <= n <= 254)%nat
  | MiddleEndian => (1 <= n <= 254)%nat /\ Nat.even n = true
  | iUnknown => False
  end.

(** ** Floating point: the IEEE 754 meaning of 32 and 64 bits, as formalised
    in Flocq (real value; 0 for infinities and NaN) *)
From Coq Require Import Reals.
From Flocq Require Import Core.Core IEEE754.Binary IEEE754.Bits.

Definition ieee_single (x : Z) : R := B2R 24 128 (b32_of_bits x).
Definition ieee_double (x : Z) : R := B2R 53 1024 (b64_of_bits x).

(** exponent and mantissa fields of a double, of a float *)
Definition exponent64 (x : Z) : Z := x / 2 ^ 52 mod 2 ^ 11.
Definition mantissa64 (x : Z) : Z := x mod 2 ^ 52.
