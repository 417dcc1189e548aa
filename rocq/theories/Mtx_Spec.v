(** Specification of matrix files, independent of the reader and the writer. *)
From Coq Require Import List Arith NArith ZArith Bool Reals.
From Flocq Require Import Core.Core.
From Verif Require Import Row_Model Mtx_Model.
Import ListNotations.
Open Scope nat_scope.

(** double precision numbers *)
Definition is_double (x : R) : Prop := generic_format radix2 (FLT_exp (-1074) 53) x /\ (Rabs x < bpow radix2 1024)%R.
(** numbers of at most 16 decimal digits *)
Definition digits16 (x : R) : Prop := exists m e : Z, (Z.abs m < 10 ^ 16)%Z /\ x = (IZR m * bpow (Build_radix 10 eq_refl) e)%R.
Definition is_value (v : value) : Prop := match v with Fin x => is_double x | _ => True end.
(** What becomes of a number in a file: it is rounded to 16 decimal digits, then to double; what is
    not a number becomes zero *)
Definition reread (v : value) : value :=
  match v with
  | Fin x => Fin (round radix2 (FLT_exp (-1074) 53) ZnearestE (round (Build_radix 10 eq_refl) (FLX_exp 16) ZnearestE x))
  | _ => Fin 0
  end.
Definition entry := (nat * nat * value)%type.
(** the stored elements of a matrix: row, column, value *)
Fixpoint elements (b : nat) (rs : list (row value)) : list entry :=
  match rs with
  | [] => []
  | rw :: rs' => map (fun e => (b, fst e, snd e)) rw ++ elements (S b) rs'
  end.
(** the last value given for a place *)
Definition last_at (es : list entry) (r c : nat) : option value :=
  option_map snd (find (fun e => (fst (fst e) =? r) && (snd (fst e) =? c)) (rev es)).
(** the value of column [c] in a row *)
Definition cell (rw : row value) (c : nat) : option value := option_map snd (find (fun e => fst e =? c) rw).
Definition one_line (t : text) : Prop := ~ In 10 t.
Definition short (t : text) (k : nat) : Prop := (N.of_nat (k + length t) <= 16383)%N.
(** sizes are below 2^32 *)
Definition small (m : matrix) : Prop :=
  (N.of_nat (first m + length (rows m)) < 2 ^ 32)%N /\
  Forall (fun rw => Forall (fun e => (N.of_nat (S (fst e)) < 2 ^ 32)%N /\ is_value (snd e)) rw) (rows m).
Definition good_annot (annot : nat -> text) (m : matrix) : Prop :=
  forall r, first m <= r < first m + length (rows m) -> one_line (annot r) /\ short (annot r) 2.
Definition reread_row (rw : row value) : row value := map (fun e => (fst e, reread (snd e))) rw.
Definition good_name (name : text) : Prop := one_line name /\ short name 9.
Definition distinct_columns (rs : list (row value)) : Prop := Forall (fun rw => NoDup (map fst rw)) rs.
