(** Sparse rows as vectors, matrices of the factors, and what the factorization with two
    thresholds has to fulfil. *)
From Coq Require Import List Arith Bool Reals.
From Verif Require Import Ilu_Model.
Import ListNotations.
Open Scope R_scope.

(** sums and entries *)
Fixpoint rs (n : nat) (f : nat -> R) : R := match n with O => 0 | S m => rs m f + f m end.
Fixpoint coef (r : row) (i : nat) : R := match r with [] => 0 | e :: r' => (if Nat.eqb (fst e) i then snd e else 0) + coef r' i end.
(** the product of a sparse row and a vector *)
Fixpoint rowvec (r : row) (x : nat -> R) : R := match r with [] => 0 | e :: r' => snd e * x (fst e) + rowvec r' x end.
Definition matvec (A : mat) (x : nat -> R) (k : nat) : R := rowvec (nth k A []) x.
Definition entry (A : mat) (k i : nat) : R := coef (nth k A []) i.
(** a square matrix with distinct columns in every row *)
Definition wf_mat (A : mat) : Prop := forall r, In r A -> NoDup (map fst r) /\ forall e, In e r -> (fst e < length A)%nat.

Definition nof := Lurow [] 1 1 [] [].
Definition nthf (fs : list lurow) k := nth k fs nof.
(** the triangular matrices of the factors *)
Definition Lmat (fs : list lurow) (k p : nat) : R :=
  if Nat.ltb p k then coef (lo (nthf fs k)) p else if Nat.eqb p k then / ld (nthf fs k) else 0.
Definition Umat (fs : list lurow) (p i : nat) : R :=
  if Nat.ltb p i then coef (up (nthf fs p)) i else if Nat.eqb p i then / ud (nthf fs p) else 0.
(** lower entries left of the diagonal, upper entries right of it, diagonals invertible *)
Definition triangular (fs : list lurow) : Prop :=
  forall k, (k < length fs)%nat -> let f := nthf fs k in
    (forall e, In e (lo f) -> (fst e < k)%nat) /\ (forall e, In e (up f) -> (k < fst e < length fs)%nat) /\ ld f <> 0 /\ ud f <> 0.
(** what row p of the factors contributes for the multiplier c: the small entries of U only if
    c is large, nothing if c is tiny *)
Definition eff (tau tau2 : R) (f : lurow) (c : R) (i : nat) : R :=
  if Rlt_dec tau2 (Rabs c) then coef (up f) i + (if Rlt_dec tau (Rabs c) then coef (up2 f) i else 0) else 0.
(** what is kept of a value in the first and in the second part of the factors *)
Definition stored (tau tau2 v : R) : R := if Rlt_dec (Rmax (tau2 * tau2) tau) (Rabs v) then v else 0.
Definition stored2 (tau tau2 v : R) : R := if Rle_dec (Rabs v) tau then if Rlt_dec (Rmax (tau2 * tau2) tau2) (Rabs v) then v else 0 else 0.
(** the diagonal of U, a tiny one is replaced by one of size 1e-12 and the same sign *)
Definition pivot (v : R) : R := if Rle_dec (Rabs v) (/ 10 ^ 12) then if Rlt_dec v 0 then - / 10 ^ 12 else / 10 ^ 12 else v.
(** The factorization: every row of B is a combination of the earlier rows of U with
    multipliers c and a rest c, which are stored as far as the thresholds admit. *)
Definition ilu2_row (tau tau2 : R) (n k : nat) (b : nat -> R) (fs : list lurow) (f : lurow) (c : nat -> R) : Prop :=
  (forall i, (i < n)%nat -> b i =
     if Nat.ltb i k then rs i (fun p => c p * eff tau tau2 (nthf fs p) (c p) i) + c i / ud (nthf fs i)
     else rs k (fun p => c p * eff tau tau2 (nthf fs p) (c p) i) + c i) /\
  (forall i, coef (lo f) i = if Nat.ltb i k then stored tau tau2 (c i) else 0) /\
  (forall i, coef (up f) i = if Nat.ltb k i then stored tau tau2 (c i * ld f) else 0) /\
  (forall i, coef (up2 f) i = if Nat.ltb k i then stored2 tau tau2 (c i * ld f) else 0) /\
  ud f = / pivot (c k * ld f) /\
  (exists m, ld f = / Rmax m tau2 /\ (forall i, (k <= i < n)%nat -> Rabs (c i) <= m) /\ (exists i, (k <= i < n)%nat /\ Rabs (c i) = m)).
