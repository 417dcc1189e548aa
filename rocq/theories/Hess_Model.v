(** Model of HessianMatrix::Save and Load (Source/Solver/sparse.cpp 1374-1425, 1455-1562) and HessianRow::operator []
    and make_index (Source/Headers/inmost_sparse.h 336-378).  A file is its header and the records of its
    lines; comments and the characters of numbers are not modelled, [rnd] is what printing with 15 digits
    after the point and reading make of a value. *)
From Coq Require Import List Arith Bool ZArith.
From Verif Require Import Hess_Spec.
Import ListNotations.

Notation row := (list entry).
(** rows from the index [m_beg] on *)
Record matrix := mkMatrix { m_beg : nat; m_rows : list row }.
Record line := mkLine { l_row : nat; l_i : nat; l_j : nat; l_val : Z }.
Record file := mkFile { f_size : nat; f_nonzero : nat; f_lines : list line }.

(** sparse.cpp 1485-1495; the number of the row starts with GetFirstIndex()+1 *)
Fixpoint lines (rnd : Z -> Z) (n : nat) (rows : list row) : list line :=
  match rows with
  | [] => []
  | r :: rest => map (fun e => mkLine n (fst (fst e) + 1) (snd (fst e) + 1) (rnd (snd e))) r ++ lines rnd (S n) rest
  end.
Definition nonzeros (m : matrix) : nat := list_sum (map (@length _) (m_rows m)).
(** sparse.cpp 1457, 1470-1480, 1524-1561: sizes are added and text is gathered in the order of processes *)
Definition save (rnd : Z -> Z) (procs : list matrix) : file :=
  mkFile (list_sum (map (fun m => length (m_rows m)) procs)) (list_sum (map nonzeros procs)) (flat_map (fun m => lines rnd (m_beg m + 1) (m_rows m)) procs).

(** inmost_sparse.h 336-342 *)
Definition make_index (a b : nat) : nat * nat := (if b <? a then b else a, if a <? b then b else a).
Definition idx_eqb (a b : nat * nat) : bool := Nat.eqb (fst a) (fst b) && Nat.eqb (snd a) (snd b).
(** inmost_sparse.h 372-378: operator [] followed by an assignment *)
Fixpoint assign (r : row) (i : nat * nat) (v : Z) : row :=
  match r with
  | [] => [(i, v)]
  | e :: rest => if idx_eqb (fst e) i then (i, v) :: rest else e :: assign rest i v
  end.
Fixpoint at_row (k : nat) (f : row -> row) (rows : list row) : list row :=
  match rows with
  | [] => []
  | r :: rest => match k with O => f r :: rest | S j => r :: at_row j f rest end
  end.
(** sparse.cpp 1414-1418; the row with the number zero wraps around and is out of the interval *)
Definition target (mbeg mend : nat) (l : line) : option nat :=
  if Nat.eqb (l_row l) 0 then None
  else let r := l_row l - 1 in if (mbeg <=? r) && (r <? mend) then Some (r - mbeg) else None.
Definition take (mbeg mend : nat) (rows : list row) (l : line) : list row :=
  match target mbeg mend l with
  | Some k => at_row k (fun x => assign x (make_index (l_i l - 1) (l_j l - 1)) (l_val l)) rows
  | None => rows
  end.
(** sparse.cpp 1404-1410: interval of rows if none is given *)
Definition default_beg (f : file) (rank size : nat) : nat := rank * (f_size f / size).
Definition default_end (f : file) (rank size mbeg : nat) : nat := if Nat.eqb rank (size - 1) then f_size f else mbeg + f_size f / size.
(** sparse.cpp 1374-1425 for a matrix without rows *)
Definition load_interval (f : file) (mbeg mend : nat) : matrix :=
  mkMatrix mbeg (fold_left (take mbeg mend) (f_lines f) (repeat [] (mend - mbeg))).
Definition load (f : file) (rank size : nat) : matrix :=
  let mbeg := default_beg f rank size in load_interval f mbeg (default_end f rank size mbeg).
