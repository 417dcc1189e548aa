(** Products with sparse matrices, moving rows, the Residual class.
    Source: Source/Solver/sparse.cpp 325-340 (HessianRow::RowVec), 583-589 (Row::RowVec), 932-983
    (Matrix::MatVec, Matrix::MatVecTranspose), 1018-1031 (MoveRows), 1571-1593 (HessianMatrix::MatVec);
    Source/Autodiff/residual.cpp 9-93; Source/Headers/inmost_sparse.h 72-130, 288-293, 490-516.
    Real numbers are exact. An access outside of the interval of a vector or a matrix, or outside of
    the entries of a row, is None. Not modelled: threads, the communicator, the sum over processes in
    Norm. *)
From Coq Require Import List Bool Arith Reals.
From Verif Require Import Util Row_Model.
Import ListNotations.
Local Open Scope R_scope.

Notation rrow := (list (nat * R)).
(** Sparse::Vector, Sparse::Matrix: first index and the data, inmost_sparse.h 72-130, 451-490 *)
Record vec := Vec { vbeg : nat; vals : list R }.
Record mat := Mat { mbeg : nat; mrows : list rrow }.

(** interval::operator[] *)
Definition pos (b i : nat) : option nat := if (i <? b)%nat then None else Some (i - b)%nat.
Definition vget (v : vec) (i : nat) : option R :=
  match pos (vbeg v) i with Some k => nth_error (vals v) k | None => None end.
Definition vset (v : vec) (i : nat) (x : R) : option vec :=
  match pos (vbeg v) i with
  | Some k => if (k <? length (vals v))%nat then Some (Vec (vbeg v) (lset (vals v) k x)) else None
  | None => None
  end.

(** Row::RowVec, sparse.cpp 583-589 *)
Fixpoint row_vec_from (ret : R) (r : rrow) (x : vec) : option R :=
  match r with
  | [] => Some ret
  | (c, a) :: r' => match vget x c with Some xc => row_vec_from (ret + xc * a) r' x | None => None end
  end.
Definition row_vec (r : rrow) (x : vec) : option R := row_vec_from 0 r x.

(** sparse.cpp 936-941, 964-969 *)
Definition prepare (m : mat) (out : vec) : vec :=
  match vals out with [] => Vec (mbeg m) (repeat 0 (length (mrows m))) | _ => out end.
(** Matrix::MatVec, sparse.cpp 945-953 *)
Fixpoint mv_loop (alpha : R) (x : vec) (beta : R) (ind : nat) (rs : list rrow) (out : vec) : option vec :=
  match rs with
  | [] => Some out
  | r :: rs' =>
      match vget out ind, row_vec r x with
      | Some o, Some p => match vset out ind (beta * o + alpha * p) with Some out' => mv_loop alpha x beta (S ind) rs' out' | None => None end
      | _, _ => None
      end
  end.
Definition mat_vec (m : mat) (alpha : R) (x : vec) (beta : R) (out : vec) : option vec :=
  mv_loop alpha x beta (mbeg m) (mrows m) (prepare m out).

(** Matrix::MatVecTranspose, sparse.cpp 973-985 *)
Fixpoint mvt_row (alpha : R) (x : vec) (ind : nat) (r : rrow) (out : vec) : option vec :=
  match r with
  | [] => Some out
  | (c, a) :: r' =>
      match vget out c, vget x ind with
      | Some o, Some xi => match vset out c (o + alpha * xi * a) with Some out' => mvt_row alpha x ind r' out' | None => None end
      | _, _ => None
      end
  end.
Fixpoint mvt_loop (alpha : R) (x : vec) (ind : nat) (rs : list rrow) (out : vec) : option vec :=
  match rs with
  | [] => Some out
  | r :: rs' => match mvt_row alpha x ind r out with Some out' => mvt_loop alpha x (S ind) rs' out' | None => None end
  end.
Definition mat_vec_transpose (m : mat) (alpha : R) (x : vec) (beta : R) (out : vec) : option vec :=
  let out := prepare m out in
  let out := Vec (vbeg out) (if Req_EM_T beta 0 then map (fun _ => 0) (vals out) else map (fun o => o * beta) (vals out)) in
  mvt_loop alpha x (mbeg m) (mrows m) out.

(** HessianRow::RowVec, sparse.cpp 325-340: the values of the first n entries times beta *)
Fixpoint scale_first (n : nat) (beta : R) (r : rrow) : option rrow :=
  match n, r with
  | O, _ => Some r
  | S _, [] => None
  | S n', (c, a) :: r' => match scale_first n' beta r' with Some r'' => Some ((c, a * beta) :: r'') | None => None end
  end.
Definition add_at (r : rrow) (c : nat) (x : R) : rrow := upd_at 0 Nat.eqb r c (fun v => v + x).
Definition safe (r : rrow) (c : nat) : R := get_safe 0 Nat.eqb r c.
Fixpoint hess_loop (n : nat) (alpha : R) (h : list (hindex * R)) (u : rrow) (j : rrow) : option rrow :=
  match n with
  | O => Some j
  | S n' =>
      match h with
      | [] => None
      | ((a, b), v) :: h' =>
          hess_loop n' alpha h' u
            (if (a =? b)%nat then add_at j a (alpha * safe u a * v)
             else add_at (add_at j a (alpha * safe u b * v)) b (alpha * safe u a * v))
      end
  end.
Definition hess_row_vec (h : list (hindex * R)) (alpha : R) (u : rrow) (beta : R) (j : rrow) : option rrow :=
  match scale_first (length u) beta j with
  | Some j' => hess_loop (length u) alpha h u j'
  | None => None
  end.

(** Matrix::MoveRows, HessianMatrix::MoveRows, sparse.cpp 1018-1031; MoveRow copies the entries,
    inmost_sparse.h 293 *)
Fixpoint move_loop {A} (b from to size : nat) (d : list A) : option (list A) :=
  match size with
  | O => Some d
  | S n =>
      match pos b (to + n), pos b (from + n) with
      | Some i, Some j =>
          match nth_error d i with
          | Some r => if (j <? length d)%nat then move_loop b from to n (lset d j r) else None
          | None => None
          end
      | _, _ => None
      end
  end.
Definition move_rows {A} (b from to size : nat) (d : list A) : option (list A) :=
  if (0 <? size)%nat && negb (to =? from)%nat then move_loop b from to size d else Some d.

(** Residual: the interval of residual and jacobian starts at [rbeg]; [hbeg], [hess]: the hessian *)
Record resid := Resid { rbeg : nat; jac : list rrow; rhs : list R; hbeg : nat; hess : list (list (hindex * R)) }.
(** which norm: ENUMUNDEF or p *)
Inductive norm_kind := Inf | Pow (p : nat).
(** residual.cpp 68-82 *)
Definition norm_inf (r : rrow) : R := fold_left (fun n e => if Rlt_dec n (Rabs (snd e)) then Rabs (snd e) else n) r 0.
Definition pow_sum (p : nat) (r : rrow) : R := fold_left (fun n e => n + Rabs (snd e) ^ p) r 0.
(** pow(x,1.0/p) for x >= 0 and p > 0 *)
Definition root (x : R) (p : nat) : R := if Req_EM_T x 0 then 0 else Rpower x (/ INR p).
(** 83-85: 1/norm, None if the norm is 0; for p = 0 every term of the sum is 1 and 1.0/p is infinite,
    so the norm of more than one element is infinite *)
Definition factor (k : norm_kind) (r : rrow) : option R :=
  let inv n := if Req_EM_T n 0 then None else Some (1 / n) in
  match k with
  | Inf => inv (norm_inf r)
  | Pow O => match r with [] => None | [_] => Some 1 | _ => Some 0 end
  | Pow p => inv (root (pow_sum p r) p)
  end.
Definition times {K} (s : R) (r : list (K * R)) : list (K * R) := map (fun e => (fst e, snd e * s)) r.
(** 64-93, one equation; the hessian is used if it is not empty *)
Definition rescale_one (kind : norm_kind) (k : nat) (x : resid) : option resid :=
  match pos (rbeg x) k with
  | None => None
  | Some i =>
      match nth_error (jac x) i, nth_error (rhs x) i with
      | Some r, Some b =>
          match factor kind r with
          | None => Some x
          | Some s =>
              let jac' := lset (jac x) i (times s r) in
              let rhs' := lset (rhs x) i (b * s) in
              match hess x with
              | [] => Some (Resid (rbeg x) jac' rhs' (hbeg x) [])
              | _ =>
                  match pos (hbeg x) k with
                  | None => None
                  | Some h =>
                      match nth_error (hess x) h with
                      | None => None
                      | Some hr => Some (Resid (rbeg x) jac' rhs' (hbeg x) (lset (hess x) h (times s hr)))
                      end
                  end
              end
          end
      | _, _ => None
      end
  end.
Fixpoint for_each (f : nat -> resid -> option resid) (n k : nat) (x : resid) : option resid :=
  match n with
  | O => Some x
  | S n' => match f k x with Some x' => for_each f n' (S k) x' | None => None end
  end.
Definition rescale (kind : norm_kind) (x : resid) : option resid := for_each (rescale_one kind) (length (rhs x)) (rbeg x) x.
(** Residual::Clear, 27-40 *)
Definition clear_one (k : nat) (x : resid) : option resid :=
  match pos (rbeg x) k with
  | None => None
  | Some i =>
      if (i <? length (rhs x))%nat then
        let rhs' := lset (rhs x) i 0 in
        let jac' := match jac x with [] => Some [] | _ => if (i <? length (jac x))%nat then Some (lset (jac x) i []) else None end in
        let hess' := match hess x with
                     | [] => Some []
                     | _ => match pos (hbeg x) k with
                            | Some h => if (h <? length (hess x))%nat then Some (lset (hess x) h []) else None
                            | None => None
                            end
                     end in
        match jac', hess' with Some j, Some h => Some (Resid (rbeg x) j rhs' (hbeg x) h) | _, _ => None end
      else None
  end.
Definition clear (x : resid) : option resid := for_each clear_one (length (rhs x)) (rbeg x) x.
(** Residual::Norm on one process, 41-54 *)
Definition norm (x : resid) : R := sqrt (fold_left (fun s v => s + v * v) (rhs x) 0).
