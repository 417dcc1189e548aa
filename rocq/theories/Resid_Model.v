(** Model of class Residual (Source/Autodiff/residual.cpp 18-93): Clear, Norm and Rescale.  Numbers are
    real numbers (no rounding, no overflow); the only infinite number is the one that arises from the
    division by p = 0. *)
From Coq Require Import List Reals Bool.
From Verif Require Import Resid_Spec.
Import ListNotations.
Open Scope R_scope.

(** numbers of the program: finite or plus infinity *)
Inductive num := Fin (r : R) | Inf.
(** pow(n,inf) of the C library for n >= 0 *)
Definition pow_inf (n : R) : num := if Rlt_dec n 1 then Fin 0 else if Req_EM_T n 1 then Fin 1 else Inf.
(** pow(n,1.0/p) for n >= 0 *)
Definition root (n : R) (p : nat) : num :=
  match p with
  | O => pow_inf n
  | S _ => if Req_EM_T n 0 then Fin 0 else Fin (Rpower n (1 / INR p))
  end.
(** residual.cpp 73-75 *)
Definition max_abs (row : list (nat * R)) : R :=
  fold_left (fun norm a => if Rlt_dec norm (Rabs (snd a)) then Rabs (snd a) else norm) row 0.
(** residual.cpp 79-80 *)
Definition sum_pow (p : nat) (row : list (nat * R)) : R :=
  fold_left (fun norm a => norm + Rabs (snd a) ^ p) row 0.
(** residual.cpp 70-82 *)
Definition row_norm (k : norm_kind) (row : list (nat * R)) : num :=
  match k with Infinite => Fin (max_abs row) | Power p => root (sum_pow p row) p end.
(** residual.cpp 85: 1.0/norm *)
Definition inverse (n : num) : R := match n with Fin r => 1 / r | Inf => 0 end.
Definition scale {A : Type} (c : R) (l : list (A * R)) : list (A * R) := map (fun a => (fst a, snd a * c)) l.
(** residual.cpp 83-92 *)
Definition rescale_eqn (k : norm_kind) (e : eqn) : eqn :=
  let norm := row_norm k (jac e) in
  if match norm with Fin r => if Req_EM_T r 0 then false else true | Inf => true end then
    let c := inverse norm in
    Eqn (res e * c) (scale c (jac e)) (match hes e with None => None | Some h => Some (scale c h) end)
  else e.
(** Rescale, residual.cpp 63-93: equations are independent *)
Definition rescale (k : norm_kind) (es : list eqn) : list eqn := map (rescale_eqn k) es.
(** residual.cpp 44-48: sum on one process *)
Definition local_sum (es : list eqn) : R := fold_left (fun ret e => ret + res e * res e) es 0.
(** Norm, residual.cpp 42-54: MPI_Allreduce adds the sums of processes *)
Definition norm (procs : list (list eqn)) : R := sqrt (fold_left Rplus (map local_sum procs) 0).
(** Clear, residual.cpp 30-41 *)
Definition clear_eqn (e : eqn) : eqn := Eqn 0 [] (match hes e with None => None | Some _ => Some [] end).
Definition clear (es : list eqn) : list eqn := map clear_eqn es.
