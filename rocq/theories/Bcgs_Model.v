(** Model of the stabilized biconjugate gradient method of the inner solvers: BCGS_solver::Solve,
    Source/Solver/solver_inner/solver_bcgsl.hpp 1338-1795.

    One process, one thread: Update and Integrate do nothing, all regions are [0,n).
    Numbers are real numbers; the result of a division by zero (infinite or not a number) is
    None. Every such value stops the iterations at the next test of the multiplier. The
    preconditioner is any function of the number of the call and of its argument, rand() is any
    sequence. PERTURBATE_RTILDE is defined (13). *)
From Coq Require Import List Arith Bool Reals.
Import ListNotations.
Open Scope R_scope.

Definition vec := nat -> R.
Definition matrix := list (list (nat * R)).
(** Sparse::Row::RowVec and Matrix::MatVec (sparse.cpp 932-954) *)
Definition row_vec (r : list (nat * R)) (x : vec) : R := fold_left (fun s e => s + snd e * x (fst e)) r 0.
Definition mat_vec (al : R) (A : matrix) (x : vec) (be : R) (out : vec) : vec :=
  fun k => be * out k + al * row_vec (nth k A []) x.
(** the loops over k with a sum, e.g. 1371-1372, 1478-1479; [s] is the start *)
Definition dot_from (s : R) (n : nat) (x y : vec) : R := fold_left (fun s k => s + x k * y k) (seq 0 n) s.
Definition div0 (a b : R) : option R := if Req_EM_T b 0 then None else Some (a / b).

(** SOL, r, r0 (None: not a number), p, v, rho, alpha, omega, last_it, last_resid, and the
    numbers of calls of the preconditioner and of perturbations *)
Record state := St { sol : vec; res : vec; rt : option vec; dir : vec; dv : vec;
  rho : R; alpha : R; omega : R; itn : nat; resid : R; calls : nat; perts : nat }.
(** Stop: halt is set and the loop is left by continue. p, v, rho may have been changed by then,
    they are not used any more. *)
Inductive outcome := Stop | Perturb (s : state) | Next (s : state).

Section M.
Variables (n : nat) (A : matrix) (prec : nat -> vec -> vec) (noise : nat -> vec).

(** 1418-1451 *)
Definition perturb (s : state) : state :=
  let r0 := match rt s with
    | None => None
    | Some r0 => let r1 := fun k => r0 k + noise (perts s) k in
                 let nrm := sqrt (dot_from 0 n r1 r1) in
                 if Req_EM_T nrm 0 then None else Some (fun k => r1 k / nrm)
    end in
  St (sol s) (res s) r0 (dir s) (dv s) (rho s) (alpha s) (omega s) (itn s) (resid s) (calls s) (S (perts s)).
(** 1466-1709 *)
Definition iterate (s : state) : outcome :=
  match rt s with
  | None => Stop
  | Some r0 =>
    let rho1 := dot_from 0 n r0 (res s) in
    if Rlt_dec (Rabs rho1) (/ 10 ^ 50) then Perturb (perturb s)
    else match div0 (1 / rho s * alpha s) (omega s) with
    | None => Stop
    | Some b =>
      let beta := b * rho1 in
      if Rlt_dec (10 ^ 100) (Rabs beta) then Stop
      else
        let p := fun k => res s k + beta * (dir s k - omega s * dv s k) in
        let y := prec (calls s) p in
        let v := mat_vec 1 A y 0 (dv s) in
        match div0 rho1 (dot_from 0 n r0 v) with
        | None => Stop
        | Some al =>
          if Rlt_dec (10 ^ 100) (Rabs al) then Stop
          else
            let sv := fun k => res s k - al * v k in
            let z := prec (S (calls s)) sv in
            let t := mat_vec 1 A z 0 (fun _ => 0) in
            let tempa := dot_from 0 n t sv in
            let tempb := dot_from (/ 10 ^ 100) n t t in
            let om := if Req_EM_T tempa 0 then 0 else tempa / tempb in
            if Rlt_dec (10 ^ 100) (Rabs om) then Stop
            else
              let r := fun k => sv k - om * t k in
              Next (St (fun k => sol s k + (al * y k + om * z k)) r (Some r0) p v rho1 al om (S (itn s))
                       (sqrt (dot_from 0 n r r)) (S (S (calls s))) (perts s))
        end
    end
  end.
Variables (rtol atol divtol : R) (maxits : nat).
(** 1718-1778; [i] counts the iterations, None: out of fuel *)
Definition less (a b : R) : bool := if Rlt_dec a b then true else false.
Fixpoint loop (fuel : nat) (resid0 : R) (i : nat) (s : state) : option state :=
  match fuel with
  | O => None
  | S fuel' =>
    match iterate s with
    | Stop => Some s
    | Perturb s' => loop fuel' resid0 i s'
    | Next s' =>
      if less divtol (resid s') || less (resid s') atol || less (resid s') (rtol * resid0) || Nat.eqb i maxits then Some s'
      else loop fuel' resid0 (S i) s'
    end
  end.
(** 1360-1382 *)
Definition start (b x0 : vec) : state :=
  let r := mat_vec (-1) A x0 1 b in
  let resid := sqrt (dot_from 0 n r r) in
  St x0 r (if Req_EM_T resid 0 then None else Some (fun k => r k / resid)) (fun _ => 0) (fun _ => 0) 1 1 1 0 resid 0 0.
Definition converged (resid0 : R) (s : state) : bool := less (resid s) atol || less (resid s) (rtol * resid0).
(** 1360-1795: the answer and the final state; SOL is [sol], GetResidual is [resid],
    GetIterations is [itn] *)
Definition solve (fuel : nat) (b x0 : vec) : option (bool * state) :=
  let s := start b x0 in
  let resid0 := resid s in
  if converged resid0 s then Some (true, s)
  else match loop fuel resid0 0 s with
       | None => None
       | Some s' => Some (converged resid0 s', s')
       end.
End M.
