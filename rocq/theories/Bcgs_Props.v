(** Properties of the Krylov method of the inner solvers (C106-C107). *)
From Coq Require Import List Arith Bool Lia Reals Lra.
From Verif Require Import Ilu_Model Ilu_Spec Ilu_Proofs Ilu2_Proofs Ilu_Props Bcgs_Model Bcgs_Spec Bcgs_Proofs.
Import ListNotations.
Open Scope R_scope.

Lemma converged_ok rtol atol r0 s : converged rtol atol r0 s = true <-> resid s < atol \/ resid s < rtol * r0.
Proof. unfold converged. rewrite orb_true_iff, !less_ok. reflexivity. Qed.

(** * C106 *)
(** Whatever the preconditioner does, whenever Solve returns, the residual it reports is that of
    the vector it returns, and it answers true exactly if that residual is below a tolerance. *)
Theorem C106_residual (A : mat) prec noise rtol atol divtol maxits fuel b x0 ok s :
  Bcgs_Model.solve (length A) A prec noise rtol atol divtol maxits fuel b x0 = Some (ok, s) ->
  resid s = norm (length A) (residual A b (sol s)) /\
  (ok = true <-> resid s < atol \/ resid s < rtol * norm (length A) (residual A b x0)).
Proof.
  unfold Bcgs_Model.solve. pose proof (start_good A b x0) as G. pose proof (proj2 G) as E0. change (sol (start (length A) A b x0)) with x0 in E0. cbv zeta. rewrite <- E0.
  set (s0 := start (length A) A b x0) in *. destruct (converged rtol atol (resid s0) s0) eqn:C.
  - intros [= <- <-]. split; [exact E0|]. rewrite <- converged_ok. split; auto.
  - destruct (loop _ _ _ _ _ _ _ _ _ _ _ s0) as [s1|] eqn:L; [|discriminate]. intros [= <- <-].
    destruct (loop_good A prec noise b rtol atol divtol maxits fuel (resid s0) 0 s0 s1 G eq_refl (Nat.le_0_l _) L) as ((_ & H) & _).
    split; [exact H|]. apply converged_ok.
Qed.
(** The number of iterations is at most one more than the limit *)
Theorem C106_iterations (A : mat) prec noise rtol atol divtol maxits fuel b x0 ok s :
  Bcgs_Model.solve (length A) A prec noise rtol atol divtol maxits fuel b x0 = Some (ok, s) -> (itn s <= S maxits)%nat.
Proof.
  unfold Bcgs_Model.solve. pose proof (start_good A b x0) as G. cbv zeta. set (s0 := start (length A) A b x0) in *. destruct (converged rtol atol (resid s0) s0).
  - intros [= <- <-]. cbn. lia.
  - destruct (loop _ _ _ _ _ _ _ _ _ _ _ s0) as [s1|] eqn:L; [|discriminate]. intros [= <- <-].
    apply (loop_good A prec noise b rtol atol divtol maxits fuel (resid s0) 0 s0 s1 G eq_refl (Nat.le_0_l _) L).
Qed.
(** If the initial vector is the solution and the absolute tolerance is zero, Solve answers false *)
Theorem C106_exact_start_refuted (A : mat) prec noise rtol atol divtol maxits fuel b x0 :
  (forall k, (k < length A)%nat -> matvec A x0 k = b k) -> atol <= 0 ->
  exists s, Bcgs_Model.solve (length A) A prec noise rtol atol divtol maxits (S fuel) b x0 = Some (false, s) /\ sol s = x0 /\ resid s = 0.
Proof.
  intros Ex T. pose proof (start_good A b x0) as (_ & E). change (sol (start (length A) A b x0)) with x0 in E.
  assert (Z : resid (start (length A) A b x0) = 0).
  { rewrite E. unfold norm. rewrite rs_0; [apply sqrt_0|]. intros k L. unfold residual. rewrite (Ex k L). ring. }
  exists (start (length A) A b x0). split; [|split; [reflexivity|exact Z]]. unfold Bcgs_Model.solve. cbv zeta.
  assert (C : converged rtol atol (resid (start (length A) A b x0)) (start (length A) A b x0) = false).
  { apply not_true_is_false. rewrite converged_ok, Z, Rmult_0_r. lra. }
  rewrite C. cbn [loop]. unfold iterate. unfold start at 1. cbn [rt]. change (sqrt (dot_from 0 (length A) (mat_vec (-1) A x0 1 b) (mat_vec (-1) A x0 1 b))) with (resid (start (length A) A b x0)).
  destruct (Req_EM_T (resid (start (length A) A b x0)) 0) as [_|X]; [|contradiction]. rewrite C. reflexivity.
Qed.

(** * C107 *)
(** With an exact preconditioner one iteration gives the exact solution *)
Theorem C107_exact (A : mat) prec noise rtol atol divtol maxits fuel b x0 : exact_inverse A prec ->
  let r := norm (length A) (residual A b x0) in
  / 10 ^ 50 <= r <= 10 ^ 100 -> atol <= r -> rtol <= 1 -> 0 < atol \/ 0 < rtol ->
  exists s, Bcgs_Model.solve (length A) A prec noise rtol atol divtol maxits (S fuel) b x0 = Some (true, s) /\
    itn s = 1%nat /\ resid s = 0 /\ forall k, (k < length A)%nat -> matvec A (sol s) k = b k.
Proof.
  intros Ex r B Ta Tr T. pose proof (start_good A b x0) as (_ & E). change (sol (start (length A) A b x0)) with x0 in E. fold r in E.
  destruct (exact_step A prec noise b x0 Ex) as (s & I & I1 & I2 & I3 & _); [rewrite E; exact B|].
  assert (P50 : 0 < / 10 ^ 50) by (apply Rinv_0_lt_compat, pow_lt; lra).
  exists s. split; [|split; [exact I1|split; [exact I2|exact I3]]]. unfold Bcgs_Model.solve. cbv zeta. rewrite E.
  assert (C : converged rtol atol r (start (length A) A b x0) = false).
  { apply not_true_is_false. rewrite converged_ok, E. assert (rtol * r <= 1 * r) by (apply Rmult_le_compat_r; lra). lra. }
  assert (C' : converged rtol atol r s = true).
  { apply converged_ok. rewrite I2. destruct T as [T|T]; [left; exact T|right; apply Rmult_lt_0_compat; lra]. }
  rewrite C. cbn [loop]. rewrite I. pose proof C' as C2. unfold converged in C2. rewrite <- (orb_assoc (less divtol (resid s))). rewrite C2, orb_true_r. cbn [orb]. rewrite C'. reflexivity.
Qed.
(** Every iteration is one of the method: the direction is the residual plus the multiple beta of
    the old direction less omega times its image; alpha makes the half-step residual orthogonal
    to the shadow residual; omega minimizes the residual of the second half (up to the constant
    1e-100 added to the denominator). *)
Theorem C107_step n (A : mat) prec noise s s' : iterate n A prec noise s = Next s' ->
  exists r0 y z, rt s = Some r0 /\ let sv := fun k => res s k - alpha s' * matvec A y k in
    y = prec (calls s) (dir s') /\ z = prec (S (calls s)) (fun k => res s k - alpha s' * dv s' k) /\
    (forall k, dv s' k = matvec A y k) /\
    (forall k, dir s' k = res s k + (rho s' / rho s * (alpha s / omega s)) * (dir s k - omega s * dv s k)) /\
    rho s' = rs n (fun k => r0 k * res s k) /\ omega s <> 0 /\
    rs n (fun k => r0 k * sv k) = 0 /\
    (forall k, res s' k = sv k - omega s' * matvec A z k) /\
    forall w, rs n (fun k => res s' k ^ 2) + / 10 ^ 100 * omega s' ^ 2 <= rs n (fun k => (sv k - w * matvec A z k) ^ 2) + / 10 ^ 100 * w ^ 2.
Proof. apply step_ok. Qed.
(** the limit of iterations is exceeded: one iteration with "maximum_iterations" = 0 *)
Theorem C107_limit_refuted (A : mat) prec noise rtol atol divtol fuel b x0 : exact_inverse A prec ->
  let r := norm (length A) (residual A b x0) in
  / 10 ^ 50 <= r <= 10 ^ 100 -> atol <= r -> rtol <= 1 ->
  exists ok s, Bcgs_Model.solve (length A) A prec noise rtol atol divtol 0 (S fuel) b x0 = Some (ok, s) /\ itn s = 1%nat.
Proof.
  intros Ex r B Ta Tr. pose proof (start_good A b x0) as (_ & E). change (sol (start (length A) A b x0)) with x0 in E. fold r in E.
  destruct (exact_step A prec noise b x0 Ex) as (s & I & I1 & _); [rewrite E; exact B|].
  assert (P50 : 0 < / 10 ^ 50) by (apply Rinv_0_lt_compat, pow_lt; lra).
  exists (converged rtol atol r s), s. split; [|exact I1]. unfold Bcgs_Model.solve. cbv zeta. rewrite E.
  assert (C : converged rtol atol r (start (length A) A b x0) = false).
  { apply not_true_is_false. rewrite converged_ok, E. assert (rtol * r <= 1 * r) by (apply Rmult_le_compat_r; lra). lra. }
  rewrite C. cbn [loop]. rewrite I. cbn [Nat.eqb]. rewrite orb_true_r. reflexivity.
Qed.
(** With both tolerances zero the method never ends once the solution was found: the shadow
    residual is perturbed for ever *)
Theorem C107_zero_tolerance_refuted (A : mat) prec noise rtol atol divtol maxits b x0 : exact_inverse A prec -> (0 < length A)%nat ->
  let r := norm (length A) (residual A b x0) in
  / 10 ^ 50 <= r <= 10 ^ 100 -> atol <= 0 -> rtol <= 0 -> 0 <= divtol -> (0 < maxits)%nat -> 0 < residual A b x0 0 -> (forall j, 0 <= noise j 0%nat) ->
  forall fuel, Bcgs_Model.solve (length A) A prec noise rtol atol divtol maxits fuel b x0 = None.
Proof.
  intros Ex L r B Ta Tr Td Tm Pos Nn fuel. pose proof (start_good A b x0) as (G & E). change (sol (start (length A) A b x0)) with x0 in E, G. fold r in E.
  destruct (exact_step A prec noise b x0 Ex) as (s & I & I1 & I2 & I3 & I4 & I5 & _); [rewrite E; exact B|].
  assert (P50 : 0 < / 10 ^ 50) by (apply Rinv_0_lt_compat, pow_lt; lra). assert (Pr : 0 < r) by lra.
  assert (M : rtol * r <= 0 * r) by (apply Rmult_le_compat_r; lra).
  unfold Bcgs_Model.solve. cbv zeta. rewrite E.
  assert (C : converged rtol atol r (start (length A) A b x0) = false) by (apply not_true_is_false; rewrite converged_ok, E; lra).
  rewrite C. destruct fuel as [|fuel]; [reflexivity|]. cbn [loop]. rewrite I.
  assert (C' : less divtol (resid s) || less (resid s) atol || less (resid s) (rtol * r) || (0 =? maxits)%nat = false).
  { rewrite I2. apply not_true_is_false. rewrite !orb_true_iff, !less_ok, Nat.eqb_eq. intros [[[X|X]|X]|X]; [lra|lra|lra|lia]. }
  rewrite C'.
  match goal with |- match ?l with _ => _ end = None => assert (X : l = None) end; [|rewrite X; reflexivity].
  apply (perturb_forever A prec noise rtol atol divtol maxits r 1 fuel s (fun k => res (start (length A) A b x0) k / resid (start (length A) A b x0))); auto.
  rewrite (G 0%nat L), E. apply Rdiv_lt_0_compat; assumption.
Qed.
(** inner_ilu2 with zero thresholds: the factors are exact (C105), one iteration solves the system *)
Theorem C107_ilu2 iters dl0 dr0 vl0 (A : mat) fs fs0 A' noise rtol atol divtol maxits fuel b x0 : wf_mat A -> iters <> 0%nat ->
  let B := scale_matrix (scaling A iters dl0 dr0) A in
  (forall k i, (k < length A)%nat -> entry B k i = 0 \/ eps < Rabs (entry B k i)) ->
  factor 0 0 vl0 B = Some fs0 -> (forall k, (k < length A)%nat -> Rabs (ud (nthf fs0 k)) < 10 ^ 12) ->
  initialize iters 0 0 dl0 dr0 vl0 A = Some (fs, A') ->
  let r := norm (length A) (residual A b x0) in
  / 10 ^ 50 <= r <= 10 ^ 100 -> atol <= r -> rtol <= 1 -> 0 < atol \/ 0 < rtol ->
  exists s, Bcgs_Model.solve (length A) A' (fun _ => Ilu_Model.solve fs) noise rtol atol divtol maxits (S fuel) b x0 = Some (true, s) /\
    itn s = 1%nat /\ forall k, (k < length A)%nat -> matvec A (sol s) k = b k.
Proof.
  intros WF N B H1 H2 H3 H4 r R1 R2 R3 R4. rewrite (C103_matrix_restored _ _ _ _ _ _ _ _ _ N H4).
  assert (Ex : exact_inverse A (fun _ => Ilu_Model.solve fs)) by (intros j x k L; eapply C105_exact; eassumption).
  destruct (C107_exact A _ noise rtol atol divtol maxits fuel b x0 Ex R1 R2 R3 R4) as (s & E & E1 & _ & E2). exists s. auto.
Qed.
(** The hypotheses hold for the matrix (1 1; 1 -1), b = (3, 0), x0 = 0 *)
Definition hb : nat -> R := fun k => match k with O => 3 | _ => 0 end.
Lemma hb_norm : norm 2 (residual hadamard hb (fun _ => 0)) = 3.
Proof.
  unfold norm. replace (rs 2 _) with (3 * 3) by (unfold residual, matvec; cbn; ring). apply sqrt_square. lra.
Qed.
Lemma norm_range : / 10 ^ 50 <= 3 <= 10 ^ 100.
Proof.
  split; [|apply Rle_trans with (10 ^ 1); [lra|apply Rle_pow; [lra|lia]]].
  apply Rle_trans with (/ 1); [apply Rinv_le_contravar; [lra|apply pow_R1_Rle; lra]|lra].
Qed.
Example C107_nonvacuous : exists fs A' s, initialize 1 0 0 zeros zeros (fun _ => 7) hadamard = Some (fs, A') /\
  Bcgs_Model.solve 2 A' (fun _ => Ilu_Model.solve fs) (fun _ _ => 0) (/ 10 ^ 6) 0 (10 ^ 40) 1500 1 hb (fun _ => 0) = Some (true, s) /\
  itn s = 1%nat /\ matvec hadamard (sol s) 0 = 3 /\ matvec hadamard (sol s) 1 = 0.
Proof.
  destruct C105_nonvacuous as (Big & fs0 & fs & A' & F & Ud & I & _). pose proof norm_range as NR.
  assert (P6 : 0 < / 10 ^ 6) by (apply Rinv_0_lt_compat, pow_lt; lra).
  destruct (C107_ilu2 1 zeros zeros (fun _ => 7) hadamard fs fs0 A' (fun _ _ => 0) (/ 10 ^ 6) 0 (10 ^ 40) 1500 0 hb (fun _ => 0)) as (s & E & E1 & E2); auto.
  - exact hadamard_wf.
  - change (length hadamard) with 2%nat. rewrite hb_norm. exact NR.
  - change (length hadamard) with 2%nat. rewrite hb_norm. lra.
  - apply Rle_trans with (/ 1); [apply Rinv_le_contravar; [lra|apply pow_R1_Rle; lra]|lra].
  - exists fs, A', s. split; [exact I|]. split; [exact E|]. split; [exact E1|]. split; apply E2; cbn; lia.
Qed.
(** a preconditioner that answers zero stops the method with the initial vector and answer false *)
Example C106_nonvacuous : exists s, Bcgs_Model.solve 2 hadamard (fun _ _ _ => 0) (fun _ _ => 0) (/ 10 ^ 6) 0 (10 ^ 40) 1500 1 hb (fun _ => 0) = Some (false, s) /\ resid s = 3.
Proof.
  pose proof (proj2 (start_good hadamard hb (fun _ => 0))) as E. change (length hadamard) with 2%nat in E. change (sol (start 2 hadamard hb (fun _ => 0))) with (fun _ : nat => 0) in E. rewrite hb_norm in E.
  exists (start 2 hadamard hb (fun _ => 0)). split; [|exact E].
  assert (P6 : / 10 ^ 6 < 1) by (apply Rlt_le_trans with (/ 1); [apply Rinv_lt_contravar; [rewrite Rmult_1_l; apply pow_lt; lra|apply Rlt_pow_R1; [lra|lia]]|lra]).
  assert (C : converged (/ 10 ^ 6) 0 3 (start 2 hadamard hb (fun _ => 0)) = false) by (apply not_true_is_false; rewrite converged_ok, E; lra).
  unfold Bcgs_Model.solve. cbv zeta. rewrite E, C. cbn [loop].
  assert (I : iterate 2 hadamard (fun _ _ _ => 0) (fun _ _ => 0) (start 2 hadamard hb (fun _ => 0)) = Stop).
  { unfold iterate. 
    assert (ER : rt (start 2 hadamard hb (fun _ => 0)) = Some (fun k => res (start 2 hadamard hb (fun _ => 0)) k / 3)).
    { unfold start at 1. cbn [rt]. change (sqrt _) with (resid (start 2 hadamard hb (fun _ => 0))). rewrite E. destruct (Req_EM_T 3 0); [lra|reflexivity]. }
    rewrite ER. clear ER. cbv zeta. set (r0 := fun k => res (start 2 hadamard hb (fun _ => 0)) k / 3).
    destruct (Rlt_dec (Rabs (dot_from 0 2 r0 (res (start 2 hadamard hb (fun _ => 0))))) (/ 10 ^ 50)) as [Sm|_].
    { exfalso. replace (dot_from 0 2 r0 (res (start 2 hadamard hb (fun _ => 0)))) with 3 in Sm.
      - rewrite Rabs_right in Sm by lra. destruct norm_range. assert (/ 10 ^ 50 <= 1) by (apply Rle_trans with (/ 1); [apply Rinv_le_contravar; [lra|apply pow_R1_Rle; lra]|lra]). lra.
      - rewrite dot_ok. unfold r0, start, residual. cbn [res rs]. rewrite !mat_vec_ok. unfold matvec. cbn. field. }
    destruct (div0 _ (omega (start 2 hadamard hb (fun _ => 0)))) as [be|]; [|reflexivity].
    destruct (Rlt_dec _ _) as [_|_]; [reflexivity|].
    rewrite (dot_ok 0 2 r0 (mat_vec _ _ _ _ _)), rs_0; [|intros k _; rewrite mat_vec_ok; replace (matvec hadamard _ k) with 0; [ring|destruct k as [|[|[|k]]]; unfold matvec; cbn; ring]].
    unfold div0. destruct (Req_EM_T (0 + 0) 0) as [_|X]; [reflexivity|lra]. }
  rewrite I, C. reflexivity.
Qed.
Example C107_step_nonvacuous : exists fs s', iterate 2 hadamard (fun _ => Ilu_Model.solve fs) (fun _ _ => 0) (start 2 hadamard hb (fun _ => 0)) = Next s' /\ alpha s' = 1.
Proof.
  destruct C105_nonvacuous as (_ & fs0 & fs & A' & _ & _ & _ & Ex).
  destruct (exact_step hadamard (fun _ => Ilu_Model.solve fs) (fun _ _ => 0) hb (fun _ => 0)) as (s & I & _ & _ & _ & _ & _ & Ea); [intros j x k L; apply Ex, L| |exists fs, s; auto].
  rewrite (proj2 (start_good hadamard hb (fun _ => 0))). change (length hadamard) with 2%nat. change (sol (start 2 hadamard hb (fun _ => 0))) with (fun _ : nat => 0). rewrite hb_norm. apply norm_range.
Qed.
Example C107_zero_tolerance_nonvacuous : exists fs, forall fuel,
  Bcgs_Model.solve 2 hadamard (fun _ => Ilu_Model.solve fs) (fun _ _ => 0) 0 0 (10 ^ 40) 1500 fuel hb (fun _ => 0) = None.
Proof.
  destruct C105_nonvacuous as (_ & fs0 & fs & A' & _ & _ & _ & Ex). pose proof norm_range as NR. exists fs.
  apply (C107_zero_tolerance_refuted hadamard (fun _ => Ilu_Model.solve fs)).
  - intros j x k L. apply Ex, L.
  - cbn. lia.
  - change (length hadamard) with 2%nat. rewrite hb_norm. exact NR.
  - lra.
  - lra.
  - apply pow_le. lra.
  - lia.
  - unfold residual, matvec. cbn. lra.
  - intros; lra.
Qed.

Print Assumptions C106_residual.
Print Assumptions C106_iterations.
Print Assumptions C106_exact_start_refuted.
Print Assumptions C107_exact.
Print Assumptions C107_step.
Print Assumptions C107_limit_refuted.
Print Assumptions C107_zero_tolerance_refuted.
Print Assumptions C107_ilu2.
