(** Properties of the incomplete factorization with two thresholds (C103-C105). *)
From Coq Require Import List Arith Bool Lia Sorted Reals Lra.
From Verif Require Import Ilu_Model Ilu_Spec Ilu_Proofs Ilu2_Proofs.
Import ListNotations.
Open Scope R_scope.

(** The matrix (1 1; 1 -1) *)
Definition hadamard : mat := [[(0%nat, 1); (1%nat, 1)]; [(0%nat, 1); (1%nat, -1)]].
Lemma hadamard_wf : wf_mat hadamard.
Proof.
  intros r [<-|[<-|[]]]; (split; [cbn; repeat constructor; cbn; intuition discriminate|intros e [<-|[<-|[]]]; cbn; lia]).
Qed.

(** * C103 *)
(** With at least one iteration of rescaling the weights are positive whatever the vectors held
    before, and the matrix of the user is the same after the preconditioner was built. *)
Theorem C103_matrix_restored iters tau tau2 dl0 dr0 vl0 A fs A' : iters <> 0%nat ->
  initialize iters tau tau2 dl0 dr0 vl0 A = Some (fs, A') -> A' = A.
Proof.
  intros N. unfold initialize. destruct (factor tau tau2 vl0 _) as [fs0|]; [|discriminate]. intros [= _ <-]. apply unscale_scale, scaling_pos, N.
Qed.
Theorem C103_weights_positive iters dl0 dr0 A : iters <> 0%nat -> forall k, 0 < fst (scaling A iters dl0 dr0) k /\ 0 < snd (scaling A iters dl0 dr0) k.
Proof. apply scaling_pos. Qed.
(** The rows of the rescaled matrix have unit length *)
Theorem C103_unit_rows A iters dl0 dr0 k : iters <> 0%nat -> (k < length A)%nat -> let d := scaling A iters dl0 dr0 in
  eps <= rowvec (map (fun e => (fst e, snd e ^ 2)) (nth k A [])) (fun j => snd d j ^ 2) ->
  fold_right (fun e s => snd e ^ 2 + s) 0 (nth k (scale_matrix d A) []) = 1.
Proof. apply unit_rows. Qed.
(** Without iterations ("rescale_iterations" = 0) the weights of the columns stay zero: the matrix
    is multiplied by zero, and divided by zero afterwards. *)
Theorem C103_no_iterations_refuted A dl0 : (forall k, snd (scaling A 0 dl0 (fun _ => 0)) k = 0) /\
  forall k i, (k < length A)%nat -> entry (scale_matrix (scaling A 0 dl0 (fun _ => 0)) A) k i = 0.
Proof.
  assert (Z : forall k, snd (scaling A 0 dl0 (fun _ => 0)) k = 0) by (intros k; cbn; apply sqrt_0).
  split; [exact Z|]. intros k i L. rewrite scale_entry by exact L. rewrite Z. ring.
Qed.

(** * C104 *)
(** The factorization always succeeds: no assertion fails, no index is out of bounds, the loops
    end. With a positive second threshold the factors are triangular and invertible, their rows
    are sorted, and every row of the matrix (without entries of size up to eps) is the
    combination of the rows of the factors prescribed by the two thresholds. *)
Theorem C104_factorization tau tau2 vl0 B : wf_mat B -> 0 < tau2 ->
  exists fs, factor tau tau2 vl0 B = Some fs /\ length fs = length B /\ triangular fs /\
    forall k, (k < length B)%nat ->
      StronglySorted lt (map fst (lo (nthf fs k))) /\ StronglySorted lt (map fst (up (nthf fs k))) /\
      exists c, ilu2_row tau tau2 (length B) k
        (fun i => if Rlt_dec eps (Rabs (entry B k i)) then entry B k i else 0) fs (nthf fs k) c.
Proof.
  intros WF T. destruct (factor_ok tau tau2 vl0 B WF) as (fs & E & L & H). exists fs. split; [exact E|]. split; [exact L|]. split.
  - intros k Lk. rewrite L in *. destruct (H k Lk) as (((_ & G1) & _ & G3) & (_ & G4) & c & _ & _ & _ & _ & _ & m & Em & _). cbv zeta.
    split; [exact G4|]. split; [exact G1|]. split; [|exact G3]. rewrite Em. apply Rinv_neq_0_compat. pose proof (Rmax_r m tau2). lra.
  - intros k Lk. destruct (H k Lk) as (((G1 & _) & _) & (G4 & _) & c & C1 & C2). split; [exact G4|]. split; [exact G1|]. exists c. split; [|exact C2].
    intros i Li. rewrite <- C1 by exact Li. unfold big_entry, entry. symmetry. apply coef_big. apply (WF (nth k B [])), nth_In, Lk.
Qed.
(** It succeeds for any thresholds, and so does the building of the preconditioner *)
Theorem C104_total iters tau tau2 dl0 dr0 vl0 A : wf_mat A -> exists fs A', initialize iters tau tau2 dl0 dr0 vl0 A = Some (fs, A') /\ length fs = length A.
Proof.
  intros WF. unfold initialize. set (d := scaling A iters dl0 dr0).
  destruct (factor_ok tau tau2 vl0 (scale_matrix d A) (map_rows_wf _ A WF)) as (fs & E & L & _). rewrite E.
  eexists _, _. split; [reflexivity|]. unfold rescale. rewrite rescale_length, L. apply map_rows_length.
Qed.
Example C104_nonvacuous : exists fs, factor (/ 10) (/ 100) (fun _ => 7) hadamard = Some fs /\ length fs = 2%nat.
Proof. destruct (C104_factorization (/ 10) (/ 100) (fun _ => 7) hadamard hadamard_wf ltac:(lra)) as (fs & E & L & _). exists fs. auto. Qed.

(** * C105 *)
(** The solution with triangular factors is the solution of LUz = b *)
Theorem C105_solve fs b : triangular fs -> forall k, (k < length fs)%nat ->
  rs (length fs) (fun p => Lmat fs k p * rs (length fs) (fun i => Umat fs p i * solve fs b i)) = b k.
Proof. apply solve_ok. Qed.
(** The preconditioner is a linear map *)
Theorem C105_linear fs s t x y : forall i, solve fs (fun j => s * x j + t * y j) i = s * solve fs x i + t * solve fs y i.
Proof. apply solve_lin. intros i. reflexivity. Qed.
(** The preconditioner that was built is invertible for a positive second threshold *)
Theorem C105_invertible iters tau tau2 dl0 dr0 vl0 A fs A' : wf_mat A -> iters <> 0%nat -> 0 < tau2 ->
  initialize iters tau tau2 dl0 dr0 vl0 A = Some (fs, A') -> triangular fs.
Proof.
  intros WF N T. unfold initialize. set (d := scaling A iters dl0 dr0).
  destruct (C104_factorization tau tau2 vl0 (scale_matrix d A) (map_rows_wf _ A WF) T) as (fs0 & E & L & Tr & _). rewrite E. intros [= <- _].
  apply rescale_mats; [apply scaling_pos, N|exact Tr].
Qed.
(** Without thresholds the preconditioner solves the system exactly if no pivot had to be
    replaced and no nonzero entry is tiny after rescaling *)
Theorem C105_exact iters dl0 dr0 vl0 A fs fs0 A' b : wf_mat A -> iters <> 0%nat ->
  let B := scale_matrix (scaling A iters dl0 dr0) A in
  (forall k i, (k < length A)%nat -> entry B k i = 0 \/ eps < Rabs (entry B k i)) ->
  factor 0 0 vl0 B = Some fs0 -> (forall k, (k < length A)%nat -> Rabs (ud (nthf fs0 k)) < 10 ^ 12) ->
  initialize iters 0 0 dl0 dr0 vl0 A = Some (fs, A') ->
  forall k, (k < length A)%nat -> matvec A (solve fs b) k = b k.
Proof.
  intros WF N B Big F0 Ud. unfold initialize. set (d := scaling A iters dl0 dr0) in *. fold B. rewrite F0. intros [= <- _] k Lk.
  assert (P : forall k, 0 < fst d k /\ 0 < snd d k) by (apply scaling_pos, N).
  pose proof (map_rows_wf (fun k e => fst d k * snd e * snd d (fst e)) A WF) as WB. fold (scale_matrix d A) in WB. fold B in WB.
  assert (LB : length B = length A) by apply map_rows_length.
  destruct (factor_ok 0 0 vl0 B WB) as (fs' & E & L & H). rewrite F0 in E. injection E as <-. rewrite LB in *.
  destruct (exact_lu (length A) B fs0 L H Ud) as (T & LU). destruct (rescale_mats d fs0 P T) as (T' & M).
  assert (L' : length (rescale d fs0) = length A) by (unfold rescale; rewrite rescale_length; exact L).
  rewrite <- (solve_ok (rescale d fs0) b T' k) by (rewrite L'; exact Lk). rewrite L'. unfold matvec. rewrite (rowvec_coef _ _ (length A)) by (apply (WF (nth k A [])), nth_In, Lk).
  rewrite (rs_ext _ (fun p => Lmat (rescale d fs0) k p * _) (fun p => rs (length A) (fun i => Lmat (rescale d fs0) k p * (Umat (rescale d fs0) p i * solve (rescale d fs0) b i)))) by (intros p _; symmetry; apply rs_mul).
  rewrite rs_swap. apply rs_ext. intros i Li.
  rewrite (rs_ext _ (fun p => Lmat (rescale d fs0) k p * (Umat (rescale d fs0) p i * solve (rescale d fs0) b i)) (fun p => (solve (rescale d fs0) b i / fst d k / snd d i) * (Lmat fs0 k p * Umat fs0 p i))).
  - rewrite rs_mul, <- LU by assumption. unfold big_entry. rewrite coef_big by (apply (WB (nth k B [])), nth_In; rewrite LB; exact Lk). fold (entry B k i).
    replace (if Rlt_dec eps (Rabs (entry B k i)) then entry B k i else 0) with (entry B k i) by (destruct (Rlt_dec eps (Rabs (entry B k i))); [reflexivity|destruct (Big k i Lk); [assumption|contradiction]]).
    unfold B. rewrite scale_entry by exact Lk. fold (entry A k i). destruct (P k) as (P1 & _). destruct (P i) as (_ & P2). field. split; lra.
  - intros p Lp. rewrite (proj1 (M k p ltac:(rewrite L; exact Lk))), (proj2 (M p i ltac:(rewrite L; exact Lp))). unfold Rdiv. ring.
Qed.
(** The hypotheses hold for (1 1; 1 -1) *)
Definition zeros : nat -> R := fun _ => 0.
Lemma small_eps : eps < / 2. Proof. unfold eps. apply Rinv_lt_contravar; [|]; lra. Qed.
Lemma safe_inv_big x : / 2 < x -> safe_inv x = / x.
Proof. intros L. pose proof small_eps. unfold safe_inv. destruct (Rlt_dec x eps); [lra|]. unfold Rdiv. ring. Qed.
Lemma hadamard_scaling k : (k < 2)%nat -> fst (scaling hadamard 1 zeros zeros) k = sqrt (/ 2) /\ snd (scaling hadamard 1 zeros zeros) k = 1.
Proof.
  assert (S : forall k, (k < 2)%nat -> scale_start hadamard zeros k = / 2).
  { intros j L. unfold scale_start. destruct j as [|[|j]]; [| |lia]; cbn; unfold zeros; rewrite safe_inv_big by lra; f_equal; ring. }
  assert (C : forall k, (k < 2)%nat -> scale_cols hadamard (scale_start hadamard zeros) k = 1).
  { intros j L. unfold scale_cols. destruct j as [|[|j]]; [| |lia]; cbn [col_sums hadamard fold_left fst snd]; unfold upd; cbn [Nat.eqb]; rewrite !S by lia; rewrite safe_inv_big by lra; field. }
  assert (Rw : forall k, (k < 2)%nat -> scale_rows hadamard (scale_cols hadamard (scale_start hadamard zeros)) k = / 2).
  { intros j L. unfold scale_rows, sumsq. destruct j as [|[|j]]; [| |lia]; cbn [hadamard nth fold_left fst snd]; rewrite !C by lia; rewrite safe_inv_big by lra; f_equal; ring. }
  intros L. unfold scaling. cbn [scale_iter fst snd]. rewrite Rw, C by exact L. split; [reflexivity|apply sqrt_1].
Qed.
Lemma half_sqrt : / 2 < sqrt (/ 2) /\ sqrt (/ 2) * sqrt (/ 2) = / 2.
Proof.
  split; [|apply sqrt_sqrt; lra]. rewrite <- (sqrt_Rsqr (/ 2)) at 1 by lra. apply sqrt_lt_1; unfold Rsqr; lra.
Qed.
Definition hB := scale_matrix (scaling hadamard 1 zeros zeros) hadamard.
Lemma hB_entries : entry hB 0 0 = sqrt (/ 2) /\ entry hB 0 1 = sqrt (/ 2) /\ entry hB 1 0 = sqrt (/ 2) /\ entry hB 1 1 = - sqrt (/ 2) /\ forall i, (2 <= i)%nat -> entry hB 0 i = 0 /\ entry hB 1 i = 0.
Proof.
  destruct (hadamard_scaling 0 ltac:(lia)) as (A0 & B0). destruct (hadamard_scaling 1 ltac:(lia)) as (A1 & B1).
  assert (G0 : forall i, entry hB 0 i = sqrt (/ 2) * entry hadamard 0 i * snd (scaling hadamard 1 zeros zeros) i) by (intros i; unfold hB; rewrite scale_entry by (cbn; lia); rewrite A0; reflexivity).
  assert (G1 : forall i, entry hB 1 i = sqrt (/ 2) * entry hadamard 1 i * snd (scaling hadamard 1 zeros zeros) i) by (intros i; unfold hB; rewrite scale_entry by (cbn; lia); rewrite A1; reflexivity).
  split; [|split; [|split; [|split]]]; try (rewrite ?G0, ?G1, ?B0, ?B1; unfold entry; cbn; ring).
  intros i L. rewrite G0, G1. unfold entry. do 2 (destruct i as [|i]; [lia|]). cbn. split; ring.
Qed.
Lemma unit_scale m : 0 < m -> / Rmax m 0 = / m. Proof. intros P. rewrite Rmax_left by lra. reflexivity. Qed.
Lemma one_pivot v : Rabs v = 1 -> Rabs (pivot_inv v) < 10 ^ 12 /\ pivot_inv v = / v.
Proof.
  intros H. assert (T : tol_modif < 1) by (unfold tol_modif; replace 1 with (/ 1) by apply Rinv_1; apply Rinv_lt_contravar; lra).
  assert (E : pivot_inv v = / v) by (unfold pivot_inv; rewrite H; destruct (Rlt_dec tol_modif 1); [unfold Rdiv; ring|lra]).
  split; [|exact E]. rewrite E, Rabs_inv, H, Rinv_1. lra.
Qed.
Example C105_nonvacuous : (forall k i, (k < length hadamard)%nat -> entry hB k i = 0 \/ eps < Rabs (entry hB k i)) /\
  exists fs0 fs A', factor 0 0 (fun _ => 7) hB = Some fs0 /\ (forall k, (k < length hadamard)%nat -> Rabs (ud (nthf fs0 k)) < 10 ^ 12) /\
    initialize 1 0 0 zeros zeros (fun _ => 7) hadamard = Some (fs, A') /\
    forall b k, (k < length hadamard)%nat -> matvec hadamard (solve fs b) k = b k.
Proof.
  destruct hB_entries as (E00 & E01 & E10 & E11 & Eo). destruct half_sqrt as (H1 & H2). pose proof small_eps as SE. set (s := sqrt (/ 2)) in *.
  assert (Big : forall k i, (k < length hadamard)%nat -> entry hB k i = 0 \/ eps < Rabs (entry hB k i)).
  { intros k i L. cbn in L. destruct i as [|[|i]].
    - right. destruct k as [|[|k]]; [rewrite E00|rewrite E10|lia]; rewrite Rabs_right by lra; lra.
    - right. destruct k as [|[|k]]; [rewrite E01, Rabs_right by lra; lra|rewrite E11, Rabs_left by lra; lra|lia].
    - left. destruct (Eo (S (S i)) ltac:(lia)) as (X & Y). destruct k as [|[|k]]; [exact X|exact Y|lia]. }
  split; [exact Big|].
  assert (WB : wf_mat hB) by (apply map_rows_wf, hadamard_wf).
  destruct (factor_ok 0 0 (fun _ => 7) hB WB) as (fs0 & F & L & H). change (length hB) with 2%nat in *.
  assert (BE : forall k i, (k < 2)%nat -> big_entry hB k i = entry hB k i).
  { intros k i Lk. unfold big_entry. rewrite coef_big by (apply (WB (nth k hB [])), nth_In; exact Lk). fold (entry hB k i). destruct (Rlt_dec eps (Rabs (entry hB k i))); [reflexivity|]. destruct (Big k i Lk); [auto|contradiction]. }
  destruct (H 0%nat ltac:(lia)) as (_ & _ & c & C1 & C2 & C3 & C4 & C5 & m & M1 & M2 & j & M3 & M4). rewrite <- pivot_ok in C5.
  pose proof (C1 0%nat ltac:(lia)) as X0. pose proof (C1 1%nat ltac:(lia)) as X1. cbn [Nat.ltb Nat.leb rs] in X0, X1. rewrite Rplus_0_l, BE in X0, X1 by lia. rewrite E00 in X0. rewrite E01 in X1.
  assert (Em : m = s). { destruct j as [|[|j]]; [rewrite <- X0 in M4|rewrite <- X1 in M4|lia]; rewrite Rabs_right in M4 by lra; lra. }
  rewrite Em, unit_scale in M1 by lra. rewrite <- X0, M1, Rinv_r in C5 by lra. destruct (one_pivot 1 (Rabs_R1)) as (P1 & P2). rewrite P2, Rinv_1 in C5.
  destruct (H 1%nat ltac:(lia)) as (_ & _ & c' & D1 & D2 & D3 & D4 & D5 & m' & N1 & N2 & j' & N3 & N4). rewrite <- pivot_ok in D5.
  pose proof (D1 0%nat ltac:(lia)) as Y0. pose proof (D1 1%nat ltac:(lia)) as Y1. rewrite BE in Y0, Y1 by lia. rewrite E10 in Y0. rewrite E11 in Y1. cbn [Nat.ltb Nat.leb rs] in Y0, Y1. rewrite C5 in Y0.
  rewrite eff00 in Y1 by (intros q; rewrite C4; apply keep200). rewrite C3, keep00', M1, <- X1 in Y1. cbn [Nat.ltb Nat.leb] in Y1. rewrite Rinv_r in Y1 by lra.
  assert (c0 : c' 0%nat = s) by lra. rewrite c0 in Y1. assert (c1 : c' 1%nat = - (2 * s)) by lra.
  assert (Em' : m' = 2 * s). { assert (j' = 1%nat) by lia. subst j'. rewrite c1, Rabs_Ropp, Rabs_right in N4 by lra. lra. }
  rewrite Em', unit_scale in N1 by lra. rewrite c1, N1 in D5. replace (- (2 * s) * / (2 * s)) with (-1) in D5 by (field; lra).
  destruct (one_pivot (-1)) as (Q1 & Q2); [rewrite Rabs_left by lra; ring|].
  assert (Ud : forall k, (k < 2)%nat -> Rabs (ud (nthf fs0 k)) < 10 ^ 12).
  { intros [|[|k]] Lk; [rewrite C5, Rabs_R1; lra|rewrite D5; exact Q1|lia]. }
  destruct (C104_total 1 0 0 zeros zeros (fun _ => 7) hadamard hadamard_wf) as (fs & A' & I & _).
  exists fs0, fs, A'. split; [exact F|]. split; [exact Ud|]. split; [exact I|]. intros b. eapply (C105_exact 1 zeros zeros); [exact hadamard_wf|discriminate|exact Big|exact F|exact Ud|exact I].
Qed.
(** the hypothesis of C103_unit_rows holds for it *)
Example C103_nonvacuous : fold_right (fun e s => snd e ^ 2 + s) 0 (nth 1 hB []) = 1.
Proof.
  apply C103_unit_rows; [discriminate|cbn; lia|]. destruct (hadamard_scaling 0 ltac:(lia)) as (_ & B0). destruct (hadamard_scaling 1 ltac:(lia)) as (_ & B1). pose proof small_eps.
  cbn [hadamard nth map rowvec fst snd]. rewrite B0, B1. lra.
Qed.

Print Assumptions C103_matrix_restored.
Print Assumptions C103_weights_positive.
Print Assumptions C103_unit_rows.
Print Assumptions C103_no_iterations_refuted.
Print Assumptions C104_factorization.
Print Assumptions C104_total.
Print Assumptions C105_solve.
Print Assumptions C105_linear.
Print Assumptions C105_invertible.
Print Assumptions C105_exact.
