(** C59 (Solve and Invert), C60 (CholeskySolve), C61 (Det). *)
From Coq Require Import List Arith Lia Bool Field QArith Qcanon Reals Lra.
From Verif Require Import OField Gauss_Spec Gauss_Model Gauss_Proofs Chol_Proofs Det_Proofs.
Import ListNotations.
Open Scope nat_scope.

Section Props.
Variable F : ofield.
Add Field Ff : (fth F).
Local Open Scope of_scope.
Notation matrix := (nat -> nat -> F).

(** Every pivot met by Solve is zero or at least 1e-54 in absolute value. *)
Definition no_tiny_pivot (n m l : nat) (A B : matrix) : Prop :=
  forall p, In p (snd (solve_pivots F n m l A B)) -> p = 0 \/ (fabs p <? e_minus 54) = false.

(** * C59 *)

(** Solve returns a matrix whose columns minimise the norm of the residual. *)
Theorem C59_solve_least_squares : forall n m l (A B : matrix), (0 < n)%nat -> no_tiny_pivot n m l A B ->
  exists X, solve F n m l A B = Solved F X /\
    forall (Y : matrix) k, (k < l)%nat -> (residual F n m A B Y k <? residual F n m A B X k) = false.
Proof.
  intros n m l A B Ln Np. destruct (solve_normal F n m l A B Ln Np) as [X [E N]].
  exists X. split; [exact E|]. intros Y k Lk. exact (least_squares F n m l A B X N (fun q => Y q k) k Lk).
Qed.

(** ... and that solves the system when it has a solution. *)
Theorem C59_solve_exact : forall n m l (A B : matrix), (0 < n)%nat -> no_tiny_pivot n m l A B ->
  (exists Y : matrix, forall i k, (i < n)%nat -> (k < l)%nat -> prod F m A Y i k = B i k) ->
  exists X, solve F n m l A B = Solved F X /\
    forall i k, (i < n)%nat -> (k < l)%nat -> prod F m A X i k = B i k.
Proof.
  intros n m l A B Ln Np [Y HY]. destruct (solve_normal F n m l A B Ln Np) as [X [E N]].
  exists X. split; [exact E|]. intros i k Li Lk.
  apply (consistent_exact F n m l A B X N k Lk); [|exact Li].
  exists (fun q => Y q k). intros r Lr. now apply HY.
Qed.

(** The error code e means that the e-th pivot is smaller than 1e-54. *)
Theorem C59_error_code : forall n m l (A B : matrix) e, solve F n m l A B = Failed F e ->
  (1 <= e <= m)%nat /\
  exists p ps, snd (solve_pivots F n m l A B) = p :: ps /\ length ps = (e - 1)%nat /\ (fabs p <? e_minus 54) = true.
Proof.
  intros n m l A B e E. unfold solve, solve_pivots in *.
  destruct (gauss_loop F m l (seq 0 m) _) as [o ps] eqn:G. cbn [fst snd] in *. subst o.
  apply loop_failed in G; [|reflexivity]. destruct G as [H1 [H2 [p [ps' [-> H3]]]]].
  split; [lia|]. exists p, ps'. split; [reflexivity|split; [cbn [length] in H2; lia|exact H3]].
Qed.

Lemma prod_assoc : forall n m (A B C : matrix) i k,
  fsum m (fun q => A i q * fsum n (fun r => B q r * C r k)) = fsum n (fun r => fsum m (fun q => A i q * B q r) * C r k).
Proof.
  intros n m A B C i k.
  transitivity (fsum m (fun q => fsum n (fun r => A i q * B q r * C r k))).
  { apply fsum_ext. intros q _. rewrite <- fsum_mul_l. apply fsum_ext. intros r _. ring. }
  rewrite fsum_swap. apply fsum_ext. intros r _. now rewrite fsum_mul_r.
Qed.

(** Invert returns a right inverse when there is one, a left inverse when there is one. *)
Theorem C59_invert_right : forall n m (A : matrix), (0 < n)%nat -> no_tiny_pivot n m n A (unit_mat F) ->
  (exists Y : matrix, forall i k, (i < n)%nat -> (k < n)%nat -> prod F m A Y i k = if (i =? k)%nat then 1 else 0) ->
  exists X, invert F n m A = Solved F X /\
    forall i k, (i < n)%nat -> (k < n)%nat -> prod F m A X i k = if (i =? k)%nat then 1 else 0.
Proof. intros n m A Ln Np H. exact (C59_solve_exact n m n A (unit_mat F) Ln Np H). Qed.

Theorem C59_invert_left : forall n m (A : matrix), (0 < n)%nat -> no_tiny_pivot n m n A (unit_mat F) ->
  (exists Y : matrix, forall i k, (i < m)%nat -> (k < m)%nat -> prod F n Y A i k = if (i =? k)%nat then 1 else 0) ->
  exists X, invert F n m A = Solved F X /\
    forall i k, (i < m)%nat -> (k < m)%nat -> prod F n X A i k = if (i =? k)%nat then 1 else 0.
Proof.
  intros n m A Ln Np [Y HY]. destruct (solve_normal F n m n A (unit_mat F) Ln Np) as [X [E N]].
  exists X. split; [exact E|]. intros i k Li Lk.
  pose proof (residual_orthogonal F n m n A (unit_mat F) X N) as O.
  set (Z := fun q => prod F n X A q k - (if (q =? k)%nat then 1 else 0)).
  set (AZ := fun r => fsum m (fun q => A r q * Z q)).
  assert (One : forall (f : nat -> F) p, (p < m)%nat -> fsum m (fun q => f q * (if (q =? p)%nat then 1 else 0)) = f p).
  { intros f p Lp. rewrite (fsum_one F m p); [rewrite Nat.eqb_refl; ring|exact Lp|].
    intros q _ Nq. rewrite (proj2 (Nat.eqb_neq q p) Nq). ring. }
  assert (OneN : forall (f : nat -> F) p, (p < n)%nat -> fsum n (fun q => (if (p =? q)%nat then 1 else 0) * f q) = f p).
  { intros f p Lp. rewrite (fsum_one F n p); [rewrite Nat.eqb_refl; ring|exact Lp|].
    intros q _ Nq. rewrite (proj2 (Nat.eqb_neq p q)) by congruence. ring. }
  assert (AZ' : forall r, (r < n)%nat -> AZ r = fsum n (fun s => (fsum m (fun q => A r q * X q s) - unit_mat F r s) * A s k)).
  { intros r Lr. unfold AZ, Z.
    transitivity (fsum m (fun q => A r q * prod F n X A q k) - fsum m (fun q => A r q * (if (q =? k)%nat then 1 else 0))).
    { rewrite <- fsum_sub. apply fsum_ext. intros q _. ring. }
    rewrite (One (fun q => A r q) k Lk). unfold prod at 1. rewrite prod_assoc.
    transitivity (fsum n (fun s => fsum m (fun q => A r q * X q s) * A s k) - fsum n (fun s => unit_mat F r s * A s k)).
    - f_equal. symmetry. unfold unit_mat. apply (OneN (fun s => A s k) r Lr).
    - rewrite <- fsum_sub. apply fsum_ext. intros s _. ring. }
  assert (Orth : forall j, (j < m)%nat -> fsum n (fun r => A r j * AZ r) = 0).
  { intros j Lj.
    transitivity (fsum n (fun s => fsum n (fun r => A r j * (fsum m (fun q => A r q * X q s) - unit_mat F r s)) * A s k)).
    - transitivity (fsum n (fun r => fsum n (fun s => A r j * ((fsum m (fun q => A r q * X q s) - unit_mat F r s) * A s k)))).
      + apply fsum_ext. intros r Lr. rewrite AZ' by exact Lr. now rewrite fsum_mul_l.
      + rewrite fsum_swap. apply fsum_ext. intros s _. rewrite <- fsum_mul_r. apply fsum_ext. intros r _. ring.
    - apply fsum_0. intros s Ls. rewrite O by assumption. ring. }
  assert (Nrm : fsum n (fun r => AZ r * AZ r) = 0).
  { transitivity (fsum m (fun q => fsum n (fun r => A r q * AZ r) * Z q)).
    - transitivity (fsum n (fun r => fsum m (fun q => A r q * AZ r * Z q))).
      + apply fsum_ext. intros r _. unfold AZ at 2. rewrite <- fsum_mul_l. apply fsum_ext. intros q _. ring.
      + rewrite fsum_swap. apply fsum_ext. intros q _. apply fsum_mul_r.
    - apply fsum_0. intros q Lq. rewrite Orth by exact Lq. ring. }
  pose proof (fsum_sq_0 F n AZ Nrm) as AZ0.
  assert (Zi : Z i = 0).
  { transitivity (fsum m (fun q => (if (i =? q)%nat then 1 else 0) * Z q)).
    - rewrite (fsum_one F m i); [rewrite Nat.eqb_refl; ring|exact Li|].
      intros q _ Nq. rewrite (proj2 (Nat.eqb_neq i q)) by congruence. ring.
    - transitivity (fsum m (fun q => fsum n (fun r => Y i r * A r q) * Z q)).
      + apply fsum_ext. intros q Lq. f_equal. symmetry. exact (HY i q Li Lq).
      + transitivity (fsum n (fun r => Y i r * AZ r)).
        * transitivity (fsum n (fun r => fsum m (fun q => Y i r * A r q * Z q))).
          -- rewrite fsum_swap. apply fsum_ext. intros q _. now rewrite fsum_mul_r.
          -- apply fsum_ext. intros r _. unfold AZ. rewrite <- fsum_mul_l. apply fsum_ext. intros q _. ring.
        * apply fsum_0. intros r Lr. rewrite AZ0 by exact Lr. ring. }
  unfold Z in Zi. transitivity (prod F n X A i k - (if (i =? k)%nat then 1 else 0) + (if (i =? k)%nat then 1 else 0)); [ring|].
  rewrite Zi. ring.
Qed.

(** * C60 *)
Section Cholesky.
Variable sq : F -> F.
(** what is used of the square root *)
Hypothesis sq_spec : forall x : F, (x <? 0) = false -> sq x * sq x = x /\ (sq x <? 0) = false.

Lemma sget_upper : forall (A : matrix) i j, sget F A i j = upper_sym F A i j.
Proof.
  intros A i j. unfold sget, upper_sym. destruct (Nat.ltb_spec j i).
  - now rewrite Nat.min_r, Nat.max_l by lia.
  - now rewrite Nat.min_l, Nat.max_r by lia.
Qed.

Lemma quad_upper : forall n (A : matrix) x,
  fsum n (fun i => fsum n (fun j => x i * sget F A i j * x j)) = quad F n (upper_sym F A) x.
Proof.
  intros n A x. unfold quad. apply fsum_ext. intros i _. apply fsum_ext. intros j _. now rewrite sget_upper.
Qed.

(** A result is the solution of the system with the symmetric matrix given by the upper triangle. *)
Theorem C60_cholesky_solves : forall n l (A B X : matrix), chol_solve F sq n l A B = Solved F X ->
  forall i k, (i < n)%nat -> (k < l)%nat -> prod F n (upper_sym F A) X i k = B i k.
Proof.
  intros n l A B X E i k Li Lk. rewrite <- (chol_solves F sq n sq_spec A l B X E i k Li Lk).
  unfold prod. apply fsum_ext. intros j _. now rewrite sget_upper.
Qed.

(** A matrix that is not positive definite is reported. *)
Theorem C60_cholesky_reports : forall n l (A B : matrix), ~ positive_definite F n (upper_sym F A) ->
  exists e, chol_solve F sq n l A B = Failed F e /\ (1 <= e <= n)%nat.
Proof.
  intros n l A B N. destruct (chol_solve F sq n l A B) as [X|e] eqn:E.
  - exfalso. apply N. intros x Hx. rewrite <- quad_upper. exact (chol_spd F sq n sq_spec A l B X E x Hx).
  - exists e. split; [reflexivity|]. destruct (chol_fails F sq n sq_spec A l B e E) as [k [x [-> [Lk _]]]]. lia.
Qed.

(** A report means that some vector with an entry 1 has x^T S x < 1e-48; the
    code e names the position of that entry: S restricted to its first e rows
    and columns is not (numerically) positive definite. *)
Theorem C60_cholesky_report_meaning : forall n l (A B : matrix) e, chol_solve F sq n l A B = Failed F e ->
  exists k x, e = S k /\ (k < n)%nat /\ x k = 1 /\ (forall i, (k < i)%nat -> x i = 0) /\
  (quad F n (upper_sym F A) x <? e_minus 24 * e_minus 24) = true.
Proof.
  intros n l A B e E. destruct (chol_fails F sq n sq_spec A l B e E) as [k [x [H1 [H2 [H3 [H4 H5]]]]]].
  exists k, x. rewrite quad_upper in H5. repeat split; assumption.
Qed.

(** CholeskyInvert returns the inverse. *)
Theorem C60_cholesky_invert : forall n (A X : matrix), chol_invert F sq n A = Solved F X ->
  forall i k, (i < n)%nat -> (k < n)%nat -> prod F n (upper_sym F A) X i k = if (i =? k)%nat then 1 else 0.
Proof. intros n A X E. exact (C60_cholesky_solves n n A (unit_mat F) X E). Qed.
End Cholesky.

(** * C61 *)

(** Every number that Det compares with 1e-13 is zero or larger in absolute value. *)
Definition no_tiny_entry (n : nat) (A : matrix) : Prop :=
  forall x, In x (snd (det_seen F n A)) -> x = 0 \/ (e_minus 13 <? fabs x) = true.

Theorem C61_det : forall n (A : matrix), no_tiny_entry n A -> det F n A = determinant F n A.
Proof. exact (det_correct F). Qed.

(** The reference determinant has the defining properties of a determinant:
    additive and homogeneous in each row, zero for equal rows, one for the identity. *)
Theorem C61_reference_is_determinant :
  (forall n r (c : F) (M1 M2 M3 : matrix), (r < n)%nat ->
     (forall i j, (i < n)%nat -> i <> r -> M1 i j = M3 i j /\ M2 i j = M3 i j) ->
     (forall j, M3 r j = M1 r j + c * M2 r j) -> determinant F n M3 = determinant F n M1 + c * determinant F n M2) /\
  (forall n r s (M : matrix), (r < n)%nat -> (s < n)%nat -> r <> s -> (forall j, M r j = M s j) -> determinant F n M = 0) /\
  (forall n, determinant F n (fun i j => if (i =? j)%nat then 1 else 0) = 1).
Proof.
  split; [exact (det_linear F)|split; [exact (det_alt F)|]].
  induction n as [|n IH]; [reflexivity|].
  rewrite (det_col F n 0).
  - cbn [Nat.eqb sgn]. transitivity (1 * 1 * (1 : F)); [|ring]. f_equal. etransitivity; [|exact IH].
    apply det_ext. intros i j _ _. reflexivity.
  - lia.
  - intros i _ N. destruct i; [congruence|reflexivity].
Qed.

(** A matrix with two proportional rows (or a zero row) has determinant zero also
    in the computation, so singularity of this kind is seen. *)
Theorem C61_det_singular : forall n r s (c : F) (A : matrix), no_tiny_entry n A -> (r < n)%nat -> (s < n)%nat -> r <> s ->
  (forall j, A r j = c * A s j) -> det F n A = 0.
Proof.
  intros n r s c A N Lr Ls Ne E. rewrite C61_det by exact N.
  rewrite (det_linear F n r c (fun i j => if (i =? r)%nat then 0 else A i j) (fun i j => if (i =? r)%nat then A s j else A i j)).
  - rewrite (det_alt F n r s (fun i j => if (i =? r)%nat then A s j else A i j)); [|exact Lr|exact Ls|exact Ne|].
    + transitivity (determinant F n (fun i j => if (i =? r)%nat then 0 else A i j)); [ring|].
      set (Z := fun i j => if (i =? r)%nat then 0 else A i j).
      assert (H : determinant F n Z = determinant F n Z + 1 * determinant F n Z).
      { apply (det_linear F n r); [exact Lr| |].
        - intros i j _ _. split; reflexivity.
        - intro j. unfold Z. rewrite Nat.eqb_refl. ring. }
      transitivity (determinant F n Z + 1 * determinant F n Z - determinant F n Z); [ring|]. rewrite <- H. ring.
    + intro j. rewrite Nat.eqb_refl, (proj2 (Nat.eqb_neq s r)) by lia. reflexivity.
  - exact Lr.
  - intros i j _ Ni. rewrite (proj2 (Nat.eqb_neq i r) Ni). split; reflexivity.
  - intro j. rewrite !Nat.eqb_refl, E. ring.
Qed.
End Props.

Print Assumptions C59_solve_least_squares.
Print Assumptions C59_solve_exact.
Print Assumptions C59_error_code.
Print Assumptions C59_invert_right.
Print Assumptions C59_invert_left.
Print Assumptions C60_cholesky_solves.
Print Assumptions C60_cholesky_reports.
Print Assumptions C60_cholesky_report_meaning.
Print Assumptions C60_cholesky_invert.
Print Assumptions C61_det.
Print Assumptions C61_reference_is_determinant.
Print Assumptions C61_det_singular.

(** * Concrete cases *)

Definition of_rows (F : ofield) (rows : list (list F)) : nat -> nat -> F :=
  fun i j => nth j (nth i rows []) f0.

Section Check.
Variable F : ofield.
Definition is_zero (x : F) : bool := (negb (x <? 0) && negb (0 <? x))%F.
Lemma is_zero_true : forall x : F, is_zero x = true -> x = 0%F.
Proof.
  intros x H. unfold is_zero in H. apply andb_true_iff in H. destruct H as [A B].
  apply (flt_total F); now apply negb_true_iff.
Qed.
Lemma pivots_checked : forall n m l A B,
  forallb (fun p => is_zero p || negb (fabs p <? e_minus 54)%F) (snd (solve_pivots F n m l A B)) = true ->
  no_tiny_pivot F n m l A B.
Proof.
  intros n m l A B H p I. rewrite forallb_forall in H. apply H, orb_true_iff in I.
  destruct I as [I|I]; [left; now apply is_zero_true|right; now apply negb_true_iff].
Qed.
Lemma entries_checked : forall n A,
  forallb (fun p => is_zero p || (e_minus 13 <? fabs p)%F) (snd (det_seen F n A)) = true -> no_tiny_entry F n A.
Proof.
  intros n A H p I. rewrite forallb_forall in H. apply H, orb_true_iff in I.
  destruct I as [I|I]; [left; now apply is_zero_true|right; exact I].
Qed.
End Check.

Definition q (z : Z) : Qc_ofield := Q2Qc (inject_Z z).

(** the entries of a result *)
Definition ok {F} (o : outcome F) : bool := match o with Solved _ _ => true | Failed _ _ => false end.
Definition value {F} (o : outcome F) (i k : nat) : F := match o with Solved _ X => X i k | Failed _ _ => f0 end.
Lemma ok_value : forall F (o : outcome F), ok o = true -> exists X, o = Solved F X /\ X = value o.
Proof. intros F [X|e] H; [now exists X|discriminate]. Qed.

Lemma canon : forall x y : Qc, this x = this y -> x = y.
Proof. intros x y H. apply Qc_is_canon. now rewrite H. Qed.

(** three equations, two unknowns; the second column is twice the first (rank 1) *)
Example C59_rank_deficient_nonvacuous :
  let A := of_rows Qc_ofield [[q 1; q 2]; [q 2; q 4]; [q 3; q 6]] in
  let B := of_rows Qc_ofield [[q 5; q 1]; [q 10; q 0]; [q 15; q 0]] in
  no_tiny_pivot Qc_ofield 3 2 2 A B /\ ok (solve Qc_ofield 3 2 2 A B) = true /\
  prod Qc_ofield 2 A (value (solve Qc_ofield 3 2 2 A B)) 2 0 = q 15.
Proof.
  split; [apply pivots_checked; vm_compute; reflexivity|]. split; [vm_compute; reflexivity|].
  apply canon. vm_compute. reflexivity.
Qed.

(** an invertible matrix that needs row and column exchanges *)
Example C59_invertible_nonvacuous :
  let A := of_rows Qc_ofield [[q 0; q 2; q 1]; [q 1; q (-1); q 0]; [q 3; q 0; q 4]] in
  let X := value (invert Qc_ofield 3 3 A) in
  no_tiny_pivot Qc_ofield 3 3 3 A (unit_mat Qc_ofield) /\
  forall i k, i < 3 -> k < 3 -> prod Qc_ofield 3 A X i k = if i =? k then q 1 else q 0.
Proof.
  split; [apply pivots_checked; vm_compute; reflexivity|].
  intros i k Li Lk.
  destruct i as [|[|[|]]]; try lia; destruct k as [|[|[|]]]; try lia; apply canon; vm_compute; reflexivity.
Qed.

(** Without the assumption on the pivots the claim is false: 1e-28 x = 1e-28 is
    answered 1e-44 with no error reported. *)
Theorem C59_tiny_pivot_refuted :
  let A := of_rows Qc_ofield [[e_minus 28]] in
  exists X, solve Qc_ofield 1 1 1 A A = Solved Qc_ofield X /\ prod Qc_ofield 1 A X 0 0 <> A 0 0 /\
            X 0 0 = e_minus 44 /\ prod Qc_ofield 1 A (fun _ _ => q 1) 0 0 = A 0 0.
Proof.
  cbv zeta.
  destruct (ok_value _ (solve Qc_ofield 1 1 1 (of_rows Qc_ofield [[e_minus 28]]) (of_rows Qc_ofield [[e_minus 28]]))) as [X [E V]];
    [vm_compute; reflexivity|].
  exists X. split; [exact E|]. rewrite V. split; [|split].
  - intro H. apply (f_equal this) in H. vm_compute in H. discriminate.
  - apply canon. vm_compute. reflexivity.
  - apply canon. vm_compute. reflexivity.
Qed.
Print Assumptions C59_tiny_pivot_refuted.

(** an error: 1e-28 x = 1e-24 *)
Example C59_error_nonvacuous :
  solve Qc_ofield 1 1 1 (of_rows Qc_ofield [[e_minus 28]]) (of_rows Qc_ofield [[e_minus 24]]) = Failed Qc_ofield 1.
Proof. vm_compute. reflexivity. Qed.

(** the square root of the reals *)
Definition rsqrt (x : R_ofield) : R_ofield := sqrt x.
Lemma sqrt_spec : forall x : R_ofield, (x <? 0)%F = false ->
  (rsqrt x * rsqrt x)%F = x /\ (rsqrt x <? 0)%F = false.
Proof.
  unfold rsqrt. intros x H. cbn in *. destruct (Rlt_dec x 0) as [|N]; [discriminate|]. split.
  - apply sqrt_sqrt. lra.
  - destruct (Rlt_dec (sqrt x) 0) as [L|]; [|reflexivity]. pose proof (sqrt_pos x). lra.
Qed.

Example C60_cholesky_nonvacuous : forall B,
  exists X, chol_solve R_ofield rsqrt 2 1 (of_rows R_ofield [[4; 2]; [0; 5]]%R) B = Solved R_ofield X.
Proof.
  intro B. destruct (chol_solve R_ofield rsqrt 2 1 _ B) as [X|e] eqn:E; [now exists X|]. exfalso.
  destruct (C60_cholesky_report_meaning R_ofield rsqrt sqrt_spec _ _ _ _ _ E) as [k [x [_ [Lk [X1 [X2 H]]]]]].
  assert (P : forall n, ((e_minus n : R_ofield) <= 1)%R).
  { intro n. unfold e_minus. cbn. assert (G : (1 <= (fpow ften n : R_ofield))%R).
    { induction n as [|n IH]; cbn in *; [lra|]. change (@ften R_ofield) with ((1 + 1) * (1 + 1) * (1 + 1) + (1 + 1))%R in *. nra. }
    apply (Rmult_le_reg_r (fpow (F:=R_ofield) ften n)); [lra|]. unfold Rdiv. rewrite Rmult_assoc, Rinv_l by lra. lra. }
  assert (P0 : (0 < (e_minus 24 : R_ofield))%R).
  { pose proof (e_minus_pos R_ofield 24) as Q. cbn -[e_minus] in Q. destruct (Rlt_dec 0 _) in Q; [assumption|discriminate]. }
  specialize (P 24). unfold quad, fsum, upper_sym, of_rows in H. cbn -[e_minus] in H.
  destruct (Rlt_dec _ _) as [L|] in H; [|discriminate]. clear H E.
  set (t := e_minus 24) in *. clearbody t.
  destruct k as [|[|]]; [| |lia].
  - rewrite X1, (X2 1) in L by lia. cbn in L. nra.
  - rewrite X1 in L. cbn in L. pose proof (Rle_0_sqr (2 * x 0 + 1)) as Sq. unfold Rsqr in Sq. nra.
Qed.

(** an indefinite matrix *)
Example C60_indefinite_nonvacuous : ~ positive_definite R_ofield 2 (upper_sym R_ofield (of_rows R_ofield [[1; 2]; [7; 1]]%R)).
Proof.
  intro H. specialize (H (fun i => if i =? 0 then 1 else -1)%R).
  assert (E : exists i, i < 2 /\ ((if i =? 0 then 1 else -1) : R_ofield)%R <> 0%F) by (exists 0; split; [lia|cbn; lra]).
  apply H in E. unfold quad, fsum, upper_sym, of_rows in E. cbn in E.
  destruct (Rlt_dec _ _) as [L|] in E; [|discriminate]. lra.
Qed.

(** a 4 by 4 matrix that needs a row exchange *)
Example C61_det_nonvacuous :
  let A := of_rows Qc_ofield [[q 0; q 2; q 1; q 1]; [q 3; q 1; q 0; q 2]; [q 1; q 0; q 0; q 5]; [q 2; q 2; q 7; q 0]] in
  no_tiny_entry Qc_ofield 4 A /\ det Qc_ofield 4 A = q 173.
Proof. split; [apply entries_checked; vm_compute; reflexivity|]. apply canon. vm_compute. reflexivity. Qed.

(** Without the assumption the claim is false: diag(1e-14, 1e14) has determinant
    1 and Det returns 0. *)
Theorem C61_small_entry_refuted :
  let A := of_rows Qc_ofield [[e_minus 14; q 0]; [q 0; fdiv (q 1) (e_minus 14)]] in
  det Qc_ofield 2 A = q 0 /\ determinant Qc_ofield 2 A = q 1.
Proof. split; apply canon; vm_compute; reflexivity. Qed.
Print Assumptions C61_small_entry_refuted.
