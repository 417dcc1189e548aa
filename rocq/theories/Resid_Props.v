(** Properties of Residual: Rescale, Norm and Clear. *)
From Coq Require Import List Reals Bool Lra Lia Permutation.
From Verif Require Import Resid_Spec Resid_Model Resid_Proofs.
Import ListNotations.
Open Scope R_scope.

(** * C175: Rescale *)
(** Every equation is multiplied by one positive number, so that its row gets the norm one; entries
    keep their places.  Equations with zero rows are left alone. *)
Theorem C175_rescale : forall (k : norm_kind) (e : eqn), k <> Power 0 ->
  (zero_row e -> rescale_eqn k e = e) /\
  (~ zero_row e -> unit_row k (rescale_eqn k e) /\ places (rescale_eqn k e) = places e /\ exists c, 0 < c /\ forall x, value x (rescale_eqn k e) = c * value x e).
Proof.
  intros k e K. destruct (row_norm_spec k e K) as (n & E & H). unfold rescale_eqn. rewrite E. split; intros Z.
  - destruct H as [(_ & ->) | (N & _)]; [| easy]. destruct (Req_EM_T 0 0); [easy | lra].
  - destruct H as [(N & _) | (_ & P & U)]; [easy |]. destruct (Req_EM_T n 0) as [N | _]; [lra |]. cbn [inverse]. change (Eqn _ _ _) with (times (1 / n) e).
    split; [easy |]. split; [apply places_times |]. exists (1 / n). split; [unfold Rdiv; rewrite Rmult_1_l; now apply Rinv_0_lt_compat | intros x; apply value_times].
Qed.
(** Rescaling keeps the solutions of the system. *)
Theorem C175_solutions : forall (k : norm_kind) (es : list eqn) (x : nat -> R), k <> Power 0 -> (solves x (rescale k es) <-> solves x es).
Proof.
  intros k es x K. assert (H : forall e, value x (rescale_eqn k e) = 0 <-> value x e = 0).
  { intros e. destruct (C175_rescale k e K) as (Z & N). destruct (row_norm_spec k e K) as (n & _ & [(A & _) | (A & _)]).
    - now rewrite (Z A).
    - destruct (N A) as (_ & _ & c & P & V). rewrite V. split; [| intros ->; lra]. intros M. apply Rmult_integral in M as [M | M]; lra. }
  unfold solves, rescale. split; intros S' e I.
  - apply H. apply S'. now apply in_map.
  - apply in_map_iff in I as (e' & <- & I). apply H. now apply S'.
Qed.
(** Rows with the norm one do not change, so that the second call has no effect. *)
Theorem C175_unit : forall (k : norm_kind) (e : eqn), k <> Power 0 -> unit_row k e -> rescale_eqn k e = e.
Proof.
  intros k e K U. assert (row_norm k (jac e) = Fin 1) as E.
  { destruct k as [| p]; cbn [row_norm unit_row] in *.
    - f_equal. destruct (max_abs_spec (jac e) 0 ltac:(lra)) as (_ & M2 & M3). fold (max_abs (jac e)) in *. destruct U as ((a & I & A) & U). specialize (M2 a I). destruct M3 as [M3 | (b & J & B)]; [lra |]. specialize (U b J). lra.
    - destruct p as [| p]; [easy |]. cbn [root]. rewrite sum_pow_total, U. destruct (Req_EM_T 1 0); [lra |]. f_equal. unfold Rpower. rewrite ln_1, Rmult_0_r. apply exp_0. }
  unfold rescale_eqn. rewrite E. destruct (Req_EM_T 1 0); [lra |]. cbn [inverse]. replace (1 / 1) with 1 by field. apply (times_one e).
Qed.
Theorem C175_twice : forall (k : norm_kind) (es : list eqn), k <> Power 0 -> rescale k (rescale k es) = rescale k es.
Proof.
  intros k es K. unfold rescale. rewrite map_map. apply map_ext. intros e. destruct (C175_rescale k e K) as (Z & N). destruct (row_norm_spec k e K) as (n & _ & [(A & _) | (A & _)]).
  - now rewrite !(Z A).
  - apply C175_unit; [easy | now apply N].
Qed.
(** With p = 0 the system is lost: equations with two or more entries become 0 = 0. *)
Theorem C175_zero_refuted : forall (e : eqn), (2 <= length (jac e))%nat -> forall x, value x (rescale_eqn (Power 0) e) = 0.
Proof.
  intros e L x. unfold rescale_eqn. cbn [row_norm root]. assert (1 < sum_pow 0 (jac e)) as S1.
  { rewrite sum_pow_total. assert (E : forall row : list (nat * R), total (map (fun a => Rabs (snd a) ^ 0) row) = INR (length row)).
    { induction row as [| a row IH]; [easy |]. cbn [length]. rewrite S_INR, <- IH. unfold total. cbn. lra. }
    rewrite E. apply le_INR in L. cbn in L. lra. }
  unfold pow_inf. destruct (Rlt_dec (sum_pow 0 (jac e)) 1); [lra |]. destruct (Req_EM_T (sum_pow 0 (jac e)) 1); [lra |]. cbn [inverse].
  change (Eqn _ _ _) with (times 0 e). rewrite value_times. lra.
Qed.
Definition ex_e : eqn := Eqn 10 [(0%nat, 3); (4%nat, -4)] None.
Example C175_nonvacuous : ~ zero_row ex_e /\ unit_row (Power 2) (rescale_eqn (Power 2) ex_e) /\ unit_row Infinite (rescale_eqn Infinite ex_e) /\
  solves (fun i => if Nat.eqb i 0 then 2 else 4) [ex_e] /\ ~ solves (fun i => 0) [ex_e] /\ solves (fun i => 0) (rescale (Power 0) [ex_e]).
Proof.
  assert (Z : ~ zero_row ex_e) by (intros Z; specialize (Z _ (or_introl eq_refl)); cbn in Z; lra).
  split; [easy |]. split; [now apply C175_rescale |]. split; [now apply C175_rescale |]. split.
  { intros e [<- | []]. unfold value. cbn. lra. }
  split.
  { intros A. specialize (A _ (or_introl eq_refl)). unfold value in A. cbn in A. lra. }
  intros e [<- | []]. apply C175_zero_refuted. cbn. lia.
Qed.

(** * C176: Norm and Clear *)
Lemma norm_total procs : norm procs = sqrt (total (map (fun e => res e * res e) (concat procs))).
Proof.
  unfold norm. f_equal. rewrite <- fold_left_rev_right. assert (H : forall l a, fold_left Rplus l a = a + total l). { induction l as [| b l IH]; intros a; cbn [fold_left]; unfold total in *; cbn [fold_right]; [lra |]. rewrite IH. lra. }
  rewrite fold_left_rev_right, H. rewrite Rplus_0_l. induction procs as [| p procs IH]; [easy |]. cbn [map concat]. rewrite map_app, total_app, <- IH. unfold total at 1. cbn [fold_right]. f_equal.
  unfold local_sum. rewrite (fold_total _ (fun e => res e * res e)). lra.
Qed.
Lemma sq_nonneg (e : eqn) : 0 <= res e * res e. Proof. apply Rle_0_sqr. Qed.
(** The norm is the second norm of the values of all equations on all processes. *)
Theorem C176_norm : forall (procs : list (list eqn)),
  0 <= norm procs /\ norm procs * norm procs = total (map (fun e => res e * res e) (concat procs)).
Proof.
  intros procs. rewrite norm_total. split; [apply sqrt_pos |]. apply sqrt_sqrt. apply (total_nonneg _ (fun e => res e * res e)). apply sq_nonneg.
Qed.
Theorem C176_partition : forall (procs procs' : list (list eqn)), Permutation (concat procs) (concat procs') -> norm procs = norm procs'.
Proof. intros procs procs' P. rewrite !norm_total. f_equal. apply total_perm. now apply Permutation_map. Qed.
Theorem C176_zero : forall (procs : list (list eqn)), norm procs = 0 <-> forall es e, In es procs -> In e es -> res e = 0.
Proof.
  intros procs. rewrite norm_total. set (t := total _). assert (T : 0 <= t) by (apply (total_nonneg _ (fun e => res e * res e)); apply sq_nonneg). split.
  - intros Z es e I J. apply sqrt_eq_0 in Z; [| easy]. pose proof (total_ge _ (fun e => res e * res e) (concat procs) e sq_nonneg) as G. cbv beta in G. fold t in G. rewrite Z in G.
    assert (In e (concat procs)) as K by (apply in_concat; now exists es). specialize (G K). pose proof (sq_nonneg e). apply Rsqr_0_uniq. unfold Rsqr. lra.
  - intros Z. replace t with 0; [apply sqrt_0 |]. symmetry. apply total_zero. intros e I. apply in_concat in I as (es & I & J). rewrite (Z es e I J). lra.
Qed.
(** No value exceeds the norm. *)
Theorem C176_bound : forall (procs : list (list eqn)) (es : list eqn) (e : eqn), In es procs -> In e es -> Rabs (res e) <= norm procs.
Proof.
  intros procs es e I J. rewrite norm_total. rewrite <- sqrt_Rsqr_abs. apply sqrt_le_1_alt. apply (total_ge _ (fun e => res e * res e)); [apply sq_nonneg |]. apply in_concat. now exists es.
Qed.
(** After Clear the system has no terms: the norm is zero and every displacement is a solution. *)
Theorem C176_clear : forall (procs : list (list eqn)) (es : list eqn) (x : nat -> R),
  norm (map clear procs) = 0 /\ solves x (clear es) /\ length (clear es) = length es /\ forall e, In e (clear es) -> jac e = [] /\ (hes e = None \/ hes e = Some []).
Proof.
  intros procs es x. split; [| split; [| split; [apply map_length |]]].
  - apply C176_zero. intros fs e I J. apply in_map_iff in I as (gs & <- & _). apply in_map_iff in J as (g & <- & _). easy.
  - intros e I. apply in_map_iff in I as (g & <- & _). unfold value, clear_eqn. cbn [res jac hes]. destruct (hes g); unfold total; cbn; lra.
  - intros e I. apply in_map_iff in I as (g & <- & _). cbn. split; [easy |]. destruct (hes g); [now right | now left].
Qed.
Example C176_nonvacuous : norm [[Eqn 3 [] None]; []; [Eqn 0 [] None; Eqn 4 [] None]] = 5 /\ norm [[Eqn 0 [(1%nat, 2)] None]] = 0.
Proof.
  split; [| apply C176_zero; now intros es e [<- | []] [<- | []]].
  rewrite norm_total. unfold total. cbn. replace (3 * 3 + (0 * 0 + (4 * 4 + 0))) with (5 * 5) by lra. apply sqrt_square. lra.
Qed.

Print Assumptions C175_rescale.
Print Assumptions C175_solutions.
Print Assumptions C175_unit.
Print Assumptions C175_twice.
Print Assumptions C175_zero_refuted.
Print Assumptions C176_norm.
Print Assumptions C176_partition.
Print Assumptions C176_zero.
Print Assumptions C176_bound.
Print Assumptions C176_clear.
