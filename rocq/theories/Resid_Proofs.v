From Coq Require Import List Reals Bool Lra Lia Permutation.
From Verif Require Import Resid_Spec Resid_Model.
Import ListNotations.
Open Scope R_scope.

Lemma fold_total (A : Type) (f : A -> R) l : forall acc, fold_left (fun s a => s + f a) l acc = acc + total (map f l).
Proof. induction l as [| a l IH]; intros acc; cbn [fold_left map]; unfold total in *; cbn [fold_right]; [lra |]. rewrite IH. lra. Qed.
Lemma total_map_scale (A : Type) (f g : A -> R) c l : (forall a, f a = c * g a) -> total (map f l) = c * total (map g l).
Proof. intros E. induction l as [| a l IH]; cbn; [lra |]. change (fold_right Rplus 0 (map f l)) with (total (map f l)). rewrite IH, E. unfold total. lra. Qed.
Lemma total_nonneg (A : Type) (f : A -> R) l : (forall a, 0 <= f a) -> 0 <= total (map f l).
Proof. intros P. induction l as [| a l IH]; cbn; [lra |]. specialize (P a). unfold total in IH. lra. Qed.
Lemma total_ge (A : Type) (f : A -> R) l a : (forall a, 0 <= f a) -> In a l -> f a <= total (map f l).
Proof.
  intros P. induction l as [| b l IH]; [easy |]. intros [-> | I]; unfold total in *; cbn.
  - pose proof (total_nonneg A f l P). unfold total in *. lra.
  - specialize (IH I). specialize (P b). lra.
Qed.
Lemma total_zero (A : Type) (f : A -> R) l : (forall a, In a l -> f a = 0) -> total (map f l) = 0.
Proof. induction l as [| b l IH]; intros Z; unfold total in *; cbn; [easy |]. rewrite Z by now left. rewrite IH; [lra |]. intros a I. apply Z. now right. Qed.
Lemma total_app l l' : total (l ++ l') = total l + total l'.
Proof. induction l as [| a l IH]; unfold total in *; cbn; [lra |]. rewrite IH. lra. Qed.
Lemma total_perm l l' : Permutation l l' -> total l = total l'.
Proof. induction 1; unfold total in *; cbn; lra. Qed.

Lemma map_scale (A : Type) (f : A -> R) c (l : list (A * R)) : total (map (fun a => snd a * f (fst a)) (scale c l)) = c * total (map (fun a => snd a * f (fst a)) l).
Proof. unfold scale. rewrite map_map. apply total_map_scale. intros a. cbn. lra. Qed.
Lemma scale_fst (A : Type) c (l : list (A * R)) : map fst (scale c l) = map fst l.
Proof. unfold scale. rewrite map_map. apply map_ext. easy. Qed.
Lemma scale_one (A : Type) (l : list (A * R)) : scale 1 l = l.
Proof. unfold scale. erewrite map_ext; [apply map_id |]. intros (a, r). cbn. f_equal. lra. Qed.
Definition times (c : R) (e : eqn) : eqn := Eqn (res e * c) (scale c (jac e)) (match hes e with None => None | Some h => Some (scale c h) end).
Lemma times_one e : times 1 e = e.
Proof. destruct e as [r j [h |]]; unfold times; cbn [res jac hes]; rewrite ?scale_one; f_equal; lra. Qed.
Lemma value_times x c e : value x (times c e) = c * value x e.
Proof.
  unfold value, times. cbn [res jac hes]. rewrite (map_scale _ x). destruct (hes e) as [h |]; [| lra].
  unfold scale. rewrite map_map. cbn [fst snd]. rewrite (total_map_scale _ _ (fun a => snd a * x (fst (fst a)) * x (snd (fst a))) c); [lra |]. intros a. lra.
Qed.
Lemma places_times c e : places (times c e) = places e.
Proof. unfold places, times. cbn [jac hes]. rewrite scale_fst. destruct (hes e); [now rewrite scale_fst | easy]. Qed.

(** infinite norm *)
Lemma max_abs_spec row : forall acc, 0 <= acc ->
  let m := fold_left (fun norm a => if Rlt_dec norm (Rabs (snd a)) then Rabs (snd a) else norm) row acc in
  acc <= m /\ (forall a : nat * R, In a row -> Rabs (snd a) <= m) /\ (m = acc \/ exists a, In a row /\ Rabs (snd a) = m).
Proof.
  induction row as [| b row IH]; intros acc P; cbn [fold_left].
  - cbv zeta. split; [lra |]. split; [easy | now left].
  - set (acc' := if Rlt_dec acc (Rabs (snd b)) then Rabs (snd b) else acc).
    assert (A : acc <= acc' /\ Rabs (snd b) <= acc' /\ (acc' = acc \/ acc' = Rabs (snd b))). { unfold acc'. destruct (Rlt_dec acc (Rabs (snd b))); split; [lra | split; [lra | now right] | lra | split; [lra | now left]]. }
    destruct A as (A1 & A2 & A3). destruct (IH acc' ltac:(lra)) as (M1 & M2 & M3). cbv zeta in *. split; [lra |]. split.
    + intros a [-> | I]; [lra | now apply M2].
    + destruct M3 as [M3 | (a & I & E)]; [| right; exists a; split; [now right | easy]].
      destruct A3 as [A3 | A3]; [left; lra | right; exists b; split; [now left | lra]].
Qed.
Lemma sum_pow_total p row : sum_pow p row = total (map (fun a => Rabs (snd a) ^ p) row).
Proof. unfold sum_pow. rewrite (fold_total _ (fun a => Rabs (snd a) ^ p)). lra. Qed.
Lemma rpower_root n p : 0 < n -> Rpower n (1 / INR (S p)) ^ S p = n.
Proof.
  intros P. rewrite <- Rpower_pow by apply exp_pos. rewrite Rpower_mult.
  replace (1 / INR (S p) * INR (S p)) with 1 by (field; apply not_0_INR; lia). now apply Rpower_1.
Qed.

(** the norm of a row is zero or positive, and zero only for zero rows *)
Lemma row_norm_spec k e : k <> Power 0 -> exists n, row_norm k (jac e) = Fin n /\
  (zero_row e /\ n = 0 \/ ~ zero_row e /\ 0 < n /\ unit_row k (times (1 / n) e)).
Proof.
  intros K. destruct k as [| p]; cbn [row_norm].
  - exists (max_abs (jac e)). split; [easy |]. destruct (max_abs_spec (jac e) 0 ltac:(lra)) as (M1 & M2 & M3). fold (max_abs (jac e)) in *. set (m := max_abs (jac e)) in *.
    destruct (Req_EM_T m 0) as [Z | Z].
    + left. split; [| easy]. intros a I. specialize (M2 a I). rewrite Z in M2. pose proof (Rabs_pos (snd a)). destruct (Req_EM_T (snd a) 0) as [| N]; [easy |]. apply Rabs_pos_lt in N. lra.
    + right. assert (P : 0 < m) by lra. destruct M3 as [M3 | (a & I & E)]; [lra |]. split; [intros ZR; rewrite (ZR a I), Rabs_R0 in E; lra |]. split; [easy |].
      assert (S' : forall v, Rabs (v * (1 / m)) = Rabs v / m). { intros v. rewrite Rabs_mult. rewrite (Rabs_pos_eq (1 / m)); [unfold Rdiv; lra |]. unfold Rdiv. rewrite Rmult_1_l. left. now apply Rinv_0_lt_compat. }
      cbn [unit_row times jac]. split.
      * exists (fst a, snd a * (1 / m)). split; [unfold scale; now apply (in_map (fun a => (fst a, snd a * (1 / m)))) |]. cbn [snd]. rewrite S', E. field. lra.
      * intros b J. unfold scale in J. apply in_map_iff in J as (b' & <- & J). cbn [snd]. rewrite S'. specialize (M2 b' J). apply (Rmult_le_reg_r m); [easy |]. unfold Rdiv. rewrite Rmult_assoc, Rinv_l by lra. lra.
  - destruct p as [| p]; [easy |]. cbn [root]. rewrite sum_pow_total. set (s := total (map (fun a => Rabs (snd a) ^ S p) (jac e))).
    assert (NN : forall a : nat * R, 0 <= Rabs (snd a) ^ S p) by (intros a; apply pow_le, Rabs_pos).
    assert (S0 : 0 <= s) by (apply total_nonneg; apply NN).
    destruct (Req_EM_T s 0) as [Z | Z].
    + exists 0. split; [easy |]. left. split; [| easy]. intros a I. pose proof (total_ge _ (fun a => Rabs (snd a) ^ S p) _ a NN I) as G. fold s in G. cbv beta in G.
      destruct (Req_EM_T (snd a) 0) as [| N]; [easy |]. apply Rabs_pos_lt in N. pose proof (pow_lt _ (S p) N). lra.
    + exists (Rpower s (1 / INR (S p))). split; [easy |]. right. assert (P : 0 < s) by lra. assert (RP : 0 < Rpower s (1 / INR (S p))) by apply exp_pos. split.
      { intros ZR. apply Z. apply total_zero. intros a I. rewrite (ZR a I), Rabs_R0. apply pow_i. lia. }
      split; [easy |]. cbn [unit_row times jac]. unfold scale. rewrite map_map. cbn [snd].
      set (n := Rpower s (1 / INR (S p))) in *. rewrite (total_map_scale _ _ (fun a => Rabs (snd a) ^ S p) ((1 / n) ^ S p)).
      * fold s. assert (E : n ^ S p = s) by now apply rpower_root. unfold Rdiv. rewrite Rmult_1_l. rewrite pow_inv. rewrite E. field. lra.
      * intros a. rewrite Rabs_mult, Rpow_mult_distr, (Rabs_pos_eq (1 / n)); [lra |]. unfold Rdiv. rewrite Rmult_1_l. left. now apply Rinv_0_lt_compat.
Qed.
