(** The factorization as a whole, the solution with the factors, and the rescaling. *)
From Coq Require Import List Arith Bool Lia Sorted Permutation Reals Lra.
From Verif Require Import Ilu_Model Ilu_Spec Ilu_Proofs.
Import ListNotations.
Open Scope R_scope.

Lemma tol_pos : 0 < tol_modif. Proof. unfold tol_modif. apply Rinv_0_lt_compat. apply pow_lt. lra. Qed.
Lemma eps_pos : 0 < eps. Proof. unfold eps. apply Rinv_0_lt_compat. apply pow_lt. lra. Qed.
Lemma pivot_nz v : pivot_inv v <> 0.
Proof.
  pose proof tol_pos as T. unfold pivot_inv. destruct (Rlt_dec tol_modif (Rabs v)) as [L|L].
  - assert (v <> 0) by (intros ->; rewrite Rabs_R0 in L; lra). unfold Rdiv. apply Rmult_integral_contrapositive_currified; [lra|apply Rinv_neq_0_compat; assumption].
  - unfold Rdiv. apply Rmult_integral_contrapositive_currified; [destruct (Rlt_dec v 0); lra|apply Rinv_neq_0_compat; lra].
Qed.
Lemma ilu2_row_ext tau tau2 n k b fs fs' f c : (forall p, (p < k)%nat -> nthf fs' p = nthf fs p) -> ilu2_row tau tau2 n k b fs f c -> ilu2_row tau tau2 n k b fs' f c.
Proof.
  intros H (H1 & H2). split; [|exact H2]. intros i L. rewrite H1 by exact L. destruct (Nat.ltb_spec i k) as [Lk|Lk].
  - rewrite H by exact Lk. f_equal. apply rs_ext. intros p Lp. rewrite H by lia. reflexivity.
  - f_equal. apply rs_ext. intros p Lp. rewrite H by lia. reflexivity.
Qed.
Definition big_entry (B : mat) (k i : nat) : R := coef (filter big (nth k B [])) i.
Definition row_ok n tau tau2 (B : mat) (fs : list lurow) (p : nat) : Prop :=
  good_f n p (nthf fs p) /\ good_lo p (lo (nthf fs p)) /\ exists c, ilu2_row tau tau2 n p (big_entry B p) fs (nthf fs p) c.
Lemma factor_from_ok n tau tau2 B : length B = n -> wf_mat B -> forall rows w fs done, B = done ++ rows -> length fs = length done -> (forall i, nx w i = Undef) ->
  (forall p, (p < length fs)%nat -> row_ok n tau tau2 B fs p) ->
  exists fs', factor_from n tau tau2 rows w fs = Some fs' /\ length fs' = n /\ forall p, (p < n)%nat -> row_ok n tau tau2 B fs' p.
Proof.
  intros LB WF. induction rows as [|r rows IH]; intros w fs done E L U H.
  - exists fs. split; [reflexivity|]. rewrite app_nil_r in E. subst done. rewrite LB in L. split; [exact L|]. intros p Lp. apply H. rewrite L. exact Lp.
  - cbn [factor_from]. set (k := length fs) in *. assert (Kn : (k < n)%nat) by (rewrite <- LB, E, app_length; cbn; lia).
    assert (Ir : In r B) by (rewrite E; apply in_or_app; right; left; reflexivity). destruct (WF r Ir) as (D & Br).
    destruct (uncompress_ok n k r w Kn U D) as (c & C & Ik & Bc & RV); [intros e Ie; rewrite <- LB; apply Br, Ie|].
    unfold factor_row. set (w0 := uncompress k r w) in *.
    destruct (elim_ok n k tau tau2 fs (fun i => coef (filter big r) i) Kn eq_refl (fun p Lp => proj1 (H p Lp)) (S n) 0 w0 c (hd w0)) as (w1 & c1 & E1 & (C1 & K1 & B1 & J1 & J2)).
    { split; [exact C|]. split; [exact Ik|]. split; [exact Bc|]. split; [intros i Li; lia|]. intros i _. cbn. rewrite RV. ring. }
    { rewrite after_0. apply C. } { lia. } { lia. }
    rewrite E1. destruct (compress_ok n k tau tau2 w1 c1 C1 K1 B1) as (w2 & f & E2 & U2 & G1 & G2 & G3 & F1 & F2 & F3 & F4 & F5). rewrite E2.
    assert (Nold : forall p, (p < k)%nat -> nthf (fs ++ [f]) p = nthf fs p) by (intros p Lp; unfold nthf; apply app_nth1; exact Lp).
    assert (Nnew : nthf (fs ++ [f]) k = f) by (unfold nthf, k; rewrite app_nth2, Nat.sub_diag by lia; reflexivity).
    apply (IH w2 (fs ++ [f]) (done ++ [r])); [rewrite <- app_assoc; exact E|rewrite !app_length; cbn; lia|exact U2|].
    intros p Lp. rewrite app_length in Lp. cbn [length] in Lp. fold k in Lp. destruct (Nat.eq_dec p k) as [->|Np].
    + unfold row_ok. rewrite Nnew. split; [split; [exact G1|split; [exact G2|rewrite F4, <- pivot_ok; apply pivot_nz]]|]. split; [exact G3|].
      exists (rowv w1). apply (ilu2_row_ext tau tau2 n k _ fs _ f _ Nold).
      assert (Eb : forall i, big_entry B k i = coef (filter big r) i).
      { intros i. unfold big_entry. rewrite E, L, app_nth2, Nat.sub_diag by lia. reflexivity. }
      split; [|split; [exact F1|split; [exact F2|split; [exact F3|split; [exact F4|exact F5]]]]].
      intros i Li. rewrite Eb. destruct (Nat.ltb_spec i k) as [Lk|Lk]; [apply J1, Lk|apply J2; lia].
    + assert (Lp' : (p < k)%nat) by lia. destruct (H p Lp') as (Q1 & Q2 & c' & Q3). unfold row_ok. rewrite Nold by exact Lp'. split; [exact Q1|]. split; [exact Q2|]. exists c'.
      apply (ilu2_row_ext tau tau2 n p _ fs); [|exact Q3]. intros q Lq. apply Nold. lia.
Qed.
Lemma factor_ok tau tau2 vl0 B : wf_mat B -> exists fs, factor tau tau2 vl0 B = Some fs /\ length fs = length B /\ forall p, (p < length B)%nat -> row_ok (length B) tau tau2 B fs p.
Proof. intros WF. apply (factor_from_ok (length B) tau tau2 B eq_refl WF B _ [] []); [reflexivity|reflexivity|reflexivity|intros p L; cbn in L; lia]. Qed.
Lemma coef_big r i : NoDup (map fst r) -> coef (filter big r) i = if Rlt_dec eps (Rabs (coef r i)) then coef r i else 0.
Proof.
  pose proof eps_pos as EP. induction r as [|e r IH]; intros D; cbn [filter coef].
  - rewrite Rabs_R0. destruct (Rlt_dec eps 0); [lra|reflexivity].
  - inversion D as [|? ? N D']; subst. destruct (Nat.eqb_spec (fst e) i) as [<-|Ne].
    + assert (Z : coef r (fst e) = 0) by (apply coef_0; intros x I E; apply N; rewrite <- E; apply in_map, I).
      assert (Zb : coef (filter big r) (fst e) = 0) by (apply coef_0; intros x I E; apply filter_In in I; apply N; rewrite <- E; apply in_map, I).
      rewrite Z, Rplus_0_r. unfold big at 1. destruct (Rlt_dec eps (Rabs (snd e))); cbn [coef]; rewrite Zb; [rewrite Nat.eqb_refl; ring|reflexivity].
    + rewrite Rplus_0_l, <- IH by exact D'. destruct (big e); [cbn [coef]; destruct (Nat.eqb_spec (fst e) i); [congruence|ring]|reflexivity].
Qed.

(** * Without dropping *)
Lemma keep00 v : (if keep 0 0 v then v else 0) = v.
Proof.
  unfold keep. rewrite Rmult_0_l. destruct (Req_dec v 0) as [->|N]; [destruct (Rlt_dec 0 (Rabs 0)); reflexivity|].
  apply Rabs_pos_lt in N. destruct (Rlt_dec 0 (Rabs v)); [reflexivity|lra].
Qed.
Lemma keep00' (b : bool) v : (if b then stored 0 0 v else 0) = if b then v else 0.
Proof. destruct b; [rewrite <- stored_keep; apply keep00|reflexivity]. Qed.
Lemma keep200 (b : bool) v : (if b then stored2 0 0 v else 0) = 0.
Proof. rewrite <- stored2_keep. unfold keep2. rewrite Rmult_0_l. destruct b; [|reflexivity]. destruct (Rlt_dec 0 (Rabs v)); reflexivity. Qed.
Lemma eff00 f c i : (forall j, coef (up2 f) j = 0) -> c * eff 0 0 f c i = c * coef (up f) i.
Proof.
  intros H. unfold eff. rewrite H. destruct (Req_dec c 0) as [->|N]; [ring|]. apply Rabs_pos_lt in N. destruct (Rlt_dec 0 (Rabs c)); [ring|lra].
Qed.
Lemma pivot_not_replaced v : Rabs (pivot_inv v) < 10 ^ 12 -> v <> 0 /\ pivot_inv v = / v.
Proof.
  pose proof tol_pos as T. unfold pivot_inv. destruct (Rlt_dec tol_modif (Rabs v)) as [L|L]; intros H.
  - split; [intros ->; rewrite Rabs_R0 in L; lra|unfold Rdiv; ring].
  - exfalso. unfold Rdiv in H. rewrite Rabs_mult in H. replace (Rabs (if Rlt_dec v 0 then -1 else 1)) with 1 in H by (destruct (Rlt_dec v 0); [rewrite Rabs_left by lra; ring|rewrite Rabs_right by lra; reflexivity]).
    unfold tol_modif in H. rewrite Rinv_inv in H. rewrite Rabs_right in H by (apply Rle_ge, pow_le; lra). lra.
Qed.
Lemma exact_lu n B fs : length fs = n -> (forall p, (p < n)%nat -> row_ok n 0 0 B fs p) -> (forall k, (k < n)%nat -> Rabs (ud (nthf fs k)) < 10 ^ 12) ->
  triangular fs /\ forall k i, (k < n)%nat -> (i < n)%nat -> big_entry B k i = rs n (fun p => Lmat fs k p * Umat fs p i).
Proof.
  intros L H Ud. split.
  - intros k Lk. rewrite L in Lk. destruct (H k Lk) as (((_ & G1) & _ & G3) & (_ & G4) & c & _ & _ & _ & _ & C & _). cbv zeta. split; [exact G4|]. split; [rewrite L; exact G1|]. split; [|exact G3].
    specialize (Ud k Lk). rewrite C, <- pivot_ok in Ud. apply pivot_not_replaced in Ud. destruct Ud as (N & _). intros E. apply N. rewrite E. ring.
  - intros k i Lk Li. destruct (H k Lk) as (_ & _ & c & B1 & C1 & C2 & _ & C4 & _). rewrite B1 by exact Li.
    pose proof (Ud k Lk) as Uk. rewrite <- pivot_ok in C4. rewrite C4 in Uk. apply pivot_not_replaced in Uk. destruct Uk as (Nz & Ei). rewrite Ei in C4.
    assert (Nld : ld (nthf fs k) <> 0) by (intros E; apply Nz; rewrite E; ring).
    assert (U2 : forall p, (p < n)%nat -> forall j, coef (up2 (nthf fs p)) j = 0).
    { intros p Lp j. destruct (H p Lp) as (_ & _ & c' & _ & _ & _ & X & _). rewrite X. apply keep200. }
    assert (Lo : forall p, (p < k)%nat -> Lmat fs k p = c p).
    { intros p Lp. unfold Lmat. apply Nat.ltb_lt in Lp. rewrite Lp, C1, Lp, <- stored_keep. apply keep00. }
    assert (Sum : forall m, (m <= k)%nat -> (m <= i)%nat -> rs m (fun p => c p * eff 0 0 (nthf fs p) (c p) i) = rs m (fun p => Lmat fs k p * Umat fs p i)).
    { intros m Lm Lmi. apply rs_ext. intros p Lp. rewrite eff00 by (apply U2; lia). rewrite Lo by lia. unfold Umat. replace (p <? i)%nat with true by (symmetry; apply Nat.ltb_lt; lia). reflexivity. }
    destruct (Nat.ltb_spec i k) as [Lik|Lik].
    + rewrite Sum by lia. rewrite (rs_split (S i) n); [cbn [rs]|lia|].
      * rewrite (Lo i Lik). replace (Umat fs i i) with (/ ud (nthf fs i)) by (unfold Umat; rewrite Nat.ltb_irrefl, Nat.eqb_refl; reflexivity). reflexivity.
      * intros p Lp. unfold Umat. replace (p <? i)%nat with false by (symmetry; apply Nat.ltb_ge; lia). replace (p =? i)%nat with false by (symmetry; apply Nat.eqb_neq; lia). ring.
    + rewrite Sum by lia. rewrite (rs_split (S k) n); [cbn [rs]|lia|].
      * f_equal. unfold Lmat. rewrite Nat.ltb_irrefl, Nat.eqb_refl. unfold Umat. destruct (Nat.ltb_spec k i) as [Lki|Lki].
        { rewrite C2. apply Nat.ltb_lt in Lki. rewrite keep00', Lki. field. exact Nld. }
        assert (k = i) by lia. subst i. rewrite Nat.eqb_refl, C4. rewrite Rinv_inv. field. exact Nld.
      * intros p Lp. unfold Lmat. replace (p <? k)%nat with false by (symmetry; apply Nat.ltb_ge; lia). replace (p =? k)%nat with false by (symmetry; apply Nat.eqb_neq; lia). ring.
Qed.

(** * Solve *)
Lemma rowvec_app a b x : rowvec (a ++ b) x = rowvec a x + rowvec b x. Proof. induction a as [|e a IH]; cbn; [ring|]. rewrite IH. ring. Qed.
Lemma rowvec_rev r x : rowvec (rev r) x = rowvec r x. Proof. induction r as [|e r IH]; cbn; [reflexivity|]. rewrite rowvec_app, IH. cbn. ring. Qed.
Lemma rowvec_ext r x y : (forall e, In e r -> x (fst e) = y (fst e)) -> rowvec r x = rowvec r y.
Proof. induction r as [|e r IH]; intros H; [reflexivity|]. cbn. rewrite H by (left; reflexivity). rewrite IH by (intros; apply H; right; assumption). reflexivity. Qed.
Lemma sub_fold k : forall r o, (forall e, In e r -> fst e <> k) ->
  forall i, fold_left (fun o e => upd o k (o k - snd e * o (fst e))) r o i = if Nat.eqb i k then o k - rowvec r o else o i.
Proof.
  induction r as [|e r IH]; intros o H i; cbn [fold_left rowvec].
  - destruct (Nat.eqb_spec i k) as [->|]; [ring|reflexivity].
  - rewrite IH by (intros; apply H; right; assumption). destruct (Nat.eqb_spec i k) as [->|N]; [|rewrite upd_other by exact N; reflexivity].
    rewrite upd_same. rewrite (rowvec_ext r _ o); [ring|]. intros x I. apply upd_other, H. right. exact I.
Qed.
Lemma lower_step_ok out k f : (forall e, In e (lo f) -> (fst e < k)%nat) -> forall i, lower_step out (k, f) i = if Nat.eqb i k then (out k - rowvec (lo f) out) * ld f else out i.
Proof.
  intros H i. unfold lower_step. cbn [fst snd]. assert (H' : forall e, In e (rev (lo f)) -> fst e <> k) by (intros e I; apply in_rev in I; specialize (H e I); lia).
  destruct (Nat.eqb_spec i k) as [->|N]; [rewrite upd_same|rewrite upd_other by exact N]; rewrite (sub_fold k _ out H').
  - rewrite Nat.eqb_refl, rowvec_rev. reflexivity.
  - apply Nat.eqb_neq in N. rewrite N. reflexivity.
Qed.
Lemma upper_step_ok out k f : (forall e, In e (up f) -> (k < fst e)%nat) -> forall i, upper_step out (k, f) i = if Nat.eqb i k then (out k - rowvec (up f) out) * ud f else out i.
Proof.
  intros H i. unfold upper_step. cbn [fst snd]. assert (H' : forall e, In e (up f) -> fst e <> k) by (intros e I; specialize (H e I); lia).
  destruct (Nat.eqb_spec i k) as [->|N]; [rewrite upd_same|rewrite upd_other by exact N]; rewrite (sub_fold k _ out H').
  - rewrite Nat.eqb_refl. reflexivity.
  - apply Nat.eqb_neq in N. rewrite N. reflexivity.
Qed.
Lemma lower_ok : forall l s out, (forall k, (k < length l)%nat -> forall e, In e (lo (nthf l k)) -> (fst e < s + k)%nat) ->
  let o := fold_left lower_step (combine (seq s (length l)) l) out in
  (forall i, (i < s)%nat -> o i = out i) /\ forall k, (k < length l)%nat -> o (s + k)%nat = (out (s + k)%nat - rowvec (lo (nthf l k)) o) * ld (nthf l k).
Proof.
  induction l as [|f l IH]; intros s out H; cbn [length seq combine fold_left]; [split; [reflexivity|intros k L; inversion L]|].
  assert (Hf : forall e, In e (lo f) -> (fst e < s)%nat) by (intros e I; specialize (H 0%nat ltac:(cbn; lia) e I); lia).
  specialize (IH (S s) (lower_step out (s, f))). cbv zeta in IH. set (o := fold_left lower_step _ _) in *.
  destruct IH as (I1 & I2). { intros k L e I. specialize (H (S k) ltac:(cbn; lia) e I). lia. }
  assert (Small : forall i, (i < s)%nat -> o i = out i).
  { intros i L. rewrite I1 by lia. rewrite lower_step_ok by exact Hf. replace (i =? s)%nat with false by (symmetry; apply Nat.eqb_neq; lia). reflexivity. }
  split; [exact Small|]. intros [|k] L.
  - rewrite Nat.add_0_r. rewrite I1 by lia. rewrite lower_step_ok by exact Hf. rewrite Nat.eqb_refl. cbn [nthf nth]. unfold nthf. cbn [nth].
    rewrite (rowvec_ext (lo f) o out); [reflexivity|]. intros e I. apply Small, Hf, I.
  - replace (s + S k)%nat with (S s + k)%nat by lia. cbn in L. rewrite I2 by lia. rewrite lower_step_ok by exact Hf. replace (S s + k =? s)%nat with false by (symmetry; apply Nat.eqb_neq; lia). reflexivity.
Qed.
Lemma upper_ok : forall l s out, (forall k, (k < length l)%nat -> forall e, In e (up (nthf l k)) -> (s + k < fst e)%nat) ->
  let o := fold_left upper_step (rev (combine (seq s (length l)) l)) out in
  (forall i, (i < s)%nat -> o i = out i) /\ forall k, (k < length l)%nat -> o (s + k)%nat = (out (s + k)%nat - rowvec (up (nthf l k)) o) * ud (nthf l k).
Proof.
  induction l as [|f l IH]; intros s out H; cbn [length seq combine rev fold_left]; [split; [reflexivity|intros k L; inversion L]|].
  assert (Hf : forall e, In e (up f) -> (s < fst e)%nat) by (intros e I; specialize (H 0%nat ltac:(cbn; lia) e I); lia).
  specialize (IH (S s) out). cbv zeta in *. rewrite fold_left_app. cbn [fold_left]. set (o1 := fold_left upper_step _ _) in *.
  destruct IH as (I1 & I2). { intros k L e I. specialize (H (S k) ltac:(cbn; lia) e I). lia. }
  assert (Big : forall i, i <> s -> upper_step o1 (s, f) i = o1 i).
  { intros i N. rewrite upper_step_ok by exact Hf. apply Nat.eqb_neq in N. rewrite N. reflexivity. }
  split; [intros i L; rewrite Big by lia; apply I1; lia|]. intros [|k] L.
  - rewrite Nat.add_0_r. rewrite (upper_step_ok o1 s f Hf s), Nat.eqb_refl. unfold nthf. cbn [nth]. rewrite I1 by lia.
    rewrite (rowvec_ext (up f) (upper_step o1 (s, f)) o1); [reflexivity|]. intros e I. apply Big. specialize (Hf e I). lia.
  - replace (s + S k)%nat with (S s + k)%nat by lia. cbn in L. rewrite Big by lia. rewrite I2 by lia. unfold nthf. cbn [nth]. f_equal. f_equal.
    apply rowvec_ext. intros e I. symmetry. apply Big. specialize (H (S k) ltac:(cbn; lia) e I). lia.
Qed.
Lemma Lmat_row fs k : triangular fs -> (k < length fs)%nat -> forall x, rs (length fs) (fun p => Lmat fs k p * x p) = rowvec (lo (nthf fs k)) x + x k / ld (nthf fs k).
Proof.
  intros T Lk x. destruct (T k Lk) as (T1 & _). cbv zeta in *. rewrite (rowvec_coef _ x (length fs)) by (intros e I; specialize (T1 e I); lia).
  rewrite (rs_ext _ (fun p => Lmat fs k p * x p) (fun p => coef (lo (nthf fs k)) p * x p + (if Nat.eqb p k then x k / ld (nthf fs k) else 0))).
  - rewrite rs_add. f_equal. rewrite (rs_one _ _ k Lk); [rewrite Nat.eqb_refl; reflexivity|]. intros i _ N. apply Nat.eqb_neq in N. rewrite N. reflexivity.
  - intros p Lp. unfold Lmat. destruct (Nat.ltb_spec p k) as [L|L].
    + replace (p =? k)%nat with false by (symmetry; apply Nat.eqb_neq; lia). ring.
    + rewrite coef_0 by (intros e I; specialize (T1 e I); lia). destruct (Nat.eqb_spec p k) as [->|]; unfold Rdiv; ring.
Qed.
Lemma Umat_row fs k : triangular fs -> (k < length fs)%nat -> forall x, rs (length fs) (fun p => Umat fs k p * x p) = rowvec (up (nthf fs k)) x + x k / ud (nthf fs k).
Proof.
  intros T Lk x. destruct (T k Lk) as (_ & T1 & _). cbv zeta in *. rewrite (rowvec_coef _ x (length fs)) by (intros e I; specialize (T1 e I); lia).
  rewrite (rs_ext _ (fun p => Umat fs k p * x p) (fun p => coef (up (nthf fs k)) p * x p + (if Nat.eqb p k then x k / ud (nthf fs k) else 0))).
  - rewrite rs_add. f_equal. rewrite (rs_one _ _ k Lk); [rewrite Nat.eqb_refl; reflexivity|]. intros i _ N. apply Nat.eqb_neq in N. rewrite N. reflexivity.
  - intros p Lp. unfold Umat. destruct (Nat.ltb_spec k p) as [L|L].
    + replace (p =? k)%nat with false by (symmetry; apply Nat.eqb_neq; lia). ring.
    + rewrite coef_0 by (intros e I; specialize (T1 e I); lia). rewrite (Nat.eqb_sym k p). destruct (Nat.eqb_spec p k) as [->|]; unfold Rdiv; ring.
Qed.
Lemma solve_ok fs b : triangular fs -> forall k, (k < length fs)%nat ->
  rs (length fs) (fun p => Lmat fs k p * rs (length fs) (fun i => Umat fs p i * solve fs b i)) = b k.
Proof.
  intros T k Lk. unfold solve, numbered. set (y := fold_left lower_step _ b).
  destruct (lower_ok fs 0 b) as (_ & L2). { intros j Lj e I. apply (T j Lj), I. } fold y in L2.
  destruct (upper_ok fs 0 y) as (_ & U2). { intros j Lj e I. apply (T j Lj) in I. lia. } set (z := fold_left upper_step _ y) in *. cbn [Nat.add] in L2, U2.
  rewrite (rs_ext _ _ (fun p => Lmat fs k p * y p)).
  - rewrite Lmat_row by assumption. destruct (T k Lk) as (_ & _ & N & _). cbv zeta in N. rewrite (L2 k Lk). field. exact N.
  - intros p Lp. f_equal. rewrite Umat_row by assumption. destruct (T p Lp) as (_ & _ & _ & N). cbv zeta in N. rewrite (U2 p Lp). field. exact N.
Qed.
(** linearity *)
Section Lin.
Variables (a b : R).
Definition lin (o x y : nat -> R) : Prop := forall i, o i = a * x i + b * y i.
Lemma lin_upd o x y k u v w : lin o x y -> u = a * v + b * w -> lin (upd o k u) (upd x k v) (upd y k w).
Proof. intros H E i. unfold upd. destruct (Nat.eqb i k); [exact E|apply H]. Qed.
Lemma lin_sub k : forall r o x y, lin o x y -> lin (fold_left (fun o e => upd o k (o k - snd e * o (fst e))) r o) (fold_left (fun o e => upd o k (o k - snd e * o (fst e))) r x) (fold_left (fun o e => upd o k (o k - snd e * o (fst e))) r y).
Proof. induction r as [|e r IH]; intros o x y H; [exact H|]. cbn [fold_left]. apply IH, lin_upd; [exact H|]. rewrite !(H _). ring. Qed.
Lemma lin_lower : forall l o x y, lin o x y -> lin (fold_left lower_step l o) (fold_left lower_step l x) (fold_left lower_step l y).
Proof.
  induction l as [|kf l IH]; intros o x y H; [exact H|]. cbn [fold_left]. apply IH. unfold lower_step. pose proof (lin_sub (fst kf) (rev (lo (snd kf))) o x y H) as S.
  apply lin_upd; [exact S|]. rewrite (S (fst kf)). ring.
Qed.
Lemma lin_upper : forall l o x y, lin o x y -> lin (fold_left upper_step l o) (fold_left upper_step l x) (fold_left upper_step l y).
Proof.
  induction l as [|kf l IH]; intros o x y H; [exact H|]. cbn [fold_left]. apply IH. unfold upper_step. pose proof (lin_sub (fst kf) (up (snd kf)) o x y H) as S.
  apply lin_upd; [exact S|]. rewrite (S (fst kf)). ring.
Qed.
Lemma solve_lin fs o x y : lin o x y -> lin (solve fs o) (solve fs x) (solve fs y).
Proof. intros H. apply lin_upper, lin_lower, H. Qed.
End Lin.

(** * Rescaling *)
Lemma safe_inv_pos x : 0 < safe_inv x.
Proof. pose proof eps_pos. unfold safe_inv. destruct (Rlt_dec x eps); [lra|]. unfold Rdiv. rewrite Rmult_1_l. apply Rinv_0_lt_compat. lra. Qed.
Lemma scale_iter_pos A : forall it d, (forall k, 0 < fst d k) -> (it <> 0%nat \/ forall k, 0 < snd d k) -> forall k, 0 < fst (scale_iter A it d) k /\ 0 < snd (scale_iter A it d) k.
Proof.
  induction it as [|it IH]; intros d H1 H2 k; cbn [scale_iter]; [destruct H2 as [X|H2]; [congruence|split; [apply H1|apply H2]]|].
  apply IH; [intros j; apply safe_inv_pos|right; intros j; apply safe_inv_pos].
Qed.
Lemma scaling_pos A it dl0 dr0 : it <> 0%nat -> forall k, 0 < fst (scaling A it dl0 dr0) k /\ 0 < snd (scaling A it dl0 dr0) k.
Proof.
  intros N k. unfold scaling. cbn [fst snd]. destruct (scale_iter_pos A it (scale_start A dl0, dr0) (fun j => safe_inv_pos _) (or_introl N) k) as (P1 & P2).
  split; apply sqrt_lt_R0; assumption.
Qed.
Lemma map_rows_ext f g : (forall k e, f k e = g k e) -> forall A k, map_rows f k A = map_rows g k A.
Proof. intros H. induction A as [|r A IH]; intros k; [reflexivity|]. cbn. rewrite IH. f_equal. apply map_ext. intros e. rewrite H. reflexivity. Qed.
Lemma map_rows_map f g : forall A k, map_rows f k (map_rows g k A) = map_rows (fun k e => f k (fst e, g k e)) k A.
Proof. induction A as [|r A IH]; intros k; [reflexivity|]. cbn. rewrite IH, map_map. reflexivity. Qed.
Lemma map_rows_id : forall A k, map_rows (fun _ e => snd e) k A = A.
Proof. induction A as [|r A IH]; intros k; [reflexivity|]. cbn. rewrite IH. f_equal. rewrite <- (map_id r) at 2. apply map_ext. intros (i, v). reflexivity. Qed.
Lemma unscale_scale d A : (forall k, 0 < fst d k /\ 0 < snd d k) -> unscale_matrix d (scale_matrix d A) = A.
Proof.
  intros P. unfold unscale_matrix, scale_matrix. rewrite map_rows_map. rewrite (map_rows_ext _ (fun _ e => snd e)); [apply map_rows_id|].
  intros k e. cbn [fst snd]. destruct (P k) as (P1 & _). destruct (P (fst e)) as (_ & P2). field. split; lra.
Qed.
Lemma map_rows_length f : forall A k, length (map_rows f k A) = length A. Proof. induction A as [|r A IH]; intros k; [reflexivity|]. cbn. rewrite IH. reflexivity. Qed.
Lemma map_rows_nth f : forall A s k, (k < length A)%nat -> nth k (map_rows f s A) [] = map (fun e => (fst e, f (s + k)%nat e)) (nth k A []).
Proof.
  induction A as [|r A IH]; intros s k L; [inversion L|]. destruct k as [|k]; cbn [map_rows nth]; [rewrite Nat.add_0_r; reflexivity|]. cbn in L. rewrite IH by lia.
  replace (S s + k)%nat with (s + S k)%nat by lia. reflexivity.
Qed.
Lemma map_rows_wf f A : wf_mat A -> wf_mat (map_rows f 0 A).
Proof.
  intros WF r I. apply In_nth with (d := []) in I. destruct I as (k & L & <-). rewrite map_rows_length in *. rewrite map_rows_nth by exact L.
  destruct (WF (nth k A []) (nth_In _ _ L)) as (D & B). rewrite map_map. cbn [fst]. split; [exact D|]. intros e I. apply in_map_iff in I. destruct I as (x & <- & I). exact (B x I).
Qed.
Lemma scale_coef (d : (nat -> R) * (nat -> R)) (r : row) k i : coef (map (fun e => (fst e, fst d k * snd e * snd d (fst e))) r) i = fst d k * coef r i * snd d i.
Proof.
  induction r as [|e r IH]; cbn [map coef fst snd]; [ring|]. rewrite IH. destruct (Nat.eqb_spec (fst e) i) as [->|]; ring.
Qed.
Lemma scale_entry (d : (nat -> R) * (nat -> R)) A k i : (k < length A)%nat -> entry (scale_matrix d A) k i = fst d k * entry A k i * snd d i.
Proof. intros L. unfold entry, scale_matrix. rewrite map_rows_nth by exact L. apply scale_coef. Qed.
Lemma rescale_nth (d : (nat -> R) * (nat -> R)) : forall fs s k, (k < length fs)%nat -> nthf (rescale_from d s fs) k = rescale1 d (s + k) (nthf fs k).
Proof.
  unfold nthf. induction fs as [|f fs IH]; intros s k L; [inversion L|]. destruct k as [|k]; cbn [rescale_from nth]; [rewrite Nat.add_0_r; reflexivity|]. cbn in L. rewrite IH by lia.
  replace (S s + k)%nat with (s + S k)%nat by lia. reflexivity.
Qed.
Lemma rescale_length d : forall fs s, length (rescale_from d s fs) = length fs. Proof. induction fs as [|f fs IH]; intros s; [reflexivity|]. cbn. rewrite IH. reflexivity. Qed.
Lemma coef_div (r : row) (g : nat -> R) i : coef (map (fun e => (fst e, snd e / g (fst e))) r) i = coef r i / g i.
Proof. induction r as [|e r IH]; cbn [map coef fst snd]; [unfold Rdiv; ring|]. rewrite IH. destruct (Nat.eqb_spec (fst e) i) as [->|]; unfold Rdiv; ring. Qed.
Lemma rescale_mats d fs : (forall k, 0 < fst d k /\ 0 < snd d k) -> triangular fs -> triangular (rescale d fs) /\
  forall k p, (k < length fs)%nat -> Lmat (rescale d fs) k p = Lmat fs k p / fst d k /\ Umat (rescale d fs) k p = Umat fs k p / snd d p.
Proof.
  intros P T. unfold rescale. split.
  - intros k L. rewrite rescale_length in *. rewrite rescale_nth by exact L. destruct (T k L) as (T1 & T2 & T3 & T4). cbv zeta in *. destruct (P k) as (P1 & P2). unfold rescale1. cbn [Nat.add lo ld ud up].
    split; [|split; [|split]].
    + intros e I. apply in_map_iff in I. destruct I as (x & <- & I). exact (T1 x I).
    + intros e I. apply in_map_iff in I. destruct I as (x & <- & I). exact (T2 x I).
    + apply Rmult_integral_contrapositive_currified; [exact T3|lra].
    + apply Rmult_integral_contrapositive_currified; [exact T4|lra].
  - intros k p L. unfold Lmat, Umat. rewrite rescale_nth by exact L. destruct (T k L) as (_ & _ & T3 & T4). cbv zeta in *. unfold rescale1. cbn [Nat.add lo ld ud up]. destruct (P k) as (P1 & P2). split.
    + destruct (p <? k)%nat; [apply (coef_div _ (fun _ => fst d k))|]. destruct (p =? k)%nat; [|unfold Rdiv; ring]. field; split; lra.
    + destruct (k <? p)%nat; [apply coef_div|]. destruct (Nat.eqb_spec k p) as [<-|]; [|unfold Rdiv; ring]. field; split; lra.
Qed.
(** unit rows *)
Lemma sumsq_map w r s : sumsq w r s = s + rowvec (map (fun e => (fst e, snd e * snd e)) r) w.
Proof.
  unfold sumsq. revert s. induction r as [|e r IH]; intros s; cbn [fold_left map rowvec fst snd]; [ring|]. rewrite IH. ring.
Qed.
Lemma scale_iter_last A : forall it d, it <> 0%nat -> fst (scale_iter A it d) = scale_rows A (snd (scale_iter A it d)).
Proof.
  induction it as [|it IH]; intros d N; [congruence|]. cbn [scale_iter]. destruct it as [|it]; [reflexivity|]. apply IH. discriminate.
Qed.
Lemma unit_rows A it dl0 dr0 k : it <> 0%nat -> (k < length A)%nat -> let d := scaling A it dl0 dr0 in
  eps <= rowvec (map (fun e => (fst e, snd e ^ 2)) (nth k A [])) (fun j => snd d j ^ 2) ->
  fold_right (fun e s => snd e ^ 2 + s) 0 (nth k (scale_matrix d A) []) = 1.
Proof.
  intros N L d E. unfold scale_matrix. rewrite map_rows_nth by exact L. cbn [Nat.add].
  set (d0 := scale_iter A it (scale_start A dl0, dr0)) in *.
  pose proof (scale_iter_pos A it (scale_start A dl0, dr0) (fun j => safe_inv_pos _) (or_introl N)) as P. fold d0 in P.
  assert (S2 : forall j, snd d j ^ 2 = snd d0 j) by (intros j; unfold d, scaling; fold d0; cbn [snd]; rewrite <- Rsqr_pow2; apply Rsqr_sqrt; left; apply P).
  assert (S1 : fst d k ^ 2 = fst d0 k) by (unfold d, scaling; fold d0; cbn [fst]; rewrite <- Rsqr_pow2; apply Rsqr_sqrt; left; apply P).
  assert (X : fold_right (fun e s => snd e ^ 2 + s) 0 (map (fun e => (fst e, fst d k * snd e * snd d (fst e))) (nth k A [])) =
    fst d k ^ 2 * rowvec (map (fun e => (fst e, snd e ^ 2)) (nth k A [])) (fun j => snd d j ^ 2)).
  { clear E; induction (nth k A []) as [|e r IH]; cbn [map fold_right rowvec fst snd]; [ring|]. rewrite IH. ring. }
  rewrite X, S1. set (q := rowvec _ _) in *. unfold d0. rewrite scale_iter_last by exact N. fold d0. unfold scale_rows. rewrite sumsq_map, Rplus_0_l.
  replace (rowvec (map (fun e => (fst e, snd e * snd e)) (nth k A [])) (snd d0)) with q.
  - pose proof eps_pos. unfold safe_inv. destruct (Rlt_dec q eps); [lra|]. field; lra.
  - unfold q. clear -S2. induction (nth k A []) as [|e r IH]; cbn [map rowvec fst snd]; [reflexivity|]. rewrite IH, S2. ring.
Qed.
