(** Proofs about automatic differentiation. *)
From Coq Require Import Reals List Bool Arith Lia Lra Sorted FunctionalExtensionality.
From Verif Require Import Util Row_Model Row_Proofs Row_Props Merger_Model Merger_Proofs Merger_Props Autodiff_Model Autodiff_Spec.
Import ListNotations.
Open Scope R_scope.

(** ** Derivatives of real functions *)
Lemma isz_spec : forall x, isz x = true <-> x = 0.
Proof. intro x. unfold isz. destruct (Req_EM_T x 0); split; intros; auto; discriminate. Qed.
Lemma isz_ne : forall x, x <> 0 -> isz x = false.
Proof. intros x H. destruct (isz x) eqn:E; auto. apply isz_spec in E. contradiction. Qed.
Lemma isz_0 : isz 0 = true. Proof. now apply isz_spec. Qed.

Lemma lim_eq : forall f x l l', derivable_pt_lim f x l -> l = l' -> derivable_pt_lim f x l'.
Proof. intros. now subst. Qed.
Lemma lim_loc : forall f g a l eps, 0 < eps -> (forall t, Rabs (t - a) < eps -> f t = g t) ->
  derivable_pt_lim f a l -> derivable_pt_lim g a l.
Proof.
  intros f g a l eps He E D e2 H2. destruct (D e2 H2) as [d Hd].
  assert (Hm : 0 < Rmin d eps) by (apply Rmin_pos; [apply cond_pos|auto]).
  exists (mkposreal _ Hm). intros h Hh Hl. cbn in Hl.
  rewrite <- !E.
  - apply Hd; auto. eapply Rlt_le_trans; [exact Hl|apply Rmin_l].
  - replace (a - a) with 0 by ring. rewrite Rabs_R0. auto.
  - replace (a + h - a) with h by ring. eapply Rlt_le_trans; [exact Hl|apply Rmin_r].
Qed.
Lemma lim_ext : forall f g a l, (forall t, f t = g t) -> derivable_pt_lim f a l -> derivable_pt_lim g a l.
Proof. intros. eapply (lim_loc f g a l 1); auto. lra. Qed.

(** A differentiable function stays close to its value. *)
Lemma lim_near : forall f a l d, derivable_pt_lim f a l -> 0 < d ->
  exists eps, 0 < eps /\ forall t, Rabs (t - a) < eps -> Rabs (f t - f a) < d.
Proof.
  intros f a l d D Hd.
  assert (C : continuity_pt f a). { apply derivable_continuous_pt. exists l. exact D. }
  destruct (C d Hd) as (eps & He & H). exists eps. split; auto. intros t Ht.
  destruct (Req_dec t a) as [->|N].
  - replace (f a - f a) with 0 by ring. rewrite Rabs_R0. auto.
  - apply H. split; [|exact Ht]. split; [exact I|auto].
Qed.
Lemma lim_pos : forall f a l, derivable_pt_lim f a l -> 0 < f a ->
  exists eps, 0 < eps /\ forall t, Rabs (t - a) < eps -> 0 < f t.
Proof.
  intros f a l D Hp. destruct (lim_near f a l (f a) D Hp) as (eps & He & H). exists eps. split; auto.
  intros t Ht. specialize (H t Ht). apply Rabs_def2 in H. lra.
Qed.
Lemma lim_neg : forall f a l, derivable_pt_lim f a l -> f a < 0 ->
  exists eps, 0 < eps /\ forall t, Rabs (t - a) < eps -> f t < 0.
Proof.
  intros f a l D Hp. destruct (lim_near f a l (- f a) D ltac:(lra)) as (eps & He & H). exists eps. split; auto.
  intros t Ht. specialize (H t Ht). apply Rabs_def2 in H. lra.
Qed.

Lemma lim_comp : forall f g a l m, derivable_pt_lim f a l -> derivable_pt_lim g (f a) m ->
  derivable_pt_lim (fun t => g (f t)) a (m * l).
Proof. intros f g a l m D E. exact (derivable_pt_lim_comp f g a l m D E). Qed.
Lemma lim_add : forall f g a l m, derivable_pt_lim f a l -> derivable_pt_lim g a m ->
  derivable_pt_lim (fun t => f t + g t) a (l + m).
Proof. intros. now apply derivable_pt_lim_plus. Qed.
Lemma lim_sub : forall f g a l m, derivable_pt_lim f a l -> derivable_pt_lim g a m ->
  derivable_pt_lim (fun t => f t - g t) a (l - m).
Proof. intros. now apply derivable_pt_lim_minus. Qed.
Lemma lim_mul : forall f g a l m, derivable_pt_lim f a l -> derivable_pt_lim g a m ->
  derivable_pt_lim (fun t => f t * g t) a (l * g a + f a * m).
Proof. intros. now apply derivable_pt_lim_mult. Qed.
Lemma lim_const : forall c a, derivable_pt_lim (fun _ => c) a 0.
Proof. intros. apply derivable_pt_lim_const. Qed.
Lemma lim_id : forall a, derivable_pt_lim (fun t => t) a 1.
Proof. intros. apply derivable_pt_lim_id. Qed.
Lemma lim_scal : forall k f a l, derivable_pt_lim f a l -> derivable_pt_lim (fun t => k * f t) a (k * l).
Proof. intros. now apply derivable_pt_lim_scal. Qed.
Lemma lim_opp : forall f a l, derivable_pt_lim f a l -> derivable_pt_lim (fun t => - f t) a (- l).
Proof. intros. now apply derivable_pt_lim_opp. Qed.
Lemma lim_div : forall f g a l m, derivable_pt_lim f a l -> derivable_pt_lim g a m -> g a <> 0 ->
  derivable_pt_lim (fun t => f t / g t) a ((l * g a - m * f a) / (g a * g a)).
Proof. intros. eapply lim_eq; [apply (derivable_pt_lim_div f g a l m); auto|reflexivity]. Qed.

(** Elementary functions *)
Lemma lim_ln : forall z, 0 < z -> derivable_pt_lim ln z (1 / z).
Proof. intros. eapply lim_eq; [apply derivable_pt_lim_ln; auto|]. unfold Rdiv. lra. Qed.
Lemma lim_sqrt : forall z, 0 < z -> derivable_pt_lim sqrt z (/ 2 / sqrt z).
Proof.
  intros z H. eapply lim_eq; [apply derivable_pt_lim_sqrt; auto|].
  assert (0 < sqrt z) by now apply sqrt_lt_R0. field. lra.
Qed.
Lemma lim_abs : forall z, z <> 0 -> derivable_pt_lim Rabs z (if ltz z then -1 else 1).
Proof.
  intros z H. unfold ltz. destruct (Rlt_dec z 0).
  - now apply Rabs_derive_2.
  - apply Rabs_derive_1. lra.
Qed.
Lemma lim_powR : forall k z, 0 < z -> derivable_pt_lim (fun t => Rpower t k) z (Rpower z k * k / z).
Proof.
  intros k z H. eapply lim_eq; [apply derivable_pt_lim_power; auto|].
  replace (Rpower z (k - 1)) with (Rpower z k / z); [field; lra|].
  unfold Rminus. rewrite Rpower_plus, Rpower_Ropp, Rpower_1; auto.
Qed.
Lemma lim_expR : forall k z, 0 < k -> derivable_pt_lim (fun t => Rpower k t) z (Rpower k z * ln k).
Proof.
  intros k z H. unfold Rpower.
  eapply lim_eq; [apply (lim_comp (fun t => t * ln k) exp z (ln k))|reflexivity].
  - eapply lim_eq; [apply lim_mul; [apply lim_id|apply lim_const]|]. cbn beta. ring.
  - apply derivable_pt_lim_exp.
Qed.
Lemma lim_pow : forall n z, derivable_pt_lim (fun t => t ^ n) z (INR n * z ^ pred n).
Proof. intros. apply derivable_pt_lim_pow. Qed.
Lemma pow_pred : forall z n, z <> 0 -> INR n * z ^ pred n = z ^ n * INR n / z.
Proof. intros z n H. destruct n; cbn [pred]; [cbn; field; auto|]. cbn [pow]. field. auto. Qed.
Lemma lim_powZ : forall k z, z <> 0 -> derivable_pt_lim (fun t => powerRZ t k) z (powerRZ z k * IZR k / z).
Proof.
  intros k z H. destruct k as [|p|p]; cbn [powerRZ].
  - eapply lim_eq; [apply lim_const|]. field. auto.
  - eapply lim_eq; [apply lim_pow|]. rewrite pow_pred by auto. rewrite INR_IPR. reflexivity.
  - eapply lim_eq.
    + apply (lim_ext (fun t => 1 / t ^ Pos.to_nat p)); [intro t; apply Rmult_1_l|].
      apply lim_div; [apply lim_const|apply lim_pow|]. now apply pow_nonzero.
    + rewrite pow_pred by auto. rewrite INR_IPR.
      change (IZR (Z.neg p)) with (- IPR p). field. split; auto. now apply pow_nonzero.
Qed.

Lemma c_pow_pos : forall z k, 0 < z -> c_pow z k = Rpower z k.
Proof. intros z k H. unfold c_pow. destruct (Rlt_dec 0 z); auto. contradiction. Qed.
Lemma Int_part_IZR : forall k, Int_part (IZR k) = k.
Proof. intro k. unfold Int_part. rewrite <- (up_tech (IZR k) k); [lia|lra|]. rewrite plus_IZR. lra. Qed.
Lemma c_pow_Z : forall z k, z <> 0 -> c_pow z (IZR k) = powerRZ z k.
Proof.
  intros z k H. unfold c_pow. destruct (Rlt_dec 0 z) as [P|P].
  - now rewrite powerRZ_Rpower.
  - destruct (Req_EM_T z 0); [contradiction|]. now rewrite Int_part_IZR.
Qed.
Lemma c_pow_n : forall z n, c_pow z (INR n) = z ^ n.
Proof.
  intros z n. destruct (Req_dec z 0) as [->|N].
  - unfold c_pow. destruct (Rlt_dec 0 0); [lra|]. destruct (Req_EM_T 0 0); [|lra].
    destruct (Req_EM_T (INR n) 0) as [E|E].
    + apply (INR_eq n 0) in E. subst. cbn. reflexivity.
    + destruct n; [cbn in E; lra|]. now rewrite pow_i by lia.
  - rewrite INR_IZR_INZ, c_pow_Z by auto. now rewrite <- pow_powerRZ.
Qed.

(** atan2 *)
Lemma c_atan2_right : forall y x, 0 < x -> c_atan2 y x = atan (y / x).
Proof.
  intros y x H. unfold c_atan2. destruct (Rlt_dec 0 y) as [P|P].
  - replace (y / x) with (/ (x / y)) by (field; lra). rewrite atan_inv; auto. apply Rdiv_lt_0_compat; auto.
  - destruct (Rlt_dec y 0) as [Q|Q].
    + replace (x / y) with (- (x / - y)) by (field; lra). rewrite atan_opp.
      replace (y / x) with (- / (x / - y)) by (field; lra). rewrite atan_opp, atan_inv; [lra|].
      apply Rdiv_lt_0_compat; lra.
    + destruct (Rlt_dec x 0); [lra|]. replace y with 0 by lra. unfold Rdiv. rewrite Rmult_0_l, atan_0. auto.
Qed.
Lemma sq_pos : forall a b, a <> 0 -> 0 < b * b + a * a.
Proof. intros a b H. pose proof (Rsqr_pos_lt a H). unfold Rsqr in *. pose proof (Rle_0_sqr b). unfold Rsqr in *. lra. Qed.
Lemma lim_atan : forall z, derivable_pt_lim atan z (/ (1 + z * z)).
Proof. intro z. eapply lim_eq; [apply derivable_pt_lim_atan|]. unfold Rsqr. unfold Rdiv. field. pose proof (sq_pos 1 z ltac:(lra)). lra. Qed.
Lemma lim_atan2 : forall f g a l m, derivable_pt_lim f a l -> derivable_pt_lim g a m -> f a <> 0 \/ 0 < g a ->
  derivable_pt_lim (fun t => c_atan2 (f t) (g t)) a
    (g a / (g a * g a + f a * f a) * l + - f a / (g a * g a + f a * f a) * m).
Proof.
  intros f g a l m D E H.
  assert (K : forall z, 0 < 1 + z * z) by (intro z; pose proof (sq_pos 1 z ltac:(lra)); lra).
  assert (U : 0 < f a \/ f a < 0 \/ 0 < g a) by (destruct H; [destruct (Rtotal_order (f a) 0); lra|lra]).
  destruct U as [U|[U|U]].
  - destruct (lim_pos f a l D U) as (eps & He & Hp).
    eapply (lim_loc (fun t => PI / 2 - atan (g t / f t)) _ a _ eps He).
    + intros t Ht. specialize (Hp t Ht). unfold c_atan2. destruct (Rlt_dec 0 (f t)); [auto|lra].
    + eapply lim_eq.
      * apply lim_sub; [apply lim_const|]. eapply (lim_comp _ atan); [apply lim_div; eauto; lra|apply lim_atan].
      * cbn beta. pose proof (K (g a / f a)). pose proof (sq_pos (f a) (g a) ltac:(lra)). field. repeat split; try lra.
  - destruct (lim_neg f a l D U) as (eps & He & Hp).
    eapply (lim_loc (fun t => - (PI / 2) - atan (g t / f t)) _ a _ eps He).
    + intros t Ht. specialize (Hp t Ht). unfold c_atan2. destruct (Rlt_dec 0 (f t)); [lra|].
      destruct (Rlt_dec (f t) 0); [auto|lra].
    + eapply lim_eq.
      * apply lim_sub; [apply lim_const|]. eapply (lim_comp _ atan); [apply lim_div; eauto; lra|apply lim_atan].
      * cbn beta. pose proof (K (g a / f a)). pose proof (sq_pos (f a) (g a) ltac:(lra)). field. repeat split; try lra.
  - destruct (lim_pos g a m E U) as (eps & He & Hp).
    eapply (lim_loc (fun t => atan (f t / g t)) _ a _ eps He).
    + intros t Ht. specialize (Hp t Ht). now rewrite c_atan2_right.
    + eapply lim_eq.
      * eapply (lim_comp _ atan); [apply lim_div; eauto; lra|apply lim_atan].
      * cbn beta. pose proof (K (f a / g a)). pose proof (sq_pos (g a) (f a) ltac:(lra)). field. repeat split; try lra.
Qed.

(** soft absolute value *)
Lemma lim_root : forall f a l k, derivable_pt_lim f a l -> k <> 0 ->
  derivable_pt_lim (fun t => sqrt (f t * f t + k * k)) a (f a / sqrt (f a * f a + k * k) * l).
Proof.
  intros f a l k D H. pose proof (sq_pos k (f a) H) as P.
  eapply lim_eq.
  - eapply (lim_comp _ sqrt); [apply lim_add; [apply lim_mul; eauto|apply lim_const]|]. now apply lim_sqrt.
  - cbn beta. pose proof (sqrt_lt_R0 _ P). field. lra.
Qed.

(** ** Rows and events as linear forms *)
Lemma line_0 : forall x h, line x h 0 = x.
Proof. intros. apply functional_extensionality. intro i. unfold line. ring. Qed.
Lemma lform_nil : forall h, lform [] h = 0.
Proof. reflexivity. Qed.
Lemma lform_cons : forall e r h, lform (e :: r) h = h (fst e) * snd e + lform r h.
Proof. reflexivity. Qed.
Lemma lform_app : forall a b h, lform (a ++ b) h = lform a h + lform b h.
Proof. intros a b h. induction a as [|e a IH]; cbn [app]; rewrite ?lform_cons, ?lform_nil; [ring|]. rewrite IH. ring. Qed.
Lemma lform_scale : forall c r h, lform (row_scale c r) h = c * lform r h.
Proof.
  intros c r h. unfold row_scale. induction r as [|e r IH]; cbn [map]; rewrite ?lform_cons, ?lform_nil; [ring|].
  rewrite IH. cbn [fst snd]. ring.
Qed.
Lemma lform_add : forall r i m h, lform (row_add r i m) h = lform r h + h i * m.
Proof.
  intros r i m h. unfold row_add. induction r as [|[k v] r IH]; cbn [upd_at]; [rewrite lform_cons, !lform_nil; cbn [fst snd]; ring|].
  destruct (Nat.eqb_spec k i) as [->|N]; rewrite !lform_cons; cbn [fst snd]; [ring|]. rewrite IH. ring.
Qed.
Definition ev_form (h : point) (ev : event) : R :=
  match ev with EvAdd i m => h i * m | EvRow m r => m * lform r h end.
Definition evs_form (h : point) (evs : list event) : R := fold_right (fun ev s => ev_form h ev + s) 0 evs.
Lemma evs_nil : forall h, evs_form h [] = 0.
Proof. reflexivity. Qed.
Lemma evs_cons : forall h e l, evs_form h (e :: l) = ev_form h e + evs_form h l.
Proof. reflexivity. Qed.
Lemma evs_app : forall h a b, evs_form h (a ++ b) = evs_form h a + evs_form h b.
Proof. intros h a b. induction a as [|e a IH]; cbn [app]; rewrite ?evs_nil, ?evs_cons; [ring|]. rewrite IH. ring. Qed.
Lemma row_event_form : forall ev r h, lform (row_event r ev) h = lform r h + ev_form h ev.
Proof.
  intros [i m|m es] r h; cbn [row_event ev_form]; [apply lform_add|].
  revert r. induction es as [|e es IH]; intro r; cbn [fold_left]; [rewrite lform_nil; ring|].
  rewrite IH, lform_add, lform_cons. ring.
Qed.
Lemma row_run_form : forall evs r h, lform (row_run r evs) h = lform r h + evs_form h evs.
Proof.
  unfold row_run. induction evs as [|ev evs IH]; intros r h; cbn [fold_left]; rewrite ?evs_nil, ?evs_cons; [ring|].
  rewrite IH, row_event_form. ring.
Qed.
Lemma row_add_nodup : forall r i m, NoDup (map fst r) -> NoDup (map fst (row_add r i m)).
Proof. intros. apply (C28_row_access R 0 1 Rplus Rmult Rminus Ropp RTheory r i (fun v => v + m) H). Qed.
Lemma row_event_nodup : forall ev r, NoDup (map fst r) -> NoDup (map fst (row_event r ev)).
Proof.
  intros [i m|m es] r H; cbn [row_event]; [now apply row_add_nodup|].
  revert r H. induction es as [|e es IH]; intros r H; cbn [fold_left]; auto. apply IH. now apply row_add_nodup.
Qed.
Lemma row_run_nodup : forall evs r, NoDup (map fst r) -> NoDup (map fst (row_run r evs)).
Proof.
  unfold row_run. induction evs as [|ev evs IH]; intros r H; cbn [fold_left]; auto. apply IH. now apply row_event_nodup.
Qed.
Lemma row_scale_keys : forall c r, map fst (row_scale c r) = map fst r.
Proof. intros c r. unfold row_scale. rewrite map_map. reflexivity. Qed.

(** A linear form is determined by the values at the columns. *)
Definition unit (i : nat) : point := fun j => if Nat.eqb j i then 1 else 0.
Lemma lform_unit : forall r i, lform r (unit i) = at_index 0 Rplus Nat.eq_dec r i.
Proof.
  intros r i. unfold at_index. induction r as [|[k v] r IH]; auto. rewrite lform_cons, IH. cbn [filter fst snd]. unfold unit at 1.
  destruct (Nat.eqb_spec k i) as [E|E]; destruct (Nat.eq_dec k i) as [F|F]; try contradiction; cbn [map fold_right snd]; ring.
Qed.
Definition sum_to (N : nat) (f : nat -> R) : R := fold_right (fun i s => f i + s) 0 (seq 0 N).
Lemma sum_seq_add : forall l (f g : nat -> R), fold_right (fun i s => (f i + g i) + s) 0 l =
  fold_right (fun i s => f i + s) 0 l + fold_right (fun i s => g i + s) 0 l.
Proof. intros l f g. induction l as [|a l IH]; cbn; [ring|]. rewrite IH. ring. Qed.
Lemma sum_seq_one : forall l k (c : R), NoDup l ->
  fold_right (fun i s => (if Nat.eqb k i then c else 0) + s) 0 l = if in_dec Nat.eq_dec k l then c else 0.
Proof.
  intros l k c H. induction H as [|a l N H IH]; auto. cbn [fold_right]. rewrite IH.
  destruct (Nat.eqb_spec k a) as [->|E].
  - destruct (in_dec Nat.eq_dec a l); [contradiction|]. destruct (in_dec Nat.eq_dec a (a :: l)) as [|C]; [ring|]. exfalso. apply C. now left.
  - destruct (in_dec Nat.eq_dec k l) as [I|I]; destruct (in_dec Nat.eq_dec k (a :: l)) as [J|J]; try ring.
    + exfalso. apply J. now right.
    + destruct J; [congruence|contradiction].
Qed.
Lemma lform_sum : forall N r h, (forall k, In k (map fst r) -> (k < N)%nat) ->
  lform r h = sum_to N (fun i => h i * at_index 0 Rplus Nat.eq_dec r i).
Proof.
  intros N r h. unfold sum_to. induction r as [|[k v] r IH]; intro H.
  - rewrite lform_nil. induction (seq 0 N) as [|a l IHl]; cbn [fold_right]; auto. rewrite <- IHl. unfold at_index. cbn [filter map fold_right]. ring.
  - rewrite lform_cons. cbn [fst snd]. rewrite IH by (intros; apply H; now right).
    assert (K : (k < N)%nat) by (apply H; now left).
    rewrite (Rplus_comm (h k * v)).
    replace (h k * v) with (fold_right (fun i s => (if Nat.eqb k i then h k * v else 0) + s) 0 (seq 0 N)).
    2:{ rewrite sum_seq_one by apply seq_NoDup. destruct (in_dec Nat.eq_dec k (seq 0 N)) as [|C]; auto.
        exfalso. apply C. apply in_seq. lia. }
    rewrite <- sum_seq_add. clear - H. induction (seq 0 N) as [|a l IH]; auto. cbn [fold_right]. rewrite IH. f_equal.
    unfold at_index. cbn [filter fst]. destruct (Nat.eq_dec k a) as [->|E].
    + rewrite Nat.eqb_refl. cbn [map fold_right snd]. ring.
    + destruct (Nat.eqb_spec k a); [contradiction|]. ring.
Qed.
Lemma keys_bound : forall (r : rrow), exists N, forall k, In k (map fst r) -> (k < N)%nat.
Proof.
  induction r as [|[k v] r [N H]]; [exists O; cbn; tauto|].
  exists (S (N + k)). cbn. intros q [<-|I]; [lia|]. apply H in I. lia.
Qed.
Lemma lform_ext : forall r r' h,
  (forall i, at_index 0 Rplus Nat.eq_dec r i = at_index 0 Rplus Nat.eq_dec r' i) -> lform r h = lform r' h.
Proof.
  intros r r' h H. destruct (keys_bound r) as [N1 H1]. destruct (keys_bound r') as [N2 H2].
  rewrite (lform_sum (N1 + N2) r), (lform_sum (N1 + N2) r').
  - unfold sum_to. induction (seq 0 (N1 + N2)); auto. cbn. now rewrite IHl, H.
  - intros k I. apply H2 in I. lia.
  - intros k I. apply H1 in I. lia.
Qed.

(** The merger computes the same linear form. *)
Lemma acc_run_val : forall evs a p,
  a_val (acc_run 0 Rplus Rmult isz a (map mop_of evs)) p = a_val a p + evs_form (unit p) evs.
Proof.
  induction evs as [|ev evs IH]; intros a p; cbn [map acc_run]; rewrite ?evs_nil, ?evs_cons; [ring|].
  rewrite IH. rewrite <- Rplus_assoc. f_equal.
  destruct ev as [i m|m r]; cbn [mop_of acc_step acc_add a_val ev_form].
  - unfold unit. destruct (Nat.eqb_spec p i) as [->|E].
    + rewrite Nat.eqb_refl. ring.
    + destruct (Nat.eqb_spec i p); [congruence|]. ring.
  - now rewrite lform_unit.
Qed.
Lemma acc_run_range : forall evs a, a_beg (acc_run 0 Rplus Rmult isz a (map mop_of evs)) = a_beg a /\
  a_end (acc_run 0 Rplus Rmult isz a (map mop_of evs)) = a_end a /\
  a_sorted (acc_run 0 Rplus Rmult isz a (map mop_of evs)) = a_sorted a.
Proof.
  induction evs as [|ev evs IH]; intro a; cbn [map acc_run]; auto.
  destruct (IH (acc_step 0 Rplus Rmult isz a (mop_of ev))) as (A & B & C). rewrite A, B, C.
  destruct ev; cbn; auto.
Qed.
Lemma all_allowed_events : forall evs a, a_sorted a = false -> all_allowed 0 Rplus Rmult isz a (map mop_of evs).
Proof.
  induction evs as [|ev evs IH]; intros a H; cbn [map all_allowed]; auto. split.
  - destruct ev; cbn; auto. intro. congruence.
  - apply IH. destruct ev; cbn; auto.
Qed.
Lemma from_basic_ok : forall b e evs, exists r,
  from_basic (fresh 0 b e false) evs = Some (r, fresh 0 b e false) /\
  NoDup (map fst r) /\ (forall p, In p (map fst r) -> at_index 0 Rplus Nat.eq_dec r p <> 0) /\
  forall h, lform r h = evs_form h evs.
Proof.
  intros b e evs.
  destruct (C29_merger_accumulates R 0 1 Rplus Rmult Rminus Ropp RTheory isz isz_spec b e false (map mop_of evs))
    as (s & E & (loc & non & R1 & R2 & R3 & R4 & _) & _ & _ & C).
  { now apply all_allowed_events. }
  destruct (acc_run_range evs (acc_new 0 b e false)) as (A1 & A2 & A3). rewrite A1, A2, A3 in C. cbn in C.
  exists (loc ++ non). unfold from_basic, merger_run. rewrite E, R1, C.
  split; [auto|]. split; [auto|]. split.
  - intros p I. apply in_map_iff in I. destruct I as (q & <- & I).
    pose proof (proj1 (C28_row_access R 0 1 Rplus Rmult Rminus Ropp RTheory (loc ++ non) (fst q) (fun v => v) R3)) as G.
    rewrite <- G. unfold get_safe.
    assert (X : get_at Nat.eqb (loc ++ non) (fst q) = Some (snd q)).
    { revert R3 I. generalize (loc ++ non). clear. induction l as [|[k v] l IH]; intros N I; [destruct I|]. cbn [get_at].
      inversion N; subst. destruct I as [<-|I]; cbn [fst snd]; [now rewrite Nat.eqb_refl|].
      destruct (Nat.eqb_spec k (fst q)) as [->|D]; [|auto]. exfalso. apply H1. now apply in_map. }
    rewrite X. apply R4. auto.
  - intro h. transitivity (lform (row_run [] evs) h).
    + apply lform_ext. intro i. rewrite R2, acc_run_val. cbn [acc_new a_val].
      rewrite <- lform_unit, row_run_form. reflexivity.
    + rewrite row_run_form, lform_nil. ring.
Qed.
Lemma add_basic_ok : forall b e c sr evs, NoDup (map fst sr) -> exists r,
  add_basic (fresh 0 b e false) c sr evs = Some (r, fresh 0 b e false) /\
  NoDup (map fst r) /\ forall h, lform r h = c * lform sr h + evs_form h evs.
Proof.
  intros b e c sr evs N.
  destruct (C29_merger_accumulates R 0 1 Rplus Rmult Rminus Ropp RTheory isz isz_spec b e false (OPush c sr :: map mop_of evs))
    as (s & E & (loc & non & R1 & R2 & R3 & R4 & _) & _ & _ & C).
  { cbn [all_allowed]. split; [|now apply all_allowed_events]. cbn. split; auto. split; auto. discriminate. }
  cbn [acc_run] in *.
  destruct (acc_run_range evs (acc_step 0 Rplus Rmult isz (acc_new 0 b e false) (OPush c sr))) as (A1 & A2 & A3). rewrite A1, A2, A3 in C. cbn in C.
  exists (loc ++ non). unfold add_basic, merger_run. rewrite E, R1, C.
  split; [auto|]. split; [auto|].
  intro h. transitivity (lform (row_run (row_scale c sr) evs) h).
  - apply lform_ext. intro i. rewrite R2, acc_run_val. cbn [acc_step acc_add acc_new a_val].
    rewrite <- !lform_unit, row_run_form, lform_scale. ring.
  - rewrite row_run_form, lform_scale. ring.
Qed.

(** ** GetJacobian computes the derivative *)
Definition dd (F : point -> R) (x h : point) (d : R) : Prop := derivable_pt_lim (fun t => F (line x h t)) 0 d.
Lemma dd_comp : forall F f x h d c, dd F x h d -> derivable_pt_lim f (F x) c -> dd (fun y => f (F y)) x h (c * d).
Proof.
  intros F f x h d c D E. unfold dd. apply (lim_comp (fun t => F (line x h t)) f 0 d c D). now rewrite line_0.
Qed.
Lemma value_now_same : forall s s' e, s' = s \/ e <> ESelf -> value_now s s' e = value s e.
Proof. intros s s' e [->|H]; destruct e; auto. contradiction. Qed.

Lemma jac_un : forall s s' sr u a h G x d f c,
  value s a = G x -> dd G x h d -> (forall m, evs_form h (jac s s' sr a m) = m * d) ->
  derivable_pt_lim f (G x) c -> uval u (G x) = f (G x) ->
  (forall m, ucoef u (G x) m = Some (m * c)) ->
  value s (EUn u a) = f (G x) /\ exists d', dd (fun y => f (G y)) x h d' /\
    forall m, evs_form h (jac s s' sr (EUn u a) m) = m * d'.
Proof.
  intros s s' sr u a h G x d f c Hv Hd Hj Df Hu Hc. cbn [value jac]. rewrite Hv. split; auto.
  exists (c * d). split; [now apply dd_comp|]. intro m. rewrite Hc, Hj. ring.
Qed.

Lemma jac_ok : forall x s sr g0 e F, denotes x s sr g0 e F -> forall s', s' = s \/ no_self_factor e -> forall h, value s e = F x /\ exists d, dd F x h d /\ forall m, evs_form h (jac s s' sr e m) = m * d.
Proof.
  intros x s sr g0 e F D. induction D; intros s' NS hh.
  - split; auto. exists 0. split; [exact (lim_const v 0)|]. intro m. cbn. ring.
  - split; auto. exists (hh i). split.
    + unfold dd, line. eapply lim_eq; [apply lim_add; [apply lim_const|apply lim_mul; [apply lim_id|apply lim_const]]|]. cbn beta. ring.
    + intro m. cbn [jac]. destruct (isz m) eqn:E; rewrite ?evs_cons, ?evs_nil; cbn [ev_form]; [|ring].
      apply isz_spec in E. subst. ring.
  - split; auto. exists 0. split; [exact (lim_const v 0)|]. intro m. cbn. ring.
  - destruct H as [H1 H2]. split; auto. exists (lform r hh). split; [apply H2|]. intro m. cbn [jac]. rewrite evs_cons, evs_nil. cbn [ev_form]. ring.
  - destruct H as [H1 H2]. split; auto. exists (lform r hh). split; [apply H2|]. intro m. cbn [jac]. rewrite evs_cons, evs_nil. cbn [ev_form]. ring.
  - destruct H as [H1 H2]. split; auto. exists (lform sr hh). split; [apply H2|]. intro m. cbn [jac]. rewrite evs_cons, evs_nil. cbn [ev_form]. ring.
  - destruct (IHD s' NS hh) as (Hv & d & Hd & Hj).
    eapply (jac_un s s' sr (UCMul k) a hh G x d (fun z => k * z) k); eauto; cbn [uval ucoef]; [|ring].
    eapply lim_eq; [apply lim_scal, lim_id|ring].
  - destruct (IHD s' NS hh) as (Hv & d & Hd & Hj). cbn [value uval]. split; [rewrite Hv; ring|].
    exists (k * d). split.
    + unfold dd. eapply lim_eq; [apply lim_add; [apply lim_const|apply lim_scal, lim_sub; [exact Hd|apply lim_const]]|]. cbn beta. ring.
    + intro m. cbn [jac ucoef]. rewrite Hj. ring.
  - destruct (IHD s' NS hh) as (Hv & d & Hd & Hj).
    eapply (jac_un s s' sr (UCDiv k) a hh G x d (fun z => z / k) (1 / k)); eauto; cbn [uval ucoef]; [|unfold Rdiv; ring].
    eapply lim_eq; [apply lim_div; [apply lim_id|apply lim_const|auto]|]. cbn beta. field. auto.
  - destruct (IHD s' NS hh) as (Hv & d & Hd & Hj).
    eapply (jac_un s s' sr (UCAdd k) a hh G x d (fun z => z + k) 1); eauto; cbn [uval ucoef]; [|intro; f_equal; ring].
    eapply lim_eq; [apply lim_add; [apply lim_id|apply lim_const]|]. cbn beta. ring.
  - destruct (IHD s' NS hh) as (Hv & d & Hd & Hj).
    eapply (jac_un s s' sr (UCSub k) a hh G x d (fun z => k - z) (-1)); eauto; cbn [uval ucoef]; [|intro; f_equal; ring].
    eapply lim_eq; [apply lim_sub; [apply lim_const|apply lim_id]|]. cbn beta. ring.
  - destruct (IHD s' NS hh) as (Hv & d & Hd & Hj).
    eapply (jac_un s s' sr (URecip k) a hh G x d (fun z => k / z) (- k / (G x * G x))); eauto; cbn [uval ucoef].
    + eapply lim_eq; [apply lim_div; [apply lim_const|apply lim_id|auto]|]. cbn beta. field. auto.
    + field. auto.
    + intro; f_equal. field. auto.
  - destruct (IHD s' NS hh) as (Hv & d & Hd & Hj).
    eapply (jac_un s s' sr UNeg a hh G x d (fun z => - z) (-1)); eauto; cbn [uval ucoef]; [|intro; f_equal; ring].
    eapply lim_eq; [apply lim_opp, lim_id|]. cbn beta. ring.
  - destruct (IHD s' NS hh) as (Hv & d & Hd & Hj). split; auto. exists d. split; auto.
  - destruct (IHD s' NS hh) as (Hv & d & Hd & Hj).
    eapply (jac_un s s' sr UAbs a hh G x d Rabs); eauto; cbn [uval ucoef]; [now apply lim_abs|].
    intro. rewrite isz_ne by (now apply Rabs_no_R0). f_equal. ring.
  - destruct (IHD s' NS hh) as (Hv & d & Hd & Hj).
    eapply (jac_un s s' sr UExp a hh G x d exp); eauto; cbn [uval ucoef]; [apply derivable_pt_lim_exp|reflexivity].
  - destruct (IHD s' NS hh) as (Hv & d & Hd & Hj).
    eapply (jac_un s s' sr ULog a hh G x d ln); eauto; cbn [uval ucoef]; [now apply lim_ln|reflexivity].
  - destruct (IHD s' NS hh) as (Hv & d & Hd & Hj).
    eapply (jac_un s s' sr USin a hh G x d sin); eauto; cbn [uval ucoef]; [apply derivable_pt_lim_sin|reflexivity].
  - destruct (IHD s' NS hh) as (Hv & d & Hd & Hj).
    eapply (jac_un s s' sr UCos a hh G x d cos); eauto; cbn [uval ucoef]; [apply derivable_pt_lim_cos|reflexivity].
  - destruct (IHD s' NS hh) as (Hv & d & Hd & Hj). assert (0 < sqrt (G x)) by now apply sqrt_lt_R0.
    eapply (jac_un s s' sr USqrt a hh G x d sqrt); eauto; cbn [uval ucoef]; [now apply lim_sqrt|].
    intro. rewrite isz_ne by lra. f_equal. unfold Rdiv. ring.
  - destruct (IHD s' NS hh) as (Hv & d & Hd & Hj). pose proof (sq_pos k (G x) H).
    eapply (jac_un s s' sr (USoftAbs k) a hh G x d (fun z => sqrt (z * z + k * k)) (G x / sqrt (G x * G x + k * k))); eauto; cbn [uval ucoef].
    eapply lim_eq; [apply (lim_root (fun z => z)); [apply lim_id|auto]|]. cbn beta. ring.
  - destruct (IHD s' NS hh) as (Hv & d & Hd & Hj). pose proof (sq_pos k (G x) H).
    assert (Q : 0 < sqrt (G x * G x + k * k)) by now apply sqrt_lt_R0.
    assert (QQ : sqrt (G x * G x + k * k) * sqrt (G x * G x + k * k) = G x * G x + k * k) by (apply sqrt_def; lra).
    eapply (jac_un s s' sr (USoftSign k) a hh G x d (fun z => z / sqrt (z * z + k * k)) ((1 - G x * G x / (G x * G x + k * k)) / sqrt (G x * G x + k * k))); eauto; cbn [uval ucoef].
    eapply lim_eq; [apply lim_div; [apply lim_id|apply (lim_root (fun z => z)); [apply lim_id|auto]|lra]|]. cbn beta.
    set (q := sqrt (G x * G x + k * k)) in *. clearbody q. rewrite <- QQ. field. lra.
  - destruct (IHD s' NS hh) as (Hv & d & Hd & Hj).
    eapply (jac_un s s' sr (UPowC k) a hh G x d (fun z => Rpower z k)); eauto; cbn [uval ucoef]; [now apply lim_powR|now rewrite c_pow_pos|].
    intro. now rewrite isz_ne, c_pow_pos by lra.
  - destruct (IHD s' NS hh) as (Hv & d & Hd & Hj).
    eapply (jac_un s s' sr (UPowC (IZR k)) a hh G x d (fun z => powerRZ z k)); eauto; cbn [uval ucoef]; [now apply lim_powZ|now rewrite c_pow_Z|].
    intro. now rewrite isz_ne, c_pow_Z by auto.
  - destruct (IHD s' NS hh) as (Hv & d & Hd & Hj).
    eapply (jac_un s s' sr (UPowC (INR n)) a hh G x d (fun z => z ^ n)); eauto; cbn [uval ucoef]; [apply lim_pow|now rewrite c_pow_n|].
    intro. f_equal. f_equal. destruct (Req_dec (G x) 0) as [E|E].
    + rewrite (proj2 (isz_spec _) E). rewrite E. destruct n as [|[|n]]; [cbn; ring|congruence|]. cbn [pred]. rewrite pow_i by lia. ring.
    + rewrite isz_ne, c_pow_n by auto. now rewrite pow_pred.
  - destruct (IHD s' NS hh) as (Hv & d & Hd & Hj).
    eapply (jac_un s s' sr (UCPow k) a hh G x d (fun z => Rpower k z)); eauto; cbn [uval ucoef]; [now apply lim_expR|now rewrite c_pow_pos|].
    intro. now rewrite isz_ne, c_pow_pos by lra.
  - (* products *)
    destruct (IHD1 s' ltac:(cbn in NS; tauto) hh) as (Hv1 & d1 & Hd1 & Hj1).
    destruct (IHD2 s' ltac:(cbn in NS; tauto) hh) as (Hv2 & d2 & Hd2 & Hj2).
    cbn [value bval]. split; [congruence|]. exists (d1 * G x + F x * d2). split.
    + eapply lim_eq; [apply lim_mul; [exact Hd1|exact Hd2]|]. cbn beta. now rewrite line_0.
    + intro m. cbn [jac lcoef rcoef]. rewrite evs_app, Hj1, Hj2, !value_now_same by (cbn in NS; destruct NS as [NS|(NS & _)]; [now left|right; now apply NS]).
      rewrite Hv1, Hv2. ring.
  - destruct (IHD1 s' ltac:(cbn in NS; tauto) hh) as (Hv1 & d1 & Hd1 & Hj1).
    destruct (IHD2 s' ltac:(cbn in NS; tauto) hh) as (Hv2 & d2 & Hd2 & Hj2).
    cbn [value bval]. rewrite Hv1, Hv2, isz_ne by auto. split; [unfold Rdiv; ring|]. exists ((d1 * G x - d2 * F x) / (G x * G x)). split.
    + eapply lim_eq; [apply lim_div; [exact Hd1|exact Hd2|now rewrite line_0]|]. cbn beta. now rewrite line_0.
    + intro m. cbn [jac lcoef rcoef]. rewrite evs_app, Hj1, Hj2, Hv1, Hv2, !isz_ne by auto. field. auto.
  - destruct (IHD1 s' ltac:(cbn in NS; tauto) hh) as (Hv1 & d1 & Hd1 & Hj1).
    destruct (IHD2 s' ltac:(cbn in NS; tauto) hh) as (Hv2 & d2 & Hd2 & Hj2).
    cbn [value bval]. split; [congruence|]. exists (d1 + d2). split; [now apply lim_add|].
    intro m. cbn [jac lcoef rcoef]. rewrite evs_app, Hj1, Hj2. ring.
  - destruct (IHD1 s' ltac:(cbn in NS; tauto) hh) as (Hv1 & d1 & Hd1 & Hj1).
    destruct (IHD2 s' ltac:(cbn in NS; tauto) hh) as (Hv2 & d2 & Hd2 & Hj2).
    cbn [value bval]. split; [congruence|]. exists (d1 - d2). split; [now apply lim_sub|].
    intro m. cbn [jac lcoef rcoef]. rewrite evs_app, Hj1, Hj2. ring.
  - destruct (IHD1 s' ltac:(cbn in NS; tauto) hh) as (Hv1 & d1 & Hd1 & Hj1).
    destruct (IHD2 s' ltac:(cbn in NS; tauto) hh) as (Hv2 & d2 & Hd2 & Hj2).
    cbn [value bval]. rewrite Hv1, Hv2, c_pow_pos by auto. split; auto.
    exists (Rpower (F x) (G x) * (d2 * ln (F x) + G x * (1 / F x * d1))). split.
    + unfold dd, Rpower. eapply lim_eq.
      * apply (lim_comp _ exp); [apply lim_mul; [exact Hd2|apply (lim_comp _ ln); [exact Hd1|apply lim_ln; now rewrite line_0]]|apply derivable_pt_lim_exp].
      * cbn beta. rewrite !line_0. reflexivity.
    + intro m. cbn [jac lcoef rcoef]. rewrite evs_app, Hj1, Hj2, Hv1, Hv2, !isz_ne, c_pow_pos by lra. field. lra.
  - destruct (IHD1 s' ltac:(cbn in NS; tauto) hh) as (Hv1 & d1 & Hd1 & Hj1).
    destruct (IHD2 s' ltac:(cbn in NS; tauto) hh) as (Hv2 & d2 & Hd2 & Hj2).
    cbn [value bval]. rewrite Hv1, Hv2. split; auto.
    exists (G x / (G x * G x + F x * F x) * d1 + - F x / (G x * G x + F x * F x) * d2). split.
    + eapply lim_eq; [apply lim_atan2; [exact Hd1|exact Hd2|now rewrite !line_0]|]. cbn beta. now rewrite !line_0.
    + intro m. cbn [jac lcoef rcoef]. rewrite evs_app, Hj1, Hj2, Hv1, Hv2. ring.
  - destruct (IHD1 s' ltac:(cbn in NS; tauto) hh) as (Hv1 & d1 & Hd1 & Hj1).
    destruct (IHD2 s' ltac:(cbn in NS; tauto) hh) as (Hv2 & d2 & Hd2 & Hj2). pose proof (sq_pos k (F x - G x) H) as P.
    pose proof (sqrt_lt_R0 _ P) as Q.
    cbn [value bval]. rewrite Hv1, Hv2. split; [unfold Rdiv; ring|].
    exists ((d1 + d2 + (F x - G x) / sqrt ((F x - G x) * (F x - G x) + k * k) * (d1 - d2)) / 2). split.
    + eapply lim_eq; [apply lim_div; [apply lim_add; [apply lim_add; [exact Hd1|exact Hd2]|apply lim_root; [apply lim_sub; [exact Hd1|exact Hd2]|exact H]]|apply lim_const|lra]|].
      cbn beta. rewrite !line_0. field. lra.
    + intro m. cbn [jac lcoef rcoef]. rewrite evs_app, Hj1, Hj2, Hv1, Hv2. field. lra.
  - destruct (IHD1 s' ltac:(cbn in NS; tauto) hh) as (Hv1 & d1 & Hd1 & Hj1).
    destruct (IHD2 s' ltac:(cbn in NS; tauto) hh) as (Hv2 & d2 & Hd2 & Hj2). pose proof (sq_pos k (F x - G x) H) as P.
    pose proof (sqrt_lt_R0 _ P) as Q.
    cbn [value bval]. rewrite Hv1, Hv2. split; [unfold Rdiv; ring|].
    exists ((d1 + d2 - (F x - G x) / sqrt ((F x - G x) * (F x - G x) + k * k) * (d1 - d2)) / 2). split.
    + eapply lim_eq; [apply lim_div; [apply lim_sub; [apply lim_add; [exact Hd1|exact Hd2]|apply lim_root; [apply lim_sub; [exact Hd1|exact Hd2]|exact H]]|apply lim_const|lra]|].
      cbn beta. rewrite !line_0. field. lra.
    + intro m. cbn [jac lcoef rcoef]. rewrite evs_app, Hj1, Hj2, Hv1, Hv2. field. lra.
  - destruct (IHD1 s ltac:(now left) hh) as (Hv1 & d1 & Hd1 & _).
    destruct (IHD2 s' ltac:(cbn in NS; tauto) hh) as (Hv2 & d2 & Hd2 & Hj2).
    cbn [value jac]. unfold gez. rewrite Hv1. destruct (Rge_dec (C x) 0); [|lra]. split; auto. exists d2. split; auto.
    destruct (lim_pos (fun t => C (line x hh t)) 0 d1 Hd1 ltac:(cbn beta; rewrite line_0; auto)) as (eps & He & Hp).
    eapply (lim_loc (fun t => F (line x hh t)) _ 0 _ eps He); [|exact Hd2].
    intros t Ht. specialize (Hp t Ht). destruct (Rge_dec (C (line x hh t)) 0); [auto|lra].
  - destruct (IHD1 s ltac:(now left) hh) as (Hv1 & d1 & Hd1 & _).
    destruct (IHD2 s' ltac:(cbn in NS; tauto) hh) as (Hv2 & d2 & Hd2 & Hj2).
    cbn [value jac]. unfold gez. rewrite Hv1. destruct (Rge_dec (C x) 0); [lra|]. split; auto. exists d2. split; auto.
    destruct (lim_neg (fun t => C (line x hh t)) 0 d1 Hd1 ltac:(cbn beta; rewrite line_0; auto)) as (eps & He & Hp).
    eapply (lim_loc (fun t => G (line x hh t)) _ 0 _ eps He); [|exact Hd2].
    intros t Ht. specialize (Hp t Ht). destruct (Rge_dec (C (line x hh t)) 0); [lra|auto].
  - cbn [value jac]. apply IHD. cbn in NS. tauto.
  - cbn [value jac]. apply IHD. cbn in NS. tauto.
Qed.

(** ** Assignments *)
Definition good_target (tgt : target) : Prop := tgt = None \/ exists b e, tgt = Some (fresh 0 b e false).
Lemma into_new_ok : forall tgt evs, good_target tgt -> exists r, into_new tgt evs = Some r /\
  NoDup (map fst r) /\ forall h, lform r h = evs_form h evs.
Proof.
  intros tgt evs [->|(b & e & ->)]; cbn [into_new].
  - exists (row_run [] evs). split; auto. split; [apply row_run_nodup; constructor|]. intro h. rewrite row_run_form, lform_nil. ring.
  - destruct (from_basic_ok b e evs) as (r & E & N & _ & L). rewrite E. eauto.
Qed.
Lemma into_ok : forall tgt c sr evs, good_target tgt -> NoDup (map fst sr) -> exists r, into tgt c sr evs = Some r /\
  NoDup (map fst r) /\ forall h, lform r h = c * lform sr h + evs_form h evs.
Proof.
  intros tgt c sr evs [->|(b & e & ->)] N; cbn [into].
  - exists (row_run (row_scale c sr) evs). split; auto. split; [apply row_run_nodup; now rewrite row_scale_keys|].
    intro h. rewrite row_run_form, lform_scale. ring.
  - destruct (add_basic_ok b e c sr evs N) as (r & E & N' & L). rewrite E. eauto.
Qed.
Lemma grad_of : forall F x J, (forall h, exists d, dd F x h d /\ lform J h = d) -> is_gradient F x J.
Proof. intros F x J H h. destruct (H h) as (d & D & ->). exact D. Qed.

(** ** atan2 is the angle *)
Lemma sqrt_scale : forall a b, 0 < a -> sqrt (b * b + a * a) = a * sqrt (1 + (b / a) * (b / a)).
Proof.
  intros a b H. replace (b * b + a * a) with (a * a * (1 + (b / a) * (b / a))) by (field; lra).
  rewrite sqrt_mult_alt by nra. rewrite sqrt_square by lra. auto.
Qed.
Lemma atan_cs : forall z, sqrt (1 + z * z) * cos (atan z) = 1 /\ sqrt (1 + z * z) * sin (atan z) = z.
Proof.
  intro z. rewrite cos_atan, sin_atan. unfold Rsqr.
  assert (0 < sqrt (1 + z * z)) by (apply sqrt_lt_R0; nra). split; field; lra.
Qed.
Lemma c_atan2_angle : forall y x, is_angle (c_atan2 y x) y x.
Proof.
  intros y x. unfold is_angle, c_atan2. pose proof PI_RGT_0 as HP. pose proof (atan_bound (x / y)) as HB.
  destruct (atan_cs (x / y)) as [C1 C2].
  destruct (Rlt_dec 0 y) as [P|P].
  - rewrite (sqrt_scale y x P). split; [lra|]. rewrite sin_minus, cos_minus, sin_PI2, cos_PI2. split.
    + replace (y * sqrt (1 + x / y * (x / y)) * (1 * cos (atan (x / y)) - 0 * sin (atan (x / y))))
        with (y * (sqrt (1 + x / y * (x / y)) * cos (atan (x / y)))) by ring. rewrite C1. ring.
    + replace (y * sqrt (1 + x / y * (x / y)) * (0 * cos (atan (x / y)) + 1 * sin (atan (x / y))))
        with (y * (sqrt (1 + x / y * (x / y)) * sin (atan (x / y)))) by ring. rewrite C2. field. lra.
  - destruct (Rlt_dec y 0) as [Q|Q].
    + replace (x * x + y * y) with (x * x + - y * - y) by ring. rewrite (sqrt_scale (- y) x) by lra.
      replace (x / - y * (x / - y)) with (x / y * (x / y)) by (field; lra).
      split; [lra|]. rewrite sin_minus, cos_minus, sin_neg, cos_neg, sin_PI2, cos_PI2. split.
      * replace (- y * sqrt (1 + x / y * (x / y)) * (- (1) * cos (atan (x / y)) - 0 * sin (atan (x / y))))
          with (y * (sqrt (1 + x / y * (x / y)) * cos (atan (x / y)))) by ring. rewrite C1. ring.
      * replace (- y * sqrt (1 + x / y * (x / y)) * (0 * cos (atan (x / y)) + - (1) * sin (atan (x / y))))
          with (y * (sqrt (1 + x / y * (x / y)) * sin (atan (x / y)))) by ring. rewrite C2. field. lra.
    + assert (y = 0) by lra. subst y. rewrite Rmult_0_r, Rplus_0_r.
      destruct (Rlt_dec x 0) as [X|X].
      * replace (x * x) with (- x * - x) by ring. rewrite sqrt_square by lra. rewrite sin_PI, cos_PI. lra.
      * rewrite sqrt_square by lra. rewrite sin_0, cos_0. lra.
Qed.

(** ** Second derivatives *)
Lemma rmin3 : forall a b t, Rabs t < Rmin a b -> Rabs t < a /\ Rabs t < b.
Proof. intros a b t H. pose proof (Rmin_l a b). pose proof (Rmin_r a b). lra. Qed.
Lemma second_loc : forall F G x h d1 d2 eps, 0 < eps -> (forall t, Rabs t < eps -> F (line x h t) = G (line x h t)) ->
  second F x h d1 d2 -> second G x h d1 d2.
Proof.
  intros F G x h d1 d2 eps He E (f1 & e1 & H1 & H2 & H3 & H4).
  exists f1, (Rmin eps e1). split; [now apply Rmin_pos|]. split; [|auto].
  intros t Ht. apply rmin3 in Ht. destruct Ht as [Ta Tb].
  apply (lim_loc (fun t => F (line x h t)) _ t _ (eps - Rabs t)); [lra| |now apply H2].
  intros u Hu. apply E. replace u with ((u - t) + t) by ring. eapply Rle_lt_trans; [apply Rabs_triang|]. lra.
Qed.
Lemma second_ext : forall F G x h d1 d2, (forall y, F y = G y) -> second F x h d1 d2 -> second G x h d1 d2.
Proof. intros F G x h d1 d2 E. apply (second_loc F G x h d1 d2 1); auto. lra. Qed.
Lemma second_eq : forall F x h d1 d2 e1 e2, second F x h d1 d2 -> d1 = e1 -> d2 = e2 -> second F x h e1 e2.
Proof. intros. now subst. Qed.
Lemma second_dd : forall F x h d1 d2, second F x h d1 d2 -> dd F x h d1.
Proof. intros F x h d1 d2 (f1 & e & H1 & H2 & <- & _). apply H2. rewrite Rabs_R0. auto. Qed.
Lemma second_const : forall c x h, second (fun _ => c) x h 0 0.
Proof.
  intros c x h. exists (fun _ => 0), 1. split; [lra|]. split; [intros; apply lim_const|]. split; auto. apply lim_const.
Qed.
Lemma second_coord : forall i x h, second (fun y => y i) x h (h i) 0.
Proof.
  intros i x h. exists (fun _ => h i), 1. split; [lra|]. split; [|split; auto; apply lim_const].
  intros t _. unfold line. eapply lim_eq; [apply lim_add; [apply lim_const|apply lim_mul; [apply lim_id|apply lim_const]]|]. cbn beta. ring.
Qed.
Lemma second_add : forall F G x h d1 d2 e1 e2, second F x h d1 d2 -> second G x h e1 e2 ->
  second (fun y => F y + G y) x h (d1 + e1) (d2 + e2).
Proof.
  intros F G x h d1 d2 e1 e2 (f & e & A1 & A2 & A3 & A4) (g & e' & B1 & B2 & B3 & B4).
  exists (fun t => f t + g t), (Rmin e e'). split; [now apply Rmin_pos|]. split; [|split; [congruence|now apply lim_add]].
  intros t Ht. apply rmin3 in Ht. apply lim_add; [now apply A2|now apply B2].
Qed.
Lemma second_mul : forall F G x h d1 d2 e1 e2, second F x h d1 d2 -> second G x h e1 e2 ->
  second (fun y => F y * G y) x h (d1 * G x + F x * e1) (d2 * G x + 2 * (d1 * e1) + F x * e2).
Proof.
  intros F G x h d1 d2 e1 e2 SF SG. pose proof (second_dd _ _ _ _ _ SF) as DF. pose proof (second_dd _ _ _ _ _ SG) as DG.
  destruct SF as (f & e & A1 & A2 & A3 & A4). destruct SG as (g & e' & B1 & B2 & B3 & B4).
  exists (fun t => f t * G (line x h t) + F (line x h t) * g t), (Rmin e e'). split; [now apply Rmin_pos|]. split; [|split].
  - intros t Ht. apply rmin3 in Ht. eapply lim_eq; [apply lim_mul; [now apply A2|now apply B2]|]. reflexivity.
  - rewrite line_0, A3, B3. auto.
  - eapply lim_eq; [apply lim_add; apply lim_mul; [exact A4|exact DG|exact DF|exact B4]|]. cbn beta. rewrite !line_0, A3, B3. ring.
Qed.
Lemma second_scale : forall k F x h d1 d2, second F x h d1 d2 -> second (fun y => k * F y) x h (k * d1) (k * d2).
Proof.
  intros k F x h d1 d2 S. eapply second_eq; [apply second_mul; [apply second_const|exact S]|cbn beta; ring|cbn beta; ring].
Qed.
Lemma second_comp : forall f f' f2 G x h d1 d2 eta, second G x h d1 d2 -> 0 < eta ->
  (forall z, Rabs (z - G x) < eta -> derivable_pt_lim f z (f' z)) -> derivable_pt_lim f' (G x) f2 ->
  second (fun y => f (G y)) x h (f' (G x) * d1) (f2 * (d1 * d1) + f' (G x) * d2).
Proof.
  intros f f' f2 G x h d1 d2 eta SG He Hf Hf'. pose proof (second_dd _ _ _ _ _ SG) as DG.
  destruct SG as (g & e & A1 & A2 & A3 & A4).
  destruct (lim_near (fun t => G (line x h t)) 0 d1 eta DG He) as (e' & B1 & B2).
  exists (fun t => f' (G (line x h t)) * g t), (Rmin e e'). split; [now apply Rmin_pos|]. split; [|split].
  - intros t Ht. apply rmin3 in Ht. apply (lim_comp (fun t => G (line x h t)) f); [now apply A2|]. apply Hf.
    specialize (B2 t). cbn beta in B2. rewrite line_0 in B2. apply B2. rewrite Rminus_0_r. tauto.
  - cbn beta. rewrite line_0, A3. auto.
  - eapply lim_eq; [apply lim_mul; [apply (lim_comp (fun t => G (line x h t)) f'); [exact DG|cbn beta; rewrite line_0; exact Hf']|exact A4]|].
    cbn beta. rewrite line_0, A3. ring.
Qed.
Lemma affine_second : forall G x h d1 d2, affine G x -> second G x h d1 d2 -> d2 = 0.
Proof.
  intros G x h d1 d2 A (f & e & A1 & A2 & A3 & A4). destruct (A h) as [c Hc].
  apply (uniqueness_limite f 0 d2 0 A4).
  apply (lim_loc (fun _ => c) f 0 0 e A1); [|apply lim_const].
  intros t Ht. rewrite Rminus_0_r in Ht. symmetry. apply (uniqueness_limite (fun t => G (line x h t)) t _ _ (A2 t Ht)).
  apply (lim_ext (fun u => G x + c * u)); [auto|]. eapply lim_eq; [apply lim_add; [apply lim_const|apply lim_scal, lim_id]|]. cbn beta. ring.
Qed.

(** ** Sorted rows *)
Lemma sort_row_ok : forall r, NoDup (map fst r) ->
  StronglySorted lt (map fst (sort_row r)) /\ (forall h, lform (sort_row r) h = lform r h) /\
  (sort_row r = [] <-> r = []).
Proof.
  intros r N. 
  assert (W : forall l : list nat, NoDup l -> StronglySorted le l -> StronglySorted lt l).
  { intros l Nl Q. induction Q as [|a l Q IH Fa]; constructor; inversion Nl; subst; auto.
    rewrite Forall_forall in *. intros y Hy. specialize (Fa y Hy). assert (y <> a) by (intro; subst; contradiction). lia. }
  unfold sort_row. destruct (is_sorted Nat.ltb r) eqn:E.
  - apply (is_sorted_spec Nat.eqb Nat.ltb nat_eqb_spec nat_ltb_trans nat_ltb_total Nat.ltb_irrefl) in E.
    split; [|tauto]. apply W; auto. eapply sorted_transfer; [|exact E]. exact k_nle.
  - clear E.
    assert (I1 : forall e l h, lform (ins e l) h = lform (e :: l) h).
    { intros e l h. induction l as [|y l IH]; auto. cbn [ins]. destruct (fst e <=? fst y)%nat; auto.
      rewrite lform_cons, IH, !lform_cons. ring. }
    assert (I2 : forall e l k, In k (map fst (ins e l)) <-> In k (map fst (e :: l))).
    { intros e l k. induction l as [|y l IH]; [tauto|]. cbn [ins]. destruct (fst e <=? fst y)%nat; [tauto|].
      cbn [map In] in *. rewrite IH. tauto. }
    assert (I3 : forall e l, StronglySorted lt (map fst l) -> ~ In (fst e) (map fst l) -> StronglySorted lt (map fst (ins e l))).
    { intros e l. induction l as [|y l IH]; intros Q Hn; [repeat constructor|]. cbn [ins map] in *. inversion Q as [|? ? Q1 Q2]; subst.
      destruct (Nat.leb_spec (fst e) (fst y)) as [L|L]; cbn [map].
      - assert (fst e <> fst y) by (intro C; apply Hn; left; auto). constructor; auto. constructor; [lia|].
        eapply Forall_impl; [|exact Q2]. cbn beta. intros; lia.
      - constructor; [apply IH; auto; intro; apply Hn; now right|]. rewrite Forall_forall in *. intros k Hk. apply I2 in Hk.
        destruct Hk as [<-|Hk]; auto. }
    assert (I4 : forall l k, In k (map fst (fold_right ins [] l)) <-> In k (map fst l)).
    { intros l k. induction l as [|y l IH]; [tauto|]. cbn [fold_right]. rewrite I2. cbn [map In]. rewrite IH. tauto. }
    split; [|split].
    + induction r as [|e r IH]; [constructor|]. cbn [fold_right]. cbn [map] in N. inversion N; subst. apply I3; auto. now rewrite I4.
    + intro h. induction r as [|e r IH]; auto. cbn [fold_right]. rewrite I1, !lform_cons. cbn [map] in N. inversion N; subst. rewrite IH; auto.
    + destruct r as [|e r]; [tauto|]. split; [|discriminate]. cbn [fold_right]. intro C. exfalso.
      assert (X : In (fst e) (map fst (ins e (fold_right ins [] r)))) by (apply I2; now left). rewrite C in X. exact X.
Qed.
Lemma row_scale_nil : forall c r, row_scale c r = [] <-> r = [].
Proof. intros c [|e r]; cbn; split; auto; discriminate. Qed.
Lemma qform_cons : forall e r h, qform (e :: r) h = h (fst (fst e)) * h (snd (fst e)) * snd e + qform r h.
Proof. reflexivity. Qed.
Lemma qform_nil : forall h, qform [] h = 0.
Proof. reflexivity. Qed.
Lemma qform_scale : forall c r h, qform (hscale_row c r) h = c * qform r h.
Proof.
  intros c r h. unfold hscale_row. induction r as [|e r IH]; cbn [map]; rewrite ?qform_cons, ?qform_nil; [ring|].
  rewrite IH. cbn [fst snd]. ring.
Qed.
Lemma hscale_keys : forall c r, map fst (hscale_row c r) = map fst r.
Proof. intros c r. unfold hscale_row. rewrite map_map. reflexivity. Qed.

(** Merging keeps the forms (not only the values at the columns). *)
Lemma merge_nonempty : forall K (keqb kltb : K -> K -> bool) a l b r o,
  merge_sorted Rplus Rmult keqb kltb a l b r = Some o -> (o = [] <-> l = [] /\ r = []).
Proof.
  intros K keqb kltb a l b r o H. unfold merge_sorted in H. destruct (_ && _); [|discriminate].
  assert (R1 : forall c l acc, merge_rest Rplus Rmult keqb c l acc = [] <-> l = [] /\ acc = []).
  { intros c l0. induction l0 as [|[k v] l0 IH]; intros acc; cbn [merge_rest]; [tauto|]. rewrite IH.
    destruct acc as [|[k' v'] acc]; [split; intros [A B]; discriminate|]. destruct (keqb k' k); split; intros [A B]; discriminate. }
  assert (R2 : forall (l r acc : list (K * R)), let '(l1, r1, acc1) := merge_both Rplus Rmult keqb kltb a b l r acc in
     (l1 = [] /\ r1 = [] /\ acc1 = [] <-> l = [] /\ r = [] /\ acc = [])).
  { clear. induction l as [|[kl vl] l IHl]; intros r acc; [cbn; destruct r; tauto|].
    revert acc. induction r as [|[kr vr] r IHr]; intro acc; [cbn; tauto|].
    cbn [merge_both]. destruct (kltb kl kr).
    - specialize (IHl ((kr, vr) :: r) ((kl, a * vl) :: acc)). destruct (merge_both _ _ _ _ _ _ _ _ _) as [[l1 r1] acc1].
      rewrite IHl. split; [intros (_ & ? & _)|intros (? & _ & _)]; discriminate.
    - destruct (keqb kl kr).
      + specialize (IHl r ((kl, a * vl + b * vr) :: acc)). destruct (merge_both _ _ _ _ _ _ _ _ _) as [[l1 r1] acc1].
        rewrite IHl. split; [intros (_ & _ & ?)|intros (? & _ & _)]; discriminate.
      + specialize (IHr ((kr, b * vr) :: acc)). cbn [merge_both] in IHr. 
        lazymatch goal with |- (match ?t with _ => _ end) => destruct t as [[l1 r1] acc1] end.
        rewrite IHr. split; [intros (? & _ & _)|intros (? & _ & _)]; discriminate. }
  specialize (R2 l r []). destruct (merge_both _ _ _ _ _ _ l r []) as [[l1 r1] acc1]. injection H as <-.
  split.
  - intro E. apply (f_equal (@rev _)) in E. rewrite rev_involutive in E. cbn in E. apply R1 in E. destruct E as [E1 E2]. apply R1 in E2. tauto.
  - intros [-> ->]. destruct R2 as [_ R2]. destruct (R2 ltac:(tauto)) as (-> & -> & ->). reflexivity.
Qed.
Lemma msr_ok : forall a l b r, StronglySorted lt (map fst l) -> StronglySorted lt (map fst r) ->
  exists o, msr a l b r = Some o /\ StronglySorted lt (map fst o) /\ (o = [] <-> l = [] /\ r = []) /\
    forall h, lform o h = a * lform l h + b * lform r h.
Proof.
  intros a l b r Hl Hr.
  assert (Hl' : StronglySorted le (map fst l)) by (eapply sorted_transfer; [|exact Hl]; intros; lia).
  assert (Hr' : StronglySorted le (map fst r)) by (eapply sorted_transfer; [|exact Hr]; intros; lia).
  destruct (C28_merge_sorted_rows R 0 1 Rplus Rmult Rminus Ropp RTheory a b l r Hl' Hr') as (o & E & V & _ & Q & _).
  exists o. split; auto. split; auto. split; [eapply merge_nonempty; exact E|].
  intro h. rewrite <- !lform_scale, <- lform_app. apply lform_ext. intro i. rewrite V.
  rewrite <- !lform_unit, lform_app, !lform_scale. auto.
Qed.
Lemma msh_ok : forall a l b r, StronglySorted pair_le (map fst l) -> StronglySorted pair_le (map fst r) ->
  exists o, msh a l b r = Some o /\ StronglySorted pair_le (map fst o) /\
    forall h, qform o h = a * qform l h + b * qform r h.
Proof.
  intros a l b r Hl Hr.
  destruct (C28_merge_sorted_hessian_rows R 0 1 Rplus Rmult Rminus Ropp RTheory a b l r Hl Hr) as (o & E & _ & Q & _).
  exists o. split; auto. split; auto. intro h.
  unfold merge_sorted in E. destruct (_ && _); [|discriminate].
  destruct (merge_both Rplus Rmult heq hlt a b l r []) as [[ll rr] acc] eqn:M. injection E as <-.
  set (phi := fun ij : nat * nat => h (fst ij) * h (snd ij)).
  destruct (merge_both_lin _ _ _ _ _ _ RTheory heq hlt heq_spec phi _ _ _ _ _ _ _ _ M) as [ME _].
  change (qform (rev (merge_rest Rplus Rmult heq b rr (merge_rest Rplus Rmult heq a ll acc))) h) with
    (lin 0 Rplus Rmult phi (rev (merge_rest Rplus Rmult heq b rr (merge_rest Rplus Rmult heq a ll acc)))).
  change (qform l h) with (lin 0 Rplus Rmult phi l). change (qform r h) with (lin 0 Rplus Rmult phi r).
  rewrite (lin_rev _ _ _ _ _ _ RTheory), !(merge_rest_lin _ _ _ _ _ _ RTheory heq heq_spec).
  change (lin 0 Rplus Rmult phi []) with 0 in ME.
  rewrite Rplus_0_l in ME. rewrite Rplus_assoc. exact ME.
Qed.
Lemma half2 : / 2 + / 2 = 1. Proof. lra. Qed.
Lemma pair_lt_le : forall l, StronglySorted pair_lt l -> StronglySorted pair_le l.
Proof. intros l H. eapply sorted_transfer; [|exact H]. intros; now left. Qed.
Lemma mjh1_ok : forall a J b H, StronglySorted lt (map fst J) -> StronglySorted pair_le (map fst H) ->
  exists o, mjh1 a J J b H = Some o /\ StronglySorted pair_le (map fst o) /\
    forall h, qform o h = a * (lform J h * lform J h) + b * qform H h.
Proof.
  intros a J b H HJ HH.
  destruct (C30_merge_jacobian_one_hessian R 0 1 Rplus Rmult Rminus Ropp RTheory (/ 2) half2 a J J b H HJ HJ ltac:(tauto) HH)
    as (o & E & Q & _ & V). exists o. split; auto. split; auto. now apply pair_lt_le.
Qed.
Lemma mjh2_ok : forall a J K b H c I, StronglySorted lt (map fst J) -> StronglySorted lt (map fst K) -> (J = [] <-> K = []) ->
  StronglySorted pair_le (map fst H) -> StronglySorted pair_le (map fst I) ->
  exists o, mjh2 a J K b H c I = Some o /\ StronglySorted pair_le (map fst o) /\
    forall h, qform o h = a * (lform J h * lform K h) + (b * qform H h + c * qform I h).
Proof.
  intros a J K b H c I HJ HK HE HH HI.
  destruct (C30_merge_jacobian_hessian R 0 1 Rplus Rmult Rminus Ropp RTheory (/ 2) half2 a J K b H c I HJ HK HE HH HI)
    as (o & E & Q & _ & V). exists o. split; auto. split; auto. now apply pair_lt_le.
Qed.

(** ** GetHessian *)
Definition hess_res (x : point) (o : option (rrow * rhrow)) (mJ mH : R) (b : bool) (F : point -> R) : Prop :=
  exists J H, o = Some (J, H) /\ StronglySorted lt (map fst J) /\ StronglySorted pair_le (map fst H) /\
    (J = [] <-> b = false) /\
    forall h, exists d1 d2, second F x h d1 d2 /\ lform J h = mJ * d1 /\ qform H h = mH * d2.
Lemma hess_leaf : forall x r hr g mJ mH v, carries2 x v r hr g ->
  hess_res x (Some (row_scale mJ (sort_row r), hscale_row mH hr)) mJ mH (nonempty r) g.
Proof.
  intros x r hr g mJ mH v (H1 & H2 & H3 & H4). destruct (sort_row_ok r H2) as (S1 & S2 & S3).
  do 2 eexists. split; [reflexivity|]. split; [now rewrite row_scale_keys|]. split; [now rewrite hscale_keys|].
  split; [rewrite row_scale_nil, S3; destruct r; cbn; split; auto; discriminate|].
  intro h. exists (lform r h), (qform hr h). split; [apply H4|]. now rewrite lform_scale, qform_scale, S2.
Qed.
(** Functions applied to the argument through the chain rule; the argument is
    asked with multipliers p, q. *)
Lemma hess_chain : forall x o p q b G (f f' : R -> R) f2 eta A B C mJ mH,
  hess_res x o p q b G -> 0 < eta ->
  (forall z, Rabs (z - G x) < eta -> derivable_pt_lim f z (f' z)) -> derivable_pt_lim f' (G x) f2 ->
  (forall h d1 d2, second G x h d1 d2 -> A * (p * d1 * (p * d1)) + B * (q * d2) = mH * (f2 * (d1 * d1) + f' (G x) * d2)) ->
  C * p = mJ * f' (G x) ->
  hess_res x (match o with
              | Some (J, h) => match mjh1 A J J B h with Some H => Some (row_scale C J, H) | None => None end
              | None => None end) mJ mH b (fun y => f (G y)).
Proof.
  intros x o p q b G f f' f2 eta A B C mJ mH (J & H & -> & S1 & S2 & S3 & D) He Hf Hf' HA HC.
  destruct (mjh1_ok A J B H S1 S2) as (o & -> & S4 & V).
  do 2 eexists. split; [reflexivity|]. split; [now rewrite row_scale_keys|]. split; auto. split; [now rewrite row_scale_nil|].
  intro h. destruct (D h) as (d1 & d2 & D1 & D2 & D3).
  do 2 eexists. split; [eapply second_comp; eauto|]. split.
  - rewrite lform_scale, D2, <- Rmult_assoc, HC. ring.
  - rewrite V, D2, D3. now apply HA with (h := h).
Qed.
(** Affine functions pass the multipliers on. *)
Lemma hess_affine : forall x o mJ mH b G k c F,
  hess_res x o (mJ * k) (mH * k) b G -> (forall y, F y = k * G y + c) -> hess_res x o mJ mH b F.
Proof.
  intros x o mJ mH b G k c F (J & H & -> & S1 & S2 & S3 & D) E.
  exists J, H. split; auto. split; auto. split; auto. split; auto.
  intro h. destruct (D h) as (d1 & d2 & D1 & D2 & D3). exists (k * d1), (k * d2). split; [|split].
  - apply (second_ext (fun y => k * G y + c)); [auto|].
    eapply second_eq; [apply second_add; [apply second_scale; exact D1|apply second_const]|ring|ring].
  - rewrite D2. ring.
  - rewrite D3. ring.
Qed.
Lemma hess_loc : forall x o mJ mH b F G, hess_res x o mJ mH b F ->
  (forall h, exists eps, 0 < eps /\ forall t, Rabs t < eps -> F (line x h t) = G (line x h t)) ->
  hess_res x o mJ mH b G.
Proof.
  intros x o mJ mH b F G (J & H & -> & S1 & S2 & S3 & D) E.
  exists J, H. split; auto. split; auto. split; auto. split; auto.
  intro h. destruct (D h) as (d1 & d2 & D1 & D2 & D3). destruct (E h) as (eps & He & Hl).
  exists d1, d2. split; [|auto]. eapply second_loc; eauto.
Qed.
Lemma hess_dd : forall x o mJ mH b F h, hess_res x o mJ mH b F -> exists d, dd F x h d.
Proof. intros x o mJ mH b F h (J & H & _ & _ & _ & _ & D). destruct (D h) as (d1 & d2 & D1 & _). exists d1. eapply second_dd; eauto. Qed.

Lemma ltz_mul_pos : forall a c, 0 < c -> ltz (a * c) = if Rlt_dec a 0 then true else false.
Proof. intros a c H. unfold ltz. destruct (Rlt_dec (a * c) 0), (Rlt_dec a 0); auto; exfalso; nra. Qed.

Lemma hess_ok : forall x s sr sh g0 mJ mH b e F, denotes2 x s sr sh g0 mJ mH b e F ->
  value s e = F x /\ hess_res x (hess s sr sh e mJ mH) mJ mH b F.
Proof.
  intros x s sr sh g0 mJ mH b e F D.
  assert (Ksgn : forall m, (if Rlt_dec m 0 then -1 else 1) * (if Rlt_dec m 0 then -1 else 1) = 1) by (intro m; destruct (Rlt_dec m 0); ring).
  assert (Kabs : forall m, m * (if Rlt_dec m 0 then -1 else 1) = Rabs m).
  { intro m. destruct (Rlt_dec m 0). rewrite Rabs_left by auto; ring. rewrite Rabs_right by lra; ring. }
  induction D.
  - split; auto. do 2 eexists. cbn [hess]. split; [reflexivity|]. split; [constructor|]. split; [constructor|]. split; [tauto|].
    intro h. exists 0, 0. split; [apply second_const|]. rewrite lform_nil, qform_nil. split; ring.
  - split; auto. do 2 eexists. cbn [hess]. split; [reflexivity|]. split; [repeat constructor|]. split; [constructor|]. split; [split; discriminate|].
    intro h. exists (h i), 0. split; [apply second_coord|]. rewrite lform_cons, lform_nil, qform_nil. cbn [fst snd]. split; ring.
  - split; auto. do 2 eexists. cbn [hess]. split; [reflexivity|]. split; [constructor|]. split; [constructor|]. split; [tauto|].
    intro h. exists 0, 0. split; [apply second_const|]. rewrite lform_nil, qform_nil. split; ring.
  - split; [symmetry; apply H|]. exact (hess_leaf x r [] g mJ mH v H).
  - split; [symmetry; apply H|]. exact (hess_leaf x r hr g mJ mH v H).
  - split; [symmetry; apply H|]. exact (hess_leaf x sr sh g0 mJ mH s H).
  - destruct IHD as [Hv IH]. cbn [value uval hess]. split; [rewrite Hv; ring|]. eapply (hess_affine _ _ _ _ _ G k 0); [exact IH|intro; ring].
  - destruct IHD as [Hv IH]. cbn [value uval hess]. split; [rewrite Hv; ring|]. eapply (hess_affine _ _ _ _ _ G k (G x - k * G x)); [exact IH|intro; ring].
  - destruct IHD as [Hv IH]. cbn [value uval hess]. split; [rewrite Hv; unfold Rdiv; ring|]. eapply (hess_affine _ _ _ _ _ G (1 / k) 0); [exact IH|intro; unfold Rdiv; ring].
  - destruct IHD as [Hv IH]. cbn [value uval hess]. split; [rewrite Hv; ring|]. eapply (hess_affine _ _ _ _ _ G 1 k); [rewrite !Rmult_1_r; exact IH|intro; ring].
  - destruct IHD as [Hv IH]. cbn [value uval hess]. split; [rewrite Hv; ring|]. eapply (hess_affine _ _ _ _ _ G (-1) k); [|intro; ring].
    replace (mJ * -1) with (- mJ) by ring. replace (mH * -1) with (- mH) by ring. exact IH.
  - destruct IHD as [Hv IH]. cbn [value uval hess]. split; [rewrite Hv; ring|]. eapply (hess_affine _ _ _ _ _ G (-1) 0); [|intro; ring].
    replace (mJ * -1) with (- mJ) by ring. replace (mH * -1) with (- mH) by ring. exact IH.
  - exact IHD.
  - destruct IHD as [Hv IH]. cbn [value uval hess]. rewrite Hv. split; auto. rewrite isz_ne by (apply Rabs_no_R0; lra).
    unfold ltz. destruct (Rlt_dec (G x) 0); [lra|]. rewrite !Rmult_1_l, !Rmult_1_r.
    eapply hess_loc; [exact IH|]. intro h. destruct (hess_dd _ _ _ _ _ _ h IH) as [d Hd].
    destruct (lim_pos (fun t => G (line x h t)) 0 d Hd ltac:(cbn beta; rewrite line_0; auto)) as (eps & He & Hp).
    exists eps. split; auto. intros t Ht. specialize (Hp t). rewrite Rminus_0_r in Hp. specialize (Hp Ht). now rewrite Rabs_right by lra.
  - destruct IHD as [Hv IH]. cbn [value uval hess]. rewrite Hv. split; auto. rewrite isz_ne by (apply Rabs_no_R0; lra).
    unfold ltz. destruct (Rlt_dec (G x) 0); [|lra].
    replace (1 * mJ * -1) with (- mJ) by ring. replace (1 * mH * -1) with (- mH) by ring.
    eapply hess_loc; [apply (hess_affine _ _ mJ mH _ G (-1) 0 (fun y => - G y)); [|intro; ring]|].
    + replace (mJ * -1) with (- mJ) by ring. replace (mH * -1) with (- mH) by ring. exact IH.
    + intro h. destruct (hess_dd _ _ _ _ _ _ h IH) as [d Hd].
      destruct (lim_neg (fun t => G (line x h t)) 0 d Hd ltac:(cbn beta; rewrite line_0; auto)) as (eps & He & Hp).
      exists eps. split; auto. intros t Ht. specialize (Hp t). rewrite Rminus_0_r in Hp. specialize (Hp Ht). now rewrite Rabs_left by lra.
  - (* exp *) destruct IHD as [Hv IH]. cbn [value uval hess]. rewrite Hv. split; auto. pose proof (exp_pos (G x)) as P.
    unfold sgn. rewrite (ltz_mul_pos mJ (exp (G x)) P).
    replace (if (if Rlt_dec mJ 0 then true else false) then -1 else 1) with (if Rlt_dec mJ 0 then -1 else 1) by (destruct (Rlt_dec mJ 0); auto).
    eapply (hess_chain x _ _ _ b G exp exp (exp (G x)) 1); [exact IH|lra|intros; apply derivable_pt_lim_exp|apply derivable_pt_lim_exp| |].
    + intros h d1 d2 _. specialize (Ksgn mJ). specialize (Kabs mJ). set (sg := if Rlt_dec mJ 0 then -1 else 1) in *. clearbody sg.
      rewrite H, <- Kabs. replace (mJ * exp (G x) * sg * (sg * d1 * (sg * d1))) with (mJ * exp (G x) * sg * (sg * sg) * (d1 * d1)) by ring. rewrite Ksgn. ring.
    + specialize (Ksgn mJ). set (sg := if Rlt_dec mJ 0 then -1 else 1) in *. clearbody sg. rewrite Rmult_assoc, Ksgn. ring.
  - (* log *) destruct IHD as [Hv IH]. cbn [value uval hess]. rewrite Hv. split; auto.
    assert (P : 0 < 1 / G x) by (apply Rdiv_lt_0_compat; lra).
    unfold sgn. rewrite (ltz_mul_pos mJ (1 / G x) P).
    replace (if (if Rlt_dec mJ 0 then true else false) then -1 else 1) with (if Rlt_dec mJ 0 then -1 else 1) by (destruct (Rlt_dec mJ 0); auto).
    replace (2 * mH * (1 / G x)) with (2 * mH / G x) by (unfold Rdiv; ring).
    eapply (hess_chain x _ _ _ b G ln (fun z => 1 / z) (- (1) / (G x * G x)) (G x)); [exact IH|lra| | | |].
    + intros z Hz. apply lim_ln. apply Rabs_def2 in Hz. lra.
    + eapply lim_eq; [apply lim_div; [apply lim_const|apply lim_id|lra]|]. cbn beta. field. lra.
    + intros h d1 d2 S. rewrite (affine_second _ _ _ _ _ H1 S). specialize (Ksgn mJ). specialize (Kabs mJ). set (sg := if Rlt_dec mJ 0 then -1 else 1) in *. clearbody sg.
      rewrite H, <- Kabs. transitivity (- mJ * (1 / G x) * sg * (1 / G x) * (sg * sg) * (d1 * d1)); [ring|]. rewrite Ksgn. field. lra.
    + specialize (Ksgn mJ). set (sg := if Rlt_dec mJ 0 then -1 else 1) in *. clearbody sg. rewrite Rmult_assoc, Ksgn. ring.
  - (* reciprocal *) destruct IHD as [Hv IH]. cbn [value uval hess]. rewrite Hv. split; [field; auto|].
    assert (Q : 0 < G x * G x) by (pose proof (Rsqr_pos_lt (G x) H1); unfold Rsqr in *; auto).
    assert (P : 0 < - mJ * (k * (1 / G x)) * (1 / G x)).
    { replace (- mJ * (k * (1 / G x)) * (1 / G x)) with (- (mJ * k) / (G x * G x)) by (field; auto). apply Rdiv_lt_0_compat; lra. }
    unfold sgn, ltz. destruct (Rlt_dec (- mJ * (k * (1 / G x)) * (1 / G x)) 0); [lra|]. rewrite H0.
    replace (-2 * 1 * (k * (1 / G x)) * (1 / G x)) with (-2 * k / (G x * G x)) by (field; auto).
    eapply (hess_chain x _ _ _ b G (fun z => k / z) (fun z => - k / (z * z)) (2 * k / (G x * G x * G x)) (Rabs (G x))); [exact IH|now apply Rabs_pos_lt| | | |].
    + intros z Hz. assert (z <> 0) by (intro; subst; replace (0 - G x) with (- G x) in Hz by ring; rewrite Rabs_Ropp in Hz; lra).
      eapply lim_eq; [apply lim_div; [apply lim_const|apply lim_id|auto]|]. cbn beta. field. auto.
    + eapply lim_eq; [apply lim_div; [apply lim_const|apply lim_mul; apply lim_id|lra]|]. cbn beta. field. auto.
    + intros h d1 d2 S. rewrite (affine_second _ _ _ _ _ H2 S). field. auto.
    + field. auto.
  - (* sin *) destruct IHD as [Hv IH]. cbn [value uval hess]. rewrite Hv. split; auto.
    eapply (hess_chain x _ _ _ b G sin cos (- sin (G x)) 1); [exact IH|lra|intros; apply derivable_pt_lim_sin|apply derivable_pt_lim_cos| |].
    + intros. ring.
    + ring.
  - destruct IHD as [Hv IH]. cbn [value uval hess]. rewrite Hv. split; auto.
    eapply (hess_chain x _ _ _ b G cos (fun z => - sin z) (- cos (G x)) 1); [exact IH|lra|intros; apply derivable_pt_lim_cos|apply lim_opp, derivable_pt_lim_sin| |].
    + intros. ring.
    + ring.
  - destruct IHD as [Hv IH]. cbn [value uval hess]. rewrite Hv. split; auto. assert (P : 0 < sqrt (G x)) by now apply sqrt_lt_R0.
    rewrite isz_ne by lra.
    eapply (hess_chain x _ _ _ b G sqrt (fun z => / 2 / sqrt z) (- / 4 / (sqrt (G x)) ^ 3) (G x)); [exact IH|lra| | | |].
    + intros z Hz. apply lim_sqrt. apply Rabs_def2 in Hz. lra.
    + eapply lim_eq; [apply lim_div; [apply lim_const|apply lim_sqrt; auto|lra]|]. cbn beta. field. lra.
    + intros. ring.
    + ring.
  - (* products *) destruct IHD1 as [Hv1 (J1 & H1 & E1 & A1 & A2 & A3 & A4)]. destruct IHD2 as [Hv2 (J2 & H2 & E2 & B1 & B2 & B3 & B4)].
    cbn [value bval hess]. split; [congruence|]. rewrite E1, E2.
    destruct (msr_ok (value s r * mJ) J1 (value s l * mJ) J2 A1 B1) as (J & -> & C1 & C2 & C3).
    destruct (mjh2_ok (2 * mH) J1 J2 (value s r * mH) H1 (value s l * mH) H2 A1 B1 ltac:(tauto) A2 B2) as (H & -> & C4 & C5).
    exists J, H. split; auto. split; auto. split; auto. split; [tauto|].
    intro h. destruct (A4 h) as (d1 & d2 & D3 & D4 & D5). destruct (B4 h) as (e1 & e2 & D6 & D7 & D8).
    do 2 eexists. split; [eapply second_mul; eauto|]. rewrite C3, C5, D4, D5, D7, D8, Hv1, Hv2. split; ring.
  - destruct IHD1 as [Hv1 (J1 & H1 & E1 & A1 & A2 & A3 & A4)]. destruct IHD2 as [Hv2 (J2 & H2 & E2 & B1 & B2 & B3 & B4)].
    cbn [value bval hess]. split; [congruence|]. rewrite E1, E2.
    destruct (msr_ok mJ J1 mJ J2 A1 B1) as (J & -> & C1 & C2 & C3).
    destruct (msh_ok mH H1 mH H2 A2 B2) as (H & -> & C4 & C5).
    exists J, H. split; auto. split; auto. split; auto. split; [rewrite orb_false_iff; tauto|].
    intro h. destruct (A4 h) as (d1 & d2 & D3 & D4 & D5). destruct (B4 h) as (e1 & e2 & D6 & D7 & D8).
    do 2 eexists. split; [eapply second_add; eauto|]. rewrite C3, C5, D4, D5, D7, D8. split; ring.
  - destruct IHD1 as [Hv1 (J1 & H1 & E1 & A1 & A2 & A3 & A4)]. destruct IHD2 as [Hv2 (J2 & H2 & E2 & B1 & B2 & B3 & B4)].
    cbn [value bval hess]. split; [congruence|]. rewrite E1, E2.
    destruct (msr_ok mJ J1 (- mJ) J2 A1 B1) as (J & -> & C1 & C2 & C3).
    destruct (msh_ok mH H1 (- mH) H2 A2 B2) as (H & -> & C4 & C5).
    exists J, H. split; auto. split; auto. split; auto. split; [rewrite orb_false_iff; tauto|].
    intro h. destruct (A4 h) as (d1 & d2 & D3 & D4 & D5). destruct (B4 h) as (e1 & e2 & D6 & D7 & D8).
    do 2 eexists. split; [apply (second_ext (fun y => F y + -1 * G y)); [intro; ring|]; eapply second_add; [eauto|apply second_scale; eauto]|].
    rewrite C3, C5, D4, D5, D7, D8. split; ring.
  - destruct IHD as [Hv IH]. destruct (jac_ok _ _ _ _ _ _ H s ltac:(now left) x) as (Hc & _).
    cbn [value hess]. unfold gez. rewrite Hc. destruct (Rge_dec (C x) 0); [|lra]. split; auto.
    eapply hess_loc; [exact IH|]. intro h. destruct (jac_ok _ _ _ _ _ _ H s ltac:(now left) h) as (_ & d & Hd & _).
    destruct (lim_pos (fun t => C (line x h t)) 0 d Hd ltac:(cbn beta; rewrite line_0; auto)) as (eps & He & Hp).
    exists eps. split; auto. intros t Ht. specialize (Hp t). rewrite Rminus_0_r in Hp. specialize (Hp Ht).
    destruct (Rge_dec (C (line x h t)) 0); auto. lra.
  - destruct IHD as [Hv IH]. destruct (jac_ok _ _ _ _ _ _ H s ltac:(now left) x) as (Hc & _).
    cbn [value hess]. unfold gez. rewrite Hc. destruct (Rge_dec (C x) 0); [lra|]. split; auto.
    eapply hess_loc; [exact IH|]. intro h. destruct (jac_ok _ _ _ _ _ _ H s ltac:(now left) h) as (_ & d & Hd & _).
    destruct (lim_neg (fun t => C (line x h t)) 0 d Hd ltac:(cbn beta; rewrite line_0; auto)) as (eps & He & Hp).
    exists eps. split; auto. intros t Ht. specialize (Hp t). rewrite Rminus_0_r in Hp. specialize (Hp Ht).
    destruct (Rge_dec (C (line x h t)) 0); auto. lra.
  - exact IHD.
  - exact IHD.
Qed.
