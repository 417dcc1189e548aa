From Coq Require Import List Arith Bool Lia Reals Lra.
From Verif Require Import Ilu_Model Ilu_Spec Ilu_Proofs Ilu2_Proofs Bcgs_Model Bcgs_Spec.
Import ListNotations.
Open Scope R_scope.

Lemma row_vec_from r x s : fold_left (fun s e => s + snd e * x (fst e)) r s = s + rowvec r x.
Proof. revert s. induction r as [|e r IH]; intros s; cbn; [ring|]. rewrite IH. ring. Qed.
Lemma mat_vec_ok al A x be out k : mat_vec al A x be out k = be * out k + al * matvec A x k.
Proof. unfold mat_vec, row_vec. rewrite row_vec_from, Rplus_0_l. reflexivity. Qed.
Lemma dot_ok s n x y : dot_from s n x y = s + rs n (fun k => x k * y k).
Proof.
  unfold dot_from. revert s. induction n as [|n IH]; intros s; [cbn; ring|]. rewrite seq_S, fold_left_app. cbn [fold_left Nat.add rs]. rewrite IH. ring.
Qed.
Lemma norm_ok n x : sqrt (dot_from 0 n x x) = norm n x.
Proof. unfold norm. rewrite dot_ok, Rplus_0_l. f_equal. apply rs_ext. intros; ring. Qed.
Lemma rs_sq_nonneg n x : 0 <= rs n (fun k => x k * x k).
Proof. induction n as [|n IH]; cbn; [lra|]. pose proof (Rle_0_sqr (x n)) as H. unfold Rsqr in H. lra. Qed.
Lemma rowvec_lin r x y z a b : (forall i, x i = y i + (a * z i + b)) -> rowvec r x = rowvec r y + (a * rowvec r z + rowvec r (fun _ => b)).
Proof. intros H. induction r as [|e r IH]; cbn; [ring|]. rewrite IH, H. ring. Qed.
Lemma matvec_upd A x y z a b k : matvec A (fun j => x j + (a * y j + b * z j)) k = matvec A x k + (a * matvec A y k + b * matvec A z k).
Proof. unfold matvec. induction (nth k A []) as [|e r IH]; cbn; [ring|]. rewrite IH. ring. Qed.
Lemma norm_ext n x y : (forall k, (k < n)%nat -> x k = y k) -> norm n x = norm n y.
Proof. intros H. unfold norm. f_equal. apply rs_ext. intros k L. rewrite H by exact L. reflexivity. Qed.

Section P.
Variables (A : mat) (prec : nat -> vec -> vec) (noise : nat -> vec) (b : vec).
Notation n := (length A).
(** the recursive residual is the true one *)
Definition good (s : state) : Prop := (forall k, (k < n)%nat -> res s k = residual A b (sol s) k) /\ resid s = norm n (residual A b (sol s)).
Lemma start_good x0 : good (start n A b x0).
Proof.
  assert (H : forall k, res (start n A b x0) k = residual A b x0 k) by (intros k; cbn; rewrite mat_vec_ok; unfold residual; ring).
  split; [intros k _; apply H|]. cbn [resid start sol]. rewrite norm_ok. apply norm_ext. intros k _. apply H.
Qed.
Lemma iterate_good s : good s -> match iterate n A prec noise s with Stop => True | Perturb s' => good s' /\ itn s' = itn s /\ resid s' = resid s | Next s' => good s' /\ itn s' = S (itn s) end.
Proof.
  intros (G1 & G2). unfold iterate. destruct (rt s) as [r0|]; [|exact I]. cbv zeta.
  destruct (Rlt_dec (Rabs (dot_from 0 n r0 (res s))) (/ 10 ^ 50)) as [Sm|Sm]; [unfold perturb; split; [split; [exact G1|exact G2]|split; reflexivity]|].
  match goal with |- context [match ?x with Some _ => _ | None => Stop end] => destruct x as [be|]; [|exact I] end.
  destruct (Rlt_dec (10 ^ 100) (Rabs (be * _))) as [B1|B1]; [exact I|].
  match goal with |- context [match ?x with Some _ => _ | None => Stop end] => destruct x as [al|]; [|exact I] end.
  destruct (Rlt_dec (10 ^ 100) (Rabs al)) as [B2|B2]; [exact I|].
  match goal with |- context [Rlt_dec (10 ^ 100) (Rabs ?o)] => set (om := o); destruct (Rlt_dec (10 ^ 100) (Rabs om)) as [B3|B3]; [exact I|] end.
  split; [|reflexivity].
  match goal with |- good ?s' => assert (H : forall k, (k < n)%nat -> res s' k = residual A b (sol s') k) end.
  { intros k L. cbn [res sol]. unfold residual. rewrite matvec_upd, !mat_vec_ok, (G1 k L). unfold residual. ring. }
  split; [exact H|]. cbn [resid sol]. rewrite norm_ok. apply norm_ext. exact H.
Qed.
Variables (rtol atol divtol : R) (maxits : nat).
Lemma loop_good : forall fuel r0 i s s', good s -> itn s = i -> (i <= maxits)%nat ->
  loop n A prec noise rtol atol divtol maxits fuel r0 i s = Some s' -> good s' /\ (itn s' <= S maxits)%nat.
Proof.
  induction fuel as [|fuel IH]; intros r0 i s s' G E L; cbn [loop]; [discriminate|].
  pose proof (iterate_good s G) as H. destruct (iterate n A prec noise s) as [|s1|s1].
  - intros [= <-]. split; [exact G|lia].
  - destruct H as (G1 & E1 & _). intros X. eapply IH; [exact G1| |exact L|exact X]. congruence.
  - destruct H as (G1 & E1). destruct (less divtol (resid s1) || less (resid s1) atol || less (resid s1) (rtol * r0)) eqn:C; cbn [orb].
    + intros [= <-]. split; [exact G1|lia].
    + destruct (Nat.eqb_spec i maxits) as [->|N]; [intros [= <-]; split; [exact G1|lia]|]. intros X. eapply IH; [exact G1| | |exact X]; lia.
Qed.
End P.

Lemma less_ok a b : less a b = true <-> a < b.
Proof. unfold less. destruct (Rlt_dec a b); split; intros; try assumption; try reflexivity; [discriminate|contradiction]. Qed.
Lemma norm_nonneg n x : 0 <= norm n x. Proof. apply sqrt_pos. Qed.
Lemma norm_sq n x : norm n x * norm n x = rs n (fun k => x k * x k).
Proof.
  unfold norm. rewrite sqrt_sqrt; [apply rs_ext; intros; ring|]. rewrite (rs_ext n _ (fun k => x k * x k)) by (intros; ring). apply rs_sq_nonneg.
Qed.
Lemma norm_zero n x : norm n x = 0 -> forall k, (k < n)%nat -> x k = 0.
Proof.
  intros H. pose proof (norm_sq n x) as Q. rewrite H, Rmult_0_l in Q. clear H. induction n as [|n IH]; intros k L; [lia|]. cbn in Q.
  pose proof (rs_sq_nonneg n x). pose proof (Rle_0_sqr (x n)) as S. unfold Rsqr in S. destruct (Nat.eq_dec k n) as [->|N].
  - apply Rsqr_0_uniq. unfold Rsqr. lra.
  - apply IH; [lra|lia].
Qed.
(** one iteration with an exact preconditioner from the start *)
Lemma exact_step A prec noise b x0 : exact_inverse A prec ->
  let n := length A in let s := start n A b x0 in / 10 ^ 50 <= resid s <= 10 ^ 100 ->
  exists s', iterate n A prec noise s = Next s' /\ itn s' = 1%nat /\ resid s' = 0 /\ (forall k, (k < n)%nat -> matvec A (sol s') k = b k) /\ (forall k, (k < n)%nat -> res s' k = 0) /\ rt s' = Some (fun k => res s k / resid s) /\ alpha s' = 1.
Proof.
  intros Ex n s (B1 & B2). assert (P50 : 0 < / 10 ^ 50) by (apply Rinv_0_lt_compat, pow_lt; lra). assert (P100 : 1 <= 10 ^ 100) by (apply pow_R1_Rle; lra).
  assert (Rp : 0 < resid s) by lra.
  assert (ERT : rt s = Some (fun k => res s k / resid s)).
  { unfold s, start. cbn [rt resid res]. fold (start n A b x0). change (sqrt _) with (resid s). destruct (Req_EM_T (resid s) 0); [lra|reflexivity]. }
  assert (ER : resid s = norm n (res s)) by (unfold s, start; cbn [resid res]; apply norm_ok).
  set (r0 := fun k => res s k / resid s) in *.
  assert (D : forall x, (forall k, (k < n)%nat -> x k = res s k) -> dot_from 0 n r0 x = resid s).
  { intros x H. rewrite dot_ok, Rplus_0_l. rewrite (rs_ext n _ (fun k => / resid s * (res s k * res s k))) by (intros k L; unfold r0; rewrite (H k L); unfold Rdiv; ring).
    rewrite rs_mul, <- norm_sq, <- ER. field. lra. }
  unfold iterate. rewrite ERT. cbv zeta. rewrite (D (res s)) by reflexivity. rewrite (Rabs_right (resid s)) by lra.
  destruct (Rlt_dec (resid s) (/ 10 ^ 50)) as [X|_]; [lra|].
  match goal with |- context [match div0 ?x ?y with Some _ => _ | None => Stop end] => assert (Eb : div0 x y = Some 1) end.
  { change (rho s) with 1. change (alpha s) with 1. change (omega s) with 1. unfold div0. destruct (Req_EM_T 1 0) as [X|_]; [lra|]. f_equal. field. }
  rewrite Eb, Rmult_1_l. rewrite (Rabs_right (resid s)) by lra.
  destruct (Rlt_dec (10 ^ 100) (resid s)) as [X|_]; [lra|].
  match goal with |- context [prec (calls s) ?p] => set (pp := p) end.
  assert (Ep : forall k, pp k = res s k) by (intros k; unfold pp; change (dir s k) with 0; change (dv s k) with 0; ring).
  set (y := prec (calls s) pp). set (vv := mat_vec 1 A y 0 (dv s)).
  assert (Ev : forall k, (k < n)%nat -> vv k = res s k) by (intros k L; unfold vv, y; rewrite mat_vec_ok, Ex by exact L; rewrite Ep; ring).
  rewrite (D vv Ev). unfold div0. destruct (Req_EM_T (resid s) 0) as [X|_]; [lra|]. replace (resid s / resid s) with 1 by (field; lra). rewrite Rabs_R1.
  destruct (Rlt_dec (10 ^ 100) 1) as [X|_]; [lra|].
  match goal with |- context [prec (S (calls s)) ?q] => set (sv := q) end.
  assert (Es : forall k, (k < n)%nat -> sv k = 0) by (intros k L; unfold sv; rewrite Ev by exact L; ring).
  set (z := prec (S (calls s)) sv). set (t := mat_vec 1 A z 0 (fun _ => 0)).
  assert (Et : forall k, (k < n)%nat -> t k = 0) by (intros k L; unfold t, z; rewrite mat_vec_ok, Ex by exact L; rewrite (Es k L); ring).
  assert (Ta : dot_from 0 n t sv = 0) by (rewrite dot_ok, rs_0; [ring|intros k L; rewrite (Et k L); ring]). rewrite Ta.
  destruct (Req_EM_T 0 0) as [_|X]; [|contradiction]. rewrite Rabs_R0. destruct (Rlt_dec (10 ^ 100) 0) as [X|_]; [lra|].
  eexists. split; [reflexivity|]. cbn [itn resid sol res rt alpha]. split; [reflexivity|]. split; [|split; [|split; [|split; reflexivity]]].
  - rewrite dot_ok, rs_0; [rewrite Rplus_0_l; apply sqrt_0|]. intros k L. rewrite (Ev k L), (Et k L). ring.
  - intros k L. rewrite matvec_upd. pose proof (Ev k L) as V. unfold vv in V. rewrite mat_vec_ok in V. fold y. fold z. replace (matvec A y k) with (res s k) by lra.
    unfold s, start. cbn [res sol]. rewrite mat_vec_ok. ring.
  - intros k L. rewrite (Ev k L), (Et k L). ring.
Qed.
(** with a zero residual rho1 is zero: the shadow residual is perturbed for ever *)
Lemma perturb_forever A prec noise rtol atol divtol maxits r0 i : forall fuel s q, (forall k, (k < length A)%nat -> res s k = 0) -> (0 < length A)%nat ->
  rt s = Some q -> 0 < q 0%nat -> (forall j, 0 <= noise j 0%nat) -> loop (length A) A prec noise rtol atol divtol maxits fuel r0 i s = None.
Proof.
  induction fuel as [|fuel IH]; intros s q Z L E P Nn; [reflexivity|]. cbn [loop]. unfold iterate. rewrite E. cbv zeta.
  rewrite dot_ok, rs_0 by (intros k Lk; rewrite (Z k Lk); ring). rewrite Rplus_0_l, Rabs_R0.
  assert (P50 : 0 < / 10 ^ 50) by (apply Rinv_0_lt_compat, pow_lt; lra). destruct (Rlt_dec 0 (/ 10 ^ 50)) as [_|X]; [|lra].
  set (r1 := fun k => q k + noise (perts s) k). assert (P1 : 0 < r1 0%nat) by (unfold r1; specialize (Nn (perts s)); lra).
  assert (NZ : 0 < norm (length A) r1).
  { destruct (norm_nonneg (length A) r1) as [X|X]; [exact X|]. symmetry in X. rewrite (norm_zero _ _ X 0%nat L) in P1. lra. }
  apply (IH _ (fun k => r1 k / norm (length A) r1)); [exact Z|exact L| | |exact Nn].
  - unfold perturb. rewrite E. cbv zeta. fold r1. cbn [rt]. rewrite norm_ok. destruct (Req_EM_T (norm (length A) r1) 0); [lra|reflexivity].
  - apply Rdiv_lt_0_compat; assumption.
Qed.

(** the two halves of one iteration *)
Lemma rs_quad n x y w : rs n (fun k => (x k - w * y k) ^ 2) = rs n (fun k => x k * x k) - 2 * w * rs n (fun k => y k * x k) + w * w * rs n (fun k => y k * y k).
Proof.
  induction n as [|n IH]; cbn [rs]; [ring|]. rewrite IH. ring.
Qed.
Lemma step_ok n A prec noise s s' : iterate n A prec noise s = Next s' ->
  exists r0 y z, rt s = Some r0 /\ let sv := fun k => res s k - alpha s' * matvec A y k in
    y = prec (calls s) (dir s') /\ z = prec (S (calls s)) (fun k => res s k - alpha s' * dv s' k) /\
    (forall k, dv s' k = matvec A y k) /\
    (forall k, dir s' k = res s k + (rho s' / rho s * (alpha s / omega s)) * (dir s k - omega s * dv s k)) /\
    rho s' = rs n (fun k => r0 k * res s k) /\ omega s <> 0 /\
    rs n (fun k => r0 k * sv k) = 0 /\
    (forall k, res s' k = sv k - omega s' * matvec A z k) /\
    forall w, rs n (fun k => res s' k ^ 2) + / 10 ^ 100 * omega s' ^ 2 <= rs n (fun k => (sv k - w * matvec A z k) ^ 2) + / 10 ^ 100 * w ^ 2.
Proof.
  unfold iterate. destruct (rt s) as [r0|]; [|discriminate]. cbv zeta. set (rho1 := dot_from 0 n r0 (res s)).
  destruct (Rlt_dec (Rabs rho1) (/ 10 ^ 50)) as [Sm|Sm]; [discriminate|].
  unfold div0 at 1. destruct (Req_EM_T (omega s) 0) as [Zo|Zo]; [discriminate|]. match goal with |- context [Rabs ?x] => set (be := x) end.
  destruct (Rlt_dec (10 ^ 100) (Rabs be)) as [B1|B1]; [discriminate|]. set (p := fun k => res s k + be * (dir s k - omega s * dv s k)). set (y := prec (calls s) p).
  set (v := mat_vec 1 A y 0 (dv s)). unfold div0. destruct (Req_EM_T (dot_from 0 n r0 v) 0) as [Zv|Zv]; [discriminate|]. set (al := rho1 / dot_from 0 n r0 v).
  destruct (Rlt_dec (10 ^ 100) (Rabs al)) as [B2|B2]; [discriminate|]. set (sv := fun k => res s k - al * v k). set (z := prec (S (calls s)) sv). set (t := mat_vec 1 A z 0 (fun _ => 0)).
  set (ta := dot_from 0 n t sv). set (tb := dot_from (/ 10 ^ 100) n t t). set (om := if Req_EM_T ta 0 then 0 else ta / tb).
  destruct (Rlt_dec (10 ^ 100) (Rabs om)) as [B3|B3]; [discriminate|]. intros [= <-]. cbn [alpha dir dv rho omega res].
  assert (Ev : forall k, v k = matvec A y k) by (intros k; unfold v; rewrite mat_vec_ok; ring).
  assert (Et : forall k, t k = matvec A z k) by (intros k; unfold t; rewrite mat_vec_ok; ring).
  assert (Esv : forall k, sv k = res s k - al * matvec A y k) by (intros k; unfold sv; rewrite Ev; reflexivity).
  exists r0, y, z. split; [reflexivity|]. cbv zeta. split; [reflexivity|]. split; [reflexivity|]. split; [exact Ev|]. split.
  { intros k. unfold p. f_equal. f_equal. unfold be, Rdiv. ring. }
  split; [unfold rho1; rewrite dot_ok; ring|]. split; [exact Zo|]. split.
  { rewrite (rs_ext n _ (fun k => r0 k * res s k + - al * (r0 k * v k))) by (intros k _; rewrite Ev; ring). rewrite rs_add, rs_mul.
    unfold al, rho1. rewrite !dot_ok in *. rewrite !Rplus_0_l in *. field. rewrite <- (Rplus_0_l (rs n (fun k => r0 k * v k))), <- dot_ok. rewrite dot_ok, Rplus_0_l. exact Zv. }
  split; [intros k; rewrite <- Esv, <- Et; reflexivity|]. intros w.
  assert (E1 : rs n (fun k => (res s k - al * matvec A y k - w * matvec A z k) ^ 2) = rs n (fun k => (sv k - w * t k) ^ 2)) by (apply rs_ext; intros k _; rewrite Esv, Et; reflexivity). rewrite E1.
  assert (E2 : rs n (fun k => (res s k - al * v k - om * t k) ^ 2) = rs n (fun k => (sv k - om * t k) ^ 2)) by reflexivity. rewrite E2.
  rewrite !rs_quad. replace (rs n (fun k => t k * sv k)) with ta by (unfold ta; rewrite dot_ok; ring).
  replace (rs n (fun k => t k * t k)) with (tb - / 10 ^ 100) by (unfold tb; rewrite dot_ok; ring).
  assert (Pb : 0 < tb) by (unfold tb; rewrite dot_ok; assert (0 < / 10 ^ 100) by (apply Rinv_0_lt_compat, pow_lt; lra); pose proof (rs_sq_nonneg n t); lra).
  assert (Em : om * tb = ta) by (unfold om; destruct (Req_EM_T ta 0) as [->|]; [ring|field; lra]).
  pose proof (Rle_0_sqr (w - om)) as Q. unfold Rsqr in Q. apply (Rmult_le_compat_l tb) in Q; [|lra]. rewrite <- Em.
  match goal with |- ?a <= ?b => replace b with (a + tb * ((w - om) * (w - om))) by ring end. lra.
Qed.
