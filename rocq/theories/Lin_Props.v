(** Products with sparse matrices and systems of equations: the theorems. *)
From Coq Require Import List Bool Arith Lia Reals Lra.
From Verif Require Import Util Row_Model Lin_Model Lin_Spec Lin_Proofs.
Import ListNotations.
Local Open Scope R_scope.

(** * C114: products *)
(** the rows of m lie in the interval of v *)
Definition rows_in (m : mat) (v : vec) : Prop := (vbeg v <= mbeg m /\ mbeg m + length (mrows m) <= vbeg v + length (vals v))%nat.
Definition same_interval (v w : vec) : Prop := vbeg v = vbeg w /\ length (vals v) = length (vals w).
Lemma rows_in_fits m v : rows_in m v -> fits m v.
Proof. intros (H1 & H2). right. intros i Hi. unfold inside. lia. Qed.
Lemma prepare_id m v : vals v <> [] -> prepare m v = v.
Proof. intros H. unfold prepare. destruct (vals v); [contradiction|reflexivity]. Qed.

Theorem C114_product m alpha x beta out N :
  columns_in (vbeg x) (vbeg x + length (vals x)) (mrows m) -> (vbeg x + length (vals x) <= N)%nat -> rows_in m out -> vals out <> [] ->
  exists out', mat_vec m alpha x beta out = Some out' /\ same_interval out' out /\
    forall i, value (vbeg out') (vals out') i =
      if ((mbeg m <=? i) && (i <? mbeg m + length (mrows m)))%nat
      then beta * value (vbeg out) (vals out) i + alpha * sum N (fun c => elem (mbeg m) (mrows m) i c * value (vbeg x) (vals x) c)
      else value (vbeg out) (vals out) i.
Proof.
  intros C LN F NE. destruct (mat_vec_ok m alpha x beta out N C LN (rows_in_fits m out F)) as (o & E & B & L & A). exists o. split; [exact E|].
  rewrite (prepare_id m out NE) in B, L. split; [split; assumption|]. exact A.
Qed.
(** an empty result vector gets the interval of the rows and the product *)
Theorem C114_product_into_empty m alpha x beta b N :
  columns_in (vbeg x) (vbeg x + length (vals x)) (mrows m) -> (vbeg x + length (vals x) <= N)%nat ->
  exists out', mat_vec m alpha x beta (Vec b []) = Some out' /\ vbeg out' = mbeg m /\ length (vals out') = length (mrows m) /\
    forall i, value (vbeg out') (vals out') i = alpha * sum N (fun c => elem (mbeg m) (mrows m) i c * value (vbeg x) (vals x) c).
Proof.
  intros C LN. destruct (mat_vec_ok m alpha x beta (Vec b []) N C LN (or_introl eq_refl)) as (o & E & B & L & A). exists o. split; [exact E|]. cbn [prepare vals vbeg] in B, L. rewrite repeat_length in L.
  split; [exact B|]. split; [exact L|]. intros i. change (value (vbeg o) (vals o) i) with (at_ o i). rewrite A.
  assert (Z : at_ (Vec b []) i = 0) by (apply at_out; unfold inside; cbn [vals length vbeg]; lia). rewrite Z.
  destruct (Nat.leb_spec (mbeg m) i), (Nat.ltb_spec i (mbeg m + length (mrows m))); cbn [andb]; try (unfold at_; ring);
    rewrite sum_0; try ring; intros c _; rewrite elem_out by lia; ring.
Qed.
Theorem C114_transposed_product m alpha x beta out N :
  rows_in m x -> columns_in (vbeg out) (vbeg out + length (vals out)) (mrows m) -> (mbeg m + length (mrows m) <= N)%nat -> vals out <> [] ->
  exists out', mat_vec_transpose m alpha x beta out = Some out' /\ same_interval out' out /\
    forall c, value (vbeg out') (vals out') c = beta * value (vbeg out) (vals out) c + alpha * sum N (fun i => elem (mbeg m) (mrows m) i c * value (vbeg x) (vals x) i).
Proof.
  intros (F1 & F2) C LN NE. destruct (mat_vec_t_ok m alpha x beta out N) as (o & E & B & L & A); [intros i Hi; unfold inside; lia|rewrite prepare_id by exact NE; exact C|exact LN|].
  rewrite prepare_id in B, L by exact NE. exists o. split; [exact E|]. split; [split; assumption|]. exact A.
Qed.
(** the two products are adjoint: <y, A x> = <A^T y, x> *)
Theorem C114_adjoint m x y ax aty N :
  columns_in (vbeg x) (vbeg x + length (vals x)) (mrows m) -> columns_in (vbeg aty) (vbeg aty + length (vals aty)) (mrows m) -> rows_in m ax -> rows_in m y ->
  vals ax <> [] -> vals aty <> [] -> (vbeg x + length (vals x) <= N)%nat -> (mbeg m + length (mrows m) <= N)%nat ->
  (forall i, value (vbeg ax) (vals ax) i = 0) ->
  exists p q, mat_vec m 1 x 0 ax = Some p /\ mat_vec_transpose m 1 y 0 aty = Some q /\
    sum N (fun i => value (vbeg y) (vals y) i * value (vbeg p) (vals p) i) = sum N (fun c => value (vbeg q) (vals q) c * value (vbeg x) (vals x) c).
Proof.
  intros C1 C2 F1 F2 N1 N2 L1 L2 Z. destruct (C114_product m 1 x 0 ax N C1 L1 F1 N1) as (p & Ep & _ & Ap). destruct (C114_transposed_product m 1 y 0 aty N F2 C2 L2 N2) as (q & Eq & _ & Aq).
  exists p, q. split; [exact Ep|]. split; [exact Eq|].
  rewrite (sum_ext N _ (fun i => sum N (fun c => value (vbeg y) (vals y) i * elem (mbeg m) (mrows m) i c * value (vbeg x) (vals x) c))).
  - rewrite sum_swap. apply sum_ext. intros c _. rewrite Aq. rewrite Rmult_0_l, Rplus_0_l, Rmult_1_l, Rmult_comm, <- sum_mul. apply sum_ext. intros i _. ring.
  - intros i _. rewrite Ap. destruct (Nat.leb_spec (mbeg m) i), (Nat.ltb_spec i (mbeg m + length (mrows m))); cbn [andb].
    2, 3, 4: (rewrite Z, Rmult_0_r; symmetry; apply sum_0; intros c _; rewrite elem_out by lia; ring).
    rewrite Rmult_0_l, Rplus_0_l, Rmult_1_l, <- sum_mul. apply sum_ext. intros c _. ring.
Qed.
(** an empty result of the transposed product gets the interval of the rows instead of the columns:
    the product with a matrix of one row and two columns writes outside of it *)
Theorem C114_transposed_into_empty_refuted :
  let m := Mat 0 [[(0%nat, 1); (1%nat, 1)]] in let x := Vec 0 [1] in
  mat_vec_transpose m 1 x 0 (Vec 0 []) = None /\ exists v, mat_vec_transpose m 1 x 0 (Vec 0 [0; 0]) = Some v /\ vals v <> [].
Proof.
  cbv zeta. split.
  - unfold mat_vec_transpose, prepare. cbn [vals vbeg mbeg mrows length repeat map]. destruct (Req_EM_T 0 0); [|lra]. reflexivity.
  - destruct (C114_transposed_product (Mat 0 [[(0%nat, 1); (1%nat, 1)]]) 1 (Vec 0 [1]) 0 (Vec 0 [0; 0]) 1) as (v & E & (_ & L) & _).
    + unfold rows_in. cbn. lia.
    + intros r e [<-|[]] [<-|[<-|[]]]; cbn; lia.
    + cbn. lia.
    + discriminate.
    + exists v. split; [exact E|]. intros X. rewrite X in L. discriminate.
Qed.
(** exactly when all columns lie among the rows (and the rows that are not empty lie in x) it succeeds, and then
    the result is the product; beta does not matter *)
Theorem C114_transposed_into_empty m alpha x beta b :
  ((exists out', mat_vec_transpose m alpha x beta (Vec b []) = Some out') <->
     columns_in (mbeg m) (mbeg m + length (mrows m)) (mrows m) /\
     (forall k, (k < length (mrows m))%nat -> nth k (mrows m) [] <> [] -> (vbeg x <= mbeg m + k < vbeg x + length (vals x))%nat)) /\
  forall out' N, mat_vec_transpose m alpha x beta (Vec b []) = Some out' -> (mbeg m + length (mrows m) <= N)%nat ->
    vbeg out' = mbeg m /\ length (vals out') = length (mrows m) /\
    forall c, value (vbeg out') (vals out') c = alpha * sum N (fun i => elem (mbeg m) (mrows m) i c * value (vbeg x) (vals x) i).
Proof.
  assert (NEED : forall out', mat_vec_transpose m alpha x beta (Vec b []) = Some out' -> columns_in (mbeg m) (mbeg m + length (mrows m)) (mrows m) /\
     (forall k, (k < length (mrows m))%nat -> nth k (mrows m) [] <> [] -> (vbeg x <= mbeg m + k < vbeg x + length (vals x))%nat)).
  { intros out' E. destruct (mat_vec_t_needs _ _ _ _ _ _ E) as (H1 & H2). split; [|exact H1]. intros r e Hr He. specialize (H2 r e Hr He). unfold inside in H2. cbn [prepare vbeg vals] in H2. rewrite repeat_length in H2. exact H2. }
  split.
  - split; [intros (out' & E); exact (NEED out' E)|]. intros (C & Hx). destruct (mat_vec_t_empty m alpha x beta b (mbeg m + length (mrows m)) Hx C (le_n _)) as (o & E & _). exists o. exact E.
  - intros out' N E LN. destruct (NEED out' E) as (C & Hx). destruct (mat_vec_t_empty m alpha x beta b N Hx C LN) as (o & E2 & B & L & A). rewrite E2 in E. injection E as <-. split; [exact B|]. split; [exact L|exact A].
Qed.
Example C114_nonvacuous :
  let m := Mat 5 [[(7%nat, 2); (8%nat, 3)]; [(8%nat, 4)]] in let x := Vec 7 [1; 10] in let y := Vec 5 [100; 1000] in
  exists p, mat_vec m 1 x 0 (Vec 5 [0; 0]) = Some p /\ value (vbeg p) (vals p) 5 = 32 /\ value (vbeg p) (vals p) 6 = 40.
Proof.
  cbv zeta. destruct (C114_product (Mat 5 [[(7%nat, 2); (8%nat, 3)]; [(8%nat, 4)]]) 1 (Vec 7 [1; 10]) 0 (Vec 5 [0; 0]) 9) as (p & E & _ & A).
  - intros r e [<-|[<-|[]]]; intros [<-|He]; try (cbn; lia); [destruct He as [<-|[]]; cbn; lia|destruct He].
  - cbn. lia.
  - unfold rows_in. cbn. lia.
  - discriminate.
  - exists p. split; [exact E|]. split; rewrite A; unfold value, elem; cbn; lra.
Qed.

(** * C115: Rescale, Clear, Norm *)
(** the j-th equation and its second derivatives *)
Definition equation (x : resid) (i : nat) (r : rrow) (b : R) : Prop := nth_error (jac x) i = Some r /\ nth_error (rhs x) i = Some b.
Theorem C115_rescale kind x : kind <> Pow 0 -> shaped x ->
  exists x', rescale kind x = Some x' /\ shaped x' /\ rbeg x' = rbeg x /\ length (rhs x') = length (rhs x) /\
    forall i r b, equation x i r b -> exists s, 0 < s /\ equation x' i (times s r) (b * s) /\ hrow_at x' i = option_map (times s) (hrow_at x i) /\
      ((exists e, In e r /\ snd e <> 0) -> is_unit kind (times s r)) /\ ((forall e, In e r -> snd e = 0) -> s = 1).
Proof.
  intros K H. destruct (rescale_ok kind x H) as (x' & E & S' & B & HB & L & LH & Q). exists x'. split; [exact E|]. split; [exact S'|]. split; [exact B|]. split; [exact L|].
  intros i r b (Er & Eb). destruct (Q i r b Er Eb) as (Q1 & Q2 & Q3). exists (fac kind r). split; [apply fac_pos, K|]. split; [split; assumption|]. split; [exact Q3|].
  pose proof (factor_spec kind r K) as F. unfold fac. destruct (factor kind r) as [s|].
  - split; [tauto|]. intros Z. exfalso. destruct F as (_ & F). destruct kind as [|p]; cbn [is_unit] in F.
    + destruct F as (_ & e & He & Ee). unfold times in He. apply in_map_iff in He. destruct He as (e0 & <- & He). cbn [snd] in Ee. rewrite (Z e0 He), Rmult_0_l, Rabs_R0 in Ee. lra.
    + assert (P : (0 < p)%nat) by (destruct p; [contradiction|lia]). rewrite (proj2 (powers_zero p _ P)) in F; [lra|]. intros e He. unfold times in He. apply in_map_iff in He. destruct He as (e0 & <- & He). cbn [snd]. rewrite (Z e0 He). ring.
  - split; [|reflexivity]. intros (e & He & Ne). exfalso. apply Ne, F, He.
Qed.
(** the solutions of every equation stay the same *)
Theorem C115_same_solutions kind x : kind <> Pow 0 -> shaped x ->
  exists x', rescale kind x = Some x' /\
    forall n u, (forall i r b, equation x i r b -> solves n r b u) <-> (forall i r b, equation x' i r b -> solves n r b u).
Proof.
  intros K H. destruct (rescale_ok kind x H) as (x' & E & (S1' & _) & B & HB & L & LH & Q). exists x'. split; [exact E|]. intros n u. destruct H as (S1 & S2). split.
  - intros A i r b (Er & Eb). assert (Li : (i < length (rhs x'))%nat) by (apply nth_error_Some; congruence).
    destruct (nth_error (jac x) i) as [r0|] eqn:Er0; [|apply nth_error_None in Er0; lia]. destruct (nth_error (rhs x) i) as [b0|] eqn:Eb0; [|apply nth_error_None in Eb0; lia].
    destruct (Q i r0 b0 Er0 Eb0) as (Q1 & Q2 & _). rewrite Q1 in Er. injection Er as <-. rewrite Q2 in Eb. injection Eb as <-.
    apply solves_times; [pose proof (fac_pos kind r0 K); lra|]. exact (A i r0 b0 (conj Er0 Eb0)).
  - intros A i r b (Er & Eb). destruct (Q i r b Er Eb) as (Q1 & Q2 & _). apply (solves_times n (fac kind r)); [pose proof (fac_pos kind r K); lra|]. exact (A i _ _ (conj Q1 Q2)).
Qed.
(** with p = 0 it destroys equations of more than one unknown: 2 x + 3 y = 1 becomes 0 = 0 *)
Theorem C115_rescale_p0_refuted :
  let x := Resid 0 [[(0%nat, 2); (1%nat, 3)]] [1] 0 [] in
  exists x' r, rescale (Pow 0) x = Some x' /\ jac x' = [r] /\ (forall u, solves 2 r 0 u) /\ rhs x' = [0].
Proof.
  cbv zeta. eexists. eexists. split; [reflexivity|]. split; [reflexivity|]. split.
  - intros u. unfold solves. cbn. ring.
  - cbn. f_equal. ring.
Qed.
Theorem C115_clear x : shaped x ->
  exists x', clear x = Some x' /\ rbeg x' = rbeg x /\ length (jac x') = length (jac x) /\ length (rhs x') = length (rhs x) /\
    (forall i r b, equation x' i r b -> r = [] /\ b = 0) /\ norm x' = 0 /\
    (forall i, (i < length (rhs x))%nat -> hess x <> [] -> hrow_at x' i = Some []).
Proof.
  intros H. destruct (clear_ok x H) as (x' & E & B & LJ & L & LH & J & Z & K). exists x'. do 4 (split; [assumption|]). split; [|split].
  - intros i r b (Er & Eb). split; [apply J; eapply nth_error_In; exact Er|apply Z; eapply nth_error_In; exact Eb].
  - apply norm_zero. exact Z.
  - intros i Li NE. destruct H as (S1 & [S2|S2]); [contradiction|]. unfold hrow_at. rewrite B. assert (HB : hbeg x' = hbeg x).
    { clear - E. unfold clear in E. revert E. generalize (length (rhs x)) (rbeg x). intros n k. revert k x. induction n as [|n IH]; intros k x E; cbn [for_each] in E; [congruence|].
      destruct (clear_one k x) as [y|] eqn:Ey; [|discriminate]. rewrite (IH _ _ E). unfold clear_one in Ey. destruct (pos (rbeg x) k); [|discriminate]. destruct (_ <? _)%nat; [|discriminate]. cbv zeta in Ey.
      destruct (match jac x with [] => _ | _ :: _ => _ end); [|discriminate]. destruct (match hess x with [] => _ | _ :: _ => _ end); [|discriminate]. injection Ey as <-. reflexivity. }
    rewrite HB, K by lia. destruct (Nat.leb_spec (rbeg x) (hbeg x + (rbeg x + i - hbeg x))), (Nat.ltb_spec (hbeg x + (rbeg x + i - hbeg x)) (rbeg x + length (rhs x))); try lia. reflexivity.
Qed.
Theorem C115_norm_zero x : norm x = 0 <-> forall b, In b (rhs x) -> b = 0.
Proof. exact (norm_zero x). Qed.
Theorem C115_norm_square x : 0 <= norm x /\ norm x * norm x = sum (length (rhs x)) (fun i => nth i (rhs x) 0 * nth i (rhs x) 0).
Proof.
  assert (X : forall l s, fold_left (fun s v => s + v * v) l s = s + sum (length l) (fun i => nth i l 0 * nth i l 0)).
  { intros l. induction l as [|a l IH] using rev_ind; intros s; [cbn; ring|]. rewrite fold_left_app, IH, app_length. cbn [fold_left length]. rewrite Nat.add_1_r. cbn [sum]. rewrite app_nth2, Nat.sub_diag by lia. cbn [nth].
    rewrite (sum_ext (length l) (fun i => nth i (l ++ [a]) 0 * nth i (l ++ [a]) 0) (fun i => nth i l 0 * nth i l 0)) by (intros; rewrite app_nth1 by assumption; reflexivity). ring. }
  assert (P : forall n (f : nat -> R), 0 <= sum n (fun i => f i * f i)) by (induction n as [|n IH]; intros f; cbn [sum]; [lra|]; specialize (IH f); nra).
  unfold norm. rewrite X, Rplus_0_l. split; [apply sqrt_pos|]. apply sqrt_sqrt, P.
Qed.
(** the hessian must cover the equations: otherwise its data is accessed outside *)
Theorem C115_hessian_interval_refuted :
  exists x, rescale Inf x = None /\ clear x = None /\ length (jac x) = length (rhs x) /\ length (hess x) = length (rhs x).
Proof.
  exists (Resid 0 [[(0%nat, 2)]] [1] 1 [[]]). split; [|split; [|split]]; try reflexivity.
  unfold rescale. cbn [rhs length rbeg for_each]. unfold rescale_one, pos. cbn [rbeg jac rhs hess hbeg nth_error Nat.ltb Nat.leb Nat.sub]. unfold factor, norm_inf. cbn [fold_left snd]. rewrite (Rabs_pos_eq 2) by lra.
  destruct (Rlt_dec 0 2); [|lra]. destruct (Req_EM_T 2 0); [lra|]. reflexivity.
Qed.
Example C115_nonvacuous :
  let x := Resid 3 [[(0%nat, 2); (1%nat, -4)]; []] [8; 1] 3 [[((0%nat, 1%nat), 12)]; []] in
  shaped x /\ exists x', rescale Inf x = Some x' /\ equation x' 0 [(0%nat, 2 * (1 / 4)); (1%nat, -4 * (1 / 4))] (8 * (1 / 4)) /\ hrow_at x' 0 = Some [((0%nat, 1%nat), 12 * (1 / 4))] /\ equation x' 1 [] 1.
Proof.
  cbv zeta. split; [split; [reflexivity|right; cbn; lia]|].
  assert (F0 : factor Inf [(0%nat, 2); (1%nat, -4)] = Some (1 / 4)).
  { unfold factor, norm_inf. cbn [fold_left snd]. rewrite (Rabs_pos_eq 2), (Rabs_left (-4)) by lra. destruct (Rlt_dec 0 2); [|lra]. destruct (Rlt_dec 2 (- -4)); [|lra]. replace (- -4) with 4 by ring. destruct (Req_EM_T 4 0); [lra|]. reflexivity. }
  assert (F1 : factor Inf [] = None) by (unfold factor, norm_inf; cbn [fold_left]; destruct (Req_EM_T 0 0); [reflexivity|lra]).
  unfold rescale. cbn [rhs length rbeg for_each]. unfold rescale_one at 1, pos. cbn [rbeg jac rhs hess hbeg nth_error Nat.ltb Nat.leb Nat.sub]. rewrite F0. cbn [lset times map fst snd].
  unfold rescale_one, pos. cbn [rbeg jac rhs hess hbeg lset nth_error Nat.ltb Nat.leb Nat.sub]. rewrite F1.
  eexists. split; [reflexivity|]. repeat split; reflexivity.
Qed.

(** * C116: MoveRows *)
(** rows from, from+1, ... receive the rows to, to+1, ...: when [to] precedes [from] or the two
    ranges do not meet *)
Theorem C116_move_rows {A} b from to size (d : list A) :
  (to < from \/ from + size <= to)%nat -> (b <= from)%nat -> (b <= to)%nat -> (from + size <= b + length d)%nat -> (to + size <= b + length d)%nat ->
  exists d', move_rows b from to size d = Some d' /\ length d' = length d /\
    (forall k, (k < size)%nat -> nth_error d' (from + k - b) = nth_error d (to + k - b)) /\
    (forall i, ~ (from <= b + i < from + size)%nat -> nth_error d' i = nth_error d i).
Proof.
  intros HH B1 B2 L1 L2. unfold move_rows. destruct (Nat.ltb_spec 0 size) as [P|P].
  2: { cbn [andb]. exists d. split; [reflexivity|]. split; [reflexivity|]. split; [intros; lia|reflexivity]. }
  destruct (Nat.eqb_spec to from); [lia|]. cbn [andb negb]. destruct HH as [HH|HH].
  - destruct (move_loop_down b from to HH size d B2 L1) as (d' & E & L & H). exists d'. split; [exact E|]. split; [exact L|]. split.
    + intros k Lk. rewrite H. destruct (Nat.leb_spec from (b + (from + k - b))), (Nat.ltb_spec (b + (from + k - b)) (from + size)); try lia. cbn [andb]. f_equal. lia.
    + intros i Hi. rewrite H. destruct (Nat.leb_spec from (b + i)), (Nat.ltb_spec (b + i) (from + size)); try lia; reflexivity.
  - destruct (move_loop_apart b from to size HH size d (le_n _) B1 L2) as (d' & E & L & H). exists d'. split; [exact E|]. split; [exact L|]. split.
    + intros k Lk. rewrite H. destruct (Nat.leb_spec from (b + (from + k - b))), (Nat.ltb_spec (b + (from + k - b)) (from + size)); try lia. cbn [andb]. f_equal. lia.
    + intros i Hi. rewrite H. destruct (Nat.leb_spec from (b + i)), (Nat.ltb_spec (b + i) (from + size)); try lia; reflexivity.
Qed.
(** it does not move the rows at [from] to [to] *)
Theorem C116_direction_refuted : move_rows 0 0 2 2 [10; 11; 12; 13]%nat = Some [12; 13; 12; 13]%nat.
Proof. reflexivity. Qed.
(** when [from] precedes [to] and the ranges meet, a row is overwritten before it is read *)
Theorem C116_overlap_refuted : move_rows 0 0 1 3 [10; 11; 12; 13]%nat = Some [13; 13; 13; 13]%nat.
Proof. reflexivity. Qed.
Example C116_nonvacuous : move_rows 5 6 5 3 [10; 11; 12; 13]%nat = Some [10; 10; 11; 12]%nat.
Proof. reflexivity. Qed.

(** * C117: product of the second derivatives with a row *)
(** What is computed in all cases: with n elements in the row, only the first n elements of the hessian take part
    and only the first n elements of the result are scaled; with fewer than n of either it reads outside of them. *)
Theorem C117_hessian_product_exact h alpha u beta j N :
  NoDup (map fst u) -> (forall e, In e h -> (fst (fst e) < N /\ snd (fst e) < N)%nat) ->
  ((length u <= length j)%nat /\ (length u <= length h)%nat ->
     exists j', hess_row_vec h alpha u beta j = Some j' /\
       forall i, coef j' i = beta * coef (firstn (length u) j) i + coef (skipn (length u) j) i + alpha * sum N (fun c => sym (firstn (length u) h) i c * coef u c)) /\
  ((length j < length u)%nat \/ (length h < length u)%nat -> hess_row_vec h alpha u beta j = None).
Proof.
  intros ND HN. unfold hess_row_vec. split.
  - intros (L1 & L2). destruct (scale_first_exact beta (length u) j L1) as (j1 & -> & H1). rewrite hess_loop_firstn by exact L2.
    destruct (hess_loop_ok alpha u N ND (firstn (length u) h) j1) as (j2 & E & H2).
    { intros e He. apply HN. rewrite <- (firstn_skipn (length u) h). apply in_or_app. now left. }
    exists j2. split; [exact E|]. intros i. rewrite H2, H1. ring.
  - intros L. destruct (Nat.lt_ge_cases (length j) (length u)) as [L1|L1]; [now rewrite scale_first_short|].
    destruct (scale_first_exact beta (length u) j L1) as (j1 & -> & _). apply hess_loop_short. destruct L as [L|L]; [exfalso; lia|exact L].
Qed.
(** with equally many elements this is the product *)
Theorem C117_hessian_product h alpha u beta j N :
  NoDup (map fst u) -> length j = length u -> length h = length u -> (forall e, In e h -> (fst (fst e) < N /\ snd (fst e) < N)%nat) ->
  exists j', hess_row_vec h alpha u beta j = Some j' /\ forall i, coef j' i = beta * coef j i + alpha * sum N (fun c => sym h i c * coef u c).
Proof.
  intros ND L1 L2 HN. destruct (proj1 (C117_hessian_product_exact h alpha u beta j N ND HN)) as (j' & E & H); [lia|].
  exists j'. split; [exact E|]. intros i. rewrite H. replace (firstn (length u) h) with h by (rewrite <- L2; symmetry; apply firstn_all). rewrite <- L1, firstn_all, skipn_all. cbn [coef]. ring.
Qed.
(** with fewer entries in the row than in the hessian the rest of the hessian is dropped: the matrix
    with 1 on the diagonal times (0, 1) gives (0, 0) *)
Theorem C117_drops_refuted :
  exists j', hess_row_vec [((0, 0)%nat, 1); ((1, 1)%nat, 1)] 1 [(1%nat, 1)] 0 [(1%nat, 0)] = Some j' /\
    coef j' 1 = 0 /\ sum 2 (fun c => sym [((0, 0)%nat, 1); ((1, 1)%nat, 1)] 1 c * coef [(1%nat, 1)] c) = 1.
Proof. eexists. split; [reflexivity|]. split; cbn; ring. Qed.
(** entries of the result beyond the size of the row are not scaled *)
Theorem C117_not_scaled_refuted :
  exists j', hess_row_vec [((0, 0)%nat, 1)] 1 [(0%nat, 1)] 0 [(0%nat, 5); (1%nat, 7)] = Some j' /\ coef j' 1 = 7.
Proof. eexists. split; [reflexivity|]. cbn. ring. Qed.
(** with more entries in the row than in the result or in the hessian it reads outside of them *)
Theorem C117_outside_refuted :
  hess_row_vec [((0, 0)%nat, 1)] 1 [(0%nat, 1)] 0 [] = None /\ hess_row_vec [] 1 [(0%nat, 1)] 0 [(0%nat, 1)] = None.
Proof. split; reflexivity. Qed.
Example C117_nonvacuous :
  let h := [((0, 1)%nat, 3); ((1, 1)%nat, 4)] in let u := [(0%nat, 10); (1%nat, 100)] in
  exists j', hess_row_vec h 1 u 0 [(0%nat, 1); (1%nat, 1)] = Some j' /\ coef j' 0 = 300 /\ coef j' 1 = 430.
Proof. cbv zeta. eexists. split; [reflexivity|]. split; cbn; ring. Qed.

Print Assumptions C114_product.
Print Assumptions C114_product_into_empty.
Print Assumptions C114_transposed_product.
Print Assumptions C114_adjoint.
Print Assumptions C114_transposed_into_empty_refuted.
Print Assumptions C114_transposed_into_empty.
Print Assumptions C115_rescale.
Print Assumptions C115_same_solutions.
Print Assumptions C115_rescale_p0_refuted.
Print Assumptions C115_clear.
Print Assumptions C115_norm_zero.
Print Assumptions C115_norm_square.
Print Assumptions C115_hessian_interval_refuted.
Print Assumptions C116_move_rows.
Print Assumptions C116_direction_refuted.
Print Assumptions C116_overlap_refuted.
Print Assumptions C117_hessian_product.
Print Assumptions C117_hessian_product_exact.
Print Assumptions C117_drops_refuted.
Print Assumptions C117_not_scaled_refuted.
Print Assumptions C117_outside_refuted.
