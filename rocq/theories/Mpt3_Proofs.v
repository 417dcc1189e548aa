(** Proofs about the maximum product transversal: the initial state, the scaling and the product. *)
From Coq Require Import List Bool Arith Lia Reals Lra Permutation.
From Verif Require Import Util Heap_Model Heap_Proofs Mpt_Model Mpt_Spec Mpt_Proofs Mpt2_Proofs.
Import ListNotations.
Local Open Scope R_scope.

Lemma is_zero_t x : is_zero x = true <-> x = 0.
Proof. unfold is_zero. destruct (Req_EM_T x 0); split; auto; discriminate. Qed.
Lemma is_zero_f x : is_zero x = false <-> x <> 0.
Proof. unfold is_zero. destruct (Req_EM_T x 0); split; auto; try discriminate; contradiction. Qed.

(** * Elements *)
Lemma el_in (A : matrix) m k i x : well_formed A m -> In (i, x) (nth k A []) -> el A k i = x.
Proof.
  intros W H. assert (Hr : In (nth k A []) A) by (apply nth_In; destruct (Nat.lt_ge_cases k (length A)); [assumption|rewrite nth_overflow in H by assumption; destruct H]).
  destruct (W _ Hr) as (ND & _). unfold el. revert ND H. clear. induction (nth k A []) as [|(j, y) l IH]; intros ND H; [destruct H|]. cbn [map fst] in ND. inversion ND as [|? ? N1 N2]; subst.
  cbn [find fst]. destruct (Nat.eqb_spec j i) as [->|Nj].
  - destruct H as [X|X]; [injection X as ->; reflexivity|]. exfalso. apply N1. apply in_map_iff. exists (i, x). auto.
  - destruct H as [X|X]; [congruence|]. apply IH; assumption.
Qed.
Lemma el_nz (A : matrix) k i : el A k i <> 0 -> In (i, el A k i) (nth k A []) /\ (k < length A)%nat.
Proof.
  unfold el. destruct (find _ _) as [(j, y)|] eqn:F; [|intros X; contradiction]. intros _. apply find_some in F. cbn [fst snd] in *. destruct F as (H & X). apply Nat.eqb_eq in X. subst j.
  split; [exact H|]. destruct (Nat.lt_ge_cases k (length A)); [assumption|rewrite nth_overflow in H by assumption; destruct H].
Qed.
Lemma in_concat_nth {X} (A : list (list X)) e : In e (concat A) <-> exists k, In e (nth k A []).
Proof.
  rewrite in_concat. split.
  - intros (l & H1 & H2). apply (In_nth _ _ []) in H1. destruct H1 as (k & _ & <-). eauto.
  - intros (k & H). exists (nth k A []). split; [|exact H]. apply nth_In. destruct (Nat.lt_ge_cases k (length A)); [assumption|rewrite nth_overflow in H by assumption; destruct H].
Qed.

(** * Column maxima *)
Lemma fold_cmax i : forall l b, let r := fold_left (fun M e => if fst e =? i then Rmax M (Rabs (snd e)) else M) l b in
  b <= r /\ (forall x, In (i, x) l -> Rabs x <= r) /\ (r = b \/ exists x, In (i, x) l /\ r = Rabs x).
Proof.
  induction l as [|(j, y) l IH]; intros b; cbn [fold_left].
  - split; [lra|]. split; [intros x []|left; reflexivity].
  - cbn [fst snd]. match goal with |- context [fold_left _ l ?b1] => set (b' := b1); destruct (IH b') as (H1 & H2 & H3) end.
    assert (b <= b') by (unfold b'; destruct (j =? i); [apply Rmax_l|lra]). split; [lra|]. split.
    + intros x [X|X]; [|auto]. injection X as -> ->. eapply Rle_trans; [|exact H1]. unfold b'. rewrite Nat.eqb_refl. apply Rmax_r.
    + destruct H3 as [->|(x & X1 & X2)]; [|right; exists x; split; [right; exact X1|exact X2]].
      unfold b'. destruct (Nat.eqb_spec j i) as [->|]; [|auto]. unfold Rmax. destruct (Rle_dec _ _); [|auto]. right. exists y. split; [left; reflexivity|reflexivity].
Qed.
Lemma cmax_spec A i : 0 <= cmax A i /\ (forall k x, In (i, x) (nth k A []) -> Rabs x <= cmax A i) /\
  (cmax A i = 0 \/ exists k x, In (i, x) (nth k A []) /\ cmax A i = Rabs x).
Proof.
  destruct (fold_cmax i (concat A) 0) as (H1 & H2 & H3). fold (cmax A i) in *. split; [exact H1|]. split.
  - intros k x H. apply H2. apply in_concat_nth. eauto.
  - destruct H3 as [H|(x & H & E1)]; [auto|]. apply in_concat_nth in H. destruct H as (k & H). right. eauto.
Qed.
Lemma cmax_el A m i : well_formed A m -> column_max A i (cmax A i) \/ (cmax A i = 0 /\ forall k, el A k i = 0).
Proof.
  intros W. destruct (cmax_spec A i) as (H1 & H2 & H3).
  assert (Le : forall k, Rabs (el A k i) <= cmax A i).
  { intros k. destruct (Req_EM_T (el A k i) 0) as [->|N]; [rewrite Rabs_R0; exact H1|]. apply (H2 k). apply el_nz, N. }
  destruct H3 as [H|(k & x & H & E1)].
  - right. split; [exact H|]. intros k. specialize (Le k). rewrite H in Le. pose proof (Rabs_pos (el A k i)). destruct (Req_EM_T (el A k i) 0) as [|N]; [assumption|]. apply Rabs_pos_lt in N. lra.
  - left. split; [exact Le|]. exists k. rewrite (el_in A m k i x W H). auto.
Qed.
Lemma column_max_cmax A m i M : well_formed A m -> column_max A i M -> M = cmax A i.
Proof.
  intros W (H1 & k & H2). destruct (cmax_el A m i W) as [(G1 & l & G2)|(Z & G)].
  - apply Rle_antisym; [rewrite <- H2; apply G1|rewrite <- G2; apply H1].
  - rewrite Z, <- H2, G. apply Rabs_R0.
Qed.

(** * Products *)
Lemma prod_mult n x y : prod n (fun k => x k * y k) = prod n x * prod n y.
Proof. induction n as [|n IH]; cbn [prod]; [lra|]. rewrite IH. ring. Qed.
Lemma prod_ext n x y : (forall k, (k < n)%nat -> x k = y k) -> prod n x = prod n y.
Proof. induction n as [|n IH]; intros H; cbn [prod]; [reflexivity|]. rewrite IH by (intros; apply H; lia). rewrite H by lia. reflexivity. Qed.
Lemma prod_pos n x : (forall k, (k < n)%nat -> 0 < x k) -> 0 < prod n x.
Proof. induction n as [|n IH]; intros H; cbn [prod]; [lra|]. apply Rmult_lt_0_compat; [apply IH; intros; apply H; lia|apply H; lia]. Qed.
Lemma prod_le1 n x : (forall k, (k < n)%nat -> 0 <= x k <= 1) -> 0 <= prod n x <= 1.
Proof. induction n as [|n IH]; intros H; cbn [prod]; [lra|]. assert (0 <= prod n x <= 1) by (apply IH; intros; apply H; lia). specialize (H n ltac:(lia)). nra. Qed.
Lemma prod_one n x : (forall k, (k < n)%nat -> x k = 1) -> prod n x = 1.
Proof. induction n as [|n IH]; intros H; cbn [prod]; [reflexivity|]. rewrite IH by (intros; apply H; lia). rewrite H by lia. lra. Qed.

Fixpoint lprod (l : list R) : R := match l with [] => 1 | x :: l' => x * lprod l' end.
Lemma lprod_app a b : lprod (a ++ b) = lprod a * lprod b.
Proof. induction a as [|x a IH]; cbn [lprod app]; [lra|]. rewrite IH. ring. Qed.
Lemma prod_lprod n (x : nat -> R) (f : nat -> nat) : prod n (fun k => x (f k)) = lprod (map x (map f (seq 0 n))).
Proof. induction n as [|n IH]; [reflexivity|]. cbn [prod]. rewrite seq_S, !map_app, lprod_app, IH. cbn [map lprod plus]. ring. Qed.
Lemma lprod_perm a b : Permutation a b -> lprod a = lprod b.
Proof. induction 1; cbn [lprod]; [reflexivity|rewrite IHPermutation; reflexivity|ring|congruence]. Qed.
Lemma assign_nodup n k f : assignment n k f -> NoDup (map f (seq 0 n)) /\ incl (map f (seq 0 n)) (seq 0 k).
Proof.
  intros (H1 & H2). split.
  - assert (X : forall l, NoDup l -> (forall i, In i l -> (i < n)%nat) -> NoDup (map f l)); [|apply X; [apply seq_NoDup|intros i Hi; apply in_seq in Hi; lia]].
    induction l as [|i l IHl]; intros ND Hl; cbn [map]; [constructor|]. inversion ND; subst. constructor; [|apply IHl; [assumption|intros; apply Hl; right; assumption]].
    intros Y. apply in_map_iff in Y. destruct Y as (j & Y & Hj). apply H2 in Y; [subst; contradiction|apply Hl; right; exact Hj|apply Hl; left; reflexivity].
  - intros i Hi. apply in_map_iff in Hi. destruct Hi as (k' & <- & Hk). apply in_seq in Hk. apply in_seq. specialize (H1 k' ltac:(lia)). lia.
Qed.
Lemma assign_prod n f h x : assignment n n f -> assignment n n h -> prod n (fun k => x (f k)) = prod n (fun k => x (h k)).
Proof.
  intros Hf Hh. rewrite !prod_lprod. apply lprod_perm, Permutation_map.
  destruct (assign_nodup _ _ _ Hf) as (F1 & F2). destruct (assign_nodup _ _ _ Hh) as (H1 & H2).
  transitivity (seq 0 n); [|symmetry]; apply NoDup_Permutation_bis; auto; rewrite map_length, seq_length; lia.
Qed.
(** numbers of at most one: fewer factors give a larger product *)
Lemma lprod_sub (x : nat -> R) : forall (l L : list nat), NoDup l -> incl l L -> (forall i, In i L -> 0 < x i <= 1) -> lprod (map x L) <= lprod (map x l) /\
  ((forall i, In i L -> ~ In i l -> x i = 1) -> NoDup L -> lprod (map x L) = lprod (map x l)).
Proof.
  induction l as [|i l IH]; intros L ND I Hx.
  - cbn [map lprod]. split.
    + clear I ND. induction L as [|j L IHL]; cbn [map lprod]; [lra|]. specialize (IHL ltac:(intros; apply Hx; right; assumption)). specialize (Hx j (or_introl eq_refl)).
      assert (0 < lprod (map x L) \/ lprod (map x L) <= 0) as [|] by lra; nra.
    + intros H1 _. clear I ND Hx. induction L as [|j L IHL]; cbn [map lprod]; [reflexivity|]. rewrite IHL by (intros; apply H1; [right; assumption|auto]). rewrite H1; [lra|left; reflexivity|auto].
  - inversion ND as [|? ? N1 N2]; subst. destruct (in_split i L) as (p & q & E1); [apply I; left; reflexivity|]. subst L.
    assert (I' : incl l (p ++ q)).
    { intros j Hj. assert (j <> i) by (intros ->; contradiction). specialize (I j (or_intror Hj)). apply in_app_or in I. apply in_or_app. destruct I as [I|[I|I]]; auto. congruence. }
    assert (Hx' : forall j, In j (p ++ q) -> 0 < x j <= 1) by (intros j Hj; apply Hx; apply in_app_or in Hj; apply in_or_app; destruct Hj; [left|right; right]; assumption).
    destruct (IH (p ++ q) N2 I' Hx') as (IH1 & IH2).
    assert (Ep : lprod (map x (p ++ i :: q)) = x i * lprod (map x (p ++ q))) by (rewrite !map_app, !lprod_app; cbn [map lprod]; ring).
    rewrite Ep. cbn [map lprod]. pose proof (Hx i ltac:(apply in_or_app; right; left; reflexivity)). split; [nra|].
    intros H1 NL. f_equal. apply IH2.
    + intros j Hj Nj. apply H1; [apply in_app_or in Hj; apply in_or_app; destruct Hj; [left|right; right]; assumption|]. intros [X|X]; [|contradiction]. subst j. apply NoDup_remove_2 in NL. contradiction.
    + exact (NoDup_remove_1 _ _ _ NL).
Qed.

(** * The initial state *)
Section Start.
Variable A : matrix.
Variable m : nat.
Hypothesis W : well_formed A m.
Hypothesis Z : no_zero_column A.
Variable g : nat -> nat.
Hypothesis T : transversal_of A m g.

Lemma cmax_pos k i x : In (i, x) (nth k A []) -> 0 < cmax A i.
Proof.
  intros H. assert (Hr : In (nth k A []) A) by (apply nth_In; destruct (Nat.lt_ge_cases k (length A)); [assumption|rewrite nth_overflow in H by assumption; destruct H]).
  destruct (Z _ _ Hr H) as (l & N). cbn [fst] in N. destruct (el_nz _ _ _ N) as (Hl & _). destruct (cmax_spec A i) as (_ & H2 & _). specialize (H2 _ _ Hl). apply Rabs_pos_lt in N. lra.
Qed.
Lemma costs_nth k : nth k (costs A) [] = map (fun e => (fst e, cost A e)) (nth k A []).
Proof. unfold costs. change (@nil (nat * ext)) with (map (fun e => (fst e, cost A e)) []) at 1. apply map_nth. Qed.
Lemma costs_in k i c : In (i, c) (nth k (costs A) []) <-> exists x, In (i, x) (nth k A []) /\ c = cost A (i, x).
Proof.
  rewrite costs_nth, in_map_iff. split.
  - intros ((j, x) & X & H). cbn [fst] in X. injection X as -> <-. eauto.
  - intros (x & H & ->). exists (i, x). auto.
Qed.
Lemma cost_val k i x : In (i, x) (nth k A []) -> cost A (i, x) = if is_zero (Rabs x) then None else Some (ln (cmax A i) - ln (Rabs x)).
Proof.
  intros H. pose proof (cmax_pos _ _ _ H). unfold cost. cbn [fst snd]. rewrite (proj2 (is_zero_f (cmax A i))) by lra. cbn [orb]. reflexivity.
Qed.
Lemma cost_some k i c : E (costs A) k i c <-> exists x, In (i, x) (nth k A []) /\ x <> 0 /\ c = ln (cmax A i) - ln (Rabs x).
Proof.
  unfold E. rewrite costs_in. split.
  - intros (x & H & X). rewrite (cost_val k i x H) in X. destruct (is_zero (Rabs x)) eqn:Y; [discriminate|]. apply is_zero_f in Y. injection X as ->. exists x. split; [exact H|]. split; [|reflexivity].
    intros ->. apply Y, Rabs_R0.
  - intros (x & H & N & ->). exists x. split; [exact H|]. rewrite (cost_val k i x H). rewrite (proj2 (is_zero_f _)); [reflexivity|]. apply Rabs_no_R0, N.
Qed.
Lemma cost_nonneg k i c : E (costs A) k i c -> 0 <= c.
Proof.
  rewrite cost_some. intros (x & H & N & ->). apply Rabs_pos_lt in N. destruct (cmax_spec A i) as (_ & H2 & _). specialize (H2 _ _ H).
  destruct H2 as [L|L]; [apply ln_increasing in L; lra|rewrite L; lra].
Qed.
Lemma cost_zero k i x : In (i, x) (nth k A []) -> exists l, E (costs A) l i 0.
Proof.
  intros H. pose proof (cmax_pos _ _ _ H) as P. destruct (cmax_spec A i) as (_ & _ & [X|(l & y & Hl & X)]); [lra|]. exists l. apply cost_some. exists y. split; [exact Hl|]. rewrite <- X. split; [|lra].
  intros ->. rewrite Rabs_R0 in X. lra.
Qed.

Lemma fold_u0 i : forall l b, (forall x, In (i, Some x) l -> 0 <= x) -> le_e (Some 0) b ->
  let r := fold_left (fun u e => if fst e =? i then match snd e with Some c => min_ext u (Some c) | None => u end else u) l b in
  le_e (Some 0) r /\ (b = Some 0 \/ In (i, Some 0) l -> r = Some 0).
Proof.
  induction l as [|(j, y) l IH]; intros b Hn Hb; cbn [fold_left].
  - split; [exact Hb|]. intros [H|[]]; exact H.
  - cbn [fst snd]. match goal with |- context [fold_left _ l ?b1] => set (b' := b1) end.
    assert (X : le_e (Some 0) b' /\ (b = Some 0 \/ (j, y) = (i, Some 0) -> b' = Some 0)).
    { unfold b'. destruct (Nat.eqb_spec j i) as [->|Nj]; [|split; [exact Hb|intros [X|X]; [exact X|congruence]]].
      destruct y as [c|]; [|split; [exact Hb|intros [X|X]; [exact X|congruence]]]. specialize (Hn c (or_introl eq_refl)). unfold min_ext. destruct b as [b|].
      - apply le_some in Hb. destruct (lt_ext (Some c) (Some b)) eqn:L; [apply lt_some in L|apply lt_some_false in L].
        + split; [apply le_some; exact Hn|]. intros [X|X]; injection X as ->; [lra|reflexivity].
        + split; [apply le_some; exact Hb|]. intros [X|X]; injection X as ->; [reflexivity|]. f_equal. lra.
      - cbn [lt_ext]. split; [apply le_some; exact Hn|]. intros [X|X]; [discriminate|]. injection X as ->. reflexivity. }
    destruct X as (X1 & X2). destruct (IH b' (fun x H => Hn x (or_intror H)) X1) as (H1 & H2). split; [exact H1|]. intros [H|[H|H]]; apply H2; auto.
Qed.
Lemma u0_some k i x : In (i, x) (nth k A []) -> u0 A i = Some 0.
Proof.
  intros H. unfold u0. apply fold_u0; [|reflexivity|].
  - intros c Hc. apply in_concat_nth in Hc. destruct Hc as (l & Hl). exact (cost_nonneg l i c Hl).
  - right. apply in_concat_nth. destruct (cost_zero _ _ _ H) as (l & Hl). exists l. exact Hl.
Qed.
Lemma u0_none i : (forall k x, ~ In (i, x) (nth k A [])) -> u0 A i = None.
Proof.
  intros H. unfold u0. assert (X : forall c, ~ In (i, c) (concat (costs A))).
  { intros c Hc. apply in_concat_nth in Hc. destruct Hc as (k & Hc). apply costs_in in Hc. destruct Hc as (x & Hx & _). exact (H k x Hx). }
  revert X. generalize (concat (costs A)) as l. induction l as [|(j, y) l IH]; intros X; cbn [fold_left fst]; [reflexivity|].
  destruct (Nat.eqb_spec j i) as [->|]; [exfalso; apply (X y); left; reflexivity|]. apply IH. intros c Hc. apply (X c). right. exact Hc.
Qed.
Lemma u0_ru i : u0 A i = Some 0 \/ u0 A i = None.
Proof.
  destruct (in_dec Nat.eq_dec i (map fst (concat A))) as [H|H].
  - left. apply in_map_iff in H. destruct H as ((j, x) & X & H). cbn [fst] in X. subst j. apply in_concat_nth in H. destruct H as (k & H). exact (u0_some k i x H).
  - right. apply u0_none. intros k x X. apply H. apply in_map_iff. exists (i, x). split; [reflexivity|]. apply in_concat_nth. eauto.
Qed.

Lemma fold_v0 : forall (l : crow) b, (forall e, In e l -> u0 A (fst e) = Some 0) ->
  let r := fold_left (fun v e => min_ext v (sub_ext (snd e) (u0 A (fst e)))) l b in
  le_e r b /\ (forall i c, In (i, Some c) l -> le_e r (Some c)).
Proof.
  induction l as [|(j, y) l IH]; intros b Hu; cbn [fold_left].
  - split; [apply lee_refl|intros i c []].
  - match goal with |- context [fold_left _ l ?b1] => set (b' := b1) end. destruct (IH b' (fun e H => Hu e (or_intror H))) as (H1 & H2).
    assert (Eb : b' = min_ext b y).
    { unfold b'. cbn [fst snd]. rewrite (Hu (j, y) (or_introl eq_refl) : u0 A j = Some 0). unfold sub_ext. destruct y; [rewrite Rminus_0_r|]; reflexivity. }
    assert (X : le_e b' b /\ le_e b' y).
    { rewrite Eb. unfold min_ext. destruct (lt_ext y b) eqn:L.
      - split; [|apply lee_refl]. destruct y, b; cbn in L; try discriminate; try reflexivity. apply le_some. destruct (Rlt_dec _ _); [lra|discriminate].
      - split; [apply lee_refl|]. unfold le_e, le_ext. rewrite L. reflexivity. }
    split; [eapply lee_trans; [exact H1|apply X]|]. intros i c [H|H]; [|eauto]. injection H as -> ->. eapply lee_trans; [exact H1|apply X].
Qed.
Lemma v0_ok k i c : E (costs A) k i c -> le_e (v0 A k) (Some c).
Proof.
  intros H. unfold v0. apply (proj2 (fold_v0 (nth k (costs A) []) None ltac:(intros (j, y) Hj; apply costs_in in Hj; destruct Hj as (x & Hx & _); exact (u0_some k j x Hx))) i c H).
Qed.
Lemma g_E k : (k < length (costs A))%nat -> exists c, E (costs A) k (g k) c.
Proof.
  unfold costs at 1. rewrite map_length. intros L. destruct T as (_ & N). specialize (N k L). destruct (el_nz _ _ _ N) as (H & _).
  eexists. apply cost_some. eauto.
Qed.
Lemma len_costs : length (costs A) = length A.
Proof. apply map_length. Qed.
Lemma v0_some k : (k < length (costs A))%nat -> exists v, v0 A k = Some v.
Proof. intros L. destruct (g_E k L) as (c & H). apply v0_ok in H. destruct (v0 A k); [eauto|]. destruct (le_none_some _ H). Qed.

Lemma cols k i c : In (i, c) (nth k (costs A) []) -> (i < m)%nat.
Proof.
  intros H. apply costs_in in H. destruct H as (x & H & _). assert (Hr : In (nth k A []) A) by (apply nth_In; destruct (Nat.lt_ge_cases k (length A)); [assumption|rewrite nth_overflow in H by assumption; destruct H]).
  exact (proj2 (W _ Hr) _ H).
Qed.

Lemma start_good : good (costs A) m (start A m).
Proof.
  assert (Ru : forall i, ru (start A m) i = 0) by (intros i; unfold ru; cbn [start du]; destruct (u0_ru i) as [-> | ->]; reflexivity).
  assert (Rv : forall k, (k < length (costs A))%nat -> dv (start A m) k = Some (rv (start A m) k)) by (intros k L; unfold rv; cbn [start dv]; destruct (v0_some k L) as (v & ->); reflexivity).
  constructor.
  - intros k i c H. rewrite Ru. cbn [start du]. apply costs_in in H. destruct H as (x & H & _). exact (u0_some k i x H).
  - exact Rv.
  - intros k i c H. rewrite Ru. pose proof (v0_ok k i c H) as L. pose proof (Rv k (E_lt _ _ _ _ H)) as X. cbn [start dv] in X. rewrite X in L. apply le_some in L. lra.
  - intros i. rewrite Ru. lra.
  - intros i _. apply Ru.
  - intros i k. cbn. split; discriminate.
  - intros i k X. discriminate.
  - intros i k X. discriminate.
  - intros i. reflexivity.
  - cbn [start hp]. apply inv_make. rewrite repeat_length. lia.
  - intros i L. cbn [start hp make keys]. rewrite nth_error_repeat_if. destruct (Nat.ltb_spec i (S m)); [reflexivity|lia].
Qed.

(** the outcome *)
Lemma run_ok : exists s, transversal A m = Some (scalings A s) /\ good (costs A) m s /\ forall k, (k < length A)%nat -> iperm s k <> None.
Proof.
  unfold transversal. replace (existsb _ A) with false.
  2: { symmetry. apply Bool.not_true_iff_false. intros X. apply existsb_exists in X. destruct X as (r & Hr & X). apply (In_nth _ _ []) in Hr. destruct Hr as (k & L & <-).
    destruct T as (_ & N). specialize (N k L). destruct (el_nz _ _ _ N) as (H & _). destruct (nth k A []); [destruct H|discriminate]. }
  cbv zeta. change arow with (list (nat * R)). pose proof cols as Cols. destruct (match_all_ok _ _ Cols _ start_good) as (G1 & S1).
  destruct (one_all_ok _ _ Cols (seq 0 (length A)) _ G1) as (s2 & -> & G2 & _); [intros k Hk; apply S1; apply in_seq in Hk; rewrite len_costs; lia|].
  destruct (augment_all_ok _ _ Cols g) with (ks := seq 0 (length A)) (s := s2) as (s3 & -> & G3 & K3 & _).
  - exact g_E.
  - rewrite len_costs. destruct T as ((_ & I) & _). exact I.
  - exact G2.
  - intros k Hk. apply in_seq in Hk. rewrite len_costs. lia.
  - exists s3. split; [reflexivity|]. split; [exact G3|]. intros k L. apply K3, in_seq. lia.
Qed.

(** * The scaling *)
Section Scaled.
Variable s : mstate.
Hypothesis G : good (costs A) m s.
Hypothesis Full : forall k, (k < length A)%nat -> iperm s k <> None.
Definition fcol (k : nat) : nat := match iperm s k with Some i => i | None => 0%nat end.
Lemma fcol_perm k : (k < length A)%nat -> perm s (fcol k) = Some k.
Proof. intros L. unfold fcol. specialize (Full k L). destruct (iperm s k) as [i|] eqn:X; [|contradiction]. apply (g_pi _ _ _ G), X. Qed.
Lemma perm_fcol i k : perm s i = Some k -> (k < length A)%nat /\ i = fcol k.
Proof. intros P. pose proof (g_dom _ _ _ G i k P) as (_ & L). rewrite len_costs in L. split; [exact L|]. apply (g_pi _ _ _ G) in P. unfold fcol. rewrite P. reflexivity. Qed.
Lemma fcol_trans : transversal_of A m fcol.
Proof.
  split; [split|].
  - intros k L. exact (proj1 (g_dom _ _ _ G _ _ (fcol_perm k L))).
  - intros k l Lk Ll X. pose proof (fcol_perm k Lk) as P1. pose proof (fcol_perm l Ll) as P2. rewrite X in P1. congruence.
  - intros k L. destruct (g_tight _ _ _ G _ _ (fcol_perm k L)) as (H & _). apply cost_some in H. destruct H as (x & H & N & _). rewrite (el_in A m k _ x W H). exact N.
Qed.

Let DR := right_ (scalings A s).
Let DL := left_ (scalings A s).
Lemma right_entry k i x : In (i, x) (nth k A []) -> DR i = exp (ru s i) / cmax A i.
Proof.
  intros H. unfold DR. cbn [scalings right_]. rewrite (g_u _ _ _ G k i (cost A (i, x))) by (apply costs_in; eauto).
  rewrite (proj2 (is_zero_f _)); [reflexivity|]. pose proof (cmax_pos _ _ _ H). lra.
Qed.
Lemma right_pos i : 0 < DR i.
Proof.
  unfold DR. cbn [scalings right_]. destruct (du s i); [|lra]. destruct (is_zero (cmax A i)) eqn:X; [lra|]. apply is_zero_f in X. apply Rdiv_lt_0_compat; [apply exp_pos|].
  pose proof (proj1 (cmax_spec A i)). lra.
Qed.
Lemma left_abs k : (k < length A)%nat -> Rabs (DL k) = exp (rv s k).
Proof.
  intros L. unfold DL. cbn [scalings left_]. rewrite (g_v _ _ _ G k) by (rewrite len_costs; exact L). pose proof (exp_pos (rv s k)). destruct (existsb _ _).
  - rewrite Rabs_mult, (Rabs_left (-1)), (Rabs_pos_eq (exp _)) by lra. lra.
  - apply Rabs_pos_eq. lra.
Qed.
Lemma scaled_abs k i x : In (i, x) (nth k A []) -> x <> 0 -> Rabs (DL k * x * DR i) = exp (rv s k + ru s i - (ln (cmax A i) - ln (Rabs x))).
Proof.
  intros H N. assert (L : (k < length A)%nat) by (destruct (Nat.lt_ge_cases k (length A)); [assumption|rewrite nth_overflow in H by assumption; destruct H]).
  pose proof (cmax_pos _ _ _ H) as P. pose proof (Rabs_pos_lt _ N) as PN. rewrite !Rabs_mult, (left_abs k L), (Rabs_pos_eq (DR i)) by (pose proof (right_pos i); lra).
  rewrite (right_entry k i x H). replace (rv s k + ru s i - (ln (cmax A i) - ln (Rabs x))) with (rv s k + (ln (Rabs x) + (ru s i + - ln (cmax A i)))) by lra.
  rewrite !exp_plus, exp_ln by exact PN. rewrite exp_Ropp, exp_ln by exact P. unfold Rdiv. ring.
Qed.
Lemma scaled_le k i : (k < length A)%nat -> Rabs (DL k * el A k i * DR i) <= 1.
Proof.
  intros L. destruct (Req_EM_T (el A k i) 0) as [->|N]; [rewrite Rmult_0_r, Rmult_0_l, Rabs_R0; lra|]. destruct (el_nz _ _ _ N) as (H & _).
  rewrite (scaled_abs k i _ H N). rewrite <- exp_0. assert (X : E (costs A) k i (ln (cmax A i) - ln (Rabs (el A k i)))) by (apply cost_some; eauto).
  pose proof (g_feas _ _ _ G _ _ _ X) as Fe. destruct (Req_EM_T (rv s k + ru s i) (ln (cmax A i) - ln (Rabs (el A k i)))) as [-> |N2]; [right; f_equal; lra|]. left. apply exp_increasing. lra.
Qed.
Lemma scaled_one k : (k < length A)%nat -> DL k * el A k (fcol k) * DR (fcol k) = 1.
Proof.
  intros L. pose proof (fcol_perm k L) as P. destruct (g_tight _ _ _ G _ _ P) as (H & _). apply cost_some in H. destruct H as (x & H & N & X).
  rewrite (el_in A m k _ x W H). pose proof (scaled_abs k (fcol k) x H N) as Y. rewrite <- X, Rminus_diag_eq, exp_0 in Y by reflexivity.
  assert (Pos : 0 <= DL k * x * DR (fcol k)); [|rewrite Rabs_pos_eq in Y by exact Pos; exact Y].
  unfold DL. cbn [scalings left_]. set (dl := match dv s k with None => 1 | Some v => exp v end).
  match goal with |- context [existsb ?p ?l] => destruct (existsb p l) eqn:Ex end.
  - apply existsb_exists in Ex. destruct Ex as ((i, y) & Hy & Ey). cbn [fst snd] in Ey. destruct (perm s i) as [j|] eqn:Pi; [|discriminate]. apply andb_true_iff in Ey. destruct Ey as (Ej & Ey).
    apply Nat.eqb_eq in Ej. subst j. destruct (perm_fcol i k Pi) as (_ & ->). assert (y = x) by (rewrite <- (el_in A m k _ y W Hy); apply (el_in A m k _ x W H)). subst y.
    destruct (Rlt_dec _ _) as [Lt|]; [|discriminate]. fold dl in Lt. change (match du s (fcol k) with Some u => if is_zero (cmax A (fcol k)) then 1 else exp u / cmax A (fcol k) | None => 1 end) with (DR (fcol k)) in Lt. nra.
  - apply Bool.not_true_iff_false in Ex. destruct (Rle_lt_dec 0 (dl * x * DR (fcol k))) as [Le|Lt]; [exact Le|]. exfalso. apply Ex. apply existsb_exists. exists (fcol k, x). split; [exact H|]. cbn [fst snd]. rewrite P, Nat.eqb_refl.
    cbn [andb]. destruct (Rlt_dec _ _) as [|NL]; [reflexivity|]. exfalso. apply NL. exact Lt.
Qed.
Lemma left_nz k : (k < length A)%nat -> DL k <> 0.
Proof. intros L X. pose proof (scaled_one k L) as Y. rewrite X, !Rmult_0_l in Y. lra. Qed.

Lemma product_square h : m = length A -> assignment (length A) m h -> product A h <= product A fcol.
Proof.
  intros Em Hh. set (n := length A). assert (Hf : assignment n n fcol) by (unfold n; rewrite <- Em at 2; apply fcol_trans). rewrite Em in Hh. fold n in Hh.
  unfold product, rows. fold n. pose proof (assign_prod n fcol h DR Hf Hh) as Ed. pose proof (prod_pos n (fun k => DR (fcol k)) (fun k _ => right_pos _)) as Pd.
  pose proof (prod_pos n (fun k => Rabs (DL k)) (fun k L => Rabs_pos_lt _ (left_nz k L))) as Pl.
  assert (X : forall f, prod n (fun k => Rabs (DL k * el A k (f k) * DR (f k))) = prod n (fun k => Rabs (DL k)) * prod n (fun k => Rabs (el A k (f k))) * prod n (fun k => DR (f k))).
  { intros f. rewrite <- !prod_mult. apply prod_ext. intros k L. rewrite !Rabs_mult, (Rabs_pos_eq (DR _)) by (pose proof (right_pos (f k)); lra). reflexivity. }
  assert (X1 : prod n (fun k => Rabs (DL k * el A k (fcol k) * DR (fcol k))) = 1) by (apply prod_one; intros k L; rewrite (scaled_one k L); apply Rabs_R1).
  assert (X2 : prod n (fun k => Rabs (DL k * el A k (h k) * DR (h k))) <= 1) by (apply prod_le1; intros k L; split; [apply Rabs_pos|apply scaled_le, L]).
  rewrite X in X1, X2. rewrite <- Ed in X2.
  assert (P : 0 < prod n (fun k => Rabs (DL k)) * prod n (fun k => DR (fcol k))) by (apply Rmult_lt_0_compat; assumption). nra.
Qed.

Lemma product_ratio h (M : nat -> R) : assignment (length A) m h -> (forall i, (i < m)%nat -> column_max A i (M i)) ->
  prod (length A) (fun k => Rabs (el A k (h k)) / M (h k)) <= prod (length A) (fun k => Rabs (el A k (fcol k)) / M (fcol k)).
Proof.
  intros Hh HM. set (n := length A). fold n in Hh. assert (Hf : assignment n m fcol) by apply fcol_trans.
  set (x := fun i => exp (ru s i)).
  assert (Px : forall i, 0 < x i <= 1).
  { intros i. unfold x. split; [apply exp_pos|]. pose proof (g_neg _ _ _ G i). rewrite <- exp_0. destruct (Req_EM_T (ru s i) 0) as [->|]; [lra|]. left. apply exp_increasing. lra. }
  assert (Hx : prod n (fun k => x (fcol k)) <= prod n (fun k => x (h k))).
  { rewrite !prod_lprod. destruct (assign_nodup _ _ _ Hf) as (F1 & F2). destruct (assign_nodup _ _ _ Hh) as (H1 & H2).
    destruct (lprod_sub x _ _ F1 F2 (fun i _ => Px i)) as (_ & S1). destruct (lprod_sub x _ _ H1 H2 (fun i _ => Px i)) as (S2 & _). rewrite <- S1; [exact S2| |apply seq_NoDup].
    intros i _ Ni. unfold x. rewrite (g_free _ _ _ G i); [apply exp_0|]. destruct (perm s i) as [k|] eqn:P; [|reflexivity]. exfalso. apply Ni. destruct (perm_fcol i k P) as (L & ->). apply in_map, in_seq. unfold n. lia. }
  assert (Y : forall k i, (k < n)%nat -> (i < m)%nat -> Rabs (DL k * el A k i * DR i) = Rabs (DL k) * (Rabs (el A k i) / M i) * x i).
  { intros k i L Li. rewrite (column_max_cmax A m i (M i) W (HM i Li)). rewrite !Rabs_mult, (Rabs_pos_eq (DR _)) by (pose proof (right_pos i); lra).
    destruct (Req_EM_T (el A k i) 0) as [->|N]; [rewrite Rabs_R0; unfold Rdiv; ring|]. destruct (el_nz _ _ _ N) as (H & _). rewrite (right_entry k i _ H). unfold x, Rdiv. ring. }
  assert (X : forall f, assignment n m f -> prod n (fun k => Rabs (DL k * el A k (f k) * DR (f k))) = prod n (fun k => Rabs (DL k)) * prod n (fun k => Rabs (el A k (f k)) / M (f k)) * prod n (fun k => x (f k))).
  { intros f (F & _). rewrite <- !prod_mult. apply prod_ext. intros k L. apply Y; auto. }
  pose proof (prod_pos n (fun k => Rabs (DL k)) (fun k L => Rabs_pos_lt _ (left_nz k L))) as Pl.
  pose proof (prod_pos n (fun k => x (fcol k)) (fun k _ => proj1 (Px _))) as Pf.
  assert (X1 : prod n (fun k => Rabs (DL k * el A k (fcol k) * DR (fcol k))) = 1) by (apply prod_one; intros k L; rewrite (scaled_one k L); apply Rabs_R1).
  assert (X2 : prod n (fun k => Rabs (DL k * el A k (h k) * DR (h k))) <= 1) by (apply prod_le1; intros k L; split; [apply Rabs_pos|apply scaled_le, L]).
  rewrite (X _ Hf) in X1. rewrite (X _ Hh) in X2.
  assert (P : 0 < prod n (fun k => Rabs (DL k)) * prod n (fun k => x (fcol k))) by (apply Rmult_lt_0_compat; assumption).
  set (a := prod n (fun k => Rabs (DL k))) in *. set (rf := prod n (fun k => Rabs (el A k (fcol k)) / M (fcol k))) in *. set (rh := prod n (fun k => Rabs (el A k (h k)) / M (h k))) in *.
  set (xf := prod n (fun k => x (fcol k))) in *. set (xh := prod n (fun k => x (h k))) in *.
  destruct (Rle_lt_dec rh rf) as [|Lt]; [assumption|]. exfalso.
  assert (0 < rf) by nra. assert (a * rf * xf < a * rh * xh); [|lra]. rewrite !Rmult_assoc. apply Rmult_lt_compat_l; [exact Pl|]. nra.
Qed.
End Scaled.
End Start.
