(** Proofs about CholeskySolve. *)
From Coq Require Import List Arith Lia Bool Field.
From Verif Require Import OField Gauss_Model Gauss_Proofs.
Import ListNotations.
Open Scope nat_scope.

Section Chol.
Variable F : ofield.
Add Field Ff : (fth F).
Local Open Scope of_scope.
Notation mat := (mat F).
Notation sget := (sget F).
Notation sset := (sset F).
Implicit Types L X Y : mat.

Ltac eqs1 := match goal with
  | |- context [(?x =? ?y)%nat] => destruct (Nat.eqb_spec x y)
  | |- context [(?x <? ?y)%nat] => destruct (Nat.ltb_spec x y)
  | |- context [(?x <=? ?y)%nat] => destruct (Nat.leb_spec x y)
  end; try (exfalso; lia); cbn [andb orb negb]; try reflexivity.
Ltac eqs := repeat (try (match goal with H : ?x = ?y :> nat |- _ => first [subst x|subst y] end); eqs1);
  repeat (match goal with H : ?x = ?y :> nat |- _ => first [subst x|subst y] end); try reflexivity.

Lemma sget_sym : forall L i j, sget L i j = sget L j i.
Proof. intros L i j. unfold Gauss_Model.sget. eqs. now replace i with j by lia. Qed.

(** Reading after writing, for an entry named by its lower position. *)
Lemma sget_sset : forall L i j v x y, (j <= i)%nat -> (y <= x)%nat ->
  sget (sset L i j v) x y = if (x =? i)%nat && (y =? j)%nat then v else sget L x y.
Proof.
  intros L i j v x y Lij Lxy. unfold Gauss_Model.sget, Gauss_Model.sset, upd. eqs; try lia.
Qed.

Section Step.
Variables (sq : F -> F) (n k : nat).
Hypothesis Lk : (k < n)%nat.

Lemma div_col : forall L x y, (y <= x < n)%nat ->
  sget (for_ (S k) n (fun i L => sset L i k (sget L i k / sget L k k)) L) x y =
  if (y =? k)%nat && (k <? x)%nat then sget L x k / sget L k k else sget L x y.
Proof.
  intros L.
  assert (H : forall x y, (y <= x)%nat ->
    sget (for_ (S k) n (fun i L => sset L i k (sget L i k / sget L k k)) L) x y =
    if (y =? k)%nat && (k <? x)%nat && (x <? Nat.max (S k) n)%nat then sget L x k / sget L k k else sget L x y).
  { refine (for_ind mat (fun c s => forall x y, (y <= x)%nat -> sget s x y =
      if (y =? k)%nat && (k <? x)%nat && (x <? c)%nat then sget L x k / sget L k k else sget L x y) (S k) n _ L _ _).
    - intros x y Lxy. eqs.
    - intros i s Li IH x y Lxy. rewrite sget_sset by lia. rewrite !IH by lia. eqs. }
  intros x y Lxy. rewrite H by lia. eqs.
Qed.

Lemma outer : forall L x y, (y <= x < n)%nat ->
  sget (for_ (S k) n (fun j L => for_ j n (fun i L => sset L i j (sget L i j - sget L i k * sget L j k)) L) L) x y =
  if (k <? y)%nat then sget L x y - sget L x k * sget L y k else sget L x y.
Proof.
  intros L.
  assert (In1 : forall j L x y, (k < j < n)%nat -> (y <= x)%nat ->
    sget (for_ j n (fun i L => sset L i j (sget L i j - sget L i k * sget L j k)) L) x y =
    if (y =? j)%nat && (x <? n)%nat then sget L x y - sget L x k * sget L y k else sget L x y).
  { clear L. intros j L x y Lj.
    revert x y.
    assert (H : forall x y, (y <= x)%nat ->
      sget (for_ j n (fun i L => sset L i j (sget L i j - sget L i k * sget L j k)) L) x y =
      if (y =? j)%nat && (x <? Nat.max j n)%nat then sget L x y - sget L x k * sget L y k else sget L x y).
    { refine (for_ind mat (fun c s => forall x y, (y <= x)%nat -> sget s x y =
        if (y =? j)%nat && (x <? c)%nat then sget L x y - sget L x k * sget L y k else sget L x y) j n _ L _ _).
      - intros x y Lxy. eqs.
      - intros i s Li IH x y Lxy. rewrite sget_sset by lia. rewrite !IH by lia. eqs. }
    intros x y Lxy. rewrite H by lia. now replace (Nat.max j n) with n by lia. }
  assert (H : forall x y, (y <= x < n)%nat ->
    sget (for_ (S k) n (fun j L => for_ j n (fun i L => sset L i j (sget L i j - sget L i k * sget L j k)) L) L) x y =
    if (k <? y)%nat && (y <? Nat.max (S k) n)%nat then sget L x y - sget L x k * sget L y k else sget L x y).
  { refine (for_ind mat (fun c s => forall x y, (y <= x < n)%nat -> sget s x y =
      if (k <? y)%nat && (y <? c)%nat then sget L x y - sget L x k * sget L y k else sget L x y) (S k) n _ L _ _).
    - intros x y Lxy. eqs.
    - intros j s Lj IH x y Lxy. rewrite In1 by lia. rewrite !IH by lia. eqs. all: rewrite !IH by lia; eqs. }
  intros x y Lxy. rewrite H by lia. eqs.
Qed.

Lemma chol_step_spec : forall L L', chol_step F sq n k L = Some L' ->
  (sget L k k <? 0) = false /\ (fabs (sq (sget L k k)) <? e_minus 24) = false /\
  let p := sq (sget L k k) in
  forall x y, (y <= x < n)%nat -> sget L' x y =
    if (y =? k)%nat then (if (x =? k)%nat then p else sget L x k / p)
    else if (k <? y)%nat then sget L x y - (sget L x k / p) * (sget L y k / p) else sget L x y.
Proof.
  intros L L' E. unfold chol_step in E.
  destruct (sget L k k <? 0) eqn:C1; [discriminate|].
  rewrite sget_sset in E by lia. rewrite !Nat.eqb_refl in E. cbn [andb] in E.
  destruct (fabs (sq (sget L k k)) <? e_minus 24) eqn:C2; [discriminate|]. injection E as <-.
  split; [reflexivity|split; [reflexivity|]]. intros p x y Lxy. fold p.
  rewrite outer by lia. destruct (Nat.ltb_spec k y).
  - rewrite !div_col by lia. rewrite !sget_sset by lia. rewrite !Nat.eqb_refl. cbn [andb]. eqs.
  - rewrite !div_col by lia. destruct (Nat.eqb_spec y k) as [->|]; cbn [andb].
    + rewrite !sget_sset by lia. rewrite !Nat.eqb_refl. cbn [andb]. eqs.
    + rewrite !sget_sset by lia. eqs.
Qed.
End Step.

Section Fact.
Variables (sq : F -> F) (n : nat).
Hypothesis sq_spec : forall x : F, (x <? 0) = false -> sq x * sq x = x /\ (sq x <? 0) = false.
(** The matrix that is factorised: the part with i <= j of A, mirrored. *)
Variable A : mat.

(** The computed factor, lower triangular. *)
Definition low (L : mat) (i t : nat) : F := if (t <=? i)%nat then sget L i t else 0.

Definition cinv (k : nat) (L : mat) : Prop :=
  (forall i j, (k <= j <= i)%nat -> (i < n)%nat ->
     sget L i j = sget A i j - fsum k (fun t => low L i t * low L j t)) /\
  (forall i j, (j < k)%nat -> (j <= i < n)%nat -> sget A i j = fsum k (fun t => low L i t * low L j t)) /\
  (forall t, (t < k)%nat -> (0 <? sget L t t) = true).

Lemma cinv_start : cinv 0 A.
Proof.
  split; [|split].
  - intros i j _ _. cbn [fsum]. ring.
  - intros i j Lj. lia.
  - intros t Lt. lia.
Qed.

Lemma pivot_pos : forall d : F, (d <? 0) = false -> (fabs (sq d) <? e_minus 24) = false -> (0 <? sq d) = true.
Proof.
  intros d D0 D1. destruct (sq_spec d D0) as [_ N].
  destruct (0 <? sq d) eqn:C; [reflexivity|]. exfalso.
  assert (Z : sq d = 0) by now apply (flt_total F). rewrite Z, fabs_0, e_minus_pos in D1. discriminate.
Qed.

Lemma cinv_step : forall k L L', (k < n)%nat -> chol_step F sq n k L = Some L' -> cinv k L -> cinv (S k) L'.
Proof.
  intros k L L' Lk E [I1 [I2 I3]].
  apply chol_step_spec in E; [|exact Lk]. destruct E as [D0 [D1 E]]. cbv zeta in E.
  pose proof (pivot_pos _ D0 D1) as Pp. destruct (sq_spec _ D0) as [Sq _].
  set (p := sq (sget L k k)) in *.
  assert (Np : p <> 0) by now apply pos_neq.
  assert (Low : forall i t, (i < n)%nat -> (t < k)%nat -> low L' i t = low L i t).
  { intros i t Li Lt. unfold low. destruct (Nat.leb_spec t i); [|reflexivity]. rewrite E by lia. eqs. }
  assert (Sum : forall i j, (i < n)%nat -> (j < n)%nat ->
    fsum k (fun t => low L' i t * low L' j t) = fsum k (fun t => low L i t * low L j t)).
  { intros i j Li Lj. apply fsum_ext. intros t Lt. now rewrite !Low by lia. }
  assert (Lk' : forall i, (k <= i < n)%nat -> low L' i k = sget L i k / p).
  { intros i Li. unfold low. rewrite (proj2 (Nat.leb_le k i)) by lia. rewrite E by lia. eqs.
    fold p. rewrite <- Sq. fold p. field. exact Np. }
  split; [|split].
  - intros i j Lij Li. cbn [fsum]. rewrite Sum, !Lk', E by lia.
    rewrite (proj2 (Nat.eqb_neq j k)), (proj2 (Nat.ltb_lt k j)) by lia.
    rewrite (I1 i j) by lia. ring.
  - intros i j Lj Lij. cbn [fsum]. rewrite Sum by lia.
    destruct (Nat.eq_dec j k) as [->|N].
    + rewrite !Lk' by lia. assert (Q : sget L k k / p = p) by (rewrite <- Sq; fold p; field; exact Np).
      rewrite Q. replace (sget L i k / p * p) with (sget L i k) by (field; exact Np).
      rewrite (I1 i k) by lia. ring.
    + rewrite (I2 i j) by lia. replace (low L' j k) with (0 : F); [ring|].
      unfold low. now rewrite (proj2 (Nat.leb_gt k j)) by lia.
  - intros t Lt. rewrite E by lia. eqs; [exact Pp|]. apply I3. lia.
Qed.

Lemma chol_loop_spec : forall d L, (d <= n)%nat -> cinv (n - d) L ->
  match chol_loop F sq n (seq (n - d) d) L with
  | inl L' => cinv n L'
  | inr e => exists k L', e = S k /\ (k < n)%nat /\ cinv k L' /\ chol_step F sq n k L' = None
  end.
Proof.
  induction d as [|d IH]; intros L Ld I; cbn [seq chol_loop].
  - now replace (n - 0)%nat with n in I by lia.
  - destruct (chol_step F sq n (n - S d) L) as [L'|] eqn:E.
    + replace (S (n - S d)) with (n - d)%nat by lia. apply IH; [lia|].
      replace (n - d)%nat with (S (n - S d)) by lia. apply (cinv_step _ L); [lia|exact E|exact I].
    + exists (n - S d)%nat, L. split; [reflexivity|split; [lia|split; [exact I|exact E]]].
Qed.

(** The full (mirrored) matrix as a product. *)
Lemma fact_full : forall L, cinv n L -> forall i j, (i < n)%nat -> (j < n)%nat ->
  sget A i j = fsum n (fun t => low L i t * low L j t).
Proof.
  intros L [_ [I2 _]] i j Li Lj. destruct (Nat.le_gt_cases j i).
  - apply I2; lia.
  - rewrite sget_sym, (I2 j i) by lia. apply fsum_ext. intros t _. ring.
Qed.

(** ** Substitutions *)
Section Subst.
Variables (l : nat) (L : mat).
Hypothesis diag : forall t, (t < n)%nat -> sget L t t <> 0.

Lemma fwd_inner : forall i k Y x y,
  for_ 0 i (fun j Y => upd F Y i k (Y i k - Y j k * sget L j i)) Y x y =
  if (x =? i)%nat && (y =? k)%nat then Y i k - fsum i (fun j => Y j k * sget L j i) else Y x y.
Proof.
  intros i k Y.
  assert (H : forall x y, for_ 0 i (fun j Y => upd F Y i k (Y i k - Y j k * sget L j i)) Y x y =
    if (x =? i)%nat && (y =? k)%nat then Y i k - fsum (Nat.max 0 i) (fun j => Y j k * sget L j i) else Y x y).
  { refine (for_ind mat (fun c s => forall x y, s x y =
      if (x =? i)%nat && (y =? k)%nat then Y i k - fsum c (fun j => Y j k * sget L j i) else Y x y) 0%nat i _ Y _ _).
    - intros x y. cbn [fsum]. eqs. ring.
    - intros j s Lj IH x y. rewrite upd_eq, !IH. cbn [fsum]. rewrite !Nat.eqb_refl.
      rewrite (proj2 (Nat.eqb_neq j i)) by lia. cbn [andb].
      destruct (Nat.eqb_spec x i); [|reflexivity]. destruct (Nat.eqb_spec y k); [|reflexivity]. cbn [andb]. ring. }
  exact H.
Qed.

Lemma fwd_row : forall i Y x y,
  for_ 0 l (fun k Y =>
      let Y := for_ 0 i (fun j Y => upd F Y i k (Y i k - Y j k * sget L j i)) Y in
      upd F Y i k (Y i k / sget L i i)) Y x y =
  if (x =? i)%nat && (y <? l)%nat then (Y i y - fsum i (fun j => Y j y * sget L j i)) / sget L i i else Y x y.
Proof.
  intros i Y.
  refine (for_ind mat (fun c s => forall x y, s x y =
    if (x =? i)%nat && (y <? c)%nat then (Y i y - fsum i (fun j => Y j y * sget L j i)) / sget L i i else Y x y) 0%nat l _ Y _ _).
  - intros x y. eqs.
  - intros k s Lk IH x y. cbv zeta. rewrite upd_eq, !fwd_inner, !IH. rewrite !Nat.eqb_refl. cbn [andb].
    replace (fsum i (fun j => s j k * sget L j i)) with (fsum i (fun j => Y j k * sget L j i)).
    2:{ apply fsum_ext. intros j Lj. rewrite IH. now rewrite (proj2 (Nat.eqb_neq j i)) by lia. }
    eqs.
Qed.

Lemma forward_spec : forall B i k, (i < n)%nat -> (k < l)%nat ->
  fsum n (fun t => low L i t * forward F n l L B t k) = B i k.
Proof.
  intros B.
  assert (H : let Y := forward F n l L B in
    (forall x y, (Nat.max 0 n <= x)%nat -> Y x y = B x y) /\
    (forall i k, (i < Nat.max 0 n)%nat -> (k < l)%nat ->
       Y i k * sget L i i + fsum i (fun t => Y t k * sget L t i) = B i k)).
  { unfold forward. apply (for_ind mat (fun c Y =>
      (forall x y, (c <= x)%nat -> Y x y = B x y) /\
      (forall i k, (i < c)%nat -> (k < l)%nat -> Y i k * sget L i i + fsum i (fun t => Y t k * sget L t i) = B i k))).
    - split; [reflexivity|]. intros i k Li. lia.
    - intros c Y Lc [H1 H2]. split.
      + intros x y Lx. rewrite fwd_row. rewrite (proj2 (Nat.eqb_neq x c)) by lia. cbn [andb]. apply H1. lia.
      + intros i k Li Lk. rewrite fwd_row.
        replace (fsum i _) with (fsum i (fun t => Y t k * sget L t i)).
        2:{ apply fsum_ext. intros t Lt. rewrite fwd_row. now rewrite (proj2 (Nat.eqb_neq t c)) by lia. }
        rewrite (proj2 (Nat.ltb_lt k l)) by lia. rewrite andb_true_r.
        destruct (Nat.eqb_spec i c) as [->|N]; [|apply H2; lia].
        rewrite (H1 c k) by lia. field. apply diag. lia. }
  destruct H as [_ H]. intros i k Li Lk. rewrite <- (H i k) by lia.
  set (Y := forward F n l L B).
  rewrite (fsum_split F n (S i)) by lia. cbn [fsum].
  rewrite (fsum_0 F (n - S i)).
  2:{ intros t Lt. unfold low. rewrite (proj2 (Nat.leb_gt (S i + t) i)) by lia. ring. }
  replace (fsum i (fun t => low L i t * Y t k)) with (fsum i (fun t => Y t k * sget L t i)).
  2:{ apply fsum_ext. intros t Lt. unfold low. rewrite (proj2 (Nat.leb_le t i)) by lia. rewrite (sget_sym L i t). ring. }
  unfold low. rewrite Nat.leb_refl. ring.
Qed.

Lemma bwd_inner : forall i k (js : list nat) X x y, ~ In i js -> NoDup js ->
  fold_left (fun X j => upd F X i k (X i k - X j k * sget L i j)) js X x y =
  if (x =? i)%nat && (y =? k)%nat then X i k - fold_right (fun j s => X j k * sget L i j + s) 0 js else X x y.
Proof.
  intros i k js. induction js as [|j js IH]; intros X x y Ni Nd; cbn [fold_left fold_right].
  - eqs. ring.
  - inversion Nd as [|j' js' Nj Nd']; subst.
    rewrite IH; [|intro Q; apply Ni; now right|exact Nd'].
    rewrite !upd_eq, !Nat.eqb_refl. cbn [andb].
    assert (E : fold_right (fun j0 s => upd F X i k (X i k - X j k * sget L i j) j0 k * sget L i j0 + s) 0 js =
                fold_right (fun j0 s => X j0 k * sget L i j0 + s) 0 js).
    { clear IH Nd Nj Nd'. assert (Ni' : ~ In i js) by (intro Q; apply Ni; now right). clear Ni. revert Ni'.
      induction js as [|j0 js IH]; intro Ni; cbn [fold_right]; [reflexivity|].
      rewrite IH by (intro Q; apply Ni; now right). rewrite upd_eq.
      rewrite (proj2 (Nat.eqb_neq j0 i)); [reflexivity|]. intros ->. apply Ni. now left. }
    rewrite E. destruct (Nat.eqb_spec x i); [|reflexivity]. destruct (Nat.eqb_spec y k); [|reflexivity]. cbn [andb]. ring.
Qed.

Lemma fold_rev_sum : forall (f : nat -> F) lo c,
  fold_right (fun j s => f j + s) 0 (rev (seq lo c)) = fsum c (fun t => f (lo + t)%nat).
Proof.
  intros f lo c. induction c as [|c IH]; cbn [fsum]; [reflexivity|].
  rewrite seq_S, rev_app_distr. cbn [rev app fold_right]. rewrite IH. ring.
Qed.

Lemma bwd_row : forall i X x y, (i < n)%nat ->
  for_ 0 l (fun k X =>
      let X := fold_left (fun X j => upd F X i k (X i k - X j k * sget L i j)) (rev (seq (S i) (n - S i))) X in
      upd F X i k (X i k / sget L i i)) X x y =
  if (x =? i)%nat && (y <? l)%nat
  then (X i y - fsum (n - S i) (fun t => X (S i + t)%nat y * sget L i (S i + t)%nat)) / sget L i i else X x y.
Proof.
  intros i X x y Li. revert x y.
  refine (for_ind mat (fun c s => forall x y, s x y =
    if (x =? i)%nat && (y <? c)%nat
    then (X i y - fsum (n - S i) (fun t => X (S i + t)%nat y * sget L i (S i + t)%nat)) / sget L i i else X x y) 0%nat l _ X _ _).
  - intros x y. eqs.
  - intros k s Lk IH x y. cbv zeta.
    assert (Ni : ~ In i (rev (seq (S i) (n - S i)))) by (rewrite <- in_rev, in_seq; lia).
    assert (Nd : NoDup (rev (seq (S i) (n - S i)))) by apply NoDup_rev, seq_NoDup.
    rewrite upd_eq, !bwd_inner by assumption. rewrite fold_rev_sum.
    rewrite !Nat.eqb_refl. cbn [andb].
    replace (fsum (n - S i) (fun t => s (S i + t)%nat k * sget L i (S i + t)%nat))
      with (fsum (n - S i) (fun t => X (S i + t)%nat k * sget L i (S i + t)%nat)).
    2:{ apply fsum_ext. intros t Lt. rewrite IH. now rewrite (proj2 (Nat.eqb_neq (S i + t) i)) by lia. }
    rewrite !IH. eqs.
Qed.

Lemma backward_spec : forall Y i k, (i < n)%nat -> (k < l)%nat ->
  fsum n (fun j => low L j i * backward F n l L Y j k) = Y i k.
Proof.
  intros Y0 i k Li Lk. unfold backward.
  assert (Hc : forall c s, (c <= n)%nat ->
    (forall x y, (x < c)%nat -> s x y = Y0 x y) ->
    (forall x y, (c <= x < n)%nat -> (y < l)%nat ->
       s x y * sget L x x + fsum (n - S x) (fun t => s (S x + t)%nat y * sget L x (S x + t)%nat) = Y0 x y) ->
    let s' := fold_left (fun X i =>
      for_ 0 l (fun k X =>
        let X := fold_left (fun X j => upd F X i k (X i k - X j k * sget L i j)) (rev (seq (S i) (n - S i))) X in
        upd F X i k (X i k / sget L i i)) X) (rev (seq 0 c)) s in
    forall x y, (x < n)%nat -> (y < l)%nat ->
       s' x y * sget L x x + fsum (n - S x) (fun t => s' (S x + t)%nat y * sget L x (S x + t)%nat) = Y0 x y).
  { induction c as [|c IH]; intros s Lc H1 H2.
    - cbn [seq rev fold_left]. cbv zeta. intros x y Lx Ly. apply H2; lia.
    - rewrite seq_S. cbn [Nat.add]. rewrite rev_app_distr. cbn [rev app fold_left]. cbv zeta in IH |- *.
      apply IH; [lia| |].
      + intros x y Lx. rewrite bwd_row by lia. rewrite (proj2 (Nat.eqb_neq x c)) by lia. cbn [andb]. apply H1. lia.
      + intros x y Lx Ly. rewrite bwd_row by lia.
        replace (fsum (n - S x) _) with (fsum (n - S x) (fun t => s (S x + t)%nat y * sget L x (S x + t)%nat)).
        2:{ apply fsum_ext. intros t Lt. rewrite bwd_row by lia. now rewrite (proj2 (Nat.eqb_neq (S x + t) c)) by lia. }
        rewrite (proj2 (Nat.ltb_lt y l)) by lia. rewrite andb_true_r.
        destruct (Nat.eqb_spec x c) as [->|N]; [|apply H2; lia].
        rewrite (H1 c y) by lia. field. apply diag. lia. }
  specialize (Hc n Y0 (Nat.le_refl n) (fun _ _ _ => eq_refl)). cbv zeta in Hc.
  specialize (Hc ltac:(intros; lia) i k Li Lk). rewrite <- Hc.
  set (X := fold_left _ _ _) in *. clearbody X. clear Hc.
  rewrite (fsum_split F n (S i)) by lia. cbn [fsum].
  rewrite (fsum_0 F i).
  2:{ intros t Lt. unfold low. rewrite (proj2 (Nat.leb_gt i t)) by lia. ring. }
  replace (fsum (n - S i) (fun t => X (S i + t)%nat k * sget L i (S i + t)%nat))
    with (fsum (n - S i) (fun t => low L (S i + t)%nat i * X (S i + t)%nat k)).
  2:{ apply fsum_ext. intros t Lt. unfold low. rewrite (proj2 (Nat.leb_le i (S i + t))) by lia.
      rewrite (sget_sym L _ i). ring. }
  unfold low at 1. rewrite Nat.leb_refl. ring.
Qed.

End Subst.

(** ** Success *)
Lemma chol_solves : forall l B X, chol_solve F sq n l A B = Solved F X ->
  forall i k, (i < n)%nat -> (k < l)%nat -> fsum n (fun j => sget A i j * X j k) = B i k.
Proof.
  intros l B X E i k Li Lk. unfold chol_solve in E.
  pose proof (chol_loop_spec n A (Nat.le_refl n)) as H. rewrite Nat.sub_diag in H. specialize (H cinv_start).
  destruct (chol_loop F sq n (seq 0 n) A) as [L|e]; [|discriminate]. injection E as <-.
  assert (Dg : forall t, (t < n)%nat -> sget L t t <> 0).
  { intros t Lt. apply pos_neq. now apply H. }
  rewrite <- (forward_spec l L Dg B i k Li Lk).
  transitivity (fsum n (fun j => fsum n (fun t => low L i t * (low L j t * backward F n l L (forward F n l L B) j k)))).
  { apply fsum_ext. intros j Lj. rewrite (fact_full L H) by lia. rewrite <- fsum_mul_r. apply fsum_ext. intros t _. ring. }
  rewrite fsum_swap. apply fsum_ext. intros t Lt. rewrite fsum_mul_l. f_equal.
  apply (backward_spec l L Dg); lia.
Qed.

Lemma quad_fact : forall (c : nat -> nat -> F) (p q : nat) (x : nat -> F),
  fsum p (fun i => fsum p (fun j => x i * fsum q (fun t => c i t * c j t) * x j)) =
  fsum q (fun t => fsum p (fun i => c i t * x i) * fsum p (fun i => c i t * x i)).
Proof.
  intros c p q x.
  transitivity (fsum p (fun i => fsum q (fun t => fsum p (fun j => (c i t * x i) * (c j t * x j))))).
  { apply fsum_ext. intros i _. rewrite fsum_swap. apply fsum_ext. intros j _.
    rewrite <- fsum_mul_l, <- fsum_mul_r. apply fsum_ext. intros t _. ring. }
  rewrite fsum_swap. apply fsum_ext. intros t _.
  rewrite <- fsum_mul_r. apply fsum_ext. intros i _. apply fsum_mul_l.
Qed.

Lemma chol_spd : forall l B X, chol_solve F sq n l A B = Solved F X ->
  forall x : nat -> F, (exists i, (i < n)%nat /\ x i <> 0) ->
  (0 <? fsum n (fun i => fsum n (fun j => x i * sget A i j * x j))) = true.
Proof.
  intros l B X E x [i0 [Li0 Nz]]. unfold chol_solve in E.
  pose proof (chol_loop_spec n A (Nat.le_refl n)) as H. rewrite Nat.sub_diag in H. specialize (H cinv_start).
  destruct (chol_loop F sq n (seq 0 n) A) as [L|e]; [|discriminate]. clear E.
  replace (fsum n (fun i => fsum n (fun j => x i * sget A i j * x j)))
    with (fsum n (fun t => fsum n (fun i => low L i t * x i) * fsum n (fun i => low L i t * x i))).
  2:{ rewrite <- quad_fact. apply fsum_ext. intros i Li. apply fsum_ext. intros j Lj. now rewrite (fact_full L H) by lia. }
  set (v := fun t => fsum n (fun i => low L i t * x i)).
  destruct (0 <? fsum n (fun t => v t * v t)) eqn:C; [exact C|]. exfalso. apply Nz.
  assert (Z : fsum n (fun t => v t * v t) = 0).
  { apply (flt_total F); [|exact C]. apply fsum_nneg. intros. apply sq_nneg. }
  pose proof (fsum_sq_0 F n v Z) as V0.
  assert (Hd : forall d i, (n - d <= i < n)%nat -> x i = 0).
  { induction d as [|d IH]; intros i Li; [lia|].
    destruct (Nat.le_gt_cases (n - d) i); [apply IH; lia|].
    specialize (V0 i ltac:(lia)). unfold v in V0.
    rewrite (fsum_one F n i) in V0; [|lia|].
    - unfold low in V0. rewrite Nat.leb_refl in V0.
      assert (Dn : sget L i i <> 0) by (apply pos_neq; apply H; lia).
      transitivity (sget L i i * x i / sget L i i); [field; exact Dn|]. rewrite V0. field. exact Dn.
    - intros j Lj N. destruct (Nat.le_gt_cases i j).
      + rewrite (IH j) by lia. ring.
      + unfold low. rewrite (proj2 (Nat.leb_gt i j)) by lia. ring. }
  apply (Hd n). lia.
Qed.

(** ** Failure *)
Lemma solve_upper : forall (c : nat -> nat -> F) k, (forall t, (t < k)%nat -> c t t <> 0) ->
  (forall i t, (i < t)%nat -> c i t = 0) ->
  forall e, (e <= k)%nat -> exists x : nat -> F, x k = 1 /\
    forall t, (k - e <= t < k)%nat -> fsum (S k) (fun i => c i t * x i) = 0.
Proof.
  intros c k Dg Lt0. induction e as [|e IH]; intro Le.
  - exists (fun _ => 1). split; [reflexivity|]. intros t Lt. lia.
  - destruct (IH ltac:(lia)) as [x [X1 X2]]. set (t0 := (k - S e)%nat).
    set (rest := fsum (S k) (fun i => if (i =? t0)%nat then 0 else c i t0 * x i)).
    exists (fun i => if (i =? t0)%nat then - (rest / c t0 t0) else x i). split.
    + rewrite (proj2 (Nat.eqb_neq k t0)) by (unfold t0; lia). exact X1.
    + intros t Lt. destruct (Nat.eq_dec t t0) as [->|N].
      * transitivity (fsum (S k) (fun i => (if (i =? t0)%nat then 0 else c i t0 * x i) +
                                          (if (i =? t0)%nat then - rest else 0))).
        { apply fsum_ext. intros i Li. destruct (Nat.eqb_spec i t0) as [->|]; [|ring].
          field. apply Dg. unfold t0. lia. }
        rewrite fsum_add. fold rest.
        rewrite (fsum_one F (S k) t0 (fun i => if (i =? t0)%nat then - rest else 0)).
        -- rewrite Nat.eqb_refl. ring.
        -- unfold t0. lia.
        -- intros i _ Ni. now rewrite (proj2 (Nat.eqb_neq i t0) Ni).
      * rewrite <- (X2 t) by (unfold t0 in *; lia). apply fsum_ext. intros i Li.
        destruct (Nat.eqb_spec i t0) as [->|]; [|reflexivity].
        rewrite (Lt0 t0 t) by (unfold t0 in *; lia). ring.
Qed.

Lemma chol_fails : forall l B e, chol_solve F sq n l A B = Failed F e ->
  exists k x, e = S k /\ (k < n)%nat /\ x k = 1 /\ (forall i, (k < i)%nat -> x i = 0) /\
  (fsum n (fun i => fsum n (fun j => x i * sget A i j * x j)) <? e_minus 24 * e_minus 24) = true.
Proof.
  intros l B e E. unfold chol_solve in E.
  pose proof (chol_loop_spec n A (Nat.le_refl n)) as H. rewrite Nat.sub_diag in H. specialize (H cinv_start).
  destruct (chol_loop F sq n (seq 0 n) A) as [L|e']; [discriminate|]. injection E as ->.
  destruct H as [k [L [-> [Lk [I E]]]]].
  (* the pivot is small *)
  assert (Dsm : (sget L k k <? e_minus 24 * e_minus 24) = true).
  { unfold chol_step in E. destruct (sget L k k <? 0) eqn:C1.
    - apply (flt_trans F) with 0; [exact C1|]. apply (flt_mul F); apply e_minus_pos.
    - rewrite sget_sset in E by lia. rewrite !Nat.eqb_refl in E. cbn [andb] in E.
      destruct (fabs (sq (sget L k k)) <? e_minus 24) eqn:C2; [|discriminate].
      destruct (sq_spec _ C1) as [Sq Nn]. set (p := sq (sget L k k)) in *.
      assert (Ab : fabs p = p) by (unfold fabs; now rewrite Nn). rewrite Ab in C2. rewrite <- Sq. fold p.
      apply flt_sub. apply flt_sub in C2.
      replace (e_minus 24 * e_minus 24 - p * p) with ((e_minus 24 - p) * (e_minus 24 + p)) by ring.
      apply (flt_mul F); [exact C2|]. apply add_pos; [apply e_minus_pos|exact Nn]. }
  destruct I as [I1 [I2 I3]].
  destruct (solve_upper (low L) k) with (e := k) as [x [X1 X2]]; [| |lia|].
  { intros t Lt. unfold low. rewrite Nat.leb_refl. apply pos_neq. now apply I3. }
  { intros i t Lt. unfold low. now rewrite (proj2 (Nat.leb_gt t i)) by lia. }
  exists k, (fun i => if (i <=? k)%nat then x i else 0).
  split; [reflexivity|split; [exact Lk|split; [now rewrite Nat.leb_refl|split]]].
  { intros i Li. now rewrite (proj2 (Nat.leb_gt i k)) by lia. }
  match goal with |- (?q <? _) = true => replace q with (sget L k k); [exact Dsm|] end.
  symmetry.
  transitivity (fsum (S k) (fun i => fsum (S k) (fun j => x i * sget A i j * x j))).
  { rewrite (fsum_split F n (S k)) by lia. rewrite (fsum_0 F (n - S k)).
    - transitivity (fsum (S k) (fun i => fsum n (fun j => (if (i <=? k)%nat then x i else 0) * sget A i j * (if (j <=? k)%nat then x j else 0)))); [ring|].
      apply fsum_ext. intros i Li. rewrite (proj2 (Nat.leb_le i k)) by lia.
      rewrite (fsum_split F n (S k)) by lia. rewrite (fsum_0 F (n - S k)).
      + transitivity (fsum (S k) (fun j => x i * sget A i j * (if (j <=? k)%nat then x j else 0))); [ring|].
        apply fsum_ext. intros j Lj. now rewrite (proj2 (Nat.leb_le j k)) by lia.
      + intros j Lj. rewrite (proj2 (Nat.leb_gt (S k + j) k)) by lia. ring.
    - intros i Li. apply fsum_0. intros j Lj. rewrite (proj2 (Nat.leb_gt (S k + i) k)) by lia. ring. }
  transitivity (fsum (S k) (fun i => fsum (S k) (fun j => x i * fsum k (fun t => low L i t * low L j t) * x j)) + sget L k k).
  - assert (Ent : forall i j, (i <= k)%nat -> (j <= k)%nat ->
      sget A i j = fsum k (fun t => low L i t * low L j t) + (if (i =? k)%nat && (j =? k)%nat then sget L k k else 0)).
    { intros i j Li Lj. destruct (Nat.eqb_spec i k) as [->|Ni]; destruct (Nat.eqb_spec j k) as [->|Nj]; cbn [andb].
      - rewrite (I1 k k) by lia. ring.
      - rewrite (I2 k j) by lia. ring.
      - rewrite sget_sym, (I2 k i) by lia. replace (fsum k (fun t => low L k t * low L i t)) with (fsum k (fun t => low L i t * low L k t)); [ring|].
        apply fsum_ext. intros t _. ring.
      - destruct (Nat.le_gt_cases j i).
        + rewrite (I2 i j) by lia. ring.
        + rewrite sget_sym, (I2 j i) by lia. replace (fsum k (fun t => low L j t * low L i t)) with (fsum k (fun t => low L i t * low L j t)); [ring|].
          apply fsum_ext. intros t _. ring. }
    transitivity (fsum (S k) (fun i => fsum (S k) (fun j => x i * fsum k (fun t => low L i t * low L j t) * x j) +
                                       (if (i =? k)%nat then sget L k k else 0))).
    + apply fsum_ext. intros i Li.
      replace (if (i =? k)%nat then sget L k k else 0)
        with (fsum (S k) (fun j => x i * (if (i =? k)%nat && (j =? k)%nat then sget L k k else 0) * x j)).
      * rewrite <- fsum_add. apply fsum_ext. intros j Lj. rewrite Ent by lia. ring.
      * rewrite (fsum_one F (S k) k); [|lia|].
        -- rewrite Nat.eqb_refl, andb_true_r. destruct (Nat.eqb_spec i k) as [->|]; [|ring]. rewrite X1. ring.
        -- intros j _ N. rewrite (proj2 (Nat.eqb_neq j k) N), andb_false_r. ring.
    + rewrite fsum_add. f_equal.
      rewrite (fsum_one F (S k) k); [now rewrite Nat.eqb_refl|lia|].
      intros i _ N. now rewrite (proj2 (Nat.eqb_neq i k) N).
  - rewrite quad_fact. rewrite fsum_0; [ring|]. intros t Lt. rewrite X2 by lia. ring.
Qed.

End Fact.
End Chol.
