(** Proofs about Solve, CholeskySolve and Det. *)
From Coq Require Import List Arith Lia Bool Field.
From Verif Require Import OField Gauss_Model.
Import ListNotations.
Open Scope nat_scope.

(** ** Loops *)
Lemma for_ind : forall (S : Type) (P : nat -> S -> Prop) lo hi body (s : S),
  P lo s -> (forall k s, lo <= k < hi -> P k s -> P (Datatypes.S k) (body k s)) ->
  P (Nat.max lo hi) (for_ lo hi body s).
Proof.
  intros S P lo hi body s H0 HS. unfold for_.
  remember (hi - lo) as d eqn:E. revert lo s H0 HS E. induction d as [|d IH]; intros lo s H0 HS E.
  - cbn [seq fold_left]. now replace (Nat.max lo hi) with lo by lia.
  - cbn [seq fold_left]. replace (Nat.max lo hi) with (Nat.max (Datatypes.S lo) hi) by lia.
    apply IH; [apply HS; [lia|exact H0]| |lia]. intros k s' L. apply HS. lia.
Qed.

Lemma for_empty : forall (S : Type) lo hi body (s : S), hi <= lo -> for_ lo hi body s = s.
Proof. intros S lo hi body s L. unfold for_. now replace (hi - lo) with 0 by lia. Qed.

Lemma for_snoc : forall (S : Type) lo hi body (s : S), lo <= hi ->
  for_ lo (Datatypes.S hi) body s = body hi (for_ lo hi body s).
Proof.
  intros S lo hi body s L. unfold for_. replace (Datatypes.S hi - lo) with (Datatypes.S (hi - lo)) by lia.
  rewrite seq_S, fold_left_app. cbn [fold_left]. now replace (lo + (hi - lo)) with hi by lia.
Qed.

Section Gauss.
Variable F : ofield.
Add Field Ff : (fth F).
Local Open Scope of_scope.
Notation mat := (mat F).
Implicit Types a b : mat.

Ltac eqs1 := match goal with
  | |- context [(?x =? ?y)%nat] => destruct (Nat.eqb_spec x y)
  | |- context [(?x <? ?y)%nat] => destruct (Nat.ltb_spec x y)
  | |- context [(?x <=? ?y)%nat] => destruct (Nat.leb_spec x y)
  end; try (exfalso; lia); cbn [andb orb negb]; try reflexivity.
Ltac eqs := repeat (try (match goal with H : ?x = ?y :> nat |- _ => first [subst x|subst y] end); eqs1); repeat (match goal with H : ?x = ?y :> nat |- _ => first [subst x|subst y] end); try reflexivity.

Lemma upd_eq : forall a i j v x y,
  upd F a i j v x y = if (x =? i)%nat && (y =? j)%nat then v else a x y.
Proof. reflexivity. Qed.

Lemma mat_mul_spec : forall p (A B : mat) i k, (0 < p)%nat ->
  mat_mul F p A B i k = fsum p (fun j => A i j * B j k).
Proof.
  intros p A B i k L. unfold mat_mul.
  replace p with (Nat.max 1 p) at 2 by lia.
  apply (for_ind F (fun c s => s = fsum c (fun j => A i j * B j k))).
  - cbn [fsum]. ring.
  - intros j s _ ->. reflexivity.
Qed.

Lemma swap_rows_spec : forall w p i a x q, p <> i ->
  swap_rows F w p i a x q =
    if (q <? w)%nat then (if (x =? i)%nat then a p q else if (x =? p)%nat then a i q else a x q) else a x q.
Proof.
  intros w p i a x q N. unfold swap_rows.
  change w with (Nat.max 0 w) at 2.
  revert x q.
  refine (for_ind mat (fun c s => forall x q, s x q =
    if (q <? c)%nat then (if (x =? i)%nat then a p q else if (x =? p)%nat then a i q else a x q) else a x q) 0 w _ a _ _).
  - intros x q. now destruct (Nat.ltb_spec q 0); [lia|].
  - intros k s L IH x q. rewrite !upd_eq, !IH. eqs; auto; try congruence.
Qed.

Lemma swap_cols_spec : forall w p i a x q, p <> i ->
  swap_cols F w p i a q x =
    if (q <? w)%nat then (if (x =? i)%nat then a q p else if (x =? p)%nat then a q i else a q x) else a q x.
Proof.
  intros w p i a x q N. unfold swap_cols.
  change w with (Nat.max 0 w) at 2.
  revert x q.
  refine (for_ind mat (fun c s => forall x q, s q x =
    if (q <? c)%nat then (if (x =? i)%nat then a q p else if (x =? p)%nat then a q i else a q x) else a q x) 0 w _ a _ _).
  - intros x q. now destruct (Nat.ltb_spec q 0); [lia|].
  - intros k s L IH x q. rewrite !upd_eq, !IH. eqs; auto; try congruence.
Qed.

Lemma divide_spec : forall m i a x y,
  divide F m i a x y =
    if (x =? i)%nat && (i <? y)%nat && (y <? m)%nat then a i y / a i i
    else if (y =? i)%nat && (i <? x)%nat && (x <? m)%nat then a x i / a i i else a x y.
Proof.
  intros m i a. unfold divide.
  pose proof (for_ind mat (fun c s => forall x y, s x y =
    if (x =? i)%nat && (i <? y)%nat && (y <? c)%nat then a i y / a i i
    else if (y =? i)%nat && (i <? x)%nat && (x <? c)%nat then a x i / a i i else a x y) (S i) m
    (fun k a => let a := upd F a i k (a i k / a i i) in upd F a k i (a k i / a i i)) a) as H.
  intros x y. rewrite H; clear H.
  - destruct (Nat.le_gt_cases (S i) m).
    + now replace (Nat.max (S i) m) with m by lia.
    + replace (Nat.max (S i) m) with (S i) by lia. eqs; auto.
  - intros x' y'. eqs; auto.
  - intros k s L IH x' y'. cbv zeta. rewrite !upd_eq, !IH. eqs; auto.
Qed.

Lemma elim_row : forall m i k a x y, (i < k)%nat ->
  for_ (S i) m (fun q a => upd F a k q (a k q - a k i * a i i * a i q)) a x y =
    if (x =? k)%nat && (i <? y)%nat && (y <? m)%nat then a x y - a x i * a i i * a i y else a x y.
Proof.
  intros m i k a x y L.
  pose proof (for_ind mat (fun c s => forall x y, s x y =
    if (x =? k)%nat && (i <? y)%nat && (y <? c)%nat then a x y - a x i * a i i * a i y else a x y) (S i) m
    (fun q a => upd F a k q (a k q - a k i * a i i * a i q)) a) as H.
  rewrite H; clear H.
  - destruct (Nat.le_gt_cases (S i) m).
    + now replace (Nat.max (S i) m) with m by lia.
    + replace (Nat.max (S i) m) with (S i) by lia. eqs; auto.
  - intros x' y'. eqs; auto.
  - intros q s Lq IH x' y'. rewrite !upd_eq, !IH. eqs; auto.
Qed.

Lemma eliminate_spec : forall m i a x y,
  eliminate F m i a x y =
    if (i <? x)%nat && (x <? m)%nat && (i <? y)%nat && (y <? m)%nat then a x y - a x i * a i i * a i y else a x y.
Proof.
  intros m i a x y. unfold eliminate.
  pose proof (for_ind mat (fun c s => forall x y, s x y =
    if (i <? x)%nat && (x <? c)%nat && (i <? y)%nat && (y <? m)%nat then a x y - a x i * a i i * a i y else a x y) (S i) m
    (fun k a => for_ (S i) m (fun q a => upd F a k q (a k q - a k i * a i i * a i q)) a) a) as H.
  rewrite H; clear H.
  - destruct (Nat.le_gt_cases (S i) m).
    + now replace (Nat.max (S i) m) with m by lia.
    + replace (Nat.max (S i) m) with (S i) by lia. eqs; auto.
  - intros x' y'. eqs; auto.
  - intros k s L IH x' y'. rewrite elim_row by lia. rewrite !IH. eqs; auto.
Qed.

Lemma elim_col : forall m i k a b x y,
  for_ (S i) m (fun j b => upd F b j k (b j k - b i k * a j i)) b x y =
    if (y =? k)%nat && (i <? x)%nat && (x <? m)%nat then b x y - b i y * a x i else b x y.
Proof.
  intros m i k a b x y.
  pose proof (for_ind mat (fun c s => forall x y, s x y =
    if (y =? k)%nat && (i <? x)%nat && (x <? c)%nat then b x y - b i y * a x i else b x y) (S i) m
    (fun j b => upd F b j k (b j k - b i k * a j i)) b) as H.
  rewrite H; clear H.
  - destruct (Nat.le_gt_cases (S i) m).
    + now replace (Nat.max (S i) m) with m by lia.
    + replace (Nat.max (S i) m) with (S i) by lia. eqs; auto.
  - intros x' y'. eqs; auto.
  - intros q s Lq IH x' y'. rewrite !upd_eq, !IH. eqs; auto.
Qed.

Lemma eliminate_rhs_spec : forall m l i a b x y,
  eliminate_rhs F m l i a b x y =
    if (y <? l)%nat then
      (if (x =? i)%nat then b i y / a i i
       else if (i <? x)%nat && (x <? m)%nat then b x y - b i y * a x i else b x y)
    else b x y.
Proof.
  intros m l i a b x y. unfold eliminate_rhs.
  pose proof (for_ind mat (fun c s => forall x y, s x y =
    if (y <? c)%nat then
      (if (x =? i)%nat then b i y / a i i
       else if (i <? x)%nat && (x <? m)%nat then b x y - b i y * a x i else b x y)
    else b x y) 0%nat l
    (fun k b => let b := for_ (S i) m (fun j b => upd F b j k (b j k - b i k * a j i)) b in
      upd F b i k (b i k / a i i)) b) as H.
  rewrite H; clear H.
  - now replace (Nat.max 0 l) with l by lia.
  - intros x' y'. eqs; auto.
  - intros k s L IH x' y'. cbv zeta. rewrite !upd_eq, !elim_col, !IH. eqs; auto.
Qed.

(** ** The pivot search *)
Lemma find_pivot_spec : forall m i a mx mk mq, (i < m)%nat ->
  find_pivot F m i a = (mx, mk, mq) ->
  (i <= mk < m)%nat /\ (i <= mq < m)%nat /\ mx = fabs (a mk mq) /\
  forall k q, (i <= k < m)%nat -> (i <= q < m)%nat -> (mx <? fabs (a k q)) = false.
Proof.
  intros m i a mx mk mq L E.
  assert (Q : forall k, (i <= k < m)%nat -> forall s : F * nat * nat,
    (let '(mx, mk, mq) := s in (i <= mk < m)%nat /\ (i <= mq < m)%nat /\ mx = fabs (a mk mq)) ->
    let s' := for_ i m (fun q s => let '(mx, mk, mq) := s in let v := fabs (a k q) in
                          if mx <? v then (v, k, q) else (mx, mk, mq)) s in
    (let '(mx, mk, mq) := s' in (i <= mk < m)%nat /\ (i <= mq < m)%nat /\ mx = fabs (a mk mq)) /\
    (fst (fst s') <? fst (fst s)) = false /\
    forall q, (i <= q < m)%nat -> (fst (fst s') <? fabs (a k q)) = false).
  { intros k Lk s Hs s'.
    pose proof (for_ind _ (fun c (s' : F * nat * nat) =>
      (let '(mx, mk, mq) := s' in (i <= mk < m)%nat /\ (i <= mq < m)%nat /\ mx = fabs (a mk mq)) /\
      (fst (fst s') <? fst (fst s)) = false /\
      forall q, (i <= q < c)%nat -> (fst (fst s') <? fabs (a k q)) = false) i m
      (fun q s => let '(mx, mk, mq) := s in let v := fabs (a k q) in
                          if mx <? v then (v, k, q) else (mx, mk, mq)) s) as H.
    replace (Nat.max i m) with m in H by lia. apply H; clear H.
    - split; [exact Hs|]. split; [apply flt_irr|]. intros q Lq. lia.
    - intros q [[mx1 mk1] mq1] Lq [H1 [H2 H3]]. cbn [fst] in *. cbv zeta.
      destruct (mx1 <? fabs (a k q)) eqn:C.
      + cbn [fst]. split; [split; [lia|split; [lia|reflexivity]]|]. split.
        * apply flt_ge_trans with mx1; [|exact H2]. now apply flt_asym.
        * intros q' Lq'. destruct (Nat.eq_dec q' q) as [->|N]; [apply flt_irr|].
          apply flt_ge_trans with mx1; [|apply H3; lia]. now apply flt_asym.
      + cbn [fst]. split; [exact H1|]. split; [exact H2|].
        intros q' Lq'. destruct (Nat.eq_dec q' q) as [->|N]; [exact C|]. apply H3. lia. }
  set (Pr := fun c (s' : F * nat * nat) =>
      (let '(mx, mk, mq) := s' in (i <= mk < m)%nat /\ (i <= mq < m)%nat /\ mx = fabs (a mk mq)) /\
      forall k q, (i <= k < c)%nat -> (i <= q < m)%nat -> (fst (fst s') <? fabs (a k q)) = false).
  assert (H : Pr (Nat.max i m) (find_pivot F m i a)).
  { unfold find_pivot. apply (for_ind _ Pr); unfold Pr.
    - split; [split; [lia|split; [lia|reflexivity]]|]. intros k q Lk. lia.
    - intros k s Lk [H1 H2]. destruct (Q k Lk s H1) as [Q1 [Q2 Q3]].
      split; [exact Q1|]. intros k' q Lk' Lq. destruct (Nat.eq_dec k' k) as [->|N]; [now apply Q3|].
      apply flt_ge_trans with (fst (fst s)); [exact Q2|]. apply H2; lia. }
  rewrite E in H. replace (Nat.max i m) with m in H by lia. unfold Pr in H. cbn [fst] in H.
  destruct H as [[H1 [H2 H3]] H4].
  split; [exact H1|split; [exact H2|split; [exact H3|exact H4]]].
Qed.

(** ** The invariant of the elimination *)
Section Inv.
Variables (n m l : nat) (A B : mat).
Hypothesis n_pos : (0 < n)%nat.

(** The normal equations. *)
Let G (s j : nat) : F := fsum n (fun r => A r s * A r j).
Let H (s k : nat) : F := fsum n (fun r => A r s * B r k).

(** The system a state stands for: rows below [i] are rows of the unit upper
    triangular factor, the other rows are still to be eliminated. *)
Definition row (i : nat) (a : mat) (r q : nat) : F :=
  if (r <? i)%nat then (if (q <? r)%nat then 0 else if (q =? r)%nat then 1 else a r q)
  else if (q <? i)%nat then 0 else a r q.

Definition combo (i : nat) (a b : mat) (o : nat -> nat) (r : nat) : Prop :=
  exists t : nat -> F,
    (forall q, (q < m)%nat -> row i a r q = fsum m (fun s => t s * G s (o q))) /\
    (forall k, (k < l)%nat -> b r k = fsum m (fun s => t s * H s k)).

Definition inv (i : nat) (a b : mat) (o : nat -> nat) : Prop :=
  (forall x, (x < m)%nat -> (o x < m)%nat) /\
  (forall x y, (x < m)%nat -> (y < m)%nat -> o x = o y -> x = y) /\
  (forall r, (i <= r < m)%nat -> combo i a b o r) /\
  (forall (y : nat -> F) k, (k < l)%nat ->
     (forall r, (r < m)%nat -> fsum m (fun q => row i a r q * y q) = b r k) ->
     forall r, (r < m)%nat -> fsum m (fun q => G r (o q) * y q) = H r k).

Lemma inv_ext : forall i a b o a' b' o',
  (forall r q, (r < m)%nat -> (q < m)%nat -> row i a' r q = row i a r q) ->
  (forall r k, (r < m)%nat -> (k < l)%nat -> b' r k = b r k) ->
  (forall x, (x < m)%nat -> o' x = o x) ->
  inv i a b o -> inv i a' b' o'.
Proof.
  intros i a b o a' b' o' Ea Eb Eo [P1 [P2 [P3 P4]]].
  split; [|split; [|split]].
  - intros x L. rewrite Eo by lia. auto.
  - intros x y Lx Ly. rewrite !Eo by lia. auto.
  - intros r Lr. destruct (P3 r Lr) as [t [T1 T2]]. exists t. split.
    + intros q Lq. rewrite Ea, T1 by lia. apply fsum_ext. intros s _. now rewrite Eo by lia.
    + intros k Lk. rewrite Eb by lia. auto.
  - intros y k Lk E r Lr. rewrite <- (P4 y k Lk); [|intros r' Lr'|exact Lr].
    + apply fsum_ext. intros q Lq. now rewrite Eo by lia.
    + rewrite <- Eb, <- E by lia. apply fsum_ext. intros q Lq. now rewrite Ea by lia.
Qed.

Lemma inv_start : inv 0 (mat_mul F n (transpose F A) A) (mat_mul F n (transpose F A) B) (fun i => i).
Proof.
  assert (RG : forall r q, row 0 (mat_mul F n (transpose F A) A) r q = G r q).
  { intros r q. unfold row. cbn [Nat.ltb Nat.leb]. apply mat_mul_spec. exact n_pos. }
  assert (RH : forall r q, mat_mul F n (transpose F A) B r q = H r q).
  { intros r q. apply mat_mul_spec. exact n_pos. }
  split; [auto|split; [auto|split]].
  - intros r Lr. exists (fun s => if (s =? r)%nat then 1 else 0). split.
    + intros q Lq. rewrite RG. symmetry. rewrite (fsum_one F m r); [rewrite Nat.eqb_refl; ring|lia|].
      intros s Ls N. destruct (Nat.eqb_spec s r); [lia|ring].
    + intros k Lk. rewrite RH. symmetry. rewrite (fsum_one F m r); [rewrite Nat.eqb_refl; ring|lia|].
      intros s Ls N. destruct (Nat.eqb_spec s r); [lia|ring].
  - intros y k Lk E r Lr. rewrite <- RH, <- E by lia. apply fsum_ext. intros q _. now rewrite RG.
Qed.

(** Transposition of two indices. *)
Definition tr (p i x : nat) : nat := if (x =? i)%nat then p else if (x =? p)%nat then i else x.

Lemma tr_invol : forall p i x, tr p i (tr p i x) = x.
Proof.
  intros p i x. unfold tr.
  destruct (Nat.eqb_spec x i) as [->|N]; [destruct (Nat.eqb_spec p i); [congruence|now rewrite Nat.eqb_refl]|].
  destruct (Nat.eqb_spec x p) as [->|N']; [now rewrite Nat.eqb_refl|].
  destruct (Nat.eqb_spec x i); [contradiction|]. destruct (Nat.eqb_spec x p); [contradiction|reflexivity].
Qed.

Lemma tr_lt : forall p i x, (p < m)%nat -> (i < m)%nat -> (x < m)%nat -> (tr p i x < m)%nat.
Proof. intros p i x. unfold tr. intros. eqs; lia. Qed.

Lemma inv_rows : forall i p a b o, (i < m)%nat -> (i <= p < m)%nat -> p <> i -> inv i a b o ->
  inv i (swap_rows F m p i a) (swap_rows F l p i b) o.
Proof.
  intros i p a b o Li Lp N [P1 [P2 [P3 P4]]].
  assert (Ra : forall r q, (q < m)%nat -> row i (swap_rows F m p i a) r q = row i a (tr p i r) q).
  { intros r q Lq. unfold row, tr. rewrite swap_rows_spec by exact N. eqs. }
  assert (Rb : forall r k, (k < l)%nat -> swap_rows F l p i b r k = b (tr p i r) k).
  { intros r k Lk. rewrite swap_rows_spec by exact N. unfold tr. eqs. }
  split; [exact P1|split; [exact P2|split]].
  - intros r Lr. destruct (P3 (tr p i r)) as [t [T1 T2]].
    { unfold tr. eqs; lia. }
    exists t. split; intros; [rewrite Ra|rewrite Rb]; auto.
  - intros y k Lk E. apply (P4 y k Lk). intros r Lr.
    rewrite <- (tr_invol p i r). rewrite <- Rb by exact Lk.
    rewrite <- E by (apply tr_lt; lia). apply fsum_ext. intros q Lq. now rewrite Ra.
Qed.

Lemma inv_cols : forall i p a b o, (i < m)%nat -> (i <= p < m)%nat -> p <> i -> inv i a b o ->
  inv i (swap_cols F m p i a) b (swap_ord p i o).
Proof.
  intros i p a b o Li Lp N [P1 [P2 [P3 P4]]].
  assert (Ra : forall r q, (r < m)%nat -> row i (swap_cols F m p i a) r q = row i a r (tr p i q)).
  { intros r q Lr. unfold row, tr. rewrite swap_cols_spec by exact N. eqs. }
  assert (Ro : forall q, swap_ord p i o q = o (tr p i q)).
  { intros q. unfold swap_ord, tr. eqs. }
  split; [|split; [|split]].
  - intros x L. rewrite Ro. apply P1, tr_lt; lia.
  - intros x y Lx Ly. rewrite !Ro. intro E. apply P2 in E; try (apply tr_lt; lia).
    rewrite <- (tr_invol p i x), <- (tr_invol p i y). now rewrite E.
  - intros r Lr. destruct (P3 r Lr) as [t [T1 T2]]. exists t. split; [|exact T2].
    intros q Lq. rewrite Ra by lia. rewrite T1 by (apply tr_lt; lia). apply fsum_ext. intros s _. now rewrite Ro.
  - intros y k Lk E r Lr.
    rewrite <- (P4 (fun q => y (tr p i q)) k Lk); [| |exact Lr].
    + rewrite <- (fsum_perm F m (tr p i)).
      * apply fsum_ext. intros q Lq. now rewrite Ro, !tr_invol.
      * intros q Lq. apply tr_lt; lia.
      * intros q q' _ _ Eq. rewrite <- (tr_invol p i q), <- (tr_invol p i q'). now rewrite Eq.
    + intros r' Lr'. rewrite <- E by exact Lr'.
      rewrite <- (fsum_perm F m (tr p i) (fun q => row i a r' q * y (tr p i q))).
      * apply fsum_ext. intros q Lq. now rewrite Ra, tr_invol.
      * intros q Lq. apply tr_lt; lia.
      * intros q q' _ _ Eq. rewrite <- (tr_invol p i q), <- (tr_invol p i q'). now rewrite Eq.
Qed.

Lemma inv_pivot : forall i s, (i < m)%nat -> inv i (ga F s) (gb F s) (go F s) ->
  let s' := pivot_step F m l i s in
  inv i (ga F s') (gb F s') (go F s') /\ gp F s' = gp F s /\
  forall k q, (i <= k < m)%nat -> (i <= q < m)%nat -> (fabs (ga F s' i i) <? fabs (ga F s' k q)) = false.
Proof.
  intros i s Li I s'. unfold s', pivot_step.
  destruct (find_pivot F m i (ga F s)) as [[mx mk] mq] eqn:E.
  apply find_pivot_spec in E; [|exact Li]. destruct E as [L1 [L2 [-> M]]].
  destruct (Nat.eqb_spec mk i) as [E1|N1]; destruct (Nat.eqb_spec mq i) as [E2|N2]; cbn [ga gb go gp].
  - subst. split; [exact I|split; [reflexivity|exact M]].
  - subst. split; [|split; [reflexivity|]].
    + apply inv_cols; auto.
    + intros k q Lk Lq. rewrite !swap_cols_spec by exact N2. eqs; apply M; lia.
  - subst. split; [|split; [reflexivity|]].
    + apply inv_rows; auto.
    + intros k q Lk Lq. rewrite !swap_rows_spec by exact N1. eqs; apply M; lia.
  - split; [|split; [reflexivity|]].
    + apply inv_cols; auto. apply inv_rows; auto.
    + intros k q Lk Lq. rewrite !swap_cols_spec by exact N2. rewrite !swap_rows_spec by exact N1. eqs; apply M; lia.
Qed.

(** A row of zeros has a zero right hand side: the normal equations are
    consistent. *)
Lemma zero_row : forall i a b o r k, (i <= r < m)%nat -> (k < l)%nat -> inv i a b o ->
  (forall q, (i <= q < m)%nat -> a r q = 0) -> b r k = 0.
Proof.
  intros i a b o r k Lr Lk [P1 [P2 [P3 _]]] Z.
  destruct (P3 r Lr) as [t [T1 T2]].
  assert (TG : forall q, (q < m)%nat -> fsum m (fun s => t s * G s q) = 0).
  { intros q Lq.
    assert (E : fsum m (fun x => let y := fsum m (fun s => t s * G s (o x)) in y * y) = 0).
    { apply fsum_0. intros x Lx. cbv zeta. rewrite <- T1 by exact Lx.
      unfold row. eqs; rewrite ?Z by lia; ring. }
    rewrite (fsum_perm F m o (fun q => let y := fsum m (fun s => t s * G s q) in y * y) P1 P2) in E.
    exact (fsum_sq_0 F m (fun q => fsum m (fun s => t s * G s q)) E q Lq). }
  assert (At : forall x, (x < n)%nat -> fsum m (fun s => A x s * t s) = 0).
  { apply fsum_sq_0.
    transitivity (fsum m (fun q => t q * fsum m (fun s => t s * G s q))).
    - transitivity (fsum n (fun x => fsum m (fun q => t q * (A x q * fsum m (fun s => A x s * t s))))).
      { apply fsum_ext. intros x _. rewrite <- fsum_mul_r. apply fsum_ext. intros q _. ring. }
      rewrite fsum_swap. apply fsum_ext. intros q _. rewrite fsum_mul_l. f_equal.
      transitivity (fsum n (fun x => fsum m (fun s => t s * (A x s * A x q)))).
      { apply fsum_ext. intros x _. rewrite <- fsum_mul_l. apply fsum_ext. intros s _. ring. }
      rewrite fsum_swap. apply fsum_ext. intros s _. rewrite fsum_mul_l. reflexivity.
    - apply fsum_0. intros q Lq. rewrite TG by exact Lq. ring. }
  rewrite T2 by exact Lk.
  transitivity (fsum m (fun s => fsum n (fun x => (A x s * t s) * B x k))).
  { apply fsum_ext. intros s _. unfold H. rewrite <- fsum_mul_l. apply fsum_ext. intros x _. ring. }
  rewrite fsum_swap. apply fsum_0. intros x Lx. rewrite fsum_mul_r, At by exact Lx. ring.
Qed.

Definition fine (p : F) : Prop := p = 0 \/ (fabs p <? e_minus 54) = false.

Lemma e_minus_neq : forall k, (e_minus k : F) <> 0.
Proof. intro k. apply pos_neq, e_minus_pos. Qed.

Lemma div_0 : forall x : F, x <> 0 -> 0 / x = 0.
Proof. intros x N. field. exact N. Qed.

(** One step with pivot [e] in place of the entry (i,i). *)
Lemma inv_elim : forall i a b o e, (i < m)%nat -> e <> 0 -> inv i a b o ->
  (a i i = e \/
   (forall k q, (i <= k < m)%nat -> (i <= q < m)%nat -> a k q = 0) /\ (forall k, (k < l)%nat -> b i k = 0)) ->
  let a0 := upd F a i i e in
  let a' := eliminate F m i (divide F m i a0) in
  inv (S i) a' (eliminate_rhs F m l i a' b) o.
Proof.
  intros i a b o e Li Ne [P1 [P2 [P3 P4]]] C a0 a'.
  assert (E : forall x y, (x < m)%nat -> (y < m)%nat -> a' x y =
    if (x =? i)%nat && (y =? i)%nat then e
    else if (x =? i)%nat && (i <? y)%nat then a i y / e
    else if (y =? i)%nat && (i <? x)%nat then a x i / e
    else if (i <? x)%nat && (i <? y)%nat then a x y - (a x i / e) * e * (a i y / e) else a x y).
  { intros x y Lx Ly. unfold a'. rewrite eliminate_spec. rewrite !divide_spec.
    unfold a0. rewrite !upd_eq. eqs. }
  assert (Eb : forall x k, (x < m)%nat -> (k < l)%nat -> eliminate_rhs F m l i a' b x k =
    if (x =? i)%nat then b i k / e else if (i <? x)%nat then b x k - b i k * (a x i / e) else b x k).
  { intros x k Lx Lk. rewrite eliminate_rhs_spec. rewrite (E i i) by lia. eqs. now rewrite E by lia; eqs. }
  (* the new rows in terms of the old ones *)
  assert (Rlow : forall r q, (r < i)%nat -> (q < m)%nat -> row (S i) a' r q = row i a r q).
  { intros r q Lr Lq. unfold row. rewrite !E by lia. eqs. }
  split; [exact P1|split; [exact P2|]].
  destruct C as [Ce|[Za Zb]].
  - assert (Ri : forall q, (q < m)%nat -> row i a i q = e * row (S i) a' i q).
    { intros q Lq. unfold row. rewrite !E by lia. eqs; try (rewrite ?Ce; field; exact Ne). }
    assert (Rk : forall k q, (i < k < m)%nat -> (q < m)%nat ->
       row i a k q = row (S i) a' k q + a k i * row (S i) a' i q).
    { intros k q Lk Lq. unfold row. rewrite !E by lia. eqs; try (field; exact Ne). }
    split.
    + intros r Lr. destruct (P3 r ltac:(lia)) as [t [T1 T2]]. destruct (P3 i ltac:(lia)) as [u [U1 U2]].
      exists (fun s => t s - (a r i / e) * u s). split.
      * intros q Lq.
        transitivity (row i a r q - (a r i / e) * row i a i q).
        { rewrite (Rk r q), (Ri q) by lia. field. exact Ne. }
        rewrite T1, U1 by exact Lq. rewrite <- fsum_mul_l, <- fsum_sub. apply fsum_ext. intros s _. ring.
      * intros k Lk. rewrite Eb by lia. eqs. rewrite T2, U2 by exact Lk.
        transitivity (fsum m (fun s => t s * H s k) - (a r i / e) * fsum m (fun s => u s * H s k)); [field; exact Ne|].
        rewrite <- fsum_mul_l, <- fsum_sub. apply fsum_ext. intros s _. ring.
    + intros y k Lk Ey. apply (P4 y k Lk). intros r Lr.
      assert (Yi : fsum m (fun q => row (S i) a' i q * y q) = b i k / e).
      { rewrite Ey, Eb by lia. eqs. }
      destruct (Nat.lt_trichotomy r i) as [L|[->|L]].
      * specialize (Ey r Lr). rewrite Eb in Ey by lia. revert Ey. eqs. intros <-.
        apply fsum_ext. intros q Lq. now rewrite Rlow.
      * transitivity (e * (b i k / e)); [|field; exact Ne]. rewrite <- Yi, <- fsum_mul_l.
        apply fsum_ext. intros q Lq. rewrite Ri by exact Lq. ring.
      * specialize (Ey r Lr). rewrite Eb in Ey by lia. revert Ey. eqs. intro Ey.
        transitivity ((b r k - b i k * (a r i / e)) + a r i * (b i k / e)); [|field; exact Ne].
        rewrite <- Ey, <- Yi, <- fsum_mul_l, <- fsum_add. apply fsum_ext. intros q Lq.
        rewrite Rk by lia. ring.
  - assert (Rk : forall k q, (i < k < m)%nat -> (q < m)%nat -> row (S i) a' k q = row i a k q).
    { intros k q Lk Lq. unfold row. rewrite !E by lia. eqs; rewrite ?Za by lia; try (field; exact Ne). }
    assert (Bk : forall x k, (x < m)%nat -> (k < l)%nat -> eliminate_rhs F m l i a' b x k = b x k).
    { intros x k Lx Lk. rewrite Eb by assumption. eqs; rewrite ?Zb by assumption; field; exact Ne. }
    split.
    + intros r Lr. destruct (P3 r ltac:(lia)) as [t [T1 T2]]. exists t. split.
      * intros q Lq. rewrite Rk by lia. auto.
      * intros k Lk. rewrite Bk by lia. auto.
    + intros y k Lk Ey. apply (P4 y k Lk). intros r Lr.
      destruct (Nat.lt_trichotomy r i) as [L|[->|L]].
      * rewrite <- (Bk r k), <- Ey by lia. apply fsum_ext. intros q Lq. now rewrite Rlow.
      * rewrite Zb by exact Lk. apply fsum_0. intros q Lq. unfold row. eqs; rewrite ?Za by lia; ring.
      * rewrite <- (Bk r k), <- Ey by lia. apply fsum_ext. intros q Lq. rewrite Rk by lia. reflexivity.
Qed.

Lemma upd_id : forall a i x y, upd F a i i (a i i) x y = a x y.
Proof. intros a i x y. rewrite upd_eq. eqs. Qed.


Lemma small_ok_zero : forall i b, (forall k, (k < l)%nat -> b i k = 0) -> small_ok F l i b = true.
Proof.
  intros i b Z. unfold small_ok. apply forallb_forall. intros k Ik. apply in_seq in Ik.
  rewrite Z by lia. rewrite div_0 by apply e_minus_neq. rewrite fabs_0.
  rewrite (flt_asym F); [reflexivity|]. apply f1_pos.
Qed.

Lemma step_fine : forall i s, (i < m)%nat -> inv i (ga F s) (gb F s) (go F s) ->
  fine (ga F (pivot_step F m l i s) i i) ->
  exists s', gauss_step F m l i s = Some s' /\ inv (S i) (ga F s') (gb F s') (go F s') /\
             gp F s' = ga F (pivot_step F m l i s) i i :: gp F s.
Proof.
  intros i s Li I Fi. destruct (inv_pivot i s Li I) as [I1 [Gp M]].
  unfold gauss_step, check_small. cbn [ga gb go gp]. set (s1 := pivot_step F m l i s) in *.
  destruct Fi as [Z|Big].
  - assert (Sm : (fabs (ga F s1 i i) <? e_minus 54) = true) by (rewrite Z, fabs_0; apply e_minus_pos).
    rewrite Sm.
    assert (Za : forall k q, (i <= k < m)%nat -> (i <= q < m)%nat -> ga F s1 k q = 0).
    { intros k q Lk Lq. apply fabs_le_0. specialize (M k q Lk Lq). now rewrite Z, fabs_0 in M. }
    assert (Zb : forall k, (k < l)%nat -> gb F s1 i k = 0).
    { intros k Lk. apply (zero_row i (ga F s1) (gb F s1) (go F s1)); auto. }
    rewrite small_ok_zero by exact Zb. eexists. split; [reflexivity|]. cbn [ga gb go gp].
    split; [|now rewrite Gp].
    apply inv_elim; auto. rewrite Z, (flt_irr F). apply e_minus_neq.
  - rewrite Big. eexists. split; [reflexivity|]. cbn [ga gb go gp]. split; [|now rewrite Gp].
    assert (Ne : ga F s1 i i <> 0).
    { intro Z. rewrite Z, fabs_0, e_minus_pos in Big. discriminate. }
    pose proof (inv_elim i (ga F s1) (gb F s1) (go F s1) (ga F s1 i i) Li Ne I1 (or_introl eq_refl)) as J.
    cbv zeta in J. revert J. apply inv_ext.
    + intros r q Lr Lq. unfold row. rewrite !eliminate_spec, !divide_spec, !upd_id. reflexivity.
    + intros r k Lr Lk. rewrite !eliminate_rhs_spec, !eliminate_spec, !divide_spec, !upd_id. reflexivity.
    + reflexivity.
Qed.

(** ** Back substitution *)
Lemma back_row : forall i k a b x y,
  for_ (S i) m (fun j b => upd F b i k (b i k - b j k * a i j)) b x y =
    if (x =? i)%nat && (y =? k)%nat
    then b i k - fsum (Nat.max (S i) m) (fun j => if (i <? j)%nat then b j k * a i j else 0) else b x y.
Proof.
  intros i k a b.
  refine (for_ind mat (fun c s => forall x y, s x y =
    if (x =? i)%nat && (y =? k)%nat
    then b i k - fsum c (fun j => if (i <? j)%nat then b j k * a i j else 0) else b x y) (S i) m _ b _ _).
  - intros x y. rewrite fsum_0; [|intros j Lj; eqs]. eqs. ring.
  - intros j s Lj IH x y. rewrite upd_eq, !IH. cbn [fsum]. rewrite !Nat.eqb_refl. cbn [andb].
    assert (j <> i) by lia. assert (Ej : (j =? i)%nat = false) by now apply Nat.eqb_neq.
    rewrite Ej. cbn [andb]. assert (Lt : (i <? j)%nat = true) by (apply Nat.ltb_lt; lia). rewrite Lt.
    destruct (Nat.eqb_spec x i); [|reflexivity]. destruct (Nat.eqb_spec y k); [|reflexivity]. cbn [andb]. ring.
Qed.

Lemma back_col : forall k a b,
  let b' := back_subst F m a b k in
  (forall x y, y <> k -> b' x y = b x y) /\
  (forall r, (r < m)%nat -> fsum m (fun q => row m a r q * b' q k) = b r k).
Proof.
  intros k a b b'. unfold b', back_subst. clear b'.
  assert (Hc : forall c s, (c <= m)%nat ->
    (forall x y, y <> k -> s x y = b x y) ->
    (forall r, (r < c)%nat -> s r k = b r k) ->
    (forall r, (c <= r < m)%nat -> s r k + fsum m (fun j => if (r <? j)%nat then s j k * a r j else 0) = b r k) ->
    let s' := fold_left (fun b i => for_ (S i) m (fun j b => upd F b i k (b i k - b j k * a i j)) b) (rev (seq 0 c)) s in
    (forall x y, y <> k -> s' x y = b x y) /\
    (forall r, (r < m)%nat -> s' r k + fsum m (fun j => if (r <? j)%nat then s' j k * a r j else 0) = b r k)).
  { induction c as [|c IH]; intros s Lc H1 H2 H3; cbv zeta.
    - cbn [seq rev fold_left]. split; [exact H1|]. intros r Lr. apply H3. lia.
    - rewrite seq_S. cbn [Nat.add]. rewrite rev_app_distr. cbn [rev app fold_left].
      apply IH; [lia| | |].
      + intros x y N. rewrite back_row. rewrite (proj2 (Nat.eqb_neq y k) N), andb_false_r. now apply H1.
      + intros r Lr. rewrite back_row. rewrite (proj2 (Nat.eqb_neq r c)) by lia. cbn [andb]. apply H2. lia.
      + intros r Lr. rewrite back_row. rewrite Nat.eqb_refl, andb_true_r.
        replace (Nat.max (S c) m) with m by lia.
        replace (fsum m (fun j => if (r <? j)%nat then for_ (S c) m (fun j0 b0 => upd F b0 c k (b0 c k - b0 j0 k * a c j0)) s j k * a r j else 0))
          with (fsum m (fun j => if (r <? j)%nat then s j k * a r j else 0)).
        * destruct (Nat.eqb_spec r c) as [->|N]; [|apply H3; lia].
          rewrite (H2 c) by lia. ring.
        * apply fsum_ext. intros j Lj. destruct (Nat.ltb_spec r j); [|reflexivity].
          rewrite back_row. rewrite (proj2 (Nat.eqb_neq j c)) by lia. reflexivity. }
  destruct (Hc m b (Nat.le_refl m)) as [R1 R2]; [reflexivity|reflexivity|intros r Lr; lia|].
  split; [exact R1|]. intros r Lr. specialize (R2 r Lr).
  set (s' := fold_left _ _ _) in *. rewrite <- R2.
  replace (s' r k) with (fsum m (fun q => if (q =? r)%nat then s' q k else 0)).
  2:{ rewrite (fsum_one F m r); [now rewrite Nat.eqb_refl|exact Lr|]. intros q _ N. now rewrite (proj2 (Nat.eqb_neq q r) N). }
  rewrite <- fsum_add. apply fsum_ext. intros q Lq. unfold row.
  rewrite (proj2 (Nat.ltb_lt r m) Lr). eqs; ring.
Qed.

Lemma scatter_spec : forall (o : nat -> nat) k (v : nat -> F) (r0 : mat) ,
  (forall x y, (x < m)%nat -> (y < m)%nat -> o x = o y -> x = y) ->
  let r := for_ 0 m (fun i r => upd F r (o i) k (v i)) r0 in
  (forall i, (i < m)%nat -> r (o i) k = v i) /\ (forall x y, y <> k -> r x y = r0 x y).
Proof.
  intros o k v r0 Inj r. unfold r. clear r.
  assert (Hc : let r := for_ 0 m (fun i r => upd F r (o i) k (v i)) r0 in
    (forall i, (i < Nat.max 0 m)%nat -> r (o i) k = v i) /\ (forall x y, y <> k -> r x y = r0 x y)).
  { apply (for_ind mat (fun c r => (forall i, (i < c)%nat -> r (o i) k = v i) /\ (forall x y, y <> k -> r x y = r0 x y))).
    - split; [intros; lia|reflexivity].
    - intros c r Lc [H1 H2]. split.
      + intros i Li. rewrite upd_eq, Nat.eqb_refl, andb_true_r.
        destruct (Nat.eqb_spec (o i) (o c)) as [E|N].
        * apply Inj in E; [now subst|lia|lia].
        * apply H1. destruct (Nat.eq_dec i c) as [->|]; [contradiction|lia].
      + intros x y N. rewrite upd_eq, (proj2 (Nat.eqb_neq y k) N), andb_false_r. now apply H2. }
  exact Hc.
Qed.

Lemma back_spec : forall s, (forall x y, (x < m)%nat -> (y < m)%nat -> go F s x = go F s y -> x = y) ->
  forall k r, (k < l)%nat -> (r < m)%nat ->
    fsum m (fun q => row m (ga F s) r q * back F m l s (go F s q) k) = gb F s r k.
Proof.
  intros s Inj.
  set (P := fun c (br : mat * mat) =>
    (forall x y, (c <= y)%nat -> fst br x y = gb F s x y) /\
    forall k r, (k < c)%nat -> (r < m)%nat ->
      fsum m (fun q => row m (ga F s) r q * snd br (go F s q) k) = gb F s r k).
  assert (Hc : P (Nat.max 0 l) (for_ 0 l (fun k br =>
         let b := back_subst F m (ga F s) (fst br) k in
         (b, for_ 0 m (fun i r => upd F r (go F s i) k (b i k)) (snd br))) (gb F s, fun _ _ => 0))).
  { apply (for_ind _ P); unfold P.
    - cbn [fst snd]. split; [reflexivity|]. intros k r Lk. lia.
    - intros k [b rr] Lk [H1 H2]. cbn [fst snd] in *. cbv zeta.
      destruct (back_col k (ga F s) b) as [C1 C2].
      destruct (scatter_spec (go F s) k (fun i => back_subst F m (ga F s) b k i k) rr Inj) as [S1 S2].
      cbn [fst snd]. split.
      + intros x y Ly. rewrite C1 by lia. apply H1. lia.
      + intros k' r Lk' Lr. destruct (Nat.eq_dec k' k) as [->|N].
        * rewrite <- (H1 r k), <- (C2 r Lr) by lia. apply fsum_ext. intros q Lq. now rewrite S1.
        * rewrite <- (H2 k' r) by lia. apply fsum_ext. intros q Lq. now rewrite S2. }
  unfold back. intros k r Lk Lr. apply Hc; [lia|exact Lr].
Qed.

Definition normal_eq (X : mat) : Prop :=
  forall r k, (r < m)%nat -> (k < l)%nat -> fsum m (fun q => G r q * X q k) = H r k.

Lemma inv_final : forall s, inv m (ga F s) (gb F s) (go F s) -> normal_eq (back F m l s).
Proof.
  intros s [P1 [P2 [_ P4]]] r k Lr Lk.
  rewrite <- (P4 (fun q => back F m l s (go F s q) k) k Lk); [| |exact Lr].
  - rewrite <- (fsum_perm F m (go F s) (fun q => G r q * back F m l s q k) P1 P2). reflexivity.
  - intros r' Lr'. apply back_spec; auto.
Qed.

Lemma loop_seen : forall is s p, In p (gp F s) -> In p (snd (gauss_loop F m l is s)).
Proof.
  induction is as [|i is IH]; intros s p Ip; cbn [gauss_loop snd]; [exact Ip|].
  destruct (gauss_step F m l i s) as [s'|] eqn:E; cbn [snd]; [|now right].
  apply IH. unfold gauss_step, check_small in E. cbn [ga gb go gp] in E.
  assert (Gp : gp F (pivot_step F m l i s) = gp F s).
  { unfold pivot_step. destruct (find_pivot F m i (ga F s)) as [[? mk] mq].
    destruct (mk =? i)%nat, (mq =? i)%nat; reflexivity. }
  rewrite <- Gp in Ip.
  destruct (fabs _ <? _); [destruct (small_ok _ _ _ _); [|discriminate]|]; injection E as <-; cbn [gp]; now right.
Qed.

Lemma loop_fine : forall d s, (d <= m)%nat -> inv (m - d) (ga F s) (gb F s) (go F s) ->
  (forall p, In p (snd (gauss_loop F m l (seq (m - d) d) s)) -> fine p) ->
  exists X, fst (gauss_loop F m l (seq (m - d) d) s) = Solved F X /\ normal_eq X.
Proof.
  induction d as [|d IH]; intros s Ld I Fi.
  - cbn [seq gauss_loop fst]. exists (back F m l s). split; [reflexivity|].
    apply inv_final. now replace (m - 0)%nat with m in I by lia.
  - cbn [seq gauss_loop] in *.
    assert (Fp : fine (ga F (pivot_step F m l (m - S d) s) (m - S d)%nat (m - S d)%nat)).
    { apply Fi. destruct (gauss_step F m l (m - S d) s) as [s'|] eqn:E; [|now left].
      apply loop_seen. unfold gauss_step, check_small in E. cbn [ga gb go gp] in E.
      destruct (fabs _ <? _); [destruct (small_ok _ _ _ _); [|discriminate]|]; injection E as <-; cbn [gp]; now left. }
    destruct (step_fine (m - S d) s ltac:(lia) I Fp) as [s' [E [I' _]]].
    rewrite E in *. replace (S (m - S d)) with (m - d)%nat in * by lia. apply IH; auto. lia.
Qed.

Lemma solve_normal : (forall p, In p (snd (solve_pivots F n m l A B)) -> fine p) ->
  exists X, solve F n m l A B = Solved F X /\ normal_eq X.
Proof.
  intro Fi. unfold solve, solve_pivots in *. replace (seq 0 m) with (seq (m - m) m) in * by (now rewrite Nat.sub_diag).
  apply loop_fine; [lia| |exact Fi]. replace (m - m)%nat with 0%nat by lia. cbn [ga gb go]. apply inv_start.
Qed.

(** Consequences of the normal equations. *)
Lemma residual_orthogonal : forall X, normal_eq X -> forall j k, (j < m)%nat -> (k < l)%nat ->
  fsum n (fun r => A r j * (fsum m (fun q => A r q * X q k) - B r k)) = 0.
Proof.
  intros X N j k Lj Lk. specialize (N j k Lj Lk). unfold G, H in N.
  transitivity (fsum n (fun r => A r j * fsum m (fun q => A r q * X q k)) - fsum n (fun r => A r j * B r k)).
  { rewrite <- fsum_sub. apply fsum_ext. intros r _. ring. }
  rewrite <- N.
  replace (fsum n (fun r => A r j * fsum m (fun q => A r q * X q k)))
    with (fsum m (fun q => fsum n (fun r => A r j * A r q) * X q k)); [ring|].
  transitivity (fsum m (fun q => fsum n (fun r => A r j * (A r q * X q k)))).
  { apply fsum_ext. intros q _. rewrite <- fsum_mul_r. apply fsum_ext. intros r _. ring. }
  rewrite fsum_swap. apply fsum_ext. intros r _. apply fsum_mul_l.
Qed.

Lemma least_squares : forall X, normal_eq X -> forall Y k, (k < l)%nat ->
  (fsum n (fun r => (fsum m (fun q => A r q * Y q) - B r k) * (fsum m (fun q => A r q * Y q) - B r k)) <?
   fsum n (fun r => (fsum m (fun q => A r q * X q k) - B r k) * (fsum m (fun q => A r q * X q k) - B r k))) = false.
Proof.
  intros X N Y k Lk.
  set (rx := fun r => fsum m (fun q => A r q * X q k) - B r k).
  set (dz := fun r => fsum m (fun q => A r q * (Y q - X q k))).
  assert (E : forall r, fsum m (fun q => A r q * Y q) - B r k = rx r + dz r).
  { intro r. unfold rx, dz.
    transitivity (fsum m (fun q => A r q * X q k) + fsum m (fun q => A r q * (Y q - X q k)) - B r k); [|ring].
    rewrite <- fsum_add. f_equal. apply fsum_ext. intros q _. ring. }
  assert (O : fsum n (fun r => rx r * dz r) = 0).
  { unfold dz. transitivity (fsum n (fun r => fsum m (fun q => (Y q - X q k) * (A r q * rx r)))).
    { apply fsum_ext. intros r _. rewrite <- fsum_mul_l. apply fsum_ext. intros q _. ring. }
    rewrite fsum_swap. apply fsum_0. intros q Lq. rewrite fsum_mul_l. unfold rx.
    rewrite residual_orthogonal by assumption. ring. }
  replace (fsum n (fun r => (fsum m (fun q => A r q * Y q) - B r k) * (fsum m (fun q => A r q * Y q) - B r k)))
    with (fsum n (fun r => rx r * rx r) + fsum n (fun r => dz r * dz r)).
  - change (fun r => (fsum m (fun q => A r q * X q k) - B r k) * (fsum m (fun q => A r q * X q k) - B r k)) with (fun r => rx r * rx r).
    destruct (_ <? _) eqn:C; [|reflexivity]. exfalso.
    apply flt_sub in C.
    replace (fsum n (fun r => rx r * rx r) - (fsum n (fun r => rx r * rx r) + fsum n (fun r => dz r * dz r)))
      with (- fsum n (fun r => dz r * dz r)) in C by ring.
    assert (D : (fsum n (fun r => dz r * dz r) <? 0) = false) by (apply fsum_nneg; intros; apply sq_nneg).
    apply flt_opp_neg in C. replace (- - fsum n (fun r => dz r * dz r)) with (fsum n (fun r => dz r * dz r)) in C by ring.
    congruence.
  - transitivity (fsum n (fun r => rx r * rx r) + fsum n (fun r => dz r * dz r) + (fsum n (fun r => rx r * dz r) + fsum n (fun r => rx r * dz r))).
    { rewrite O. ring. }
    rewrite <- !fsum_add. apply fsum_ext. intros r _. rewrite !E. ring.
Qed.

Lemma consistent_exact : forall X, normal_eq X -> forall k, (k < l)%nat ->
  (exists Y, forall r, (r < n)%nat -> fsum m (fun q => A r q * Y q) = B r k) ->
  forall r, (r < n)%nat -> fsum m (fun q => A r q * X q k) = B r k.
Proof.
  intros X N k Lk [Y HY] r Lr.
  pose proof (least_squares X N Y k Lk) as LS.
  rewrite (fsum_0 F n) in LS.
  2:{ intros x Lx. rewrite HY by exact Lx. ring. }
  assert (Z : fsum n (fun r => (fsum m (fun q => A r q * X q k) - B r k) * (fsum m (fun q => A r q * X q k) - B r k)) = 0).
  { apply (flt_total F); [|exact LS]. apply fsum_nneg. intros. apply sq_nneg. }
  pose proof (fsum_sq_0 F n (fun r => fsum m (fun q => A r q * X q k) - B r k) Z r Lr) as E. cbv beta in E.
  transitivity (fsum m (fun q => A r q * X q k) - B r k + B r k); [ring|]. rewrite E. ring.
Qed.

End Inv.

(** The error code. *)
Lemma loop_failed : forall m l d i s e ps, gauss_loop F m l (seq i d) s = (Failed F e, ps) -> length (gp F s) = i ->
  (i < e <= i + d)%nat /\ length ps = e /\ exists p ps', ps = p :: ps' /\ (fabs p <? e_minus 54) = true.
Proof.
  intros m l. induction d as [|d IH]; intros i s e ps E Ln; cbn [seq gauss_loop] in E; [discriminate|].
  destruct (gauss_step F m l i s) as [s'|] eqn:G.
  - assert (Ln' : length (gp F s') = S i).
    { unfold gauss_step, check_small in G.
      assert (Pg : gp F (pivot_step F m l i s) = gp F s).
      { unfold pivot_step. destruct (find_pivot F m i (ga F s)) as [[mx mk] mq].
        destruct (mk =? i)%nat; destruct (mq =? i)%nat; reflexivity. }
      cbn [ga gb go gp] in G.
      destruct (fabs _ <? e_minus 54); [destruct (small_ok _ _ _ _)|]; try discriminate;
        injection G as <-; cbn [gp length]; now rewrite Pg, Ln. }
    destruct (IH (S i) s' e ps E Ln') as [H1 H2]. split; [lia|exact H2].
  - injection E as <- <-. split; [lia|]. split; [cbn [length]; now rewrite Ln|].
    eexists _, _. split; [reflexivity|].
    unfold gauss_step, check_small in G. cbn [ga gb go gp] in G.
    destruct (fabs _ <? e_minus 54) eqn:C; [reflexivity|discriminate].
Qed.

End Gauss.
