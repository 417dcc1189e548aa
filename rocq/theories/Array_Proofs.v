(** Proofs about array<T>: refinement to lists, and the exact behaviour of
    range erase and replace. *)
From Coq Require Import NArith ZArith List Bool Lia Arith.
From Verif Require Import Util Array_Model.
Import ListNotations.

(** ** Specification: the same calls on an ideal sequence.  [None]: the call is
    not allowed (position out of range, pop of an empty sequence). *)
Section Spec.
Context {A : Type}.
Definition spec_step (l : list A) (o : op A) : option (list A) :=
  match o with
  | OPush x => Some (l ++ [x])
  | OPushOwn i => option_map (fun x => l ++ [x]) (nth_error l i)
  | OPop => match l with [] => None | _ => Some (removelast l) end
  | OResize n c => Some (firstn n l ++ repeat c (n - length l))
  | OClear => Some []
  | OSet i x => if i <? length l then Some (firstn i l ++ x :: skipn (S i) l) else None
  | OInsert d x => if d <=? length l then Some (firstn d l ++ x :: skipn d l) else None
  | OInsertN d n x => if d <=? length l then Some (firstn d l ++ repeat x n ++ skipn d l) else None
  | OInsertR d xs => if d <=? length l then Some (firstn d l ++ xs ++ skipn d l) else None
  | OErase d => if d <? length l then Some (firstn d l ++ skipn (S d) l) else None
  | OAssign xs => Some xs
  end.
Fixpoint spec_run (l : list A) (ops : list (op A)) : option (list A) :=
  match ops with
  | [] => Some l
  | o :: r => match spec_step l o with Some l' => spec_run l' r | None => None end
  end.
(** No intermediate size exceeds 2^31 (the range of growth_formula), and
    push_back of an own element happens only when the storage is not moved. *)
Fixpoint fits (l : list A) (ops : list (op A)) : Prop :=
  (N.of_nat (length l) <= 2 ^ 31)%N /\
  match ops with
  | [] => True
  | o :: r =>
      match o with OPushOwn _ => gf (S (length l)) = gf (length l) | _ => True end /\
      match spec_step l o with Some l' => fits l' r | None => True end
  end.
End Spec.

(** ** growth_formula *)
Definition top (b k v : N) : Prop :=
  (forall i, (i <= b)%N -> (b < i + k)%N -> N.testbit v i = true) /\
  (forall i, (b < i)%N -> N.testbit v i = false).

Lemma top_step : forall b k v, top b k v -> top b (2 * k) (N.lor v (N.shiftr v k)).
Proof.
  intros b k v [H1 H2]. split; intros i Hi.
  - intros Hk. rewrite N.lor_spec, N.shiftr_spec by apply N.le_0_l.
    destruct (N.lt_ge_cases b (i + k)) as [L|G].
    + rewrite H1 by assumption. reflexivity.
    + rewrite (H1 (i + k)%N) by lia. apply orb_true_r.
  - rewrite N.lor_spec, N.shiftr_spec by apply N.le_0_l.
    rewrite !H2 by lia. reflexivity.
Qed.

Lemma growth_0 : growth 0 = 0%N.
Proof. reflexivity. Qed.

Lemma growth_pow : forall n, (1 <= n <= 2 ^ 31)%N -> growth n = (2 ^ N.log2_up n)%N.
Proof.
  intros n Hn. unfold growth.
  replace ((n + (2 ^ 32 - 1)) mod 2 ^ 32)%N with (n - 1)%N.
  2:{ replace (n + (2 ^ 32 - 1))%N with ((n - 1) + 1 * 2 ^ 32)%N by lia.
      rewrite N.mod_add by lia. symmetry. apply N.mod_small. lia. }
  destruct (N.eq_dec n 1) as [->|Hne]; [reflexivity|].
  set (v := (n - 1)%N). assert (1 <= v)%N as Hv by (unfold v; lia).
  set (b := N.log2 v).
  assert (top b 1 v) as T.
  { split; intros i Hi.
    - intros Hb. replace i with b by lia. apply N.bit_log2. lia.
    - apply N.bits_above_log2. exact Hi. }
  apply top_step, top_step, top_step, top_step, top_step in T.
  cbn [N.mul Pos.mul] in T. cbv zeta.
  set (r := N.lor _ (N.shiftr _ 16)) in *.
  assert (b < 31)%N as Hb.
  { unfold b. apply N.log2_lt_pow2; lia. }
  assert (r = N.ones (b + 1)) as ->.
  { apply N.bits_inj. intros i. destruct T as [T1 T2].
    destruct (N.lt_ge_cases b i) as [L|G].
    - rewrite T2, N.ones_spec_high by lia. reflexivity.
    - rewrite T1, N.ones_spec_low by lia. reflexivity. }
  rewrite N.ones_equiv.
  assert (0 < 2 ^ (b + 1))%N by (apply N.neq_0_lt_0, N.pow_nonzero; lia).
  replace (N.pred (2 ^ (b + 1)) + 1)%N with (2 ^ (b + 1))%N by lia.
  rewrite N.mod_small.
  2:{ apply N.pow_lt_mono_r; lia. }
  f_equal. unfold b, v. rewrite <- N.pred_sub. rewrite N.log2_up_eqn by lia. lia.
Qed.

Lemma growth_mono_lt : forall m n, (m < n <= 2 ^ 31)%N -> growth m <> growth n -> (growth m < n)%N.
Proof.
  intros m n Hn D. destruct (N.eq_dec m 0) as [->|Hm]; [rewrite growth_0; lia|].
  rewrite !growth_pow in * by lia. apply N.log2_up_lt_pow2; [lia|].
  assert (N.log2_up m <= N.log2_up n)%N by (apply N.log2_up_le_mono; lia).
  destruct (N.eq_dec (N.log2_up m) (N.log2_up n)) as [E|]; [|lia].
  rewrite E in D. congruence.
Qed.

Definition small (n : nat) : Prop := (N.of_nat n <= 2 ^ 31)%N.

Lemma gf_0 : gf 0 = 0.
Proof. reflexivity. Qed.
Lemma gf_ge : forall n, small n -> n <= gf n.
Proof.
  intros n H. unfold gf. destruct (Nat.eq_dec n 0) as [->|Hn]; [cbn; lia|].
  unfold small in H. rewrite growth_pow by lia.
  assert (N.of_nat n <= 2 ^ N.log2_up (N.of_nat n))%N by (apply N.log2_up_le_pow2; lia).
  lia.
Qed.
Lemma gf_lt : forall m n, small n -> m < n -> gf m <> gf n -> gf m < n.
Proof.
  intros m n H L D. unfold gf in *. unfold small in H.
  assert (growth (N.of_nat m) < N.of_nat n)%N; [|lia].
  apply growth_mono_lt; [lia|]. intros E. apply D. now rewrite E.
Qed.
Lemma gf_1 : gf 1 = 1.
Proof. reflexivity. Qed.

(** ** Buffer primitives *)
Section Buffers.
Context {A : Type}.
Implicit Types (b : @buf A).

Lemma wr_some : forall b i x, i < length b -> wr b i x = Some (lset b i x).
Proof. intros b i x H. unfold wr. now rewrite (proj2 (Nat.ltb_lt _ _) H). Qed.

Lemma copy_in_spec : forall xs b o, o + length xs <= length b ->
  exists b', copy_in b o xs = Some b' /\ length b' = length b /\
  forall k, nth_error b' k =
    if (o <=? k) && (k <? o + length xs) then nth_error xs (k - o) else nth_error b k.
Proof.
  induction xs as [|x r IH]; intros b o H; cbn [copy_in length] in *.
  - exists b. repeat split; auto. intros k.
    destruct (Nat.leb_spec o k), (Nat.ltb_spec k (o + 0)); cbn; auto; lia.
  - rewrite wr_some by lia.
    destruct (IH (lset b o x) (S o)) as (b' & E & L & N); [rewrite lset_length; lia|].
    exists b'. rewrite lset_length in L. repeat split; auto.
    intros k. rewrite N, nth_error_lset.
    destruct (Nat.leb_spec (S o) k), (Nat.ltb_spec k (S o + length r)),
      (Nat.leb_spec o k), (Nat.ltb_spec k (o + S (length r))), (Nat.eqb_spec o k),
      (Nat.ltb_spec k (length b)); cbn [andb]; try lia; auto.
    + replace (k - o) with (S (k - S o)) by lia. reflexivity.
    + subst. rewrite Nat.sub_diag. reflexivity.
Qed.

Lemma copy_fwd_spec : forall n b i o, o <= i -> i + n <= length b ->
  exists b', copy_fwd b i o n = Some b' /\ length b' = length b /\
  forall k, nth_error b' k =
    if (o <=? k) && (k <? o + n) then nth_error b (k - o + i) else nth_error b k.
Proof.
  induction n as [|n IH]; intros b i o H1 H2; cbn [copy_fwd].
  - exists b. repeat split; auto. intros k.
    destruct (Nat.leb_spec o k), (Nat.ltb_spec k (o + 0)); cbn; auto; lia.
  - unfold rd. destruct (nth_error b i) as [x|] eqn:E.
    2:{ apply nth_error_None in E. lia. }
    rewrite wr_some by lia.
    destruct (IH (lset b o x) (S i) (S o)) as (b' & F & L & N); [lia|rewrite lset_length; lia|].
    exists b'. rewrite lset_length in L. repeat split; auto.
    intros k. rewrite N, !nth_error_lset.
    destruct (Nat.leb_spec (S o) k), (Nat.ltb_spec k (S o + n)),
      (Nat.leb_spec o k), (Nat.ltb_spec k (o + S n)), (Nat.eqb_spec o k),
      (Nat.ltb_spec k (length b)); cbn [andb]; try lia; auto.
    all: try (replace (k - o + i) with (k - S o + S i) by lia;
              destruct (Nat.eqb_spec o (k - S o + S i)); [lia|]; reflexivity).
    subst. rewrite Nat.sub_diag. cbn. auto.
Qed.

Lemma copy_bwd_spec : forall n b i o, i <= o -> o + n <= length b ->
  exists b', copy_bwd b i o n = Some b' /\ length b' = length b /\
  forall k, nth_error b' k =
    if (o <=? k) && (k <? o + n) then nth_error b (k - o + i) else nth_error b k.
Proof.
  induction n as [|n IH]; intros b i o H1 H2; cbn [copy_bwd].
  - exists b. repeat split; auto. intros k.
    destruct (Nat.leb_spec o k), (Nat.ltb_spec k (o + 0)); cbn; auto; lia.
  - unfold rd. destruct (nth_error b (i + n)) as [x|] eqn:E.
    2:{ apply nth_error_None in E. lia. }
    rewrite wr_some by lia.
    destruct (IH (lset b (o + n) x) i o) as (b' & F & L & N); [lia|rewrite lset_length; lia|].
    exists b'. rewrite lset_length in L. repeat split; auto.
    intros k. rewrite N, !nth_error_lset.
    destruct (Nat.leb_spec o k), (Nat.ltb_spec k (o + n)),
      (Nat.ltb_spec k (o + S n)), (Nat.eqb_spec (o + n) k),
      (Nat.ltb_spec k (length b)); cbn [andb]; try lia; auto.
    all: try (destruct (Nat.eqb_spec (o + n) (k - o + i)); [lia|]; reflexivity).
    subst. replace (o + n - o + i) with (i + n) by lia. auto.
Qed.

Lemma copy_spec : forall n b i o, i + n <= length b -> o + n <= length b ->
  exists b', copy b i o n = Some b' /\ length b' = length b /\
  forall k, nth_error b' k =
    if (o <=? k) && (k <? o + n) then nth_error b (k - o + i) else nth_error b k.
Proof.
  intros n b i o H1 H2. unfold copy. destruct (Nat.ltb_spec i o).
  - apply copy_bwd_spec; lia.
  - apply copy_fwd_spec; lia.
Qed.

(** [if (s) copy(...)] *)
Lemma copy_opt_spec : forall s b i o, s = 0 \/ (i + s <= length b /\ o + s <= length b) ->
  exists b', (if s =? 0 then Some b else copy b i o s) = Some b' /\ length b' = length b /\
  forall k, nth_error b' k =
    if (o <=? k) && (k <? o + s) then nth_error b (k - o + i) else nth_error b k.
Proof.
  intros s b i o H. destruct (Nat.eqb_spec s 0) as [->|Hs].
  - exists b. repeat split; auto. intros k.
    destruct (Nat.leb_spec o k), (Nat.ltb_spec k (o + 0)); cbn; auto; lia.
  - destruct H as [|[H1 H2]]; [lia|]. now apply copy_spec.
Qed.

(** Growing or shrinking a buffer keeps the common prefix. *)
Lemma realloc_spec : forall b old new, length b = gf old -> small old -> small new ->
  exists b', realloc (Some b) old new = Some (Some b') /\ length b' = gf new /\
  forall k, k < Nat.min old new -> k < gf new -> nth_error b' k = nth_error b k.
Proof.
  intros b old new L S Sn. unfold realloc.
  destruct (Nat.eqb_spec (gf new) (gf old)) as [E|E].
  - exists b. repeat split; auto. congruence.
  - assert (Nat.min old new <= length b) as M by (rewrite L; pose proof (gf_ge old S); lia).
    unfold take. rewrite (proj2 (Nat.leb_le _ _) M).
    destruct (Nat.le_gt_cases (Nat.min old new) (gf new)) as [F|F].
    + destruct (copy_in_spec (firstn (Nat.min old new) b) (repeat None (gf new)) 0)
        as (b' & C & Lb & N).
      { rewrite firstn_length, repeat_length. lia. }
      exists b'. rewrite C. cbn. rewrite repeat_length in Lb. repeat split; auto.
      intros k Hk Hg. rewrite N. rewrite firstn_length, (Nat.min_l _ _ M).
      rewrite (proj2 (Nat.leb_le 0 k)) by lia. rewrite Nat.sub_0_r.
      replace (k <? 0 + Nat.min old new) with true by (symmetry; apply Nat.ltb_lt; lia).
      cbn. rewrite <- (firstn_skipn (Nat.min old new) b) at 2.
      rewrite nth_error_app1; [reflexivity|]. rewrite firstn_length. lia.
    + exfalso. pose proof (gf_ge new Sn). lia.
Qed.

(** ** Representation *)
Definition repb (b : @buf A) (l : list A) : Prop :=
  length b = gf (length l) /\ forall k, k < length l -> nth_error b k = Some (nth_error l k).
Definition rep (a : arr A) (l : list A) : Prop :=
  m_size a = length l /\ small (length l) /\
  match m_arr a with None => l = [] | Some b => repb b l end.

Lemma rep_empty : rep empty [].
Proof. repeat split; cbn; auto. unfold small. cbn. lia. Qed.

Lemma rep_content : forall a l, rep a l -> content a = map (fun x => Some (Some x)) l.
Proof.
  intros a l (Sz & _ & R). unfold content.
  apply nth_error_ext. intros k. rewrite !nth_error_map. rewrite Sz.
  destruct (Nat.lt_ge_cases k (length l)) as [Hk|Hk].
  - rewrite (nth_error_nth' _ 0) by (rewrite seq_length; lia).
    rewrite seq_nth by lia. cbn. unfold get. rewrite Sz, (proj2 (Nat.ltb_lt _ _) Hk).
    destruct (m_arr a) as [b|].
    + destruct R as [_ R]. unfold rd. rewrite R by lia.
      destruct (nth_error l k) eqn:E; [reflexivity|]. apply nth_error_None in E. lia.
    + subst. cbn in Hk. lia.
  - rewrite (proj2 (nth_error_None _ _)) by (rewrite seq_length; lia).
    rewrite (proj2 (nth_error_None l k)) by lia. reflexivity.
Qed.

(** Growing the buffer for [n >= size] elements. *)
Lemma realloc_rep : forall a l n, rep a l -> small n -> 0 < n ->
  exists b', realloc (m_arr a) (m_size a) n = Some (Some b') /\ length b' = gf n /\
  forall k, k < Nat.min (length l) n -> nth_error b' k = Some (nth_error l k).
Proof.
  intros a l n (Sz & Sm & R) Sn Hn. rewrite Sz. destruct (m_arr a) as [b|].
  - destruct R as [L R]. destruct (realloc_spec b (length l) n L Sm Sn) as (b' & E & L' & N).
    exists b'. repeat split; auto. intros k Hk. pose proof (gf_ge n Sn).
    rewrite N by lia. apply R. lia.
  - subst l. cbn [length] in *. unfold realloc. rewrite gf_0.
    pose proof (gf_ge n Sn). destruct (Nat.eqb_spec (gf n) 0); [lia|].
    cbn. exists (repeat None (gf n)). rewrite repeat_length. repeat split; auto. intros k Hk. lia.
Qed.

Ltac nths := rewrite ?nth_error_app_if, ?nth_error_firstn_if, ?nth_error_skipn_eq,
  ?nth_error_repeat_if, ?firstn_length, ?skipn_length, ?repeat_length, ?app_length, ?nth_error_removelast.

Lemma rep_set : forall a l i x, rep a l -> i < length l ->
  exists a', set a i x = Some a' /\ rep a' (firstn i l ++ x :: skipn (S i) l).
Proof.
  intros a l i x (Sz & Sm & R) Hi. unfold set. rewrite Sz, (proj2 (Nat.ltb_lt _ _) Hi).
  destruct (m_arr a) as [b|]; [|subst; cbn in Hi; lia].
  destruct R as [L R]. pose proof (gf_ge _ Sm). rewrite wr_some by lia. cbn [option_map].
  eexists. split; [reflexivity|].
  assert (length (firstn i l ++ x :: skipn (S i) l) = length l) as LL.
  { rewrite app_length. cbn [length]. rewrite firstn_length, skipn_length. lia. }
  repeat split; cbn [m_arr m_size]; rewrite ?LL, ?lset_length; auto.
  intros k Hk. rewrite nth_error_lset, nth_error_app_if, firstn_length, nth_error_firstn_if.
  natcases; subst; auto.
  - rewrite Nat.min_l by lia. rewrite Nat.sub_diag. reflexivity.
  - rewrite Nat.min_l by lia. replace (k - i) with (S (k - S i)) by lia. cbn [nth_error].
    rewrite nth_error_skipn_eq. rewrite R by lia. do 2 f_equal. lia.
Qed.

Lemma rep_push : forall a l x, rep a l -> small (S (length l)) ->
  exists a', push_back a x = Some a' /\ rep a' (l ++ [x]).
Proof.
  intros a l x H Sn. unfold push_back. pose proof H as (Sz & Sm & R).
  destruct (realloc_rep a l (S (length l)) H Sn ltac:(lia)) as (b' & E & L & N).
  rewrite Sz in *. rewrite E. cbn. pose proof (gf_ge _ Sn). rewrite wr_some by lia. cbn [option_map].
  eexists. split; [reflexivity|]. repeat split; cbn [m_arr m_size]; rewrite ?app_length; cbn [length].
  - lia.
  - now rewrite Nat.add_1_r.
  - rewrite lset_length, L. f_equal. lia.
  - intros k Hk. rewrite nth_error_lset, nth_error_app_if. natcases; subst; auto.
    + apply N. lia.
    + now rewrite Nat.sub_diag.
Qed.

Lemma rep_push_own : forall a l i x, rep a l -> small (S (length l)) ->
  gf (S (length l)) = gf (length l) -> nth_error l i = Some x ->
  exists a', push_back_own a i = Some a' /\ rep a' (l ++ [x]).
Proof.
  intros a l i x (Sz & Sm & R) Sn G E. unfold push_back_own. rewrite Sz.
  assert (i < length l) as Hi by (apply nth_error_Some; congruence).
  rewrite (proj2 (Nat.ltb_lt _ _) Hi), G, Nat.eqb_refl.
  destruct (m_arr a) as [b|]; [|subst; cbn in Hi; lia]. destruct R as [L R].
  unfold rd. rewrite R, E by lia. cbn. pose proof (gf_ge _ Sn). rewrite wr_some by lia. cbn [option_map].
  eexists. split; [reflexivity|]. repeat split; cbn [m_arr m_size]; rewrite ?app_length; cbn [length].
  - lia.
  - now rewrite Nat.add_1_r.
  - rewrite lset_length, L, Nat.add_1_r. lia.
  - intros k Hk. rewrite nth_error_lset, nth_error_app_if. natcases; subst; auto.
    now rewrite Nat.sub_diag.
Qed.

Lemma rep_pop : forall a l, rep a l -> l <> [] ->
  exists a', pop_back a = Some a' /\ rep a' (removelast l).
Proof.
  intros a l (Sz & Sm & R) Hne. unfold pop_back.
  destruct (m_arr a) as [b|]; [|congruence]. destruct R as [L R]. rewrite Sz.
  assert (0 < length l) as Hp by (destruct l; [congruence|cbn; lia]).
  rewrite (proj2 (Nat.ltb_lt _ _) Hp).
  assert (small (length l - 1)) as Sn by (unfold small in *; lia).
  destruct (realloc_spec b (length l) (length l - 1) L Sm Sn) as (b' & E & L' & N).
  rewrite E. cbn. eexists. split; [reflexivity|].
  repeat split; cbn [m_arr m_size]; rewrite ?removelast_len; auto.
  intros k Hk. pose proof (gf_ge _ Sn). rewrite N by lia. rewrite nth_error_removelast. natcases.
  apply R. lia.
Qed.

Lemma rep_resize : forall a l n c, rep a l -> small n ->
  exists a', resize a n c = Some a' /\ rep a' (firstn n l ++ repeat c (n - length l)).
Proof.
  intros a l n c H Sn. unfold resize. pose proof H as (Sz & Sm & R).
  destruct (Nat.ltb_spec 0 n) as [Hn|Hn].
  2:{ exists empty. split; [reflexivity|]. replace n with 0 by lia. cbn. apply rep_empty. }
  destruct (realloc_rep a l n H Sn Hn) as (b' & E & L & N). rewrite Sz in *. rewrite E.
  pose proof (gf_ge _ Sn).
  assert (length (firstn n l ++ repeat c (n - length l)) = n) as LL.
  { rewrite app_length, firstn_length, repeat_length. lia. }
  destruct (Nat.ltb_spec (length l) n) as [G|G]; cbn [with_buf].
  - unfold fill. destruct (copy_in_spec (repeat (Some c) (n - length l)) b' (length l)) as (b2 & C & L2 & N2).
    { rewrite repeat_length. lia. }
    rewrite C. cbn. eexists. split; [reflexivity|].
    repeat split; cbn [m_arr m_size]; rewrite ?LL; auto; [congruence|].
    intros k Hk. rewrite N2, nth_error_app_if, nth_error_firstn_if, firstn_length, !nth_error_repeat_if, repeat_length.
    rewrite Nat.min_r by lia. natcases; auto. apply N. lia.
  - eexists. split; [reflexivity|]. repeat split; cbn [m_arr m_size]; rewrite ?LL; auto.
    intros k Hk. rewrite nth_error_app_if, nth_error_firstn_if, firstn_length. natcases. apply N. lia.
Qed.

(** The common core of insert and (growing) replace: make room, then write. *)
Lemma rep_splice : forall b l d e xs m,
  d <= e -> e <= length l -> m = length l + length xs - (e - d) -> small m -> small (length l) ->
  length b = gf m ->
  (forall k, k < length l -> nth_error b k = Some (nth_error l k)) ->
  (length l - e = 0 \/ length l <= length b) ->
  exists b2 b3,
    (if length l - e =? 0 then Some b else copy b e (d + length xs) (length l - e)) = Some b2 /\
    copy_in b2 d (map Some xs) = Some b3 /\
    repb b3 (firstn d l ++ xs ++ skipn e l).
Proof.
  intros b l d e xs m Hd He Hm Sm Sl Lb R Hs.
  pose proof (gf_ge _ Sm) as G.
  destruct (copy_opt_spec (length l - e) b e (d + length xs)) as (b2 & C2 & L2 & N2).
  { destruct Hs as [Hs|Hs]; [left; lia|]. right. lia. }
  destruct (copy_in_spec (map Some xs) b2 d) as (b3 & C3 & L3 & N3).
  { rewrite map_length. lia. }
  exists b2, b3. split; [assumption|]. split; [assumption|]. split.
  - rewrite !app_length, firstn_length, skipn_length, L3, L2, Lb. f_equal. lia.
  - intros k Hk. rewrite !app_length, firstn_length, skipn_length in Hk.
    rewrite N3, N2, map_length, nth_error_map, !nth_error_app_if, nth_error_firstn_if,
      firstn_length, nth_error_skipn_eq.
    rewrite Nat.min_l in * by lia.
    natcases; auto; first
      [ rewrite R by lia; do 2 f_equal; lia
      | destruct (nth_error xs (k - d)) eqn:X; [reflexivity|]; apply nth_error_None in X; lia ].
Qed.

Lemma rep_insert_one : forall a l d x, rep a l -> small (S (length l)) -> d <= length l ->
  exists a', insert_one a d x = Some a' /\ rep a' (firstn d l ++ x :: skipn d l).
Proof.
  intros a l d x H Sn Hd. unfold insert_one. pose proof H as (Sz & Sm & R).
  rewrite Sz, (proj2 (Nat.leb_le _ _) Hd).
  destruct (m_arr a) as [b|] eqn:M.
  - rewrite <- M.
    destruct (realloc_rep a l (S (length l)) H Sn ltac:(lia)) as (b' & E & L & N).
    rewrite Sz in E. rewrite E. cbn [with_buf].
    destruct (rep_splice b' l d d [x] (S (length l))) as (b2 & b3 & C2 & C3 & R3); auto; cbn [length]; try lia.
    + intros k Hk. apply N. lia.
    + right. pose proof (gf_ge _ Sn). lia.
    + cbn [length] in C2. rewrite C2. cbn [length map copy_in] in C3.
      destruct (wr b2 d (Some x)) as [b4|] eqn:W; [|discriminate]. inversion C3; subst b4.
      cbn [option_map]. eexists. split; [reflexivity|].
      change (x :: skipn d l) with ([x] ++ skipn d l).
      repeat split; cbn [m_arr m_size]; try (apply R3).
      * rewrite !app_length, firstn_length, skipn_length. cbn [length]. lia.
      * rewrite !app_length, firstn_length, skipn_length. cbn [length].
        replace (Nat.min d (length l) + (1 + (length l - d))) with (S (length l)) by lia. exact Sn.
  - subst l. cbn in Hd. assert (d = 0) as -> by lia. cbn.
    eexists. split; [reflexivity|]. repeat split; cbn [m_arr m_size length]; auto.
    intros k Hk. assert (k = 0) as -> by lia. reflexivity.
Qed.

Lemma rep_insert_range : forall a l d xs, rep a l -> small (length l + length xs) -> d <= length l ->
  exists a', insert_range a d xs = Some a' /\ rep a' (firstn d l ++ xs ++ skipn d l).
Proof.
  intros a l d xs H Sn Hd. unfold insert_range. pose proof H as (Sz & Sm & R).
  rewrite Sz, (proj2 (Nat.leb_le _ _) Hd).
  destruct (Nat.ltb_spec 0 (length xs)) as [Hx|Hx].
  2:{ exists a. split; [reflexivity|]. destruct xs; [|cbn in Hx; lia]. cbn. now rewrite firstn_skipn. }
  destruct (m_arr a) as [b|] eqn:M.
  - rewrite <- M.
    destruct (realloc_rep a l (length l + length xs) H Sn ltac:(lia)) as (b' & E & L & N).
    rewrite Sz in E. rewrite E. cbn [with_buf].
    destruct (rep_splice b' l d d xs (length l + length xs)) as (b2 & b3 & C2 & C3 & R3); auto; try lia.
    + intros k Hk. apply N. lia.
    + right. pose proof (gf_ge _ Sn). lia.
    + rewrite C2, C3. cbn [option_map]. eexists. split; [reflexivity|].
      assert (length (firstn d l ++ xs ++ skipn d l) = length l + length xs) as LL.
      { rewrite !app_length, firstn_length, skipn_length. lia. }
      destruct R3 as [R3a R3b]. rewrite LL in R3a, R3b.
      repeat split; cbn [m_arr m_size]; rewrite ?LL; auto.
  - subst l. cbn in Hd. assert (d = 0) as -> by lia. cbn [with_buf firstn skipn app length Nat.add] in *.
    pose proof (gf_ge _ Sn).
    destruct (copy_in_spec (map Some xs) (@alloc A (length xs)) 0) as (b' & C & L & N).
    { rewrite map_length. unfold alloc. rewrite repeat_length. lia. }
    rewrite C. cbn [option_map]. eexists. split; [reflexivity|]. rewrite app_nil_r.
    repeat split; cbn [m_arr m_size]; auto.
    + rewrite L. unfold alloc. now rewrite repeat_length.
    + intros k Hk. rewrite N, map_length, nth_error_map, Nat.sub_0_r. natcases.
      destruct (nth_error xs k) eqn:X; [reflexivity|]. apply nth_error_None in X. lia.
Qed.

(** Exact effect of erase(d,e) for a non-empty range: [s] elements following
    the FIRST removed one are kept. *)
Lemma rep_erase_range : forall a l d e, rep a l -> d < e -> e <= length l ->
  exists a', erase_range a d e = Some a' /\
             rep a' (firstn d l ++ firstn (length l - e) (skipn (S d) l)).
Proof.
  intros a l d e (Sz & Sm & R) Hd He. unfold erase_range. rewrite Sz.
  rewrite (proj2 (Nat.leb_le _ _) (Nat.lt_le_incl _ _ Hd)), (proj2 (Nat.leb_le _ _) He). cbn [andb].
  assert (length (firstn d l ++ firstn (length l - e) (skipn (S d) l)) = length l - (e - d)) as LL.
  { rewrite app_length, !firstn_length, skipn_length. lia. }
  destruct (Nat.ltb_spec 0 (length l - (e - d))) as [Hm|Hm].
  - destruct (m_arr a) as [b|]; [|subst; cbn in He; lia]. destruct R as [L R].
    pose proof (gf_ge _ Sm) as G.
    destruct (copy_opt_spec (length l - e) b (d + 1) d) as (b2 & C2 & L2 & N2); [lia|].
    rewrite C2.
    assert (small (length l - (e - d))) as Sn by (unfold small in *; lia).
    destruct (realloc_spec b2 (length l - (e - d) + (e - d)) (length l - (e - d))) as (b3 & C3 & L3 & N3); auto.
    { rewrite L2, L. f_equal. lia. }
    { replace (length l - (e - d) + (e - d)) with (length l) by lia. exact Sm. }
    rewrite C3. cbn [option_map]. eexists. split; [reflexivity|].
    repeat split; cbn [m_arr m_size]; rewrite ?LL; auto.
    intros k Hk. pose proof (gf_ge _ Sn). rewrite N3, N2 by lia.
    rewrite nth_error_app_if, !nth_error_firstn_if, firstn_length, nth_error_skipn_eq.
    rewrite Nat.min_l by lia. natcases; rewrite R by lia; do 2 f_equal; lia.
  - eexists. split; [reflexivity|].
    assert (firstn d l ++ firstn (length l - e) (skipn (S d) l) = []) as ->
      by (apply length_zero_iff_nil; lia).
    apply rep_empty.
Qed.

(** erase(d,d): reads one cell past the last element; undefined when the
    buffer is full. *)
Lemma erase_empty_full : forall a l d, rep a l -> d < length l -> gf (length l) = length l ->
  erase_range a d d = None.
Proof.
  intros a l d (Sz & Sm & R) Hd G. unfold erase_range. rewrite Sz.
  rewrite (proj2 (Nat.leb_le d d)), (proj2 (Nat.leb_le d (length l))) by lia. cbn [andb].
  replace (length l - (d - d)) with (length l) by lia.
  rewrite (proj2 (Nat.ltb_lt 0 (length l))) by lia.
  destruct (m_arr a) as [b|]; [|subst; cbn in Hd; lia]. destruct R as [L R].
  destruct (Nat.eqb_spec (length l - d) 0); [lia|].
  assert (copy b (d + 1) d (length l - d) = None) as ->; [|reflexivity].
  unfold copy. destruct (Nat.ltb_spec (d + 1) d); [lia|].
  assert (forall n i o (b : @buf A), o <= i -> i + n = S (length b) -> 0 < n -> i <= length b ->
            copy_fwd b i o n = None) as F.
  { clear. induction n as [|n IH]; intros i o b H1 H2 H3 H4; [lia|]. cbn [copy_fwd].
    unfold rd. destruct (nth_error b i) as [x|] eqn:E; [|reflexivity].
    assert (i < length b) by (apply nth_error_Some; congruence).
    rewrite wr_some by lia. apply IH; rewrite ?lset_length; lia. }
  apply F; lia.
Qed.

Lemma rep_erase : forall a l d, rep a l -> d < length l ->
  exists a', erase a d = Some a' /\ rep a' (firstn d l ++ skipn (S d) l).
Proof.
  intros a l d H Hd. destruct (rep_erase_range a l d (S d) H) as (a' & E & R); [lia|lia|].
  exists a'. replace (firstn (length l - S d) (skipn (S d) l)) with (skipn (S d) l) in R.
  2:{ rewrite firstn_all2; [reflexivity|]. rewrite skipn_length. lia. }
  split; [|exact R]. rewrite <- E. destruct H as (Sz & _ & _).
  unfold erase, erase_range. rewrite Sz, (proj2 (Nat.ltb_lt _ _) Hd).
  rewrite (proj2 (Nat.leb_le d (S d))), (proj2 (Nat.leb_le (S d) (length l))) by lia. cbn [andb].
  replace (S d - d) with 1 by lia. replace (length l - 1 - d) with (length l - S d) by lia.
  replace (length l - 1 + 1) with (S (length l - 1)) by lia. reflexivity.
Qed.

(** replace: right unless the storage shrinks below a non-empty tail. *)
Definition replace_safe (len d e n : nat) : Prop :=
  len = e \/ gf (len + n - (e - d)) = gf len \/ e - d <= n.

Lemma rep_replace : forall a l d e xs, rep a l -> d <= e -> e <= length l ->
  small (length l + length xs - (e - d)) -> replace_safe (length l) d e (length xs) ->
  exists a', replace a d e xs = Some a' /\ rep a' (firstn d l ++ xs ++ skipn e l).
Proof.
  intros a l d e xs (Sz & Sm & R) Hd He Sn Safe. unfold replace. rewrite Sz.
  rewrite (proj2 (Nat.leb_le _ _) Hd), (proj2 (Nat.leb_le _ _) He). cbn [andb].
  assert (length (firstn d l ++ xs ++ skipn e l) = length l + length xs - (e - d)) as LL.
  { rewrite !app_length, firstn_length, skipn_length. lia. }
  pose proof (gf_ge _ Sm) as G. pose proof (gf_ge _ Sn) as Gn.
  destruct (m_arr a) as [b|].
  - destruct R as [L R]. destruct (Nat.eqb_spec (length xs) (e - d)) as [Q|Q].
    + cbn [with_buf].
      destruct (copy_in_spec (map Some xs) b d) as (b' & C & L' & N); [rewrite map_length; lia|].
      rewrite C. cbn [option_map]. eexists. split; [reflexivity|].
      repeat split; cbn [m_arr m_size]; rewrite ?LL; auto.
      * lia.
      * rewrite L', L. f_equal. lia.
      * intros k Hk. rewrite N, map_length, nth_error_map, !nth_error_app_if, nth_error_firstn_if,
          firstn_length, nth_error_skipn_eq. rewrite Nat.min_l by lia. natcases; auto; first
          [ rewrite R by lia; do 2 f_equal; lia
          | destruct (nth_error xs (k - d)) eqn:X; [reflexivity|]; apply nth_error_None in X; lia ].
    + set (m := length l + length xs - (e - d)) in *.
      destruct (realloc_spec b (length l) m L Sm Sn) as (b' & E & L' & N).
      rewrite E. cbn [with_buf].
      replace (d + (e - d)) with e by lia.
      (* either the old elements are all still there, or there is no tail *)
      assert (exists b2 b3, (if length l - e =? 0 then Some b' else copy b' e (d + length xs) (length l - e)) = Some b2
              /\ copy_in b2 d (map Some xs) = Some b3 /\ repb b3 (firstn d l ++ xs ++ skipn e l))
        as (b2 & b3 & C2 & C3 & R3).
      { destruct (Nat.le_gt_cases (length l) m) as [K|K].
        - apply rep_splice with (m := m); auto; try lia.
          intros k Hk. rewrite N by lia. apply R. lia.
        - destruct (Nat.eq_dec (gf m) (gf (length l))) as [Gq|Gq].
          + assert (b' = b) as ->.
            { unfold realloc in E. rewrite Gq, Nat.eqb_refl in E. congruence. }
            apply rep_splice with (m := m); auto; try lia.
          + assert (length l = e) as T.
            { destruct Safe as [T|[T|T]]; [exact T|contradiction|lia]. }
            rewrite T, Nat.sub_diag. cbn [Nat.eqb].
            destruct (copy_in_spec (map Some xs) b' d) as (b3 & C3 & L3 & N3); [rewrite map_length; lia|].
            exists b', b3. split; [reflexivity|]. split; [exact C3|]. split.
            * rewrite LL, L3, L'. reflexivity.
            * rewrite LL. intros k Hk. rewrite N3, map_length, nth_error_map, !nth_error_app_if,
                nth_error_firstn_if, firstn_length, nth_error_skipn_eq.
              rewrite Nat.min_l by lia. natcases; first
                [ rewrite N by lia; apply R; lia
                | destruct (nth_error xs (k - d)) eqn:X; [reflexivity|]; apply nth_error_None in X; lia ]. }
      rewrite C2, C3. cbn [option_map]. eexists. split; [reflexivity|].
      destruct R3 as [R3a R3b]. rewrite LL in R3a, R3b.
      repeat split; cbn [m_arr m_size]; rewrite ?LL; auto.
  - subst l. cbn [length] in *. assert (e = 0) as -> by lia. assert (d = 0) as -> by lia.
    cbn [with_buf firstn skipn app] in *. replace (0 + length xs - (0 - 0)) with (length xs) in * by lia.
    destruct (copy_in_spec (map Some xs) (@alloc A (length xs)) 0) as (b' & C & L & N).
    { rewrite map_length. unfold alloc. rewrite repeat_length. lia. }
    rewrite C. cbn [option_map]. eexists. split; [reflexivity|]. rewrite app_nil_r.
    repeat split; cbn [m_arr m_size]; auto.
    + rewrite L. unfold alloc. now rewrite repeat_length.
    + intros k Hk. rewrite N, map_length, nth_error_map, Nat.sub_0_r. natcases.
      destruct (nth_error xs k) eqn:X; [reflexivity|]. apply nth_error_None in X. lia.
Qed.

(** ... and when it shrinks below a non-empty tail, it always reads outside of
    the new buffer. *)
Lemma replace_unsafe : forall a l d e xs, rep a l -> d <= e -> e <= length l ->
  ~ replace_safe (length l) d e (length xs) -> replace a d e xs = None.
Proof.
  intros a l d e xs (Sz & Sm & R) Hd He U. unfold replace_safe in U. unfold replace. rewrite Sz.
  rewrite (proj2 (Nat.leb_le _ _) Hd), (proj2 (Nat.leb_le _ _) He). cbn [andb].
  destruct (m_arr a) as [b|]; [|subst; cbn in *; lia]. destruct R as [L R].
  destruct (Nat.eqb_spec (length xs) (e - d)); [lia|].
  set (m := length l + length xs - (e - d)) in *.
  assert (m < length l) as K by (unfold m; lia).
  assert (small m) as Sn by (unfold small in *; lia).
  destruct (realloc_spec b (length l) m L Sm Sn) as (b' & E & L' & N).
  rewrite E. cbn [with_buf]. destruct (Nat.eqb_spec (length l - e) 0); [lia|].
  assert (gf m < length l) as G by (apply gf_lt; auto; intros Q; apply U; auto).
  replace (d + (e - d)) with e by lia.
  assert (copy b' e (d + length xs) (length l - e) = None) as ->; [|reflexivity].
  unfold copy. destruct (Nat.ltb_spec e (d + length xs)); [lia|].
  assert (forall n i o (b : @buf A), o <= i -> length b < i + n -> copy_fwd b i o n = None \/ n = 0) as F.
  { clear. induction n as [|n IH]; intros i o b H1 H2; [auto|]. left. cbn [copy_fwd].
    unfold rd. destruct (nth_error b i) as [x|] eqn:X; [|reflexivity].
    assert (i < length b) by (apply nth_error_Some; congruence).
    rewrite wr_some by lia. destruct (IH (S i) (S o) (lset b o x)) as [Q|Q]; rewrite ?lset_length; try lia; auto. }
  destruct (F (length l - e) e (d + length xs) b'); [lia|lia|assumption|lia].
Qed.

Lemma rep_assign : forall a l xs, rep a l -> small (length xs) ->
  exists a', assign a xs = Some a' /\ rep a' xs.
Proof.
  intros a l xs H Sn. unfold assign. pose proof H as (Sz & Sm & _). rewrite Sz.
  destruct (rep_replace a l 0 (length l) xs) as (a' & E & R); auto; try lia.
  - replace (length l + length xs - (length l - 0)) with (length xs) by lia. exact Sn.
  - left. reflexivity.
  - exists a'. split; [exact E|]. rewrite skipn_all, app_nil_r in R. exact R.
Qed.

Lemma rep_take : forall b l, repb b l -> small (length l) ->
  take b (length l) = Some (map Some l).
Proof.
  intros b l [L R] Sm. pose proof (gf_ge _ Sm). unfold take.
  rewrite (proj2 (Nat.leb_le _ _)) by lia. f_equal. apply nth_error_ext. intros k.
  rewrite nth_error_firstn_if, nth_error_map. destruct (Nat.ltb_spec k (length l)).
  - rewrite R by assumption. destruct (nth_error l k) eqn:X; [reflexivity|].
    apply nth_error_None in X. lia.
  - rewrite (proj2 (nth_error_None l k)) by lia. reflexivity.
Qed.

Lemma rep_fresh : forall l, small (length l) ->
  exists b, copy_in (alloc (length l)) 0 (map Some l) = Some b /\ repb b l.
Proof.
  intros xs Sn. pose proof (gf_ge _ Sn).
  destruct (copy_in_spec (map Some xs) (@alloc A (length xs)) 0) as (b' & C & L & N).
  { rewrite map_length. unfold alloc. rewrite repeat_length. lia. }
  exists b'. split; [exact C|]. split.
  - rewrite L. unfold alloc. now rewrite repeat_length.
  - intros k Hk. rewrite N, map_length, nth_error_map, Nat.sub_0_r. natcases.
    destruct (nth_error xs k) eqn:X; [reflexivity|]. apply nth_error_None in X. lia.
Qed.

Lemma rep_make_range : forall l, small (length l) ->
  exists a, make_range l = Some a /\ rep a l.
Proof.
  intros l Sm. unfold make_range. destruct (rep_fresh l Sm) as (b & -> & R).
  cbn. eexists. split; [reflexivity|]. repeat split; auto; apply R.
Qed.
Lemma rep_make : forall n c, small n -> exists a, make n c = Some a /\ rep a (repeat c n).
Proof.
  intros n c Sm. destruct (rep_fresh (repeat c n)) as (b & C & R); [now rewrite repeat_length|].
  rewrite repeat_length in C. unfold make, fill.
  replace (repeat (Some c) n) with (map Some (repeat c n)) by (clear; induction n; cbn; congruence).
  rewrite C. cbn. eexists. split; [reflexivity|].
  repeat split; cbn [m_arr m_size]; rewrite ?repeat_length; auto.
  - destruct R as [R _]. rewrite repeat_length in R. exact R.
  - destruct R as [_ R]. rewrite repeat_length in R. exact R.
Qed.
Lemma rep_copy : forall a l, rep a l -> exists a', copy_ctor a = Some a' /\ rep a' l.
Proof.
  intros a l (Sz & Sm & R). unfold copy_ctor. rewrite Sz.
  destruct (Nat.eqb_spec (length l) 0) as [Z|Z].
  - apply length_zero_iff_nil in Z. subst l. exists empty. split; [reflexivity|apply rep_empty].
  - destruct (m_arr a) as [b|]; [|subst; cbn in Z; lia].
    rewrite (rep_take b l R Sm). destruct (rep_fresh l Sm) as (b' & -> & R').
    cbn. eexists. split; [reflexivity|]. repeat split; auto; apply R'.
Qed.
Lemma rep_assign_op : forall a l other lo, rep a l -> rep other lo ->
  exists a', assign_op a other = Some a' /\ rep a' lo.
Proof.
  intros a l other lo H (Sz & Sm & R). unfold assign_op.
  destruct (m_arr other) as [b|].
  - rewrite Sz, (rep_take b lo R Sm). destruct (rep_fresh lo Sm) as (b' & -> & R').
    cbn. eexists. split; [reflexivity|]. repeat split; auto; apply R'.
  - subst lo. destruct H as (Sz' & _ & R'). destruct (m_arr a) as [b|] eqn:M.
    + exists empty. split; [reflexivity|apply rep_empty].
    + exists a. split; [reflexivity|]. subst l. unfold rep. rewrite M. repeat split; auto.
Qed.

(** ** Histories *)
Lemma rep_run : forall ops a l l', rep a l -> fits l ops -> spec_run l ops = Some l' ->
  exists a', run a ops = Some a' /\ rep a' l'.
Proof.
  induction ops as [|o r IH]; intros a l l' H F E; cbn [run spec_run fits] in *.
  - inversion E; subst. eauto.
  - destruct F as (_ & FO & FS). destruct (spec_step l o) as [l1|] eqn:S1; [|discriminate].
    assert (small (length l1)) as Sm1 by (destruct r; apply FS).
    assert (exists a1, step a o = Some a1 /\ rep a1 l1) as (a1 & A1 & R1).
    { destruct o; cbn [spec_step] in S1; cbn [step].
      - inversion S1; subst. apply rep_push; auto. rewrite app_length, Nat.add_1_r in Sm1. exact Sm1.
      - destruct (nth_error l i) as [x|] eqn:X; [|discriminate]. inversion S1; subst.
        eapply rep_push_own; eauto. rewrite app_length, Nat.add_1_r in Sm1. exact Sm1.
      - destruct l as [|x0 l0]; [discriminate|]. injection S1 as S1. rewrite <- S1. apply (rep_pop a (x0 :: l0)); auto. discriminate.
      - inversion S1; subst. apply rep_resize; auto.
        rewrite app_length, firstn_length, repeat_length in Sm1. unfold small in *. lia.
      - inversion S1; subst. exists empty. split; [reflexivity|apply rep_empty].
      - destruct (Nat.ltb_spec i (length l)); [|discriminate]. inversion S1; subst. now apply rep_set.
      - destruct (Nat.leb_spec d (length l)); [|discriminate]. inversion S1; subst. apply rep_insert_one; auto.
        rewrite app_length in Sm1. cbn [length] in Sm1. rewrite firstn_length, skipn_length in Sm1.
        unfold small in *. lia.
      - destruct (Nat.leb_spec d (length l)); [|discriminate]. inversion S1; subst. apply rep_insert_range; auto.
        rewrite !app_length, firstn_length, skipn_length in Sm1. unfold small in *. lia.
      - destruct (Nat.leb_spec d (length l)); [|discriminate]. inversion S1; subst. apply rep_insert_range; auto.
        rewrite !app_length, firstn_length, skipn_length in Sm1. unfold small in *. lia.
      - destruct (Nat.ltb_spec d (length l)); [|discriminate]. inversion S1; subst. now apply rep_erase.
      - inversion S1; subst. eapply rep_assign; eauto. }
    rewrite A1. eapply IH; eauto.
Qed.
End Buffers.
