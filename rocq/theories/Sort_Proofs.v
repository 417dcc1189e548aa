(** Proofs about the radix sorts. *)
From Coq Require Import ZArith List Bool Lia Arith Permutation Sorted.
From Verif Require Import Util Sort_Model.
Import ListNotations.
Open Scope Z_scope.

Section Radix.
Variable key : Z -> nat.

Definition sel (k : nat) (l : list Z) : list Z := filter (fun x => (key x =? k)%nat) l.
Definition cnt (k : nat) (l : list Z) : nat := length (sel k l).
Definition below (k : nat) (l : list Z) : nat :=
  length (filter (fun x => (key x <? k)%nat) l).

Lemma cnt_cons : forall k x l, cnt k (x :: l) = ((if (key x =? k)%nat then 1 else 0) + cnt k l)%nat.
Proof. intros. unfold cnt, sel. cbn [filter]. destruct (key x =? k)%nat; reflexivity. Qed.
Lemma below_cons : forall k x l, below k (x :: l) = ((if (key x <? k)%nat then 1 else 0) + below k l)%nat.
Proof. intros. unfold below. cbn [filter]. destruct (key x <? k)%nat; reflexivity. Qed.

Lemma cnt_app : forall k a b, cnt k (a ++ b) = (cnt k a + cnt k b)%nat.
Proof.
  intros k a b. induction a as [|x a IH]; [reflexivity|].
  cbn [app]. rewrite !cnt_cons, IH. lia.
Qed.

Lemma below_S : forall k l, below (S k) l = (below k l + cnt k l)%nat.
Proof.
  intros k l. induction l as [|x l IH]; [reflexivity|].
  rewrite !below_cons, cnt_cons, IH.
  destruct (Nat.ltb_spec (key x) (S k)), (Nat.ltb_spec (key x) k), (Nat.eqb_spec (key x) k);
    lia.
Qed.

Lemma below_0 : forall l, below 0 l = 0%nat.
Proof. induction l as [|x l IH]; [reflexivity|]. rewrite below_cons, IH. reflexivity. Qed.

Lemma below_mono : forall l a b, (a <= b)%nat -> (below a l <= below b l)%nat.
Proof.
  intros l a b H. induction H as [|b H IH]; [lia|]. rewrite below_S. lia.
Qed.

Lemma below_all : forall l k, (forall x, In x l -> (key x < k)%nat) -> below k l = length l.
Proof.
  induction l as [|x l IH]; intros k H; [reflexivity|].
  rewrite below_cons, IH by (intros; apply H; now right).
  destruct (Nat.ltb_spec (key x) k); [reflexivity|].
  specialize (H x (or_introl eq_refl)). lia.
Qed.

Lemma cnt_le : forall k l, (cnt k l <= length l)%nat.
Proof.
  intros k l. induction l as [|x l IH]; [reflexivity|].
  rewrite cnt_cons. cbn [length]. destruct (key x =? k)%nat; lia.
Qed.

Hypothesis key_lt : forall x, (key x < kHist)%nat.

Lemma hist_ok : forall l, Z.of_nat (length l) < 2 ^ 32 ->
  length (hist key l) = kHist /\
  forall k, (k < kHist)%nat -> nth k (hist key l) 0 = Z.of_nat (cnt k l).
Proof.
  intros l Hl. unfold hist.
  assert (G : forall l b (f : nat -> nat), length b = kHist ->
    (forall k, (k < kHist)%nat -> nth k b 0 = Z.of_nat (f k)) ->
    (forall k, (k < kHist)%nat -> Z.of_nat (f k + cnt k l) < 2 ^ 32) ->
    let r := fold_left (fun b x => lset b (key x) (u32 (nth (key x) b 0 + 1))) l b in
    length r = kHist /\
    forall k, (k < kHist)%nat -> nth k r 0 = Z.of_nat (f k + cnt k l)).
  { clear l Hl. induction l as [|x l IH]; intros b f Hb Hf Hlim.
    - cbn [fold_left]. split; auto. intros k Hk. unfold cnt, sel. cbn [filter length].
      rewrite Nat.add_0_r. auto.
    - cbn [fold_left].
      destruct (IH (lset b (key x) (u32 (nth (key x) b 0 + 1)))
        (fun k => (f k + (if (key x =? k)%nat then 1 else 0))%nat)) as [H1 H2].
      + now rewrite lset_length.
      + intros k Hk. rewrite nth_lset, Hb.
        specialize (Hlim k Hk). rewrite cnt_cons in Hlim.
        destruct (Nat.eqb_spec (key x) k) as [E|]; cbn [andb].
        * rewrite <- E in *. destruct (Nat.ltb_spec (key x) kHist); [|lia]. rewrite Hf by auto.
          unfold u32. rewrite Z.mod_small; lia.
        * rewrite Hf by auto. lia.
      + intros k Hk. specialize (Hlim k Hk). rewrite cnt_cons in Hlim. lia.
      + split; [exact H1|]. intros k Hk. rewrite H2 by auto. rewrite cnt_cons. lia. }
  destruct (G l (repeat 0 kHist) (fun _ => 0%nat)) as [H1 H2]; auto.
  - intros k Hk. rewrite nth_repeat. reflexivity.
  - intros k Hk. pose proof (cnt_le k l). lia.
Qed.

Lemma starts_length : forall b s, length (starts b s) = length b.
Proof. induction b as [|c b IH]; intros s; [reflexivity|]. cbn. now rewrite IH. Qed.

Lemma starts_ok : forall b s k, (k < length b)%nat ->
  nth k (starts b s) 0 = u32 (s + fold_right Z.add 0 (firstn k b) - 1).
Proof.
  induction b as [|c b IH]; intros s [|k] Hk; cbn [length] in Hk; try lia.
  - cbn. f_equal. lia.
  - cbn [starts nth firstn fold_right]. rewrite IH by lia. unfold u32.
    rewrite <- (Zminus_mod_idemp_l (_ + _)).
    rewrite Zplus_mod_idemp_l. rewrite Zminus_mod_idemp_l. f_equal. lia.
Qed.

Lemma hist_prefix : forall l k, Z.of_nat (length l) < 2 ^ 32 -> (k <= kHist)%nat ->
  fold_right Z.add 0 (firstn k (hist key l)) = Z.of_nat (below k l).
Proof.
  intros l k Hl. destruct (hist_ok l Hl) as [H1 H2].
  set (h := hist key l) in *. clearbody h.
  induction k as [|k IH]; intros Hk; [now rewrite below_0|].
  rewrite below_S.
  assert (E : firstn (S k) h = firstn k h ++ [nth k h 0]).
  { clear - Hk H1. revert h H1 Hk. generalize kHist as n. induction k as [|k IH];
      intros n [|x h] H1 Hk; cbn [length] in H1; try lia; [reflexivity|].
    cbn [firstn nth app]. f_equal. destruct n; [lia|]. apply (IH n); lia. }
  rewrite E, fold_right_app. cbn [fold_right].
  assert (F : forall l a, fold_right Z.add a l = fold_right Z.add 0 l + a).
  { clear. induction l as [|x l IH]; intros a; [reflexivity|]. cbn [fold_right].
    rewrite IH. lia. }
  rewrite F, IH, H2 by lia. lia.
Qed.

(** what a pass must produce *)
Definition buckets (l : list Z) : list Z := flat_map (fun k => sel k l) (seq 0 kHist).

Definition step (db : list Z * list Z) (x : Z) : list Z * list Z :=
  let c := u32 (nth (key x) (snd db) 0 + 1) in
  (lset (fst db) (Z.to_nat c) x, lset (snd db) (key x) c).

Lemma cnt_rest : forall k p x s, key x = k -> (cnt k p < cnt k (p ++ x :: s))%nat.
Proof.
  intros k p x s H. rewrite cnt_app, cnt_cons. subst k. rewrite Nat.eqb_refl. lia.
Qed.

Lemma below_cnt_le : forall k l, (k < kHist)%nat -> (below k l + cnt k l <= length l)%nat.
Proof.
  intros k l Hk. rewrite <- below_S.
  rewrite <- (below_all l kHist) by (intros; apply key_lt). apply below_mono. lia.
Qed.

Lemma sel_snoc : forall k p x,
  sel k (p ++ [x]) = if (key x =? k)%nat then sel k p ++ [x] else sel k p.
Proof.
  intros. unfold sel. rewrite filter_app. cbn [filter].
  destruct (key x =? k)%nat; [reflexivity|apply app_nil_r].
Qed.

Lemma scatter_inv : forall src s p d b,
  src = p ++ s -> Z.of_nat (length src) < 2 ^ 32 ->
  length d = length src -> length b = kHist ->
  (forall k, (k < kHist)%nat ->
     nth k b 0 = u32 (Z.of_nat (below k src) + Z.of_nat (cnt k p) - 1)) ->
  (forall k j, (k < kHist)%nat -> (j < cnt k p)%nat ->
     nth_error d (below k src + j) = nth_error (sel k p) j) ->
  let r := fst (fold_left step s (d, b)) in
  length r = length src /\
  forall k j, (k < kHist)%nat -> (j < cnt k src)%nat ->
     nth_error r (below k src + j) = nth_error (sel k src) j.
Proof.
  intros src s. induction s as [|x s IH]; intros p d b Es Hn Hd Hb Hcb Hdd.
  - cbn [fold_left fst]. rewrite app_nil_r in Es. subst p. auto.
  - cbn [fold_left].
    pose proof (key_lt x) as Hkx.
    assert (Hlt : (cnt (key x) p < cnt (key x) src)%nat).
    { rewrite Es. now apply cnt_rest. }
    pose proof (below_cnt_le (key x) src Hkx) as Hbc.
    assert (Hc : u32 (nth (key x) b 0 + 1) =
                 Z.of_nat (below (key x) src + cnt (key x) p)).
    { rewrite Hcb by auto. unfold u32. rewrite Zplus_mod_idemp_l.
      replace (_ + 1) with (Z.of_nat (below (key x) src + cnt (key x) p)) by lia.
      apply Z.mod_small. lia. }
    set (pos := (below (key x) src + cnt (key x) p)%nat) in *.
    assert (Est : step (d, b) x = (lset d pos x, lset b (key x) (Z.of_nat pos))).
    { unfold step. cbn [fst snd]. rewrite Hc, Nat2Z.id. reflexivity. }
    rewrite Est.
    apply (IH (p ++ [x])).
    + rewrite <- app_assoc. exact Es.
    + exact Hn.
    + now rewrite lset_length.
    + now rewrite lset_length.
    + intros k Hk. rewrite nth_lset, Hb, cnt_app, cnt_cons.
      destruct (Nat.eqb_spec (key x) k) as [<-|Hne]; cbn [andb].
      * destruct (Nat.ltb_spec (key x) kHist); [|lia].
        change (cnt (key x) []) with 0%nat. unfold u32.
        rewrite Z.mod_small; unfold pos; lia.
      * change (cnt k []) with 0%nat. rewrite Hcb by auto. f_equal. lia.
    + intros k j Hk Hj. rewrite nth_error_lset, sel_snoc.
      rewrite cnt_app, cnt_cons in Hj. change (cnt k []) with 0%nat in Hj.
      destruct (Nat.eqb_spec pos (below k src + j)) as [E|E]; cbn [andb].
      * (* the written position *)
        destruct (Nat.ltb_spec (below k src + j) (length d)); [|unfold pos in E; lia].
        destruct (Nat.eqb_spec (key x) k) as [<-|Hne].
        -- assert (j = cnt (key x) p) by (unfold pos in E; lia). subst j.
           unfold cnt. rewrite nth_error_app2, Nat.sub_diag by auto. reflexivity.
        -- exfalso.
           assert (Hj' : (j < cnt k src)%nat).
           { rewrite Es, cnt_app. lia. }
           destruct (Nat.lt_ge_cases (key x) k).
           ++ pose proof (below_mono src (S (key x)) k ltac:(lia)) as M.
              rewrite below_S in M. unfold pos in E. lia.
           ++ pose proof (below_mono src (S k) (key x) ltac:(lia)) as M.
              rewrite below_S in M. unfold pos in E. lia.
      * destruct (Nat.eqb_spec (key x) k) as [<-|Hne].
        -- assert (j <> cnt (key x) p) by (unfold pos in E; lia).
           rewrite Hdd by lia. rewrite nth_error_app1; [reflexivity|].
           fold (cnt (key x) p). lia.
        -- apply Hdd; lia.
Qed.

Lemma nth_error_skipn' : forall A (l : list A) n i, nth_error (skipn n l) i = nth_error l (n + i).
Proof. intros. symmetry. apply nth_error_skipn_eq || (symmetry; apply nth_error_skipn_eq). Qed.

Lemma segments : forall src d, length d = length src ->
  (forall k j, (k < kHist)%nat -> (j < cnt k src)%nat ->
     nth_error d (below k src + j) = nth_error (sel k src) j) ->
  forall K, (K <= kHist)%nat ->
  firstn (below K src) d = flat_map (fun k => sel k src) (seq 0 K).
Proof.
  intros src d Hd H K. induction K as [|K IH]; intros HK.
  - now rewrite below_0.
  - rewrite seq_S, flat_map_app. cbn [flat_map]. rewrite app_nil_r, Nat.add_0_l.
    rewrite <- IH by lia. rewrite below_S.
    apply nth_error_ext. intros i.
    pose proof (below_cnt_le K src ltac:(lia)) as Hbc.
    rewrite nth_error_firstn_if.
    rewrite nth_error_app_if, firstn_length, Nat.min_l by lia.
    rewrite nth_error_firstn_if.
    destruct (Nat.ltb_spec i (below K src + cnt K src)),
             (Nat.ltb_spec i (below K src)); try lia; auto.
    + rewrite <- H by (auto; lia). f_equal. lia.
    + symmetry. apply nth_error_None. fold (cnt K src). lia.
Qed.

Lemma scatter_buckets : forall h0 src dst,
  Z.of_nat (length src) < 2 ^ 32 -> length dst = length src ->
  Permutation h0 src ->
  scatter key src dst (starts (hist key h0) 0) = buckets src.
Proof.
  intros h0 src dst Hn Hd Hp. unfold scatter.
  assert (Hn0 : Z.of_nat (length h0) < 2 ^ 32) by now rewrite (Permutation_length Hp).
  destruct (hist_ok h0 Hn0) as [Hh _].
  assert (Hbel : forall k, below k h0 = below k src).
  { intros k. unfold below. clear - Hp. induction Hp; auto.
    - cbn [filter]. destruct (key x <? k)%nat; cbn [length]; congruence.
    - cbn [filter]. destruct (key y <? k)%nat, (key x <? k)%nat; reflexivity.
    - congruence. }
  destruct (scatter_inv src src [] dst (starts (hist key h0) 0)) as [H1 H2]; auto.
  - now rewrite starts_length.
  - intros k Hk. rewrite starts_ok by lia. rewrite hist_prefix by (auto; lia).
    rewrite Hbel. f_equal. change (cnt k []) with 0%nat. lia.
  - intros k j Hk Hj. change (cnt k []) with 0%nat in Hj. lia.
  - set (r := fst (fold_left step src (dst, starts (hist key h0) 0))) in *.
    change (r = buckets src).
    pose proof (segments src r H1 H2 kHist ltac:(lia)) as G.
    rewrite below_all in G by (intros; apply key_lt).
    rewrite firstn_all2 in G by lia. exact G.
Qed.

Lemma buckets_cons : forall x l K, (K <= kHist)%nat ->
  Permutation (flat_map (fun k => sel k (x :: l)) (seq 0 K))
    ((if (key x <? K)%nat then [x] else []) ++ flat_map (fun k => sel k l) (seq 0 K)).
Proof.
  intros x l K. induction K as [|K IH]; intros HK; [reflexivity|].
  rewrite seq_S, !flat_map_app. cbn [flat_map]. rewrite !app_nil_r, !Nat.add_0_l.
  specialize (IH ltac:(lia)). unfold sel at 2. cbn [filter]. fold (sel K l).
  destruct (Nat.eqb_spec (key x) K) as [E|E].
  - destruct (Nat.ltb_spec (key x) (S K)), (Nat.ltb_spec (key x) K); try lia.
    cbn [app] in IH |- *. fold (sel K l). symmetry. apply Permutation_cons_app.
    apply Permutation_app; [symmetry; exact IH|reflexivity].
  - destruct (Nat.ltb_spec (key x) (S K)), (Nat.ltb_spec (key x) K); try lia;
    fold (sel K l); rewrite app_assoc; apply Permutation_app; auto.
Qed.

Lemma buckets_perm : forall l, Permutation l (buckets l).
Proof.
  induction l as [|x l IH].
  - unfold buckets. induction (seq 0 kHist); [constructor|]. cbn. assumption.
  - unfold buckets. rewrite (buckets_cons x l kHist) by lia.
    destruct (Nat.ltb_spec (key x) kHist); [|specialize (key_lt x); lia].
    cbn [app]. constructor. exact IH.
Qed.

(** stability: buckets of a list sorted by [R] are sorted by key, then [R] *)
Lemma filter_sorted : forall (R : Z -> Z -> Prop) f l,
  StronglySorted R l -> StronglySorted R (filter f l).
Proof.
  intros R f l H. induction H as [|x l H IH Hx]; [constructor|].
  cbn [filter]. destruct (f x); auto. constructor; auto.
  rewrite Forall_forall in *. intros y Hy. apply filter_In in Hy. apply Hx, Hy.
Qed.

Lemma app_sorted : forall (R : Z -> Z -> Prop) a b,
  StronglySorted R a -> StronglySorted R b ->
  (forall x y, In x a -> In y b -> R x y) -> StronglySorted R (a ++ b).
Proof.
  intros R a b Ha Hb H. induction Ha as [|x a Ha IH Hx]; [exact Hb|].
  cbn [app]. constructor.
  - apply IH. intros; apply H; auto. now right.
  - apply Forall_app. split; auto. apply Forall_forall. intros y Hy.
    apply H; auto. now left.
Qed.

Lemma sorted_impl_in : forall (R Q : Z -> Z -> Prop) l,
  StronglySorted R l -> (forall x y, In x l -> In y l -> R x y -> Q x y) ->
  StronglySorted Q l.
Proof.
  intros R Q l H. induction H as [|x l H IH Hx]; intros HQ; constructor.
  - apply IH. intros; apply HQ; auto; now right.
  - rewrite Forall_forall in *. intros y Hy. apply HQ; auto; [now left|now right].
Qed.

Definition by_key (R : Z -> Z -> Prop) (x y : Z) : Prop :=
  (key x < key y)%nat \/ (key x = key y /\ R x y).

Lemma buckets_sorted : forall R l, StronglySorted R l ->
  StronglySorted (by_key R) (buckets l).
Proof.
  intros R l H. unfold buckets.
  assert (G : forall K, StronglySorted (by_key R) (flat_map (fun k => sel k l) (seq 0 K)) /\
    forall x, In x (flat_map (fun k => sel k l) (seq 0 K)) -> (key x < K)%nat).
  { induction K as [|K [IH1 IH2]]; [split; [constructor|intros x []]|].
    rewrite seq_S, flat_map_app. cbn [flat_map]. rewrite app_nil_r, Nat.add_0_l.
    assert (Hs : forall x, In x (sel K l) -> key x = K).
    { intros x Hx. apply filter_In in Hx. now apply Nat.eqb_eq. }
    split.
    - apply app_sorted; auto.
      + apply (sorted_impl_in R); [now apply filter_sorted|].
        intros x y Hx Hy Hr. right. rewrite (Hs x), (Hs y) by auto. auto.
      + intros x y Hx Hy. left. rewrite (Hs y) by auto. auto.
    - intros x Hx. apply in_app_iff in Hx. destruct Hx as [Hx|Hx].
      + specialize (IH2 x Hx). lia.
      + rewrite (Hs x) by auto. lia. }
  apply G.
Qed.

End Radix.

(** all the passes *)
Section Passes.
Variable val : Z -> Z.   (** the number whose bytes are the keys *)
Variable w : nat.
Hypothesis val_range : forall x, 0 <= val x < 256 ^ Z.of_nat w.

Definition dig (i : nat) (x : Z) : nat := byte_at false w i (val x).

Lemma dig_lt : forall i x, (dig i x < kHist)%nat.
Proof using Type.
  clear val_range. intros. unfold dig, byte_at, kHist.
  pose proof (Z.mod_pos_bound (val x / 256 ^ Z.of_nat i) 256). lia.
Qed.

Definition low (i : nat) (x : Z) : Z := val x mod 256 ^ Z.of_nat i.

Lemma low_S : forall i x, low (S i) x = Z.of_nat (dig i x) * 256 ^ Z.of_nat i + low i x.
Proof.
  intros i x. unfold low, dig, byte_at.
  rewrite Nat2Z.inj_succ, Z.pow_succ_r by lia.
  rewrite Z.mul_comm.
  assert (0 < 256 ^ Z.of_nat i) by (apply Z.pow_pos_nonneg; lia).
  rewrite Z.rem_mul_r by lia.
  rewrite Z2Nat.id by (apply Z.mod_pos_bound; lia). lia.
Qed.

Definition le_low (i : nat) (x y : Z) : Prop := low i x <= low i y.

Lemma by_key_low : forall i x y, by_key (dig i) (le_low i) x y -> le_low (S i) x y.
Proof.
  intros i x y H. unfold le_low in *. rewrite !low_S.
  assert (Hp : 0 < 256 ^ Z.of_nat i) by (apply Z.pow_pos_nonneg; lia).
  assert (Hx : 0 <= low i x < 256 ^ Z.of_nat i) by (apply Z.mod_pos_bound; lia).
  assert (Hy : 0 <= low i y < 256 ^ Z.of_nat i) by (apply Z.mod_pos_bound; lia).
  destruct H as [H|[-> H]]; [|unfold le_low in H; lia].
  apply inj_lt in H. set (a := Z.of_nat (dig i x)) in *. set (b := Z.of_nat (dig i y)) in *.
  clearbody a b. nia.
Qed.

Lemma passes_sorted : forall h0 n i src dst,
  Z.of_nat (length src) < 2 ^ 32 -> length dst = length src ->
  Permutation h0 src -> StronglySorted (le_low i) src ->
  Permutation h0 (passes dig h0 i n src dst) /\
  StronglySorted (le_low (i + n)) (passes dig h0 i n src dst).
Proof.
  intros h0 n. induction n as [|n IH]; intros i src dst Hn Hd Hp Hs; cbn [passes].
  - rewrite Nat.add_0_r. auto.
  - rewrite (scatter_buckets (dig i) (dig_lt i) h0 src dst) by auto.
    pose proof (buckets_perm (dig i) (dig_lt i) src) as Hb.
    replace (i + S n)%nat with (S i + n)%nat by lia.
    apply IH.
    + now rewrite <- (Permutation_length Hb).
    + now apply Permutation_length.
    + now rewrite <- Hb.
    + apply (sorted_impl_in (by_key (dig i) (le_low i))).
      * apply buckets_sorted; auto using dig_lt.
      * intros. now apply by_key_low.
Qed.

Lemma radix_sorts : forall h tmp,
  Z.of_nat (length h) < 2 ^ 32 -> length tmp = length h ->
  Permutation h (passes dig h 0 w h tmp) /\
  StronglySorted (fun x y => val x <= val y) (passes dig h 0 w h tmp).
Proof.
  intros h tmp Hn Ht.
  assert (H0 : StronglySorted (le_low 0) h).
  { induction h as [|x h IH]; constructor.
    - clear - h. induction h as [|y h IH]; constructor; auto.
      apply Forall_forall. intros z _. unfold le_low, low. cbn. rewrite !Z.mod_1_r. lia.
    - apply Forall_forall. intros z _. unfold le_low, low. cbn. rewrite !Z.mod_1_r. lia. }
  destruct (passes_sorted h w 0 h tmp Hn Ht (Permutation_refl h) H0) as [H1 H2].
  split; [exact H1|]. rewrite Nat.add_0_l in H2.
  apply (sorted_impl_in (le_low w)); auto.
  intros x y _ _ H. unfold le_low, low in H. now rewrite !Z.mod_small in H by auto.
Qed.
End Passes.

(** stability *)
Lemma flat_map_filter : forall (f : nat -> list Z) p ks,
  filter p (flat_map f ks) = flat_map (fun k => filter p (f k)) ks.
Proof.
  intros f p ks. induction ks as [|k ks IH]; [reflexivity|].
  cbn [flat_map]. rewrite filter_app, IH. reflexivity.
Qed.

Lemma filter_none : forall (p : Z -> bool) l, (forall x, In x l -> p x = false) -> filter p l = [].
Proof.
  intros p l H. induction l as [|x l IH]; [reflexivity|]. cbn [filter].
  rewrite H by now left. apply IH. intros; apply H; now right.
Qed.

Lemma buckets_stable : forall key (p : Z -> bool) k0 l, (k0 < kHist)%nat ->
  (forall x, p x = true -> key x = k0) -> filter p (buckets key l) = filter p l.
Proof.
  intros key p k0 l Hk Hp. unfold buckets. rewrite flat_map_filter.
  assert (H : forall ks, NoDup ks ->
    flat_map (fun k => filter p (sel key k l)) ks =
    if in_dec Nat.eq_dec k0 ks then filter p l else []).
  { assert (Hoff : forall k, k <> k0 -> filter p (sel key k l) = []).
    { intros k Hne. apply filter_none. intros x Hx. apply filter_In in Hx.
      destruct Hx as [_ Hx]. apply Nat.eqb_eq in Hx.
      destruct (p x) eqn:E; auto. apply Hp in E. congruence. }
    assert (Hon : filter p (sel key k0 l) = filter p l).
    { clear Hoff. unfold sel. induction l as [|x l IH]; [reflexivity|]. cbn [filter].
      destruct (Nat.eqb_spec (key x) k0) as [E|E]; cbn [filter]; rewrite IH; auto.
      destruct (p x) eqn:Ep; auto. apply Hp in Ep. congruence. }
    induction ks as [|k ks IH]; intros Hn; [reflexivity|].
    inversion_clear Hn as [|? ? Hni Hn']. cbn [flat_map]. rewrite IH by auto.
    destruct (Nat.eq_dec k k0) as [->|Hne].
    - rewrite Hon. destruct (in_dec Nat.eq_dec k0 ks); [contradiction|].
      destruct (in_dec Nat.eq_dec k0 (k0 :: ks)) as [_|Hx]; [now rewrite app_nil_r|].
      exfalso. apply Hx. now left.
    - rewrite Hoff by auto. cbn [app].
      destruct (in_dec Nat.eq_dec k0 ks) as [Hi|Hi],
               (in_dec Nat.eq_dec k0 (k :: ks)) as [Hj|Hj]; auto.
      + exfalso. apply Hj. now right.
      + destruct Hj; [congruence|contradiction]. }
  rewrite H by apply seq_NoDup.
  destruct (in_dec Nat.eq_dec k0 (seq 0 kHist)) as [_|Hx]; [reflexivity|].
  exfalso. apply Hx. apply in_seq. lia.
Qed.

Lemma passes_stable : forall val w v h0 n i src dst,
  Z.of_nat (length src) < 2 ^ 32 -> length dst = length src -> Permutation h0 src ->
  filter (fun x => val x =? v) (passes (dig val w) h0 i n src dst) =
  filter (fun x => val x =? v) src.
Proof.
  intros val w v h0 n. induction n as [|n IH]; intros i src dst Hn Hd Hp; cbn [passes].
  - reflexivity.
  - rewrite (scatter_buckets (dig val w i) (dig_lt val w i) h0 src dst) by auto.
    pose proof (buckets_perm (dig val w i) (dig_lt val w i) src) as Hb.
    rewrite IH.
    + apply (buckets_stable _ _ (byte_at false w i v)).
      * unfold byte_at, kHist.
        pose proof (Z.mod_pos_bound (v / 256 ^ Z.of_nat i) 256). lia.
      * intros x E. apply Z.eqb_eq in E. unfold dig. now rewrite E.
    + now rewrite <- (Permutation_length Hb).
    + now apply Permutation_length.
    + now rewrite <- Hb.
Qed.

(** the keys need only agree *)
Lemma fold_left_ext : forall A B (f g : A -> B -> A) l a,
  (forall a b, f a b = g a b) -> fold_left f l a = fold_left g l a.
Proof. intros A B f g l. induction l; intros a0 H; cbn [fold_left]; auto. rewrite H; auto. Qed.

Lemma passes_ext : forall k1 k2 h0 n i src dst,
  (forall j x, (i <= j < i + n)%nat -> k1 j x = k2 j x) ->
  passes k1 h0 i n src dst = passes k2 h0 i n src dst.
Proof.
  intros k1 k2 h0 n. induction n as [|n IH]; intros i src dst H; cbn [passes]; [reflexivity|].
  rewrite IH by (intros; apply H; lia). f_equal. unfold scatter, hist.
  rewrite (fold_left_ext _ _ _ (fun b x => lset b (k2 i x) (u32 (nth (k2 i x) b 0 + 1))))
    by (intros; now rewrite H by lia).
  f_equal. apply fold_left_ext. intros; now rewrite H by lia.
Qed.

Lemma byte_at_mod : forall w i x, (i < w)%nat ->
  byte_at false w i (x mod 256 ^ Z.of_nat w) = byte_at false w i x.
Proof.
  intros w i x Hi. unfold byte_at. f_equal.
  replace (Z.of_nat w) with (Z.of_nat i + (1 + (Z.of_nat w - Z.of_nat i - 1))) by lia.
  rewrite Z.pow_add_r, Z.pow_add_r by lia. rewrite Z.pow_1_r.
  set (P := 256 ^ Z.of_nat i). set (Q := 256 ^ (Z.of_nat w - Z.of_nat i - 1)).
  assert (0 < P) by (apply Z.pow_pos_nonneg; lia).
  assert (0 < Q) by (apply Z.pow_pos_nonneg; lia).
  rewrite Z.rem_mul_r by nia. rewrite Z.mul_comm, Z.div_add by lia.
  rewrite Z.div_small by (apply Z.mod_pos_bound; lia). rewrite Z.add_0_l.
  rewrite Z.rem_mul_r by lia. rewrite Z.mul_comm, Z_mod_plus_full.
  apply Z.mod_mod. lia.
Qed.

(** the radix sort of numbers *)
Lemma radix_numbers : forall w h tmp,
  (forall x, In x h -> 0 <= x < 256 ^ Z.of_nat w) ->
  Z.of_nat (length h) < 2 ^ 32 -> length tmp = length h ->
  Permutation h (passes (byte_at false w) h 0 w h tmp) /\
  StronglySorted Z.le (passes (byte_at false w) h 0 w h tmp).
Proof.
  intros w h tmp Hr Hn Ht.
  rewrite (passes_ext _ (dig (fun x => x mod 256 ^ Z.of_nat w) w)).
  2: { intros j x Hj. unfold dig. symmetry. apply byte_at_mod. lia. }
  assert (Hp : 0 < 256 ^ Z.of_nat w) by (apply Z.pow_pos_nonneg; lia).
  destruct (radix_sorts (fun x => x mod 256 ^ Z.of_nat w) w) with (h := h) (tmp := tmp)
    as [H1 H2]; auto.
  { intros. apply Z.mod_pos_bound. lia. }
  split; auto. revert H2. intros H2. eapply sorted_impl_in; [exact H2|].
  intros x y Hx Hy. cbv beta.
  assert (forall z, In z (passes (dig (fun x => x mod 256 ^ Z.of_nat w) w) h 0 w h tmp) -> In z h)
    by (intros; eapply Permutation_in; [symmetry; exact H1|auto]).
  rewrite !Z.mod_small by auto. auto.
Qed.
