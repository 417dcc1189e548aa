(** Proofs about the binary heaps. *)
From Coq Require Import List Bool Arith Lia.
From Verif Require Import Util Heap_Model.
Import ListNotations.

Section P.
Context {K : Type}.
Variable cmp : K -> K -> bool.
Variable le : K -> K -> Prop.
Hypothesis le_refl : forall a, le a a.
Hypothesis le_trans : forall a b c, le a b -> le b c -> le a c.
Hypothesis cmp_true : forall a b, cmp a b = true -> le a b.
Hypothesis cmp_false : forall a b, cmp a b = false -> le b a.
Variable M : nat.

(** [heap] and [index] are inverse on the positions 1..N *)
Definition bij (N : nat) (s : hstate K) : Prop :=
  length (heap s) = S M /\ length (index s) = S M /\ M <= length (keys s) /\ N <= M /\
  (forall p, 1 <= p <= N -> exists a, hget s p = Some a /\ ipos s a = Some p /\ a < M) /\
  (forall a p, ipos s a = Some p -> 1 <= p <= N /\ hget s p = Some a).

Lemma vset_ok : forall T (v : list T) i x, i < length v -> vset v i x = Some (lset v i x).
Proof. intros. unfold vset. now rewrite (proj2 (Nat.ltb_lt _ _) H). Qed.

Lemma hget_in : forall N s p, bij N s -> 1 <= p <= N -> exists a, hget s p = Some a /\ ipos s a = Some p /\ a < M.
Proof. intros N s p (_ & _ & _ & _ & H & _) Hp. now apply H. Qed.
Lemma kat_in : forall N s p, bij N s -> 1 <= p <= N -> exists x, kat s p = Some x.
Proof.
  intros N s p B Hp. destruct (hget_in N s p B Hp) as (a & E & _ & L). unfold kat. rewrite E.
  destruct B as (_ & _ & LK & _). destruct (nth_error (keys s) a) eqn:X; [eauto|]. apply nth_error_None in X. lia.
Qed.

Definition sw (i j p : nat) : nat := if p =? i then j else if p =? j then i else p.

Lemma swap_spec : forall N s i j, bij N s -> 1 <= i <= N -> 1 <= j <= N ->
  exists s', swap s i j = Some s' /\ bij N s' /\ keys s' = keys s /\ hsize s' = hsize s /\
  (forall p, 1 <= p <= N -> hget s' p = hget s (sw i j p)) /\
  (forall p, N < p -> nth_error (heap s') p = nth_error (heap s) p) /\
  (forall a, (exists p, ipos s' a = Some p) <-> (exists p, ipos s a = Some p)).
Proof.
  intros N s i j B Hi Hj.
  destruct (hget_in N s i B Hi) as (t & Et & It & Lt). destruct (hget_in N s j B Hj) as (u & Eu & Iu & Lu).
  pose proof B as (LH & LI & LK & LN & F & G).
  unfold swap. rewrite Et, Eu.
  rewrite vset_ok by lia. rewrite vset_ok by (rewrite lset_length; lia).
  rewrite vset_ok by lia. rewrite vset_ok by (rewrite lset_length; lia).
  eexists. split; [reflexivity|].
  set (s' := {| hsize := _; heap := _; index := _; keys := _ |}).
  assert (forall p, 1 <= p <= N -> hget s' p = hget s (sw i j p)) as HG.
  { intros p Hp. unfold hget, s', sw. cbn [heap]. rewrite !nth_error_lset, lset_length.
    unfold hget in Et, Eu. natcases; subst; auto;
      try (destruct (nth_error (heap s) i) as [[]|] eqn:Z; congruence);
      destruct (nth_error (heap s) j) as [[]|] eqn:Z; congruence. }
  assert (forall a, ipos s' a = if a =? t then Some j else if a =? u then Some i else ipos s a) as IG.
  { intros a. unfold ipos, s'. cbn [index]. rewrite !nth_error_lset, lset_length. natcases; reflexivity. }
  assert (t = u -> i = j) as TU by (intros ->; congruence).
  split; [|split; [reflexivity|split; [reflexivity|split; [exact HG|split]]]].
  - split; [|split; [|split; [|split; [|split]]]]; cbn [s' heap index keys]; rewrite ?lset_length; auto.
    + intros p Hp. rewrite HG by assumption. unfold sw.
      destruct (Nat.eqb_spec p i) as [->|NI]; [|destruct (Nat.eqb_spec p j) as [->|NJ]].
      * exists u. rewrite IG, Eu. repeat split; auto. destruct (Nat.eqb_spec u t); [f_equal; symmetry; auto|].
        now rewrite Nat.eqb_refl.
      * exists t. rewrite IG, Et, Nat.eqb_refl. repeat split; auto.
      * destruct (F p Hp) as (a & Ea & Ia & La). exists a. rewrite IG, Ea.
        destruct (Nat.eqb_spec a t); [congruence|]. destruct (Nat.eqb_spec a u); [congruence|]. auto.
    + intros a p. rewrite IG. destruct (Nat.eqb_spec a t) as [->|NT]; [|destruct (Nat.eqb_spec a u) as [->|NU]].
      * intros [= <-]. split; [assumption|]. rewrite HG by assumption. unfold sw.
        rewrite Nat.eqb_refl. destruct (Nat.eqb_spec j i); [subst; congruence|exact Et].
      * intros [= <-]. split; [assumption|]. rewrite HG by assumption. unfold sw. now rewrite Nat.eqb_refl.
      * intros E. destruct (G a p E) as (Hp & Ha). split; [assumption|]. rewrite HG by assumption. unfold sw.
        destruct (Nat.eqb_spec p i); [congruence|]. destruct (Nat.eqb_spec p j); [congruence|]. exact Ha.
  - intros p Hp. cbn [s' heap]. rewrite !nth_error_lset_ne by lia. reflexivity.
  - intros a. rewrite IG. destruct (Nat.eqb_spec a t) as [->|]; [|destruct (Nat.eqb_spec a u) as [->|]]; [| |tauto].
    + split; eauto.
    + split; eauto.
Qed.

(** order between positions *)
Definition lek (s : hstate K) (p q : nat) : Prop :=
  exists x y, kat s p = Some x /\ kat s q = Some y /\ le x y.
Lemma lek_trans : forall s p q r, lek s p q -> lek s q r -> lek s p r.
Proof.
  intros s p q r (x & y & E1 & E2 & L1) (y' & z & E3 & E4 & L2). rewrite E2 in E3. injection E3 as <-.
  exists x, z. eauto.
Qed.
Definition heap_ord (n : nat) (s : hstate K) : Prop := forall p, 2 <= p <= n -> lek s (p / 2) p.

Lemma kat_sw : forall N (s s' : hstate K) i j, keys s' = keys s ->
  (forall p, 1 <= p <= N -> hget s' p = hget s (sw i j p)) ->
  forall p, 1 <= p <= N -> kat s' p = kat s (sw i j p).
Proof. intros N s s' i j EK H p Hp. unfold kat. rewrite H, EK by assumption. reflexivity. Qed.

Lemma lek_sw : forall N (s s' : hstate K) i j p q, (forall p, 1 <= p <= N -> kat s' p = kat s (sw i j p)) ->
  1 <= p <= N -> 1 <= q <= N -> (lek s' p q <-> lek s (sw i j p) (sw i j q)).
Proof. intros N s s' i j p q H Hp Hq. unfold lek. rewrite !H by assumption. tauto. Qed.

(** What the two sifting loops preserve. *)
Definition same (N : nat) (s s' : hstate K) : Prop :=
  bij N s' /\ keys s' = keys s /\ hsize s' = hsize s /\
  (forall p, N < p -> nth_error (heap s') p = nth_error (heap s) p) /\
  (forall a, (exists p, ipos s' a = Some p) <-> (exists p, ipos s a = Some p)).
Lemma same_refl : forall N s, bij N s -> same N s s.
Proof. intros N s H. split; [exact H|]. split; [reflexivity|]. split; [reflexivity|]. split; [reflexivity|]. intros a. reflexivity. Qed.
Lemma same_trans : forall N s1 s2 s3, same N s1 s2 -> same N s2 s3 -> same N s1 s3.
Proof.
  intros N s1 s2 s3 (A1 & A2 & A3 & A4 & A5) (B1 & B2 & B3 & B4 & B5).
  split; [exact B1|]. split; [congruence|]. split; [congruence|]. split.
  - intros p Hp. rewrite B4, A4; auto.
  - intros a. rewrite B5, A5. tauto.
Qed.

Lemma bubble_up_spec : forall fuel N n s k, bij N s -> n <= N -> 1 <= k <= n -> k <= fuel ->
  (forall p, 2 <= p <= n -> p <> k -> lek s (p / 2) p) ->
  (2 <= k -> forall c, 2 <= c <= n -> c / 2 = k -> lek s (k / 2) c) ->
  exists s', bubble_up cmp fuel s k = Some s' /\ same N s s' /\ heap_ord n s' /\
             (forall p, n < p <= N -> hget s' p = hget s p).
Proof.
  induction fuel as [|f IH]; intros N n s k B HN Hk Hf O1 O2; [lia|]. cbn [bubble_up].
  destruct (Nat.leb_spec k 1) as [L1|L1].
  { exists s. split; [reflexivity|]. split; [now apply same_refl|]. split; [|reflexivity].
    intros p Hp. apply O1; lia. }
  assert (1 <= k / 2 < k) as HD by lia.
  destruct (kat_in N s (k / 2) B ltac:(lia)) as (a & Ea). destruct (kat_in N s k B ltac:(lia)) as (b & Eb).
  rewrite Ea, Eb. destruct (cmp a b) eqn:C.
  - exists s. split; [reflexivity|]. split; [now apply same_refl|]. split; [|reflexivity].
    intros p Hp. destruct (Nat.eq_dec p k) as [->|]; [|now apply O1].
    exists a, b. repeat split; auto.
  - destruct (swap_spec N s k (k / 2) B ltac:(lia) ltac:(lia)) as (s1 & E1 & B1 & K1 & S1 & H1 & T1 & I1).
    rewrite E1. pose proof (kat_sw N s s1 k (k / 2) K1 H1) as KS.
    assert (lek s k (k / 2)) as LKP by (exists b, a; repeat split; auto).
    destruct (IH N n s1 (k / 2) B1 HN ltac:(lia) ltac:(lia)) as (s' & E' & S' & O' & R').
    + intros p Hp NE. apply (lek_sw N s s1 k (k / 2) (p / 2) p KS); try lia. unfold sw.
      destruct (Nat.eqb_spec p k) as [->|NK].
      { (* p = k: old k/2 against old... *)
        destruct (Nat.eqb_spec (k / 2) k); [lia|]. rewrite Nat.eqb_refl. exact LKP. }
      destruct (Nat.eqb_spec p (k / 2)); [lia|].
      destruct (Nat.eqb_spec (p / 2) k) as [D|D].
      { (* child of k: below old k/2 *) apply O2; auto; lia. }
      destruct (Nat.eqb_spec (p / 2) (k / 2)) as [D2|D2].
      { (* sibling of k *) apply (lek_trans s k (k / 2)); [exact LKP|]. rewrite <- D2. apply O1; auto. }
      apply O1; auto.
    + intros H2 c Hc HC. apply (lek_sw N s s1 k (k / 2) (k / 2 / 2) c KS); try lia. unfold sw.
      destruct (Nat.eqb_spec (k / 2 / 2) k); [lia|]. destruct (Nat.eqb_spec (k / 2 / 2) (k / 2)); [lia|].
      assert (lek s (k / 2 / 2) (k / 2)) as PP by (apply O1; lia).
      destruct (Nat.eqb_spec c k) as [->|NK]; [exact PP|].
      destruct (Nat.eqb_spec c (k / 2)); [lia|].
      apply (lek_trans s _ (k / 2)); [exact PP|]. rewrite <- HC. apply O1; auto.
    + exists s'. split; [exact E'|]. split; [|split; [exact O'|]].
      * apply (same_trans N s s1 s'); [|exact S']. split; auto.
      * intros p Hp. rewrite R', H1 by lia. unfold sw.
        destruct (Nat.eqb_spec p k); [lia|]. destruct (Nat.eqb_spec p (k / 2)); [lia|]. reflexivity.
Qed.

Lemma child_spec : forall N s k, bij N s -> hsize s <= N -> 1 <= k -> 2 * k <= hsize s ->
  exists j, child cmp s k = Some j /\ (j = 2 * k \/ j = S (2 * k)) /\ j <= hsize s /\
  (forall c, 1 <= c <= hsize s -> c / 2 = k -> lek s j c).
Proof.
  intros N s k B HN H1 H2. unfold child.
  destruct (Nat.ltb_spec (2 * k) (hsize s)) as [L|L].
  - destruct (kat_in N s (2 * k) B ltac:(lia)) as (a & Ea). destruct (kat_in N s (S (2 * k)) B ltac:(lia)) as (b & Eb).
    rewrite Ea, Eb. eexists. split; [reflexivity|]. destruct (cmp a b) eqn:C.
    + split; [now left|]. split; [lia|]. intros c Hc D.
      assert (c = 2 * k \/ c = S (2 * k)) as [->| ->] by lia; [exists a, a|exists a, b]; auto.
    + split; [now right|]. split; [lia|]. intros c Hc D.
      assert (c = 2 * k \/ c = S (2 * k)) as [->| ->] by lia; [exists b, a|exists b, b]; auto.
  - destruct (kat_in N s (2 * k) B ltac:(lia)) as (a & Ea).
    eexists. split; [reflexivity|]. split; [now left|]. split; [lia|]. intros c Hc D.
    assert (c = 2 * k) as -> by lia. exists a, a. auto.
Qed.

Lemma bubble_down_spec : forall fuel N s k, bij N s -> hsize s <= N -> 1 <= k -> hsize s - k < fuel ->
  (forall p, 2 <= p <= hsize s -> p / 2 <> k -> lek s (p / 2) p) ->
  (2 <= k -> forall c, 2 <= c <= hsize s -> c / 2 = k -> lek s (k / 2) c) ->
  exists s', bubble_down cmp fuel s k = Some s' /\ same N s s' /\ heap_ord (hsize s) s' /\
             (forall p, hsize s < p <= N -> hget s' p = hget s p).
Proof.
  induction fuel as [|f IH]; intros N s k B HN Hk Hf O1 O2.
  { lia. }
  cbn [bubble_down]. destruct (Nat.ltb_spec (hsize s) (2 * k)) as [L|L].
  { exists s. split; [reflexivity|]. split; [now apply same_refl|]. split; [|reflexivity].
    intros p Hp. apply O1; lia. }
  destruct (child_spec N s k B HN Hk L) as (j & EJ & HJ & LJ & MJ). rewrite EJ.
  destruct (kat_in N s k B ltac:(lia)) as (a & Ea). destruct (kat_in N s j B ltac:(lia)) as (b & Eb).
  rewrite Ea, Eb. destruct (cmp a b) eqn:C.
  - exists s. split; [reflexivity|]. split; [now apply same_refl|]. split; [|reflexivity].
    intros p Hp. destruct (Nat.eq_dec (p / 2) k) as [D|]; [|now apply O1]. rewrite D.
    apply (lek_trans s k j); [exists a, b; auto|]. apply MJ; lia.
  - destruct (swap_spec N s k j B ltac:(lia) ltac:(lia)) as (s1 & E1 & B1 & K1 & S1 & H1 & T1 & I1).
    rewrite E1. pose proof (kat_sw N s s1 k j K1 H1) as KS.
    assert (lek s j k) as LJK by (exists b, a; auto).
    destruct (IH N s1 j B1) as (s' & E' & S' & O' & R').
    + lia.
    + lia.
    + lia.
    + intros p Hp NE. rewrite S1 in Hp. apply (lek_sw N s s1 k j (p / 2) p KS); try lia. unfold sw.
      destruct (Nat.eqb_spec (p / 2) k) as [D|D].
      { destruct (Nat.eqb_spec p k); [lia|]. destruct (Nat.eqb_spec p j) as [->|]; [exact LJK|]. apply MJ; lia. }
      destruct (Nat.eqb_spec (p / 2) j); [lia|].
      destruct (Nat.eqb_spec p k) as [->|].
      { (* k against its parent *) apply O2; lia. }
      destruct (Nat.eqb_spec p j); [lia|]. apply O1; lia.
    + intros H2 c Hc HC. rewrite S1 in Hc. apply (lek_sw N s s1 k j (j / 2) c KS); try lia. unfold sw.
      replace (j / 2) with k by lia. rewrite Nat.eqb_refl.
      destruct (Nat.eqb_spec c k); [lia|]. destruct (Nat.eqb_spec c j); [lia|].
      rewrite <- HC. apply O1; lia.
    + exists s'. split; [exact E'|]. rewrite S1 in O', R'. split; [|split; [exact O'|]].
      * apply (same_trans N s s1 s'); [|exact S']. split; auto.
      * intros p Hp. rewrite R', H1 by lia. unfold sw.
        destruct (Nat.eqb_spec p k); [lia|]. destruct (Nat.eqb_spec p j); [lia|]. reflexivity.
Qed.

(** the root is minimal *)
Lemma root_min : forall n s p, heap_ord n s -> (exists x, kat s 1 = Some x) -> 1 <= p <= n -> lek s 1 p.
Proof.
  intros n s p O (x & Ex). induction p as [p IH] using lt_wf_ind. intros Hp.
  destruct (Nat.eq_dec p 1) as [->|]; [exists x, x; auto|].
  apply (lek_trans s 1 (p / 2)); [apply IH; lia|]. apply O. lia.
Qed.

(** ** The invariant: [Q] lists the contained indices *)
Definition inv (s : hstate K) (Q : list nat) : Prop :=
  bij (hsize s) s /\ heap_ord (hsize s) s /\ NoDup Q /\ hsize s = length Q /\
  (forall a, In a Q <-> exists p, ipos s a = Some p).

Lemma inv_lt : forall s Q a, inv s Q -> In a Q -> a < M.
Proof.
  intros s Q a (B & _ & _ & _ & H) Ha. apply H in Ha. destruct Ha as (p & E).
  destruct B as (_ & _ & _ & _ & F & G). destruct (G a p E) as (Hp & Hg). destruct (F p Hp) as (b & Eb & _ & L).
  congruence.
Qed.

Lemma ipos_none : forall (s : hstate K) i, i < length (index s) -> (forall p, ipos s i <> Some p) -> nth_error (index s) i = Some None.
Proof.
  intros s i Hi H. unfold ipos in H. destruct (nth_error (index s) i) as [[p|]|] eqn:E; auto.
  - exfalso. now apply (H p).
  - apply nth_error_None in E. lia.
Qed.

Lemma inv_make : forall ks, M <= length ks -> inv (make ks M) [].
Proof.
  intros ks H. assert (forall a, ipos (make ks M) a = None) as X.
  { intros a. unfold ipos, make. cbn [index]. rewrite nth_error_repeat_if. destruct (_ <? _); reflexivity. }
  split; [|split; [|split; [|split]]].
  - unfold bij. cbn [make heap index keys hsize]. rewrite !repeat_length.
    split; [reflexivity|]. split; [reflexivity|]. split; [exact H|]. split; [lia|]. split.
    + intros p Hp. lia.
    + intros a p E. fold (make ks M) in E. rewrite X in E. discriminate.
  - intros p Hp. cbn in Hp. lia.
  - constructor.
  - reflexivity.
  - intros a. split; [intros []|]. intros (p & E). rewrite X in E. discriminate.
Qed.

Lemma nodup_bound : forall Q : list nat, NoDup Q -> (forall a, In a Q -> a < M) -> length Q <= M.
Proof.
  intros Q H1 H2. rewrite <- (seq_length M 0). apply NoDup_incl_length; [assumption|].
  intros a Ha. apply in_seq. specialize (H2 a Ha). lia.
Qed.

Lemma inv_push : forall s Q i key, inv s Q -> i < M -> ~ In i Q ->
  exists s', push cmp s i key = Some s' /\ inv s' (i :: Q) /\ keys s' = lset (keys s) i key.
Proof.
  intros s Q i key I Hi NI. pose proof I as (B & O & ND & SZ & C).
  assert (length (i :: Q) <= M) as BM.
  { apply nodup_bound; [now constructor|]. intros a [<-|Ha]; [assumption|]. now apply (inv_lt s Q). }
  cbn [length] in BM. pose proof B as (LH & LI & LK & LN & F & G). set (n := hsize s) in *.
  assert (forall p, ipos s i <> Some p) as IN by (intros p E; apply NI, C; eauto).
  unfold push. fold n. rewrite vset_ok by lia. rewrite vset_ok by lia. rewrite vset_ok by lia.
  set (s1 := {| hsize := S n; heap := _; index := _; keys := _ |}).
  assert (forall a, ipos s1 a = if a =? i then Some (S n) else ipos s a) as IG.
  { intros a. unfold ipos, s1. cbn [index]. rewrite nth_error_lset. natcases; reflexivity. }
  assert (forall p, hget s1 p = if p =? S n then Some i else hget s p) as HG.
  { intros p. unfold hget, s1. cbn [heap]. rewrite nth_error_lset. natcases; reflexivity. }
  assert (forall p, 1 <= p <= n -> kat s1 p = kat s p) as KG.
  { intros p Hp. unfold kat. rewrite HG. natcases. destruct (F p Hp) as (a & Ea & Ia & La). rewrite Ea.
    cbn [s1 keys]. rewrite nth_error_lset_ne; [reflexivity|]. intros ->. now apply (IN p). }
  assert (bij (S n) s1) as B1.
  { unfold bij. cbn [s1 heap index keys]. rewrite !lset_length.
    split; [exact LH|]. split; [exact LI|]. split; [exact LK|]. split; [lia|]. fold s1. split.
    - intros p Hp. rewrite HG. destruct (Nat.eqb_spec p (S n)) as [->|].
      + exists i. rewrite IG, Nat.eqb_refl. auto.
      + destruct (F p ltac:(lia)) as (a & Ea & Ia & La). exists a. rewrite IG.
        destruct (Nat.eqb_spec a i) as [->|]; [exfalso; now apply (IN p)|]. auto.
    - intros a p H. rewrite IG in H. rewrite HG. destruct (Nat.eqb_spec a i) as [->|].
      + injection H as <-. rewrite Nat.eqb_refl. split; [lia|reflexivity].
      + destruct (G a p H) as (Hp & Hg). split; [lia|]. natcases. exact Hg. }
  destruct (bubble_up_spec (S n) (S n) (S n) s1 (S n) B1) as (s' & E' & (B' & K' & S' & T' & I') & O' & _); try lia.
  - intros p Hp NE. destruct (O p ltac:(lia)) as (x & y & Ex & Ey & L). exists x, y. rewrite !KG by lia. auto.
  - exists s'. split; [exact E'|]. split.
    + cbn [s1 hsize] in S'. unfold inv. rewrite S'. split; [exact B'|]. split; [exact O'|].
      split; [now constructor|]. split; [cbn [length]; now rewrite <- SZ|].
      intros a. rewrite I', IG. split.
      * intros [<-|Ha]; [rewrite Nat.eqb_refl; eauto|]. destruct (a =? i); [eauto|]. now apply C.
      * destruct (Nat.eqb_spec a i) as [->|]; [now left|]. intros H. right. now apply C.
    + rewrite K'. reflexivity.
Qed.

Lemma inv_pop_empty : forall s, inv s [] -> pop cmp s = Some (s, None) /\ peek s = Some None.
Proof. intros s (_ & _ & _ & SZ & _). cbn in SZ. unfold pop, peek. now rewrite SZ. Qed.

Definition remove1 (m : nat) (Q : list nat) := filter (fun x => negb (x =? m)) Q.
Lemma remove1_in : forall m Q a, In a (remove1 m Q) <-> In a Q /\ a <> m.
Proof. intros. unfold remove1. rewrite filter_In, negb_true_iff, Nat.eqb_neq. tauto. Qed.
Lemma remove1_not_in : forall m Q, ~ In m Q -> remove1 m Q = Q.
Proof.
  induction Q as [|a Q IH]; intros H; [reflexivity|]. cbn.
  destruct (Nat.eqb_spec a m) as [->|]; [exfalso; apply H; now left|]. cbn. f_equal. apply IH. firstorder.
Qed.
Lemma remove1_len : forall m Q, NoDup Q -> In m Q -> S (length (remove1 m Q)) = length Q.
Proof.
  induction Q as [|a Q IH]; intros ND H; [destruct H|]. inversion ND as [|? ? NI ND']; subst.
  cbn. destruct (Nat.eqb_spec a m) as [->|NE]; cbn.
  - f_equal. fold (remove1 m Q). now rewrite (remove1_not_in m Q NI).
  - f_equal. apply IH; auto. destruct H; [congruence|assumption].
Qed.
Lemma remove1_nodup : forall m Q, NoDup Q -> NoDup (remove1 m Q).
Proof. intros. now apply NoDup_filter. Qed.

Lemma inv_min : forall s Q, inv s Q -> Q <> [] ->
  exists m, hget s 1 = Some m /\ In m Q /\
  forall j, In j Q -> exists x y, nth_error (keys s) m = Some x /\ nth_error (keys s) j = Some y /\ le x y.
Proof.
  intros s Q (B & O & ND & SZ & C) NE.
  assert (1 <= hsize s) as H1 by (destruct Q; [congruence|cbn in SZ; lia]).
  destruct (hget_in _ s 1 B ltac:(lia)) as (m & Em & Im & Lm). exists m. split; [exact Em|]. split; [apply C; eauto|].
  intros j Hj. apply C in Hj. destruct Hj as (p & Ip). pose proof B as (_ & _ & _ & _ & F & G).
  destruct (G j p Ip) as (Hp & Hg).
  destruct (root_min (hsize s) s p O (kat_in _ s 1 B ltac:(lia)) Hp) as (x & y & Ex & Ey & L).
  unfold kat in Ex, Ey. rewrite Em in Ex. rewrite Hg in Ey. eauto.
Qed.

Lemma inv_pop : forall s Q, inv s Q -> Q <> [] ->
  exists m s', pop cmp s = Some (s', Some m) /\ peek s = Some (Some m) /\ In m Q /\
  (forall j, In j Q -> exists x y, nth_error (keys s) m = Some x /\ nth_error (keys s) j = Some y /\ le x y) /\
  inv s' (remove1 m Q) /\ keys s' = keys s.
Proof.
  intros s Q I NE. destruct (inv_min s Q I NE) as (m & Em & Hm & MIN).
  pose proof I as (B & O & ND & SZ & C). pose proof B as (LH & LI & LK & LN & F & G).
  assert (1 <= hsize s) as H1 by (destruct Q; [congruence|cbn in SZ; lia]).
  exists m. unfold pop, peek. replace (hsize s =? 0) with false by (symmetry; apply Nat.eqb_neq; lia).
  rewrite Em. set (n := hsize s) in *.
  destruct (swap_spec n s 1 n B ltac:(lia) ltac:(lia)) as (s1 & E1 & B1 & K1 & S1 & G1 & T1 & I1).
  rewrite E1. set (s2 := {| hsize := n - 1; heap := heap s1; index := index s1; keys := keys s1 |}).
  pose proof (kat_sw n s s1 1 n K1 G1) as KS.
  assert (bij n s2) as B2 by exact B1.
  change (hsize s2) with (n - 1).
  destruct (bubble_down_spec (S (n - 1)) n s2 1 B2) as (s3 & E3 & (B3 & K3 & S3 & T3 & I3) & O3 & R3);
    cbn [s2 hsize]; try lia.
  - intros p Hp D. change (lek s2 (p / 2) p) with (lek s1 (p / 2) p).
    apply (lek_sw n s s1 1 n (p / 2) p KS); try lia. unfold sw.
    destruct (Nat.eqb_spec (p / 2) 1); [lia|]. destruct (Nat.eqb_spec (p / 2) n); [lia|].
    destruct (Nat.eqb_spec p 1); [lia|]. destruct (Nat.eqb_spec p n); [lia|]. apply O. lia.
  - rewrite E3. cbn [s2 hsize] in S3, O3, R3. rewrite S3. replace (S (n - 1)) with n by lia.
    pose proof B3 as (LH3 & LI3 & LK3 & LN3 & F3 & G3).
    rewrite vset_ok by (pose proof (inv_lt s Q m I Hm); lia). rewrite vset_ok by lia.
    eexists. split; [reflexivity|]. split; [reflexivity|]. split; [exact Hm|]. split; [exact MIN|].
    assert (hget s3 n = Some m) as HN3.
    { destruct (Nat.eq_dec n 1) as [N1|N1].
      - rewrite (R3 n) by lia. change (hget s2 n) with (hget s1 n). rewrite G1 by lia. unfold sw.
        rewrite N1, Nat.eqb_refl. exact Em.
      - rewrite (R3 n) by lia. change (hget s2 n) with (hget s1 n). rewrite G1 by lia. unfold sw.
        rewrite Nat.eqb_refl. destruct (Nat.eqb_spec n 1); [lia|]. exact Em. }
    set (s4 := {| hsize := _; heap := _; index := _; keys := _ |}).
    assert (ipos s3 m = Some n) as IM3.
    { destruct (F3 n ltac:(lia)) as (a & Ea & Ia & _). rewrite HN3 in Ea. injection Ea as <-. exact Ia. }
    assert (forall a, ipos s4 a = if a =? m then None else ipos s3 a) as IG.
    { intros a. unfold ipos, s4. cbn [index]. rewrite nth_error_lset. natcases; auto. subst a.
      pose proof (inv_lt s Q m I Hm). lia. }
    assert (forall p, p <> n -> hget s4 p = hget s3 p) as HG.
    { intros p Hp. unfold hget, s4. cbn [heap]. now rewrite nth_error_lset_ne by lia. }
    split.
    + split; [|split; [|split; [|split]]].
      * unfold bij. change (hsize s4) with (n - 1). cbn [s4 heap index keys]. rewrite !lset_length.
        split; [exact LH3|]. split; [exact LI3|]. split; [exact LK3|]. split; [lia|]. fold s4. split.
        -- intros p Hp. rewrite HG by lia. destruct (F3 p ltac:(lia)) as (a & Ea & Ia & La).
           exists a. rewrite IG. destruct (Nat.eqb_spec a m) as [->|]; [|auto].
           rewrite IM3 in Ia. injection Ia as Ia. lia.
        -- intros a p H. rewrite IG in H. destruct (Nat.eqb_spec a m); [discriminate|].
           destruct (G3 a p H) as (Hp & Hg). assert (p <> n) by (intros ->; congruence).
           split; [lia|]. now rewrite HG.
      * change (hsize s4) with (n - 1). intros p Hp. destruct (O3 p Hp) as (x & y & Ex & Ey & L).
        exists x, y. unfold kat in *. rewrite !HG by lia. auto.
      * now apply remove1_nodup.
      * change (hsize s4) with (n - 1). pose proof (remove1_len m Q ND Hm). lia.
      * intros a. rewrite remove1_in, IG. destruct (Nat.eqb_spec a m) as [->|NM].
        -- split; [intros (_ & X); congruence|intros (p & X); discriminate].
        -- rewrite I3. change (ipos s2 a) with (ipos s1 a). rewrite I1, <- C. tauto.
    + cbn [s4 keys]. rewrite K3. exact K1.
Qed.

(** changing a key: every position but the one of [i] keeps its key *)
Lemma set_key_spec : forall s Q i key, inv s Q -> In i Q ->
  exists s1 p old, set_key s i key = Some s1 /\ keys s1 = lset (keys s) i key /\ hsize s1 = hsize s /\
  ipos s1 i = Some p /\ 1 <= p <= hsize s /\ bij (hsize s) s1 /\
  nth_error (keys s) i = Some old /\ kat s p = Some old /\ kat s1 p = Some key /\
  (forall q, 1 <= q <= hsize s -> q <> p -> kat s1 q = kat s q) /\
  (forall a, ipos s1 a = ipos s a).
Proof.
  intros s Q i key I Hi. pose proof (inv_lt s Q i I Hi) as Li. destruct I as (B & O & ND & SZ & C).
  pose proof B as (LH & LI & LK & LN & F & G). apply C in Hi. destruct Hi as (p & Ip).
  destruct (G i p Ip) as (Hp & Hg).
  destruct (nth_error (keys s) i) as [old|] eqn:EO; [|apply nth_error_None in EO; lia].
  unfold set_key. rewrite vset_ok by lia. eexists _, p, old. split; [reflexivity|].
  cbn [keys hsize]. split; [reflexivity|]. split; [reflexivity|]. split; [exact Ip|]. split; [exact Hp|].
  split; [|split; [reflexivity|split; [|split; [|split]]]].
  - unfold bij. cbn [keys heap index]. rewrite lset_length. auto 10.
  - unfold kat. now rewrite Hg.
  - unfold kat. change (hget {| hsize := hsize s; heap := heap s; index := index s; keys := lset (keys s) i key |} p) with (hget s p).
    rewrite Hg. cbn [keys]. apply nth_error_lset_eq. lia.
  - intros q Hq NQ. unfold kat. change (hget {| hsize := hsize s; heap := heap s; index := index s; keys := lset (keys s) i key |} q) with (hget s q).
    destruct (F q Hq) as (a & Ea & Ia & _). rewrite Ea. cbn [keys]. apply nth_error_lset_ne. intros ->. congruence.
  - reflexivity.
Qed.

Definition old_key (s : hstate K) (i : nat) (P : K -> Prop) : Prop :=
  exists old, nth_error (keys s) i = Some old /\ P old.

Lemma lower_up : forall s Q i key, inv s Q -> In i Q -> old_key s i (fun old => le key old) ->
  exists s1 p s', set_key s i key = Some s1 /\ ipos s1 i = Some p /\ bubble_up cmp (S p) s1 p = Some s' /\
                  inv s' Q /\ keys s' = lset (keys s) i key.
Proof.
  intros s Q i key I Hi (old & EO & LE).
  destruct (set_key_spec s Q i key I Hi) as (s1 & p & old' & E1 & K1 & S1 & P1 & Hp & B1 & EO' & KP & KN & KQ & IP).
  rewrite EO in EO'. injection EO' as <-. destruct I as (B & O & ND & SZ & C).
  assert (forall a, 2 <= a <= hsize s -> a <> p -> lek s1 (a / 2) a) as O1.
  { intros a Ha NE. destruct (O a Ha) as (x & y & Ex & Ey & L).
    destruct (Nat.eq_dec (a / 2) p) as [D|D].
    - exists key, y. rewrite D. split; [exact KN|]. rewrite KQ by lia. split; [exact Ey|].
      rewrite D, KP in Ex. injection Ex as <-. eauto.
    - exists x, y. rewrite !KQ by lia. auto. }
  destruct (bubble_up_spec (S p) (hsize s) (hsize s) s1 p B1) as (s' & E' & (B' & K' & S' & T' & I') & O' & _); try lia.
  - exact O1.
  - intros H2 c Hc D. destruct (O p ltac:(lia)) as (x & y & Ex & Ey & L). destruct (O c ltac:(lia)) as (y' & z & Ey' & Ez & L').
    rewrite D in Ey'. rewrite Ey in Ey'. injection Ey' as <-.
    exists x, z. rewrite !KQ by lia. eauto.
  - exists s1, p, s'. split; [exact E1|]. split; [exact P1|]. split; [exact E'|]. split; [|congruence].
    rewrite S1 in S'. unfold inv. rewrite S'. split; [exact B'|]. split; [exact O'|]. split; [exact ND|].
    split; [exact SZ|]. intros a. rewrite I', IP. apply C.
Qed.

Lemma raise_down : forall s Q i key, inv s Q -> In i Q -> old_key s i (fun old => le old key) ->
  exists s1 p s', set_key s i key = Some s1 /\ ipos s1 i = Some p /\ bubble_down cmp (S (hsize s1)) s1 p = Some s' /\
                  inv s' Q /\ keys s' = lset (keys s) i key.
Proof.
  intros s Q i key I Hi (old & EO & LE).
  destruct (set_key_spec s Q i key I Hi) as (s1 & p & old' & E1 & K1 & S1 & P1 & Hp & B1 & EO' & KP & KN & KQ & IP).
  rewrite EO in EO'. injection EO' as <-. destruct I as (B & O & ND & SZ & C).
  rewrite <- S1 in B1.
  destruct (bubble_down_spec (S (hsize s1)) (hsize s1) s1 p B1) as (s' & E' & (B' & K' & S' & T' & I') & O' & _); try lia.
  - intros a Ha D. rewrite S1 in Ha. destruct (O a Ha) as (x & y & Ex & Ey & L).
    destruct (Nat.eq_dec a p) as [->|NP].
    + exists x, key. rewrite KQ by lia. repeat split; auto. rewrite KP in Ey. injection Ey as <-. eauto.
    + exists x, y. rewrite !KQ by lia. auto.
  - intros H2 c Hc D. rewrite S1 in Hc.
    destruct (O p ltac:(lia)) as (x & y & Ex & Ey & L). destruct (O c ltac:(lia)) as (y' & z & Ey' & Ez & L').
    rewrite D in Ey'. rewrite Ey in Ey'. injection Ey' as <-.
    exists x, z. rewrite !KQ by lia. eauto.
  - exists s1, p, s'. split; [exact E1|]. split; [exact P1|]. split; [exact E'|]. split; [|congruence].
    rewrite S1 in S'. rewrite S1 in O', B'. unfold inv. rewrite S'. split; [exact B'|]. split; [exact O'|]. split; [exact ND|].
    split; [exact SZ|]. intros a. rewrite I', IP. apply C.
Qed.

Lemma inv_decrease : forall s Q i key, inv s Q -> In i Q -> old_key s i (fun old => le key old) ->
  exists s', decrease_key cmp s i key = Some s' /\ inv s' Q /\ keys s' = lset (keys s) i key.
Proof.
  intros s Q i key I Hi H. destruct (lower_up s Q i key I Hi H) as (s1 & p & s' & E1 & P1 & E' & I' & K').
  exists s'. unfold decrease_key. rewrite E1, P1. auto.
Qed.
Lemma inv_increase : forall s Q i key, inv s Q -> In i Q -> old_key s i (fun old => le old key) ->
  exists s', increase_key cmp s i key = Some s' /\ inv s' Q /\ keys s' = lset (keys s) i key.
Proof.
  intros s Q i key I Hi H. destruct (raise_down s Q i key I Hi H) as (s1 & p & s' & E1 & P1 & E' & I' & K').
  exists s'. unfold increase_key. rewrite E1, P1. auto.
Qed.
Lemma set_key_read : forall (s s1 : hstate K) i key, set_key s i key = Some s1 -> nth_error (keys s1) i = Some key.
Proof.
  intros s s1 i key E. unfold set_key, vset in E. destruct (Nat.ltb_spec i (length (keys s))); [|discriminate].
  injection E as <-. cbn. now apply nth_error_lset_eq.
Qed.
Lemma change_strict : forall s i key, cmp key key = false -> change_key cmp s i key = decrease_key cmp s i key.
Proof.
  intros s i key C. unfold change_key, decrease_key. destruct (set_key s i key) as [s1|] eqn:E; [|reflexivity].
  rewrite (set_key_read s s1 i key E), C. destruct (ipos s1 i); reflexivity.
Qed.
Lemma change_weak : forall s i key, cmp key key = true -> change_key cmp s i key = increase_key cmp s i key.
Proof.
  intros s i key C. unfold change_key, increase_key. destruct (set_key s i key) as [s1|] eqn:E; [|reflexivity].
  rewrite (set_key_read s s1 i key E), C. destruct (ipos s1 i); reflexivity.
Qed.

Lemma inv_contains : forall s Q i, inv s Q -> i <= M ->
  exists b, contains s i = Some b /\ (b = true <-> In i Q).
Proof.
  intros s Q i (B & O & ND & SZ & C) Hi. destruct B as (LH & LI & _). unfold contains.
  pose proof (C i) as Ci. unfold ipos in Ci. destruct (nth_error (index s) i) as [[p|]|] eqn:E.
  - exists true. split; [reflexivity|]. split; [intros _; apply Ci; eauto|auto].
  - exists false. split; [reflexivity|]. split; [discriminate|]. intros H. apply Ci in H. destruct H; discriminate.
  - apply nth_error_None in E. lia.
Qed.

(** writing the key of an index outside of the heap *)
Lemma inv_set_key_out : forall s Q i key, inv s Q -> i < M -> ~ In i Q ->
  exists s', set_key s i key = Some s' /\ inv s' Q /\ keys s' = lset (keys s) i key.
Proof.
  intros s Q i key I Hi NI. pose proof I as (B & O & ND & SZ & C). pose proof B as (LH & LI & LK & LN & F & G).
  unfold set_key. rewrite vset_ok by lia. eexists. split; [reflexivity|]. split; [|reflexivity].
  set (s1 := {| hsize := _; heap := _; index := _; keys := _ |}).
  assert (forall p, 1 <= p <= hsize s -> kat s1 p = kat s p) as KG.
  { intros p Hp. unfold kat. change (hget s1 p) with (hget s p). destruct (F p Hp) as (a & Ea & Ia & La). rewrite Ea.
    cbn [s1 keys]. apply nth_error_lset_ne. intros ->. apply NI, C. eauto. }
  split; [|split; [|split; [exact ND|split; [exact SZ|exact C]]]].
  - unfold bij. cbn [s1 heap index keys hsize]. rewrite lset_length. auto 10.
  - intros p Hp. cbn [s1 hsize] in Hp. destruct (O p Hp) as (x & y & Ex & Ey & L). exists x, y. rewrite !KG by lia. auto.
Qed.

Lemma inv_clear_loop : forall fuel mx s Q, inv s Q -> length Q < fuel ->
  exists s', clear_loop cmp fuel mx s = Some s' /\ inv s' [] /\
  forall a, nth_error (keys s') a =
    if existsb (Nat.eqb a) Q then match mx with Some v => Some v | None => nth_error (keys s) a end
    else nth_error (keys s) a.
Proof.
  induction fuel as [|f IH]; intros mx s Q I HF; [lia|]. cbn [clear_loop].
  pose proof I as (B & O & ND & SZ & C). destruct (Nat.eqb_spec (hsize s) 0) as [Z|Z].
  - destruct Q as [|q Q]; [|cbn in SZ; lia]. exists s. split; [reflexivity|]. split; [exact I|]. reflexivity.
  - assert (Q <> []) as NE by (intros ->; cbn in SZ; lia).
    destruct (inv_pop s Q I NE) as (m & s1 & E1 & _ & Hm & _ & I1 & K1). rewrite E1.
    pose proof (remove1_len m Q ND Hm) as L1.
    assert (forall a, existsb (Nat.eqb a) Q = (a =? m) || existsb (Nat.eqb a) (remove1 m Q)) as EX.
    { intros a. apply eq_true_iff_eq. rewrite orb_true_iff, !existsb_exists, Nat.eqb_eq. split.
      - intros (x & Hx & E). apply Nat.eqb_eq in E. subst x. destruct (Nat.eq_dec a m); [now left|right].
        exists a. rewrite remove1_in, Nat.eqb_refl. auto.
      - intros [->|(x & Hx & E)]; [exists m; now rewrite Nat.eqb_refl|].
        apply remove1_in in Hx. apply Nat.eqb_eq in E. subst x. exists a. rewrite Nat.eqb_refl. tauto. }
    destruct mx as [v|].
    + destruct (inv_set_key_out s1 (remove1 m Q) m v I1) as (s2 & E2 & I2 & K2);
        [now apply (inv_lt s Q)|rewrite remove1_in; tauto|]. rewrite E2.
      destruct (IH (Some v) s2 (remove1 m Q) I2 ltac:(lia)) as (s' & E' & I' & K'). exists s'.
      split; [exact E'|]. split; [exact I'|]. intros a. rewrite K', EX, K2, K1, nth_error_lset.
      pose proof (inv_lt s Q m I Hm). destruct B as (_ & _ & LK & _).
      rewrite (Nat.eqb_sym m a). destruct (existsb _ (remove1 m Q)); [now rewrite orb_true_r|]. rewrite orb_false_r.
      destruct (Nat.eqb_spec a m) as [->|]; [|reflexivity]. natcases. reflexivity.
    + destruct (IH None s1 (remove1 m Q) I1 ltac:(lia)) as (s' & E' & I' & K'). exists s'.
      split; [exact E'|]. split; [exact I'|]. intros a. rewrite K', K1. destruct (existsb _ _), (existsb _ _); reflexivity.
Qed.
Lemma inv_clear : forall mx s Q, inv s Q ->
  exists s', clear cmp mx s = Some s' /\ inv s' [] /\
  forall a, nth_error (keys s') a =
    if existsb (Nat.eqb a) Q then match mx with Some v => Some v | None => nth_error (keys s) a end
    else nth_error (keys s) a.
Proof. intros mx s Q I. apply inv_clear_loop; [exact I|]. destruct I as (_ & _ & _ & SZ & _). lia. Qed.
End P.

(** ** Histories: [Q] lists the indices pushed and not yet popped *)
Section Hist.
Context {K : Type}.
Variable cmp : K -> K -> bool.
Variable le : K -> K -> Prop.

(** [hist s Q]: [s] is reached from a new heap over [ks] for [M] indices by
    calls whose arguments are legal, [Q] being the indices inside. *)
Inductive hist (M : nat) (ks : list K) : hstate K -> list nat -> Prop :=
| HNew : hist M ks (make ks M) []
| HPush : forall s Q i key s', hist M ks s Q -> i < M -> ~ In i Q -> push cmp s i key = Some s' -> hist M ks s' (i :: Q)
| HPop : forall s Q m s', hist M ks s Q -> pop cmp s = Some (s', Some m) -> hist M ks s' (remove1 m Q)
| HDecrease : forall s Q i key old s', hist M ks s Q -> In i Q -> nth_error (keys s) i = Some old -> le key old ->
    decrease_key cmp s i key = Some s' -> hist M ks s' Q
| HIncrease : forall s Q i key old s', hist M ks s Q -> In i Q -> nth_error (keys s) i = Some old -> le old key ->
    increase_key cmp s i key = Some s' -> hist M ks s' Q
| HClear : forall s Q mx s', hist M ks s Q -> clear cmp mx s = Some s' -> hist M ks s' [].
End Hist.

Lemma hist_inv : forall K cmp (le : K -> K -> Prop), (forall a, le a a) -> (forall a b c, le a b -> le b c -> le a c) ->
  (forall a b, cmp a b = true -> le a b) -> (forall a b, cmp a b = false -> le b a) ->
  forall M ks s Q, M <= length ks -> hist cmp le M ks s Q -> inv le M s Q.
Proof.
  intros K cmp le R T C1 C2 M ks s Q L H. induction H.
  - now apply inv_make.
  - destruct (inv_push cmp le R T C1 C2 M s Q i key IHhist H0 H1) as (s1 & E & I & _). congruence.
  - destruct Q as [|q Q].
    + rewrite (proj1 (inv_pop_empty cmp le M s IHhist)) in H0. discriminate.
    + destruct (inv_pop cmp le R T C1 C2 M s (q :: Q) IHhist ltac:(discriminate)) as (m' & s1 & E & _ & _ & _ & I & _).
      rewrite H0 in E. injection E as <- <-. exact I.
  - destruct (inv_decrease cmp le R T C1 C2 M s Q i key IHhist H0) as (s1 & E & I & _); [exists old; auto|]. congruence.
  - destruct (inv_increase cmp le R T C1 C2 M s Q i key IHhist H0) as (s1 & E & I & _); [exists old; auto|]. congruence.
  - destruct (inv_clear cmp le R T C1 C2 M mx s Q IHhist) as (s1 & E & I & _). congruence.
Qed.
