(** Proofs about the k-means partitioner that refills empty clusters. *)
From Coq Require Import List Arith Lia Bool Field.
From Verif Require Import Util OField Cluster_Spec Cluster_Model Cluster_Proofs Cluster2_Proofs.
Import ListNotations.

(* ----- occurrences ----- *)

Lemma occ_app : forall j a b, occurrences j (a ++ b) = occurrences j a + occurrences j b.
Proof. induction a; intro b; cbn; [reflexivity|]. rewrite IHa. lia. Qed.

Lemma occ_in : forall j a, 0 < occurrences j a <-> In j a.
Proof.
  induction a as [|i a IH]; cbn; [split; [lia|tauto]|]. destruct (Nat.eqb_spec i j) as [->|N]; split; intro H.
  - now left.
  - lia.
  - right. apply IH. lia.
  - destruct H as [H|H]; [contradiction|]. apply IH in H. lia.
Qed.

Lemma occ_lset : forall j a pos d i, nth_error a pos = Some d ->
  occurrences j (lset a pos i) + (if d =? j then 1 else 0) = occurrences j a + (if i =? j then 1 else 0).
Proof.
  induction a as [|x a IH]; intros [|pos] d i E; cbn in E; try discriminate; cbn [lset occurrences].
  - injection E as ->. lia.
  - specialize (IH _ _ i E). lia.
Qed.

Lemma diff_lset : forall a0 a pos d i, nth_error a0 pos = Some d -> nth_error a pos = Some d -> d <> i ->
  differences a0 (lset a pos i) = S (differences a0 a).
Proof.
  induction a0 as [|x a0 IH]; intros [|y a] [|pos] d i E E' N; cbn in E, E'; try discriminate; cbn [lset differences].
  - injection E as ->. injection E' as ->. rewrite Nat.eqb_refl. destruct (Nat.eqb_spec d i); [contradiction|lia].
  - rewrite (IH a pos d i E E' N). lia.
Qed.

Lemma diff_refl : forall a, differences a a = 0.
Proof. induction a; cbn; [reflexivity|]. now rewrite Nat.eqb_refl. Qed.

Lemma list_sum_cons : forall x l, list_sum (x :: l) = x + list_sum l.
Proof. reflexivity. Qed.

Lemma list_sum_zero : forall n s (f : nat -> nat), (forall j, s <= j < s + n -> f j = 0) -> list_sum (map f (seq s n)) = 0.
Proof. induction n; intros s f H; [reflexivity|]; cbn [seq map]; rewrite list_sum_cons. rewrite H by lia. apply IHn. intros. apply H. lia. Qed.

Lemma list_sum_plus : forall (l : list nat) f g, list_sum (map (fun j => f j + g j) l) = list_sum (map f l) + list_sum (map g l).
Proof. induction l; intros; [reflexivity|]; cbn [map]; rewrite !list_sum_cons. rewrite IHl. lia. Qed.

Lemma list_sum_one : forall n s i, s <= i < s + n -> list_sum (map (fun j => if i =? j then 1 else 0) (seq s n)) = 1.
Proof.
  induction n; intros s i H; [lia|]. cbn [seq map]. rewrite list_sum_cons. destruct (Nat.eqb_spec i s) as [->|N].
  - rewrite list_sum_zero; [reflexivity|]. intros j J. destruct (Nat.eqb_spec s j); [lia|reflexivity].
  - rewrite IHn by lia. reflexivity.
Qed.

Lemma occ_sum : forall K a, Forall (fun j => j < K) a -> list_sum (map (fun j => occurrences j a) (seq 0 K)) = length a.
Proof.
  induction a as [|i a IH]; intro H.
  - apply list_sum_zero. reflexivity.
  - inversion H; subst. cbn [occurrences length]. rewrite (list_sum_plus _ (fun j => if i =? j then 1 else 0) (fun j => occurrences j a)).
    rewrite list_sum_one, IH; [reflexivity|assumption|lia].
Qed.

Lemma list_sum_small : forall n s (f : nat -> nat), (forall j, s <= j < s + n -> f j <= 1) -> list_sum (map f (seq s n)) <= n.
Proof.
  induction n; intros s f H; [cbn; lia|]; cbn [seq map]; rewrite list_sum_cons. assert (f s <= 1) by (apply H; lia).
  assert (list_sum (map f (seq (S s) n)) <= n) by (apply IHn; intros; apply H; lia). lia.
Qed.

Lemma list_sum_hole : forall n s (f : nat -> nat) k, (forall j, s <= j < s + n -> f j <= 1) -> s <= k < s + n -> f k = 0 ->
  list_sum (map f (seq s n)) < n.
Proof.
  induction n; intros s f k H K Z; [lia|]. cbn [seq map]. rewrite list_sum_cons. destruct (Nat.eq_dec s k) as [->|N].
  - rewrite Z. assert (list_sum (map f (seq (S k) n)) <= n) by (apply list_sum_small; intros; apply H; lia). lia.
  - assert (f s <= 1) by (apply H; lia).
    assert (list_sum (map f (seq (S s) n)) < n) by (apply (IHn (S s) f k); [intros; apply H; lia|lia|exact Z]). lia.
Qed.

(* ----- counting, donor, stolen cell ----- *)

Lemma count_on_ok : forall K a acc, length acc = K -> Forall (fun j => j < K) a ->
  let r := fold_left (fun acc c => match c with
    | Some j => if j <? K then lset acc j (S (nth j acc 0)) else acc
    | None => acc end) (map Some a) acc in
  length r = K /\ forall j, j < K -> nth j r 0 = nth j acc 0 + occurrences j a.
Proof.
  intros K. induction a as [|i a IH]; intros acc L B; cbn [map fold_left occurrences].
  - split; [exact L|]. intros. lia.
  - inversion B as [|? ? B1 B2]; subst. apply Nat.ltb_lt in B1 as B1'. rewrite B1'.
    destruct (IH (lset acc i (S (nth i acc 0)))) as [I1 I2]; [apply lset_length|assumption|].
    split; [exact I1|]. intros j J. rewrite (I2 j J), nth_lset.
    destruct (Nat.eqb_spec i j) as [->|N]; cbn [andb].
    + rewrite B1'. lia.
    + lia.
Qed.

Lemma counts_ok : forall K asgs, Forall (fun j => j < K) (concat asgs) ->
  length (counts_of K (map (map Some) asgs)) = K /\
  forall j, j < K -> nth j (counts_of K (map (map Some) asgs)) 0 = occurrences j (concat asgs).
Proof.
  intros K. unfold counts_of. induction asgs as [|a asgs IH]; intro B; cbn [map fold_right concat].
  - rewrite repeat_length. split; [reflexivity|]. intros j J. cbn. now rewrite nth_repeat.
  - cbn [concat] in B. apply Forall_app in B as [B1 B2]. destruct (IH B2) as [I1 I2].
    destruct (count_on_ok K a (repeat 0 K) (repeat_length _ _) B1) as [C1 C2]. fold (count_on K (map Some a)) in C1, C2.
    split; [rewrite map2_length; congruence|].
    intros j J. rewrite occ_app, <- (I2 j J).
    assert (E1 : nth_error (count_on K (map Some a)) j = Some (occurrences j a)).
    { rewrite (nth_error_nth' _ 0) by lia. rewrite (C2 j J), nth_repeat. reflexivity. }
    assert (E2 := nth_error_nth' (fold_right (map2 Nat.add) (repeat 0 K) (map (count_on K) (map (map Some) asgs))) 0 (n := j)).
    rewrite I1 in E2. specialize (E2 J).
    pose proof (map2_nth _ _ _ Nat.add _ _ j _ _ E1 E2) as E3.
    apply nth_error_nth with (d := 0) in E3. exact E3.
Qed.

Lemma donor_ok : forall counts, 0 < length counts -> donor counts < length counts /\
  forall j, j < length counts -> nth j counts 0 <= nth (donor counts) counts 0.
Proof.
  intros counts H. unfold donor.
  assert (G : forall l d, let r := fold_left (fun d j => if nth d counts 0 <? nth j counts 0 then j else d) l d in
             (r = d \/ In r l) /\ nth d counts 0 <= nth r counts 0 /\ forall j, In j l -> nth j counts 0 <= nth r counts 0).
  { induction l as [|x l IH]; intro d; cbn [fold_left].
    - split; [now left|]. split; [lia|intros j []].
    - specialize (IH (if nth d counts 0 <? nth x counts 0 then x else d)). cbv zeta in *.
      destruct IH as [I1 [I2 I3]]. destruct (Nat.ltb_spec (nth d counts 0) (nth x counts 0)).
      + split; [right; destruct I1 as [I1|I1]; [left; symmetry; exact I1|right; exact I1]|]. split; [lia|].
        intros j [<-|J]; [lia|now apply I3].
      + split; [destruct I1 as [I1|I1]; [now left|right; now right]|]. split; [lia|].
        intros j [<-|J]; [lia|now apply I3]. }
  specialize (G (seq 1 (length counts - 1)) 0). cbv zeta in G. destruct G as [G1 [G2 G3]]. split.
  - destruct G1 as [->|G1]; [lia|]. apply in_seq in G1. lia.
  - intros [|j] J; [exact G2|]. apply G3, in_seq. lia.
Qed.

Lemma steal_on_ok : forall d a j0, 0 < occurrences d a ->
  exists j, steal_on (map Some a) d j0 = Some (j0 + j) /\ nth_error a j = Some d.
Proof.
  induction a as [|x a IH]; intros j0 H; cbn in H; [lia|]. cbn [map steal_on same_cluster].
  destruct (Nat.eqb_spec x d) as [->|N].
  - exists 0. split; [f_equal; lia|reflexivity].
  - destruct (IH (S j0) H) as [j [E1 E2]]. exists (S j). split; [rewrite E1; f_equal; lia|exact E2].
Qed.

Lemma steal_on_none : forall d a j0, occurrences d a = 0 -> steal_on (map Some a) d j0 = None.
Proof.
  induction a as [|x a IH]; intros j0 H; [reflexivity|]. cbn in H. cbn [map steal_on same_cluster].
  destruct (x =? d); [lia|]. apply IH. lia.
Qed.

Lemma steal_ok : forall d asgs r0, 0 < occurrences d (concat asgs) ->
  exists r j row, steal (map (map Some) asgs) d r0 = Some (r0 + r, j) /\
    nth_error asgs r = Some row /\ nth_error row j = Some d.
Proof.
  induction asgs as [|a asgs IH]; intros r0 H; cbn in H; [lia|]. rewrite occ_app in H. cbn [map steal].
  destruct (Nat.eq_dec (occurrences d a) 0) as [Z|Z].
  - rewrite (steal_on_none d a 0 Z). destruct (IH (S r0)) as [r [j [row [E1 [E2 E3]]]]]; [lia|].
    exists (S r), j, row. split; [rewrite E1; do 2 f_equal; lia|auto].
  - destruct (steal_on_ok d a 0) as [j [E1 E2]]; [lia|]. rewrite E1. exists 0, j, a.
    split; [do 2 f_equal; lia|auto].
Qed.

Lemma add_sub_l : forall a b, a + b - a = b.
Proof. intros. lia. Qed.

Lemma map_lset : forall A B (f : A -> B) l i x, map f (lset l i x) = lset (map f l) i (f x).
Proof. induction l; intros [|i] x; cbn; try reflexivity. now rewrite IHl. Qed.

Lemma set_at_flat : forall asgs r j row d i (ps : list nat -> Prop), nth_error asgs r = Some row -> nth_error row j = Some d ->
  exists asgs' pos, set_at (map (map Some) asgs) r j (Some i) = map (map Some) asgs' /\
    map (@length nat) asgs' = map (@length nat) asgs /\ nth_error (concat asgs) pos = Some d /\
    concat asgs' = lset (concat asgs) pos i /\
    forall A (pss : list (list A)) p row', map (@length A) pss = map (@length nat) asgs ->
      nth_error pss r = Some row' -> nth_error row' j = Some p -> nth_error (concat pss) pos = Some p.
Proof.
  intros asgs r j row d i _ R J. unfold set_at. rewrite nth_error_map, R. cbn [option_map].
  exists (lset asgs r (lset row j i)).
  rewrite !map_lset. revert r R. induction asgs as [|a asgs IH]; intros [|r] R; cbn in R; try discriminate.
  - injection R as ->. exists j. cbn [map lset concat].
    assert (L : j < length row) by (apply nth_error_Some; congruence).
    split; [reflexivity|]. split; [now rewrite lset_length|]. split; [now rewrite nth_error_app1|].
    split; [now rewrite lset_app_l|].
    intros A [|q pss] p row' E E1 E2; cbn in E1; try discriminate. injection E1 as ->.
    cbn in E. injection E as E _. cbn. rewrite nth_error_app1; [exact E2|]. apply nth_error_Some. congruence.
  - destruct (IH r R) as [pos [P1 [P2 [P3 [P4 P5]]]]]. exists (length a + pos). cbn [map lset concat].
    split; [reflexivity|]. split; [now rewrite P2|].
    split; [rewrite nth_error_app2, add_sub_l by lia; exact P3|].
    split; [rewrite lset_app_r, add_sub_l, P4 by lia; reflexivity|].
    intros A [|q pss] p row' E E1 E2; cbn in E1; try discriminate. cbn in E. injection E as E E'.
    cbn. rewrite nth_error_app2 by lia. replace (length a + pos - length q) with pos by lia.
    eapply P5; eassumption.
Qed.

Section Proofs.
Variable F : ofield.
Add Field Fc3 : (fth F).
Notation pt := (pt F).
Notation center := (option pt).
Implicit Types (cs : list center) (ps : list pt) (pss : list (list pt)).

(* ----- refilling ----- *)

Definition partly (K n : nat) (a0 a : list nat) : Prop :=
  length a = length a0 /\ Forall (fun j => j < K) a /\
  (forall j, j < K -> occurrences j a0 = 0 -> occurrences j a = if j <? n then 1 else 0) /\
  (forall j, 0 < occurrences j a0 -> 0 < occurrences j a) /\
  (forall k x y, nth_error a0 k = Some x -> nth_error a k = Some y -> x <> y -> occurrences y a0 = 0) /\
  differences a0 a = idle n a0.

Lemma idle_S : forall n a, idle (S n) a = idle n a + (if occurrences n a =? 0 then 1 else 0).
Proof.
  intros. unfold idle. rewrite seq_S, filter_app, app_length. cbn. destruct (occurrences n a =? 0); reflexivity.
Qed.

Lemma partly_0 : forall K a, Forall (fun j => j < K) a -> partly K 0 a a.
Proof.
  intros K a B. split; [reflexivity|]. split; [exact B|]. split; [intros; cbn; assumption|].
  split; [auto|]. split; [intros; congruence|]. apply diff_refl.
Qed.

Lemma partly_end : forall K a0 a, partly K K a0 a -> refilled K a0 a.
Proof.
  intros K a0 a [L [B [Z [P [D E]]]]]. split; [exact L|]. split; [exact E|]. split; [exact D|].
  intros j J. destruct (Nat.eq_dec (occurrences j a0) 0) as [H|H]; [|apply P; lia].
  rewrite (Z j J H). apply Nat.ltb_lt in J. rewrite J. lia.
Qed.

Lemma partly_skip : forall K n a0 a, n < K -> partly K n a0 a -> occurrences n a <> 0 -> partly K (S n) a0 a.
Proof.
  intros K n a0 a N [L [B [Z [P [D E]]]]] H.
  assert (H0 : occurrences n a0 <> 0).
  { intro X. rewrite (Z n N X), Nat.ltb_irrefl in H. lia. }
  split; [exact L|]. split; [exact B|]. split.
  { intros j J X. rewrite (Z j J X). assert (j <> n) by congruence.
    destruct (Nat.ltb_spec j n), (Nat.ltb_spec j (S n)); try reflexivity; lia. }
  split; [exact P|]. split; [exact D|].
  rewrite idle_S, E. destruct (Nat.eqb_spec (occurrences n a0) 0); [contradiction|lia].
Qed.

Lemma partly_move : forall K n a0 a pos d, n < K -> partly K n a0 a -> occurrences n a = 0 ->
  1 < occurrences d a -> nth_error a pos = Some d -> partly K (S n) a0 (lset a pos n).
Proof.
  intros K n a0 a pos d N [L [B [Z [P [D E]]]]] H C EP.
  assert (H0 : occurrences n a0 = 0) by (destruct (Nat.eq_dec (occurrences n a0) 0) as [|X]; [assumption|specialize (P n); lia]).
  assert (DN : d <> n) by (intros ->; lia).
  assert (DK : d < K) by (apply nth_error_In in EP; exact (proj1 (Forall_forall _ a) B d EP)).
  assert (D0 : 0 < occurrences d a0).
  { destruct (Nat.eq_dec (occurrences d a0) 0) as [X|X]; [|lia]. specialize (Z d DK X). destruct (d <? n); lia. }
  assert (E0 : nth_error a0 pos = Some d).
  { destruct (nth_error a0 pos) as [x|] eqn:X.
    - destruct (Nat.eq_dec x d) as [->|Y]; [reflexivity|]. specialize (D pos x d X EP Y). lia.
    - apply nth_error_None in X. assert (pos < length a) by (apply nth_error_Some; congruence). lia. }
  split; [rewrite lset_length; exact L|]. split.
  { apply Forall_forall. intros y Y. apply In_lset in Y as [->|Y]; [exact N|]. exact (proj1 (Forall_forall _ a) B y Y). }
  split.
  { intros j J X. pose proof (occ_lset j a pos d n EP) as O. specialize (Z j J X).
    destruct (Nat.eqb_spec d j) as [->|]; [lia|].
    destruct (Nat.eqb_spec n j) as [->|].
    - rewrite Nat.ltb_irrefl in Z. destruct (Nat.ltb_spec j (S j)); lia.
    - destruct (Nat.ltb_spec j n), (Nat.ltb_spec j (S n)); lia. }
  split.
  { intros j J. pose proof (occ_lset j a pos d n EP) as O. specialize (P j J).
    destruct (Nat.eqb_spec d j) as [->|]; destruct (n =? _); lia. }
  split.
  { intros k x y X Y XY. rewrite nth_error_lset in Y. destruct ((pos =? k) && (k <? length a)); [|eapply D; eassumption].
    injection Y as <-. exact H0. }
  rewrite (diff_lset a0 a pos d n E0 EP DN), idle_S, E, H0. cbn. lia.
Qed.

Lemma big_donor : forall K a counts n, Forall (fun j => j < K) a -> K <= length a -> length counts = K ->
  (forall j, j < K -> nth j counts 0 = occurrences j a) -> n < K -> occurrences n a = 0 ->
  donor counts < K /\ 1 < occurrences (donor counts) a.
Proof.
  intros K a counts n B L LC C N Z. destruct (donor_ok counts) as [D1 D2]; [lia|]. rewrite LC in *.
  split; [exact D1|]. rewrite <- (C _ D1).
  destruct (le_lt_dec (nth (donor counts) counts 0) 1) as [X|]; [|assumption]. exfalso.
  pose proof (occ_sum K a B) as S1.
  assert (S2 : list_sum (map (fun j => occurrences j a) (seq 0 K)) < K).
  { apply (list_sum_hole K 0 _ n); [|lia|exact Z]. intros j J. rewrite <- C by lia. specialize (D2 j). lia. }
  lia.
Qed.

Lemma counts_move : forall K counts a pos d n, length counts = K -> (forall j, j < K -> nth j counts 0 = occurrences j a) ->
  d < K -> n < K -> d <> n -> nth_error a pos = Some d ->
  let c1 := lset counts d (nth d counts 0 - 1) in
  let c2 := lset c1 n (S (nth n c1 0)) in
  length c2 = K /\ forall j, j < K -> nth j c2 0 = occurrences j (lset a pos n).
Proof.
  intros K counts a pos d n L C D N DN E c1 c2. split; [unfold c2, c1; now rewrite !lset_length|].
  intros j J. pose proof (occ_lset j a pos d n E) as O. unfold c2. rewrite nth_lset.
  assert (L1 : length c1 = K) by (unfold c1; now rewrite lset_length). rewrite L1.
  assert (P : 0 < occurrences d a) by (apply occ_in; eapply nth_error_In; eassumption).
  assert (C1 : nth j c1 0 = if d =? j then occurrences d a - 1 else occurrences j a).
  { unfold c1. rewrite nth_lset, L. apply Nat.ltb_lt in J as J'. rewrite J'. rewrite andb_true_r, (C d D).
    destruct (d =? j); [reflexivity|now apply C]. }
  assert (C2 : nth n c1 0 = occurrences n a).
  { unfold c1. rewrite nth_lset_ne by assumption. now apply C. }
  apply Nat.ltb_lt in J as J'. rewrite J', andb_true_r, C1, C2.
  destruct (Nat.eqb_spec n j) as [->|NJ], (Nat.eqb_spec d j) as [->|DJ]; try contradiction; lia.
Qed.

Lemma fold_seq_S : forall A (f : A -> nat -> A) n x, fold_left f (seq 0 (S n)) x = f (fold_left f (seq 0 n) x) n.
Proof. intros. rewrite seq_S, fold_left_app. reflexivity. Qed.

Lemma repair_ok : forall K asgs, Forall (fun j => j < K) (concat asgs) -> K <= length (concat asgs) ->
  exists b, repair K (map (map Some) asgs) = map (map Some) b /\ map (@length nat) b = map (@length nat) asgs /\
    Forall (fun j => j < K) (concat b) /\ refilled K (concat asgs) (concat b).
Proof.
  intros K asgs B L. unfold repair.
  assert (G : forall n, n <= K -> exists counts b,
     fold_left repair_one (seq 0 n) (counts_of K (map (map Some) asgs), map (map Some) asgs) = (counts, map (map Some) b) /\
     map (@length nat) b = map (@length nat) asgs /\ length counts = K /\
     (forall j, j < K -> nth j counts 0 = occurrences j (concat b)) /\ partly K n (concat asgs) (concat b)).
  { induction n as [|n IH]; intro N.
    - destruct (counts_ok K asgs B) as [C1 C2]. exists (counts_of K (map (map Some) asgs)), asgs.
      split; [reflexivity|]. split; [reflexivity|]. split; [exact C1|]. split; [exact C2|now apply partly_0].
    - destruct IH as [counts [b [I1 [I2 [I3 [I4 I5]]]]]]; [lia|]. rewrite fold_seq_S, I1.
      cbn [repair_one]. rewrite (I4 n) by lia.
      destruct (Nat.eqb_spec (occurrences n (concat b)) 0) as [Z|Z].
      + destruct (big_donor K (concat b) counts n (proj1 (proj2 I5)) ltac:(destruct I5 as [X _]; lia) I3 I4 ltac:(lia) Z) as [D1 D2].
        rewrite (I4 _ D1). destruct (Nat.leb_spec (occurrences (donor counts) (concat b)) 1); [lia|].
        destruct (steal_ok (donor counts) b 0) as [r [j [row [S1 [S2 S3]]]]]; [lia|].
        cbn [plus] in S1. rewrite S1.
        destruct (set_at_flat b r j row (donor counts) n (fun _ => True) S2 S3) as [b' [pos [T1 [T2 [T3 [T4 _]]]]]].
        assert (DN : donor counts <> n) by (intro X; rewrite X in D2; lia).
        destruct (counts_move K counts (concat b) pos (donor counts) n I3 I4 D1 ltac:(lia) DN T3) as [M1 M2].
        eexists. exists b'. split; [rewrite T1, <- (I4 _ D1); reflexivity|]. split; [congruence|]. split; [exact M1|].
        rewrite T4. split; [exact M2|]. eapply partly_move; try eassumption; lia.
      + exists counts, b. split; [reflexivity|]. split; [exact I2|]. split; [exact I3|]. split; [exact I4|].
        apply partly_skip; [lia|exact I5|exact Z]. }
  destruct (G K (le_n K)) as [counts [b [G1 [G2 [_ [_ G5]]]]]]. rewrite G1. exists b. cbn [snd].
  split; [reflexivity|]. split; [exact G2|]. split; [apply G5|now apply partly_end].
Qed.

Lemma revive_ok : forall pss asgs cs, Forall (fun j => j < length cs) (concat asgs) ->
  map (@length nat) asgs = map (@length pt) pss -> length cs <= length (concat asgs) ->
  exists counts cs1 b,
    fold_left (revive_one F pss) (seq 0 (length cs)) (mk_ss F (counts_of (length cs) (map (map Some) asgs)) cs (map (map Some) asgs))
      = mk_ss F counts cs1 (map (map Some) b) /\
    map (@length nat) b = map (@length pt) pss /\
    refilled (length cs) (concat asgs) (concat b) /\ Forall (fun j => j < length cs) (concat b) /\
    refilled_centres F cs (concat pss) (concat asgs) (concat b) cs1.
Proof.
  intros pss asgs cs B LP L. set (K := length cs) in *.
  assert (G : forall n, n <= K -> exists counts cs1 b,
     fold_left (revive_one F pss) (seq 0 n) (mk_ss F (counts_of K (map (map Some) asgs)) cs (map (map Some) asgs))
       = mk_ss F counts cs1 (map (map Some) b) /\
     map (@length nat) b = map (@length pt) pss /\ length counts = K /\
     (forall j, j < K -> nth j counts 0 = occurrences j (concat b)) /\ partly K n (concat asgs) (concat b) /\
     length cs1 = K /\
     forall j, j < K ->
       (0 < occurrences j (concat asgs) \/ n <= j -> nth_error cs1 j = nth_error cs j) /\
       (occurrences j (concat asgs) = 0 -> j < n ->
         exists k p, nth_error (concat pss) k = Some p /\ nth_error (concat b) k = Some j /\ nth_error cs1 j = Some (Some p))).
  { induction n as [|n IH]; intro N.
    - destruct (counts_ok K asgs B) as [C1 C2]. exists (counts_of K (map (map Some) asgs)), cs, asgs.
      split; [reflexivity|]. split; [exact LP|]. split; [exact C1|]. split; [exact C2|].
      split; [now apply partly_0|]. split; [reflexivity|]. intros j J. split; [reflexivity|lia].
    - destruct IH as [counts [cs1 [b [I1 [I2 [I3 [I4 [I5 [I6 I7]]]]]]]]]; [lia|]. rewrite fold_seq_S, I1.
      unfold revive_one. cbn [ss_counts ss_cs ss_cls]. rewrite (I4 n) by lia.
      destruct (Nat.eqb_spec (occurrences n (concat b)) 0) as [Z|Z].
      + destruct (big_donor K (concat b) counts n (proj1 (proj2 I5)) ltac:(destruct I5 as [X _]; lia) I3 I4 ltac:(lia) Z) as [D1 D2].
        destruct (steal_ok (donor counts) b 0) as [r [j [row [S1 [S2 S3]]]]]; [lia|].
        cbn [plus] in S1. cbv zeta. rewrite S1.
        destruct (set_at_flat b r j row (donor counts) n (fun _ => True) S2 S3) as [b' [pos [T1 [T2 [T3 [T4 T5]]]]]].
        assert (DN : donor counts <> n) by (intro X; rewrite X in D2; lia).
        destruct (counts_move K counts (concat b) pos (donor counts) n I3 I4 D1 ltac:(lia) DN T3) as [M1 M2].
        assert (PR : exists row' p, nth_error pss r = Some row' /\ nth_error row' j = Some p).
        { assert (X : nth_error (map (@length nat) b) r = Some (length row)) by (rewrite nth_error_map, S2; reflexivity).
          rewrite I2, nth_error_map in X. destruct (nth_error pss r) as [row'|]; [|discriminate].
          cbn in X. injection X as X. assert (J : j < length row) by (apply nth_error_Some; congruence).
          destruct (nth_error row' j) as [p|] eqn:Y; [eauto|]. apply nth_error_None in Y. lia. }
        destruct PR as [row' [p [PR1 PR2]]].
        pose proof (T5 pt pss p row' (eq_sym I2) PR1 PR2) as PP.
        eexists. exists (lset cs1 n (Some p)), b'. rewrite PR1, PR2. split; [rewrite T1; reflexivity|].
        split; [congruence|]. split; [exact M1|]. rewrite T4. split; [exact M2|].
        pose proof (partly_move K n (concat asgs) (concat b) pos (donor counts) ltac:(lia) I5 Z D2 T3) as PM.
        split; [exact PM|]. split; [now rewrite lset_length|].
        assert (PL : pos < length (concat b)) by (apply nth_error_Some; congruence).
        intros i J. destruct (I7 i J) as [Q1 Q2]. split.
        * intro X. assert (i <> n).
          { intros ->. destruct X as [X|X]; [|lia]. destruct I5 as [_ [_ [_ [P _]]]]. specialize (P n X). lia. }
          rewrite nth_error_lset_ne by congruence. apply Q1. destruct X; [now left|right; lia].
        * intros X Y. destruct (Nat.eq_dec i n) as [->|NI].
          -- exists pos, p. split; [exact PP|]. split; [now apply nth_error_lset_eq|]. apply nth_error_lset_eq. lia.
          -- destruct (Q2 X) as [k [p' [R1 [R2 R3]]]]; [lia|]. exists k, p'. split; [exact R1|].
             split; [|rewrite nth_error_lset_ne by congruence; exact R3].
             rewrite nth_error_lset_ne; [exact R2|]. intros ->. rewrite T3 in R2. injection R2 as R2.
             rewrite R2 in D2. destruct I5 as [_ [_ [P _]]]. rewrite (P i J X) in D2. destruct (i <? n); lia.
      + exists counts, cs1, b. split; [reflexivity|]. split; [exact I2|]. split; [exact I3|]. split; [exact I4|].
        split; [apply partly_skip; [lia|exact I5|exact Z]|]. split; [exact I6|].
        intros j J. destruct (I7 j J) as [Q1 Q2]. split.
        * intro X. apply Q1. destruct X; [now left|right; lia].
        * intros X Y. apply Q2; [exact X|]. assert (j <> n); [|lia]. intros ->.
          destruct I5 as [_ [_ [P _]]]. apply Z. rewrite (P n J X), Nat.ltb_irrefl. reflexivity. }
  destruct (G K (le_n K)) as [counts [cs1 [b [G1 [G2 [_ [_ [G5 [G6 G7]]]]]]]]].
  exists counts, cs1, b. split; [exact G1|]. split; [exact G2|]. split; [now apply partly_end|].
  split; [apply G5|]. split; [exact G6|].
  intros j J. destruct (G7 j J) as [Q1 Q2]. split; [intro X; apply Q1; now left|intro X; now apply Q2].
Qed.

(* ----- rounds ----- *)

Definition all_centers cs : Prop := forall j, j < length cs -> exists c, nth_error cs j = Some (Some c).

Lemma recentre_keep_ok : forall k cs ps a t, 1 <= k -> all_centers cs ->
  length t = length cs ->
  (forall j, j < length cs -> nth_error t j = Some (total F (members F j ps a), length (members F j ps a))) ->
  recentred_keep F k cs ps a (recentre_s F k cs t) /\ all_centers (recentre_s F k cs t).
Proof.
  intros k cs ps a t K A L T.
  assert (LR : length (recentre_s F k cs t) = length cs) by (unfold recentre_s; now apply map2_length).
  assert (G : forall j, j < length cs ->
    (members F j ps a = [] -> nth_error (recentre_s F k cs t) j = nth_error cs j) /\
    (members F j ps a <> [] -> exists m c', mean F (members F j ps a) m /\ nth_error (recentre_s F k cs t) j = Some (Some c') /\
       (k = 1 -> c' = m) /\
       (1 < k -> exists c, nth_error cs j = Some (Some c) /\ c' = padd F (pscale F (old_part F) c) (pscale F (new_part F) m)))).
  { intros j J. specialize (T j J). destruct (A j J) as [o O].
    pose proof (map2_nth _ _ _ (fun o t => match divide F t with
      | Some c' => if 1 <? k then match o with Some o' => Some (damp F o' c') | None => None end else Some c'
      | None => o end) _ _ j _ _ O T) as R. fold (recentre_s F k cs t) in R. cbv beta in R.
    split; intro M.
    - rewrite M in R. change (length (@nil pt)) with 0 in R. rewrite divide_empty in R. congruence.
    - destruct (divide_mean F _ M) as [m [D1 D2]]. rewrite D1 in R. exists m. destruct (Nat.ltb_spec 1 k).
      + exists (damp F o m). split; [exact D2|]. split; [exact R|]. split; [lia|]. intros _. exists o.
        split; [exact O|apply damp_ok].
      + exists m. split; [exact D2|]. split; [exact R|]. split; [reflexivity|lia]. }
  split; [now split|]. intros j J. rewrite LR in J. destruct (G j J) as [G1 G2].
  destruct (members F j ps a) eqn:M.
  - rewrite (G1 eq_refl). now apply A.
  - destruct G2 as [m [c' [_ [E _]]]]; [discriminate|]. now exists c'.
Qed.

Lemma idle_exists : forall K a counts, length counts = K -> (forall j, j < K -> nth j counts 0 = occurrences j a) ->
  existsb (fun n => n =? 0) counts = negb (idle K a =? 0).
Proof.
  intros K a counts L C. unfold idle.
  destruct (existsb (fun n => n =? 0) counts) eqn:E.
  - apply existsb_exists in E as [n [I Z]]. apply Nat.eqb_eq in Z. subst n.
    apply In_nth with (d := 0) in I as [j [J I]]. rewrite L in J. rewrite C in I by assumption.
    assert (X : In j (filter (fun j => occurrences j a =? 0) (seq 0 K))).
    { apply filter_In. split; [apply in_seq; lia|]. now rewrite I. }
    destruct (filter (fun j => occurrences j a =? 0) (seq 0 K)); [destruct X|reflexivity].
  - destruct (filter (fun j => occurrences j a =? 0) (seq 0 K)) as [|j l] eqn:X; [reflexivity|].
    exfalso. assert (I : In j (filter (fun j => occurrences j a =? 0) (seq 0 K))) by (rewrite X; now left).
    apply filter_In in I as [I Z]. apply in_seq in I. apply Nat.eqb_eq in Z.
    assert (Y : existsb (fun n => n =? 0) counts = true); [|congruence].
    apply existsb_exists. exists 0. split; [|reflexivity]. rewrite <- Z, <- C by lia. apply nth_In. lia.
Qed.

Lemma all_some : forall cs, 0 < length cs -> all_centers cs -> some_center F cs.
Proof. intros cs L A. destruct (A 0 L) as [c E]. now exists 0, c. Qed.

Lemma asg_length : forall pss asgs, map (@length nat) asgs = map (@length pt) pss -> length (concat asgs) = length (concat pss).
Proof. intros pss asgs E. now rewrite !concat_length, E. Qed.

Lemma sloop_run : forall left iter N cs pss cls,
  1 <= iter -> 0 < length cs -> all_centers cs -> N = length (concat pss) ->
  map (@length (option nat)) cls = map (@length pt) pss ->
  exists cs' asgs, sloop F left iter N cs pss cls = Some (cs', map (map Some) asgs) /\
    map (@length nat) asgs = map (@length pt) pss /\ length cs' = length cs /\ all_centers cs' /\
    keep_run F (left + iter) (concat pss) iter cs (concat cls) cs' (concat asgs).
Proof.
  induction left as [|left IH]; intros iter N cs pss cls I1 K0 A NE L;
    destruct (assign_ok F cs pss (or_intror (all_some cs K0 A))) as [asgs [A1 [A2 A3]]];
    cbn [sloop]; rewrite A1;
    assert (CH := changed_0 cls (map (map Some) asgs) (eq_trans L (eq_trans (eq_sym A2) (eq_sym (map_Some_length asgs)))));
    rewrite map_Some_concat in CH;
    pose proof (Forall2_lt F _ _ _ A3) as B;
    destruct (counts_ok (length cs) asgs B) as [C1 C2];
    rewrite (idle_exists (length cs) (concat asgs) _ C1 C2).
  - rewrite andb_false_r. cbv iota. exists cs, asgs.
    split; [now destruct (_ && _)|]. split; [exact A2|]. split; [reflexivity|]. split; [exact A|].
    apply keep_stop; [exact A3|]. left. lia.
  - rewrite andb_true_r.
    destruct (negb (idle (length cs) (concat asgs) =? 0) && (length cs <=? N)) eqn:R.
    + apply andb_true_iff in R as [R1 R2]. apply Nat.leb_le in R2. apply negb_true_iff, Nat.eqb_neq in R1.
      cbn [negb]. rewrite andb_false_r.
      destruct (revive_ok pss asgs cs B A2) as [counts [cs1 [b [V1 [V2 [V3 [V4 V5]]]]]]].
      { rewrite (asg_length _ _ A2). lia. }
      rewrite V1. cbn [ss_cls ss_cs].
      assert (L1 : length cs1 = length cs) by apply V5.
      assert (AC : all_centers cs1).
      { intros j J. rewrite L1 in J. destruct V5 as [_ V5]. destruct (V5 j J) as [W1 W2].
        destruct (Nat.eq_dec (occurrences j (concat asgs)) 0) as [Z|Z].
        - destruct (W2 Z) as [k [p [_ [_ E]]]]. now exists p.
        - rewrite W1 by lia. now apply A. }
      destruct (all_sums_ok F (length cs) pss b V2 V4) as [t [T1 [T2 T3]]]. rewrite T1.
      rewrite <- L1 in T2, T3.
      destruct (recentre_keep_ok iter cs1 (concat pss) (concat b) t I1 AC T2 T3) as [RK AC'].
      assert (LK : length (recentre_s F iter cs1 t) = length cs1) by apply RK.
      destruct (IH (S iter) N (recentre_s F iter cs1 t) pss (map (map Some) b)) as [cs' [asgs' [B1 [B2 [B3 [B4 B5]]]]]].
      * lia.
      * lia.
      * exact AC'.
      * exact NE.
      * now rewrite map_Some_length.
      * exists cs', asgs'. split; [exact B1|]. split; [exact B2|]. split; [lia|]. split; [exact B4|].
        rewrite map_Some_concat in B5. replace (left + S iter) with (S left + iter) in B5 by lia.
        eapply keep_refill; try eassumption; lia.
    + cbn [negb]. rewrite andb_true_r. cbn [ss_cls ss_cs].
      assert (NR : idle (length cs) (concat asgs) = 0 \/ length (concat pss) < length cs).
      { apply andb_false_iff in R as [R|R].
        - left. apply negb_false_iff, Nat.eqb_eq in R. exact R.
        - right. apply Nat.leb_gt in R. lia. }
      destruct (Nat.eqb_spec (changed cls (map (map Some) asgs)) 0) as [E|E].
      * exists cs, asgs. split; [reflexivity|]. split; [exact A2|]. split; [reflexivity|]. split; [exact A|].
        apply keep_stop; [exact A3|]. right. split; [symmetry; now apply CH|exact NR].
      * destruct (all_sums_ok F (length cs) pss asgs A2 B) as [t [T1 [T2 T3]]]. rewrite T1.
        destruct (recentre_keep_ok iter cs (concat pss) (concat asgs) t I1 A T2 T3) as [RK AC'].
        assert (LK : length (recentre_s F iter cs t) = length cs) by apply RK.
        destruct (IH (S iter) N (recentre_s F iter cs t) pss (map (map Some) asgs)) as [cs' [asgs' [B1 [B2 [B3 [B4 B5]]]]]].
        -- lia.
        -- lia.
        -- exact AC'.
        -- exact NE.
        -- now rewrite map_Some_length.
        -- exists cs', asgs'. split; [exact B1|]. split; [exact B2|]. split; [lia|]. split; [exact B4|].
           rewrite map_Some_concat in B5. replace (left + S iter) with (S left + iter) in B5 by lia.
           eapply keep_round; try eassumption; [|lia]. intro X. apply E, CH. now symmetry.
Qed.

(* ----- start ----- *)

Lemma picker_ok : forall lens i, i < length lens -> (exists r, 0 < nth r lens 0) -> 0 < nth (picker lens i) lens 0.
Proof.
  intros lens i I [r R]. unfold picker.
  assert (RL : r < length lens).
  { destruct (lt_dec r (length lens)); [assumption|]. rewrite nth_overflow in R by lia. lia. }
  destruct (find _ _) as [x|] eqn:E.
  - apply find_some in E as [_ E]. now apply Nat.ltb_lt in E.
  - exfalso. set (P := length lens) in *.
    assert (X : In r (map (fun t => (i + t) mod P) (seq 0 P))).
    { apply in_map_iff. destruct (le_lt_dec i r).
      - exists (r - i). split; [|apply in_seq; lia]. replace (i + (r - i)) with r by lia. now apply Nat.mod_small.
      - exists (r + P - i). split; [|apply in_seq; lia]. replace (i + (r + P - i)) with (r + 1 * P) by lia.
        rewrite Nat.mod_add by lia. now apply Nat.mod_small. }
    pose proof (find_none _ _ E r X) as Y. cbv beta in Y. apply Nat.ltb_ge in Y. lia.
Qed.

Lemma draw_free_lt : forall draw cl attempts a, cl <> [] -> draw_free draw cl attempts a < length cl.
Proof.
  induction attempts; intros a N; cbn [draw_free].
  - apply Nat.mod_upper_bound. destruct cl; [contradiction|discriminate].
  - destruct (nth _ cl None); [now apply IHattempts|]. apply Nat.mod_upper_bound. destruct cl; [contradiction|discriminate].
Qed.

Lemma set_at_lengths : forall A (l : list (list A)) r j x, map (@length A) (set_at l r j x) = map (@length A) l.
Proof.
  intros A l r j x. unfold set_at. destruct (nth_error l r) as [row|] eqn:E; [|reflexivity].
  apply nth_error_ext. intro k. rewrite !nth_error_map, nth_error_lset.
  destruct (Nat.eqb_spec r k) as [->|N]; cbn [andb]; [|reflexivity].
  destruct (k <? length l); [|reflexivity]. rewrite E. cbn. now rewrite lset_length.
Qed.

Lemma seeds_s_ok : forall draw box pss, pss <> [] ->
  let N := length (concat pss) in
  let st := fold_left (seed_s F N draw box pss (locals_of F pss)) (seq 0 (length pss))
              (map (own_center_s F) pss, map (fun ps => repeat None (length ps)) (locals_of F pss)) in
  starts F box pss (fst st) /\ map (@length (option nat)) (snd st) = map (@length pt) (locals_of F pss).
Proof.
  intros draw box pss NE N. destruct (locals_ok F pss NE) as [C [LL _]].
  assert (G : forall n, n <= length pss ->
    let st := fold_left (seed_s F N draw box pss (locals_of F pss)) (seq 0 n)
              (map (own_center_s F) pss, map (fun ps => repeat None (length ps)) (locals_of F pss)) in
    length (fst st) = length pss /\
    map (@length (option nat)) (snd st) = map (@length pt) (locals_of F pss) /\
    forall i own, nth_error pss i = Some own ->
      (own <> [] -> exists m, mean F own m /\ nth_error (fst st) i = Some (Some m)) /\
      (own = [] -> i < n -> exists c, nth_error (fst st) i = Some (Some c) /\
        (In c (concat pss) \/ (length (concat pss) < length pss /\ c = box i)))).
  { induction n as [|n IH]; intros NL st.
    - unfold st. cbn [seq fold_left fst snd]. split; [apply map_length|].
      split; [rewrite map_map; apply map_ext; intro; apply repeat_length|].
      intros i own E. split; [|lia]. intro H. destruct (own_center_mean F own H) as [m [M1 M2]].
      exists m. split; [exact M2|]. rewrite nth_error_map, E. cbn. unfold own_center_s. now rewrite M1.
    - unfold st. rewrite fold_seq_S. clear st. specialize (IH ltac:(lia)). cbv zeta in IH.
      destruct (fold_left _ (seq 0 n) _) as [cs cls]. cbn [fst snd] in IH. destruct IH as [I1 [I2 I3]].
      unfold seed_s.
      assert (EN : nth_error pss n = Some (nth n pss [])) by (apply nth_error_nth'; lia).
      destruct (nth n pss []) as [|p own] eqn:EO.
      2:{ cbn [fst snd]. split; [exact I1|]. split; [exact I2|]. intros i o E. destruct (I3 i o E) as [J1 J2].
          split; [exact J1|]. intros -> J. apply J2; [reflexivity|]. assert (i <> n); [|lia]. intros ->. congruence. }
      destruct (Nat.leb_spec (length pss) N) as [LE|GT].
      + set (lens := map (@length pt) (locals_of F pss)) in *.
        assert (PK : 0 < nth (picker lens n) lens 0).
        { apply picker_ok; [unfold lens; rewrite map_length; lia|].
          destruct (Nat.eq_dec (fold_right plus 0 lens) 0) as [Z|Z].
          - exfalso. unfold lens in Z. rewrite <- concat_length, C in Z. change (N = 0) in Z. rewrite Z in LE. clear - NE LE. destruct pss; [contradiction|cbn in LE; lia].
          - clear - Z. induction lens as [|x lens IHl]; [contradiction|]. cbn in Z. destruct x as [|x].
            + destruct IHl as [r R]; [exact Z|]. now exists (S r).
            + exists 0. cbn. lia. }
        set (r := picker lens n) in *.
        assert (ER : nth_error (locals_of F pss) r = Some (nth r (locals_of F pss) []) /\
                     length (nth r (locals_of F pss) []) = nth r lens 0).
        { unfold lens in *. assert (RL : r < length (locals_of F pss)).
          { destruct (lt_dec r (length (locals_of F pss))); [assumption|]. rewrite nth_overflow in PK by (rewrite map_length; lia). lia. }
          split; [apply nth_error_nth'; exact RL|]. symmetry. apply (map_nth (@length pt) (locals_of F pss) []). }
        destruct ER as [ER1 ER2].
        assert (ECL : length (nth r cls []) = nth r lens 0).
        { rewrite <- I2. symmetry. apply (map_nth (@length (option nat)) cls []). }
        destruct (nth r cls []) as [|x cl] eqn:EC; [cbn in ECL; lia|]. rewrite <- EC in *.
        set (k := draw_free (draw n) (nth r cls []) (length (nth r cls [])) 0).
        assert (K : k < length (nth r (locals_of F pss) [])).
        { rewrite ER2, <- ECL. apply draw_free_lt. rewrite EC. discriminate. }
        destruct (nth_error (nth r (locals_of F pss) []) k) as [c|] eqn:EK; [|apply nth_error_None in EK; lia].
        cbn [fst snd]. split; [now rewrite lset_length|]. split; [rewrite set_at_lengths; exact I2|].
        intros i o E. destruct (I3 i o E) as [J1 J2]. split.
        * intro H. destruct (J1 H) as [m [M1 M2]]. exists m. split; [exact M1|].
          rewrite nth_error_lset_ne; [exact M2|]. intros ->. rewrite EN in E. congruence.
        * intros -> J. destruct (Nat.eq_dec n i) as [<-|NI].
          -- exists c. split; [apply nth_error_lset_eq; lia|]. left. rewrite <- C. apply in_concat.
             eexists. split; eapply nth_error_In; eassumption.
          -- rewrite nth_error_lset_ne by assumption. apply J2; [reflexivity|lia].
      + cbn [fst snd]. split; [now rewrite lset_length|]. split; [exact I2|].
        intros i o E. destruct (I3 i o E) as [J1 J2]. split.
        * intro H. destruct (J1 H) as [m [M1 M2]]. exists m. split; [exact M1|].
          rewrite nth_error_lset_ne; [exact M2|]. intros ->. rewrite EN in E. congruence.
        * intros -> J. destruct (Nat.eq_dec n i) as [<-|NI].
          -- exists (box n). split; [apply nth_error_lset_eq; lia|]. right. split; [exact GT|reflexivity].
          -- rewrite nth_error_lset_ne by assumption. apply J2; [reflexivity|lia]. }
  specialize (G (length pss) (le_n _)). cbv zeta in G |- *. destruct G as [G1 [G2 G3]].
  split; [|exact G2]. split; [exact G1|]. intros i own E. destruct (G3 i own E) as [J1 J2]. split; [exact J1|].
  intro H. apply J2; [exact H|]. apply nth_error_Some. congruence.
Qed.

Lemma seeds_s_marks : forall draw box pss, pss <> [] ->
  let N := length (concat pss) in
  let st := fold_left (seed_s F N draw box pss (locals_of F pss)) (seq 0 (length pss))
              (map (own_center_s F) pss, map (fun ps => repeat None (length ps)) (locals_of F pss)) in
  marks_ok F pss (concat (snd st)).
Proof.
  intros draw box pss NE N st. destruct (seeds_s_ok draw box pss NE) as [_ S2]. destruct (locals_ok F pss NE) as [C [LL _]].
  apply concat_marks; [now rewrite concat_length; unfold st, N; rewrite S2, <- concat_length, C|]. clear S2.
  unfold st. clear st.
  assert (G : forall n, n <= length pss ->
    let st := fold_left (seed_s F N draw box pss (locals_of F pss)) (seq 0 n)
              (map (own_center_s F) pss, map (fun ps => repeat None (length ps)) (locals_of F pss)) in
    forall r row k j, nth_error (snd st) r = Some row -> nth_error row k = Some (Some j) -> nth_error pss j = Some []).
  { induction n as [|n IH]; intros NL.
    - cbn [seq fold_left snd]. intros r row k j E G. rewrite nth_error_map in E.
      destruct (nth_error (locals_of F pss) r); [|discriminate]. cbn in E. injection E as <-.
      apply nth_error_In, repeat_spec in G. discriminate.
    - rewrite fold_seq_S. specialize (IH ltac:(lia)). cbv zeta in IH |- *.
      destruct (fold_left _ (seq 0 n) _) as [cs cls]. cbn [snd] in IH. unfold seed_s.
      assert (EN : nth_error pss n = Some (nth n pss [])) by (apply nth_error_nth'; lia).
      destruct (nth n pss []) as [|p own]; [|exact IH].
      destruct (length pss <=? N); [|exact IH].
      destruct (nth (picker _ n) cls []); [exact IH|]. cbn [snd].
      intros r row k j E G. unfold set_at in E. destruct (nth_error cls (picker _ n)) as [row0|] eqn:E0; [|eapply IH; eassumption].
      rewrite nth_error_lset in E. destruct (_ && _); [|eapply IH; eassumption].
      injection E as <-. rewrite nth_error_lset in G. destruct (_ && _); [|eapply IH; eassumption].
      injection G as <-. exact EN. }
  exact (G (length pss) (le_n _)).
Qed.

Lemma starts_all : forall box pss cs, starts F box pss cs -> all_centers cs.
Proof.
  intros box pss cs [L G] j J. rewrite L in J.
  assert (E : nth_error pss j = Some (nth j pss [])) by (now apply nth_error_nth').
  destruct (G j _ E) as [G1 G2]. destruct (nth j pss []) as [|p own].
  - destruct (G2 eq_refl) as [c [X _]]. now exists c.
  - destruct G1 as [m [_ X]]; [discriminate|]. now exists m.
Qed.

Theorem skmeans_ok : forall draw box pss, pss <> [] ->
  exists cs0 marks cs a asgs, skmeans F draw box pss = Some (map (map Some) asgs) /\
    map (@length nat) asgs = map (@length pt) pss /\ starts F box pss cs0 /\ marks_ok F pss marks /\ length cs = length pss /\
    keep_run F max_iterations (concat pss) 1 cs0 marks cs a /\
    (length (concat pss) < length pss -> concat asgs = a) /\
    (length pss <= length (concat pss) -> refilled (length pss) a (concat asgs)) /\
    Forall (fun j => j < length pss) (concat asgs).
Proof.
  intros draw box pss NE. destruct (seeds_s_ok draw box pss NE) as [S1 S2].
  pose proof (seeds_s_marks draw box pss NE) as SM. cbv zeta in SM.
  destruct (locals_ok F pss NE) as [C [LL [B1 B2]]].
  unfold skmeans. cbv zeta. fold (locals_of F pss). rewrite <- (concat_length pt pss).
  set (st := fold_left _ _ _) in *. clearbody st.
  assert (K0 : 0 < length (fst st)) by (rewrite (proj1 S1); destruct pss; [contradiction|cbn; lia]).
  destruct (sloop_run (max_iterations - 1) 1 (length (concat pss)) (fst st) (locals_of F pss) (snd st)) as [cs [asgs [K1 [K2 [K3 [K4 K5]]]]]].
  - lia.
  - exact K0.
  - eapply starts_all; exact S1.
  - now rewrite C.
  - exact S2.
  - rewrite K1. rewrite C in K5. change (max_iterations - 1 + 1) with max_iterations in K5.
    assert (LC : length cs = length pss) by (rewrite K3; apply S1).
    assert (AN : Forall2 (nearest F cs) (concat pss) (concat asgs)) by (clear - K5; induction K5; assumption).
    pose proof (Forall2_lt F _ _ _ AN) as BB. rewrite LC in BB.
    assert (LA : length (concat asgs) = length (concat pss)) by (rewrite (asg_length _ _ K2), C; reflexivity).
    assert (R : exists b, (if length pss <=? length (concat pss) then repair (length pss) (map (map Some) asgs) else map (map Some) asgs)
                = map (map Some) b /\ map (@length nat) b = map (@length pt) (locals_of F pss) /\
                (length (concat pss) < length pss -> concat b = concat asgs) /\
                (length pss <= length (concat pss) -> refilled (length pss) (concat asgs) (concat b)) /\
                Forall (fun j => j < length pss) (concat b)).
    { destruct (Nat.leb_spec (length pss) (length (concat pss))) as [LE|GT].
      - destruct (repair_ok (length pss) asgs BB) as [b [R1 [R2 [R3 R4]]]]; [lia|].
        exists b. split; [exact R1|]. split; [congruence|]. split; [lia|]. split; [intros _; exact R4|exact R3].
      - exists asgs. split; [reflexivity|]. split; [exact K2|]. split; [reflexivity|]. split; [lia|exact BB]. }
    destruct R as [b [R1 [R2 [R3 [R4 R5]]]]]. rewrite R1.
    destruct (balance F (map (@length pt) pss)) eqn:B.
    + destruct (give_back_shape F pss b NE B R2) as [g [G1 [G2 G3]]].
      exists (fst st), (concat (snd st)), cs, (concat asgs), g. rewrite G1, G3. auto 12.
    + exists (fst st), (concat (snd st)), cs, (concat asgs), b. rewrite R2, (B2 eq_refl). auto 12.
Qed.

End Proofs.
