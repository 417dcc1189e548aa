(** Proofs about set names. *)
From Coq Require Import List Bool Arith Lia Sorted.
From Verif Require Import SetName_Model.
Import ListNotations.

Lemma seq_eq : forall a b, seq a b = true <-> a = b.
Proof.
  induction a as [|x a IH]; intros [|y b]; cbn [seq]; try (split; congruence).
  rewrite andb_true_iff, Nat.eqb_eq, IH. split; [intros [-> ->]; auto|]. intros E. injection E. auto.
Qed.
Lemma seq_spec : forall a b, reflect (a = b) (seq a b).
Proof. intros a b. apply iff_reflect. symmetry. apply seq_eq. Qed.
Lemma slt_irrefl : forall a, slt a a = false.
Proof. induction a as [|x a IH]; cbn [slt]; [reflexivity|]. now rewrite Nat.eqb_refl. Qed.
Lemma slt_trans : forall a b c, slt a b = true -> slt b c = true -> slt a c = true.
Proof.
  induction a as [|x a IH]; intros [|y b] [|z c]; cbn [slt]; try congruence.
  destruct (Nat.eqb_spec x y) as [->|Nx]; destruct (Nat.eqb_spec y z) as [->|Ny]; intros H1 H2.
  - eauto.
  - exact H2.
  - destruct (Nat.eqb_spec x z); [congruence|]. exact H1.
  - apply Nat.ltb_lt in H1, H2. destruct (Nat.eqb_spec x z); [lia|]. apply Nat.ltb_lt. lia.
Qed.
Lemma slt_total : forall a b, slt a b = true \/ a = b \/ slt b a = true.
Proof.
  induction a as [|x a IH]; intros [|y b]; cbn [slt]; auto.
  destruct (Nat.eqb_spec x y) as [->|N].
  - rewrite Nat.eqb_refl. destruct (IH b) as [H|[->|H]]; auto.
  - destruct (Nat.eqb_spec y x); [congruence|]. rewrite !Nat.ltb_lt. lia.
Qed.
Lemma slt_asym : forall a b, slt a b = true -> slt b a = false.
Proof.
  intros a b H. destruct (slt b a) eqn:E; [|reflexivity].
  pose proof (slt_trans _ _ _ H E) as K. now rewrite slt_irrefl in K.
Qed.

(** ** The map *)
Definition before (x y : name * nat) : Prop := slt (fst x) (fst y) = true.
Definition ordered (m : table) : Prop := StronglySorted before m.

Lemma tfind_in : forall m k h, ordered m -> (tfind m k = Some h <-> In (k, h) m).
Proof.
  induction m as [|[k' h'] m IH]; intros k h O; cbn [tfind In]; [split; [discriminate|contradiction]|].
  inversion O as [|? ? O1 O2]; subst. rewrite Forall_forall in O2. destruct (seq_spec k k') as [->|N].
  - split.
    + intros E. injection E as ->. auto.
    + intros [E|H]; [now injection E as ->|]. apply O2 in H. unfold before in H. cbn in H.
      now rewrite slt_irrefl in H.
  - rewrite IH by auto. split; auto. intros [E|H]; auto. congruence.
Qed.
Lemma tfind_none : forall m k, tfind m k = None <-> forall h, ~ In (k, h) m.
Proof.
  induction m as [|[k' h'] m IH]; intros k; cbn [tfind In]; [split; auto|].
  destruct (seq_spec k k') as [->|N].
  - split; [discriminate|]. intros H. exfalso. apply (H h'). auto.
  - rewrite IH. split; intros H h; [intros [E|K]; [congruence|eapply H; eauto]|]. intros K. apply (H h). auto.
Qed.

Lemma tput_in : forall m k h y, ordered m ->
  (In y (tput m k h) <-> y = (k, h) \/ (In y m /\ fst y <> k)).
Proof.
  induction m as [|[k' h'] m IH]; intros k h y O; cbn [tput].
  - cbn. intuition.
  - inversion O as [|? ? O1 O2]; subst. rewrite Forall_forall in O2. destruct (seq_spec k k') as [->|N].
    + cbn [In]. split.
      * intros [<-|H]; [auto|]. right. split; [auto|]. apply O2 in H. unfold before in H. cbn in H.
        intros E. rewrite E, slt_irrefl in H. discriminate.
      * intros [->|[[<-|H] K]]; auto. now contradict K.
    + destruct (slt k k') eqn:E.
      * cbn [In]. split; [|intuition].
        intros [<-|[<-|H]]; [auto|right; split; [auto|cbn; congruence]|]. right. split; [auto|].
        apply O2 in H. unfold before in H. cbn in H. intros <-. pose proof (slt_asym _ _ E). congruence.
      * cbn [In]. rewrite IH by auto. split; [|intuition].
        intros [<-|[->|[H K]]]; [right; split; [auto|cbn; congruence]|auto|auto].
Qed.
Lemma tput_ordered : forall m k h, ordered m -> ordered (tput m k h).
Proof.
  induction m as [|[k' h'] m IH]; intros k h O; cbn [tput]; [repeat constructor|].
  inversion O as [|? ? O1 O2]; subst. destruct (seq_spec k k') as [->|N].
  - constructor; auto.
  - destruct (slt k k') eqn:E.
    + constructor; auto. constructor; auto. rewrite Forall_forall in *. intros x Hx.
      apply O2 in Hx. unfold before in *. cbn in *. eapply slt_trans; eauto.
    + constructor; [now apply IH|]. rewrite Forall_forall in *. intros x Hx. rewrite tput_in in Hx by auto.
      destruct Hx as [->|[Hx _]]; auto. unfold before. cbn.
      destruct (slt_total k k') as [|[|]]; congruence.
Qed.
Lemma terase_in : forall m k y, ordered m -> (In y (terase m k) <-> In y m /\ fst y <> k).
Proof.
  induction m as [|[k' h'] m IH]; intros k y O; cbn [terase In]; [intuition|].
  inversion O as [|? ? O1 O2]; subst. rewrite Forall_forall in O2. destruct (seq_spec k k') as [->|N].
  - split.
    + intros H. split; auto. apply O2 in H. unfold before in H. cbn in H. intros E.
      rewrite E, slt_irrefl in H. discriminate.
    + intros [[<-|H] K]; auto. now contradict K.
  - cbn [In]. rewrite IH by auto. split; [|intuition].
    intros [<-|[H K]]; [split; [auto|cbn; congruence]|auto].
Qed.
Lemma terase_ordered : forall m k, ordered m -> ordered (terase m k).
Proof.
  induction m as [|[k' h'] m IH]; intros k O; cbn [terase]; auto.
  inversion O as [|? ? O1 O2]; subst. destruct (seq k k'); [exact O1|]. constructor; [now apply IH|].
  rewrite Forall_forall in *. intros x Hx. apply terase_in in Hx; auto. apply O2. intuition.
Qed.

(** ** Prefixes *)
Definition starts (n k : name) : Prop := exists r, k = n ++ r.
Lemma starts_seq : forall n k, seq (firstn (length n) k) n = true <-> starts n k.
Proof.
  intros n k. rewrite seq_eq. split.
  - intros E. exists (skipn (length n) k). rewrite <- E at 1. symmetry. apply firstn_skipn.
  - intros [r ->]. rewrite firstn_app, Nat.sub_diag, firstn_all. cbn. apply app_nil_r.
Qed.
(** a name starting with n is not smaller than n *)
Lemma starts_ge : forall n k, starts n k -> slt k n = false.
Proof.
  intros n k [r ->]. induction n as [|x n IH]; cbn [app slt]; [destruct r; reflexivity|].
  now rewrite Nat.eqb_refl.
Qed.
(** cutting keeps the (weak) order *)
Lemma cut_mono : forall n a b c, slt a b = true -> slt c (firstn n a) = true -> slt c (firstn n b) = true.
Proof.
  induction n as [|n IH]; intros a b c H1 H2; [cbn in *; exact H2|].
  destruct a as [|x a]; [destruct c; discriminate|]. destruct b as [|y b]; [discriminate|].
  cbn [firstn] in *. destruct c as [|z c]; [reflexivity|]. cbn [slt] in *.
  destruct (Nat.eqb_spec x y) as [->|Nx].
  - destruct (z =? y); [|exact H2]. eauto.
  - apply Nat.ltb_lt in H1. destruct (Nat.eqb_spec z x) as [->|Nz].
    + destruct (Nat.eqb_spec x y); [congruence|]. now apply Nat.ltb_lt.
    + apply Nat.ltb_lt in H2. destruct (Nat.eqb_spec z y); [lia|]. apply Nat.ltb_lt. lia.
Qed.

Definition startsb (n : name) (x : name * nat) : bool := seq (firstn (length n) (fst x)) n.
Lemma filter_nothing : forall {A} (f : A -> bool) l, (forall x, In x l -> f x = false) -> filter f l = [].
Proof.
  induction l as [|x l IH]; intros H; [reflexivity|]. cbn [filter].
  rewrite (H x) by (now left). apply IH. intros y Hy. apply H. now right.
Qed.
Lemma prefix_loop_ok : forall m n, ordered m -> prefix_loop m n = map snd (filter (startsb n) m).
Proof.
  induction m as [|[k h] m IH]; intros n O; cbn [prefix_loop filter map]; [reflexivity|].
  inversion O as [|? ? O1 O2]; subst. unfold startsb at 1. cbn [fst].
  destruct (seq (firstn (length n) k) n) eqn:E; [cbn; now rewrite IH|].
  destruct (slt n (firstn (length n) k)) eqn:E2; [|now apply IH].
  rewrite filter_nothing; [reflexivity|]. intros [k' h'] Hx. rewrite Forall_forall in O2. apply O2 in Hx.
  unfold before in Hx. cbn in Hx. unfold startsb. cbn.
  pose proof (cut_mono _ _ _ _ Hx E2) as K. destruct (seq_spec (firstn (length n) k') n) as [E3|]; auto.
  rewrite E3, slt_irrefl in K. discriminate.
Qed.
Lemma tfrom_ok : forall m n, ordered m ->
  ordered (tfrom m n) /\ filter (startsb n) (tfrom m n) = filter (startsb n) m.
Proof.
  induction m as [|[k h] m IH]; intros n O; cbn [tfrom]; [auto|].
  inversion O as [|? ? O1 O2]; subst. destruct (slt k n) eqn:E; [|auto].
  destruct (IH n O1) as [I1 I2]. split; [auto|]. rewrite I2. cbn [filter].
  destruct (startsb n (k, h)) eqn:F; [|reflexivity]. apply starts_seq in F. cbn in F.
  apply starts_ge in F. congruence.
Qed.
Lemma by_prefix_ok : forall s n, ordered (search s) ->
  sets_by_prefix s n = map snd (filter (startsb n) (search s)).
Proof.
  intros s n O. unfold sets_by_prefix. destruct (tfrom_ok (search s) n O) as [O1 <-].
  now apply prefix_loop_ok.
Qed.

(** ** The sets *)
Lemma name_of_in : forall l h n, NoDup (map fst l) -> (name_of l h = Some n <-> In (h, n) l).
Proof.
  induction l as [|[x m] l IH]; intros h n N; cbn [name_of In map fst] in *; [split; [discriminate|contradiction]|].
  inversion N as [|? ? N1 N2]; subst. destruct (Nat.eqb_spec h x) as [->|Nx].
  - split; [intros E; injection E as ->; auto|]. intros [E|H]; [now injection E as ->|].
    exfalso. apply N1. apply (in_map fst) in H. exact H.
  - rewrite IH by auto. split; auto. intros [E|H]; auto. congruence.
Qed.
Lemma name_of_none : forall l h, name_of l h = None <-> ~ In h (map fst l).
Proof.
  induction l as [|[x m] l IH]; intros h; cbn [name_of In map fst]; [intuition|].
  destruct (Nat.eqb_spec h x) as [->|N]; [intuition discriminate|]. rewrite IH. intuition.
Qed.
Lemma nodup_filter_map : forall {A B} (f : A -> B) p l, NoDup (map f l) -> NoDup (map f (filter p l)).
Proof.
  induction l as [|x l IH]; intros N; cbn [filter map] in *; [constructor|].
  inversion N as [|? ? N1 N2]; subst. destruct (p x); auto. cbn [map]. constructor; auto.
  intros H. apply N1. apply in_map_iff in H. destruct H as [y [E Hy]]. apply in_map_iff.
  exists y. apply filter_In in Hy. intuition.
Qed.

(** handles distinct, map sorted, every entry of the map is an existing set of that name *)
Definition sound (s : sets) : Prop :=
  NoDup (map fst (alive s)) /\ ordered (search s) /\
  forall k h, In (k, h) (search s) -> In (h, k) (alive s).
(** moreover names distinct and all sets in the map *)
Definition full (s : sets) : Prop :=
  sound s /\ NoDup (map snd (alive s)) /\ forall k h, In (h, k) (alive s) -> In (k, h) (search s).

Lemma unique_sound : forall s h n, sound s -> ~ In h (map fst (alive s)) -> sound (create_unique s h n).
Proof.
  intros s h n [S1 [S2 S3]] Hh. split; [|split]; cbn.
  - now constructor.
  - now apply tput_ordered.
  - intros k x H. apply tput_in in H; auto. destruct H as [E|[H _]]; [injection E as -> ->; auto|]. right. auto.
Qed.
Lemma unique_full : forall s h n, full s -> ~ In h (map fst (alive s)) -> ~ In n (map snd (alive s)) ->
  full (create_unique s h n).
Proof.
  intros s h n [S [F1 F2]] Hh Hn. split; [now apply unique_sound|]. destruct S as [S1 [S2 S3]]. split; cbn.
  - now constructor.
  - intros k x H. apply tput_in; auto. destruct H as [E|H]; [injection E as -> ->; auto|]. right. split; auto.
    cbn. intros ->. apply Hn. apply (in_map snd) in H. exact H.
Qed.
Lemma destroy_sound : forall s h s', sound s -> destroy_set s h = Some s' -> sound s'.
Proof.
  intros s h s' [S1 [S2 S3]] D. unfold destroy_set in D. destruct (name_of (alive s) h) as [n|] eqn:E; [|discriminate].
  injection D as <-. apply name_of_in in E; auto. split; [|split]; cbn.
  - now apply nodup_filter_map.
  - now apply terase_ordered.
  - intros k x H. apply terase_in in H; auto. destruct H as [H K]. cbn in K. apply S3 in H.
    apply filter_In. split; auto. cbn. rewrite negb_true_iff, Nat.eqb_neq. intros ->.
    apply K. assert (Some k = Some n); [|congruence].
    rewrite <- (proj2 (name_of_in (alive s) h k S1) H). now apply name_of_in.
Qed.
Lemma destroy_full : forall s h s', full s -> destroy_set s h = Some s' -> full s'.
Proof.
  intros s h s' [S [F1 F2]] D. split; [eapply destroy_sound; eauto|]. destruct S as [S1 [S2 S3]].
  unfold destroy_set in D. destruct (name_of (alive s) h) as [n|] eqn:E; [|discriminate].
  injection D as <-. apply name_of_in in E; auto. cbn. split.
  - now apply nodup_filter_map.
  - intros k x H. apply filter_In in H. destruct H as [H K]. cbn in K. rewrite negb_true_iff, Nat.eqb_neq in K.
    apply terase_in; auto. split; [auto|]. cbn. intros ->. apply K.
    clear - F1 H E. revert F1 H E. generalize (alive s). intros l N H E.
    induction l as [|[a b] l IH]; [contradiction|]. cbn in *. inversion N as [|? ? N1 N2]; subst.
    destruct H as [H|H], E as [E|E]; try congruence; auto.
    + injection H as -> ->. exfalso. apply N1. apply (in_map snd) in E. exact E.
    + injection E as -> ->. exfalso. apply N1. apply (in_map snd) in H. exact H.
Qed.
