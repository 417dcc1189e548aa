From Coq Require Import List Bool Arith Lia Ring Sorted.
From Verif Require Import Util Row_Model.
Import ListNotations.

Section Row.
Context {R : Type} (r0 r1 : R) (radd rmul rsub : R -> R -> R) (ropp : R -> R).
Context (Rth : ring_theory r0 r1 radd rmul rsub ropp eq).
Add Ring Rring : Rth.
Infix "+" := radd.
Infix "*" := rmul.

(** Weighted sum of the values of a list of entries. *)
Definition lin {K} (phi : K -> R) (l : list (K * R)) : R :=
  fold_right (fun e s => phi (fst e) * snd e + s) r0 l.

Lemma lin_app : forall K (phi : K -> R) l m, lin phi (l ++ m) = lin phi l + lin phi m.
Proof.
  induction l as [|e l IH]; intro m; cbn [app].
  - unfold lin at 2. cbn [fold_right]. ring.
  - change (phi (fst e) * snd e + lin phi (l ++ m) = phi (fst e) * snd e + lin phi l + lin phi m).
    rewrite IH. ring.
Qed.

Lemma lin_rev : forall K (phi : K -> R) l, lin phi (rev l) = lin phi l.
Proof.
  induction l as [|e l IH]; cbn [rev]; auto. rewrite lin_app, IH.
  change (lin phi l + (phi (fst e) * snd e + r0) = phi (fst e) * snd e + lin phi l). ring.
Qed.

Lemma lin_cons : forall K (phi : K -> R) e l, lin phi (e :: l) = phi (fst e) * snd e + lin phi l.
Proof. reflexivity. Qed.

Lemma lin_scale : forall K (phi : K -> R) c l,
  lin phi (map (fun e => (fst e, c * snd e)) l) = c * lin phi l.
Proof.
  induction l as [|e l IH]; cbn [map]; [unfold lin; cbn; ring|].
  rewrite !lin_cons, IH. cbn [fst snd]. ring.
Qed.

(** ** MergeSortedRows *)
Section Key.
Context {K : Type} (keqb kltb : K -> K -> bool).
Hypothesis keqb_spec : forall a b, keqb a b = true <-> a = b.

Lemma merge_both_lin : forall phi alpha beta l r acc ll rr acc1,
  merge_both radd rmul keqb kltb alpha beta l r acc = (ll, rr, acc1) ->
  lin phi acc1 + (alpha * lin phi ll + beta * lin phi rr) =
  lin phi acc + (alpha * lin phi l + beta * lin phi r) /\ (ll = [] \/ rr = []).
Proof.
  intros phi alpha beta. induction l as [|[kl vl] l IHl].
  - intros r acc ll rr acc1. destruct r; cbn; intros [= <- <- <-]; auto.
  - induction r as [|[kr vr] r IHr]; intros acc ll rr acc1; cbn [merge_both].
    + intros [= <- <- <-]; auto.
    + destruct (kltb kl kr).
      * intro E. apply IHl in E. destruct E as [E D]. split; auto. rewrite E, !lin_cons. cbn [fst snd]. ring.
      * destruct (keqb kl kr) eqn:Q.
        -- apply keqb_spec in Q. subst kr.
           intro E. apply IHl in E. destruct E as [E D]. split; auto. rewrite E, !lin_cons. cbn [fst snd]. ring.
        -- intro E. apply IHr in E. destruct E as [E D]. split; auto. rewrite E, !lin_cons. cbn [fst snd]. ring.
Qed.

Lemma merge_rest_lin : forall phi c l acc,
  lin phi (merge_rest radd rmul keqb c l acc) = lin phi acc + c * lin phi l.
Proof.
  intros phi c. induction l as [|[k v] l IH]; intro acc; cbn [merge_rest].
  - unfold lin at 3. cbn. ring.
  - rewrite IH, lin_cons. cbn [fst snd]. destruct acc as [|[k' v'] acc].
    + rewrite !lin_cons. cbn [fst snd]. ring.
    + destruct (keqb k' k) eqn:Q.
      * apply keqb_spec in Q. subst. rewrite !lin_cons. cbn [fst snd]. ring.
      * rewrite !lin_cons. cbn [fst snd]. ring.
Qed.

Lemma merge_rest_len : forall c l acc,
  length (merge_rest radd rmul keqb c l acc) <= length acc + length l.
Proof.
  intros c. induction l as [|[k v] l IH]; intro acc; cbn [merge_rest]; [lia|].
  etransitivity; [apply IH|]. destruct acc as [|[k' v'] acc]; cbn [length]; [lia|].
  destruct (keqb k' k); cbn [length]; lia.
Qed.

Lemma merge_both_len : forall alpha beta l r acc ll rr acc1,
  merge_both radd rmul keqb kltb alpha beta l r acc = (ll, rr, acc1) ->
  length acc1 + length ll + length rr <= length acc + length l + length r.
Proof.
  intros alpha beta. induction l as [|[kl vl] l IHl].
  - intros r acc ll rr acc1. destruct r; cbn; intros [= <- <- <-]; cbn; lia.
  - induction r as [|[kr vr] r IHr]; intros acc ll rr acc1; cbn [merge_both].
    + intros [= <- <- <-]; cbn; lia.
    + destruct (kltb kl kr); [|destruct (keqb kl kr)]; intro E; apply IHl in E || apply IHr in E;
        cbn [length] in *; lia.
Qed.

(** Order: [kltb] is a strict total order. *)
Hypothesis lt_trans : forall a b c, kltb a b = true -> kltb b c = true -> kltb a c = true.
Hypothesis lt_total : forall a b, kltb a b = false -> a <> b -> kltb b a = true.
Hypothesis lt_irr : forall a, kltb a a = false.

Definition klt (a b : K) : Prop := kltb a b = true.
Definition kle (a b : K) : Prop := kltb b a = false.

Lemma kle_cases : forall a b, kle a b -> a = b \/ klt a b.
Proof.
  intros a b H. destruct (keqb a b) eqn:Q.
  - left. now apply keqb_spec.
  - right. apply lt_total; auto. intro; subst. rewrite (proj2 (keqb_spec a a)) in Q; auto. discriminate.
Qed.
Lemma klt_kle : forall a b, klt a b -> kle a b.
Proof. intros a b H. unfold kle. destruct (kltb b a) eqn:Q; auto. pose proof (lt_trans _ _ _ H Q). now rewrite lt_irr in *. Qed.
Lemma kle_refl : forall a, kle a a.
Proof. intro a. apply lt_irr. Qed.
Lemma kle_trans : forall a b c, kle a b -> kle b c -> kle a c.
Proof.
  intros a b c H1 H2. destruct (kle_cases _ _ H1) as [->|H1']; auto.
  destruct (kle_cases _ _ H2) as [->|H2']; auto. apply klt_kle. eapply lt_trans; eauto.
Qed.
Lemma kle_lt_trans : forall a b c, kle a b -> klt b c -> klt a c.
Proof. intros a b c H1 H2. destruct (kle_cases _ _ H1) as [->|H1']; auto. eapply lt_trans; eauto. Qed.
Lemma klt_le_trans : forall a b c, klt a b -> kle b c -> klt a c.
Proof. intros a b c H1 H2. destruct (kle_cases _ _ H2) as [->|H2']; auto. eapply lt_trans; eauto. Qed.

Definition keys (l : list (K * R)) : list K := map fst l.
Definition le_sorted (l : list (K * R)) : Prop := StronglySorted kle (keys l).
Definition lt_sorted (l : list (K * R)) : Prop := StronglySorted klt (keys l).

Lemma is_sorted_spec : forall l, is_sorted kltb l = true <-> le_sorted l.
Proof.
  unfold le_sorted, keys. induction l as [|[k v] l IH]; cbn [is_sorted map fst].
  - split; auto. constructor.
  - destruct l as [|[k' v'] l].
    + split; auto. intros _. cbn. constructor; constructor.
    + rewrite andb_true_iff, IH, negb_true_iff. split.
      * intros [H1 H2]. constructor; auto. cbn [map fst] in *. constructor; auto.
        inversion H2 as [|? ? _ F]; subst. eapply Forall_impl; [|exact F]. cbn. intros a Ha. eapply kle_trans; eauto.
      * intro H. inversion H as [|? ? H2 F]; subst. split; auto. cbn [map fst] in F. now inversion F.
Qed.

Lemma lt_le_sorted : forall l, lt_sorted l -> le_sorted l.
Proof.
  unfold lt_sorted, le_sorted. intros l H. induction H; constructor; auto.
  eapply Forall_impl; [|eauto]. intros b. apply klt_kle.
Qed.

(** Output is written in order: [dec acc] says the reversed output is sorted,
    [below acc l] that everything written is before everything still to come. *)
Definition dec (rel : K -> K -> Prop) (acc : list (K * R)) : Prop :=
  StronglySorted (fun a b => rel b a) (keys acc).
Definition below (rel : K -> K -> Prop) (acc l : list (K * R)) : Prop :=
  forall a b, In a (keys acc) -> In b (keys l) -> rel a b.

Lemma sorted_rev : forall rel acc, dec rel acc -> StronglySorted rel (keys (rev acc)).
Proof.
  intros rel acc. unfold dec, keys. rewrite map_rev. generalize (map fst acc). clear.
  induction l as [|a l IH]; intro H; cbn [rev]; [constructor|].
  inversion H as [|? ? H1 F]; subst. specialize (IH H1). clear H H1.
  rewrite Forall_forall in F.
  assert (G : forall x, In x (rev l) -> rel x a) by (intros x Hx; apply F; now apply in_rev).
  clear F. induction (rev l) as [|b m IHm]; cbn [app].
  - constructor; constructor.
  - inversion IH as [|? ? I1 I2]; subst. constructor.
    + apply IHm; auto. intros; apply G. now right.
    + apply Forall_app. split; auto. constructor; auto. apply G. now left.
Qed.

Lemma dec_cons : forall rel k v acc, dec rel acc -> (forall a, In a (keys acc) -> rel a k) ->
  dec rel ((k, v) :: acc).
Proof. intros rel k v acc H F. unfold dec, keys. cbn [map fst]. constructor; auto. now apply Forall_forall. Qed.

Section Rel.
Variable rel : K -> K -> Prop.
Hypothesis rel_cases : (forall a b, rel a b <-> kle a b) \/ (forall a b, rel a b <-> klt a b).
Definition rsorted (l : list (K * R)) : Prop := StronglySorted rel (keys l).

Lemma rel_kle : forall a b, rel a b -> kle a b.
Proof. destruct rel_cases as [H|H]; intros a b Q; apply H in Q; auto. now apply klt_kle. Qed.
Lemma klt_rel : forall a b, klt a b -> rel a b.
Proof. destruct rel_cases as [H|H]; intros a b Q; apply H; auto. now apply klt_kle. Qed.
Lemma rel_trans : forall a b c, rel a b -> rel b c -> rel a c.
Proof.
  destruct rel_cases as [H|H]; intros a b c Q1 Q2; apply H in Q1, Q2; apply H.
  - eapply kle_trans; eauto.
  - eapply lt_trans; eauto.
Qed.
Lemma klt_rel_trans : forall a b c, klt a b -> rel b c -> rel a c.
Proof. intros a b c H1 H2. apply klt_rel. eapply klt_le_trans; eauto. now apply rel_kle. Qed.

Lemma merge_both_sorted : forall alpha beta l r acc ll rr acc1,
  merge_both radd rmul keqb kltb alpha beta l r acc = (ll, rr, acc1) ->
  rsorted l -> rsorted r -> dec rel acc -> below rel acc l -> below rel acc r ->
  rsorted ll /\ rsorted rr /\ dec rel acc1 /\ below rel acc1 ll /\ below rel acc1 rr.
Proof.
  intros alpha beta. induction l as [|[kl vl] l IHl].
  - intros r acc ll rr acc1. destruct r; cbn; intros [= <- <- <-]; auto.
  - induction r as [|[kr vr] r IHr]; intros acc ll rr acc1; cbn [merge_both].
    + intros [= <- <- <-]; auto.
    + intros E Sl Sr D Bl Br.
      inversion Sl as [|? ? Sl1 Sl2]; subst. inversion Sr as [|? ? Sr1 Sr2]; subst.
      cbn [fst] in *. rewrite Forall_forall in Sl2, Sr2.
      assert (Dl : forall v, dec rel ((kl, v) :: acc)).
      { intro v. apply dec_cons; auto. intros a Ha. apply Bl; auto. now left. }
      assert (Dr : forall v, dec rel ((kr, v) :: acc)).
      { intro v. apply dec_cons; auto. intros a Ha. apply Br; auto. now left. }
      destruct (kltb kl kr) eqn:Q1.
      * apply IHl in E; auto.
        -- intros a b [<-|Ha] Hb; [apply Sl2; auto|]. apply Bl; auto. now right.
        -- intros a b [<-|Ha] Hb; [|apply Br; auto]. cbn [fst].
           destruct Hb as [<-|Hb]; [now apply klt_rel|]. eapply klt_rel_trans; eauto.
      * destruct (keqb kl kr) eqn:Q2.
        -- apply keqb_spec in Q2. subst kr.
           apply IHl in E; auto.
           ++ intros a b [<-|Ha] Hb; [apply Sl2; auto|]. apply Bl; auto. now right.
           ++ intros a b [<-|Ha] Hb; [apply Sr2; auto|]. apply Br; auto. now right.
        -- assert (Hlt : klt kr kl).
           { apply lt_total; auto. intro; subst. rewrite (proj2 (keqb_spec kr kr)) in Q2; auto. discriminate. }
           apply IHr in E; auto.
           ++ intros a b [<-|Ha] Hb; [|apply Bl; auto]. cbn [fst].
              destruct Hb as [<-|Hb]; [now apply klt_rel|]. eapply klt_rel_trans; eauto.
           ++ intros a b [<-|Ha] Hb; [apply Sr2; auto|]. apply Br; auto. now right.
Qed.

Lemma merge_rest_sorted : forall c l acc, rsorted l -> dec rel acc -> below rel acc l ->
  dec rel (merge_rest radd rmul keqb c l acc) /\
  (forall k, In k (keys (merge_rest radd rmul keqb c l acc)) -> In k (keys acc) \/ In k (keys l)).
Proof.
  intros c. induction l as [|[k v] l IH]; intros acc Sl D B; cbn [merge_rest]; [auto|].
  inversion Sl as [|? ? S1 S2]; subst. rewrite Forall_forall in S2. cbn [fst] in *.
  assert (Gen : dec rel ((k, c * v) :: acc) /\ below rel ((k, c * v) :: acc) l).
  { split.
    - apply dec_cons; auto. intros a Ha. apply B; auto. now left.
    - intros a b [<-|Ha] Hb; [apply S2; auto|]. apply B; auto. now right. }
  destruct acc as [|[k' v'] acc].
  - destruct (IH [(k, c * v)] S1 (proj1 Gen) (proj2 Gen)) as [I1 I2]. split; auto.
    intros q Hq. apply I2 in Hq. destruct Hq as [[<-|[]]|Hq]; cbn; auto.
  - destruct (keqb k' k) eqn:Q.
    + apply keqb_spec in Q. subst k'.
      destruct (IH ((k, v' + c * v) :: acc) S1) as [I1 I2].
      * exact D.
      * intros a b Ha Hb. apply B; [exact Ha|now right].
      * split; auto. intros q Hq. apply I2 in Hq. destruct Hq as [Hq|Hq]; [left; exact Hq|]. cbn; auto.
    + destruct (IH ((k, c * v) :: (k', v') :: acc) S1 (proj1 Gen) (proj2 Gen)) as [I1 I2]. split; auto.
      intros q Hq. apply I2 in Hq. destruct Hq as [[<-|Hq]|Hq]; cbn in *; tauto.
Qed.

Lemma merge_sorted_rel : forall alpha l beta r o,
  rsorted l -> rsorted r -> merge_sorted radd rmul keqb kltb alpha l beta r = Some o -> rsorted o.
Proof.
  intros alpha l beta r o Sl Sr E. unfold merge_sorted in E.
  destruct (_ && _); [|discriminate].
  destruct (merge_both radd rmul keqb kltb alpha beta l r []) as [[ll rr] acc] eqn:M.
  injection E as <-. pose proof (merge_both_lin (fun _ => r0) _ _ _ _ _ _ _ _ M) as [_ Hn].
  apply merge_both_sorted in M; auto; try (intros a b []); [|constructor].
  destruct M as (S1 & S2 & D & B1 & B2). apply sorted_rev.
  destruct (merge_rest_sorted alpha ll acc S1 D B1) as [D1 I1].
  apply merge_rest_sorted; auto.
  intros a b Ha Hb. destruct Hn as [->| ->]; [|destruct Hb].
  cbn [merge_rest] in *. apply B2; auto.
Qed.
End Rel.
End Key.

(** ** Instances *)
Lemma nat_eqb_spec : forall a b, Nat.eqb a b = true <-> a = b.
Proof. exact Nat.eqb_eq. Qed.
Lemma nat_ltb_trans : forall a b c, Nat.ltb a b = true -> Nat.ltb b c = true -> Nat.ltb a c = true.
Proof. intros a b c H1 H2. apply Nat.ltb_lt in H1, H2. apply Nat.ltb_lt. lia. Qed.
Lemma nat_ltb_total : forall a b, Nat.ltb a b = false -> a <> b -> Nat.ltb b a = true.
Proof. intros a b H1 H2. apply Nat.ltb_ge in H1. apply Nat.ltb_lt. lia. Qed.
Lemma heq_spec : forall a b, heq a b = true <-> a = b.
Proof.
  intros [a1 a2] [b1 b2]. unfold heq. cbn [fst snd]. rewrite andb_true_iff, !Nat.eqb_eq. split.
  - intros [-> ->]; auto.
  - intros [= -> ->]; auto.
Qed.
Lemma hlt_spec : forall a b, hlt a b = true <-> fst a < fst b \/ (fst a = fst b /\ snd a < snd b).
Proof.
  intros [a1 a2] [b1 b2]. unfold hlt. cbn [fst snd].
  rewrite orb_true_iff, andb_true_iff, !Nat.ltb_lt, Nat.eqb_eq. tauto.
Qed.
Lemma hlt_trans : forall a b c, hlt a b = true -> hlt b c = true -> hlt a c = true.
Proof. intros a b c. rewrite !hlt_spec. lia. Qed.
Lemma hlt_total : forall a b, hlt a b = false -> a <> b -> hlt b a = true.
Proof.
  intros [a1 a2] [b1 b2] H1 H2. apply hlt_spec. cbn [fst snd].
  assert (~ (a1 < b1 \/ a1 = b1 /\ a2 < b2)).
  { intro Q. apply (hlt_spec (a1,a2) (b1,b2)) in Q. congruence. }
  destruct (Nat.eq_dec a1 b1); destruct (Nat.eq_dec a2 b2); subst; try lia. congruence.
Qed.
Lemma hlt_irr : forall a, hlt a a = false.
Proof. intro a. destruct (hlt a a) eqn:Q; auto. apply hlt_spec in Q. lia. Qed.

Definition hle := kle hlt.
Definition hltp := klt hlt.
Lemma hle_spec : forall a b, hle a b <-> fst a < fst b \/ (fst a = fst b /\ snd a <= snd b).
Proof.
  intros a b. unfold hle, kle. rewrite <- not_true_iff_false, hlt_spec. lia.
Qed.

(** ** MergeJacobianHessian *)
Context (half : R).

Lemma mi_ge : forall a b, b <= a -> make_index a b = (b, a).
Proof.
  intros a b H. unfold make_index. destruct (b <? a) eqn:Q; destruct (a <? b) eqn:Q2;
    try apply Nat.ltb_lt in Q; try apply Nat.ltb_ge in Q; try apply Nat.ltb_lt in Q2; try apply Nat.ltb_ge in Q2;
    f_equal; lia.
Qed.
Lemma mi_comm : forall a b, make_index a b = make_index b a.
Proof.
  intros a b. destruct (Nat.le_ge_cases a b) as [H|H].
  - rewrite (mi_ge b a H). unfold make_index. destruct (b <? a) eqn:Q; destruct (a <? b) eqn:Q2;
    try apply Nat.ltb_lt in Q; try apply Nat.ltb_ge in Q; try apply Nat.ltb_lt in Q2; try apply Nat.ltb_ge in Q2;
    f_equal; lia.
  - rewrite (mi_ge a b H). unfold make_index. destruct (b <? a) eqn:Q; destruct (a <? b) eqn:Q2;
    try apply Nat.ltb_lt in Q; try apply Nat.ltb_ge in Q; try apply Nat.ltb_lt in Q2; try apply Nat.ltb_ge in Q2;
    f_equal; lia.
Qed.

Lemma SS_app : forall X (rel : X -> X -> Prop) l m, StronglySorted rel l -> StronglySorted rel m ->
  (forall a b, In a l -> In b m -> rel a b) -> StronglySorted rel (l ++ m).
Proof.
  intros X rel l m H1 H2 H3. induction H1 as [|a l H1 IH F]; cbn [app]; auto. constructor.
  - apply IH. intros; apply H3; auto. now right.
  - apply Forall_app. split; auto. apply Forall_forall. intros; apply H3; auto. now left.
Qed.

(** *** One synthesised stream: rows A (fast counter) and B (slow counter). *)
Section Stream.
Variables A B : row R.
Variable pe : nat -> nat -> option (hindex * R).
Definition nA := length A.
Definition nB := length B.
Definition colA k := fst (nth k A (0, r0)).
Definition colB l := fst (nth l B (0, r0)).
Hypothesis pe_some : forall k l, k < nA -> l < nB -> exists v, pe k l = Some (make_index (colA k) (colB l), v).
Hypothesis pe_none : forall k l, nA <= k \/ nB <= l -> pe k l = None.
Hypothesis srtA : lt_sorted Nat.ltb A.
Hypothesis srtB : lt_sorted Nat.ltb B.

Lemma col_mono_gen : forall (C : row R) i j, lt_sorted Nat.ltb C -> i < j -> j < length C ->
  fst (nth i C (0, r0)) < fst (nth j C (0, r0)).
Proof.
  unfold lt_sorted, keys. induction C as [|e C IH]; intros i j H Hij Hj; cbn [length] in Hj; [lia|].
  inversion H as [|? ? H1 H2]; subst. destruct j as [|j]; [lia|]. destruct i as [|i]; cbn [nth].
  - rewrite Forall_forall in H2. apply Nat.ltb_lt. apply H2. apply in_map. apply nth_In. lia.
  - apply IH; auto; lia.
Qed.
Lemma colA_mono : forall i j, i < j -> j < nA -> colA i < colA j.
Proof. intros. now apply col_mono_gen. Qed.
Lemma colB_mono : forall i j, i < j -> j < nB -> colB i < colB j.
Proof. intros. now apply col_mono_gen. Qed.

(** first k with A[k] >= B[l] *)
Definition fi (l : nat) : nat := length (filter (fun e => fst e <? colB l) A).

Lemma filter_low_gen : forall (C : row R) c, lt_sorted Nat.ltb C ->
  let n := length (filter (fun e => fst e <? c) C) in
  n <= length C /\ (forall k, k < length C -> (fst (nth k C (0, r0)) < c <-> k < n)).
Proof.
  unfold lt_sorted, keys. induction C as [|[k0 v0] C IH]; intros c H; cbn [filter length fst]; [split; [lia|]; intros; lia|].
  inversion H as [|? ? H1 H2]; subst. destruct (IH c H1) as [I1 I2]. clear IH. cbn [fst] in H2.
  destruct (k0 <? c) eqn:Q; cbn [length].
  - apply Nat.ltb_lt in Q. split; [lia|]. intros [|k] Hk; cbn [nth fst]; [lia|].
    rewrite I2 by lia. lia.
  - apply Nat.ltb_ge in Q.
    assert (E : filter (fun e : nat * R => fst e <? c) C = []).
    { clear - H2 Q. rewrite Forall_forall in H2. induction C as [|e C IH]; cbn [filter]; auto.
      assert (k0 < fst e) by (apply Nat.ltb_lt; apply H2; now left).
      destruct (fst e <? c) eqn:Q2; [apply Nat.ltb_lt in Q2; lia|]. apply IH. intros x Hx. apply H2. now right. }
    rewrite E. cbn [length]. split; [lia|]. intros k Hk.
    assert (k0 <= fst (nth k ((k0, v0) :: C) (0, r0))).
    { destruct k; cbn [nth]; [cbn; lia|]. rewrite Forall_forall in H2.
      apply Nat.lt_le_incl, Nat.ltb_lt, H2, in_map, nth_In. lia. }
    lia.
Qed.
Lemma fi_le : forall l, fi l <= nA.
Proof. intro l. apply (filter_low_gen A (colB l) srtA). Qed.
Lemma fi_spec : forall l k, k < nA -> (colA k < colB l <-> k < fi l).
Proof. intros l k H. apply (filter_low_gen A (colB l) srtA); auto. Qed.
Lemma fi_mono : forall l l', l <= l' -> l' < nB -> fi l <= fi l'.
Proof.
  intros l l' H H'. destruct (Nat.eq_dec l l') as [->|]; auto.
  assert (colB l < colB l') by (apply colB_mono; lia).
  destruct (Nat.le_gt_cases (fi l) (fi l')); auto.
  pose proof (fi_le l). assert (Hk : fi l' < nA) by lia.
  pose proof (proj2 (fi_spec l (fi l') Hk)). pose proof (proj1 (fi_spec l' (fi l') Hk)). lia.
Qed.

Lemma nth_err : forall (C : row R) k, k < length C -> nth_error C k = Some (nth k C (0, r0)).
Proof. intros C k H. now apply nth_error_nth'. Qed.

Lemma skip_lower_spec : forall f kk l, l < nB -> kk <= fi l -> nA <= f + kk ->
  skip_lower f A B kk l = Some (fi l).
Proof.
  induction f as [|f IH]; intros kk l Hl Hk Hf.
  - pose proof (fi_le l). unfold skip_lower.
    replace (nth_error A kk) with (@None (nat * R)) by (symmetry; apply nth_error_None; unfold nA in *; lia).
    f_equal. lia.
  - cbn [skip_lower]. pose proof (fi_le l) as Hle. destruct (Nat.lt_ge_cases kk nA) as [Q|Q].
    + rewrite (nth_err A kk Q), (nth_err B l Hl).
      pose proof (fi_spec l kk Q) as F. unfold colA, colB in F.
      destruct (nth kk A (0, r0)) as [ca va]. destruct (nth l B (0, r0)) as [cb vb]. cbn [fst] in *.
      destruct (ca <? cb) eqn:E.
      * apply Nat.ltb_lt in E. apply IH; auto; lia.
      * apply Nat.ltb_ge in E. f_equal. lia.
    + replace (nth_error A kk) with (@None (nat * R)) by (symmetry; apply nth_error_None; unfold nA in *; lia).
      f_equal. lia.
Qed.

(** remaining entries of the stream *)
Definition opt1 {X} (o : option X) : list X := match o with Some x => [x] | None => [] end.
Definition blk (k l : nat) : list (hindex * R) := flat_map (fun k' => opt1 (pe k' l)) (seq k (nA - k)).
Definition later (l : nat) : list (hindex * R) := flat_map (fun l' => blk (fi l') l') (seq l (nB - l)).
Definition rem (k l : nat) : list (hindex * R) := if l <? nB then blk k l ++ later (S l) else [].

Definition sinv (k l kk : nat) : Prop := k <= nA /\ l <= nB /\ (l < nB -> kk = fi l /\ kk <= k /\ (k = nA -> fi l = nA)).

Lemma later_eq : forall l, l < nB -> later l = blk (fi l) l ++ later (S l).
Proof. intros l H. unfold later. replace (nB - l) with (S (nB - S l)) by lia. reflexivity. Qed.
Lemma blk_eq : forall k l e, k < nA -> pe k l = Some e -> blk k l = e :: blk (S k) l.
Proof. intros k l e H E. unfold blk. replace (nA - k) with (S (nA - S k)) by lia. cbn [seq flat_map]. now rewrite E. Qed.
Lemma blk_nil : forall k l, nA <= k -> blk k l = [].
Proof. intros k l H. unfold blk. replace (nA - k) with 0 by lia. reflexivity. Qed.
Lemma later_nil : forall l l', nA <= fi l -> l <= l' -> later l' = [].
Proof.
  intros l l' H H1. unfold later.
  assert (F : forall x, In x (seq l' (nB - l')) -> blk (fi x) x = []).
  { intros x Hx. apply in_seq in Hx. apply blk_nil. pose proof (fi_mono l x). lia. }
  induction (seq l' (nB - l')) as [|x s IH]; cbn [flat_map]; auto.
  rewrite F by now left. apply IH. intros; apply F. now right.
Qed.
Lemma later_eq_rem : forall l, later l = rem (fi l) l.
Proof.
  intro l. unfold rem. destruct (l <? nB) eqn:Q.
  - apply Nat.ltb_lt in Q. now apply later_eq.
  - apply Nat.ltb_ge in Q. unfold later. replace (nB - l) with 0 by lia. reflexivity.
Qed.

Lemma rem_head : forall k l kk, sinv k l kk -> pe k l = hd_error (rem k l).
Proof.
  intros k l kk (H1 & H2 & H3). unfold rem. destruct (l <? nB) eqn:Q.
  - apply Nat.ltb_lt in Q. destruct (Nat.eq_dec k nA) as [->|N].
    + rewrite pe_none by lia. rewrite blk_nil by lia. destruct (H3 Q) as (E1 & E2 & E3).
      rewrite (later_nil l (S l)) by (specialize (E3 eq_refl); lia). reflexivity.
    + destruct (pe_some k l) as [v E]; [lia|lia|].
      assert (Hk : k < nA) by lia. rewrite (blk_eq _ _ _ Hk E), E. reflexivity.
  - apply Nat.ltb_ge in Q. rewrite pe_none by lia. reflexivity.
Qed.

Definition snext (k l kk : nat) : option (nat * nat * nat) :=
  if S k =? nA then
    if S l <? nB then
      match skip_lower nA A B kk (S l) with
      | Some kk' => Some (kk', S l, kk')
      | None => None
      end
    else Some (S k, S l, kk)
  else Some (S k, l, kk).

Lemma snext_spec : forall k l kk e, sinv k l kk -> pe k l = Some e ->
  exists k' l' kk', snext k l kk = Some (k', l', kk') /\ sinv k' l' kk' /\ rem k l = e :: rem k' l'.
Proof.
  intros k l kk e (H1 & H2 & H3) E.
  assert (Hk : k < nA) by (destruct (Nat.lt_ge_cases k nA); auto; rewrite pe_none in E by lia; discriminate).
  assert (Hl : l < nB) by (destruct (Nat.lt_ge_cases l nB); auto; rewrite pe_none in E by lia; discriminate).
  destruct (H3 Hl) as (E1 & E2 & E3). unfold snext, rem at 1.
  replace (l <? nB) with true by (symmetry; now apply Nat.ltb_lt).
  rewrite (blk_eq _ _ _ Hk E).
  destruct (S k =? nA) eqn:Q1.
  - apply Nat.eqb_eq in Q1. rewrite blk_nil by lia. cbn [app].
    destruct (S l <? nB) eqn:Q2.
    + apply Nat.ltb_lt in Q2. rewrite skip_lower_spec; auto; [|subst kk; apply fi_mono; lia|lia].
      exists (fi (S l)), (S l), (fi (S l)). split; [reflexivity|]. split.
      * unfold sinv. pose proof (fi_le (S l)). split; [lia|]. split; [lia|]. intros _. split; [reflexivity|]. split; [lia|auto].
      * f_equal. rewrite later_eq_rem. reflexivity.
    + apply Nat.ltb_ge in Q2. exists (S k), (S l), kk. split; [reflexivity|]. split.
      * unfold sinv. split; [lia|]. split; [lia|]. intro; lia.
      * f_equal. rewrite later_eq_rem. unfold rem.
        replace (S l <? nB) with false by (symmetry; apply Nat.ltb_ge; lia). reflexivity.
  - apply Nat.eqb_neq in Q1. exists (S k), l, kk. split; [reflexivity|]. split.
    + unfold sinv. split; [lia|]. split; [lia|]. intros _. split; [auto|]. split; [lia|]. intro; lia.
    + unfold rem. replace (l <? nB) with true by (symmetry; now apply Nat.ltb_lt). reflexivity.
Qed.

Lemma sinv_init : 0 < nB \/ nA = 0 -> exists kk, skip_lower nA A B 0 0 = Some kk /\ sinv kk 0 kk /\ rem kk 0 = later 0.
Proof.
  intros [H|H].
  - exists (fi 0). rewrite skip_lower_spec by lia. split; auto. split.
    + pose proof (fi_le 0). unfold sinv. split; [lia|]. split; [lia|]. intros _. auto.
    + now rewrite later_eq_rem.
  - pose proof (fi_le 0) as F. exists 0. split; [|split].
    + rewrite H. unfold skip_lower. replace (nth_error A 0) with (@None (nat * R)); auto.
      symmetry. apply nth_error_None. unfold nA in H. lia.
    + unfold sinv. split; [lia|]. split; [lia|]. intros _. split; [lia|]. split; lia.
    + rewrite later_eq_rem. f_equal. lia.
Qed.

Lemma in_blk : forall x k l, l < nB -> In x (keys (blk k l)) ->
  exists k', k <= k' /\ k' < nA /\ x = make_index (colA k') (colB l).
Proof.
  intros x k l Hl H. unfold keys, blk in H. apply in_map_iff in H. destruct H as (e & <- & H).
  apply in_flat_map in H. destruct H as (k' & H1 & H2). apply in_seq in H1.
  destruct (pe_some k' l) as [v E]; [lia|lia|]. rewrite E in H2. destruct H2 as [<-|[]].
  exists k'. cbn [fst]. split; [lia|]. split; [lia|auto].
Qed.
Lemma in_later : forall x l, In x (keys (later l)) ->
  exists k' l', l <= l' /\ l' < nB /\ fi l' <= k' /\ k' < nA /\ x = make_index (colA k') (colB l').
Proof.
  intros x l H. unfold keys, later in H. apply in_map_iff in H. destruct H as (e & <- & H).
  apply in_flat_map in H. destruct H as (l' & H1 & H2). apply in_seq in H1.
  destruct (in_blk (fst e) (fi l') l') as (k' & A1 & A2 & A3); [lia|apply in_map; exact H2|].
  exists k', l'. split; [lia|]. split; [lia|auto].
Qed.

Lemma mi_fi : forall k l, fi l <= k -> k < nA -> make_index (colA k) (colB l) = (colB l, colA k).
Proof. intros k l H1 H2. apply mi_ge. pose proof (fi_spec l k H2). lia. Qed.

Lemma blk_sorted : forall d k l, l < nB -> fi l <= k -> nA - k = d -> StronglySorted hltp (keys (blk k l)).
Proof.
  induction d as [|d IH]; intros k l Hl Hk Hd.
  - rewrite blk_nil by lia. constructor.
  - destruct (pe_some k l) as [v E]; [lia|lia|]. assert (Hk' : k < nA) by lia.
    rewrite (blk_eq _ _ _ Hk' E). unfold keys. cbn [map fst]. constructor; [apply IH; lia|].
    apply Forall_forall. intros x Hx. apply in_blk in Hx; auto. destruct Hx as (k' & A1 & A2 & ->).
    rewrite !mi_fi by lia. unfold hltp, klt. apply hlt_spec. cbn [fst snd]. right. split; auto. apply colA_mono; lia.
Qed.

Lemma later_sorted : forall d l, nB - l = d -> StronglySorted hltp (keys (later l)).
Proof.
  induction d as [|d IH]; intros l Hd.
  - unfold later. rewrite Hd. constructor.
  - rewrite later_eq by lia. unfold keys. rewrite map_app. apply SS_app.
    + apply (blk_sorted (nA - fi l)); lia.
    + apply IH. lia.
    + intros a b Ha Hb. apply in_blk in Ha; [|lia]. destruct Ha as (k & A1 & A2 & ->).
      apply in_later in Hb. destruct Hb as (k' & l' & B1 & B2 & B3 & B4 & ->).
      rewrite !mi_fi by lia. unfold hltp, klt. apply hlt_spec. cbn [fst snd]. left. apply colB_mono; lia.
Qed.

(** sums *)
Lemma lin_flat : forall X phi (f : X -> list (hindex * R)) l,
  lin phi (flat_map f l) = fold_right (fun x s => lin phi (f x) + s) r0 l.
Proof. induction l as [|x l IH]; cbn [flat_map fold_right]; auto. now rewrite lin_app, IH. Qed.
End Stream.

Definition sumf {X} (f : X -> R) (l : list X) : R := fold_right (fun x s => f x + s) r0 l.
Lemma sumf_cons : forall X (f : X -> R) x l, sumf f (x :: l) = f x + sumf f l.
Proof. reflexivity. Qed.
Lemma sumf_ext : forall X (f g : X -> R) l, (forall x, In x l -> f x = g x) -> sumf f l = sumf g l.
Proof.
  induction l as [|x l IH]; intro H; auto. rewrite !sumf_cons, H, IH; auto.
  - intros; apply H. now right.
  - now left.
Qed.
Lemma sumf_app : forall X (f : X -> R) l m, sumf f (l ++ m) = sumf f l + sumf f m.
Proof.
  induction l as [|x l IH]; intro m; cbn [app].
  - unfold sumf at 2. cbn. ring.
  - rewrite !sumf_cons, IH. ring.
Qed.
Lemma sumf_zero : forall X (f : X -> R) l, (forall x, In x l -> f x = r0) -> sumf f l = r0.
Proof.
  induction l as [|x l IH]; intro H; auto. rewrite sumf_cons, H, IH.
  - ring.
  - intros; apply H. now right.
  - now left.
Qed.
Lemma sumf_add : forall X (f g : X -> R) l, sumf (fun x => f x + g x) l = sumf f l + sumf g l.
Proof.
  induction l as [|x l IH].
  - unfold sumf. cbn. ring.
  - rewrite !sumf_cons, IH. ring.
Qed.
Lemma sumf_scale : forall X (f : X -> R) c l, sumf (fun x => c * f x) l = c * sumf f l.
Proof.
  induction l as [|x l IH].
  - unfold sumf. cbn. ring.
  - rewrite !sumf_cons, IH. ring.
Qed.
Lemma sumf_swap : forall X Y (f : X -> Y -> R) l m,
  sumf (fun x => sumf (f x) m) l = sumf (fun y => sumf (fun x => f x y) l) m.
Proof.
  induction l as [|x l IH]; intro m.
  - symmetry. apply sumf_zero. reflexivity.
  - rewrite sumf_cons, IH, <- sumf_add. apply sumf_ext. intros y _. now rewrite sumf_cons.
Qed.
Lemma sumf_nth : forall X (d : X) (f : X -> R) l, sumf f l = sumf (fun k => f (nth k l d)) (seq 0 (length l)).
Proof.
  intros X d f. induction l as [|x l IH] using rev_ind; auto.
  rewrite sumf_app, app_length. cbn [length]. rewrite Nat.add_1_r, seq_S, sumf_app, IH. f_equal.
  - apply sumf_ext. intros k Hk. apply in_seq in Hk. rewrite app_nth1 by lia. reflexivity.
  - rewrite !sumf_cons. cbn [Nat.add]. rewrite app_nth2, Nat.sub_diag by lia. reflexivity.
Qed.

(** a stream's sum as a guarded double sum *)
Lemma later_sum : forall A B pe phi (w : nat -> nat -> R), lt_sorted Nat.ltb A ->
  (forall k l, k < nA A -> l < nB B -> pe k l = Some (make_index (colA A k) (colB B l), w k l)) ->
  (forall k l, nA A <= k \/ nB B <= l -> pe k l = None) ->
  lin phi (later A B pe 0) =
  sumf (fun l => sumf (fun k =>
     if colB B l <=? colA A k then phi (make_index (colA A k) (colB B l)) * w k l else r0)
     (seq 0 (length A))) (seq 0 (length B)).
Proof.
  intros A B pe phi w SA P P2.
  assert (P1 : forall k l, k < nA A -> l < nB B -> exists v, pe k l = Some (make_index (colA A k) (colB B l), v)) by eauto.
  unfold later. rewrite Nat.sub_0_r, lin_flat. unfold nB.
  change (fold_right (fun x s => lin phi (blk A pe (fi A B x) x) + s) r0 (seq 0 (length B)))
    with (sumf (fun x => lin phi (blk A pe (fi A B x) x)) (seq 0 (length B))).
  apply sumf_ext. intros l Hl. apply in_seq in Hl.
  unfold blk. rewrite lin_flat.
  change (fold_right (fun x s => lin phi (opt1 (pe x l)) + s) r0 (seq (fi A B l) (nA A - fi A B l)))
    with (sumf (fun x => lin phi (opt1 (pe x l))) (seq (fi A B l) (nA A - fi A B l))).
  pose proof (fi_le A B pe P1 P2 SA l) as Hle.
  assert (E : seq 0 (length A) = seq 0 (fi A B l) ++ seq (fi A B l) (nA A - fi A B l)).
  { change (length A) with (nA A). replace (nA A) with (fi A B l + (nA A - fi A B l))%nat at 1 by lia. apply seq_app. }
  rewrite E, sumf_app, (sumf_zero _ _ (seq 0 (fi A B l))).
  - replace (sumf _ (seq (fi A B l) (nA A - fi A B l))) with
      (r0 + sumf (fun x => lin phi (opt1 (pe x l))) (seq (fi A B l) (nA A - fi A B l))) by ring.
    f_equal. apply sumf_ext. intros k Hk. apply in_seq in Hk.
    rewrite P by (unfold nB; lia).
    pose proof (fi_spec A B pe P1 P2 SA l k). destruct (colB B l <=? colA A k) eqn:Q.
    + cbn [opt1]. rewrite lin_cons. cbn [fst snd]. unfold lin. cbn. ring.
    + apply Nat.leb_gt in Q. lia.
  - intros k Hk. apply in_seq in Hk. pose proof (fi_spec A B pe P1 P2 SA l k). destruct (colB B l <=? colA A k) eqn:Q; auto.
    apply Nat.leb_le in Q. lia.
Qed.

(** *** The loop *)
Section Loop.
Variables (JL JR : row R) (a : R).
Hypothesis SL : lt_sorted Nat.ltb JL.
Hypothesis SR : lt_sorted Nat.ltb JR.
Definition peL := pair_entry rmul half a JL JR.
Definition peR k l := pair_entry rmul half a JL JR l k.
Definition wL k l : R :=
  let w := a * snd (nth k JL (0, r0)) * snd (nth l JR (0, r0)) in
  if colA JL k =? colB JR l then half * w else w.

Lemma peL_val : forall k l, k < nA JL -> l < nB JR ->
  peL k l = Some (make_index (colA JL k) (colB JR l), wL k l).
Proof.
  intros k l Hk Hl. unfold peL, pair_entry, wL, colA, colB. rewrite (nth_err JL k Hk), (nth_err JR l Hl).
  destruct (nth k JL (0, r0)), (nth l JR (0, r0)). reflexivity.
Qed.
Lemma peR_val : forall k l, k < nA JR -> l < nB JL ->
  peR k l = Some (make_index (colA JR k) (colB JL l), wL l k).
Proof.
  intros k l Hk Hl. change (peR k l) with (peL l k). rewrite (peL_val l k Hl Hk). now rewrite mi_comm.
Qed.
Lemma peL_none : forall k l, nA JL <= k \/ nB JR <= l -> peL k l = None.
Proof.
  intros k l H. unfold peL, pair_entry.
  destruct H as [H|H]; apply nth_error_None in H; rewrite H; auto. destruct (nth_error JL k) as [[? ?]|]; auto.
Qed.
Lemma peR_none : forall k l, nA JR <= k \/ nB JL <= l -> peR k l = None.
Proof. intros k l H. apply peL_none. unfold nA, nB in *. tauto. Qed.
Lemma peL_some : forall k l, k < nA JL -> l < nB JR -> exists v, peL k l = Some (make_index (colA JL k) (colB JR l), v).
Proof. intros; eexists; now apply peL_val. Qed.
Lemma peR_some : forall k l, k < nA JR -> l < nB JL -> exists v, peR k l = Some (make_index (colA JR k) (colB JL l), v).
Proof. intros; eexists; now apply peR_val. Qed.

Definition hscale (x : R * hrow R) : hrow R := map (fun e => (fst e, fst x * snd e)) (snd x).
Definition streams (s : @mstate R) : list (hrow R) :=
  map hscale (hs s) ++ [rem JL JR peL (k1 s) (l1 s); rem JR JL peR (l2 s) (k2 s)].
Definition linv (s : @mstate R) : Prop :=
  sinv JL JR (k1 s) (l1 s) (kk1 s) /\ sinv JR JL (l2 s) (k2 s) (ll2 s).

Lemma cands_eq : forall s, linv s -> cands rmul half a JL JR s = map (@hd_error _) (streams s).
Proof.
  intros s [I1 I2]. unfold cands, streams. rewrite map_app, map_map. f_equal.
  - apply map_ext. intros [c h]. unfold cand_h, hscale. cbn [fst snd]. destruct h as [|[i v] h]; reflexivity.
  - cbn [map]. f_equal; [|f_equal].
    + exact (rem_head _ _ _ peL_some peL_none SL SR _ _ _ I1).
    + exact (rem_head _ _ _ peR_some peR_none SR SL _ _ _ I2).
Qed.

Definition cle (x y : option (hindex * R)) : Prop := clt y x = false.
Lemma cle_trans : forall x y z, cle x y -> cle y z -> cle x z.
Proof.
  unfold cle, clt. intros [[i v]|] [[j w]|] [[k u]|] H1 H2; auto; try discriminate.
  exact (kle_trans heq hlt heq_spec hlt_trans hlt_total hlt_irr i j k H1 H2).
Qed.
Lemma clt_cle : forall x y, clt x y = true -> cle x y.
Proof.
  unfold cle, clt. intros [[i v]|] [[j w]|] H; auto.
  exact (klt_kle hlt hlt_trans hlt_irr i j H).
Qed.
Lemma cle_refl : forall x, cle x x.
Proof. unfold cle, clt. intros [[i v]|]; auto. apply hlt_irr. Qed.

Lemma pick_spec : forall l pre best i r c, i = length pre ->
  nth_error pre (fst best) = Some (snd best) -> (forall x, In x pre -> cle (snd best) x) ->
  pick best i l = (r, c) ->
  nth_error (pre ++ l) r = Some c /\ (forall x, In x (pre ++ l) -> cle c x).
Proof.
  induction l as [|x l IH]; intros pre best i r c Hi Hn Hb E; cbn [pick] in E.
  - subst best. rewrite app_nil_r. cbn [fst snd] in *. auto.
  - replace (pre ++ x :: l) with ((pre ++ [x]) ++ l) by now rewrite <- app_assoc.
    apply (IH (pre ++ [x])) in E; auto.
    + rewrite app_length. cbn. lia.
    + destruct (clt x (snd best)); cbn [fst snd].
      * subst i. rewrite nth_error_app2, Nat.sub_diag by lia. reflexivity.
      * rewrite nth_error_app1; auto. apply nth_error_Some. congruence.
    + intros y Hy. apply in_app_iff in Hy. destruct (clt x (snd best)) eqn:Q; cbn [snd].
      * destruct Hy as [Hy|[<-|[]]]; [|apply cle_refl]. eapply cle_trans; [apply clt_cle; exact Q|]. auto.
      * destruct Hy as [Hy|[<-|[]]]; auto.
Qed.

Lemma advance_spec : forall s r o e st, linv s -> nth_error (streams s) r = Some (e :: st) ->
  exists s', advance JL JR r s o = Some s' /\ linv s' /\ out s' = o /\ streams s' = lset (streams s) r st.
Proof.
  intros s r o e st [I1 I2] E. unfold advance, streams in *.
  assert (Lr : r < length (hs s) + 2).
  { assert (r < length (map hscale (hs s) ++ [rem JL JR peL (k1 s) (l1 s); rem JR JL peR (l2 s) (k2 s)]))
      by (apply nth_error_Some; congruence).
    rewrite app_length, map_length in H. exact H. }
  destruct (r <? length (hs s)) eqn:Q1.
  - apply Nat.ltb_lt in Q1. rewrite nth_error_app1 in E by (now rewrite map_length).
    rewrite nth_error_map in E. destruct (nth_error (hs s) r) as [[c h]|] eqn:Eh; [|discriminate].
    cbn in E. eexists. split; [reflexivity|]. split; [split; assumption|]. split; [reflexivity|]. cbn.
    destruct h as [|[i v] h]; [discriminate|]. cbn in E. injection E as <- <-.
    rewrite lset_app_l by (now rewrite map_length). f_equal. cbn [tl].
    apply nth_error_ext. intro j. rewrite nth_error_map, !nth_error_lset, nth_error_map.
    rewrite map_length. natcases; subst; try reflexivity; try lia.
  - apply Nat.ltb_ge in Q1. rewrite nth_error_app2 in E by (now rewrite map_length). rewrite map_length in E.
    destruct (r =? length (hs s)) eqn:Q2.
    + apply Nat.eqb_eq in Q2. subst r. rewrite Nat.sub_diag in E. cbn [nth_error] in E. injection E as E.
      assert (Ec : peL (k1 s) (l1 s) = Some e).
      { pose proof (rem_head _ _ _ peL_some peL_none SL SR _ _ _ I1) as Hh. rewrite E in Hh. exact Hh. }
      destruct (snext_spec _ _ _ peL_some peL_none SL SR _ _ _ _ I1 Ec) as (k' & l' & kk' & N & I' & Er).
      rewrite E in Er. injection Er as ->. unfold snext, nA, nB in N.
      assert (G : forall o', exists s', Some (MS (hs s) k' l' kk' (k2 s) (l2 s) (ll2 s) o') = Some s' /\ linv s' /\ out s' = o' /\
        map hscale (hs s') ++ [rem JL JR peL (k1 s') (l1 s'); rem JR JL peR (l2 s') (k2 s')] =
        lset (map hscale (hs s) ++ [rem JL JR peL (k1 s) (l1 s); rem JR JL peR (l2 s) (k2 s)]) (length (hs s)) (rem JL JR peL k' l')).
      { intro o'. eexists. split; [reflexivity|]. split; [split; assumption|]. split; [reflexivity|]. cbn.
        rewrite <- (map_length hscale (hs s)). rewrite lset_app_r by lia. rewrite Nat.sub_diag. reflexivity. }
      destruct (S (k1 s) =? length JL); [|injection N as <- <- <-; apply G].
      destruct (S (l1 s) <? length JR); [|injection N as <- <- <-; apply G].
      destruct (skip_lower (length JL) JL JR (kk1 s) (S (l1 s))); [|discriminate]. injection N as <- <- <-. apply G.
    + apply Nat.eqb_neq in Q2. assert (r = S (length (hs s))) by lia. subst r.
      replace (S (length (hs s)) - length (hs s)) with 1 in E by lia. cbn [nth_error] in E. injection E as E.
      assert (Ec : peR (l2 s) (k2 s) = Some e).
      { pose proof (rem_head _ _ _ peR_some peR_none SR SL _ _ _ I2) as Hh. rewrite E in Hh. exact Hh. }
      destruct (snext_spec _ _ _ peR_some peR_none SR SL _ _ _ _ I2 Ec) as (k' & l' & kk' & N & I' & Er).
      rewrite E in Er. injection Er as ->. unfold snext, nA, nB in N.
      assert (G : forall o', exists s', Some (MS (hs s) (k1 s) (l1 s) (kk1 s) l' k' kk' o') = Some s' /\ linv s' /\ out s' = o' /\
        map hscale (hs s') ++ [rem JL JR peL (k1 s') (l1 s'); rem JR JL peR (l2 s') (k2 s')] =
        lset (map hscale (hs s) ++ [rem JL JR peL (k1 s) (l1 s); rem JR JL peR (l2 s) (k2 s)]) (S (length (hs s))) (rem JR JL peR k' l')).
      { intro o'. eexists. split; [reflexivity|]. split; [split; assumption|]. split; [reflexivity|]. cbn.
        rewrite <- (map_length hscale (hs s)). rewrite lset_app_r by lia.
        replace (S (length (map hscale (hs s))) - length (map hscale (hs s))) with 1 by lia. reflexivity. }
      destruct (S (l2 s) =? length JR); [|injection N as <- <- <-; apply G].
      destruct (S (k2 s) <? length JL); [|injection N as <- <- <-; apply G].
      destruct (skip_lower (length JR) JR JL (ll2 s) (S (k2 s))); [|discriminate]. injection N as <- <- <-. apply G.
Qed.

Lemma concat_lset : forall X (ss : list (list X)) r e st, nth_error ss r = Some (e :: st) ->
  (forall x, In x (concat ss) <-> x = e \/ In x (concat (lset ss r st))) /\
  length (concat ss) = S (length (concat (lset ss r st))).
Proof.
  induction ss as [|h ss IH]; intros r e st E; destruct r as [|r]; try discriminate; cbn [nth_error] in E.
  - injection E as ->. cbn [lset concat app length]. split; auto. intro x. cbn [In]. intuition.
  - destruct (IH r e st E) as [I1 I2]. cbn [lset concat]. rewrite !app_length. split; [|lia].
    intro x. rewrite !in_app_iff, I1. tauto.
Qed.
Lemma lin_lset : forall phi (ss : list (hrow R)) r e st, nth_error ss r = Some (e :: st) ->
  lin phi (concat ss) = phi (fst e) * snd e + lin phi (concat (lset ss r st)).
Proof.
  induction ss as [|h ss IH]; intros r e st E; destruct r as [|r]; try discriminate; cbn [nth_error] in E.
  - injection E as ->. cbn [lset concat app]. apply lin_cons.
  - cbn [lset concat]. rewrite !lin_app, (IH r e st E). ring.
Qed.

Lemma mloop_spec : forall phi U cap fuel s, linv s ->
  length (concat (streams s)) <= fuel ->
  Forall (fun st => StronglySorted hle (keys st)) (streams s) ->
  dec hltp (out s) -> below hle (out s) (concat (streams s)) ->
  incl (keys (out s)) U -> incl (keys (concat (streams s))) U -> length U <= cap ->
  exists o, mloop radd rmul half fuel cap a JL JR s = Some o /\
    lin phi o = lin phi (out s) + lin phi (concat (streams s)) /\ lt_sorted hlt o /\ incl (keys o) U.
Proof.
  intros phi U cap. induction fuel as [|f IH]; intros s I Hf Hs Hd Hb Ho Hc HU;
    cbn [mloop]; rewrite (cands_eq s I);
    (destruct (streams s) as [|st0 sts] eqn:Es; [unfold streams in Es; destruct (map hscale (hs s)); discriminate|]);
    cbn [map]; destruct (pick (0, hd_error st0) 1 (map (hd_error (A:=hindex * R)) sts)) as [r c] eqn:Ep;
    apply (pick_spec _ [hd_error st0]) in Ep; auto;
    try (intros x [<-|[]]; apply cle_refl);
    destruct Ep as [P1 P2]; change ([hd_error st0] ++ map (hd_error (A:=hindex * R)) sts) with (map (hd_error (A:=hindex * R)) (st0 :: sts)) in *;
    rewrite nth_error_map in P1;
    change (@option_map (hrow R) (option (hindex * R)) (@hd_error (hindex * R)) (@nth_error (hrow R) (st0 :: sts) r) = Some c) in P1; (destruct (@nth_error (hrow R) (st0 :: sts) r) as [st|] eqn:En; [|cbn [option_map] in P1; discriminate P1]); cbn [option_map] in P1; apply (f_equal (fun z => match z with Some q => q | None => c end)) in P1; cbn iota beta in P1.
  - destruct c as [e|].
    + exfalso. destruct st as [|e' st]; [discriminate|]. destruct (concat_lset _ _ _ _ _ En) as [_ L]. lia.
    + assert (Z : concat (st0 :: sts) = []).
      { apply length_zero_iff_nil. lia. }
      exists (rev (out s)). rewrite Z, lin_rev. split; auto. split; [unfold lin at 3; cbn [fold_right]; ring|].
      split; [now apply sorted_rev|]. intros x Hx. apply Ho. unfold keys in *. rewrite map_rev in Hx. now apply in_rev.
  - destruct c as [e|].
    2:{ assert (Z : concat (st0 :: sts) = []).
      { assert (forall t, In t (st0 :: sts) -> t = []).
        { intros t Ht. assert (Hx := P2 _ (in_map _ _ _ Ht)). destruct t as [|[i v] t]; auto. discriminate Hx. }
        clear - H. induction (st0 :: sts) as [|t l IHl]; auto. cbn [concat]. rewrite (H t) by now left.
        apply IHl. intros; apply H. now right. }
      exists (rev (out s)). rewrite Z, lin_rev. split; auto. split; [unfold lin at 3; cbn [fold_right]; ring|].
      split; [now apply sorted_rev|]. intros x Hx. apply Ho. unfold keys in *. rewrite map_rev in Hx. now apply in_rev. }
    destruct st as [|e' st]; [discriminate|]. cbn in P1. injection P1 as ->.
    destruct (concat_lset _ _ _ _ _ En) as [C1 C2].
    assert (Min : forall x, In x (keys (concat (st0 :: sts))) -> hle (fst e) x).
    { intros x Hx. unfold keys in Hx. apply in_map_iff in Hx. destruct Hx as (y & <- & Hy).
      apply in_concat in Hy. destruct Hy as (t & Ht & Hy).
      assert (Hq := P2 _ (in_map _ _ _ Ht)). rewrite Forall_forall in Hs. specialize (Hs _ Ht).
      destruct t as [|z t]; [destruct Hy|]. destruct e as [ei ev], z as [zi zv]. cbn in Hq.
      unfold keys in Hs. cbn [map fst] in Hs. inversion Hs as [|? ? _ F]; subst.
      destruct Hy as [<-|Hy]; [exact Hq|]. rewrite Forall_forall in F.
      eapply (kle_trans heq hlt heq_spec hlt_trans hlt_total hlt_irr); [exact Hq|]. apply F. now apply in_map. }
    assert (He : In (fst e) (keys (concat (st0 :: sts)))).
    { apply in_map. apply C1. now left. }
    assert (Rec : exists o, record radd cap e (out s) = Some o /\ dec hltp o /\
      (forall x, In x (keys o) <-> x = fst e \/ In x (keys (out s))) /\
      lin phi o = lin phi (out s) + phi (fst e) * snd e).
    { assert (Push : (forall x, In x (keys (out s)) -> hltp x (fst e)) ->
        exists o, (if length (out s) <? cap then Some (e :: out s) else None) = Some o /\ dec hltp o /\
        (forall x, In x (keys o) <-> x = fst e \/ In x (keys (out s))) /\
        lin phi o = lin phi (out s) + phi (fst e) * snd e).
      { intro Lt. assert (length (out s) < cap).
        { assert (ND : NoDup (fst e :: keys (out s))).
          { constructor.
            - intro Hin. apply Lt in Hin. unfold hltp, klt in Hin. now rewrite hlt_irr in Hin.
            - clear - Hd. unfold dec in Hd. induction Hd as [|x l H1 IHs F]; constructor; auto.
              intro Hin. rewrite Forall_forall in F. apply F in Hin. unfold hltp, klt in Hin. now rewrite hlt_irr in Hin. }
          assert (In' : incl (fst e :: keys (out s)) U) by (intros x [<-|Hx]; auto).
          pose proof (NoDup_incl_length ND In') as L. cbn [length] in L. unfold keys in L. rewrite map_length in L. lia. }
        replace (length (out s) <? cap) with true by (symmetry; now apply Nat.ltb_lt).
        exists (e :: out s). split; auto. split; [|split].
        - destruct e as [i v]. apply dec_cons; auto.
        - intro x. cbn. intuition.
        - rewrite lin_cons. ring. }
      unfold record. destruct (out s) as [|[i v] o'] eqn:Eo.
      - apply Push. intros x [].
      - destruct (heq i (fst e)) eqn:Qe.
        + apply heq_spec in Qe. subst i. exists ((fst e, v + snd e) :: o'). split; auto. split; [exact Hd|]. split.
          * intro x. cbn. intuition.
          * rewrite !lin_cons. cbn [fst snd]. ring.
        + apply Push. intros x Hx.
          assert (Hi : hltp i (fst e)).
          { assert (hle i (fst e)) by (apply Hb; auto; now left).
            destruct (kle_cases heq hlt heq_spec hlt_total _ _ H) as [->|]; auto.
            rewrite (proj2 (heq_spec _ _)) in Qe; auto. discriminate. }
          destruct Hx as [<-|Hx]; auto. unfold dec, keys in Hd. cbn [map fst] in Hd.
          inversion Hd as [|? ? _ F]; subst. rewrite Forall_forall in F. eapply hlt_trans; [apply F; exact Hx|exact Hi]. }
    destruct Rec as (o & R1 & R2 & R3 & R4). rewrite R1.
    rewrite <- Es in En. destruct (advance_spec s r o e st I En) as (s' & A1 & A2 & A3 & A4). rewrite A1.
    rewrite Es in A4, En. destruct (IH s') as (o2 & O1 & O2 & O3 & O4); auto.
    + rewrite A4. lia.
    + rewrite A4. rewrite Forall_forall in *. intros t Ht. apply In_lset in Ht. destruct Ht as [->|Ht]; [|now apply Hs].
      assert (HH := Hs (e :: st) (nth_error_In _ _ En)). unfold keys in HH. cbn [map] in HH. now inversion HH.
    + rewrite A3; auto.
    + rewrite A3, A4. intros x y Hx Hy. apply R3 in Hx.
      assert (Hy' : In y (keys (concat (st0 :: sts)))).
      { unfold keys in *. apply in_map_iff in Hy. destruct Hy as (z & <- & Hz). apply in_map. apply C1. now right. }
      destruct Hx as [->|Hx]; [now apply Min|]. now apply Hb.
    + rewrite A3. intros x Hx. apply R3 in Hx. destruct Hx as [->|Hx]; auto.
    + rewrite A4. intros y Hy. apply Hc. unfold keys in *. apply in_map_iff in Hy. destruct Hy as (z & <- & Hz). apply in_map. apply C1. now right.
    + exists o2. split; auto. split; auto. rewrite O2, A3, A4, R4, (lin_lset phi _ _ _ _ En). ring.
Qed.

(** the pair sum *)
Definition pair_sum phi (A B : row R) : R :=
  sumf (fun x => sumf (fun y => phi (make_index (fst x) (fst y)) * (snd x * snd y)) B) A.

Hypothesis half_ok : half + half = r1.

Lemma pairs_lin : forall phi,
  lin phi (later JL JR peL 0) + lin phi (later JR JL peR 0) = a * pair_sum phi JL JR.
Proof.
  intro phi.
  rewrite (later_sum JL JR peL phi wL SL peL_val peL_none).
  rewrite (later_sum JR JL peR phi (fun k l => wL l k) SR peR_val peR_none).
  rewrite sumf_swap, <- sumf_add. unfold pair_sum. rewrite (sumf_nth _ (0, r0)).
  rewrite <- sumf_scale. apply sumf_ext. intros k _.
  rewrite <- sumf_add, (sumf_nth _ (0, r0) _ JR), <- sumf_scale. apply sumf_ext. intros l _.
  unfold wL, colA, colB.
  set (x := nth k JL (0, r0)). set (y := nth l JR (0, r0)). rewrite (mi_comm (fst y) (fst x)).
  set (p := phi _). clearbody p x y.
  destruct (Nat.leb_spec0 (fst y) (fst x)); destruct (Nat.leb_spec0 (fst x) (fst y));
    destruct (Nat.eqb_spec (fst x) (fst y)); try lia; try ring.
  transitivity ((half + half) * (p * (a * snd x * snd y))); [ring|]. rewrite half_ok. ring.
Qed.

Lemma sorted_scale : forall x, le_sorted hlt (snd x) -> StronglySorted hle (keys (hscale x)).
Proof.
  intros [c h]. unfold le_sorted, hscale, keys. cbn [fst snd]. rewrite map_map. cbn [fst]. auto.
Qed.

Lemma concat_scale_lin : forall phi (H : list (R * hrow R)),
  lin phi (concat (map hscale H)) = sumf (fun x => fst x * lin phi (snd x)) H.
Proof.
  intros phi. induction H as [|[c h] H IH]; auto. cbn [map concat]. rewrite lin_app, sumf_cons, IH.
  unfold hscale. cbn [fst snd]. now rewrite lin_scale.
Qed.
Lemma concat_scale_len : forall (H : list (R * hrow R)),
  length (concat (map hscale H)) = fold_right (fun x n => (length (snd x) + n)%nat) 0 H.
Proof.
  induction H as [|[c h] H IH]; auto. cbn [map concat fold_right]. rewrite app_length, IH. f_equal.
  unfold hscale. apply map_length.
Qed.

Lemma later_len : forall A B pe, (forall k l, nA A <= k \/ nB B <= l -> pe k l = None) ->
  length (later A B pe 0) <= length A * length B.
Proof.
  intros A B pe P. unfold later. rewrite Nat.sub_0_r. fold (nB B).
  assert (G : forall s, length (flat_map (fun l' => blk A pe (fi A B l') l') s) <= length A * length s).
  { induction s as [|l s IHs]; cbn [flat_map length]; [lia|]. rewrite app_length.
    assert (length (blk A pe (fi A B l) l) <= length A).
    { unfold blk. assert (G2 : forall t, length (flat_map (fun k' => opt1 (pe k' l)) t) <= length t).
      { induction t as [|k t IHt]; cbn [flat_map length]; [lia|]. rewrite app_length. destruct (pe k l); cbn [opt1 length]; lia. }
      etransitivity; [apply G2|]. rewrite seq_length. unfold nA. lia. }
    lia. }
  etransitivity; [apply G|]. rewrite seq_length. unfold nB. lia.
Qed.

Lemma merge_jh_ok : forall H, (JL = [] <-> JR = []) ->
  Forall (fun x => le_sorted hlt (snd x)) H ->
  exists o, merge_jh radd rmul half a JL JR H = Some o /\ lt_sorted hlt o /\
    (forall phi, lin phi o = a * pair_sum phi JL JR + sumf (fun x => fst x * lin phi (snd x)) H).
Proof.
  intros H HE HS. unfold merge_jh.
  rewrite (proj2 (is_sorted_spec Nat.eqb Nat.ltb nat_eqb_spec nat_ltb_trans nat_ltb_total Nat.ltb_irrefl JL)).
  2:{ apply (lt_le_sorted Nat.ltb nat_ltb_trans Nat.ltb_irrefl); exact SL. }
  rewrite (proj2 (is_sorted_spec Nat.eqb Nat.ltb nat_eqb_spec nat_ltb_trans nat_ltb_total Nat.ltb_irrefl JR)).
  2:{ apply (lt_le_sorted Nat.ltb nat_ltb_trans Nat.ltb_irrefl); exact SR. }
  replace (forallb _ H) with true.
  2:{ symmetry. apply forallb_forall. intros x Hx. rewrite Forall_forall in HS.
      apply (is_sorted_spec heq hlt heq_spec hlt_trans hlt_total hlt_irr). auto. }
  cbn [andb].
  assert (D : 0 < nB JR \/ nA JL = 0).
  { unfold nA, nB. destruct JR; [right; now rewrite (proj2 HE)|left; cbn; lia]. }
  assert (D' : 0 < nB JL \/ nA JR = 0).
  { unfold nA, nB. destruct JL; [right; now rewrite (proj1 HE)|left; cbn; lia]. }
  destruct (sinv_init JL JR peL peL_some peL_none SL D) as (kk & K1 & K2 & K3).
  destruct (sinv_init JR JL peR peR_some peR_none SR D') as (ll & L1 & L2 & L3).
  unfold nA in K1, L1. rewrite K1, L1.
  set (s := MS H kk 0 kk 0 ll ll []).
  assert (Es : streams s = map hscale H ++ [later JL JR peL 0; later JR JL peR 0]).
  { unfold streams, s. cbn. now rewrite K3, L3. }
  assert (Ec : concat (streams s) = concat (map hscale H) ++ later JL JR peL 0 ++ later JR JL peR 0).
  { rewrite Es, concat_app. cbn. now rewrite app_nil_r. }
  set (sz := fold_right _ 0 H).
  set (U := keys (concat (map hscale H)) ++
            map (fun p => make_index (colA JL (fst p)) (colB JR (snd p))) (list_prod (seq 0 (length JL)) (seq 0 (length JR)))).
  assert (HU : length U = (sz + length JL * length JR)%nat).
  { unfold U. rewrite app_length, map_length, prod_length, !seq_length. unfold keys. rewrite map_length, concat_scale_len. reflexivity. }
  assert (Main : forall phi, exists o, mloop radd rmul half (sz + 2 * (length JL * length JR)) (sz + length JL * length JR) a JL JR s = Some o /\
    lin phi o = lin phi (out s) + lin phi (concat (streams s)) /\ lt_sorted hlt o /\ incl (keys o) U).
  { intro phi. apply (mloop_spec phi U).
    - split; assumption.
    - rewrite Ec, !app_length, concat_scale_len.
      pose proof (later_len JL JR peL peL_none). pose proof (later_len JR JL peR peR_none). fold sz. lia.
    - rewrite Es. apply Forall_app. split; [|repeat constructor].
      + rewrite Forall_forall in *. intros t Ht. apply in_map_iff in Ht. destruct Ht as (x & <- & Hx). apply sorted_scale; auto.
      + apply (lt_le_sorted hlt hlt_trans hlt_irr). exact (later_sorted _ _ _ peL_some peL_none SL SR _ 0 eq_refl).
      + apply (lt_le_sorted hlt hlt_trans hlt_irr). exact (later_sorted _ _ _ peR_some peR_none SR SL _ 0 eq_refl).
    - constructor.
    - intros x y [].
    - intros x [].
    - rewrite Ec. unfold keys, U. rewrite !map_app. intros x Hx. apply in_app_iff. apply in_app_iff in Hx.
      destruct Hx as [Hx|Hx]; auto. right. apply in_map_iff. apply in_app_iff in Hx. destruct Hx as [Hx|Hx].
      + destruct (in_later _ _ _ peL_some peL_none _ _ Hx) as (k & l & B1 & B2 & B3 & B4 & ->).
        exists (k, l). split; auto. apply in_prod; apply in_seq; unfold nA, nB in *; lia.
      + destruct (in_later _ _ _ peR_some peR_none _ _ Hx) as (k & l & B1 & B2 & B3 & B4 & ->).
        exists (l, k). split; [apply mi_comm|]. apply in_prod; apply in_seq; unfold nA, nB in *; lia.
    - lia. }
  destruct (Main (fun _ => r0)) as (o & M1 & _ & M3 & _). exists o. split; auto. split; auto.
  intro phi. destruct (Main phi) as (o' & M1' & M2 & _). rewrite M1 in M1'. injection M1' as <-.
  rewrite M2, Ec, !lin_app, concat_scale_lin, <- (pairs_lin phi). cbn [out s]. unfold lin at 1. cbn [fold_right]. ring.
Qed.
End Loop.

(** ** Entry-wise reading of the weighted sums *)
Section Total.
Context {K : Type} (eqd : forall a b : K, {a = b} + {a <> b}).
Definition total (l : list (K * R)) (i : K) : R :=
  fold_right radd r0 (map snd (filter (fun e => if eqd (fst e) i then true else false) l)).
Definition ind (i k : K) : R := if eqd k i then r1 else r0.

Lemma total_lin : forall l i, total l i = lin (ind i) l.
Proof.
  intros l i. unfold total, lin, ind. induction l as [|[k v] l IH]; auto. cbn [filter fst].
  cbn [fold_right fst snd]. rewrite <- IH. destruct (eqd k i); cbn [map fold_right snd]; ring.
Qed.
Lemma total_cons : forall k v l i, total ((k, v) :: l) i = (if eqd k i then v + total l i else total l i).
Proof. intros. unfold total. cbn [filter fst]. destruct (eqd k i); reflexivity. Qed.
Lemma total_absent : forall (l : list (K * R)) i, ~ In i (map fst l) -> total l i = r0.
Proof.
  induction l as [|[k v] l IH]; intros i H; auto. rewrite total_cons. destruct (eqd k i); [exfalso; apply H; now left|].
  apply IH. intro; apply H. now right.
Qed.

Context (keqb : K -> K -> bool) (keqb_spec : forall a b, keqb a b = true <-> a = b).
Lemma get_safe_total : forall (l : list (K * R)) i, NoDup (map fst l) -> get_safe r0 keqb l i = total l i.
Proof.
  induction l as [|[k v] l IH]; intros i H; auto. cbn [map fst] in H. inversion H as [|? ? H1 H2]; subst.
  unfold get_safe. cbn [get_at]. rewrite total_cons. destruct (keqb k i) eqn:Q.
  - apply keqb_spec in Q. subst. destruct (eqd i i); [|congruence]. rewrite total_absent; auto. ring.
  - destruct (eqd k i); [subst; rewrite (proj2 (keqb_spec i i)) in Q; congruence|]. apply (IH i H2).
Qed.
Lemma get_at_some : forall (l : list (K * R)) i, (exists v, get_at keqb l i = Some v) <-> In i (map fst l).
Proof.
  induction l as [|[k v] l IH]; intro i; cbn [get_at map fst In].
  - split; [intros [v H]; discriminate|tauto].
  - destruct (keqb k i) eqn:Q.
    + apply keqb_spec in Q. split; eauto.
    + rewrite IH. split; auto. intros [<-|H]; auto. rewrite (proj2 (keqb_spec k k)) in Q; congruence.
Qed.
Lemma upd_at_keys : forall (l : list (K * R)) i f, NoDup (map fst l) ->
  NoDup (map fst (upd_at r0 keqb l i f)) /\ (forall k, In k (map fst (upd_at r0 keqb l i f)) <-> k = i \/ In k (map fst l)).
Proof.
  induction l as [|[k v] l IH]; intros i f H; cbn [upd_at map fst].
  - split; [constructor; auto; constructor|]. intro k. cbn. intuition.
  - cbn [map fst] in H. inversion H as [|? ? H1 H2]; subst. destruct (keqb k i) eqn:Q; cbn [map fst].
    + apply keqb_spec in Q. subst. split; auto. intro q. cbn. intuition.
    + destruct (IH i f H2) as [I1 I2]. split.
      * constructor; auto. rewrite I2. intros [->|]; auto. rewrite (proj2 (keqb_spec i i)) in Q; congruence.
      * intro q. cbn. rewrite I2. intuition.
Qed.
Lemma upd_at_total : forall (l : list (K * R)) i f j, NoDup (map fst l) ->
  total (upd_at r0 keqb l i f) j = if eqd j i then f (total l i) else total l j.
Proof.
  induction l as [|[k v] l IH]; intros i f j H; cbn [upd_at].
  - rewrite total_cons. destruct (eqd i j), (eqd j i); try congruence. unfold total. cbn. ring.
  - cbn [map fst] in H. inversion H as [|? ? H1 H2]; subst. destruct (keqb k i) eqn:Q.
    + apply keqb_spec in Q. subst. rewrite !total_cons.
      destruct (eqd i j), (eqd j i); try congruence; subst.
      * destruct (eqd j j); [|congruence]. rewrite total_absent by auto.
        replace (v + r0) with v by ring. ring.
    + rewrite !total_cons, (IH i f j H2).
      destruct (eqd k i); [subst; rewrite (proj2 (keqb_spec i i)) in Q; congruence|].
      destruct (eqd k j), (eqd j i); try congruence.
Qed.
End Total.

Lemma lin_sumf : forall K (phi : K -> R) l, lin phi l = sumf (fun e => phi (fst e) * snd e) l.
Proof. reflexivity. Qed.

Definition hdec : forall a b : hindex, {a = b} + {a <> b}.
Proof. decide equality; apply Nat.eq_dec. Defined.

Lemma pair_sum_prod : forall (f g : nat -> R) (A B : row R),
  sumf (fun x => sumf (fun y => f (fst x) * g (fst y) * (snd x * snd y)) B) A = lin f A * lin g B.
Proof.
  intros f g A B. rewrite !lin_sumf.
  transitivity (sumf (fun x : nat * R => sumf (fun e : nat * R => g (fst e) * snd e) B * (f (fst x) * snd x)) A).
  - apply sumf_ext. intros x _. rewrite (sumf_ext _ _ (fun y => (f (fst x) * snd x) * (g (fst y) * snd y))).
    + rewrite sumf_scale. ring.
    + intros y _. ring.
  - rewrite sumf_scale. ring.
Qed.

Lemma pair_sum_quad : forall dx A B,
  pair_sum (fun ij => dx (fst ij) * dx (snd ij)) A B = lin dx A * lin dx B.
Proof.
  intros dx A B. rewrite <- pair_sum_prod. unfold pair_sum. apply sumf_ext. intros x _. apply sumf_ext. intros y _.
  f_equal. destruct (Nat.le_ge_cases (fst x) (fst y)).
  - rewrite mi_comm, mi_ge by auto. reflexivity.
  - rewrite mi_ge by auto. cbn [fst snd]. ring.
Qed.

Lemma mi_ordered : forall a b, fst (make_index a b) <= snd (make_index a b).
Proof.
  intros a b. destruct (Nat.le_ge_cases a b).
  - rewrite mi_comm, mi_ge; auto.
  - rewrite mi_ge; auto.
Qed.

Lemma pair_sum_entry : forall i j A B, i <= j ->
  pair_sum (ind hdec (i, j)) A B =
  total Nat.eq_dec A i * total Nat.eq_dec B j +
  (if Nat.eq_dec i j then r0 else total Nat.eq_dec A j * total Nat.eq_dec B i).
Proof.
  intros i j A B Hij. rewrite !total_lin. rewrite <- !pair_sum_prod.
  assert (P : forall x y : nat * R, ind hdec (i, j) (make_index (fst x) (fst y)) =
    ind Nat.eq_dec i (fst x) * ind Nat.eq_dec j (fst y) +
    (if Nat.eq_dec i j then r0 else ind Nat.eq_dec j (fst x) * ind Nat.eq_dec i (fst y))).
  { intros [x vx] [y vy]. cbn [fst]. unfold ind.
    assert (E : make_index x y = (i, j) <-> (x = i /\ y = j) \/ (x = j /\ y = i)).
    { destruct (Nat.le_ge_cases x y).
      - rewrite mi_comm, mi_ge by auto. split; [intros [= -> ->]; auto|]. intros [[-> ->]|[-> ->]]; f_equal; lia.
      - rewrite mi_ge by auto. split; [intros [= -> ->]; auto|]. intros [[-> ->]|[-> ->]]; f_equal; lia. }
    destruct (hdec (make_index x y) (i, j)) as [Q|Q]; rewrite E in Q;
    destruct (Nat.eq_dec x i), (Nat.eq_dec y j), (Nat.eq_dec i j), (Nat.eq_dec x j), (Nat.eq_dec y i); subst;
      try ring; exfalso; lia. }
  unfold pair_sum.
  transitivity (sumf (fun x => sumf (fun y => ind Nat.eq_dec i (fst x) * ind Nat.eq_dec j (fst y) * (snd x * snd y)) B +
     sumf (fun y => (if Nat.eq_dec i j then r0 else ind Nat.eq_dec j (fst x) * ind Nat.eq_dec i (fst y)) * (snd x * snd y)) B) A).
  - apply sumf_ext. intros x _. rewrite <- sumf_add. apply sumf_ext. intros y _. rewrite P. ring.
  - rewrite sumf_add. f_equal. destruct (Nat.eq_dec i j); auto.
    apply sumf_zero. intros x _. apply sumf_zero. intros y _. ring.
Qed.

Lemma pair_sum_low : forall i j A B, j < i -> pair_sum (ind hdec (i, j)) A B = r0.
Proof.
  intros i j A B H. apply sumf_zero. intros x _. apply sumf_zero. intros y _. unfold ind.
  destruct (hdec _ _) as [E|]; [|ring]. pose proof (mi_ordered (fst x) (fst y)) as M. rewrite E in M. cbn in M. lia.
Qed.
End Row.
