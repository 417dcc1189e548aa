(** Lemmas on markers and set operations of ESet_Model.v. *)
From Coq Require Import List Bool Arith Lia Permutation.
From Verif Require Import Util ESet_Model.
Import ListNotations.

(** a list obtained by leaving out entries *)
Inductive subseq : list nat -> list nat -> Prop :=
| sub_nil : subseq [] []
| sub_skip : forall x a b, subseq a b -> subseq a (x :: b)
| sub_keep : forall x a b, subseq a b -> subseq (x :: a) (x :: b).

Lemma bool_ext : forall a b : bool, (a = true <-> b = true) -> a = b.
Proof. intros [] [] [H1 H2]; auto. symmetry. auto. Qed.

Lemma mark_true : forall m k h k' h', mark m k h true k' h' = true <->
  m k' h' = true \/ (k' = k /\ h' = h).
Proof.
  intros. unfold mark. destruct (Nat.eqb_spec k' k), (Nat.eqb_spec h' h); cbn; intuition congruence.
Qed.
Lemma mark_false : forall m k h k' h', mark m k h false k' h' = true <->
  m k' h' = true /\ ~ (k' = k /\ h' = h).
Proof.
  intros. unfold mark. destruct (Nat.eqb_spec k' k), (Nat.eqb_spec h' h); cbn; intuition congruence.
Qed.

Lemma mark_array_true : forall l m k k' h, mark_array m k true l k' h = true <->
  m k' h = true \/ (k' = k /\ In h l /\ h <> 0).
Proof.
  induction l as [|x l IH]; intros; cbn [mark_array In]; [intuition|]. rewrite IH.
  destruct (Nat.eqb_spec x 0) as [->|]; [|rewrite mark_true]; intuition (subst; auto; congruence).
Qed.
Lemma mark_array_false : forall l m k k' h, mark_array m k false l k' h = true <->
  m k' h = true /\ ~ (k' = k /\ In h l /\ h <> 0).
Proof.
  induction l as [|x l IH]; intros; cbn [mark_array In]; [intuition|]. rewrite IH.
  destruct (Nat.eqb_spec x 0) as [->|]; [|rewrite mark_false]; intuition (subst; auto; congruence).
Qed.
Lemma mark_elements_true : forall sel l m k k' h, mark_elements sel m k true l k' h = true <->
  m k' h = true \/ (k' = k /\ In h l /\ h <> 0 /\ sel h = true).
Proof.
  intros sel. induction l as [|x l IH]; intros; cbn [mark_elements In]; [intuition|]. rewrite IH.
  destruct (Nat.eqb_spec x 0) as [->|]; cbn [negb andb]; [intuition (subst; auto; congruence)|].
  destruct (sel x) eqn:E; [rewrite mark_true|]; intuition (subst; auto; congruence).
Qed.
Lemma mark_elements_false : forall sel l m k k' h, mark_elements sel m k false l k' h = true <->
  m k' h = true /\ ~ (k' = k /\ In h l /\ h <> 0 /\ sel h = true).
Proof.
  intros sel. induction l as [|x l IH]; intros; cbn [mark_elements In]; [intuition|]. rewrite IH.
  destruct (Nat.eqb_spec x 0) as [->|]; cbn [negb andb]; [intuition (subst; auto; congruence)|].
  destruct (sel x) eqn:E; [rewrite mark_false|]; intuition (subst; auto; congruence).
Qed.
Lemma mark_all_true : forall l m k, ~ In 0 l -> exists m', mark_all m k true l = Some m' /\
  forall k' h, m' k' h = true <-> m k' h = true \/ (k' = k /\ In h l).
Proof.
  induction l as [|x l IH]; intros m k H; cbn [mark_all In] in *; [exists m; intuition|].
  unfold put_mark. destruct (Nat.eqb_spec x 0) as [->|]; [intuition|].
  destruct (IH (mark m k x true) k) as [m' [E P]]; [intuition|]. exists m'. split; [exact E|].
  intros. rewrite P, mark_true. intuition (subst; auto).
Qed.
Lemma mark_all_false : forall l m k, ~ In 0 l -> exists m', mark_all m k false l = Some m' /\
  forall k' h, m' k' h = true <-> m k' h = true /\ ~ (k' = k /\ In h l).
Proof.
  induction l as [|x l IH]; intros m k H; cbn [mark_all In] in *; [exists m; intuition|].
  unfold put_mark. destruct (Nat.eqb_spec x 0) as [->|]; [intuition|].
  destruct (IH (mark m k x false) k) as [m' [E P]]; [intuition|]. exists m'. split; [exact E|].
  intros. rewrite P, mark_false. intuition (subst; auto).
Qed.

(** ** push_new, push_common *)
Lemma push_new_spec : forall l m k ret, exists new m',
  push_new m k ret l = Some (m', ret ++ new) /\ NoDup new /\
  (forall h, In h new <-> In h l /\ h <> 0 /\ m k h = false) /\
  (forall k' h, m' k' h = true <-> m k' h = true \/ (k' = k /\ In h new)) /\
  subseq new l.
Proof.
  induction l as [|x l IH]; intros m k ret; cbn [push_new].
  - exists [], m. rewrite app_nil_r. split; [reflexivity|]. split; [constructor|].
    split; [cbn; intuition|]. split; [cbn; intuition|constructor].
  - unfold get_mark. destruct (Nat.eqb_spec x 0) as [->|N].
    + destruct (IH m k ret) as [new [m' [E [P1 [P2 [P3 P4]]]]]]. exists new, m'.
      split; [exact E|]. split; [exact P1|]. split; [|split; [exact P3|now constructor]].
      intros h. rewrite P2. cbn [In]. intuition congruence.
    + destruct (m k x) eqn:Ex.
      * destruct (IH m k ret) as [new [m' [E [P1 [P2 [P3 P4]]]]]]. exists new, m'.
        split; [exact E|]. split; [exact P1|]. split; [|split; [exact P3|now constructor]].
        intros h. rewrite P2. cbn [In]. intuition congruence.
      * destruct (IH (mark m k x true) k (ret ++ [x])) as [new [m' [E [P1 [P2 [P3 P4]]]]]].
        assert (Q : forall h, In h new <-> In h l /\ h <> 0 /\ m k h = false /\ h <> x).
        { intros h. rewrite P2. unfold mark. rewrite Nat.eqb_refl. cbn [andb].
          destruct (Nat.eqb_spec h x); intuition congruence. }
        exists (x :: new), m'. rewrite E, <- app_assoc. split; [reflexivity|].
        split; [constructor; [rewrite Q; intuition|exact P1]|].
        split; [|split; [|now constructor]].
        -- intros h. cbn [In]. rewrite Q. destruct (Nat.eq_dec h x) as [->|]; intuition congruence.
        -- intros. rewrite P3, mark_true. cbn [In]. intuition (subst; auto).
Qed.

Lemma push_common_spec : forall l m k k2 ret, k <> k2 -> exists new m',
  push_common m k k2 ret l = Some (m', ret ++ new) /\ NoDup new /\
  (forall h, In h new <-> In h l /\ h <> 0 /\ m k h = true /\ m k2 h = false) /\
  (forall k' h, m' k' h = true <-> m k' h = true \/ (k' = k2 /\ In h new)) /\
  subseq new l.
Proof.
  induction l as [|x l IH]; intros m k k2 ret Hk; cbn [push_common].
  - exists [], m. rewrite app_nil_r. split; [reflexivity|]. split; [constructor|].
    split; [cbn; intuition|]. split; [cbn; intuition|constructor].
  - unfold get_mark. destruct (Nat.eqb_spec x 0) as [->|N].
    + destruct (IH m k k2 ret Hk) as [new [m' [E [P1 [P2 [P3 P4]]]]]]. exists new, m'.
      split; [exact E|]. split; [exact P1|]. split; [|split; [exact P3|now constructor]].
      intros h. rewrite P2. cbn [In]. intuition congruence.
    + destruct (m k x) eqn:Ex; [destruct (m k2 x) eqn:Ex2|].
      * destruct (IH m k k2 ret Hk) as [new [m' [E [P1 [P2 [P3 P4]]]]]]. exists new, m'.
        split; [exact E|]. split; [exact P1|]. split; [|split; [exact P3|now constructor]].
        intros h. rewrite P2. cbn [In]. intuition congruence.
      * destruct (IH (mark m k2 x true) k k2 (ret ++ [x]) Hk) as [new [m' [E [P1 [P2 [P3 P4]]]]]].
        assert (Q : forall h, In h new <-> In h l /\ h <> 0 /\ m k h = true /\ m k2 h = false /\ h <> x).
        { intros h. rewrite P2. unfold mark. rewrite Nat.eqb_refl.
          destruct (Nat.eqb_spec k k2); [contradiction|]. cbn [andb].
          destruct (Nat.eqb_spec h x); intuition congruence. }
        exists (x :: new), m'. rewrite E, <- app_assoc. split; [reflexivity|].
        split; [constructor; [rewrite Q; intuition|exact P1]|].
        split; [|split; [|now constructor]].
        -- intros h. cbn [In]. rewrite Q. destruct (Nat.eq_dec h x) as [->|]; intuition congruence.
        -- intros. rewrite P3, mark_true. cbn [In]. intuition (subst; auto).
      * destruct (IH m k k2 ret Hk) as [new [m' [E [P1 [P2 [P3 P4]]]]]]. exists new, m'.
        split; [exact E|]. split; [exact P1|]. split; [|split; [exact P3|now constructor]].
        intros h. rewrite P2. cbn [In]. intuition congruence.
Qed.

(** ** Union, Difference, Intersection *)
Lemma subseq_app : forall a b c d, subseq a b -> subseq c d -> subseq (a ++ c) (b ++ d).
Proof. intros a b c d H. induction H; intros; cbn [app]; auto using subseq. Qed.

Lemma NoDup_app_disj : forall (a b : list nat), NoDup a -> NoDup b ->
  (forall x, In x a -> ~ In x b) -> NoDup (a ++ b).
Proof.
  induction a as [|x a IH]; intros b Ha Hb H; [exact Hb|]. inversion Ha; subst. cbn [app].
  constructor.
  - rewrite in_app_iff. intros [|]; [contradiction|]. apply (H x); cbn; auto.
  - apply IH; auto. intros y Hy. apply H. now right.
Qed.

Lemma fresh_false : forall (m : marks) k, (forall h, m k h = false) ->
  forall h, m k h = true <-> False.
Proof. intros m k H h. rewrite H. intuition. Qed.

Lemma union_spec : forall m k a b, (forall h, m k h = false) -> exists m' r,
  union m k a b = Some (m', r) /\ NoDup r /\ subseq r (a ++ b) /\
  (forall h, In h r <-> h <> 0 /\ (In h a \/ In h b)) /\
  (forall k' h, m' k' h = m k' h).
Proof.
  intros m k a b F. unfold union.
  destruct (push_new_spec a m k []) as [r1 [m1 [E1 [N1 [I1 [M1 S1]]]]]]. rewrite E1. cbn [app].
  destruct (push_new_spec b m1 k r1) as [r2 [m2 [E2 [N2 [I2 [M2 S2]]]]]]. rewrite E2.
  assert (I2' : forall h, In h r2 <-> In h b /\ h <> 0 /\ ~ In h r1).
  { intros h. rewrite I2. rewrite <- not_true_iff_false, M1, (fresh_false m k F). intuition. }
  assert (I : forall h, In h (r1 ++ r2) <-> h <> 0 /\ (In h a \/ In h b)).
  { intros h. rewrite in_app_iff, I2'.
    destruct (in_dec Nat.eq_dec h r1) as [Hr|Hr].
    - split; [intros _; apply I1 in Hr; intuition|intuition].
    - split; [intuition|]. intros [H1 [H2|H2]]; [|intuition].
      exfalso. apply Hr. apply I1. auto. }
  destruct (mark_all_false (r1 ++ r2) m2 k) as [m3 [E3 M3]]; [rewrite I; intuition|].
  rewrite E3. exists m3, (r1 ++ r2). split; [reflexivity|].
  split; [apply NoDup_app_disj; auto; intros x Hx; rewrite I2'; intuition|].
  split; [now apply subseq_app|]. split; [exact I|].
  intros k' h. apply bool_ext. rewrite M3, M2, M1, in_app_iff.
  destruct (Nat.eq_dec k' k) as [->|]; [rewrite (fresh_false m k F)|]; intuition.
Qed.

Lemma difference_set_spec : forall sel m k a b, (forall h, m k h = false) -> exists m' r,
  difference_set sel m k a b = Some (m', r) /\ NoDup r /\ subseq r a /\
  (forall h, In h r <-> h <> 0 /\ In h a /\ ~ (In h b /\ sel h = true)) /\
  (forall k' h, m' k' h = m k' h).
Proof.
  intros sel m k a b F. unfold difference_set.
  destruct (push_new_spec a (mark_elements sel m k true b) k []) as [r [m1 [E1 [N1 [I1 [M1 S1]]]]]].
  rewrite E1. cbn [app].
  assert (I : forall h, In h r <-> h <> 0 /\ In h a /\ ~ (In h b /\ sel h = true)).
  { intros h. rewrite I1, <- not_true_iff_false, mark_elements_true, (fresh_false m k F). intuition. }
  destruct (mark_all_false r (mark_elements sel m1 k false b) k) as [m3 [E3 M3]]; [rewrite I; intuition|].
  rewrite E3. exists m3, r. split; [reflexivity|]. split; [exact N1|]. split; [exact S1|].
  split; [exact I|].
  intros k' h. apply bool_ext. rewrite M3, mark_elements_false, M1, mark_elements_true.
  destruct (Nat.eq_dec k' k) as [->|]; [rewrite (fresh_false m k F)|]; intuition.
Qed.

Lemma difference_array_spec : forall m k a b, (forall h, m k h = false) -> exists m' r,
  difference_array m k a b = Some (m', r) /\ NoDup r /\ subseq r a /\
  (forall h, In h r <-> h <> 0 /\ In h a /\ ~ In h b) /\
  (forall k' h, m' k' h = m k' h).
Proof.
  intros m k a b F. unfold difference_array.
  destruct (push_new_spec a (mark_array m k true b) k []) as [r [m1 [E1 [N1 [I1 [M1 S1]]]]]].
  rewrite E1. cbn [app].
  assert (I : forall h, In h r <-> h <> 0 /\ In h a /\ ~ In h b).
  { intros h. rewrite I1, <- not_true_iff_false, mark_array_true, (fresh_false m k F). intuition. }
  destruct (mark_all_false r (mark_array m1 k false b) k) as [m3 [E3 M3]]; [rewrite I; intuition|].
  rewrite E3. exists m3, r. split; [reflexivity|]. split; [exact N1|]. split; [exact S1|].
  split; [exact I|].
  intros k' h. apply bool_ext. rewrite M3, mark_array_false, M1, mark_array_true.
  destruct (Nat.eq_dec k' k) as [->|]; [rewrite (fresh_false m k F)|]; intuition.
Qed.

Lemma intersection_set_spec : forall sel m k k2 a b, k <> k2 ->
  (forall h, m k h = false) -> (forall h, m k2 h = false) -> exists m' r,
  intersection_set sel m k k2 a b = Some (m', r) /\ NoDup r /\ subseq r a /\
  (forall h, In h r <-> h <> 0 /\ In h a /\ In h b /\ sel h = true) /\
  (forall k' h, m' k' h = m k' h).
Proof.
  intros sel m k k2 a b Hk F F2. unfold intersection_set.
  destruct (push_common_spec a (mark_elements sel m k true b) k k2 [] Hk) as [r [m1 [E1 [N1 [I1 [M1 S1]]]]]].
  rewrite E1. cbn [app].
  assert (I : forall h, In h r <-> h <> 0 /\ In h a /\ In h b /\ sel h = true).
  { intros h. rewrite I1, <- not_true_iff_false, !mark_elements_true, (fresh_false m k F), (fresh_false m k2 F2).
    intuition. }
  destruct (mark_all_false r (mark_elements sel m1 k false b) k2) as [m3 [E3 M3]]; [rewrite I; intuition|].
  rewrite E3. exists m3, r. split; [reflexivity|]. split; [exact N1|]. split; [exact S1|].
  split; [exact I|].
  intros k' h. apply bool_ext. rewrite M3, mark_elements_false, M1, mark_elements_true.
  destruct (Nat.eq_dec k' k) as [->|]; [rewrite (fresh_false m k F)|
    destruct (Nat.eq_dec k' k2) as [->|]; [rewrite (fresh_false m k2 F2)|]]; intuition.
Qed.

Lemma intersection_array_spec : forall m k k2 a b, k <> k2 ->
  (forall h, m k h = false) -> (forall h, m k2 h = false) -> exists m' r,
  intersection_array m k k2 a b = Some (m', r) /\ NoDup r /\ subseq r a /\
  (forall h, In h r <-> h <> 0 /\ In h a /\ In h b) /\
  (forall k' h, m' k' h = m k' h).
Proof.
  intros m k k2 a b Hk F F2. unfold intersection_array.
  destruct (push_common_spec a (mark_array m k true b) k k2 [] Hk) as [r [m1 [E1 [N1 [I1 [M1 S1]]]]]].
  rewrite E1. cbn [app].
  assert (I : forall h, In h r <-> h <> 0 /\ In h a /\ In h b).
  { intros h. rewrite I1, <- not_true_iff_false, !mark_array_true, (fresh_false m k F), (fresh_false m k2 F2).
    intuition. }
  destruct (mark_all_false r (mark_array m1 k false b) k2) as [m3 [E3 M3]]; [rewrite I; intuition|].
  rewrite E3. exists m3, r. split; [reflexivity|]. split; [exact N1|]. split; [exact S1|].
  split; [exact I|].
  intros k' h. apply bool_ext. rewrite M3, mark_array_false, M1, mark_array_true.
  destruct (Nat.eq_dec k' k) as [->|]; [rewrite (fresh_false m k F)|
    destruct (Nat.eq_dec k' k2) as [->|]; [rewrite (fresh_false m k2 F2)|]]; intuition.
Qed.

(** ** ElementArray *)
Lemma unite_loop_spec : forall h m k c, ~ In 0 h -> exists new m',
  unite_loop m k c h = Some (m', c ++ new) /\ NoDup new /\
  (forall x, In x new <-> In x h /\ m k x = false) /\
  (forall k' x, m' k' x = true <-> m k' x = true \/ (k' = k /\ In x new)) /\
  subseq new h.
Proof.
  induction h as [|x h IH]; intros m k c H0; cbn [unite_loop].
  - exists [], m. rewrite app_nil_r. split; [reflexivity|]. split; [constructor|].
    split; [cbn; intuition|]. split; [cbn; intuition|constructor].
  - cbn [In] in H0. unfold get_mark. destruct (Nat.eqb_spec x 0) as [->|N]; [intuition|].
    destruct (m k x) eqn:Ex.
    + destruct (IH m k c) as [new [m' [E [P1 [P2 [P3 P4]]]]]]; [intuition|]. exists new, m'.
      split; [exact E|]. split; [exact P1|]. split; [|split; [exact P3|now constructor]].
      intros y. rewrite P2. cbn [In]. intuition congruence.
    + destruct (IH (mark m k x true) k (c ++ [x])) as [new [m' [E [P1 [P2 [P3 P4]]]]]]; [intuition|].
      assert (Q : forall y, In y new <-> In y h /\ m k y = false /\ y <> x).
      { intros y. rewrite P2. unfold mark. rewrite Nat.eqb_refl. cbn [andb].
        destruct (Nat.eqb_spec y x); intuition congruence. }
      exists (x :: new), m'. rewrite E, <- app_assoc. split; [reflexivity|].
      split; [constructor; [rewrite Q; intuition|exact P1]|].
      split; [|split; [|now constructor]].
      -- intros y. cbn [In]. rewrite Q. destruct (Nat.eq_dec y x) as [->|]; intuition congruence.
      -- intros. rewrite P3, mark_true. cbn [In]. intuition (subst; auto).
Qed.

Lemma arr_unite_spec : forall m k c h, (forall x, m k x = false) ->
  c <> [] -> ~ In 0 c -> ~ In 0 h -> exists m' new,
  arr_unite m k c h = Some (m', c ++ new) /\ NoDup new /\ subseq new h /\
  (forall x, In x new <-> In x h /\ ~ In x c) /\
  (forall k' x, m' k' x = m k' x).
Proof.
  intros m k c h F Hc H0 H1. unfold arr_unite. destruct c as [|c0 c1]; [contradiction|].
  set (c := c0 :: c1) in *.
  destruct (mark_all_true c m k H0) as [m1 [E1 M1]]. rewrite E1.
  destruct (unite_loop_spec h m1 k c H1) as [new [m2 [E2 [N2 [I2 [M2 S2]]]]]]. rewrite E2.
  assert (I : forall x, In x new <-> In x h /\ ~ In x c).
  { intros x. rewrite I2, <- not_true_iff_false, M1, (fresh_false m k F). intuition. }
  destruct (mark_all_false (c ++ new) m2 k) as [m3 [E3 M3]].
  { rewrite in_app_iff, I. intuition. }
  rewrite E3. exists m3, new. split; [reflexivity|]. split; [exact N2|]. split; [exact S2|].
  split; [exact I|]. intros k' x. apply bool_ext. rewrite M3, M2, M1, in_app_iff.
  destruct (Nat.eq_dec k' k) as [->|]; [rewrite (fresh_false m k F)|]; intuition.
Qed.

Lemma keep_loop_spec : forall c m k keep, ~ In 0 c ->
  keep_loop m k keep c = Some (filter (fun x => Bool.eqb (m k x) keep) c).
Proof.
  induction c as [|x c IH]; intros m k keep H; cbn [keep_loop filter]; [reflexivity|].
  cbn [In] in H. rewrite IH by intuition. unfold get_mark.
  destruct (Nat.eqb_spec x 0); [intuition|]. reflexivity.
Qed.

Lemma arr_keep_spec : forall keep m k c h, (forall x, m k x = false) -> ~ In 0 c -> exists m',
  arr_keep keep m k c h =
    Some (m', filter (fun x => Bool.eqb (existsb (Nat.eqb x) h) keep) c) /\
  (forall k' x, m' k' x = m k' x).
Proof.
  intros keep m k c h F H0. unfold arr_keep. destruct c as [|c0 c1]; [exists m; auto|].
  set (c := c0 :: c1) in *. rewrite keep_loop_spec by exact H0.
  exists (mark_array (mark_array m k true h) k false h). split.
  - do 2 f_equal. apply filter_ext_in. intros x Hx. f_equal. apply bool_ext.
    rewrite mark_array_true, (fresh_false m k F), existsb_exists. split.
    + intros [[]|[_ [H1 H2]]]. exists x. split; [exact H1|apply Nat.eqb_refl].
    + intros [y [H1 H2]]. apply Nat.eqb_eq in H2. subst y. right.
      split; [reflexivity|]. split; [exact H1|]. intros ->. contradiction.
  - intros k' x. apply bool_ext. rewrite mark_array_false, mark_array_true.
    destruct (Nat.eq_dec k' k) as [->|]; [rewrite (fresh_false m k F)|]; intuition.
Qed.
