(** Proofs about tables of a function. *)
From Coq Require Import List Arith ZArith Lia Bool Field.
From Verif Require Import Util OField Table_Spec Table_Model.
Import ListNotations.
Open Scope Z_scope.

Section Proofs.
Variable F : ofield.
Add Field Ft : (fth F).
Notation keyval := (keyval F).
Notation le := (le F).

Lemma le_refl : forall x, le x x.
Proof. intro. apply flt_irr. Qed.
Lemma lt_le : forall x y : F, (x <? y)%F = true -> le x y.
Proof. intros. now apply flt_asym. Qed.
Lemma le_cases : forall x y : F, le x y -> (x <? y)%F = true \/ x = y.
Proof. intros x y H. destruct (x <? y)%F eqn:E; [now left|right]. now apply (flt_total F). Qed.
Lemma le_trans : forall x y z : F, le x y -> le y z -> le x z.
Proof. intros x y z A B. unfold Table_Spec.le in *. eapply flt_ge_trans; eassumption. Qed.

Lemma at_nth : forall l i a, at_ F l i = Some a <-> 0 <= i /\ nth_error l (Z.to_nat i) = Some a.
Proof.
  intros l i a. unfold at_. destruct (Z.ltb_spec i 0); split; intro H0; try discriminate.
  - destruct H0; lia.
  - split; [lia|assumption].
  - apply H0.
Qed.

Lemma at_nat : forall l i, at_ F l (Z.of_nat i) = nth_error l i.
Proof. intros l i. unfold at_. destruct (Z.ltb_spec (Z.of_nat i) 0); [lia|]. now rewrite Nat2Z.id. Qed.

Lemma at_0 : forall l, at_ F l 0 = nth_error l 0.
Proof. reflexivity. Qed.

Lemma at_some : forall l i, 0 <= i < Z.of_nat (length l) -> exists a, at_ F l i = Some a.
Proof.
  intros l i H. destruct (nth_error l (Z.to_nat i)) as [a|] eqn:E.
  - exists a. apply at_nth. split; [lia|exact E].
  - apply nth_error_None in E. lia.
Qed.

Lemma at_lt : forall args vals i j a b, table F args vals -> i < j -> at_ F args i = Some a -> at_ F args j = Some b ->
  (a <? b)%F = true.
Proof.
  intros args vals i j a b (_ & _ & S') I A B. apply at_nth in A. apply at_nth in B.
  apply (S' (Z.to_nat i) (Z.to_nat j)); try tauto; lia.
Qed.

(** The search: entries before [l] stay below the argument, entries after [r]
    stay above. *)
Lemma search_ok : forall args vals arg, table F args vals -> forall fuel l r,
  0 <= l -> r < Z.of_nat (length args) -> l <= r + 1 -> r - l + 1 < Z.of_nat fuel ->
  (forall i a, i < l -> at_ F args i = Some a -> (a <? arg)%F = true) ->
  (forall i a, r < i -> at_ F args i = Some a -> (arg <? a)%F = true) ->
  exists l' r', search F fuel args arg l r = Some (l', r') /\
    0 <= l' /\ r' < Z.of_nat (length args) /\
    (forall i a, i < l' -> at_ F args i = Some a -> (a <? arg)%F = true) /\
    (forall i a, r' < i -> at_ F args i = Some a -> (arg <? a)%F = true) /\
    (l' = r' + 1 \/ (l' <= r' /\ at_ F args (Z.quot (l' + r') 2) = Some arg)).
Proof.
  intros args vals arg T. induction fuel as [|fuel IH]; intros l r L R LR FU A B; [lia|]. cbn [search].
  destruct (Z.ltb_spec r l) as [C|C].
  - exists l, r. repeat split; auto. left. lia.
  - set (mid := Z.quot (l + r) 2).
    assert (M : l <= mid <= r) by (unfold mid; rewrite Z.quot_div_nonneg by lia; split; [apply Z.div_le_lower_bound|apply Z.div_le_upper_bound]; lia).
    destruct (at_some args mid) as [a E]; [lia|]. rewrite E.
    destruct (arg <? a)%F eqn:X; [|destruct (a <? arg)%F eqn:Y].
    + apply IH; try lia; [assumption|]. intros i b I EI. destruct (Z.eq_dec i mid) as [->|].
      * rewrite E in EI. injection EI as <-. exact X.
      * apply (flt_trans F) with a; [exact X|]. apply (at_lt args vals mid i); auto. lia.
    + apply IH; try lia; [|assumption]. intros i b I EI. destruct (Z.eq_dec i mid) as [->|].
      * rewrite E in EI. injection EI as <-. exact Y.
      * apply (flt_trans F) with a; [|exact Y]. apply (at_lt args vals i mid); auto. lia.
    + exists l, r. repeat split; auto. right. split; [lia|]. fold mid. rewrite E. f_equal. now apply (flt_total F).
Qed.

(** The segment the search chooses: the last one starting at or before the
    argument. *)
Lemma bs_ok : forall args vals arg a0, table F args vals -> nth_error args 0 = Some a0 -> le a0 arg ->
  exists i a b, binary_search F (mk_kv F args vals (length args)) arg = Some (Z.of_nat i) /\
    nth_error args i = Some a /\ nth_error args (S i) = Some b /\ le a arg /\
    ((arg <? b)%F = true \/ S (S i) = length args).
Proof.
  intros args vals arg a0 T A0 G. unfold binary_search. cbn [kv_size kv_args].
  destruct (search_ok args vals arg T (S (length args)) 0 (Z.of_nat (length args) - 1)) as (l & r & -> & L & R & B & A & C); try lia.
  - intros i a I E. apply at_nth in E. lia.
  - intros i a I E. apply at_nth in E. destruct E as [E1 E2].
    assert (Z.to_nat i < length args)%nat by (apply nth_error_Some; congruence). lia.
  - assert (N2 : (2 <= length args)%nat) by apply T.
    assert (K : exists m a, Z.quot (l + r) 2 = Z.of_nat m /\ nth_error args m = Some a /\ le a arg /\
                (forall b, nth_error args (S m) = Some b -> (arg <? b)%F = true)).
    { destruct C as [C|[C1 C2]].
      - assert (0 <= r).
        { destruct (Z.le_gt_cases 0 r); [assumption|]. exfalso.
          assert (X := A 0 a0 ltac:(lia)). rewrite at_0 in X. specialize (X A0). unfold Table_Spec.le in G. congruence. }
        exists (Z.to_nat r). destruct (at_some args r ltac:(lia)) as [a E]. exists a.
        split; [rewrite Z2Nat.id, Z.quot_div_nonneg by lia; subst l; replace (r + 1 + r) with (1 + r * 2) by lia; rewrite Z.div_add by lia; reflexivity|].
        split; [now apply at_nth in E|]. split; [apply lt_le; apply (B r); [lia|exact E]|].
        intros b Eb. apply (A (r + 1)); [lia|]. apply at_nth. split; [lia|]. now replace (Z.to_nat (r + 1)) with (S (Z.to_nat r)) by lia.
      - apply at_nth in C2. destruct C2 as [C2 C3]. exists (Z.to_nat (Z.quot (l + r) 2)), arg.
        split; [lia|]. split; [exact C3|]. split; [apply le_refl|].
        intros b Eb. destruct T as (_ & _ & T). apply (T _ (S (Z.to_nat (Z.quot (l + r) 2))) arg b) in C3; auto. }
    destruct K as (m & a & -> & Em & La & Nx).
    assert (ML : (m < length args)%nat) by (apply nth_error_Some; congruence).
    destruct (Z.ltb_spec (Z.of_nat (length args) - 2) (Z.of_nat m)).
    + exists (length args - 2)%nat.
      destruct (nth_error args (length args - 2)) as [c|] eqn:Ec; [|apply nth_error_None in Ec; lia].
      exists c, a. split; [f_equal; lia|]. split; [reflexivity|].
      assert (S (length args - 2) = m) as -> by lia. split; [exact Em|]. split; [|right; lia].
      apply le_trans with a; [|exact La]. apply lt_le. destruct T as (_ & _ & T). apply (T (length args - 2)%nat m); auto. lia.
    + exists m. destruct (nth_error args (S m)) as [b|] eqn:Eb; [|apply nth_error_None in Eb; lia].
      exists a, b. repeat split; auto.
Qed.

Lemma gap : forall args vals i a b, table F args vals -> nth_error args i = Some a -> nth_error args (S i) = Some b -> (0 <? b - a)%F = true.
Proof. intros args vals i a b (_ & _ & T) A B. apply (proj1 (flt_sub F a b)). apply (T i (S i)); auto. Qed.

Lemma vals_some : forall args vals i a, table F args vals -> nth_error args i = Some a -> exists u, nth_error vals i = Some u.
Proof.
  intros args vals i a (_ & E & _) A. assert (i < length args)%nat by (apply nth_error_Some; congruence).
  destruct (nth_error vals i) as [u|] eqn:X; [eauto|]. apply nth_error_None in X. lia.
Qed.

Definition of_lists (args vals : list F) : keyval := mk_kv F args vals (length args).

(** All queries at once. *)
Lemma queries : forall args vals x a0, table F args vals -> nth_error args 0 = Some a0 -> le a0 x ->
  exists i a b u w, nth_error args i = Some a /\ nth_error args (S i) = Some b /\
    nth_error vals i = Some u /\ nth_error vals (S i) = Some w /\ le a x /\
    ((x <? b)%F = true \/ S (S i) = length args) /\
    get_value F (of_lists args vals) x = Some (u + (w - u) * (x - a) / (b - a))%F /\
    get_derivative F (of_lists args vals) x = Some ((w - u) / (b - a))%F /\
    get_both F (of_lists args vals) x = Some ((u + ((w - u) / (b - a)) * (x - a))%F, ((w - u) / (b - a))%F).
Proof.
  intros args vals x a0 T A0 G. destruct (bs_ok args vals x a0 T A0 G) as (i & a & b & E & Ea & Eb & La & Lb).
  destruct (vals_some _ _ _ _ T Ea) as [u Eu]. destruct (vals_some _ _ _ _ T Eb) as [w Ew].
  exists i, a, b, u, w. repeat (split; [assumption|]).
  assert (SG : segment F (of_lists args vals) (Z.of_nat i) = Some (a, b, u, w)).
  { unfold segment, of_lists. cbn [kv_args kv_vals]. replace (Z.of_nat i + 1) with (Z.of_nat (S i)) by lia. rewrite !at_nat, Ea, Eb, Eu, Ew. reflexivity. }
  assert (Z0 : at_ F (kv_args F (of_lists args vals)) 0 = Some a0) by (cbn [of_lists kv_args]; rewrite at_0; exact A0).
  unfold get_value, get_derivative, get_both. rewrite Z0. unfold Table_Spec.le in G. rewrite G.
  fold (of_lists args vals) in E. rewrite E, SG. auto.
Qed.

Lemma below : forall args vals x a0 v0, nth_error args 0 = Some a0 -> nth_error vals 0 = Some v0 -> (x <? a0)%F = true ->
  get_value F (of_lists args vals) x = Some v0 /\ get_derivative F (of_lists args vals) x = Some 0%F /\
  get_both F (of_lists args vals) x = Some (v0, 0%F).
Proof.
  intros args vals x a0 v0 A V L. unfold get_value, get_derivative, get_both, of_lists. cbn [kv_args kv_vals].
  rewrite !at_0, A, V, L. auto.
Qed.

(** Order facts about products and quotients. *)
Lemma le_sub0 : forall x y : F, le x y <-> ((y - x <? 0)%F = false).
Proof.
  intros x y. unfold Table_Spec.le. destruct (y <? x)%F eqn:E; destruct (y - x <? 0)%F eqn:E2; split; intro H; auto; try discriminate.
  - exfalso. apply flt_sub in E. assert (X := flt_opp_neg F _ E). replace (- (x - y))%F with (y - x)%F in X by ring. congruence.
  - exfalso. apply flt_opp in E2. replace (- (y - x))%F with (x - y)%F in E2 by ring. apply flt_sub in E2. congruence.
Qed.

Lemma div_nneg : forall x y : F, (x <? 0)%F = false -> (0 <? y)%F = true -> (x / y <? 0)%F = false.
Proof.
  intros x y X Y. assert (N := pos_neq F _ Y). replace (x / y)%F with (x * (1 / y))%F by (field; exact N).
  apply mul_nneg; [exact X|]. apply flt_asym. now apply inv_pos.
Qed.

(** Value between the ends, for an increasing segment. *)
Lemma between : forall a b u w x, (0 <? b - a)%F = true -> le a x -> le x b -> le u w ->
  le u (u + (w - u) * (x - a) / (b - a))%F /\ le (u + (w - u) * (x - a) / (b - a))%F w.
Proof.
  intros a b u w x G A B U. assert (N := pos_neq F _ G). apply le_sub0 in A. apply le_sub0 in B. apply le_sub0 in U. split; apply le_sub0.
  - replace (u + (w - u) * (x - a) / (b - a) - u)%F with ((w - u) * (x - a) / (b - a))%F by (field; exact N).
    apply div_nneg; [|exact G]. now apply mul_nneg.
  - replace (w - (u + (w - u) * (x - a) / (b - a)))%F with ((w - u) * (b - x) / (b - a))%F by (field; exact N).
    apply div_nneg; [|exact G]. now apply mul_nneg.
Qed.

Lemma line_mono : forall a b u w x y, (0 <? b - a)%F = true -> le u w -> le x y ->
  le (u + (w - u) * (x - a) / (b - a))%F (u + (w - u) * (y - a) / (b - a))%F.
Proof.
  intros a b u w x y G U X. assert (N := pos_neq F _ G). apply le_sub0 in U. apply le_sub0 in X. apply le_sub0.
  replace (u + (w - u) * (y - a) / (b - a) - (u + (w - u) * (x - a) / (b - a)))%F with ((w - u) * (y - x) / (b - a))%F by (field; exact N).
  apply div_nneg; [|exact G]. now apply mul_nneg.
Qed.

Lemma line_start : forall a b u w, (0 <? b - a)%F = true -> le u w -> forall x, le a x -> le u (u + (w - u) * (x - a) / (b - a))%F.
Proof.
  intros a b u w G U x A. assert (X := line_mono a b u w a x G U A). replace (u + (w - u) * (a - a) / (b - a))%F with u in X; [exact X|].
  field. apply pos_neq, G.
Qed.

(** The segment of a larger argument does not come earlier. *)
Lemma seg_order : forall args vals i j ai bi aj bj x y, table F args vals ->
  nth_error args i = Some ai -> nth_error args (S i) = Some bi -> nth_error args j = Some aj -> nth_error args (S j) = Some bj ->
  le ai x -> ((y <? bj)%F = true \/ S (S j) = length args) -> le x y -> (i <= j)%nat.
Proof.
  intros args vals i j ai bi aj bj x y (N & _ & T) Ei Ei' Ej Ej' A [B|B] L.
  - destruct (le_lt_dec i j) as [|G]; [assumption|]. exfalso.
    assert (le bj ai).
    { destruct (Nat.eq_dec (S j) i) as [<-|]; [rewrite Ej' in Ei; injection Ei as <-; apply le_refl|].
      apply lt_le. apply (T (S j) i); auto. lia. }
    assert (X : le bj y) by (eapply le_trans; [eassumption|]; eapply le_trans; eassumption). unfold Table_Spec.le in X. congruence.
  - assert (S i < length args)%nat by (apply nth_error_Some; congruence). lia.
Qed.

Lemma mono_nth : forall vals, (forall i u w, nth_error vals i = Some u -> nth_error vals (S i) = Some w -> le u w) ->
  forall i j u w, (i <= j)%nat -> nth_error vals i = Some u -> nth_error vals j = Some w -> le u w.
Proof.
  intros vals M i j u w I. revert w. induction I as [|j I IH]; intros w U W.
  - rewrite U in W. injection W as <-. apply le_refl.
  - destruct (nth_error vals j) as [v|] eqn:V; [|apply nth_error_None in V; assert (S j < length vals)%nat by (apply nth_error_Some; congruence); lia].
    apply le_trans with v; [now apply IH|]. now apply (M j).
Qed.

Lemma value_mono : forall args vals x y v v', table F args vals ->
  (forall i u w, nth_error vals i = Some u -> nth_error vals (S i) = Some w -> le u w) ->
  le x y -> get_value F (of_lists args vals) x = Some v -> get_value F (of_lists args vals) y = Some v' -> le v v'.
Proof.
  intros args vals x y v v' T M L V V'.
  destruct (nth_error args 0) as [a0|] eqn:A0; [|apply nth_error_None in A0; destruct T; lia].
  destruct (vals_some _ _ _ _ T A0) as [v0 V0].
  destruct (y <? a0)%F eqn:Y.
  { assert (X : (x <? a0)%F = true) by (eapply flt_le_lt; eassumption).
    destruct (below args vals x a0 v0 A0 V0 X) as (E & _). destruct (below args vals y a0 v0 A0 V0 Y) as (E' & _).
    rewrite E in V. rewrite E' in V'. injection V as <-. injection V' as <-. apply le_refl. }
  destruct (queries args vals y a0 T A0 Y) as (j & c & d & u' & w' & Ec & Ed & Eu' & Ew' & Lc & Ld & E' & _).
  rewrite E' in V'. injection V' as <-. assert (G' := gap _ _ _ _ _ T Ec Ed).
  assert (U' : le u' w') by (now apply (M j)).
  destruct (x <? a0)%F eqn:X.
  { destruct (below args vals x a0 v0 A0 V0 X) as (E & _). rewrite E in V. injection V as <-.
    apply le_trans with u'; [apply (mono_nth vals M 0 j); auto; lia|]. now apply line_start. }
  destruct (queries args vals x a0 T A0 X) as (i & a & b & u & w & Ea & Eb & Eu & Ew & La & Lb & E & _).
  rewrite E in V. injection V as <-. assert (G := gap _ _ _ _ _ T Ea Eb).
  assert (U : le u w) by (now apply (M i)).
  assert (I : (i <= j)%nat) by (eapply (seg_order args vals i j); eassumption).
  destruct (Nat.eq_dec i j) as [<-|NE].
  - rewrite Ea in Ec; injection Ec as <-. rewrite Eb in Ed; injection Ed as <-. rewrite Eu in Eu'; injection Eu' as <-. rewrite Ew in Ew'; injection Ew' as <-.
    now apply line_mono.
  - apply le_trans with w; [apply between; auto|].
    + destruct Lb as [Lb|Lb]; [now apply lt_le|].
      assert (S j < length args)%nat by (apply nth_error_Some; congruence). lia.
    + apply le_trans with u'; [apply (mono_nth vals M (S i) j); auto; lia|]. now apply line_start.
Qed.

End Proofs.
