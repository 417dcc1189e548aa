(** Sets sorted by a comparator: search, insertion, merging, sorting. *)
From Coq Require Import List Bool Arith Lia Permutation Sorted.
From Verif Require Import Util Algo ESet_Model ESet_Proofs ESetHist_Proofs.
Import ListNotations.

(** [less] orders the handles of [D] strictly and totally *)
Definition strict_total (less : nat -> nat -> bool) (D : nat -> Prop) : Prop :=
  (forall x, D x -> less x x = false) /\
  (forall x y z, D x -> D y -> D z -> less x y = true -> less y z = true -> less x z = true) /\
  (forall x y, D x -> D y -> x <> y -> less x y = true \/ less y x = true).

Lemma ltb_total : strict_total Nat.ltb (fun x => x <> 0).
Proof.
  split; [|split].
  - intros x _. apply Nat.ltb_irrefl.
  - intros x y z _ _ _. rewrite !Nat.ltb_lt. lia.
  - intros x y _ _. rewrite !Nat.ltb_lt. lia.
Qed.

Section S.
Variable less : nat -> nat -> bool.
Variable D : nat -> Prop.
Hypothesis ST : strict_total less D.
Hypothesis D0 : ~ D 0.
Let L (x y : nat) : Prop := less x y = true.

Lemma ss_app : forall a b, StronglySorted L (a ++ b) <->
  StronglySorted L a /\ StronglySorted L b /\ (forall x y, In x a -> In y b -> L x y).
Proof using Type.
  clear ST D0. induction a as [|x a IH]; intros b; cbn [app].
  - split; [intros H; split; [constructor|split; [exact H|intros ? ? []]]|intuition].
  - split.
    + intros H. inversion H as [|? ? H1 H2]; subst. apply IH in H1. destruct H1 as [A1 [A2 A3]].
      rewrite Forall_forall in H2. split; [constructor; auto; apply Forall_forall; intros; apply H2, in_app_iff; auto|].
      split; [exact A2|]. intros u v [<-|Hu] Hv; [apply H2, in_app_iff; auto|auto].
    + intros [H1 [H2 H3]]. inversion H1 as [|? ? A1 A2]; subst. constructor.
      * apply IH. split; [exact A1|]. split; [exact H2|]. intros; apply H3; cbn; auto.
      * rewrite Forall_forall in *. intros y Hy. apply in_app_iff in Hy. destruct Hy as [Hy|Hy]; auto.
        apply H3; cbn; auto.
Qed.

Lemma ss_cons : forall x l, StronglySorted L (x :: l) <->
  StronglySorted L l /\ (forall y, In y l -> L x y).
Proof using Type.
  clear ST D0. intros x l. split.
  - intros H. inversion H; subst. rewrite Forall_forall in *. auto.
  - intros [H1 H2]. constructor; auto. now apply Forall_forall.
Qed.

Lemma L_irr : forall x, D x -> ~ L x x.
Proof using ST. destruct ST as [H _]. unfold L. intros x Hx. rewrite H by auto. discriminate. Qed.
Lemma L_trans : forall x y z, D x -> D y -> D z -> L x y -> L y z -> L x z.
Proof using ST. destruct ST as [_ [H _]]. exact H. Qed.
Lemma L_total : forall x y, D x -> D y -> x <> y -> L x y \/ L y x.
Proof using ST. destruct ST as [_ [_ H]]. exact H. Qed.

Lemma ss_nodup : forall l, Forall D l -> StronglySorted L l -> NoDup l.
Proof using ST.
  clear D0. induction l as [|x l IH]; intros H S; [constructor|].
  inversion H; subst. apply ss_cons in S. destruct S as [S1 S2]. constructor; auto.
  intros K. now apply (L_irr x), S2.
Qed.

(** ** lower_bound in a sorted array *)
Lemma bound_spec : forall l e, Forall D l -> D e -> StronglySorted L l ->
  let i := lower_bound (fun x => less x e) l in
  i <= length l /\
  (forall j x, j < i -> nth_error l j = Some x -> L x e) /\
  (forall j x, i <= j -> nth_error l j = Some x -> ~ L x e).
Proof using ST.
  clear D0. intros l e Hl He S. rewrite Forall_forall in Hl.
  assert (P : parted (fun x => less x e) l).
  { intros i j x y Hij Hi Hj Hy. destruct (Nat.eq_dec i j) as [->|N]; [congruence|].
    assert (LL : L x y).
    { clear - S Hi Hj Hij N. revert i j Hi Hj Hij N. induction S as [|z l S IH Hz]; intros i j Hi Hj Hij N.
      - destruct i; discriminate.
      - destruct j as [|j]; [lia|]. cbn in Hj. destruct i as [|i]; cbn in Hi.
        + injection Hi as ->. rewrite Forall_forall in Hz. apply Hz. now apply nth_error_In in Hj.
        + eapply IH; eauto; lia. }
    apply (L_trans x y e); auto; apply Hl; eapply nth_error_In; eauto. }
  destruct (lower_bound_ok (fun x => less x e) l P) as [A1 [A2 A3]]. cbn zeta.
  split; [exact A1|]. split; [exact A2|]. intros j x Hj Hx K. specialize (A3 j x Hj Hx). cbn beta in A3. unfold L in K. congruence.
Qed.

(** the element, if present, is at the position found *)
Lemma bound_in : forall l e, Forall D l -> D e -> StronglySorted L l ->
  let i := lower_bound (fun x => less x e) l in
  In e l <-> nth_error l i = Some e.
Proof using ST.
  clear D0. intros l e Hl He S i. destruct (bound_spec l e Hl He S) as [A1 [A2 A3]]. fold i in A1, A2, A3.
  split; [|apply nth_error_In]. intros H. apply In_nth_error in H. destruct H as [j Hj].
  destruct (Nat.lt_trichotomy j i) as [B|[B|B]].
  - exfalso. apply (L_irr e He). eapply A2; eauto.
  - now subst.
  - exfalso. destruct (nth_error l i) as [x|] eqn:Ei.
    2:{ apply nth_error_None in Ei. assert (j < length l) by (apply nth_error_Some; congruence). lia. }
    apply (A3 i x ltac:(lia) Ei).
    clear - S Hj Ei B. revert j Hj B. generalize dependent i. induction S as [|z l S IH Hz]; intros i Hi j Hj B.
    + destruct i; discriminate.
    + destruct j as [|j]; [lia|]. cbn in Hj. destruct i as [|i]; cbn in Hi.
      * injection Hi as ->. rewrite Forall_forall in Hz. apply Hz. now apply nth_error_In in Hj.
      * eapply IH; eauto; lia.
Qed.

Definition all_sorted (s : eset) : Prop :=
  srtd s = length (lc s) /\ holes s = [] /\ Forall D (lc s) /\ StronglySorted L (lc s).

Lemma bound_all : forall s e, all_sorted s -> bound less s e = lower_bound (fun x => less x e) (lc s).
Proof using Type. clear ST D0. intros s e [H _]. unfold bound. now rewrite H, firstn_all. Qed.

Lemma nth_is : forall (l : list nat) i e, i < length l ->
  ((nth i l 0 =? e) = true <-> nth_error l i = Some e).
Proof using Type.
  clear. intros l i e H. rewrite Nat.eqb_eq. split.
  - intros <-. now apply nth_error_nth'.
  - intros E. now apply nth_error_nth.
Qed.

Lemma find_sorted_ok : forall s e, all_sorted s -> D e ->
  (find_sorted less s e = true <-> In e (lc s)).
Proof using ST.
  clear D0. intros s e A He. unfold find_sorted. rewrite (bound_all s e A).
  destruct A as [A1 [A2 [A3 A4]]]. rewrite A1, skipn_all.
  rewrite (bound_in (lc s) e A3 He A4).
  destruct (Nat.ltb_spec (lower_bound (fun x => less x e) (lc s)) (length (lc s))) as [Hi|Hi].
  - now apply nth_is.
  - cbn [existsb]. split; [discriminate|]. intros E.
    assert (K : nth_error (lc s) (lower_bound (fun x => less x e) (lc s)) <> None) by congruence.
    apply nth_error_Some in K. lia.
Qed.

Lemma add_sorted_ok : forall s e, all_sorted s -> D e ->
  all_sorted (add_element_sorted less s e) /\
  forall x, In x (lc (add_element_sorted less s e)) <-> In x (lc s) \/ x = e.
Proof using ST.
  clear D0. intros s e A He. unfold add_element_sorted. rewrite (bound_all s e A).
  pose proof A as [A1 [A2 [A3 A4]]].
  pose proof (bound_in (lc s) e A3 He A4) as B. pose proof (bound_spec (lc s) e A3 He A4) as [B1 [B2 B3]].
  cbn zeta in B. set (i := lower_bound (fun x => less x e) (lc s)) in *. rewrite A1.
  destruct (Nat.ltb_spec i (length (lc s))) as [Hi|Hi]; cbn [andb].
  1: destruct (nth i (lc s) 0 =? e) eqn:E.
  - apply nth_is in E; auto. apply B in E. split; [exact A|]. intuition (subst; auto).
  - assert (N : ~ In e (lc s)) by (rewrite B; intros K; apply nth_is in K; auto; congruence).
    assert (G : (forall y, In y (firstn i (lc s)) -> L y e) /\ forall y, In y (skipn i (lc s)) -> L e y).
    { split; intros y Hy; apply In_nth_error in Hy; destruct Hy as [j Hj].
      - rewrite nth_error_firstn_if in Hj. destruct (Nat.ltb_spec j i); [|discriminate]. eapply B2; eauto.
      - rewrite nth_error_skipn_eq in Hj. pose proof (nth_error_In _ _ Hj) as Hy.
        rewrite Forall_forall in A3. destruct (L_total y e (A3 y Hy) He) as [K|K]; auto.
        + intros ->. contradiction.
        + exfalso. eapply B3; [|exact Hj|exact K]. lia. }
    split.
    + split; [|split; [exact A2|split]]; cbn [lc srtd].
      * rewrite app_length. cbn [length]. rewrite firstn_length, skipn_length. lia.
      * rewrite <- (firstn_skipn i (lc s)) in A3. apply Forall_app in A3. destruct A3 as [F1 F2].
        apply Forall_app. split; auto.
      * rewrite <- (firstn_skipn i (lc s)) in A4. apply ss_app in A4. destruct A4 as [F1 [F2 F3]].
        apply ss_app. split; [exact F1|]. split; [apply ss_cons; intuition|].
        intros x y Hx [<-|Hy]; [now apply G|auto].
    + intros x. cbn [lc]. rewrite in_app_iff. cbn [In].
      rewrite <- (firstn_skipn i (lc s)) at 3. rewrite in_app_iff. intuition.
  - assert (N : ~ In e (lc s)).
    { rewrite B. intros K. assert (i < length (lc s)) by (apply nth_error_Some; congruence). lia. }
    assert (i = length (lc s)) by lia. rewrite H, firstn_all, skipn_all. split.
    + split; [|split; [exact A2|split]]; cbn [lc srtd].
      * rewrite app_length. cbn. lia.
      * apply Forall_app. split; auto.
      * apply ss_app. split; [exact A4|]. split; [repeat constructor|].
        intros x y Hx [<-|[]]. apply In_nth_error in Hx. destruct Hx as [j Hj].
        assert (j < length (lc s)) by (apply nth_error_Some; congruence).
        eapply B2; [|exact Hj]. lia.
    + intros x. cbn [lc]. rewrite in_app_iff. cbn [In]. intuition.
Qed.

Lemma remove_sorted_ok : forall s e, all_sorted s -> D e ->
  forall x, In x (members (remove_element_sorted less s e)) <-> In x (lc s) /\ x <> e.
Proof using ST D0.
  intros s e A He x. unfold remove_element_sorted. rewrite (bound_all s e A).
  pose proof A as [A1 [A2 [A3 A4]]].
  pose proof (bound_in (lc s) e A3 He A4) as B.
  cbn zeta in B. set (i := lower_bound (fun x => less x e) (lc s)) in *. rewrite A1, Nat.sub_diag.
  assert (W : wf s).
  { split; [rewrite A2; constructor|]. split.
    - intros j. rewrite A2. split; [intros []|]. intros E. apply nth_error_In in E.
      rewrite Forall_forall in A3. now apply A3 in E.
    - apply nodup_filter_inj. apply NoDup_filter. now apply ss_nodup. }
  assert (M : forall y, In y (members s) <-> In y (lc s)).
  { intros y. rewrite in_members. split; [intuition|]. intros H. split; auto. intros ->.
    rewrite Forall_forall in A3. now apply A3 in H. }
  assert (Hn : e <> 0) by (intros ->; contradiction).
  destruct (Nat.ltb_spec i (length (lc s))) as [Hi|Hi].
  - destruct (nth i (lc s) 0 =? e) eqn:E.
    + apply nth_is in E; auto. destruct (drop_at_ok s i e W Hn E) as [_ P]. now rewrite P, M.
    + rewrite M. split; [|intuition]. intros H. split; auto. intros ->. apply B in H.
      apply nth_is in H; auto. congruence.
  - cbn [drop_equal]. rewrite M. split; [|intuition]. intros H. split; auto. intros ->.
    apply B in H. assert (i < length (lc s)) by (apply nth_error_Some; congruence). lia.
Qed.

(** ** merging *)
Definition minv (i j out : list nat) : Prop :=
  StronglySorted L (out ++ i) /\ StronglySorted L (out ++ j) /\
  (forall x, In x i -> In x j -> False) /\ Forall D (out ++ i ++ j).

Lemma minv_left : forall a i b j out, minv (a :: i) (b :: j) out -> L a b ->
  minv i (b :: j) (out ++ [a]).
Proof using ST.
  clear D0. intros a i b j out [H1 [H2 [H3 H4]]] Hl. rewrite Forall_forall in H4.
  assert (Da : D a) by (apply H4; rewrite !in_app_iff; cbn; auto).
  assert (Db : D b) by (apply H4; rewrite !in_app_iff; cbn; auto).
  split; [rewrite <- app_assoc; exact H1|]. split; [|split].
  - apply ss_app in H1. destruct H1 as [P1 [P2 P3]]. apply ss_app in H2. destruct H2 as [Q1 [Q2 Q3]].
    rewrite <- app_assoc. apply ss_app. split; [exact P1|]. split.
    + apply ss_cons. split; [exact Q2|]. apply ss_cons in Q2. destruct Q2 as [_ Q2].
      intros y [<-|Hy]; [exact Hl|]. apply (L_trans a b y); auto.
      apply H4. rewrite !in_app_iff. cbn; auto.
    + intros x y Hx [<-|Hy]; [apply P3; cbn; auto|apply Q3; auto].
  - intros x Hx. apply H3. now right.
  - apply Forall_forall. intros x Hx. apply H4. rewrite !in_app_iff in *. cbn in *. intuition.
Qed.
Lemma minv_sym : forall i j out, minv i j out -> minv j i out.
Proof using Type.
  clear ST D0. intros i j out [H1 [H2 [H3 H4]]]. split; [exact H2|]. split; [exact H1|].
  split; [eauto|]. rewrite Forall_forall in *. intros x Hx. apply H4. rewrite !in_app_iff in *. intuition.
Qed.
Lemma minv_right : forall a i b j out, minv (a :: i) (b :: j) out -> ~ L a b ->
  minv (a :: i) j (out ++ [b]).
Proof using ST.
  clear D0. intros a i b j out H Hl. apply minv_sym, minv_left; [now apply minv_sym|].
  destruct H as [_ [_ [H3 H4]]]. rewrite Forall_forall in H4.
  destruct (L_total a b) as [K|K]; auto.
  - apply H4. rewrite !in_app_iff. cbn; auto.
  - apply H4. rewrite !in_app_iff. cbn; auto.
  - intros ->. apply (H3 b); cbn; auto.
  - contradiction.
Qed.
Lemma minv_nz : forall i j out x, minv i j out -> In x (out ++ i ++ j) -> (x =? 0) = false.
Proof using D0.
  clear ST. intros i j out x [_ [_ [_ H]]] Hx. rewrite Forall_forall in H.
  destruct (Nat.eqb_spec x 0) as [->|]; auto. now apply H in Hx.
Qed.
Lemma minv_nodup : forall i j out, minv i j out -> NoDup (out ++ i ++ j).
Proof using ST.
  clear D0. intros i j out [H1 [H2 [H3 H4]]].
  assert (F1 : Forall D (out ++ i)).
  { rewrite Forall_forall in *. intros x Hx. apply H4. rewrite !in_app_iff in *. intuition. }
  assert (F2 : Forall D (out ++ j)).
  { rewrite Forall_forall in *. intros x Hx. apply H4. rewrite !in_app_iff in *. intuition. }
  apply ss_nodup in H1; auto. apply ss_nodup in H2; auto. rewrite app_assoc.
  apply NoDup_app_disj; auto.
  - clear - H2. induction out as [|x out IH]; [exact H2|]. inversion H2; subst. auto.
  - intros x Hx Hj. apply in_app_iff in Hx. destruct Hx as [Hx|Hx]; [|eauto].
    clear - H2 Hx Hj. induction out as [|y out IH]; [contradiction|]. inversion H2; subst.
    destruct Hx as [->|Hx]; auto. apply H1, in_app_iff. auto.
Qed.

Lemma perm_left : forall (a : nat) i j out, Permutation ((out ++ [a]) ++ i ++ j) (out ++ (a :: i) ++ j).
Proof using Type. clear. intros. rewrite <- app_assoc. reflexivity. Qed.
Lemma perm_right : forall (b : nat) i j out, Permutation ((out ++ [b]) ++ i ++ j) (out ++ i ++ b :: j).
Proof using Type.
  clear. intros. rewrite <- app_assoc. apply Permutation_app_head. cbn [app]. apply Permutation_middle.
Qed.

(** a merge is finished when one part is used up *)
Definition mdone (i j out i' j' out' : list nat) : Prop :=
  minv i' j' out' /\ (i' = [] \/ j' = []) /\ Permutation (out' ++ i' ++ j') (out ++ i ++ j) /\
  (out <> [] -> out' <> []).

(** *** by handles *)
Lemma sort_merge_ok : forall f i j out, length i + length j < f -> minv i j out ->
  exists i' j' out', sort_merge less f i j out = (i', j', out') /\ mdone i j out i' j' out'.
Proof using ST D0.
  induction f as [|f IH]; intros i j out Hf H; [lia|]. cbn [sort_merge].
  destruct i as [|a i]; [exists [], j, out; split; [reflexivity|]; split; auto|].
  destruct j as [|b j]; [exists (a :: i), [], out; split; [reflexivity|]; split; auto|].
  rewrite (minv_nz _ _ _ a H), (minv_nz _ _ _ b H) by (rewrite !in_app_iff; cbn; auto).
  cbn [length] in Hf.
  assert (K : forall x : nat, out ++ [x] <> []) by (intros x E; apply app_eq_nil in E; now destruct E).
  destruct (less a b) eqn:E.
  - destruct (IH i (b :: j) (out ++ [a])) as [i' [j' [o' [E' [P1 [P2 [P3 P4]]]]]]]; [cbn; lia|now apply minv_left|].
    exists i', j', o'. split; [exact E'|]. split; [exact P1|]. split; [exact P2|].
    split; [|intros _; apply P4, K]. now rewrite P3, perm_left.
  - destruct (IH (a :: i) j (out ++ [b])) as [i' [j' [o' [E' [P1 [P2 [P3 P4]]]]]]]; [cbn; lia|
      apply minv_right; auto; unfold L; congruence|].
    exists i', j', o'. split; [exact E'|]. split; [exact P1|]. split; [exact P2|].
    split; [|intros _; apply P4, K]. now rewrite P3, perm_right.
Qed.

Lemma take_valid_all : forall l, ~ In 0 l -> take_valid l = l.
Proof using Type.
  clear. induction l as [|x l IH]; intros H; cbn [take_valid]; [reflexivity|]. cbn [In] in H.
  destruct (Nat.eqb_spec x 0); [intuition|]. now rewrite IH by intuition.
Qed.

Lemma sort_set_ok : forall srt s,
  (forall l, NoDup l -> Forall D l -> Permutation l (srt l) /\ StronglySorted L (srt l)) ->
  holes s = [] -> srtd s <= length (lc s) -> NoDup (lc s) -> Forall D (lc s) ->
  StronglySorted L (firstn (srtd s) (lc s)) ->
  exists s', sort_set less srt s = Some s' /\ all_sorted s' /\ Permutation (lc s) (lc s').
Proof using ST D0.
  intros srt s Hs Hh Hn Hd HD Hp. unfold sort_set.
  destruct (Nat.ltb_spec (length (lc s)) (srtd s)); [lia|].
  rewrite Hh. cbn [length].
  rewrite <- (firstn_skipn (srtd s) (lc s)) in Hd, HD.
  assert (Hd2 : NoDup (skipn (srtd s) (lc s))).
  { clear - Hd. induction (firstn (srtd s) (lc s)) as [|x l IH]; [exact Hd|]. inversion Hd; subst. auto. }
  assert (Hdis : forall x, In x (firstn (srtd s) (lc s)) -> In x (skipn (srtd s) (lc s)) -> False).
  { clear - Hd. induction (firstn (srtd s) (lc s)) as [|y l IH]; intros x [] Hx; inversion Hd; subst; eauto.
    apply H2, in_app_iff. auto. }
  apply Forall_app in HD. destruct HD as [HD1 HD2].
  destruct (Hs _ Hd2 HD2) as [Q1 Q2].
  set (A := firstn (srtd s) (lc s)) in *. set (B := srt (skipn (srtd s) (lc s))) in *.
  assert (LA : length A = srtd s) by (unfold A; rewrite firstn_length; lia).
  assert (M : minv A B []).
  { split; [exact Hp|]. split; [exact Q2|]. split.
    - intros x Hx Hy. apply (Hdis x Hx). now apply (Permutation_in _ (Permutation_sym Q1)).
    - cbn [app]. apply Forall_app. split; auto. eapply Permutation_Forall; [exact Q1|exact HD2]. }
  assert (T : exists t, sort_parts less (srtd s) (A ++ B) 0 = Some t /\
     Permutation t (A ++ B) /\ StronglySorted L t).
  { unfold sort_parts. destruct (Nat.eqb_spec (srtd s) 0) as [E0|E0].
    - exists (A ++ B). split; [reflexivity|]. split; [reflexivity|].
      rewrite E0 in LA. destruct A; [exact Q2|discriminate].
    - rewrite <- LA. rewrite firstn_app, Nat.sub_diag, firstn_all, app_nil_r.
      rewrite skipn_app, Nat.sub_diag, skipn_all. cbn [app skipn].
      destruct (sort_merge_ok (S (length (A ++ B))) A B []) as [i' [j' [o' [E' [P1 [P2 [P3 _]]]]]]];
        [rewrite app_length; lia|exact M|].
      rewrite E'. cbn [app] in P3.
      rewrite !take_valid_all.
      2,3: intros K; assert (Hf : (0 =? 0) = false)
        by (apply (minv_nz _ _ _ 0 P1); rewrite !in_app_iff; auto); discriminate.
      rewrite (Permutation_length P3), Nat.sub_diag. cbn [Nat.eqb repeat]. rewrite app_nil_r.
      exists (o' ++ i' ++ j'). split; [reflexivity|]. split; [exact P3|].
      destruct P1 as [S1 [S2 _]]. destruct P2 as [-> | ->]; cbn [app]; [exact S2|].
      now rewrite app_nil_r. }
  destruct T as [t [ET [PT ST']]]. rewrite ET. cbn [option_map]. eexists. split; [reflexivity|].
  assert (PL : Permutation (lc s) t).
  { rewrite PT. rewrite <- (firstn_skipn (srtd s) (lc s)). apply Permutation_app; [reflexivity|exact Q1]. }
  unfold sort_finish. rewrite Hh. cbn [length]. rewrite Nat.sub_0_r, firstn_all. split; [|exact PL].
  split; [reflexivity|]. split; [reflexivity|]. split; [|exact ST'].
  cbn [lc]. eapply Permutation_Forall; [exact PL|].
  rewrite <- (firstn_skipn (srtd s) (lc s)). apply Forall_app. auto.
Qed.

(** *** with a marker *)
Lemma merge_marked_ok : forall f m k i j out, length i + length j < f -> minv i j out ->
  (forall x, m k x = true <-> In x out) ->
  exists m' i' j' out', merge_marked less false f m k i j out = (m', i', j', out') /\
    mdone i j out i' j' out' /\ (forall x, m' k x = true <-> In x out') /\
    (forall k' x, k' <> k -> m' k' x = m k' x).
Proof using ST D0.
  induction f as [|f IH]; intros m k i j out Hf H Hm; [lia|]. cbn [merge_marked].
  destruct i as [|a i]; [exists m, [], j, out; split; [reflexivity|]; split; [split; auto|auto]|].
  destruct j as [|b j]; [exists m, (a :: i), [], out; split; [reflexivity|]; split; [split; auto|auto]|].
  rewrite (minv_nz _ _ _ a H), (minv_nz _ _ _ b H) by (rewrite !in_app_iff; cbn; auto).
  pose proof (minv_nodup _ _ _ H) as N.
  assert (Na : m k a = false).
  { apply not_true_iff_false. rewrite Hm. intros K. apply in_split in K. destruct K as [l1 [l2 ->]].
    rewrite <- app_assoc in N. cbn [app] in N. apply NoDup_remove_2 in N. apply N. rewrite !in_app_iff. cbn; auto. }
  assert (Nb : m k b = false).
  { apply not_true_iff_false. rewrite Hm. intros K. apply in_split in K. destruct K as [l1 [l2 ->]].
    rewrite <- app_assoc in N. cbn [app] in N. apply NoDup_remove_2 in N. apply N.
    repeat (rewrite in_app_iff; cbn [In]). auto 10. }
  rewrite Na, Nb. cbn [orb length] in *.
  assert (K : forall x : nat, out ++ [x] <> []) by (intros x E; apply app_eq_nil in E; now destruct E).
  assert (KM : forall y x, mark m k y true k x = true <-> In x (out ++ [y])).
  { intros y x. rewrite mark_true, Hm, in_app_iff. cbn. intuition. }
  assert (KO : forall y k' x, k' <> k -> mark m k y true k' x = m k' x).
  { intros y k' x Hk. unfold mark. destruct (Nat.eqb_spec k' k); [contradiction|reflexivity]. }
  destruct (less a b) eqn:E.
  - destruct (IH (mark m k a true) k i (b :: j) (out ++ [a])) as [m' [i' [j' [o' [E' [[P1 [P2 [P3 P4]]] [P5 P6]]]]]]];
      [cbn; lia|now apply minv_left|apply KM|].
    exists m', i', j', o'. split; [exact E'|]. split; [|split; [exact P5|intros; rewrite P6 by auto; now apply KO]].
    split; [exact P1|]. split; [exact P2|].
    split; [|intros _; apply P4, K]. now rewrite P3, perm_left.
  - destruct (IH (mark m k b true) k (a :: i) j (out ++ [b])) as [m' [i' [j' [o' [E' [[P1 [P2 [P3 P4]]] [P5 P6]]]]]]];
      [cbn; lia|apply minv_right; auto; unfold L; congruence|apply KM|].
    exists m', i', j', o'. split; [exact E'|]. split; [|split; [exact P5|intros; rewrite P6 by auto; now apply KO]].
    split; [exact P1|]. split; [exact P2|].
    split; [|intros _; apply P4, K]. now rewrite P3, perm_right.
Qed.

Lemma rest_marked_ok : forall l m k out, ~ In 0 l -> NoDup (out ++ l) ->
  (forall x, m k x = true <-> In x out) ->
  exists m', rest_marked m k l out = (m', [], out ++ l) /\
    (forall x, m' k x = true <-> In x (out ++ l)) /\ (forall k' x, k' <> k -> m' k' x = m k' x).
Proof using Type.
  clear. induction l as [|a l IH]; intros m k out H0 N Hm; cbn [rest_marked].
  - exists m. rewrite app_nil_r. auto.
  - cbn [In] in H0. destruct (Nat.eqb_spec a 0); [intuition|].
    assert (Na : m k a = false).
    { apply not_true_iff_false. rewrite Hm. intros K. apply NoDup_remove_2 in N. apply N, in_app_iff. auto. }
    rewrite Na. cbn [orb]. destruct (IH (mark m k a true) k (out ++ [a])) as [m' [E [P1 P2]]].
    + intuition.
    + rewrite <- app_assoc. exact N.
    + intros x. rewrite mark_true, Hm, in_app_iff. cbn. intuition.
    + exists m'. rewrite <- app_assoc in E, P1. split; [exact E|]. split; [exact P1|].
      intros k' x Hk. rewrite P2 by auto. unfold mark. destruct (Nat.eqb_spec k' k); [contradiction|reflexivity].
Qed.

Lemma attach_ok : forall l m k out, ~ In 0 l -> NoDup (out ++ l) ->
  (forall x, m k x = true <-> In x out) ->
  exists m', attach m k out l = (m', out ++ l) /\
    (forall x, m' k x = true <-> In x (out ++ l)) /\ (forall k' x, k' <> k -> m' k' x = m k' x).
Proof using Type.
  clear. induction l as [|a l IH]; intros m k out H0 N Hm; cbn [attach].
  - exists m. rewrite app_nil_r. auto.
  - cbn [In] in H0. destruct (Nat.eqb_spec a 0); [intuition|].
    assert (Na : m k a = false).
    { apply not_true_iff_false. rewrite Hm. intros K. apply NoDup_remove_2 in N. apply N, in_app_iff. auto. }
    rewrite Na. cbn [orb]. destruct (IH (mark m k a true) k (out ++ [a])) as [m' [E [P1 P2]]].
    + intuition.
    + rewrite <- app_assoc. exact N.
    + intros x. rewrite mark_true, Hm, in_app_iff. cbn. intuition.
    + exists m'. rewrite <- app_assoc in E, P1. split; [exact E|]. split; [exact P1|].
      intros k' x Hk. rewrite P2 by auto. unfold mark. destruct (Nat.eqb_spec k' k); [contradiction|reflexivity].
Qed.

(** what AddElements promises when nothing given is already in the set *)
Definition merged (m : marks) (s : eset) (h : list nat) (r : marks * eset) : Prop :=
  exists t, lc (snd r) = t ++ skipn (srtd s) (lc s) /\ srtd (snd r) = length t /\ holes (snd r) = [] /\
    Permutation t (firstn (srtd s) (lc s) ++ h) /\ StronglySorted L t /\
    forall k' x, fst r k' x = m k' x.

Lemma sorted_minv : forall s h, NoDup (lc s ++ h) -> Forall D (lc s ++ h) ->
  StronglySorted L (firstn (srtd s) (lc s)) -> StronglySorted L h ->
  minv (firstn (srtd s) (lc s)) h [].
Proof using Type.
  clear ST D0. intros s h N F H1 H2. rewrite <- (firstn_skipn (srtd s) (lc s)) in N, F.
  split; [exact H1|]. split; [exact H2|]. split.
  - intros x Hx Hh. apply in_split in Hx. destruct Hx as [l1 [l2 E]]. rewrite E in N.
    rewrite <- !app_assoc in N. cbn [app] in N. apply NoDup_remove_2 in N. apply N.
    rewrite !in_app_iff. auto.
  - cbn [app]. rewrite Forall_forall in *. intros x Hx. apply F. rewrite !in_app_iff in *. intuition.
Qed.

Lemma merged_perm : forall (A U h t : list nat), Permutation t (A ++ h) ->
  Permutation (t ++ U) ((A ++ U) ++ h).
Proof using Type.
  clear. intros A U h t P. rewrite P, <- !app_assoc. apply Permutation_app_head, Permutation_app_comm.
Qed.

Lemma restore : forall (m m' : marks) k l, (forall x, m k x = false) ->
  (forall x, m' k x = true <-> In x l) -> (forall k' x, k' <> k -> m' k' x = m k' x) -> ~ In 0 l ->
  forall k' x, mark_array m' k false l k' x = m k' x.
Proof using Type.
  clear. intros m m' k l F H1 H2 H0 k' x. apply bool_ext. rewrite mark_array_false.
  destruct (Nat.eq_dec k' k) as [->|N].
  - rewrite H1, (fresh_false m k F). split; [|intuition]. intros [A B]. apply B.
    split; [reflexivity|]. split; [exact A|]. intros ->. contradiction.
  - rewrite H2 by auto. intuition.
Qed.

(** the sorted parts merged: everything is taken, all marked *)
Lemma both_ok : forall m k A h, (forall x, m k x = false) -> minv A h [] ->
  exists m3 t,
    (let '(m1, i, j, out) := merge_marked less false (S (length A + length h)) m k A h [] in
     let '(m2, i, out) := rest_marked m1 k i out in
     let '(m3, j, out) := rest_marked m2 k j out in (m3, i, j, out)) = (m3, [], [], t) /\
    Permutation t (A ++ h) /\ StronglySorted L t /\ ~ In 0 t /\
    (forall x, m3 k x = true <-> In x t) /\ (forall k' x, k' <> k -> m3 k' x = m k' x).
Proof using ST D0.
  intros m k A h F M.
  destruct (merge_marked_ok (S (length A + length h)) m k A h []) as
    [m1 [i' [j' [o' [E1 [[P1 [P2 [P3 _]]] [P5 P6]]]]]]]; [lia|exact M|cbn; intros; rewrite F; intuition|].
  rewrite E1. cbn [app] in P3.
  assert (Z : forall x, In x (o' ++ i' ++ j') -> x <> 0).
  { intros x Hx E. subst x. assert (Hf : (0 =? 0) = false) by (now apply (minv_nz _ _ _ 0 P1)). discriminate. }
  pose proof (minv_nodup _ _ _ P1) as N1.
  destruct (rest_marked_ok i' m1 k o') as [m2 [E2 [Q1 Q2]]]; auto.
  { intros K. apply (Z 0); auto. rewrite !in_app_iff. auto. }
  { rewrite app_assoc in N1. clear - N1. revert N1. generalize (o' ++ i'). intros l. revert j'.
    induction l as [|x l IH]; intros j' H; [constructor|]. inversion H; subst.
    constructor; [rewrite in_app_iff in *; intuition|eauto]. }
  rewrite E2.
  destruct (rest_marked_ok j' m2 k (o' ++ i')) as [m3 [E3 [R1 R2]]]; auto.
  { intros K. apply (Z 0); auto. rewrite !in_app_iff. auto. }
  { now rewrite <- app_assoc. }
  rewrite E3. exists m3, ((o' ++ i') ++ j'). split; [reflexivity|].
  split; [now rewrite <- app_assoc|]. split.
  { destruct P1 as [S1 [S2 _]]. destruct P2 as [-> | ->]; [now rewrite app_nil_r|now rewrite app_nil_r]. }
  split; [rewrite <- app_assoc; intros K; now apply (Z 0)|]. split; [exact R1|].
  intros k' x Hk. now rewrite R2, Q2, P6 by auto.
Qed.

Lemma add_marked_ok : forall m k s h, (forall x, m k x = false) ->
  NoDup (lc s ++ h) -> Forall D (lc s ++ h) ->
  StronglySorted L (firstn (srtd s) (lc s)) -> StronglySorted L h ->
  merged m s h (add_elements_marked less false m k s h).
Proof using ST D0.
  intros m k s h F N FD H1 H2. pose proof (sorted_minv s h N FD H1 H2) as M.
  unfold add_elements_marked. set (A := firstn (srtd s) (lc s)) in *. set (U := skipn (srtd s) (lc s)).
  assert (EA : lc s = A ++ U) by (symmetry; apply firstn_skipn).
  destruct (both_ok m k A h F M) as [m3 [t [E [P [SO [Z [M1 M2]]]]]]].
  destruct (merge_marked less false (S (length A + length h)) m k A h []) as [[[m1 i1] j1] o1].
  destruct (rest_marked m1 k i1 o1) as [[m2 i2] o2].
  destruct (rest_marked m2 k j1 o2) as [[m4 j2] o3].
  injection E as -> -> -> ->.
  assert (NP : NoDup (t ++ U)).
  { apply (Permutation_NoDup (l := lc s ++ h)); auto. rewrite EA. symmetry. now apply merged_perm. }
  assert (ZU : ~ In 0 U).
  { intros K. rewrite Forall_forall in FD. apply D0, FD. rewrite EA, !in_app_iff. auto. }
  cbn [app].
  destruct (attach_ok U m3 k t) as [m5 [E4 [T1 T2]]]; auto.
  rewrite E4. exists t. cbn [fst snd lc srtd holes].
  split; [reflexivity|]. split; [reflexivity|]. split; [reflexivity|]. split; [exact P|].
  split; [exact SO|]. apply restore; auto.
  - intros k' x Hk. now rewrite T2, M2 by auto.
  - rewrite in_app_iff. intros [K|K]; contradiction.
Qed.

Lemma unite_set_ok : forall m k s o, (forall x, m k x = false) ->
  NoDup (lc s ++ lc o) -> Forall D (lc s ++ lc o) ->
  StronglySorted L (firstn (srtd s) (lc s)) -> StronglySorted L (firstn (srtd o) (lc o)) ->
  exists t, lc (snd (unite_set less m k s o)) =
      t ++ skipn (srtd s) (lc s) ++ skipn (srtd o) (lc o) /\
    srtd (snd (unite_set less m k s o)) = length t /\ holes (snd (unite_set less m k s o)) = [] /\
    Permutation t (firstn (srtd s) (lc s) ++ firstn (srtd o) (lc o)) /\ StronglySorted L t /\
    forall k' x, fst (unite_set less m k s o) k' x = m k' x.
Proof using ST D0.
  intros m k s o F N FD H1 H2.
  unfold unite_set. set (A := firstn (srtd s) (lc s)) in *. set (U := skipn (srtd s) (lc s)).
  set (h := firstn (srtd o) (lc o)) in *. set (V := skipn (srtd o) (lc o)).
  assert (EA : lc s = A ++ U) by (symmetry; apply firstn_skipn).
  assert (Eh : lc o = h ++ V) by (symmetry; apply firstn_skipn).
  assert (PP : Permutation (lc s ++ lc o) ((A ++ h) ++ U ++ V)).
  { rewrite EA, Eh, <- !app_assoc. apply Permutation_app_head. rewrite !app_assoc.
    apply Permutation_app_tail, Permutation_app_comm. }
  assert (N' := Permutation_NoDup PP N). assert (FD' := Permutation_Forall PP FD).
  assert (M : minv A h []).
  { split; [exact H1|]. split; [exact H2|]. apply Forall_app in FD'. split; [|apply FD'].
    intros x Hx Hh. apply in_split in Hx. destruct Hx as [l1 [l2 E]]. rewrite E in N'.
    rewrite <- !app_assoc in N'. cbn [app] in N'. apply NoDup_remove_2 in N'. apply N'.
    rewrite !in_app_iff. auto. }
  destruct (both_ok m k A h F M) as [m3 [t [E [P [SO [Z [M1 M2]]]]]]].
  destruct (merge_marked less false (S (length A + length h)) m k A h []) as [[[m1 i1] j1] o1].
  destruct (rest_marked m1 k i1 o1) as [[m2 i2] o2].
  destruct (rest_marked m2 k j1 o2) as [[m4 j2] o3].
  injection E as -> -> -> ->.
  assert (NP : NoDup ((t ++ U) ++ V)).
  { rewrite <- app_assoc. apply (Permutation_NoDup (l := (A ++ h) ++ U ++ V)); auto.
    apply Permutation_app_tail. now symmetry. }
  assert (ZU : ~ In 0 (U ++ V)).
  { intros K. rewrite Forall_forall in FD'. apply D0, FD'. rewrite in_app_iff. auto. }
  rewrite in_app_iff in ZU. cbn [app].
  destruct (attach_ok U m3 k t) as [m5 [E4 [T1 T2]]]; auto.
  { clear - NP. revert NP. generalize (t ++ U). intros l.
    induction l as [|x l IH]; intros H; [constructor|]. inversion H; subst.
    constructor; [rewrite in_app_iff in *; intuition|eauto]. }
  rewrite E4.
  destruct (attach_ok V m5 k (t ++ U)) as [m6 [E5 [T3 T4]]]; auto.
  rewrite E5. exists t. cbn [fst snd lc srtd holes].
  split; [now rewrite <- app_assoc|]. split; [reflexivity|]. split; [reflexivity|]. split; [exact P|].
  split; [exact SO|]. apply restore; auto.
  - intros k' x Hk. now rewrite T4, T2, M2 by auto.
  - rewrite !in_app_iff. intuition.
Qed.

End S.

(** *** by handle: duplicates are found by comparing with the last element *)
Definition LT (x y : nat) : Prop := (x <? y) = true.

Lemma last_lt : forall out prev i, StronglySorted LT ((out ++ [prev]) ++ i) -> forall x, In x i -> x <> prev.
Proof.
  intros out prev i H x Hx ->. apply (ss_app Nat.ltb) in H. destruct H as [_ [_ H]].
  specialize (H prev prev). unfold LT in H. rewrite Nat.ltb_irrefl in H.
  assert (false = true); [|discriminate]. apply H; auto. apply in_app_iff. cbn. auto.
Qed.

Lemma merge_next_ok : forall f i j out prev, length i + length j < f ->
  minv Nat.ltb (fun x => x <> 0) i j (out ++ [prev]) ->
  exists i' j' out' prev', merge_next f i j prev (out ++ [prev]) = (i', j', prev', out' ++ [prev']) /\
    mdone Nat.ltb (fun x => x <> 0) i j (out ++ [prev]) i' j' (out' ++ [prev']).
Proof.
  assert (N0 : ~ ((fun x => x <> 0) 0)) by (cbn; intuition).
  induction f as [|f IH]; intros i j out prev Hf H; [lia|]. cbn [merge_next].
  assert (D0 : mdone Nat.ltb (fun x => x <> 0) i j (out ++ [prev]) i j (out ++ [prev]) \/
               (i <> [] /\ j <> [])).
  { destruct i; [left; split; auto|]. destruct j; [left; split; auto|right; split; discriminate]. }
  destruct i as [|a i]; [exists [], j, out, prev; split; [reflexivity|]; destruct D0 as [D0|[]]; [exact D0|congruence]|].
  destruct j as [|b j]; [exists (a :: i), [], out, prev; split; [reflexivity|]; destruct D0 as [D0|[]]; [exact D0|congruence]|].
  clear D0.
  rewrite (minv_nz _ _ N0 _ _ _ a H), (minv_nz _ _ N0 _ _ _ b H) by (rewrite !in_app_iff; cbn; auto).
  assert (Na : (a =? prev) = false).
  { apply Nat.eqb_neq. destruct H as [H _]. apply (last_lt out prev (a :: i) H). now left. }
  assert (Nb : (b =? prev) = false).
  { apply Nat.eqb_neq. destruct H as [_ [H _]]. apply (last_lt out prev (b :: j) H). now left. }
  rewrite Na, Nb. cbn [orb length] in *.
  assert (K : forall (o : list nat) (x : nat), o ++ [x] <> []) by (intros o x E; apply app_eq_nil in E; now destruct E).
  destruct (a <? b) eqn:E.
  - destruct (IH i (b :: j) (out ++ [prev]) a) as [i' [j' [o' [p' [E' [P1 [P2 [P3 P4]]]]]]]];
      [cbn; lia|now apply (minv_left _ _ ltb_total)|].
    exists i', j', o', p'. split; [exact E'|]. split; [exact P1|]. split; [exact P2|].
    split; [|intros _; apply K]. now rewrite P3, perm_left.
  - destruct (IH (a :: i) j (out ++ [prev]) b) as [i' [j' [o' [p' [E' [P1 [P2 [P3 P4]]]]]]]];
      [cbn; lia|apply (minv_right _ _ ltb_total); auto; congruence|].
    exists i', j', o', p'. split; [exact E'|]. split; [exact P1|]. split; [exact P2|].
    split; [|intros _; apply K]. now rewrite P3, perm_right.
Qed.

Lemma merge_rest_ok : forall l out prev, ~ In 0 l -> StronglySorted LT ((out ++ [prev]) ++ l) ->
  exists out' prev', merge_rest l prev (out ++ [prev]) = ([], prev', out' ++ [prev']) /\
    out' ++ [prev'] = (out ++ [prev]) ++ l.
Proof.
  induction l as [|a l IH]; intros out prev H0 H; cbn [merge_rest].
  - exists out, prev. now rewrite app_nil_r.
  - cbn [In] in H0. destruct (Nat.eqb_spec a 0); [intuition|].
    assert (Na : (a =? prev) = false).
    { apply Nat.eqb_neq. apply (last_lt out prev (a :: l) H). now left. }
    rewrite Na. cbn [orb]. destruct (IH (out ++ [prev]) a) as [o' [p' [E P]]].
    + intuition.
    + rewrite <- app_assoc. exact H.
    + exists o', p'. split; [exact E|]. rewrite P, <- app_assoc. reflexivity.
Qed.

(** from an empty result: [prev] is 0 *)
Lemma merge_rest_start : forall l, ~ In 0 l -> StronglySorted LT l ->
  exists prev, merge_rest l 0 [] = ([], prev, l).
Proof.
  intros [|a l] H0 H; [exists 0; reflexivity|]. cbn [In] in H0. cbn [merge_rest].
  destruct (Nat.eqb_spec a 0); [intuition|]. cbn [orb app].
  destruct (merge_rest_ok l [] a) as [o' [p' [E P]]]; [intuition|exact H|].
  cbn [app] in E, P. rewrite E, P. eauto.
Qed.

Lemma merge_first_ok : forall i j, minv Nat.ltb (fun x => x <> 0) i j [] -> i <> [] -> j <> [] ->
  exists i' j' p, merge_first (S (length i + length j)) i j = (i', j', [p]) /\
    minv Nat.ltb (fun x => x <> 0) i' j' [p] /\ length i' + length j' < length i + length j /\
    Permutation ([p] ++ i' ++ j') (i ++ j).
Proof.
  assert (N0 : ~ ((fun x => x <> 0) 0)) by (cbn; intuition).
  intros [|a i] [|b j] H Hi Hj; try contradiction. cbn [merge_first].
  rewrite (minv_nz _ _ N0 _ _ _ a H), (minv_nz _ _ N0 _ _ _ b H) by (rewrite !in_app_iff; cbn; auto).
  destruct (a <? b) eqn:E.
  - exists i, (b :: j), a. split; [reflexivity|]. split; [now apply (minv_left _ _ ltb_total a i b j [])|].
    split; [cbn; lia|reflexivity].
  - exists (a :: i), j, b. split; [reflexivity|].
    split; [apply (minv_right _ _ ltb_total a i b j []); auto; congruence|].
    split; [cbn; lia|]. apply (perm_right b (a :: i) j []).
Qed.

Lemma add_handle_ok : forall m k s h, (forall x, m k x = false) ->
  NoDup (lc s ++ h) -> ~ In 0 (lc s ++ h) ->
  StronglySorted LT (firstn (srtd s) (lc s)) -> StronglySorted LT h ->
  merged Nat.ltb m s h (add_elements_handle m k s h).
Proof.
  intros m k s h F N H0 H1 H2.
  assert (FD : Forall (fun x => x <> 0) (lc s ++ h))
    by (apply Forall_forall; intros x Hx ->; contradiction).
  pose proof (sorted_minv Nat.ltb _ s h N FD H1 H2) as M.
  unfold add_elements_handle. set (A := firstn (srtd s) (lc s)) in *. set (U := skipn (srtd s) (lc s)).
  assert (EA : lc s = A ++ U) by (symmetry; apply firstn_skipn).
  assert (T : exists i j out prev,
    (let '(i, j, out) := merge_first (S (length A + length h)) A h in
     let '(i, j, prev, out) := merge_next (S (length A + length h)) i j (hd 0 out) out in
     let '(i, prev, out) := merge_rest i prev out in
     let '(j, prev, out) := merge_rest j prev out in (i, j, prev, out)) = (i, j, prev, out) /\
    i = [] /\ Permutation out (A ++ h) /\ StronglySorted LT out).
  { assert (ZA : ~ In 0 A) by (intros K; apply H0; rewrite EA, !in_app_iff; auto).
    assert (Zh : ~ In 0 h) by (intros K; apply H0; rewrite !in_app_iff; auto).
    destruct A as [|a A'] eqn:EqA; [|destruct h as [|b h'] eqn:Eqh].
    - cbn [merge_first merge_next merge_rest hd length Nat.add].
      destruct (merge_rest_start h Zh H2) as [p E]. rewrite E.
      exists [], [], h, p. split; [reflexivity|]. split; [reflexivity|]. split; [reflexivity|exact H2].
    - cbn [merge_first merge_next hd].
      destruct (merge_rest_start (a :: A') ZA H1) as [p E]. rewrite E. cbn [merge_rest].
      exists [], [], (a :: A'), p. split; [reflexivity|]. split; [reflexivity|].
      split; [now rewrite app_nil_r|exact H1].
    - rewrite <- EqA, <- Eqh in *.
      destruct (merge_first_ok A h M) as [i' [j' [p [E1 [M1 [L1 P1]]]]]]; [congruence|congruence|].
      rewrite E1. cbn [hd].
      destruct (merge_next_ok (S (length A + length h)) i' j' [] p) as [i2 [j2 [o2 [p2 [E2 [M2 [Q2 [P2 _]]]]]]]];
        [lia|exact M1|]. cbn [app] in E2. rewrite E2.
      assert (Z2 : forall x, In x (o2 ++ [p2]) \/ In x i2 \/ In x j2 -> x <> 0).
      { intros x Hx. destruct M2 as [_ [_ [_ Z]]]. rewrite Forall_forall in Z. apply Z.
        rewrite !in_app_iff in *. intuition. }
      destruct M2 as [S1 [S2 _]].
      destruct (merge_rest_ok i2 o2 p2) as [o3 [p3 [E3 P3]]]; [intros K; now apply (Z2 0); auto|exact S1|].
      rewrite E3.
      destruct (merge_rest_ok j2 o3 p3) as [o4 [p4 [E4 P4]]]; [intros K; now apply (Z2 0); auto| |].
      { rewrite P3. destruct Q2 as [-> | ->]; [now rewrite app_nil_r|now rewrite app_nil_r]. }
      rewrite E4. exists [], [], (o4 ++ [p4]), p4. split; [reflexivity|]. split; [reflexivity|].
      rewrite P4, P3. split.
      + rewrite <- app_assoc, P2, <- P1. reflexivity.
      + destruct Q2 as [-> | ->]; rewrite ?app_nil_r; auto. }
  destruct T as [i [j [out [prev [E [-> [P SO]]]]]]].
  destruct (merge_first (S (length A + length h)) A h) as [[i1 j1] o1].
  destruct (merge_next (S (length A + length h)) i1 j1 (hd 0 o1) o1) as [[[i2 j2] p2] o2].
  destruct (merge_rest i2 p2 o2) as [[i3 p3] o3].
  destruct (merge_rest j2 p3 o3) as [[j4 p4] o4].
  injection E as -> -> -> ->. cbn [app].
  assert (Zo : ~ In 0 out).
  { intros K. apply H0. apply (Permutation_in _ P) in K. rewrite EA, !in_app_iff in *. intuition. }
  assert (ZU : ~ In 0 U) by (intros K; apply H0; rewrite EA, !in_app_iff; auto).
  assert (NP : NoDup (out ++ U)).
  { apply (Permutation_NoDup (l := lc s ++ h)); auto. rewrite EA. symmetry. now apply merged_perm. }
  destruct (attach_ok U (mark_array m k true out) k out ZU NP) as [m4 [E4 [T1 T2]]].
  { intros x. rewrite mark_array_true, (fresh_false m k F). split; [intuition|].
    intros K. right. repeat split; auto. intros ->. contradiction. }
  rewrite E4. exists out. cbn [fst snd lc srtd holes].
  split; [reflexivity|]. split; [reflexivity|]. split; [reflexivity|]. split; [exact P|].
  split; [exact SO|]. apply restore; auto.
  - intros k' x Hk. rewrite T2 by auto. apply bool_ext. rewrite mark_array_true. intuition.
  - rewrite in_app_iff. intuition.
Qed.
