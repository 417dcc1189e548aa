(** Unsorted sets: invariant under the operations, iteration, compaction. *)
From Coq Require Import List Bool Arith Lia Permutation.
From Verif Require Import Util ESet_Model ESet_Proofs.
Import ListNotations.

Definition nz (h : nat) : bool := negb (h =? 0).
Definition members (s : eset) : list nat := filter nz (lc s).

Lemma nz_true : forall h, nz h = true <-> h <> 0.
Proof. intros h. unfold nz. destruct (Nat.eqb_spec h 0); cbn; intuition congruence. Qed.
Lemma in_members : forall s x, In x (members s) <-> x <> 0 /\ In x (lc s).
Proof. intros. unfold members. rewrite filter_In, nz_true. intuition. Qed.
Lemma in_members_at : forall s x, In x (members s) <-> x <> 0 /\ exists i, nth_error (lc s) i = Some x.
Proof.
  intros. rewrite in_members. split; intros [H1 H2]; split; auto.
  - now apply In_nth_error.
  - destruct H2 as [i H2]. now apply nth_error_In in H2.
Qed.

Lemma nel : forall (l : list nat) i j x, i < length l ->
  nth_error (lset l i x) j = if i =? j then Some x else nth_error l j.
Proof.
  intros l i j x H. rewrite nth_error_lset. destruct (Nat.eqb_spec i j) as [->|]; [|reflexivity].
  destruct (Nat.ltb_spec j (length l)); [reflexivity|lia].
Qed.

(** holes are exactly the invalid entries; valid entries do not repeat *)
Definition wf (s : eset) : Prop :=
  NoDup (holes s) /\
  (forall i, In i (holes s) <-> nth_error (lc s) i = Some 0) /\
  (forall i j x, x <> 0 -> nth_error (lc s) i = Some x -> nth_error (lc s) j = Some x -> i = j).

Lemma wf_empty : wf empty_set.
Proof.
  split; [constructor|]. cbn. split.
  - intros [|i]; cbn; intuition discriminate.
  - intros [|i] j x _ H; discriminate.
Qed.

Lemma filter_nodup : forall l,
  (forall i j x, x <> 0 -> nth_error l i = Some x -> nth_error l j = Some x -> i = j) ->
  NoDup (filter nz l).
Proof.
  induction l as [|x l IH]; intros H; cbn [filter]; [constructor|].
  assert (IH' : NoDup (filter nz l)).
  { apply IH. intros i j y Hy Hi Hj. assert (S i = S j); [|lia]. eapply H; eauto. }
  destruct (nz x) eqn:E; [|exact IH']. constructor; [|exact IH'].
  rewrite filter_In. intros [H1 _]. apply In_nth_error in H1. destruct H1 as [i H1].
  apply nz_true in E. assert (0 = S i); [|lia]. eapply H; eauto; reflexivity.
Qed.
Lemma wf_nodup : forall s, wf s -> NoDup (members s).
Proof. intros s [_ [_ H]]. now apply filter_nodup. Qed.

Lemma nodup_filter_inj : forall l, NoDup (filter nz l) ->
  forall i j x, x <> 0 -> nth_error l i = Some x -> nth_error l j = Some x -> i = j.
Proof.
  induction l as [|y l IH]; intros H i j x Hx Hi Hj; [destruct i; discriminate|].
  cbn [filter] in H.
  assert (K : y = x -> forall q, nth_error l q = Some x -> False).
  { intros -> q Hq. assert (E : nz x = true) by now apply nz_true. rewrite E in H.
    inversion H; subst. apply H2. apply filter_In. split; auto. now apply nth_error_In in Hq. }
  assert (H' : NoDup (filter nz l)) by (destruct (nz y); [now inversion H|exact H]).
  destruct i as [|i], j as [|j]; cbn in Hi, Hj; auto.
  - injection Hi as Hi. exfalso. eapply K; eauto.
  - injection Hj as Hj. exfalso. eapply K; eauto.
  - f_equal. eapply IH; eauto.
Qed.

Lemma zeros_count : forall l b,
  length (filter (fun i => nth (i - b) l 0 =? 0) (seq b (length l))) + length (filter nz l) = length l.
Proof.
  induction l as [|x l IH]; intros b; cbn [length seq filter]; [reflexivity|].
  assert (E : filter (fun i => nth (i - b) (x :: l) 0 =? 0) (seq (S b) (length l)) =
              filter (fun i => nth (i - S b) l 0 =? 0) (seq (S b) (length l))).
  { apply filter_ext_in. intros i Hi. apply in_seq in Hi.
    replace (i - b) with (S (i - S b)) by lia. reflexivity. }
  rewrite E, Nat.sub_diag. change (nth 0 (x :: l) 0) with x. specialize (IH (S b)). unfold nz at 1. destruct (Nat.eqb_spec x 0); cbn [negb length]; lia.
Qed.

Lemma wf_size : forall s, wf s -> size s = length (members s) /\ length (holes s) <= length (lc s).
Proof.
  intros s [H1 [H2 _]]. unfold size, members. pose proof (zeros_count (lc s) 0) as Z.
  assert (P : length (holes s) =
    length (filter (fun i => nth (i - 0) (lc s) 0 =? 0) (seq 0 (length (lc s))))).
  { apply Permutation_length. apply NoDup_Permutation; auto.
    - apply NoDup_filter, seq_NoDup.
    - intros i. rewrite H2, filter_In, in_seq, Nat.sub_0_r, Nat.eqb_eq. split.
      + intros E. split; [|now apply nth_error_nth].
        assert (i < length (lc s)); [|lia]. apply nth_error_Some. congruence.
      + intros [E1 E2]. rewrite <- E2. apply nth_error_nth'. lia. }
  rewrite P. lia.
Qed.

(** ** place, drop_at *)
Lemma place_ok : forall s e, wf s -> e <> 0 -> ~ In e (lc s) ->
  wf (place s e) /\ forall x, In x (members (place s e)) <-> In x (members s) \/ x = e.
Proof.
  intros s e [W1 [W2 W3]] He Hn. unfold place.
  assert (Hn' : forall i, nth_error (lc s) i <> Some e)
    by (intros i E; apply Hn; now apply nth_error_In in E).
  destruct (holes s) as [|i t] eqn:Eh.
  - split.
    + split; [constructor|]. cbn [lc holes]. split.
      * intros i. rewrite nth_error_app_if. destruct (Nat.ltb_spec i (length (lc s))) as [L|L].
        -- apply W2.
        -- split; [intros []|]. destruct (i - length (lc s)) as [|[|]]; cbn; congruence.
      * intros i j x Hx. rewrite !nth_error_app_if.
        destruct (Nat.ltb_spec i (length (lc s))) as [L|L], (Nat.ltb_spec j (length (lc s))) as [L'|L'].
        -- now apply W3.
        -- intros Hi Hj. destruct (j - length (lc s)) as [|[|]]; cbn in Hj; try discriminate.
           injection Hj as ->. now apply Hn' in Hi.
        -- intros Hj Hi. destruct (i - length (lc s)) as [|[|]]; cbn in Hj; try discriminate.
           injection Hj as ->. now apply Hn' in Hi.
        -- destruct (i - length (lc s)) as [|[|]] eqn:E1, (j - length (lc s)) as [|[|]] eqn:E2;
             cbn; try discriminate. lia.
    + intros x. rewrite !in_members. cbn [lc]. rewrite in_app_iff. cbn [In].
      intuition (subst; auto).
  - inversion W1; subst.
    assert (Hi : nth_error (lc s) i = Some 0) by (apply W2; now left).
    assert (Li : i < length (lc s)) by (apply nth_error_Some; congruence).
    split.
    + split; [assumption|]. cbn [lc holes]. split.
      * intros j. rewrite nel by exact Li. destruct (Nat.eqb_spec i j) as [->|N].
        -- split; [contradiction|intros K; congruence].
        -- rewrite <- W2. cbn [In]. intuition.
      * intros a b x Hx. rewrite !nel by exact Li.
        destruct (Nat.eqb_spec i a) as [<-|N1], (Nat.eqb_spec i b) as [<-|N2]; auto.
        -- intros E1 E2. injection E1 as ->. now apply Hn' in E2.
        -- intros E2 E1. injection E1 as ->. now apply Hn' in E2.
        -- now apply W3.
    + intros x. rewrite !in_members_at. cbn [lc]. split.
      * intros [Hx [j Hj]]. rewrite nel in Hj by exact Li.
        destruct (Nat.eqb_spec i j); [right; congruence|left; eauto].
      * intros [[Hx [j Hj]]| ->].
        -- split; auto. exists j. rewrite nth_error_lset_ne; auto. congruence.
        -- split; auto. exists i. now apply nth_error_lset_eq.
Qed.

Lemma drop_at_ok : forall s i h, wf s -> h <> 0 -> nth_error (lc s) i = Some h ->
  wf (drop_at s i) /\ forall x, In x (members (drop_at s i)) <-> In x (members s) /\ x <> h.
Proof.
  intros s i h [W1 [W2 W3]] Hh Hi.
  assert (Li : i < length (lc s)) by (apply nth_error_Some; congruence).
  unfold drop_at. split.
  - split; [|split]; cbn [lc holes].
    + constructor; auto. rewrite W2. congruence.
    + intros j. rewrite nel by exact Li. destruct (Nat.eqb_spec i j) as [->|N].
      * cbn [In]. intuition.
      * rewrite <- W2. cbn [In]. intuition.
    + intros a b x Hx. rewrite !nel by exact Li.
      destruct (Nat.eqb_spec i a) as [<-|N1], (Nat.eqb_spec i b) as [<-|N2]; auto; try congruence.
      now apply W3.
  - intros x. rewrite !in_members_at. cbn [lc]. split.
    + intros [Hx [j Hj]]. rewrite nel in Hj by exact Li.
      destruct (Nat.eqb_spec i j) as [->|N]; [congruence|]. split; [eauto|].
      intros ->. apply N. now apply (W3 i j h).
    + intros [[Hx [j Hj]] N]. split; auto. exists j. rewrite nth_error_lset_ne; auto. congruence.
Qed.

(** ** the operations *)
Lemma existsb_in : forall e l, existsb (Nat.eqb e) l = true <-> In e l.
Proof.
  intros. rewrite existsb_exists. split.
  - intros [x [H E]]. apply Nat.eqb_eq in E. now subst.
  - intros H. exists e. split; auto. apply Nat.eqb_refl.
Qed.

Lemma add_element_ok : forall s e, wf s -> e <> 0 ->
  wf (add_element s e) /\ forall x, In x (members (add_element s e)) <-> In x (members s) \/ x = e.
Proof.
  intros s e W He. unfold add_element. destruct (existsb (Nat.eqb e) (lc s)) eqn:E.
  - split; [exact W|]. intros x. apply existsb_in in E. rewrite !in_members. intuition (subst; auto).
  - apply place_ok; auto. rewrite <- existsb_in. congruence.
Qed.

Lemma index_of_spec : forall e l,
  match index_of e l with Some i => nth_error l i = Some e | None => ~ In e l end.
Proof.
  intros e. induction l as [|x l IH]; cbn [index_of]; [intros []|].
  destruct (Nat.eqb_spec x e) as [->|N]; [reflexivity|].
  destruct (index_of e l); cbn [option_map]; [exact IH|]. cbn [In]. intuition.
Qed.

Lemma remove_element_ok : forall s e, wf s -> e <> 0 ->
  wf (remove_element s e) /\ forall x, In x (members (remove_element s e)) <-> In x (members s) /\ x <> e.
Proof.
  intros s e W He. unfold remove_element. pose proof (index_of_spec e (lc s)) as I.
  destruct (index_of e (lc s)) as [i|].
  - now apply drop_at_ok.
  - split; [exact W|]. intros x. rewrite in_members. split; [|intuition].
    intros [H1 H2]. split; auto. intros ->. contradiction.
Qed.

Lemma drop_loop_ok : forall n m k b s i, wf s -> i + n = length (lc s) ->
  exists s', drop_loop m k b s i n = Some s' /\ wf s' /\ length (lc s') = length (lc s) /\
    forall j x, x <> 0 -> (nth_error (lc s') j = Some x <->
       nth_error (lc s) j = Some x /\ (j < i \/ m k x = negb b)).
Proof.
  induction n as [|n IH]; intros m k b s i W L; cbn [drop_loop].
  - exists s. split; [reflexivity|]. split; [exact W|]. split; [reflexivity|].
    intros j x Hx. split; [|intuition]. intros H. split; auto. left.
    assert (j < length (lc s)); [|lia]. apply nth_error_Some. congruence.
  - destruct (nth_error (lc s) i) as [h|] eqn:E.
    2:{ apply nth_error_None in E. lia. }
    unfold get_mark. destruct (Nat.eqb_spec h 0) as [->|N].
    + destruct (IH m k b s (S i) W) as [s' [E' [W' [L' P]]]]; [lia|].
      exists s'. split; [exact E'|]. split; [exact W'|]. split; [exact L'|].
      intros j x Hx. rewrite P by exact Hx. split; intros [H1 H2]; split; auto; [|intuition lia].
      destruct H2 as [H2|H2]; [|now right]. destruct (Nat.eq_dec j i) as [->|]; [congruence|left; lia].
    + destruct (Bool.eqb (m k h) b) eqn:Eb.
      * apply Bool.eqb_prop in Eb.
        destruct (drop_at_ok s i h W N E) as [W1 P1].
        destruct (IH m k b (drop_at s i) (S i) W1) as [s' [E' [W' [L' P]]]].
        { unfold drop_at. cbn [lc]. rewrite lset_length. lia. }
        exists s'. split; [exact E'|]. split; [exact W'|].
        split; [rewrite L'; unfold drop_at; cbn [lc]; now rewrite lset_length|].
        intros j x Hx. rewrite P by exact Hx. unfold drop_at. cbn [lc].
        rewrite nel by lia.
        destruct (Nat.eqb_spec i j) as [<-|Nj].
        -- split; [intros [H1 _]; congruence|]. intros [H1 [H2|H2]]; [lia|].
           rewrite E in H1. injection H1 as <-. rewrite Eb in H2. destruct b; discriminate.
        -- intuition lia.
      * apply Bool.eqb_false_iff in Eb.
        destruct (IH m k b s (S i) W) as [s' [E' [W' [L' P]]]]; [lia|].
        exists s'. split; [exact E'|]. split; [exact W'|]. split; [exact L'|].
        intros j x Hx. rewrite P by exact Hx. split; intros [H1 H2]; split; auto; [|intuition lia].
        destruct H2 as [H2|H2]; [|now right]. destruct (Nat.eq_dec j i) as [->|]; [|left; lia].
        right. assert (x = h) by congruence. subst x. destruct (m k h), b; auto; congruence.
Qed.

Lemma drop_loop_members : forall m k b s, wf s -> exists s',
  drop_loop m k b s 0 (length (lc s)) = Some s' /\ wf s' /\
  forall x, In x (members s') <-> In x (members s) /\ m k x = negb b.
Proof.
  intros m k b s W. destruct (drop_loop_ok (length (lc s)) m k b s 0 W eq_refl) as [s' [E [W' [_ P]]]].
  exists s'. split; [exact E|]. split; [exact W'|]. intros x. rewrite !in_members_at. split.
  - intros [Hx [j Hj]]. apply P in Hj; auto. destruct Hj as [H1 [H2|H2]]; [lia|]. split; eauto.
  - intros [[Hx [j Hj]] Hm]. split; auto. exists j. apply P; auto.
Qed.

Lemma negb_true_l : forall a b : bool, a = negb b <-> (b = true <-> ~ a = true).
Proof. intros [] []; cbn; intuition congruence. Qed.

Lemma drop_array_ok : forall b m k s h, wf s -> (forall x, m k x = false) -> exists m' s',
  drop_array b m k s h = Some (m', s') /\ wf s' /\
  (forall x, In x (members s') <-> In x (members s) /\ (b = true <-> ~ In x h)) /\
  (forall k' x, m' k' x = m k' x).
Proof.
  intros b m k s h W F. unfold drop_array.
  destruct (drop_loop_members (mark_array m k true h) k b s W) as [s' [E [W' P]]]. rewrite E.
  eexists _, s'. split; [reflexivity|]. split; [exact W'|]. split.
  - intros x. rewrite P, negb_true_l, mark_array_true, (fresh_false m k F), !in_members. intuition.
  - intros k' x. apply bool_ext. rewrite mark_array_false, mark_array_true.
    destruct (Nat.eq_dec k' k) as [->|]; [rewrite (fresh_false m k F)|]; intuition.
Qed.

Lemma drop_set_ok : forall b sel m k s h, wf s -> (forall x, m k x = false) -> exists m' s',
  drop_set b sel m k s h = Some (m', s') /\ wf s' /\
  (forall x, In x (members s') <-> In x (members s) /\ (b = true <-> ~ (In x h /\ sel x = true))) /\
  (forall k' x, m' k' x = m k' x).
Proof.
  intros b sel m k s h W F. unfold drop_set.
  destruct (drop_loop_members (mark_elements sel m k true h) k b s W) as [s' [E [W' P]]]. rewrite E.
  eexists _, s'. split; [reflexivity|]. split; [exact W'|]. split.
  - intros x. rewrite P, negb_true_l, mark_elements_true, (fresh_false m k F), !in_members. intuition.
  - intros k' x. apply bool_ext. rewrite mark_elements_false, mark_elements_true.
    destruct (Nat.eq_dec k' k) as [->|]; [rewrite (fresh_false m k F)|]; intuition.
Qed.

Lemma add_loop_ok : forall h m k s, wf s -> ~ In 0 h -> NoDup h ->
  (forall x, In x h -> In x (lc s) -> m k x = true) ->
  (forall x, In x h -> m k x = true -> In x (lc s)) ->
  exists s', add_loop m k s h = Some s' /\ wf s' /\
    forall x, In x (members s') <-> In x (members s) \/ In x h.
Proof.
  induction h as [|e h IH]; intros m k s W H0 Hd Hm Hm'; cbn [add_loop].
  - exists s. split; [reflexivity|]. split; [exact W|]. cbn; intuition.
  - cbn [In] in *. inversion Hd; subst. unfold get_mark.
    destruct (Nat.eqb_spec e 0) as [->|N]; [intuition|].
    destruct (m k e) eqn:E.
    + destruct (IH m k s W) as [s' [E' [W' P]]]; auto.
      exists s'. split; [exact E'|]. split; [exact W'|]. intros x. rewrite P.
      split; [intuition|]. intros [H|[H|H]]; auto. subst x. left. apply in_members.
      split; auto.
    + assert (Hn : ~ In e (lc s)) by (intros K; rewrite (Hm e) in E; auto; discriminate).
      destruct (place_ok s e W N Hn) as [W1 P1].
      assert (Q : forall x, x <> 0 -> (In x (lc (place s e)) <-> In x (lc s) \/ x = e)).
      { intros x Hx. specialize (P1 x). rewrite !in_members in P1. intuition. }
      destruct (IH m k (place s e) W1) as [s' [E' [W' P]]]; auto.
      { intros x Hx Hl. apply Hm; auto. apply Q in Hl; [|intros ->; intuition].
        destruct Hl as [Hl| ->]; [exact Hl|contradiction]. }
      { intros x Hx Hl. apply Q; [intros ->; intuition|]. auto. }
      exists s'. split; [exact E'|]. split; [exact W'|]. intros x. rewrite P, P1. intuition.
Qed.

Lemma add_elements_ok : forall sel m k s h, wf s -> (forall x, m k x = false) ->
  ~ In 0 h -> NoDup h -> (forall x, In x h -> In x (lc s) -> sel x = true) ->
  exists m' s', add_elements sel m k s h = Some (m', s') /\ wf s' /\
    (forall x, In x (members s') <-> In x (members s) \/ In x h) /\
    (forall k' x, m' k' x = m k' x).
Proof.
  intros sel m k s h W F H0 Hd Hs. unfold add_elements.
  destruct (add_loop_ok h (mark_elements sel m k true (lc s)) k s W H0 Hd) as [s' [E [W' P]]].
  { intros x Hx Hl. apply mark_elements_true. right. repeat split; auto. intros ->. contradiction. }
  { intros x Hx Hl. apply mark_elements_true in Hl. rewrite F in Hl. intuition discriminate. }
  rewrite E. eexists _, s'. split; [reflexivity|]. split; [exact W'|]. split; [exact P|].
  intros k' x. apply bool_ext. rewrite mark_elements_false, mark_elements_true.
  specialize (P x). rewrite !in_members in P.
  destruct (Nat.eq_dec k' k) as [->|]; [rewrite (fresh_false m k F)|]; intuition.
Qed.

Lemma put_loop_ok : forall hs l h, length hs <= length h -> NoDup hs ->
  (forall i, In i hs <-> nth_error l i = Some 0) ->
  (forall i j x, x <> 0 -> nth_error l i = Some x -> nth_error l j = Some x -> i = j) ->
  ~ In 0 h -> NoDup h -> (forall x, In x h -> ~ In x l) ->
  exists l' rest, put_loop l hs h = Some (l', rest) /\ ~ In 0 l' /\
    (forall i j x, x <> 0 -> nth_error l' i = Some x -> nth_error l' j = Some x -> i = j) /\
    (forall x, x <> 0 -> (In x l' \/ In x rest <-> In x l \/ In x h)) /\
    (forall x, In x rest -> ~ In x l') /\ NoDup rest /\ ~ In 0 rest.
Proof.
  induction hs as [|i hs IH]; intros l h Hl Hd Hz Hi H0 Hh Hn; cbn [put_loop].
  - exists l, h. split; [reflexivity|]. split.
    { intros K. apply In_nth_error in K. destruct K as [i K]. now apply Hz in K. }
    split; [exact Hi|]. split; [intuition|]. auto.
  - destruct h as [|e h]; [cbn in Hl; lia|].
    set (s := ESet l (i :: hs) 0).
    assert (W : wf s) by (split; [exact Hd|split; [exact Hz|exact Hi]]).
    cbn [In] in H0.
    destruct (place_ok s e W) as [[_ [W2 W3]] P]; [intuition|apply Hn; now left|].
    cbn in W2, W3. inversion Hh; subst. inversion Hd; subst.
    assert (Q : forall x, x <> 0 -> (In x (lset l i e) <-> In x l \/ x = e)).
    { intros x Hx. specialize (P x). rewrite !in_members in P. cbn in P. intuition. }
    destruct (IH (lset l i e) h) as [l' [rest [E [P0 [P1 [P2 [P3 P4]]]]]]]; auto.
    { cbn in Hl. lia. }
    { intros x Hx. rewrite Q by (intros ->; intuition). intros [K| ->]; [|contradiction].
      apply (Hn x); [now right|exact K]. }
    exists l', rest. split; [exact E|]. split; [exact P0|]. split; [exact P1|]. split; [|auto].
    intros x Hx. rewrite P2, Q by exact Hx. cbn [In]. intuition.
Qed.

(** ** iteration *)
Lemma next_pos_shift : forall hid l p, next_pos hid l p = p + next_pos hid l 0.
Proof.
  intros hid. induction l as [|h l IH]; intros p; cbn [next_pos]; [lia|].
  destruct ((h =? 0) || hid h); [|lia]. rewrite (IH (S p)), (IH 1). lia.
Qed.

Lemma skipn_cons : forall q (l : list nat) h t, skipn q l = h :: t ->
  t = skipn (S q) l /\ nth_error l q = Some h.
Proof.
  induction q as [|q IH]; intros [|x l] h t E; cbn in E; try discriminate.
  - injection E as <- <-. auto.
  - destruct (IH l h t E) as [E1 E2]. split; [|exact E2]. exact E1.
Qed.

Definition seen (hid : nat -> bool) (h : nat) : bool := nz h && negb (hid h).

Lemma iter_loop_spec : forall f hid l p, length l - p <= f ->
  iter_loop f hid l (next_pos hid (skipn p l) p) = filter (seen hid) (skipn p l).
Proof.
  induction f as [|f IH]; intros hid l p Hf.
  - rewrite skipn_all2 by lia. reflexivity.
  - assert (G : forall n q, n = length l - q -> p <= q ->
      iter_loop (S f) hid l (next_pos hid (skipn q l) q) = filter (seen hid) (skipn q l)).
    2: { apply (G (length l - p)); auto. }
    induction n as [|n IHn]; intros q Hn Hq.
    + rewrite skipn_all2 by lia. cbn [next_pos filter iter_loop].
      assert (E : nth_error l q = None) by (apply nth_error_None; lia). now rewrite E.
    + destruct (skipn q l) as [|h t] eqn:E.
      { apply (f_equal (@length nat)) in E. rewrite skipn_length in E. cbn in E. lia. }
      destruct (skipn_cons _ _ _ _ E) as [Et Eh].
      cbn [next_pos filter]. unfold seen at 1, nz.
      destruct (h =? 0); cbn [orb andb negb].
      * subst t. apply IHn; lia.
      * destruct (hid h); cbn [negb].
        -- subst t. apply IHn; lia.
        -- cbn [iter_loop]. rewrite Eh. f_equal. unfold iter_next. subst t. apply IH. lia.
Qed.

Lemma iterate_spec : forall hid s, iterate hid s = filter (seen hid) (lc s).
Proof.
  intros hid s. unfold iterate, iter_begin.
  exact (iter_loop_spec (length (lc s)) hid (lc s) 0 ltac:(lia)).
Qed.

Lemma filter_filter : forall (f g : nat -> bool) l,
  filter f (filter g l) = filter (fun x => g x && f x) l.
Proof.
  intros f g. induction l as [|x l IH]; cbn [filter]; [reflexivity|].
  destruct (g x); cbn [andb filter]; [destruct (f x)|]; now rewrite ?IH.
Qed.

(** ** ReorderEmpty, unsorted *)
Definition cnt (l : list nat) : nat := length (filter nz l).

Lemma cnt_lset : forall l i v, i < length l ->
  cnt (lset l i v) + (if nz (nth i l 0) then 1 else 0) = cnt l + (if nz v then 1 else 0).
Proof.
  unfold cnt. induction l as [|x l IH]; intros i v Hi; cbn [length] in Hi; [lia|].
  destruct i as [|i]; cbn [lset filter nth].
  - destruct (nz v), (nz x); cbn [length]; lia.
  - specialize (IH i v ltac:(lia)). destruct (nz x); cbn [length]; lia.
Qed.

Lemma trim_spec : forall l c, trim l c <= c /\
  (forall i, trim l c <= i < c -> nth i l 0 = 0) /\
  (trim l c <> 0 -> nth (trim l c - 1) l 0 <> 0).
Proof.
  intros l. induction c as [|c [I1 [I2 I3]]]; cbn [trim]; [repeat split; intros; lia|].
  destruct (Nat.eqb_spec (nth c l 0) 0) as [E|E].
  - split; [lia|]. split; [|exact I3]. intros i Hi.
    destruct (Nat.eq_dec i c) as [->|]; [exact E|]. apply I2. lia.
  - split; [lia|]. split; [intros; lia|]. intros _. now rewrite Nat.sub_succ, Nat.sub_0_r.
Qed.

Lemma reorder_loop_spec : forall f l hs c, c <= length l ->
  2 * c + (if nz (nth (c - 1) l 0) then 1 else 0) + length hs < f ->
  (exists i, i < c /\ nth i l 0 <> 0) ->
  exists l' c', reorder_loop f l hs c = Some (l', c') /\ c' <= length l' /\
    cnt l' <= cnt l /\ exists i, i < c' /\ nth i l' 0 <> 0.
Proof.
  induction f as [|f IH]; intros l hs c Hc Hf Hi; [lia|]. cbn [reorder_loop].
  destruct c as [|cend]; [destruct Hi as [i [Hi _]]; lia|].
  rewrite Nat.sub_succ, Nat.sub_0_r in Hf.
  destruct hs as [|b t]; [exists l, (S cend); auto|]. cbn [length] in Hf.
  destruct (Nat.leb_spec cend b) as [L|L].
  - apply IH; auto. rewrite Nat.sub_succ, Nat.sub_0_r. lia.
  - fold (nz (nth cend l 0)). destruct (nz (nth cend l 0)) eqn:E.
    + set (v := nth cend l 0) in *.
      assert (Hv : nz v = true) by exact E.
      destruct (IH (lset (lset l b v) cend 0) (b :: t) (S cend)) as [l' [c' [E' [L' [C' I']]]]].
      * rewrite !lset_length. exact Hc.
      * rewrite Nat.sub_succ, Nat.sub_0_r, nth_lset_eq by (rewrite lset_length; lia).
        cbn [nz length]. change (nz 0) with false. cbv iota. lia.
      * exists b. split; [lia|]. rewrite nth_lset_ne, nth_lset_eq by lia. now apply nz_true.
      * exists l', c'. split; [exact E'|]. split; [exact L'|]. split; [|exact I'].
        pose proof (cnt_lset (lset l b v) cend 0) as C1. rewrite lset_length in C1.
        pose proof (cnt_lset l b v) as C2. rewrite nth_lset_ne in C1 by lia. fold v in C1.
        rewrite Hv in *. change (nz 0) with false in C1. cbv iota in C1, C2.
        specialize (C1 ltac:(lia)). specialize (C2 ltac:(lia)).
        destruct (nz (nth b l 0)); lia.
    + destruct Hi as [i [Hi Hn]].
      assert (i <> cend) by (intros ->; apply nz_true in Hn; congruence).
      apply IH; [lia| |exists i; split; [lia|exact Hn]]. cbn [length].
      destruct (nz (nth (cend - 1) l 0)); lia.
Qed.

Lemma cnt_firstn : forall l c, c < length l -> nth c l 0 <> 0 -> cnt (firstn c l) < cnt l.
Proof.
  unfold cnt. induction l as [|x l IH]; intros c Hc Hn; cbn [length] in Hc; [lia|].
  destruct c as [|c]; cbn [firstn filter nth] in *.
  - apply nz_true in Hn. rewrite Hn. cbn. lia.
  - specialize (IH c ltac:(lia) Hn). destruct (nz x); cbn [length]; lia.
Qed.

Lemma reorder_unsorted_loses : forall s, members s <> [] -> exists s',
  reorder_unsorted s = Some s' /\ length (members s') < length (members s).
Proof.
  intros s Hm. unfold reorder_unsorted.
  assert (Hex : exists i, nth i (lc s) 0 <> 0 /\ i < length (lc s)).
  { destruct (members s) as [|x t] eqn:E; [contradiction|].
    assert (I : In x (members s)) by (rewrite E; now left).
    apply in_members in I. destruct I as [I1 I2]. apply (In_nth _ _ 0) in I2.
    destruct I2 as [i [I2 I3]]. exists i. split; congruence. }
  destruct Hex as [i [Hi Li]].
  destruct (trim_spec (lc s) (length (lc s))) as [T1 [T2 T3]].
  set (c := trim (lc s) (length (lc s))) in *.
  assert (Hic : i < c).
  { destruct (Nat.lt_ge_cases i c); auto. exfalso. apply Hi, T2. lia. }
  destruct (reorder_loop_spec (2 * length (lc s) + length (holes s) + 2) (lc s) (holes s) c)
    as [l' [c' [E' [L' [C' [j [Hj1 Hj2]]]]]]]; auto.
  { destruct (nz (nth (c - 1) (lc s) 0)); lia. }
  { eauto. }
  rewrite E'. destruct (trim_spec l' c') as [U1 [U2 U3]].
  assert (Hjt : j < trim l' c').
  { destruct (Nat.lt_ge_cases j (trim l' c')); auto. exfalso. apply Hj2, U2. lia. }
  destruct (trim l' c') as [|cend]; [lia|]. eexists. split; [reflexivity|].
  unfold members at 1. cbn [lc]. fold (cnt (firstn cend l')).
  rewrite Nat.sub_succ, Nat.sub_0_r in U3.
  pose proof (cnt_firstn l' cend ltac:(lia) (U3 ltac:(lia))). unfold members. fold (cnt (lc s)). lia.
Qed.

Lemma trim_zero : forall l c, (forall i, i < c -> nth i l 0 = 0) -> trim l c = 0.
Proof.
  intros l. induction c as [|c IH]; intros H; cbn [trim]; [reflexivity|].
  rewrite H by lia. cbn. apply IH. intros; apply H; lia.
Qed.

Lemma reorder_unsorted_empty : forall s, members s = [] -> reorder_unsorted s = None.
Proof.
  intros s H. unfold reorder_unsorted.
  assert (Z : forall i, nth i (lc s) 0 = 0).
  { intros i. destruct (Nat.eq_dec (nth i (lc s) 0) 0) as [|N]; auto. exfalso.
    destruct (Nat.lt_ge_cases i (length (lc s))) as [L|L]; [|now rewrite nth_overflow in N by lia].
    assert (K : In (nth i (lc s) 0) (members s)) by (apply in_members; split; auto; now apply nth_In).
    now rewrite H in K. }
  rewrite trim_zero by auto.
  replace (2 * length (lc s) + length (holes s) + 2) with (S (2 * length (lc s) + length (holes s) + 1)) by lia.
  reflexivity.
Qed.

Lemma reorder_unsorted_full : forall s, holes s = [] -> ~ In 0 (lc s) -> lc s <> [] ->
  reorder_unsorted s = Some (ESet (removelast (lc s)) [] (srtd s)).
Proof.
  intros s Hh H0 Hl. unfold reorder_unsorted. rewrite Hh.
  assert (T : forall c, c <= length (lc s) -> trim (lc s) c = c).
  { intros [|c] Hc; [reflexivity|]. cbn [trim].
    destruct (Nat.eqb_spec (nth c (lc s) 0) 0) as [E|E]; [|reflexivity].
    exfalso. apply H0. rewrite <- E. apply nth_In. lia. }
  rewrite T by lia. cbn [length].
  replace (2 * length (lc s) + 0 + 2) with (S (2 * length (lc s) + 1)) by lia.
  cbn [reorder_loop].
  destruct (length (lc s)) as [|n] eqn:En; [destruct (lc s); [contradiction|discriminate]|].
  rewrite T by lia. repeat f_equal.
  rewrite removelast_firstn_len, En. reflexivity.
Qed.

(** ** ReorderEmpty, sorted *)
Lemma compact_app : forall n l i j n2,
  compact_loop l i j (n + n2) =
  (let '(l1, j1) := compact_loop l i j n in compact_loop l1 (i + n) j1 n2).
Proof.
  induction n as [|n IH]; intros l i j n2; cbn [compact_loop Nat.add].
  - now rewrite Nat.add_0_r.
  - rewrite <- Nat.add_succ_comm. destruct (nth i l 0 =? 0); apply IH.
Qed.

Lemma compact_len : forall n l i j, length (fst (compact_loop l i j n)) = length l.
Proof.
  induction n as [|n IH]; intros l i j; cbn [compact_loop]; [reflexivity|].
  destruct (nth i l 0 =? 0); rewrite IH; rewrite ?lset_length; reflexivity.
Qed.

Lemma nth_mid : forall (a : list nat) x b, nth (length a) (a ++ x :: b) 0 = x.
Proof. intros. rewrite app_nth2, Nat.sub_diag by lia. reflexivity. Qed.
Lemma lset_mid : forall (a : list nat) x b y, lset (a ++ x :: b) (length a) y = a ++ y :: b.
Proof. intros. rewrite lset_app_r, Nat.sub_diag by lia. reflexivity. Qed.

Lemma compact_lead : forall pre A rest, ~ In 0 pre ->
  compact_loop (A ++ pre ++ rest) (length A) (length A) (length pre) =
  (A ++ repeat 0 (length pre) ++ rest, length A + length pre).
Proof.
  induction pre as [|x pre IH]; intros A rest H; cbn [length compact_loop repeat app].
  - now rewrite Nat.add_0_r.
  - cbn [In] in H. rewrite nth_mid. destruct (Nat.eqb_spec x 0); [intuition|].
    rewrite !lset_mid. specialize (IH (A ++ [0]) rest ltac:(intuition)).
    rewrite app_length in IH. cbn [length] in IH. rewrite !Nat.add_1_r in IH.
    rewrite <- !app_assoc in IH. cbn [app] in IH. rewrite IH. f_equal. lia.
Qed.

Lemma repeat_snoc : forall (x : nat) n, repeat x n ++ [x] = repeat x (S n).
Proof. intros. change [x] with (repeat x 1). rewrite <- repeat_app. f_equal. lia. Qed.

Lemma compact_tail : forall T A d, 0 < d ->
  compact_loop (A ++ repeat 0 d ++ T) (length A + d) (length A) (length T) =
  (A ++ filter nz T ++ repeat 0 (d + (length T - cnt T)), length A + cnt T).
Proof.
  unfold cnt. induction T as [|x T IH]; intros A d Hd; cbn [length compact_loop filter].
  - cbn [app length]. rewrite !Nat.add_0_r, app_nil_r. reflexivity.
  - assert (Nx : nth (length A + d) (A ++ repeat 0 d ++ x :: T) 0 = x).
    { rewrite app_assoc. replace (length A + d) with (length (A ++ repeat 0 d))
        by (rewrite app_length, repeat_length; reflexivity). apply nth_mid. }
    assert (Fl : length (filter nz T) <= length T).
    { clear. induction T as [|y T IH]; cbn; [lia|]. destruct (nz y); cbn; lia. }
    rewrite Nx. destruct (Nat.eqb_spec x 0) as [->|N].
    + change (nz 0) with false. cbv iota. specialize (IH A (S d) ltac:(lia)).
      rewrite <- repeat_snoc, <- app_assoc in IH. cbn [app] in IH.
      rewrite <- Nat.add_succ_r, IH. f_equal. do 3 f_equal. lia.
    + assert (Ex : nz x = true) by now apply nz_true. rewrite Ex. destruct d as [|d]; [lia|].
      assert (E1 : lset (A ++ repeat 0 (S d) ++ x :: T) (length A) x =
                   (A ++ [x]) ++ repeat 0 d ++ x :: T).
      { cbn [repeat app]. rewrite lset_mid, <- app_assoc. reflexivity. }
      rewrite E1.
      assert (E2 : lset ((A ++ [x]) ++ repeat 0 d ++ x :: T) (length A + S d) 0 =
                   (A ++ [x]) ++ repeat 0 (S d) ++ T).
      { rewrite app_assoc. replace (length A + S d) with (length ((A ++ [x]) ++ repeat 0 d))
          by (rewrite !app_length, repeat_length; cbn; lia).
        rewrite lset_mid. rewrite <- repeat_snoc, <- !app_assoc. reflexivity. }
      rewrite E2. specialize (IH (A ++ [x]) (S d) ltac:(lia)).
      rewrite app_length in IH. cbn [length] in IH |- *.
      replace (S (length A + S d)) with (length A + 1 + S d) by lia.
      replace (S (length A)) with (length A + 1) by lia.
      rewrite IH, <- app_assoc. cbn [app]. f_equal. lia.
Qed.

Lemma compact_all : forall pre rest, ~ In 0 pre ->
  compact_loop (pre ++ 0 :: rest) 0 0 (length (pre ++ 0 :: rest)) =
  (repeat 0 (length pre) ++ filter nz rest ++ repeat 0 (1 + (length rest - cnt rest)),
   length pre + cnt rest).
Proof.
  intros pre rest H. rewrite app_length, compact_app.
  pose proof (compact_lead pre [] (0 :: rest) H) as L. cbn [app length Nat.add] in L. rewrite L.
  cbn [length compact_loop Nat.add].
  assert (N : nth (length pre) (repeat 0 (length pre) ++ 0 :: rest) 0 = 0).
  { rewrite <- (repeat_length 0 (length pre)) at 1. apply nth_mid. }
  rewrite N. cbn [Nat.eqb].
  pose proof (compact_tail rest (repeat 0 (length pre)) 1 ltac:(lia)) as T.
  rewrite repeat_length in T. cbn [repeat app] in T. rewrite Nat.add_1_r in T. exact T.
Qed.

Lemma reorder_sorted_exact : forall s pre rest, lc s = pre ++ 0 :: rest -> ~ In 0 pre ->
  holes s <> [] -> srtd s <= length (lc s) ->
  lc (reorder_sorted s) = repeat 0 (length pre) ++ filter nz rest /\ holes (reorder_sorted s) = [].
Proof.
  intros s pre rest El H0 Hh Hs. unfold reorder_sorted. destruct (holes s); [contradiction|].
  pose proof (compact_app (srtd s) (lc s) 0 0 (length (lc s) - srtd s)) as C.
  cbn [Nat.add] in C. replace (srtd s + (length (lc s) - srtd s)) with (length (lc s)) in C by lia.
  rewrite El in C at 1 2. rewrite compact_all in C by exact H0.
  destruct (compact_loop (lc s) 0 0 (srtd s)) as [l1 j1].
  rewrite <- C. split; [|reflexivity]. cbn [lc].
  rewrite app_assoc.
  replace (length pre + cnt rest) with (length (repeat 0 (length pre) ++ filter nz rest) + 0)
    by (rewrite app_length, repeat_length; unfold cnt; lia).
  rewrite firstn_app_2, firstn_O, app_nil_r. reflexivity.
Qed.
