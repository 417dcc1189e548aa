(** Lemmas about the class Model. *)
From Coq Require Import List Bool Arith Lia Sorted.
From Verif Require Import Sim_Model Sim_Spec.
Import ListNotations.

(** * Registry *)
Lemma get_in l n a : get l n = Some a -> In (n, a) l.
Proof.
  induction l as [| [k b] r IH]; cbn [get]; [discriminate |]. destruct (Nat.eqb_spec k n) as [-> | N]; intros E.
  - injection E as ->. now left.
  - right. now apply IH.
Qed.
Lemma get_none l n : get l n = None <-> ~ In n (names l).
Proof.
  induction l as [| [k b] r IH]; cbn [get names map fst In]; [tauto |].
  destruct (Nat.eqb_spec k n) as [-> | N].
  - split; [discriminate | intros H; exfalso; apply H; now left].
  - fold (names r). rewrite IH. intuition congruence.
Qed.
Lemma in_get l n a : NoDup (names l) -> In (n, a) l -> get l n = Some a.
Proof.
  induction l as [| [k b] r IH]; cbn [get names map fst]; intros D H; [easy |]. fold (names r) in D. apply NoDup_cons_iff in D. destruct D as [D1 D2].
  destruct (Nat.eqb_spec k n) as [-> | N].
  - destruct H as [H | H]; [congruence |]. exfalso. apply D1. apply in_map_iff. now exists (n, a).
  - apply IH; [easy |]. destruct H as [H | H]; [congruence | easy].
Qed.
Lemma get_app l l2 n : get (l ++ l2) n = match get l n with Some a => Some a | None => get l2 n end.
Proof. induction l as [| [k b] r IH]; cbn [get app]; [easy |]. now destruct (k =? n). Qed.
Lemma present_false l n : present l n = false <-> ~ In n (names l).
Proof. unfold present. rewrite <- get_none. destruct (get l n); split; intros; congruence. Qed.
Lemma may_add_true m l n : may_add true m l n = true <-> initialized m = false /\ ~ In n (names l).
Proof.
  unfold may_add. cbn [andb]. rewrite negb_true_iff, orb_false_iff, present_false. tauto.
Qed.

Lemma insert_after_found l x n a l1 b l2 : l = l1 ++ (x, b) :: l2 -> ~ In x (names l1) ->
  insert_after l x (n, a) = l1 ++ (x, b) :: (n, a) :: l2.
Proof.
  intros ->. induction l1 as [| [k c] r IH]; cbn; intros H.
  - now rewrite Nat.eqb_refl.
  - destruct (Nat.eqb_spec k x); [exfalso; tauto |]. rewrite IH; tauto.
Qed.
Lemma insert_after_missing l x n a : ~ In x (names l) -> insert_after l x (n, a) = l ++ [(n, a)].
Proof. induction l as [| [k c] r IH]; cbn; intros H; [easy |]. destruct (Nat.eqb_spec k x); [exfalso; tauto |]. rewrite IH; tauto. Qed.
Lemma insert_after_split l x e : exists l1 l2, l = l1 ++ l2 /\ insert_after l x e = l1 ++ e :: l2.
Proof.
  induction l as [| [k c] r (l1 & l2 & E1 & E2)]; cbn [insert_after].
  - now exists [], [].
  - destruct (k =? x); [now exists [(k, c)], r |]. exists ((k, c) :: l1), l2. now rewrite E2, E1.
Qed.
Lemma in_insert_after l x e y : In y (insert_after l x e) <-> y = e \/ In y l.
Proof. destruct (insert_after_split l x e) as (l1 & l2 & -> & ->). rewrite !in_app_iff. cbn [In]. intuition congruence. Qed.
Lemma nodup_insert_after l x n a : NoDup (names l) -> ~ In n (names l) -> NoDup (names (insert_after l x (n, a))).
Proof.
  destruct (insert_after_split l x (n, a)) as (l1 & l2 & -> & ->). unfold names. rewrite !map_app. cbn [map fst]. intros D H.
  apply NoDup_Add with (a := n) (l := map fst l1 ++ map fst l2); [apply Add_app | tauto].
Qed.
Lemma nodup_snoc (l : list nat) n : NoDup l -> ~ In n l -> NoDup (l ++ [n]).
Proof. intros D H. apply NoDup_Add with (a := n) (l := l); [| tauto]. pose proof (Add_app n l []) as A. now rewrite app_nil_r in A. Qed.

(** every list of the model has unique names *)
Definition unique (m : model) : Prop := NoDup (names (entries m)) /\ forall k, NoDup (names (listed k m)).

Lemma listed_with_list k k2 m l : listed k2 (with_list k m l) = if match k, k2 with Mesh, Mesh | SubModel, SubModel | Scalar, Scalar | Matrix, Matrix | Operator, Operator => true | _, _ => false end then l else listed k2 m.
Proof. now destruct k, k2. Qed.
Lemma perform_listed checked m c m2 k : perform checked m c = Some m2 -> listed k m2 = listed k m ++ asked k c.
Proof.
  destruct c as [n a | n a | n a x | j n a | s n a | n b | n b]; cbn [perform]; unfold add_entry, add_first_entry, add_after_entry, add, add_coupling; intros E.
  1-3: destruct (may_add _ _ _ _); [| discriminate]; injection E as <-; destruct k; cbn; now rewrite app_nil_r.
  - destruct (may_add _ _ _ _); [| discriminate]. injection E as <-. rewrite listed_with_list. destruct j, k; cbn; now rewrite ?app_nil_r.
  - assert (D : exists l, m2 = with_couplings m l).
    { destruct checked; [destruct (initialized m); [discriminate |]; destruct (get_coupling m s n) as [[z |] |]; try discriminate |]; injection E as <-; eauto. }
    destruct D as (l & ->). destruct k; cbn; now rewrite app_nil_r.
  - injection E as <-. destruct k; cbn; now rewrite app_nil_r.
  - injection E as <-. destruct k; cbn; now rewrite app_nil_r.
Qed.
Lemma perform_all_listed checked cs k : forall m m2, perform_all checked m cs = Some m2 -> listed k m2 = listed k m ++ flat_map (asked k) cs.
Proof.
  induction cs as [| c r IH]; cbn [perform_all flat_map]; intros m m2 E; [injection E as <-; now rewrite app_nil_r |].
  destruct (perform checked m c) as [m1 |] eqn:P; [| discriminate]. apply (perform_listed _ _ _ _ k) in P. apply IH in E. now rewrite E, P, app_assoc.
Qed.
Lemma perform_init checked m c m2 : perform checked m c = Some m2 -> initialized m2 = initialized m.
Proof.
  destruct c as [n a | n a | n a x | j n a | s n a | n b | n b]; cbn [perform]; unfold add_entry, add_first_entry, add_after_entry, add, add_coupling; intros E.
  1-3: destruct (may_add _ _ _ _); [| discriminate]; now injection E as <-.
  - destruct (may_add _ _ _ _); [| discriminate]. injection E as <-. now destruct j.
  - destruct checked; [destruct (initialized m) eqn:I0; [discriminate |]; destruct (get_coupling m s n) as [[z |] |]; try discriminate |]; now injection E as <-.
  - now injection E as <-.
  - now injection E as <-.
Qed.
Lemma perform_unique m c m2 : unique m -> perform true m c = Some m2 -> unique m2.
Proof.
  intros [U1 U2] E. split.
  - destruct c as [n a | n a | n a x | j n a | s n a | n b | n b]; cbn [perform] in E; unfold add_entry, add_first_entry, add_after_entry, add, add_coupling in E.
    + destruct (may_add _ _ _ _) eqn:M; [| discriminate]. injection E as <-. apply may_add_true in M. cbn [with_entries entries]. unfold names. rewrite map_app. now apply nodup_snoc.
    + destruct (may_add _ _ _ _) eqn:M; [| discriminate]. injection E as <-. apply may_add_true in M. cbn. now constructor.
    + destruct (may_add _ _ _ _) eqn:M; [| discriminate]. injection E as <-. apply may_add_true in M. cbn [with_entries entries]. now apply nodup_insert_after.
    + destruct (may_add _ _ _ _); [| discriminate]. injection E as <-. now destruct j.
    + destruct (initialized m); [discriminate |]; destruct (get_coupling m s n) as [[z |] |]; try discriminate; now injection E as <-.
    + now injection E as <-.
    + now injection E as <-.
  - intros k. rewrite (perform_listed _ _ _ _ k E).
    destruct c as [n a | n a | n a x | j n a | s n a | n b | n b];
      try (replace (asked k _) with (@nil (nat * nat)) by (now destruct k); rewrite app_nil_r; apply U2).
    cbn [perform] in E. unfold add in E. destruct (may_add _ _ _ _) eqn:M; [| discriminate]. apply may_add_true in M.
    unfold names. rewrite map_app. destruct M as [_ M].
    destruct j, k; cbn [asked map fst]; rewrite ?app_nil_r; try apply (U2 Mesh); try apply (U2 SubModel); try apply (U2 Scalar); try apply (U2 Matrix); try apply (U2 Operator);
      apply nodup_snoc; try exact M;  try apply (U2 Mesh); try apply (U2 SubModel); try apply (U2 Scalar); try apply (U2 Matrix); try apply (U2 Operator).
Qed.
Lemma perform_all_unique cs : forall m m2, unique m -> perform_all true m cs = Some m2 -> unique m2.
Proof.
  induction cs as [| c r IH]; cbn [perform_all]; intros m m2 U E; [now injection E as <- |].
  destruct (perform true m c) as [m1 |] eqn:P; [| discriminate]. apply perform_unique in P; eauto.
Qed.
Lemma unique_new : unique new_model.
Proof. split; [constructor | intros []; constructor]. Qed.
Lemma perform_entries checked m c m2 n a : perform checked m c = Some m2 ->
  (In (n, a) (entries m2) <-> In (n, a) (entries m) \/ asked_entry c n a).
Proof.
  unfold asked_entry. destruct c as [k b | k b | k b x | j k b | s k b | k b | k b]; cbn [perform]; unfold add_entry, add_first_entry, add_after_entry, add, add_coupling; intros E.
  - destruct (may_add _ _ _ _); [| discriminate]; injection E as <-. cbn [entries with_entries]. rewrite in_app_iff. cbn [In].
    split; [intros [H | [H | []]]; [now left | right; left; congruence] | intros [H | [H | [H | [y H]]]]; try discriminate; [now left | right; left; congruence]].
  - destruct (may_add _ _ _ _); [| discriminate]; injection E as <-. cbn [entries with_entries In].
    split; [intros [H | H]; [right; right; left; congruence | now left] | intros [H | [H | [H | [y H]]]]; try discriminate; [now right | left; congruence]].
  - destruct (may_add _ _ _ _); [| discriminate]; injection E as <-. cbn [entries with_entries]. rewrite in_insert_after.
    split; [intros [H | H]; [right; right; right; exists x; congruence | now left] | intros [H | [H | [H | [y H]]]]; try discriminate; [now right | left; congruence]].
  - destruct (may_add _ _ _ _); [| discriminate]; injection E as <-. replace (entries (with_list _ _ _)) with (entries m) by now destruct j.
    split; [now left |]. intros [H | [H | [H | [y H]]]]; try discriminate. easy.
  - assert (D : exists l, m2 = with_couplings m l).
    { destruct checked; [destruct (initialized m); [discriminate |]; destruct (get_coupling m s k) as [[z |] |]; try discriminate |]; injection E as <-; eauto. }
    destruct D as (l & ->). cbn [entries with_couplings]. split; [now left |]. intros [H | [H | [H | [y H]]]]; try discriminate. easy.
  - injection E as <-. cbn [entries set_active]. split; [now left |]. intros [H | [H | [H | [y H]]]]; try discriminate. easy.
  - injection E as <-. cbn [entries set_entry]. split; [now left |]. intros [H | [H | [H | [y H]]]]; try discriminate. easy.
Qed.
Lemma perform_all_entries checked n a cs : forall m m2, perform_all checked m cs = Some m2 ->
  (In (n, a) (entries m2) <-> In (n, a) (entries m) \/ exists c, In c cs /\ asked_entry c n a).
Proof.
  induction cs as [| c r IH]; cbn [perform_all]; intros m m2 E.
  - injection E as <-. split; [now left |]. intros [H | (c & [] & _)]. easy.
  - destruct (perform checked m c) as [m1 |] eqn:P; [| discriminate]. rewrite (IH _ _ E), (perform_entries _ _ _ _ n a P). split.
    + intros [[H | H] | (d & H1 & H2)]; [now left | right; exists c; split; [now left | easy] | right; exists d; split; [now right | easy]].
    + intros [H | (d & [<- | H1] & H2)]; [tauto | tauto | right; now exists d].
Qed.

(** * Coupling terms *)
Lemma checked_no_coupling m s n a : couplings m = [] -> add_coupling true m s n a = None.
Proof. intros C. unfold add_coupling, get_coupling. rewrite C. cbn. now destruct (initialized m). Qed.
Lemma perform_all_checked_couplings cs : forall m m2, couplings m = [] -> perform_all true m cs = Some m2 ->
  couplings m2 = [] /\ forall s n a, ~ In (CCoupling s n a) cs.
Proof.
  induction cs as [| c r IH]; cbn [perform_all]; intros m m2 C E; [injection E as <-; split; [easy | now intros] |].
  destruct (perform true m c) as [m1 |] eqn:P; [| discriminate].
  assert (C1 : couplings m1 = [] /\ forall s n a, c <> CCoupling s n a).
  { destruct c as [k b | k b | k b x | j k b | s k b | k b | k b]; cbn [perform] in P; unfold add_entry, add_first_entry, add_after_entry, add in P.
    1-3: destruct (may_add _ _ _ _); [| discriminate]; injection P as <-; split; [easy | discriminate].
    - destruct (may_add _ _ _ _); [| discriminate]; injection P as <-; split; [now destruct j | discriminate].
    - rewrite (checked_no_coupling _ _ _ _ C) in P. discriminate.
    - injection P as <-; split; [easy | discriminate].
    - injection P as <-; split; [easy | discriminate]. }
  destruct C1 as [C1 N]. destruct (IH _ _ C1 E) as [A B]. split; [easy |]. intros s n a [H | H]; [now apply (N s n a) | now apply (B s n a)].
Qed.
Definition keys (l : list (nat * named)) : list nat := map fst l.
Lemma sorted_tail j v r : StronglySorted lt (keys ((j, v) :: r)) -> StronglySorted lt (keys r) /\ forall k, In k (keys r) -> j < k.
Proof. intros S. cbn in S. inversion S as [| ? ? S1 S2]; subst. split; [easy |]. now apply Forall_forall. Qed.
Lemma find_key_notin l k : ~ In k (keys l) -> find_key l k = None.
Proof. induction l as [| [j v] r IH]; cbn; intros H; [easy |]. destruct (Nat.eqb_spec j k); [exfalso; tauto |]. apply IH. tauto. Qed.
Lemma push_keys l k e j : In j (keys (push_key l k e)) <-> j = k \/ In j (keys l).
Proof.
  induction l as [| [i v] r IH]; cbn [push_key keys map fst In]; [intuition congruence |].
  destruct (Nat.eqb_spec k i) as [-> | N]; cbn [map fst In]; [intuition congruence |].
  destruct (Nat.ltb_spec k i); cbn [map fst In]; [intuition congruence |]. fold (keys r) (keys (push_key r k e)). rewrite IH. tauto.
Qed.
Lemma push_sorted l k e : StronglySorted lt (keys l) -> StronglySorted lt (keys (push_key l k e)).
Proof.
  induction l as [| [i v] r IH]; intros S; [cbn; repeat constructor |]. apply sorted_tail in S as S'. destruct S' as [S1 S2].
  cbn [push_key]. destruct (Nat.eqb_spec k i) as [-> | N]; [exact S |]. destruct (Nat.ltb_spec k i) as [L | L].
  - cbn [keys map fst]. constructor; [exact S |]. apply Forall_forall. intros y [<- | H]; [easy |]. apply S2 in H. lia.
  - cbn [keys map fst]. constructor; [now apply IH |]. apply Forall_forall. intros y H. apply push_keys in H. destruct H as [-> | H]; [lia | now apply S2].
Qed.
Lemma find_push l k e j : StronglySorted lt (keys l) ->
  find_key (push_key l k e) j = if j =? k then Some (match find_key l k with Some v => v | None => [] end ++ [e]) else find_key l j.
Proof.
  induction l as [| [i v] r IH]; intros S.
  - cbn. rewrite Nat.eqb_sym. now destruct (Nat.eqb_spec j k).
  - apply sorted_tail in S as S'. destruct S' as [S1 S2]. cbn [push_key find_key].
    destruct (Nat.eqb_spec k i) as [-> | N].
    + cbn [find_key]. rewrite Nat.eqb_refl, (Nat.eqb_sym i j). now destruct (Nat.eqb_spec j i).
    + destruct (Nat.ltb_spec k i) as [L | L]; cbn [find_key].
      * rewrite (Nat.eqb_sym k j). destruct (Nat.eqb_spec i k); [congruence |].
        rewrite (find_key_notin r k) by (intros H; apply S2 in H; lia). now destruct (Nat.eqb_spec j k).
      * destruct (Nat.eqb_spec i k); [congruence |]. rewrite (IH S1). destruct (Nat.eqb_spec i j) as [-> | N2]; [| easy]. now destruct (Nat.eqb_spec j k); [congruence |].
Qed.
Lemma perform_sorted checked m c m2 : StronglySorted lt (keys (couplings m)) -> perform checked m c = Some m2 -> StronglySorted lt (keys (couplings m2)).
Proof.
  intros S. destruct c as [k b | k b | k b x | j k b | s k b | k b | k b]; cbn [perform]; unfold add_entry, add_first_entry, add_after_entry, add, add_coupling; intros P.
  1-3: destruct (may_add _ _ _ _); [| discriminate]; now injection P as <-.
  - destruct (may_add _ _ _ _); [| discriminate]; injection P as <-. now destruct j.
  - destruct checked; [destruct (initialized m); [discriminate |]; destruct (get_coupling m s k) as [[z |] |]; try discriminate |]; injection P as <-; cbn [couplings with_couplings]; now apply push_sorted.
  - now injection P as <-.
  - now injection P as <-.
Qed.
Lemma perform_all_sorted checked cs : forall m m2, StronglySorted lt (keys (couplings m)) -> perform_all checked m cs = Some m2 -> StronglySorted lt (keys (couplings m2)).
Proof.
  induction cs as [| c r IH]; cbn [perform_all]; intros m m2 S E; [now injection E as <- |].
  destruct (perform checked m c) as [m1 |] eqn:P; [| discriminate]. eapply IH; [| exact E]. eapply perform_sorted; eauto.
Qed.

(** * Phases *)
Section Phases.
  Variable W : Type.
  Variable act : phase -> nat -> W -> W * bool.
  Lemma run_app p l1 l2 st : run W act p (l1 ++ l2) st = run W act p l2 (run W act p l1 st).
  Proof. revert st. induction l1 as [| a r IH]; cbn [run app]; intros st; [easy |]. destruct (act p a (fst st)). apply IH. Qed.
  Lemma run_called p l : forall w b w2 c, run W act p l (w, b) = (w2, c) -> exists d, called (act p) l w w2 d /\ c = b && d.
  Proof.
    induction l as [| a r IH]; cbn [run fst snd]; intros w b w2 c E.
    - injection E as <- <-. exists true. split; [constructor | now rewrite andb_true_r].
    - destruct (act p a w) as [w1 b1] eqn:A. destruct (IH _ _ _ _ E) as (d & D1 & ->). exists (b1 && d). split; [econstructor; eauto | now rewrite andb_assoc].
  Qed.
  Lemma run_couplings_eq p m st : run_couplings W act p m st = run W act p (terms m) st.
  Proof.
    unfold run_couplings, terms. revert st. generalize (couplings m). intros l. induction l as [| [k v] r IH]; cbn [fold_left flat_map snd]; intros st; [easy |].
    rewrite run_app. apply IH.
  Qed.
  Lemma flag_skip m n : StronglySorted lt (map fst (active_submodels m)) ->
    skipped m n = existsb (fun f => (fst f =? n) && negb (snd f)) (active_submodels m).
  Proof.
    unfold skipped. generalize (active_submodels m). intros l S.
    transitivity (match flag l n with Some false => true | _ => false end); [now destruct l |].
    induction l as [| [k b] r IH]; cbn [flag existsb fst snd]; [easy |]. cbn [map fst] in S. inversion S as [| ? ? S1 S2]; subst.
    destruct (Nat.eqb_spec k n) as [-> | N].
    - cbn [andb]. destruct b; cbn [negb orb]; [| easy]. symmetry. apply not_true_is_false. intros H. apply existsb_exists in H. destruct H as ((j, c) & H1 & H2).
      cbn [fst snd] in H2. apply andb_prop in H2. destruct H2 as [H2 _]. apply Nat.eqb_eq in H2. subst j. rewrite Forall_forall in S2.
      assert (n < n) by (apply S2; apply in_map_iff; now exists (n, c)). lia.
    - cbn [andb orb]. now apply IH.
  Qed.
  Lemma run_active_eq p m st : StronglySorted lt (map fst (active_submodels m)) ->
    run_active W act p m (submodels m) st = run W act p (active_objects m) st.
  Proof.
    intros S. unfold active_objects. change (listed SubModel m) with (submodels m). revert st. generalize (submodels m). intros l.
    induction l as [| [n a] r IH]; cbn [run_active filter map fst snd]; intros st; [easy |].
    rewrite (flag_skip m n S). destruct (existsb _ _); cbn [negb]; [apply IH |]. cbn [map snd]. rewrite IH. cbn [run]. now destruct (act p a (fst st)).
  Qed.
End Phases.

Lemma put_in l n b k : In k (map fst (put l n b)) <-> k = n \/ In k (map fst l).
Proof.
  induction l as [| [j c] r IH]; cbn [put map fst In]; [intuition congruence |].
  destruct (Nat.eqb_spec n j) as [-> | N]; cbn [map fst In]; [intuition congruence |]. destruct (n <? j); cbn [map fst In]; [intuition congruence |]. rewrite IH. tauto.
Qed.
Lemma put_sorted l n b : StronglySorted lt (map fst l) -> StronglySorted lt (map fst (put l n b)).
Proof.
  induction l as [| [j c] r IH]; cbn [put map fst]; intros S; [repeat constructor |]. inversion S as [| ? ? S1 S2]; subst. rewrite Forall_forall in S2.
  destruct (Nat.eqb_spec n j) as [-> | N]; [exact S |]. destruct (Nat.ltb_spec n j) as [L | L]; cbn [map fst].
  - constructor; [exact S |]. apply Forall_forall. intros y [<- | H]; [easy |]. apply S2 in H. lia.
  - constructor; [now apply IH |]. apply Forall_forall. intros y H. apply put_in in H. destruct H as [-> | H]; [lia | now apply S2].
Qed.
Lemma flag_put l n b k : StronglySorted lt (map fst l) -> flag (put l n b) k = if k =? n then Some b else flag l k.
Proof.
  induction l as [| [j c] r IH]; cbn [put map fst]; intros S; [cbn; now rewrite (Nat.eqb_sym n k) |]. inversion S as [| ? ? S1 S2]; subst. rewrite Forall_forall in S2.
  destruct (Nat.eqb_spec n j) as [-> | N]; cbn [flag].
  - rewrite (Nat.eqb_sym j k). now destruct (k =? j).
  - destruct (Nat.ltb_spec n j); cbn [flag].
    + rewrite (Nat.eqb_sym n k). now destruct (k =? n).
    + rewrite (IH S1). destruct (Nat.eqb_spec j k) as [-> | N2]; [| easy]. now destruct (Nat.eqb_spec k n); [congruence |].
Qed.
Lemma flag_in l n b : StronglySorted lt (map fst l) -> (flag l n = Some b <-> In (n, b) l).
Proof.
  induction l as [| [j c] r IH]; cbn [flag map fst In]; intros S; [split; [discriminate | easy] |]. inversion S as [| ? ? S1 S2]; subst. rewrite Forall_forall in S2.
  destruct (Nat.eqb_spec j n) as [-> | N].
  - split; [intros E; left; congruence |]. intros [H | H]; [congruence |]. assert (n < n) by (apply S2; apply in_map_iff; now exists (n, b)). lia.
  - rewrite (IH S1). split; [now right |]. intros [H | H]; [congruence | easy].
Qed.
Definition maps_sorted (m : model) : Prop := StronglySorted lt (map fst (active_submodels m)) /\ StronglySorted lt (map fst (active_entries m)).
Lemma perform_switch checked m c m2 : maps_sorted m -> perform checked m c = Some m2 ->
  maps_sorted m2 /\
  (forall n, flag (active_submodels m2) n = match switch_sub c with Some (k, b) => if k =? n then Some b else flag (active_submodels m) n | None => flag (active_submodels m) n end) /\
  (forall n, flag (active_entries m2) n = match switch_entry c with Some (k, b) => if k =? n then Some b else flag (active_entries m) n | None => flag (active_entries m) n end).
Proof.
  intros [S1 S2]. destruct c as [k b | k b | k b x | j k b | s k b | k b | k b]; cbn [perform switch_sub switch_entry]; unfold add_entry, add_first_entry, add_after_entry, add, add_coupling; intros P.
  1-3: destruct (may_add _ _ _ _); [| discriminate]; now injection P as <-.
  - destruct (may_add _ _ _ _); [| discriminate]; injection P as <-. now destruct j.
  - destruct checked; [destruct (initialized m); [discriminate |]; destruct (get_coupling m s k) as [[z |] |]; try discriminate |]; now injection P as <-.
  - injection P as <-. unfold maps_sorted. cbn [active_submodels active_entries set_active]. split; [split; [now apply put_sorted | easy] |]. split; [| easy].
    intros n. rewrite flag_put by easy. now rewrite Nat.eqb_sym.
  - injection P as <-. unfold maps_sorted. cbn [active_submodels active_entries set_entry]. split; [split; [easy | now apply put_sorted] |]. split; [easy |].
    intros n. rewrite flag_put by easy. now rewrite Nat.eqb_sym.
Qed.
Lemma perform_all_switch checked cs : forall m m2, maps_sorted m -> perform_all checked m cs = Some m2 ->
  maps_sorted m2 /\
  (forall n, flag (active_submodels m2) n = match last_switch switch_sub cs n with Some b => Some b | None => flag (active_submodels m) n end) /\
  (forall n, flag (active_entries m2) n = match last_switch switch_entry cs n with Some b => Some b | None => flag (active_entries m) n end).
Proof.
  induction cs as [| c r IH]; cbn [perform_all last_switch]; intros m m2 S E; [now injection E as <- |].
  destruct (perform checked m c) as [m1 |] eqn:P; [| discriminate]. destruct (perform_switch _ _ _ _ S P) as (S1 & A & B). destruct (IH _ _ S1 E) as (S2 & A2 & B2).
  split; [easy |]. split; intros n.
  - rewrite A2, A. destruct (last_switch switch_sub r n); [easy |]. destruct (switch_sub c) as [[k b] |]; [| easy]. now destruct (k =? n).
  - rewrite B2, B. destruct (last_switch switch_entry r n); [easy |]. destruct (switch_entry c) as [[k b] |]; [| easy]. now destruct (k =? n).
Qed.
Lemma maps_sorted_new : maps_sorted new_model.
Proof. split; constructor. Qed.

(** * Least answers *)
Section Least.
  Variable T : Type.
  Variable ltb : T -> T -> bool.
  Variable num : T -> Prop.
  Hypothesis O : ordered ltb num.
  Variable ans : nat -> T.
  Lemma least_spec l : forall s, let r := least T ltb ans l s in
    (r = s \/ exists a, In a l /\ r = ans a) /\ ltb s r = false /\ (num s -> num r /\ forall a, In a l -> ltb (ans a) r = false).
  Proof.
    induction l as [| a q IH]; cbn [least fold_left]; intros s.
    - split; [now left |]. split; [apply (ord_irrefl _ _ O) |]. intros N. split; [easy |]. now intros.
    - fold (least T ltb ans q (min2 T ltb s (ans a))). cbv zeta in IH. destruct (IH (min2 T ltb s (ans a))) as (A & B & C). set (r := least T ltb ans q (min2 T ltb s (ans a))) in *.
      unfold min2 in *. destruct (ltb (ans a) s) eqn:L.
      + destruct (ord_num _ _ O _ _ L) as [N1 N2]. destruct (C N1) as [C1 C2]. split; [right; destruct A as [A | (b & A1 & A2)]; [exists a; split; [now left | easy] | exists b; split; [now right | easy]] |].
        split.
        * apply not_true_is_false. intros H. rewrite (ord_trans _ _ O _ _ _ L H) in B. discriminate.
        * intros N. split; [easy |]. intros b [<- | H]; [| now apply C2]. exact B.
      + split; [destruct A as [A | (b & A1 & A2)]; [now left | right; exists b; split; [now right | easy]] |]. split; [easy |].
        intros N. destruct (C N) as [C1 C2]. split; [easy |]. intros b [<- | H]; [| now apply C2]. apply not_true_is_false. intros H.
        destruct (ord_num _ _ O _ _ H) as [N1 N2].
        destruct (ord_total _ _ O s (ans a) N N1) as [H1 | [H1 | H1]]; [| congruence |].
        * rewrite (ord_trans _ _ O _ _ _ H1 H) in B. discriminate.
        * subst s. congruence.
  Qed.
  Lemma least_app l1 l2 s : least T ltb ans (l1 ++ l2) s = least T ltb ans l2 (least T ltb ans l1 s).
  Proof. apply fold_left_app. Qed.
  Lemma least_couplings_eq m s : least_couplings T ltb ans m s = least T ltb ans (terms m) s.
  Proof.
    unfold least_couplings, terms. revert s. generalize (couplings m). intros l. induction l as [| [k v] r IH]; cbn [fold_left flat_map snd]; intros s; [easy |].
    rewrite least_app. apply IH.
  Qed.
  Lemma least_active_eq m s : StronglySorted lt (map fst (active_submodels m)) ->
    least_active T ltb ans m (submodels m) s = least T ltb ans (active_objects m) s.
  Proof.
    intros S. unfold active_objects. change (listed SubModel m) with (submodels m). revert s. generalize (submodels m). intros l.
    induction l as [| [n a] r IH]; cbn [least_active filter map fst snd]; intros s; [easy |].
    rewrite (flag_skip m n S). destruct (existsb _ _); cbn [negb]; [apply IH |]. cbn [map snd least fold_left]. apply IH.
  Qed.
End Least.

(** * Toggles *)
Lemma toggles_spec m l : match toggles m l with
  | Some q => map snd q = map snd l /\ Forall2 (fun x y => get (entries m) (fst x) = Some (fst y)) l q
  | None => exists n b, In (n, b) l /\ get (entries m) n = None
  end.
Proof.
  induction l as [| [n b] r IH]; cbn [toggles]; [split; [easy | constructor] |].
  destruct (get (entries m) n) as [a |] eqn:G; [| exists n, b; split; [now left | easy]].
  destruct (toggles m r) as [q |].
  - destruct IH as [I1 I2]. split; [cbn; now rewrite I1 | now constructor].
  - destruct IH as (k & c & I1 & I2). exists k, c. split; [now right | easy].
Qed.
