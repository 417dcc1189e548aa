From Coq Require Import List Bool Arith Lia FinFun.
From Verif Require Import Util Enum_Model.
Import ListNotations.

(** ** Numbering a list of keys *)
Definition task := ((nat * entry) * elem)%type.
Definition key (x : task) : ekey := (fst (fst x), snd x).
Definition sz (x : task) : nat := size (snd (fst x)) (snd x).
Fixpoint total (l : list task) : nat := match l with [] => 0 | x :: r => sz x + total r end.
Definition put_task (s : offsets * nat) (x : task) : offsets * nat :=
  (put (fst s) (fst (fst x)) (snd x) (snd s), snd s + sz x).
Definition add_task (d : nat) (o : offsets) (x : task) : offsets :=
  put o (fst (fst x)) (snd x) (o (fst (fst x)) (snd x) + d).

Lemma ekeyb_eq x y : ekeyb x y = true <-> x = y.
Proof.
  destruct x as [i [t l]], y as [j [t' l']]. unfold ekeyb. cbn.
  rewrite !andb_true_iff, !Nat.eqb_eq. split.
  - intros [[-> ->] ->]. reflexivity.
  - intros H. inversion H. auto.
Qed.
Lemma put_eq o i e n : put o i e n i e = n.
Proof. unfold put. assert (H : ekeyb (i, e) (i, e) = true) by (apply ekeyb_eq; reflexivity). rewrite H. reflexivity. Qed.
Lemma put_ne o i e n j f : (j, f) <> (i, e) -> put o i e n j f = o j f.
Proof.
  intros N. unfold put. destruct (ekeyb (j, f) (i, e)) eqn:E; [|reflexivity].
  apply ekeyb_eq in E. contradiction.
Qed.
Lemma total_app l r : total (l ++ r) = total l + total r.
Proof. induction l; cbn; [reflexivity|]. rewrite IHl. lia. Qed.

Lemma puts_snd l : forall s, snd (fold_left put_task l s) = snd s + total l.
Proof. induction l as [|x l IH]; intros s; cbn [fold_left total]; [lia|]. rewrite IH. cbn. lia. Qed.
Lemma puts_out l : forall s j f, ~ In (j, f) (map key l) -> fst (fold_left put_task l s) j f = fst s j f.
Proof.
  induction l as [|x l IH]; intros s j f N; cbn [fold_left]; [reflexivity|].
  cbn in N. rewrite IH by tauto. cbn. apply put_ne. intros E. apply N. left. unfold key. congruence.
Qed.
Lemma puts_in l1 : forall x l2 s, NoDup (map key (l1 ++ x :: l2)) ->
  fst (fold_left put_task (l1 ++ x :: l2) s) (fst (fst x)) (snd x) = snd s + total l1.
Proof.
  intros x l2 s N. rewrite fold_left_app. cbn [fold_left].
  rewrite map_app in N. cbn in N. apply NoDup_remove_2 in N. rewrite in_app_iff in N.
  rewrite puts_out by (unfold key in N at 2; tauto). cbn. rewrite put_eq. rewrite puts_snd. reflexivity.
Qed.
Lemma adds_out d l : forall o j f, ~ In (j, f) (map key l) -> fold_left (add_task d) l o j f = o j f.
Proof.
  induction l as [|x l IH]; intros s j f N; cbn [fold_left]; [reflexivity|].
  cbn in N. rewrite IH by tauto. apply put_ne. intros E. apply N. left. unfold key. congruence.
Qed.
Lemma adds_in d l1 : forall x l2 o, NoDup (map key (l1 ++ x :: l2)) ->
  fold_left (add_task d) (l1 ++ x :: l2) o (fst (fst x)) (snd x) = o (fst (fst x)) (snd x) + d.
Proof.
  intros x l2 o N. rewrite fold_left_app. cbn [fold_left].
  rewrite map_app in N. cbn in N. apply NoDup_remove_2 in N. rewrite in_app_iff in N.
  rewrite adds_out by (unfold key in N at 2; tauto). unfold add_task at 1. rewrite put_eq.
  rewrite adds_out by (unfold key in N at 1; tauto). reflexivity.
Qed.

(** every number below the total is in the slot of one task *)
Lemma slot_cover l : forall n, n < total l ->
  exists l1 x l2 k, l = l1 ++ x :: l2 /\ k < sz x /\ n = total l1 + k.
Proof.
  induction l as [|x l IH]; intros n H; cbn in H; [lia|].
  destruct (Nat.lt_ge_cases n (sz x)) as [L|L].
  - exists [], x, l, n. cbn. auto.
  - destruct (IH (n - sz x)) as (l1 & y & l2 & k & -> & K & E); [lia|].
    exists (x :: l1), y, l2, k. cbn. repeat split; [assumption|lia].
Qed.
Lemma slot_range l1 x l2 k : k < sz x -> total l1 + k < total (l1 ++ x :: l2).
Proof. rewrite total_app. cbn. lia. Qed.
Lemma slot_unique l1 : forall x l2 k l1' x' l2' k',
  l1 ++ x :: l2 = l1' ++ x' :: l2' -> k < sz x -> k' < sz x' ->
  total l1 + k = total l1' + k' -> x = x' /\ k = k'.
Proof.
  induction l1 as [|y l1 IH]; intros x l2 k l1' x' l2' k' E K K' T; destruct l1' as [|y' l1'];
    cbn in E; inversion E; subst; cbn in T.
  - split; [reflexivity|lia].
  - exfalso. lia.
  - exfalso. lia.
  - eapply IH; eauto. lia.
Qed.

(** ** The list of tasks of a processor *)
Definition todo (m : mesh) (x : nat * entry) : list task :=
  map (pair x) (filter (wanted m (snd x)) (elems m (snd x))).
Definition todos (m : mesh) (a : aut) : list task := flat_map (todo m) (actives 0 (reg a) (act a)).

Lemma visit_todo m x : forall s, visit m s x = fold_left put_task (todo m x) s.
Proof.
  unfold visit, todo. induction (elems m (snd x)) as [|e l IH]; intros s; cbn [fold_left filter map]; [reflexivity|].
  destruct (wanted m (snd x) e); cbn [fold_left map]; apply IH.
Qed.
Lemma visits_todo m l : forall s, fold_left (visit m) l s = fold_left put_task (flat_map (todo m) l) s.
Proof.
  induction l as [|x l IH]; intros s; cbn [fold_left flat_map]; [reflexivity|].
  rewrite fold_left_app, IH, visit_todo. reflexivity.
Qed.
Lemma enumerate_todos m a o : enumerate m a o = fold_left put_task (todos m a) (reset a o, 0).
Proof. apply visits_todo. Qed.
Lemma shift_todo m d x : forall o,
  fold_left (fun o e => if wanted m (snd x) e then put o (fst x) e (o (fst x) e + d) else o) (elems m (snd x)) o =
  fold_left (add_task d) (todo m x) o.
Proof.
  unfold todo. induction (elems m (snd x)) as [|e l IH]; intros s; cbn [fold_left filter map]; [reflexivity|].
  destruct (wanted m (snd x) e); cbn [fold_left map]; apply IH.
Qed.
Lemma shift_todos m a o d : shift m a o d = fold_left (add_task d) (todos m a) o.
Proof.
  unfold shift, todos. revert o. induction (actives 0 (reg a) (act a)) as [|x l IH]; intros o; cbn [fold_left flat_map]; [reflexivity|].
  rewrite fold_left_app, IH, shift_todo. reflexivity.
Qed.

Lemma actives_in r : forall f n i b,
  In (i, b) (actives n r f) <-> n <= i /\ nth_error r (i - n) = Some (Some b) /\ nth (i - n) f false = true.
Proof.
  induction r as [|o r IH]; intros f n i b; cbn [actives].
  - split; [intros []|]. intros (_ & H & _). rewrite nth_error_nil_eq in H. discriminate.
  - assert (Q : forall g v, In (i, b) (actives (S n) r g) <->
        (n <= i /\ nth_error (o :: r) (i - n) = Some (Some b) /\ nth (i - n) (v :: g) false = true /\ i <> n)).
    { intros g v. rewrite IH. split.
      - intros (L & A & B). replace (i - n) with (S (i - S n)) by lia. cbn. repeat split; auto; lia.
      - intros (L & A & B & D). replace (i - n) with (S (i - S n)) in * by lia. cbn in A, B. repeat split; auto; lia. }
    destruct f as [|v g].
    + replace (match o with Some _ | _ => [] end) with (@nil (nat * entry)) by (destruct o; reflexivity).
      split; [destruct o; intros []|]. intros (_ & _ & H). rewrite nth_overflow in H by (cbn; lia). discriminate.
    + specialize (Q g v). destruct o as [b'|]; [destruct v|]; cbn [In]; rewrite ?Q.
      * split.
        -- intros [H|(L & A & B & _)]; [|auto]. inversion H; subst. rewrite Nat.sub_diag. cbn. auto.
        -- intros (L & A & B). destruct (Nat.eq_dec i n) as [->|D]; [|auto].
           rewrite Nat.sub_diag in A. cbn in A. left. congruence.
      * split; [intros (L & A & B & _); auto|]. intros (L & A & B). destruct (Nat.eq_dec i n) as [->|D]; [|auto].
        rewrite Nat.sub_diag in B. discriminate.
      * split; [intros (L & A & B & _); auto|]. intros (L & A & B). destruct (Nat.eq_dec i n) as [->|D]; [|auto].
        rewrite Nat.sub_diag in A. discriminate.
Qed.
Lemma actives_nodup r : forall f n, NoDup (map fst (actives n r f)).
Proof.
  induction r as [|o r IH]; intros f n; cbn [actives]; [constructor|].
  destruct o as [b|], f as [|[] f]; cbn [map]; try constructor; try apply IH.
  intros H. apply in_map_iff in H. destruct H as ((i & b') & E & H). cbn in E. subst.
  apply actives_in in H. lia.
Qed.

Lemma elems_in m b e : In e (elems m b) <-> fst e < 6 /\ types (head_of b) (fst e) = true /\ In (snd e) (lids m (fst e)).
Proof.
  unfold elems. rewrite in_flat_map. split.
  - intros (t & T & H). destruct (types (head_of b) t) eqn:Y; [|destruct H].
    apply in_map_iff in H. destruct H as (l & <- & H). cbn [fst snd]. repeat split; auto.
    cbn in T. lia.
  - intros (L & Y & H). exists (fst e). rewrite Y. split; [cbn; lia|].
    apply in_map_iff. exists (snd e). destruct e; auto.
Qed.
Lemma elems_nodup m b : (forall t, NoDup (lids m t)) -> NoDup (elems m b).
Proof.
  intros N. unfold elems. assert (D : NoDup [5;4;3;2;1;0]) by (repeat constructor; cbn; lia).
  induction D as [|t l I D IH]; cbn [flat_map]; [constructor|].
  assert (Z : NoDup (if types (head_of b) t then map (pair t) (lids m t) else [])).
  { destruct (types (head_of b) t); [|constructor]. apply Injective_map_NoDup; [|apply N].
    intros x y E. congruence. }
  assert (W : forall e, In e (if types (head_of b) t then map (pair t) (lids m t) else []) -> fst e = t).
  { intros e H. destruct (types (head_of b) t); [|destruct H]. apply in_map_iff in H. destruct H as (? & <- & _). reflexivity. }
  revert Z W. generalize (if types (head_of b) t then map (pair t) (lids m t) else []). intros k Z W.
  induction Z as [|e k J Z IZ]; cbn [app]; [assumption|]. constructor.
  - rewrite in_app_iff. intros [H|H]; [auto|]. apply in_flat_map in H. destruct H as (t' & T & H).
    destruct (types (head_of b) t'); [|destruct H]. apply in_map_iff in H. destruct H as (q & <- & _).
    specialize (W (t', q) (or_introl eq_refl)). cbn in W. subst. contradiction.
  - apply IZ. intros f F. apply W. right. assumption.
Qed.

Lemma todos_in m a i b e : In ((i, b), e) (todos m a) <->
  get_entry a i = Some b /\ nth i (act a) false = true /\ fst e < 6 /\ In (snd e) (lids m (fst e)) /\ wanted m b e = true.
Proof.
  unfold todos. rewrite in_flat_map. split.
  - intros (x & X & H). unfold todo in H. apply in_map_iff in H. destruct H as (f & E & H). inversion E; subst.
    apply filter_In in H. destruct H as (H & W). cbn [snd] in *.
    apply actives_in in X. rewrite Nat.sub_0_r in X. destruct X as (_ & A & B).
    apply elems_in in H. unfold get_entry. rewrite A. tauto.
  - intros (A & B & L & H & W). exists (i, b). split.
    + apply actives_in. rewrite Nat.sub_0_r. unfold get_entry in A.
      destruct (nth_error (reg a) i) as [o|]; [|discriminate]. subst. auto with arith.
    + apply in_map. apply filter_In. split; [|assumption]. apply elems_in. repeat split; auto.
      unfold wanted, is_valid in W. rewrite !andb_true_iff in W. tauto.
Qed.
Lemma todos_nodup m a : (forall t, NoDup (lids m t)) -> NoDup (map key (todos m a)).
Proof.
  intros N. unfold todos. pose proof (actives_nodup (reg a) (act a) 0) as D.
  induction (actives 0 (reg a) (act a)) as [|x l IH]; cbn [flat_map map] in *; [constructor|].
  inversion D as [|? ? D1 D2]; subst. rewrite map_app.
  assert (Z : NoDup (map key (todo m x))).
  { unfold todo. rewrite map_map. apply Injective_map_NoDup.
    - intros e f E. unfold key in E. cbn in E. congruence.
    - apply NoDup_filter. apply elems_nodup. assumption. }
  assert (W : forall k, In k (map key (todo m x)) -> fst k = fst x).
  { intros k H. unfold todo in H. rewrite map_map in H. apply in_map_iff in H. destruct H as (? & <- & _). reflexivity. }
  revert Z W. generalize (map key (todo m x)). intros k Z W.
  induction Z as [|e k J Z IZ]; cbn [app]; [auto|]. constructor.
  - rewrite in_app_iff. intros [H|H]; [auto|]. apply in_map_iff in H. destruct H as (y & E & H).
    apply in_flat_map in H. destruct H as (z & Hz & H). unfold todo in H. apply in_map_iff in H.
    destruct H as (f & F & _). subst y. specialize (W e (or_introl eq_refl)). subst e. cbn in W.
    apply D1. rewrite <- W. apply in_map. assumption.
  - apply IZ. intros f F. apply W. right. assumption.
Qed.

(** ** What the numbering gives *)
Lemma numbered_task m a o d x l1 l2 :
  (forall t, NoDup (lids m t)) -> todos m a = l1 ++ x :: l2 ->
  shift m a (fst (enumerate m a o)) d (fst (fst x)) (snd x) = total l1 + d.
Proof.
  intros N E. pose proof (todos_nodup m a N) as D. rewrite shift_todos, enumerate_todos, E in *.
  rewrite adds_in by assumption. rewrite puts_in by assumption. reflexivity.
Qed.
Lemma enumerate_task m a o x l1 l2 :
  (forall t, NoDup (lids m t)) -> todos m a = l1 ++ x :: l2 ->
  fst (enumerate m a o) (fst (fst x)) (snd x) = total l1.
Proof.
  intros N E. pose proof (todos_nodup m a N) as D. rewrite enumerate_todos, E in *.
  rewrite puts_in by assumption. reflexivity.
Qed.
Lemma enumerate_count m a o : snd (enumerate m a o) = total (todos m a).
Proof. rewrite enumerate_todos, puts_snd. reflexivity. Qed.
Lemma shift_out m a o d j f :
  ~ In (j, f) (map key (todos m a)) -> shift m a (fst (enumerate m a o)) d j f = reset a o j f.
Proof. intros H. rewrite shift_todos, enumerate_todos, adds_out, puts_out by assumption. reflexivity. Qed.

(** ** Entries all of whose unknowns take part *)
Lemma count_le {A} (f : A -> bool) l : count f l <= length l.
Proof. induction l as [|x l IH]; cbn; [lia|]. destruct (f x); lia. Qed.
Lemma count_all_combine (haves : list (elem -> bool)) e : forall st,
  count (fun p => fst p e && snd p) (combine haves st) = length haves ->
  forall k, k < length haves -> nth k st false = true.
Proof.
  induction haves as [|h hs IH]; intros st H k K; cbn in K; [lia|].
  destruct st as [|v st]; cbn [combine count length] in H; [lia|].
  pose proof (count_le (fun p : (elem -> bool) * bool => fst p e && snd p) (combine hs st)) as L.
  rewrite combine_length in L. cbn [fst snd] in H.
  destruct (h e && v) eqn:V; [|lia]. apply andb_true_iff in V. destruct V as (_ & ->).
  destruct k as [|k]; [reflexivity|]. cbn. apply IH; [|lia]. lia.
Qed.
Lemma full_index h k off e pos :
  is_valid (Simple h k) e = true -> kind_size k e = kind_msize k e -> pos < kind_size k e ->
  index (Simple h k) off e pos = Some (Some (off + pos)).
Proof.
  intros V F P. unfold index. rewrite V. destruct k as [have|len|haves|haves st tbl]; cbn [kind_index kind_size kind_msize] in *.
  - destruct (have e); [|discriminate]. replace pos with 0 by lia. cbn. f_equal. f_equal. lia.
  - destruct (len e) as [n|]; [|lia]. apply Nat.ltb_lt in P. rewrite P. reflexivity.
  - reflexivity.
  - rewrite (count_all_combine haves e _ F) by lia. reflexivity.
Qed.

(** ** MultiEntry *)
Lemma copy_unregistered b : registered (head_of (copy_entry b)) = false.
Proof. destruct b; reflexivity. Qed.
Lemma multi_index h subs off e pos :
  (forall s, In s subs -> registered (head_of s) = false) -> index (Multi h subs) off e pos = None.
Proof.
  intros U. cbn [index]. generalize 0. induction subs as [|s r IH]; intros p; [reflexivity|].
  unfold is_valid at 1. rewrite (U s (or_introl eq_refl)). cbn [andb]. apply IH.
  intros q Q. apply U. right. assumption.
Qed.
Lemma multi_msize h subs e :
  (forall s, In s subs -> registered (head_of s) = false) -> msize (Multi h subs) e = 0.
Proof.
  intros U. cbn [msize]. induction subs as [|s r IH]; cbn [fold_right]; [reflexivity|].
  unfold is_valid at 1. rewrite (U s (or_introl eq_refl)). cbn [andb Nat.add]. apply IH.
  intros q Q. apply U. right. assumption.
Qed.

(** ** The registry *)
Definition rinv (a : aut) : Prop :=
  length (reg a) = length (act a) /\ NoDup (del a) /\
  (forall i, In i (del a) <-> nth_error (reg a) i = Some None) /\
  (forall i, nth i (act a) false = true -> exists b, nth_error (reg a) i = Some (Some b)).
Lemma rinv_empty : rinv empty.
Proof.
  unfold rinv, empty. cbn. split; [reflexivity|]. split; [constructor|]. split.
  - intros i. rewrite nth_error_nil_eq. split; [intros []|discriminate].
  - intros [|i]; discriminate.
Qed.

Lemma nth_lset_if {A} (l : list A) i j x d : i < length l ->
  nth j (lset l i x) d = if j =? i then x else nth j l d.
Proof.
  intros L. destruct (Nat.eqb_spec j i) as [->|N].
  - rewrite nth_lset_eq by assumption. reflexivity.
  - rewrite nth_lset_ne by congruence. reflexivity.
Qed.
Lemma nth_error_lset_if {A} (l : list A) i j x : i < length l ->
  nth_error (lset l i x) j = if j =? i then Some x else nth_error l j.
Proof.
  intros L. destruct (Nat.eqb_spec j i) as [->|N].
  - apply nth_error_lset_eq. assumption.
  - apply nth_error_lset_ne. congruence.
Qed.
Lemma nth_error_snoc {A} (l : list A) x j :
  nth_error (l ++ [x]) j = if j =? length l then Some x else nth_error l j.
Proof.
  destruct (Nat.eqb_spec j (length l)) as [->|N].
  - rewrite nth_error_app2, Nat.sub_diag by lia. reflexivity.
  - destruct (Nat.lt_ge_cases j (length l)) as [L|L].
    + apply nth_error_app1. assumption.
    + rewrite (proj2 (nth_error_None l j)) by lia. apply nth_error_None. rewrite app_length. cbn. lia.
Qed.
Lemma nth_snoc {A} (l : list A) x j d :
  nth j (l ++ [x]) d = if j =? length l then x else nth j l d.
Proof.
  destruct (Nat.eqb_spec j (length l)) as [->|N].
  - rewrite app_nth2, Nat.sub_diag by lia. reflexivity.
  - destruct (Nat.lt_ge_cases j (length l)) as [L|L].
    + apply app_nth1. assumption.
    + rewrite !nth_overflow; [reflexivity|lia|]. rewrite app_length. cbn. lia.
Qed.
Lemma some_lt {A} (l : list A) i x : nth_error l i = Some x -> i < length l.
Proof. intros H. apply nth_error_Some. congruence. Qed.

Definition ready (b : entry) : entry := set_registered (copy_entry b) true.
Definition isact (a : aut) (i : nat) : bool := nth i (act a) false.

Lemma register_ok a b : rinv a -> exists a' i, register a b = Some (a', i) /\ rinv a' /\
  get_entry a i = None /\
  forall j, get_entry a' j = (if j =? i then Some (ready b) else get_entry a j) /\
            isact a' j = (if j =? i then true else isact a j).
Proof.
  intros (L & N & D & C). unfold register. fold (ready b). destruct (del a) as [|i d] eqn:E.
  - eexists _, _. split; [reflexivity|]. split; [|split].
    + unfold rinv. cbn [reg act del]. split; [rewrite !app_length; cbn; lia|]. split; [constructor|]. split.
      * intros i. rewrite nth_error_snoc. split; [intros []|]. destruct (i =? length (reg a)); [discriminate|].
        intros H. apply D in H. assumption.
      * intros i. rewrite nth_snoc, nth_error_snoc, L. destruct (i =? length (act a)); eauto.
    + unfold get_entry. rewrite (proj2 (nth_error_None _ _)); [reflexivity|lia].
    + intros j. unfold get_entry, isact. cbn [reg act]. rewrite nth_error_snoc, nth_snoc, L.
      destruct (j =? length (act a)); auto.
  - assert (H : nth_error (reg a) i = Some None) by (apply D; left; reflexivity).
    pose proof (some_lt _ _ _ H) as LT.
    assert (F : nth i (act a) true = false).
    { rewrite (nth_indep _ true false) by lia. destruct (nth i (act a) false) eqn:T; [|reflexivity].
      destruct (C i T) as (b' & B). congruence. }
    rewrite F. eexists _, _. split; [reflexivity|]. inversion N as [|? ? N1 N2]; subst. split; [|split].
    + unfold rinv. cbn [reg act del]. split; [rewrite !lset_length; assumption|]. split; [assumption|]. split.
      * intros j. rewrite nth_error_lset_if by assumption. specialize (D j). cbn in D.
        destruct (Nat.eqb_spec j i) as [->|NE]; [|split; [intros Q; apply D; auto|intros Q; apply D in Q; destruct Q; [congruence|assumption]]].
        split; [contradiction|discriminate].
      * intros j. rewrite nth_lset_if, nth_error_lset_if by lia. destruct (j =? i); eauto.
    + unfold get_entry. rewrite H. reflexivity.
    + intros j. unfold get_entry, isact. cbn [reg act]. rewrite nth_lset_if, nth_error_lset_if by lia.
      destruct (j =? i); auto.
Qed.
Lemma unregister_ok a i : rinv a ->
  match unregister a i with
  | Some a' => rinv a' /\ get_entry a i <> None /\
      forall j, get_entry a' j = (if j =? i then None else get_entry a j) /\
                isact a' j = (if j =? i then false else isact a j)
  | None => get_entry a i = None
  end.
Proof.
  intros (L & N & D & C). unfold unregister, get_entry.
  destruct (nth_error (reg a) i) as [[b|]|] eqn:E; [|reflexivity|reflexivity].
  pose proof (some_lt _ _ _ E) as LT. split; [|split; [discriminate|]].
  - unfold rinv. cbn [reg act del]. split; [rewrite !lset_length; assumption|]. split; [|split].
    + constructor; [|assumption]. intros H. apply D in H. congruence.
    + intros j. rewrite nth_error_lset_if by assumption. specialize (D j). cbn [In].
      destruct (Nat.eqb_spec j i) as [->|NE]; [tauto|]. rewrite <- D. split; [intros [Q|Q]; [congruence|assumption]|auto].
    + intros j. rewrite nth_lset_if, nth_error_lset_if by lia. destruct (j =? i); [discriminate|apply C].
  - intros j. unfold isact. cbn [reg act]. rewrite nth_lset_if, nth_error_lset_if by lia.
    destruct (j =? i); auto.
Qed.
Lemma set_active_ok v a i : rinv a ->
  match set_active v a i with
  | Some a' => rinv a' /\ exists b, get_entry a i = Some b /\
      forall j, get_entry a' j = (if j =? i then Some (set_registered b v) else get_entry a j) /\
                isact a' j = (if j =? i then v else isact a j)
  | None => get_entry a i = None
  end.
Proof.
  intros (L & N & D & C). unfold set_active, get_entry.
  destruct (nth_error (reg a) i) as [[b|]|] eqn:E; [|reflexivity|reflexivity].
  pose proof (some_lt _ _ _ E) as LT. split.
  - unfold rinv. cbn [reg act del]. split; [rewrite !lset_length; assumption|]. split; [assumption|]. split.
    + intros j. rewrite nth_error_lset_if by assumption. specialize (D j).
      destruct (Nat.eqb_spec j i) as [->|NE]; [|assumption]. rewrite D, E. split; discriminate.
    + intros j. rewrite nth_lset_if, nth_error_lset_if by lia. destruct (j =? i); [eauto|apply C].
  - exists b. split; [reflexivity|]. intros j. unfold isact. cbn [reg act]. rewrite nth_lset_if, nth_error_lset_if by lia.
    destruct (j =? i); auto.
Qed.

(** ** Copying a registry *)
Fixpoint somes {A} (l : list (option A)) : list A :=
  match l with [] => [] | Some x :: r => x :: somes r | None :: r => somes r end.
Lemma copy_aut_from l : forall r,
  fold_left (fun o r => match o, r with
    | Some c, Some b => option_map fst (register c b)
    | o, None => o
    | None, _ => None end) l (Some (Aut (map Some r) (repeat true (length r)) [])) =
  Some (Aut (map Some (r ++ map ready (somes l))) (repeat true (length (r ++ map ready (somes l)))) []).
Proof.
  induction l as [|o l IH]; intros r; cbn [fold_left somes map].
  - rewrite app_nil_r. reflexivity.
  - destruct o as [b|]; [|apply IH]. cbn [register del option_map fst reg act].
    fold (ready b).
    replace (Aut (map Some r ++ [Some (ready b)]) (repeat true (length r) ++ [true]) [])
      with (Aut (map Some (r ++ [ready b])) (repeat true (length (r ++ [ready b]))) []).
    + rewrite IH. rewrite <- app_assoc. reflexivity.
    + rewrite map_app, app_length, repeat_app. reflexivity.
Qed.
Lemma copy_aut_eq a : copy_aut a =
  Some (Aut (map Some (map ready (somes (reg a)))) (repeat true (length (somes (reg a)))) []).
Proof.
  unfold copy_aut. pose proof (copy_aut_from (reg a) []) as H. cbn [map length repeat app] in H.
  unfold empty. rewrite H, map_length. reflexivity.
Qed.
Lemma somes_map {A} (l : list A) : somes (map Some l) = l.
Proof. induction l; cbn; congruence. Qed.

(** ** The order of the tasks *)
From Coq Require Import Sorted.
Definition kbefore (x y : ekey) : Prop :=
  fst x < fst y \/ (fst x = fst y /\
   (fst (snd x) > fst (snd y) \/ (fst (snd x) = fst (snd y) /\ snd (snd x) < snd (snd y)))).
Lemma ss_app_intro {A} (R : A -> A -> Prop) l r :
  StronglySorted R l -> StronglySorted R r -> (forall x y, In x l -> In y r -> R x y) -> StronglySorted R (l ++ r).
Proof.
  intros L Hr C. induction L as [|x l L IH F]; cbn [app]; [assumption|]. constructor.
  - apply IH. intros. apply C; [right|]; assumption.
  - apply Forall_app. split; [assumption|]. apply Forall_forall. intros y Y. apply C; [left; reflexivity|assumption].
Qed.
Lemma ss_map {A B} (R : A -> A -> Prop) (Q : B -> B -> Prop) (f : A -> B) l :
  (forall x y, R x y -> Q (f x) (f y)) -> StronglySorted R l -> StronglySorted Q (map f l).
Proof.
  intros H L. induction L as [|x l L IH F]; cbn [map]; constructor; [assumption|].
  apply Forall_forall. intros y Y. apply in_map_iff in Y. destruct Y as (z & <- & Z).
  apply H. rewrite Forall_forall in F. auto.
Qed.
Lemma ss_filter {A} (R : A -> A -> Prop) f l : StronglySorted R l -> StronglySorted R (filter f l).
Proof.
  intros L. induction L as [|x l L IH F]; cbn [filter]; [constructor|]. destruct (f x); [|assumption].
  constructor; [assumption|]. rewrite Forall_forall in *. intros y Y. apply filter_In in Y. apply F. tauto.
Qed.
Definition ebefore (e f : elem) : Prop := fst e > fst f \/ (fst e = fst f /\ snd e < snd f).
Lemma elems_sorted m b : (forall t, StronglySorted lt (lids m t)) -> StronglySorted ebefore (elems m b).
Proof.
  intros N. unfold elems. assert (D : StronglySorted gt [5;4;3;2;1;0]).
  { repeat (constructor; [|repeat (constructor; [lia|]); constructor]). constructor. }
  induction D as [|t l D IH I]; cbn [flat_map]; [constructor|].
  assert (W : forall t' e, In e (if types (head_of b) t' then map (pair t') (lids m t') else []) -> fst e = t').
  { intros t' e H. destruct (types (head_of b) t'); [|destruct H]. apply in_map_iff in H. destruct H as (? & <- & _). reflexivity. }
  apply ss_app_intro; [|assumption|].
  - destruct (types (head_of b) t); [|constructor]. apply (ss_map lt); [|apply N].
    intros x y L. right. cbn. auto.
  - intros x y X Y. apply in_flat_map in Y. destruct Y as (t' & T & Y). apply W in X, Y.
    rewrite Forall_forall in I. left. specialize (I t' T). lia.
Qed.
Lemma actives_sorted r : forall f n, StronglySorted (fun x y : nat * entry => fst x < fst y) (actives n r f).
Proof.
  induction r as [|o r IH]; intros f n; cbn [actives]; [constructor|].
  destruct o as [b|], f as [|[] f]; try constructor; try apply IH.
  apply Forall_forall. intros (i & b') H. apply actives_in in H. cbn. lia.
Qed.
Lemma todos_sorted m a : (forall t, StronglySorted lt (lids m t)) ->
  StronglySorted (fun x y => kbefore (key x) (key y)) (todos m a).
Proof.
  intros N. unfold todos. pose proof (actives_sorted (reg a) (act a) 0) as D.
  induction D as [|x l D IH F]; cbn [flat_map]; [constructor|]. apply ss_app_intro; [|assumption|].
  - unfold todo. apply (ss_map ebefore); [|apply ss_filter, elems_sorted; assumption].
    intros e f E. right. cbn. destruct E as [E|E]; [auto|auto].
  - intros y z Y Z. unfold todo in Y. apply in_map_iff in Y. destruct Y as (e & <- & _).
    apply in_flat_map in Z. destruct Z as (w & W & Z). unfold todo in Z. apply in_map_iff in Z. destruct Z as (f & <- & _).
    rewrite Forall_forall in F. left. cbn. apply F. assumption.
Qed.
Lemma kbefore_irrefl x : ~ kbefore x x.
Proof. unfold kbefore. lia. Qed.
Lemma kbefore_asym x y : kbefore x y -> ~ kbefore y x.
Proof. unfold kbefore. lia. Qed.
Lemma split_before l1 : forall x l2 l1' x' l2',
  StronglySorted (fun x y => kbefore (key x) (key y)) (l1 ++ x :: l2) ->
  l1 ++ x :: l2 = l1' ++ x' :: l2' -> kbefore (key x) (key x') -> total l1 + sz x <= total l1'.
Proof.
  induction l1 as [|y l1 IH]; intros x l2 l1' x' l2' O E B; destruct l1' as [|y' l1']; cbn in E; inversion E; subst.
  - exfalso. eapply kbefore_irrefl. eassumption.
  - cbn. lia.
  - exfalso. cbn in O. inversion O as [|? ? _ F]; subst. rewrite Forall_forall in F.
    specialize (F x). apply (kbefore_asym _ _ B). apply F. apply in_or_app. right. left. reflexivity.
  - cbn in O. inversion O; subst. cbn. specialize (IH x l2 l1' x' l2' ltac:(assumption) ltac:(assumption) B). lia.
Qed.
Lemma sorted_nodup l : StronglySorted lt l -> NoDup l.
Proof.
  intros L. induction L as [|x l L IH F]; constructor; [|assumption].
  intros H. rewrite Forall_forall in F. specialize (F x H). lia.
Qed.
