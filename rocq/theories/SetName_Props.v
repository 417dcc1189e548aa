(** Property C48: sets and their names. *)
From Coq Require Import List Bool Arith Lia Sorted.
From Verif Require Import SetName_Model SetName_Proofs.
Import ListNotations.

(** ** Histories; in Make and MakeUnique h is the unused handle a new set gets *)
Inductive op := Make (h : nat) (n : name) | MakeUnique (h : nat) (n : name) | Delete (h : nat).
Definition step (s : sets) (o : op) : option sets :=
  match o with
  | Make h n => Some (fst (fst (create_set s h n)))
  | MakeUnique h n => Some (create_unique s h n)
  | Delete h => destroy_set s h
  end.
Fixpoint run (s : sets) (ops : list op) : option sets :=
  match ops with
  | [] => Some s
  | o :: r => match step s o with Some s' => run s' r | None => None end
  end.

(** ** What the user expects: sets with names *)
Definition world := list (nat * name).
Definition named (w : world) (n : name) : bool := existsb (fun x => seq (snd x) n) w.
Definition ideal (w : world) (o : op) : world :=
  match o with
  | Make h n => if named w n then w else (h, n) :: w
  | MakeUnique h n => (h, n) :: w
  | Delete h => filter (fun x => negb (fst x =? h)) w
  end.
Definition ideal_run (w : world) (ops : list op) : world := fold_left ideal ops w.
(** handles of new sets are unused, only existing sets are deleted;
    [strict]: CreateSetUnique is only called with a name not in use *)
Definition allowed (strict : bool) (w : world) (o : op) : Prop :=
  match o with
  | Make h n => ~ In h (map fst w)
  | MakeUnique h n => ~ In h (map fst w) /\ (strict = true -> ~ In n (map snd w))
  | Delete h => In h (map fst w)
  end.
Fixpoint allowed_run (strict : bool) (w : world) (ops : list op) : Prop :=
  match ops with [] => True | o :: r => allowed strict w o /\ allowed_run strict (ideal w o) r end.

Lemma named_in : forall w n, named w n = true <-> In n (map snd w).
Proof.
  intros w n. unfold named. rewrite existsb_exists, in_map_iff. split; intros [x [H1 H2]]; exists x.
  - apply seq_eq in H2. auto.
  - split; auto. now apply seq_eq.
Qed.

Lemma strict_step : forall s o, full s -> allowed true (alive s) o ->
  exists s', step s o = Some s' /\ full s' /\ alive s' = ideal (alive s) o.
Proof.
  intros s o F A. pose proof F as [S [F1 F2]]. pose proof S as [S1 [S2 S3]].
  destruct o as [h n|h n|h]; cbn [allowed step ideal] in *.
  - unfold create_set, get_set. destruct (tfind (search s) n) as [x|] eqn:E.
    + exists s. split; [reflexivity|]. split; [exact F|].
      apply tfind_in in E; auto. apply S3, (in_map snd) in E. apply named_in in E. cbn [snd] in E. now rewrite E.
    + assert (Hn : ~ In n (map snd (alive s))).
      { intros H. apply in_map_iff in H. destruct H as [[x n'] [E' H]]. cbn in E'. subst n'.
        apply F2 in H. revert H. now apply tfind_none. }
      eexists. split; [reflexivity|]. split; [now apply unique_full|]. cbn.
      destruct (named (alive s) n) eqn:N; [|reflexivity]. apply named_in in N. contradiction.
  - destruct A as [A1 A2]. eexists. split; [reflexivity|]. split; [|reflexivity]. apply unique_full; auto.
  - unfold destroy_set. destruct (name_of (alive s) h) as [n|] eqn:E.
    + eexists. split; [reflexivity|]. split; [|reflexivity]. apply (destroy_full s h); auto. unfold destroy_set. now rewrite E.
    + apply name_of_none in E. contradiction.
Qed.

(** what can be asked: GetSet finds exactly the set of that name, names are
    distinct, GetSetsByPrefix gives exactly the sets whose name starts with the
    prefix, in increasing order of names *)
Definition finds (s : sets) (w : world) : Prop :=
  NoDup (map snd w) /\
  (forall n h, get_set s n = Some h <-> In (h, n) w) /\
  (forall n, get_set s n = None <-> ~ In n (map snd w)) /\
  (forall p, exists l : list (nat * name),
     sets_by_prefix s p = map fst l /\
     (forall h n, In (h, n) l <-> In (h, n) w /\ exists r, n = p ++ r) /\
     StronglySorted (fun x y => slt (snd x) (snd y) = true) l).

Lemma full_finds : forall s, full s -> finds s (alive s).
Proof.
  intros s [[S1 [S2 S3]] [F1 F2]]. split; [exact F1|]. split; [|split].
  - intros n h. unfold get_set. rewrite tfind_in by auto. split; auto.
  - intros n. unfold get_set. rewrite tfind_none, in_map_iff. split.
    + intros H [[h n'] [E K]]. cbn in E. subst. apply F2 in K. now apply (H h).
    + intros H h K. apply H. exists (h, n). auto.
  - intros p. exists (map (fun x => (snd x, fst x)) (filter (startsb p) (search s))).
    rewrite by_prefix_ok, map_map by auto. split; [reflexivity|]. split.
    + intros h n. rewrite in_map_iff. split.
      * intros [[n' h'] [E H]]. cbn in E. injection E as -> ->. apply filter_In in H. destruct H as [H1 H2].
        split; [auto|]. now apply starts_seq in H2.
      * intros [H1 H2]. exists (n, h). split; [reflexivity|]. apply filter_In. split; [auto|].
        now apply starts_seq.
    + clear - S2. induction S2 as [|x m O IH H]; cbn [filter map]; [constructor|].
      destruct (startsb p x); [|exact IH]. cbn [map]. constructor; [exact IH|].
      rewrite Forall_forall in *. intros y Hy. apply in_map_iff in Hy. destruct Hy as [z [<- Hz]].
      apply filter_In in Hz. now apply H.
Qed.

(** ** C48 *)
Theorem C48_names : forall ops, allowed_run true [] ops -> exists s, run none ops = Some s /\
  alive s = ideal_run [] ops /\ finds s (ideal_run [] ops).
Proof.
  assert (N : forall ops s, full s -> allowed_run true (alive s) ops -> exists s', run s ops = Some s' /\
    alive s' = ideal_run (alive s) ops /\ full s').
  { induction ops as [|o ops IH]; intros s F A; [exists s; auto|]. destruct A as [A1 A2].
    destruct (strict_step s o F A1) as [s' [E [F' L]]]. cbn [run]. rewrite E. rewrite <- L in A2.
    destruct (IH s' F' A2) as [s'' [E2 [L2 F2]]]. exists s''. split; [exact E2|]. split; [|exact F2].
    rewrite L2, L. reflexivity. }
  intros ops A. destruct (N ops none) as [s [E [L F]]]; [|exact A|].
  - repeat split; try constructor; cbn; contradiction.
  - exists s. split; [exact E|]. split; [exact L|]. cbn in L. rewrite <- L. now apply full_finds.
Qed.
Print Assumptions C48_names.
Example C48_nonvacuous :
  let ops := [Make 1 [5; 6]; Make 2 [5]; Make 3 [5; 6]; MakeUnique 3 [5; 6; 0]; Make 4 [5; 7]; Make 5 [6]; Delete 1;
              Make 6 [5; 6; 9]] in
  allowed_run true [] ops /\
  option_map (fun s => (sets_by_prefix s [5; 6], sets_by_prefix s [5], get_set s [5; 6], get_set s [5])) (run none ops) =
    Some ([3; 6], [2; 3; 6; 4], None, Some 2).
Proof.
  split; [|reflexivity]. cbn. intuition discriminate.
Qed.

(** CreateSet says whether the set is new and returns the one of that name. *)
Theorem C48_create : forall ops s h n, allowed_run true [] ops -> run none ops = Some s ->
  ~ In h (map fst (alive s)) ->
  forall s' x b, create_set s h n = (s', x, b) ->
  get_set s' n = Some x /\ In (x, n) (alive s') /\
  (b = true <-> ~ In n (map snd (alive s))) /\ (b = false -> s' = s) /\
  (forall n', n' <> n -> get_set s' n' = get_set s n').
Proof.
  intros ops s h n A R Hh s' x b E. destruct (C48_names ops A) as [s0 [R0 [L F]]].
  rewrite R in R0. injection R0 as <-. rewrite <- L in F.
  assert (A' : allowed_run true [] (ops ++ [Make h n])).
  { assert (G : forall o w, allowed_run true w o -> ~ In h (map fst (ideal_run w o)) -> allowed_run true w (o ++ [Make h n])).
    { induction o as [|a o IH]; intros w H K; cbn [app allowed_run]; [split; auto|]. destruct H. split; auto. }
    apply G; auto. now rewrite <- L. }
  destruct (C48_names _ A') as [s1 [R1 [L1 F1]]].
  assert (R2 : run none (ops ++ [Make h n]) = Some s').
  { assert (G : forall o a, run a o = Some s -> run a (o ++ [Make h n]) = Some s').
    { induction o as [|c o IH]; intros a H; cbn [app run] in *.
      - injection H as ->. cbn [step]. now rewrite E.
      - destruct (step a c); [auto|discriminate]. }
    now apply G. }
  rewrite R2 in R1. injection R1 as <-. rewrite <- L1 in F1.
  destruct F as [_ [G1 [G2 _]]], F1 as [_ [H1 [H2 _]]].
  unfold create_set in E. destruct (get_set s n) as [y|] eqn:Y; injection E as <- <- <-.
  - split; [exact Y|]. split; [now apply G1|]. split; [|split; auto].
    split; [discriminate|]. intros K. apply G2 in K. congruence.
  - split; [apply H1; now left|]. split; [now left|]. split; [|split; [discriminate|]].
    + split; auto. intros _. now apply G2.
    + intros n' N. destruct (get_set s n') as [z|] eqn:Z.
      * apply H1. right. now apply G1.
      * apply H2. intros [K|K]; [cbn in K; congruence|]. now apply G2 in Z.
Qed.
Print Assumptions C48_create.
Example C48_create_nonvacuous : forall s, run none [Make 1 [5]] = Some s ->
  snd (create_set s 2 [5]) = false /\ snd (create_set s 2 [6]) = true.
Proof. intros s E. injection E as <-. auto. Qed.

(** With any use of CreateSetUnique: what GetSet and GetSetsByPrefix return are
    existing sets of that name. *)
Fixpoint fresh_run (s : sets) (ops : list op) : Prop :=
  match ops with
  | [] => True
  | o :: r => allowed false (alive s) o /\ match step s o with Some s' => fresh_run s' r | None => True end
  end.
Lemma sound_step : forall s o, sound s -> allowed false (alive s) o -> exists s', step s o = Some s' /\ sound s'.
Proof.
  intros s o S A. destruct o as [h n|h n|h]; cbn [allowed step] in *.
  - unfold create_set. destruct (get_set s n); eexists; (split; [reflexivity|]); cbn; auto. now apply unique_sound.
  - eexists. split; [reflexivity|]. apply unique_sound; intuition.
  - unfold destroy_set. destruct (name_of (alive s) h) as [n|] eqn:E.
    + eexists. split; [reflexivity|]. apply (destroy_sound s h); auto. unfold destroy_set. now rewrite E.
    + apply name_of_none in E. contradiction.
Qed.
Lemma sound_run : forall ops s, sound s -> fresh_run s ops -> exists s', run s ops = Some s' /\ sound s'.
Proof.
  induction ops as [|o ops IH]; intros s S A; [exists s; auto|]. destruct A as [A1 A2].
  destruct (sound_step s o S A1) as [s' [E S']]. rewrite E in A2. cbn [run]. rewrite E. auto.
Qed.
Lemma sound_none : sound none.
Proof. repeat split; try constructor; cbn; contradiction. Qed.

Theorem C48_sound : forall ops, fresh_run none ops -> exists s, run none ops = Some s /\
  (forall n h, get_set s n = Some h -> In (h, n) (alive s)) /\
  (forall p h, In h (sets_by_prefix s p) -> exists r, In (h, p ++ r) (alive s)).
Proof.
  intros ops A. destruct (sound_run ops none sound_none A) as [s [E [S1 [S2 S3]]]]. exists s.
  split; [exact E|]. split.
  - intros n h H. apply S3. now apply tfind_in.
  - intros p h H. rewrite by_prefix_ok in H by auto. apply in_map_iff in H. destruct H as [[k h'] [E' H]].
    cbn in E'. subst h'. apply filter_In in H. destruct H as [H1 H2]. apply starts_seq in H2.
    destruct H2 as [r Er]. cbn in Er. subst k. exists r. auto.
Qed.
Print Assumptions C48_sound.
Example C48_sound_nonvacuous :
  let ops := [Make 1 [5]; MakeUnique 2 [5]; MakeUnique 3 [5; 1]; Delete 1; Make 4 [5]; Delete 3] in
  fresh_run none ops /\
  option_map (fun s => (get_set s [5], sets_by_prefix s [5], alive s)) (run none ops) =
    Some (Some 4, [4], [(4, [5]); (2, [5])]).
Proof. split; [cbn; intuition discriminate|reflexivity]. Qed.

(** Two sets of one name, made by CreateSetUnique: after deleting either of
    them the other exists but is not found, and CreateSet makes a new one. *)
Theorem C48_duplicate : forall ops s h1 h2 n d s', fresh_run none ops -> run none ops = Some s ->
  ~ In h1 (map fst (alive s)) -> ~ In h2 (map fst (alive s)) -> h1 <> h2 -> d = h1 \/ d = h2 ->
  run s [MakeUnique h1 n; MakeUnique h2 n; Delete d] = Some s' ->
  get_set s' n = None /\ In (if d =? h1 then h2 else h1, n) (alive s') /\
  ~ In (if d =? h1 then h2 else h1) (sets_by_prefix s' n) /\
  forall h3, snd (create_set s' h3 n) = true.
Proof.
  intros ops s h1 h2 n d s' A R N1 N2 N12 Hd E.
  destruct (sound_run ops none sound_none A) as [s0 [R0 S]]. rewrite R in R0. injection R0 as <-.
  pose proof (unique_sound s h1 n S N1) as Sa.
  assert (Sb : sound (create_unique (create_unique s h1 n) h2 n)).
  { apply unique_sound; auto. cbn. intuition. }
  set (b := create_unique (create_unique s h1 n) h2 n) in *.
  change (run s [MakeUnique h1 n; MakeUnique h2 n; Delete d]) with
    (match destroy_set b d with Some s' => Some s' | None => None end) in E.
  assert (Ab : alive b = (h2, n) :: (h1, n) :: alive s) by reflexivity. clearbody b.
  assert (Hn : name_of (alive b) d = Some n).
  { rewrite Ab. cbn. destruct Hd as [->| ->]; [|now rewrite Nat.eqb_refl].
    destruct (Nat.eqb_spec h1 h2); [contradiction|]. now rewrite Nat.eqb_refl. }
  destruct (destroy_set b d) as [s1|] eqn:D; [|discriminate]. injection E as ->.
  pose proof (destroy_sound b d s' Sb D) as S'.
  unfold destroy_set in D. rewrite Hn in D. injection D as <-.
  destruct Sb as [B1 [B2 B3]], S' as [B1' [B2' B3']]. cbn [alive search] in *.
  assert (G : get_set (Sets (filter (fun x => negb (fst x =? d)) (alive b)) (terase (search b) n)) n = None).
  { unfold get_set. cbn [search]. apply tfind_none. intros h H. apply terase_in in H; auto. now destruct H as [_ H]. }
  split; [exact G|]. split; [|split].
  - cbn [alive]. apply filter_In. rewrite Ab. cbn [fst].
    destruct Hd as [->| ->].
    + rewrite Nat.eqb_refl. split; [now left|]. rewrite negb_true_iff. apply Nat.eqb_neq. auto.
    + destruct (Nat.eqb_spec h2 h1); [congruence|]. split; [right; now left|]. rewrite negb_true_iff. now apply Nat.eqb_neq.
  - intros H. rewrite by_prefix_ok in H by auto. apply in_map_iff in H. destruct H as [[k x] [Ex H]].
    cbn [snd] in Ex. subst x. apply filter_In in H. destruct H as [H H']. cbn [search] in H.
    pose proof H as H0. apply terase_in in H0; auto. destruct H0 as [H1 H2]. cbn [fst] in H2. apply B3 in H1.
    apply H2. clear - H1 Hd N12 N1 N2 B1 Ab. rewrite Ab in *.
    assert (K : forall x q, In (x, q) (alive s) -> In x (map fst (alive s))) by (intros x q Hx; apply (in_map fst) in Hx; exact Hx).
    destruct Hd as [->| ->].
    + rewrite Nat.eqb_refl in H1. destruct H1 as [H1|[H1|H1]]; [congruence|congruence|]. apply K in H1. contradiction.
    + destruct (Nat.eqb_spec h2 h1); [congruence|]. destruct H1 as [H1|[H1|H1]]; [congruence|congruence|].
      apply K in H1. contradiction.
  - intros h3. unfold create_set. now rewrite G.
Qed.
Print Assumptions C48_duplicate.
Example C48_duplicate_nonvacuous :
  option_map (fun s => (get_set s [7], alive s)) (run none [MakeUnique 1 [7]; MakeUnique 2 [7]; Delete 1]) =
  Some (None, [(2, [7])]).
Proof. reflexivity. Qed.

(** A copied mesh has the sets but finds none of them, and CreateSet of an
    existing name makes a second set. An assigned mesh answers with the handles
    its sets had before. *)
Theorem C48_copy : forall s n h3, get_set (copy_sets s) n = None /\
  sets_by_prefix (copy_sets s) n = [] /\ snd (create_set (copy_sets s) h3 n) = true.
Proof. intros. repeat split. Qed.
Print Assumptions C48_copy.
Theorem C48_assign_refuted :
  ~ (forall ops1 ops2 s1 s2 n h, allowed_run true [] ops1 -> allowed_run true [] ops2 ->
     run none ops1 = Some s1 -> run none ops2 = Some s2 ->
     get_set (assign_sets s1 s2) n = Some h -> In (h, n) (alive (assign_sets s1 s2))).
Proof.
  intros H.
  specialize (H [Make 1 [7]] [Make 1 [8]] _ _ [7] 1 ltac:(cbn; auto) ltac:(cbn; auto) eq_refl eq_refl eq_refl).
  cbn in H. destruct H as [H|[]]. discriminate.
Qed.
Print Assumptions C48_assign_refuted.
