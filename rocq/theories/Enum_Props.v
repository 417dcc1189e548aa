(** C47: indices of unknowns given out by Automatizator. *)
From Coq Require Import List Bool Arith Lia Sorted.
From Verif Require Import Util Enum_Model Enum_Proofs.
Import ListNotations.

(** ** Specification *)
(** the elements of a mesh are listed in increasing order of their ids *)
Definition mesh_ok (m : mesh) : Prop := forall t, StronglySorted lt (lids m t).
(** the k-th unknown of entry i on element e is numbered by this processor: the
    entry is registered and active, the element exists and is not a ghost, the
    entry is valid there, and k is below the number of unknowns there *)
Definition unknown (m : mesh) (a : aut) (i : nat) (e : elem) (k : nat) : Prop :=
  exists b, get_entry a i = Some b /\ nth i (act a) false = true /\
    fst e < 6 /\ In (snd e) (lids m (fst e)) /\ (fst e = 5 \/ ghost m e = false) /\
    is_valid b e = true /\ k < size b e.
(** every component of every entry takes part: no data is missing, no component
    is switched off by its status, no entries are stacked *)
Definition complete (m : mesh) (a : aut) : Prop :=
  forall i b e, get_entry a i = Some b -> In (snd e) (lids m (fst e)) -> is_valid b e = true -> size b e <> 0 ->
    (exists h k, b = Simple h k) /\ size b e = msize b e.
(** f gives the unknowns distinct numbers that fill [lo, hi) *)
Definition fills {A} (is : A -> Prop) (f : A -> option nat) (lo hi : nat) : Prop :=
  (forall x, is x -> exists n, f x = Some n /\ lo <= n < hi) /\
  (forall x y n, is x -> is y -> f x = Some n -> f y = Some n -> x = y) /\
  (forall n, lo <= n < hi -> exists x, is x /\ f x = Some n).
Definition unk := (nat * elem * nat)%type.
Definition is_unknown (m : mesh) (a : aut) (u : unk) : Prop :=
  unknown m a (fst (fst u)) (snd (fst u)) (snd u).
(** the place of an unknown: offset of the element and position *)
Definition place (o : offsets) (u : unk) : option nat := Some (o (fst (fst u)) (snd (fst u)) + snd u).
(** what GetIndex answers *)
Definition answer (a : aut) (o : offsets) (u : unk) : option nat :=
  match get_index a o (fst (fst u)) (snd (fst u)) (snd u) with Some (Some n) => Some n | _ => None end.

Lemma ok_nodup m : mesh_ok m -> forall t, NoDup (lids m t).
Proof. intros H t. apply sorted_nodup, H. Qed.
Lemma unknown_task m a i e k : unknown m a i e k <-> exists b, In ((i, b), e) (todos m a) /\ k < size b e.
Proof.
  split.
  - intros (b & A & B & L & I & G & V & K). exists b. split; [|assumption]. apply todos_in. repeat split; auto.
    unfold wanted. rewrite V. destruct (Nat.eqb_spec (size b e) 0) as [Z|Z]; [lia|].
    destruct G as [G|G]; rewrite G; [reflexivity|]. cbn. rewrite orb_true_r. reflexivity.
  - intros (b & H & K). apply todos_in in H. destruct H as (A & B & L & I & W). exists b.
    unfold wanted in W. rewrite !andb_true_iff, orb_true_iff, negb_true_iff, Nat.eqb_eq in W. tauto.
Qed.
(** offsets that number the tasks in order from d *)
Definition numbers (m : mesh) (a : aut) (o : offsets) (d : nat) : Prop :=
  forall x l1 l2, todos m a = l1 ++ x :: l2 -> o (fst (fst x)) (snd x) = total l1 + d.
Lemma fills_place m a o d : mesh_ok m -> numbers m a o d ->
  fills (is_unknown m a) (place o) d (d + total (todos m a)).
Proof.
  intros M N. unfold fills, is_unknown, place. split; [|split].
  - intros ((i, e), k). cbn [fst snd]. rewrite unknown_task. intros (b & I & K).
    destruct (in_split _ _ I) as (l1 & l2 & E). specialize (N _ _ _ E). cbn [fst snd] in N. rewrite N.
    assert (R0 : total l1 + k < total (todos m a)) by (rewrite E; exact (slot_range l1 ((i, b), e) l2 k K)).
    eexists. split; [reflexivity|]. lia.
  - intros ((i, e), k) ((i', e'), k') n. cbn [fst snd]. rewrite !unknown_task.
    intros (b & I & K) (b' & I' & K') X Y.
    destruct (in_split _ _ I) as (l1 & l2 & E). destruct (in_split _ _ I') as (l1' & l2' & E').
    rewrite (N _ _ _ E : o i e = _) in X. rewrite (N _ _ _ E' : o i' e' = _) in Y.
    inversion X. inversion Y. rewrite E in E'.
    destruct (slot_unique l1 ((i, b), e) l2 k l1' ((i', b'), e') l2' k' E' K K') as (P & Q); [lia|].
    congruence.
  - intros n L. destruct (slot_cover (todos m a) (n - d)) as (l1 & ((i, b), e) & l2 & k & E & K & T); [lia|].
    exists ((i, e), k). cbn [fst snd]. split.
    + apply unknown_task. exists b. split; [rewrite E; apply in_or_app; right; left; reflexivity|assumption].
    + rewrite (N _ _ _ E : o i e = _). f_equal. lia.
Qed.
Lemma fills_ext {A} (P : A -> Prop) f g lo hi :
  (forall x, P x -> f x = g x) -> fills P f lo hi -> fills P g lo hi.
Proof.
  intros E (A1 & A2 & A3). split; [|split].
  - intros x X. rewrite <- E by assumption. auto.
  - intros x y n X Y. rewrite <- (E x X), <- (E y Y). apply A2; assumption.
  - intros n L. destruct (A3 n L) as (x & X & F). exists x. split; [assumption|]. rewrite <- E; assumption.
Qed.
Lemma answer_place m a o u : complete m a -> is_unknown m a u -> place o u = answer a o u.
Proof.
  intros C (b & A & B & L & I & G & V & K). unfold place, answer, get_index. rewrite A.
  destruct (C _ _ _ A I V) as ((h & k & ->) & F); [lia|]. cbn [size msize] in *.
  rewrite full_index by assumption. reflexivity.
Qed.
Lemma enumerate_numbers m a o : mesh_ok m -> numbers m a (fst (enumerate m a o)) 0.
Proof. intros M x l1 l2 E. rewrite Nat.add_0_r. eapply enumerate_task; [apply ok_nodup|]; eassumption. Qed.
Lemma shift_numbers m a o d : mesh_ok m -> numbers m a (shift m a (fst (enumerate m a o)) d) d.
Proof. intros M x l1 l2 E. eapply numbered_task; [apply ok_nodup|]; eassumption. Qed.

(** ** One processor *)
(** GetIndex gives all unknowns distinct numbers that fill [0, last). *)
Theorem C47_serial : forall m a o, mesh_ok m -> complete m a ->
  fills (is_unknown m a) (answer a (fst (enumerate m a o))) 0 (snd (enumerate m a o)).
Proof.
  intros m a o M C. rewrite enumerate_count.
  apply (fills_ext _ (place (fst (enumerate m a o)))); [intros u U; eapply answer_place; eassumption|].
  apply (fills_place m a _ 0 M). apply enumerate_numbers. assumption.
Qed.
Print Assumptions C47_serial.

(** Without completeness the places are still distinct and fill [0, last). *)
Theorem C47_places : forall m a o, mesh_ok m ->
  fills (is_unknown m a) (place (fst (enumerate m a o))) 0 (snd (enumerate m a o)).
Proof.
  intros m a o M. rewrite enumerate_count. apply (fills_place m a _ 0 M). apply enumerate_numbers. assumption.
Qed.
Print Assumptions C47_places.

(** Unknowns of an entry registered at a smaller index come first; within an entry
    MESH first and NODE last, then by local id, then by position. *)
Definition before (u v : unk) : Prop :=
  let '(i, (t, l), k) := u in let '(i', (t', l'), k') := v in
  i < i' \/ (i = i' /\ (t > t' \/ (t = t' /\ (l < l' \/ (l = l' /\ k < k'))))).
Theorem C47_order : forall m a o u v x y, mesh_ok m -> complete m a ->
  is_unknown m a u -> is_unknown m a v -> before u v ->
  answer a (fst (enumerate m a o)) u = Some x -> answer a (fst (enumerate m a o)) v = Some y -> x < y.
Proof.
  intros m a o ((i, (t, l)), k) ((i', (t', l')), k') x y M C U V B X Y.
  rewrite <- (answer_place m a _ _ C U) in X. rewrite <- (answer_place m a _ _ C V) in Y.
  unfold place in X, Y. unfold is_unknown in U, V. cbn [fst snd] in *.
  rewrite unknown_task in U, V. destruct U as (b & I & K). destruct V as (b' & I' & K').
  destruct (in_split _ _ I) as (l1 & l2 & E). destruct (in_split _ _ I') as (l1' & l2' & E').
  pose proof (enumerate_numbers m a o M) as N.
  rewrite (N _ _ _ E : fst (enumerate m a o) i (t, l) = _) in X.
  rewrite (N _ _ _ E' : fst (enumerate m a o) i' (t', l') = _) in Y. inversion X. inversion Y.
  assert (Q : kbefore (i, (t, l)) (i', (t', l')) \/ (i = i' /\ t = t' /\ l = l' /\ k < k')).
  { unfold kbefore. cbn in *. lia. }
  destruct Q as [Q|(-> & -> & -> & Q)].
  - pose proof (todos_sorted m a M) as SS. rewrite E in SS.
    assert (Z : total l1 + size b (t, l) <= total l1').
    { apply (split_before l1 ((i, b), (t, l)) l2 l1' ((i', b'), (t', l')) l2' SS); [exact (eq_trans (eq_sym E) E')|exact Q]. }
    lia.
  - assert (total l1 = total l1'); [|lia].
    pose proof (N _ _ _ E) as N1. pose proof (N _ _ _ E') as N2. cbn [fst snd] in *. lia.
Qed.
Print Assumptions C47_order.

(** The offsets left by earlier enumerations do not matter. *)
Theorem C47_repeatable : forall m a o o' i e k, mesh_ok m -> unknown m a i e k ->
  fst (enumerate m a o) i e = fst (enumerate m a o') i e /\ snd (enumerate m a o) = snd (enumerate m a o').
Proof.
  intros m a o o' i e k M U. split; [|rewrite !enumerate_count; reflexivity].
  apply unknown_task in U. destruct U as (b & I & _). destruct (in_split _ _ I) as (l1 & l2 & E).
  rewrite (enumerate_numbers m a o M _ _ _ E : fst (enumerate m a o) i e = _).
  rewrite (enumerate_numbers m a o' M _ _ _ E : fst (enumerate m a o') i e = _). reflexivity.
Qed.
Print Assumptions C47_repeatable.

(** ** Several processors *)
(** an unknown together with the number of its processor *)
Definition gunk := (nat * unk)%type.
Definition is_global (ps : list part) (g : gunk) : Prop :=
  exists p, nth_error ps (fst g) = Some p /\ is_unknown (pm p) (pa p) (snd g).
Definition global_answer (ps : list part) (g : gunk) : option nat :=
  match nth_error ps (fst g), nth_error (enumerate_all ps 0) (fst g) with
  | Some p, Some n => answer (pa p) (offs n) (snd g)
  | _, _ => None
  end.
(** the ranges [first, last) follow one another from lo to hi *)
Fixpoint consecutive (ns : list numbered) (lo hi : nat) : Prop :=
  match ns with
  | [] => lo = hi
  | n :: r => first n = lo /\ lo <= last n /\ consecutive r (last n) hi
  end.

Lemma all_length ps : forall d, length (enumerate_all ps d) = length ps.
Proof. induction ps as [|p r IH]; intros d; cbn [enumerate_all]; [reflexivity|]. destruct (enumerate (pm p) (pa p) (po p)). cbn. f_equal. apply IH. Qed.
Lemma fills_all ps : forall d,
  (forall p, In p ps -> mesh_ok (pm p) /\ complete (pm p) (pa p)) ->
  exists hi, consecutive (enumerate_all ps d) d hi /\
    fills (is_global ps)
      (fun g => match nth_error ps (fst g), nth_error (enumerate_all ps d) (fst g) with
        | Some p, Some n => answer (pa p) (offs n) (snd g) | _, _ => None end) d hi /\
    (forall g p n, nth_error ps g = Some p -> nth_error (enumerate_all ps d) g = Some n ->
      fills (is_unknown (pm p) (pa p)) (answer (pa p) (offs n)) (first n) (last n)).
Proof.
  induction ps as [|p r IH]; intros d H.
  - exists d. cbn. split; [reflexivity|]. split; [split; [|split]|].
    + intros (g, u) (p & P & _). cbn in P. rewrite nth_error_nil_eq in P. discriminate.
    + intros (g, u) y n (p & P & _). cbn in P. rewrite nth_error_nil_eq in P. discriminate.
    + intros n L. lia.
    + intros [|g] p n P; discriminate.
  - destruct (H p (or_introl eq_refl)) as (M & C).
    assert (F : fills (is_unknown (pm p) (pa p))
              (answer (pa p) (shift (pm p) (pa p) (fst (enumerate (pm p) (pa p) (po p))) d)) d
              (snd (enumerate (pm p) (pa p) (po p)) + d)).
    { rewrite enumerate_count, Nat.add_comm.
      apply (fills_ext _ (place (shift (pm p) (pa p) (fst (enumerate (pm p) (pa p) (po p))) d)));
        [intros u U; eapply answer_place; eassumption|].
      apply fills_place; [assumption|]. apply shift_numbers. assumption. }
    cbn [enumerate_all]. destruct (enumerate (pm p) (pa p) (po p)) as (o, n). cbn [fst snd] in F.
    destruct (IH (d + n)) as (hi & Q & G & Z); [intros; apply H; right; assumption|].
    exists hi. cbn [consecutive first last]. rewrite (Nat.add_comm n d) in *.
    assert (LE : d + n <= hi).
    { clear - Q. revert Q. generalize (enumerate_all r (d + n)). intros l. generalize (d + n).
      induction l as [|x l I]; cbn; intros k Q; [lia|]. destruct Q as (_ & Q1 & Q2). apply I in Q2. lia. }
    split; [|split].
    + repeat split; [lia|assumption].
    + destruct F as (F1 & F2 & F3). destruct G as (G1 & G2 & G3). split; [|split].
      * intros ([|g], u) (q & P & U); cbn [fst snd nth_error] in *.
        -- inversion P; subst q. destruct (F1 u U) as (x & X & XL). exists x. split; [exact X|lia].
        -- destruct (G1 (g, u)) as (x & X & XL); [exists q; split; assumption|]. exists x. split; [exact X|lia].
      * intros ([|g], u) ([|g'], u') x (q & P & U) (q' & P' & U') X Y; cbn [fst snd nth_error] in *.
        -- inversion P; inversion P'; subst. f_equal. exact (F2 _ _ _ U U' X Y).
        -- exfalso. inversion P; subst q. destruct (F1 u U) as (x1 & X1 & L1).
           destruct (G1 (g', u')) as (x2 & X2 & L2); [exists q'; split; assumption|]. cbn [fst snd] in X2.
           rewrite Y in X2. cbn [offs] in X. rewrite X in X1. inversion X1. inversion X2. lia.
        -- exfalso. inversion P'; subst q'. destruct (F1 u' U') as (x1 & X1 & L1).
           destruct (G1 (g, u)) as (x2 & X2 & L2); [exists q; split; assumption|]. cbn [fst snd] in X2.
           rewrite X in X2. cbn [offs] in Y. rewrite Y in X1. inversion X1. inversion X2. lia.
        -- assert (E : (g, u) = (g', u')).
           { apply (G2 _ _ x); [exists q; split; assumption|exists q'; split; assumption|exact X|exact Y]. }
           inversion E; subst. reflexivity.
      * intros x L. destruct (Nat.lt_ge_cases x (d + n)) as [A|A].
        -- destruct (F3 x) as (u & U & X); [lia|]. exists (0, u). split; [exists p; split; [reflexivity|assumption]|exact X].
        -- destruct (G3 x) as ((g, u) & (q & P & U) & X); [lia|]. exists (S g, u). split; [exists q; split; assumption|exact X].
    + intros [|g] q x P X; cbn [nth_error] in *.
      * inversion P; inversion X; subst. cbn [first last offs]. exact F.
      * exact (Z g q x P X).
Qed.

(** On any number of processors the answers of GetIndex are globally distinct, fill
    [0, total), and the k-th processor owns exactly the range [first, last) of them,
    the ranges following one another in the order of processors. *)
Theorem C47_parallel : forall ps,
  (forall p, In p ps -> mesh_ok (pm p) /\ complete (pm p) (pa p)) ->
  exists hi, consecutive (enumerate_all ps 0) 0 hi /\
    fills (is_global ps) (global_answer ps) 0 hi /\
    (forall k p n, nth_error ps k = Some p -> nth_error (enumerate_all ps 0) k = Some n ->
      fills (is_unknown (pm p) (pa p)) (answer (pa p) (offs n)) (first n) (last n)).
Proof. intros ps H. exact (fills_all ps 0 H). Qed.
Print Assumptions C47_parallel.

(** ** The registry *)
Inductive op := Register (b : entry) | Unregister (i : nat) | Activate (i : nat) | Deactivate (i : nat).
Definition run1 (a : aut) (o : op) : option (aut * list nat) :=
  match o with
  | Register b => match register a b with Some (a', i) => Some (a', [i]) | None => None end
  | Unregister i => option_map (fun a => (a, [])) (unregister a i)
  | Activate i => option_map (fun a => (a, [])) (set_active true a i)
  | Deactivate i => option_map (fun a => (a, [])) (set_active false a i)
  end.
Fixpoint run (a : aut) (ops : list op) : option (aut * list nat) :=
  match ops with
  | [] => Some (a, [])
  | o :: r =>
    match run1 a o with
    | Some (a', l) => match run a' r with Some (a'', l') => Some (a'', l ++ l') | None => None end
    | None => None
    end
  end.
(** the user's view: which entry lives at an index and whether it is active *)
Definition view := nat -> option (entry * bool).
Definition vput (v : view) (i : nat) (x : option (entry * bool)) : view := fun j => if j =? i then x else v j.
(** one operation and the indices it returned *)
Inductive follows1 (v : view) : op -> list nat -> view -> Prop :=
| f_register b i : v i = None -> follows1 v (Register b) [i] (vput v i (Some (b, true)))
| f_unregister i b f : v i = Some (b, f) -> follows1 v (Unregister i) [] (vput v i None)
| f_activate i b f : v i = Some (b, f) -> follows1 v (Activate i) [] (vput v i (Some (b, true)))
| f_deactivate i b f : v i = Some (b, f) -> follows1 v (Deactivate i) [] (vput v i (Some (b, false))).
Inductive follows : view -> list op -> list nat -> view -> Prop :=
| f_nil v : follows v [] [] v
| f_cons v o l v' r l' v'' : follows1 v o l v' -> follows v' r l' v'' -> follows v (o :: r) (l ++ l') v''.
(** an operation on an index where nothing is registered *)
Definition misuse (v : view) (o : op) : Prop :=
  match o with Register _ => False | Unregister i | Activate i | Deactivate i => v i = None end.
(** the registry shows what the view says *)
Definition shows (a : aut) (v : view) : Prop :=
  forall j, match v j with
    | Some (b, f) => get_entry a j = Some (set_registered (copy_entry b) f) /\ nth j (act a) false = f
    | None => get_entry a j = None /\ nth j (act a) false = false
    end.

Lemma set_reg_twice b v w : set_registered (set_registered b v) w = set_registered b w.
Proof. destruct b; reflexivity. Qed.
Lemma shows_entry a v i : shows a v -> get_entry a i <> None -> exists b f, v i = Some (b, f).
Proof. intros S0 H. specialize (S0 i). destruct (v i) as [[b f]|]; [eauto|tauto]. Qed.
Lemma step_follows a v o : rinv a -> shows a v ->
  match run1 a o with
  | Some (a', l) => rinv a' /\ exists v', follows1 v o l v' /\ shows a' v'
  | None => misuse v o
  end.
Proof.
  intros I S0. destruct o as [b|i|i|i]; cbn [run1 misuse].
  - destruct (register_ok a b I) as (a' & i & E & I' & F & Q). rewrite E. split; [assumption|].
    assert (N : v i = None). { specialize (S0 i). destruct (v i) as [[b' f]|]; [|reflexivity]. destruct S0. congruence. }
    eexists. split; [apply f_register; exact N|]. intros j. destruct (Q j) as (Q1 & Q2). unfold vput, isact in *.
    rewrite Q1, Q2. destruct (j =? i); [split; reflexivity|]. apply S0.
  - pose proof (unregister_ok a i I) as H. destruct (unregister a i) as [a'|]; cbn [option_map].
    + destruct H as (I' & N & Q). split; [assumption|]. destruct (shows_entry _ _ _ S0 N) as (b & f & V).
      eexists. split; [eapply f_unregister; exact V|]. intros j. destruct (Q j) as (Q1 & Q2). unfold vput, isact in *.
      rewrite Q1, Q2. destruct (j =? i); [split; reflexivity|]. apply S0.
    + specialize (S0 i). destruct (v i) as [[b f]|]; [|reflexivity]. destruct S0. congruence.
  - pose proof (set_active_ok true a i I) as H. destruct (set_active true a i) as [a'|]; cbn [option_map].
    + destruct H as (I' & b' & N & Q). split; [assumption|].
      destruct (shows_entry a v i S0) as (b & f & V); [congruence|].
      pose proof (S0 i) as Si. rewrite V in Si. destruct Si as (Si & _). rewrite N in Si. inversion Si; subst b'.
      eexists. split; [eapply f_activate; exact V|]. intros j. destruct (Q j) as (Q1 & Q2). unfold vput, isact in *.
      rewrite Q1, Q2, set_reg_twice. destruct (j =? i); [split; reflexivity|]. apply S0.
    + specialize (S0 i). destruct (v i) as [[b f]|]; [|reflexivity]. destruct S0. congruence.
  - pose proof (set_active_ok false a i I) as H. destruct (set_active false a i) as [a'|]; cbn [option_map].
    + destruct H as (I' & b' & N & Q). split; [assumption|].
      destruct (shows_entry a v i S0) as (b & f & V); [congruence|].
      pose proof (S0 i) as Si. rewrite V in Si. destruct Si as (Si & _). rewrite N in Si. inversion Si; subst b'.
      eexists. split; [eapply f_deactivate; exact V|]. intros j. destruct (Q j) as (Q1 & Q2). unfold vput, isact in *.
      rewrite Q1, Q2, set_reg_twice. destruct (j =? i); [split; reflexivity|]. apply S0.
    + specialize (S0 i). destruct (v i) as [[b f]|]; [|reflexivity]. destruct S0. congruence.
Qed.
Lemma run_follows ops : forall a v, rinv a -> shows a v ->
  match run a ops with
  | Some (a', l) => rinv a' /\ exists v', follows v ops l v' /\ shows a' v'
  | None => exists ops1 o ops2 l v', ops = ops1 ++ o :: ops2 /\ follows v ops1 l v' /\ misuse v' o
  end.
Proof.
  induction ops as [|o r IH]; intros a v I S0; cbn [run].
  - split; [assumption|]. exists v. split; [constructor|assumption].
  - pose proof (step_follows a v o I S0) as H. destruct (run1 a o) as [[a' l]|].
    + destruct H as (I' & v' & F & S1). specialize (IH a' v' I' S1). destruct (run a' r) as [[a'' l']|].
      * destruct IH as (I'' & v'' & F' & S2). split; [assumption|]. exists v''. split; [econstructor; eassumption|assumption].
      * destruct IH as (o1 & q & o2 & l' & v'' & -> & F' & Mi).
        exists (o :: o1), q, o2, (l ++ l'), v''. split; [reflexivity|]. split; [econstructor; eassumption|assumption].
    + exists [], o, r, [], v. split; [reflexivity|]. split; [constructor|assumption].
Qed.
Lemma shows_empty : shows empty (fun _ => None).
Proof. intros j. unfold get_entry, empty. cbn. rewrite nth_error_nil_eq. destruct j; auto. Qed.

(** Registering returns an index that is free, entries stay at their index until
    unregistered, activity is as last set; the only failures are operations on
    indices where nothing is registered. *)
Theorem C47_registry : forall ops,
  match run empty ops with
  | Some (a, l) => exists v, follows (fun _ => None) ops l v /\ shows a v
  | None => exists ops1 o ops2 l v, ops = ops1 ++ o :: ops2 /\ follows (fun _ => None) ops1 l v /\ misuse v o
  end.
Proof.
  intros ops. pose proof (run_follows ops empty _ rinv_empty shows_empty) as H.
  destruct (run empty ops) as [[a l]|]; [|assumption]. destruct H as (_ & H). exact H.
Qed.
Print Assumptions C47_registry.

(** In any reachable registry: no number is given out for an inactive entry nor for
    an element on which the entry is not valid. *)
Theorem C47_inactive : forall ops a l o i e k n, run empty ops = Some (a, l) ->
  get_index a o i e k = Some (Some n) ->
  nth i (act a) false = true /\ exists b, get_entry a i = Some b /\ is_valid b e = true.
Proof.
  intros ops a l o i e k n R G. pose proof (C47_registry ops) as H. rewrite R in H.
  destruct H as (v & _ & S0). specialize (S0 i). unfold get_index in G.
  destruct (get_entry a i) as [b|] eqn:E; [|discriminate].
  destruct (v i) as [[b' f]|]; [|destruct S0; discriminate]. destruct S0 as (Eb & F). inversion Eb as [Eb'].
  destruct b' as [h kd|h subs].
  - assert (V : is_valid b e = true).
    { subst b. cbn [copy_entry set_registered index] in G.
      destruct (is_valid _ e) eqn:V; [reflexivity|]. exfalso.
      destruct kd; cbn [kind_index andb] in G.
      - destruct (k =? 0); discriminate.
      - destruct (k <? _); discriminate.
      - discriminate.
      - discriminate. }
    split; [|exists b; auto]. rewrite F. subst b. unfold is_valid in V. cbn in V. destruct f; [reflexivity|discriminate].
  - exfalso. subst b. cbn [copy_entry set_registered] in G. rewrite multi_index in G; [discriminate|].
    intros s Hs. apply in_map_iff in Hs. destruct Hs as (x & <- & _). apply copy_unregistered.
Qed.
Print Assumptions C47_inactive.

(** ** What goes wrong *)
(** For a BlockEntry the answer is in the element's own places exactly for positions
    below Size(e), the number of tags that have data there. *)
Theorem C47_block_exact : forall m a o i e k h haves n, mesh_ok m ->
  get_entry a i = Some (Simple h (Block haves)) -> unknown m a i e 0 ->
  answer a (fst (enumerate m a o)) ((i, e), k) = Some n ->
  ((exists k', unknown m a i e k' /\ place (fst (enumerate m a o)) ((i, e), k') = Some n) <->
   k < size (Simple h (Block haves)) e).
Proof.
  intros m a o i e k h haves n M E (b & A & B & L & I & G & V & K) H.
  rewrite E in A. inversion A; subst b. unfold answer, get_index in H. cbn [fst snd] in H. rewrite E in H.
  cbn [index kind_index] in H. rewrite V in H. inversion H as [Hn]. unfold place. cbn [fst snd]. split.
  - intros (k' & (b' & A' & U) & P). rewrite E in A'. inversion A'; subst b'. inversion P.
    assert (k' = k) by lia. subst k'. tauto.
  - intros Q. exists k. split; [|reflexivity]. exists (Simple h (Block haves)). tauto.
Qed.
Print Assumptions C47_block_exact.

Definition cells2 : mesh := Mesh (fun t => if t =? 3 then [0; 1] else []) (fun _ => false).
Definition on_cells (v : bool) : head := Head (fun t => t =? 3) (fun _ => true) false (fun t => v && (t =? 3)).
Definition fresh_offsets : offsets := fun _ _ => 0.
Lemma cells2_ok : mesh_ok cells2.
Proof. intros t. cbn. destruct (t =? 3); repeat constructor. Qed.
(** one registered entry *)
Definition reg1 (b : entry) : aut := match run empty [Register b] with Some (a, _) => a | None => empty end.

(** Two components; the first has no data on cell 0. The second unknown of cell 0
    has data, and shares its index with the first unknown of cell 1. *)
Definition holey := Simple (on_cells true) (Block [(fun e => negb (snd e =? 0)); (fun _ => true)]).
Theorem C47_missing_data_refuted : ~ (forall m a o i e k e' k' n, mesh_ok m ->
  unknown m a i e 0 -> unknown m a i e' 0 -> k < 2 -> k' < 2 ->
  answer a (fst (enumerate m a o)) ((i, e), k) = Some n -> answer a (fst (enumerate m a o)) ((i, e'), k') = Some n ->
  e = e' /\ k = k').
Proof.
  intros H. destruct (H cells2 (reg1 holey) fresh_offsets 0 (3, 0) 1 (3, 1) 0 1 cells2_ok) as (E & _);
    try discriminate E; try lia; try reflexivity.
  - exists (set_registered holey true). cbn. repeat split; auto; lia.
  - exists (set_registered holey true). cbn. repeat split; auto; lia.
Qed.
Print Assumptions C47_missing_data_refuted.

(** What GetIndex answers for a single entry on a local element it is valid on but
    has no data on: 0 where the offsets are kept sparsely, otherwise whatever the
    offset was before. *)
Theorem C47_no_data : forall m a o i e h have, mesh_ok m ->
  get_entry a i = Some (Simple h (Single have)) -> nth i (act a) false = true ->
  is_valid (Simple h (Single have)) e = true -> have e = false ->
  answer a (fst (enumerate m a o)) ((i, e), 0) =
    Some (if offset_sparse h (fst e) then 0 else o i e).
Proof.
  intros m a o i e h have M E A V D. unfold answer, get_index. cbn [fst snd]. rewrite E. cbn [index kind_index].
  rewrite V. cbn [Nat.eqb]. f_equal. rewrite enumerate_todos, puts_out.
  - cbn [fst]. unfold reset. rewrite E, A. reflexivity.
  - intros H. apply in_map_iff in H. destruct H as (((j, b), f) & K & H). inversion K; subst.
    apply todos_in in H. destruct H as (G & _ & _ & _ & W). rewrite E in G. inversion G; subst.
    unfold wanted in W. cbn [size kind_size] in W. rewrite D in W. cbn in W. rewrite andb_false_r in W. discriminate.
Qed.
Print Assumptions C47_no_data.

(** A single entry without data on cell 1: the entry is valid there and GetIndex
    answers 0, the index of cell 0. *)
Definition half := Simple (on_cells true) (Single (fun e => snd e =? 0)).
Theorem C47_no_data_refuted : ~ (forall m a o i e e' n, mesh_ok m -> In (snd e) (lids m (fst e)) -> In (snd e') (lids m (fst e')) ->
  answer a (fst (enumerate m a o)) ((i, e), 0) = Some n -> answer a (fst (enumerate m a o)) ((i, e'), 0) = Some n -> e = e').
Proof.
  intros H. specialize (H cells2 (reg1 half) fresh_offsets 0 (3, 0) (3, 1) 0 cells2_ok).
  assert (E : (3, 0) = (3, 1)) by (apply H; cbn; auto). discriminate.
Qed.
Print Assumptions C47_no_data_refuted.

(** StatusBlockEntry: on cell 0 only the second component is active. Both components
    have data everywhere. The active unknown of cell 0 shares its index with the
    first unknown of cell 1. *)
Definition stat := Simple (on_cells false)
  (StatusBlock [(fun _ => true); (fun _ => true)] snd [[false; true]; [true; true]]).
Theorem C47_status_refuted : ~ (forall m a o i e k e' k' n, mesh_ok m ->
  unknown m a i e 0 -> unknown m a i e' 0 ->
  answer a (fst (enumerate m a o)) ((i, e), k) = Some n -> answer a (fst (enumerate m a o)) ((i, e'), k') = Some n ->
  e = e' /\ k = k').
Proof.
  intros H. destruct (H cells2 (reg1 stat) fresh_offsets 0 (3, 0) 1 (3, 1) 0 1 cells2_ok) as (E & _);
    try discriminate E; try reflexivity.
  - exists (set_registered stat true). cbn. repeat split; auto; lia.
  - exists (set_registered stat true). cbn. repeat split; auto; lia.
Qed.
Print Assumptions C47_status_refuted.

(** MultiEntry: in every reachable registry, for every stacked entry, Index throws at
    every position and MatrixSize is 0, whatever is stacked. *)
Theorem C47_multi : forall ops a l o i h subs e k, run empty ops = Some (a, l) ->
  get_entry a i = Some (Multi h subs) ->
  get_index a o i e k = None /\ msize (Multi h subs) e = 0.
Proof.
  intros ops a l o i h subs e k R E. pose proof (C47_registry ops) as H. rewrite R in H.
  destruct H as (v & _ & S0). specialize (S0 i). rewrite E in S0.
  assert (U : forall s, In s subs -> registered (head_of s) = false).
  { destruct (v i) as [[b' f]|]; [|destruct S0; discriminate]. destruct S0 as (Eb & _).
    destruct b' as [h' kd|h' ss]; cbn in Eb; [discriminate|]. inversion Eb; subst.
    intros s Hs. apply in_map_iff in Hs. destruct Hs as (x & <- & _). apply copy_unregistered. }
  unfold get_index. rewrite E. split; [apply multi_index|apply multi_msize]; assumption.
Qed.
Print Assumptions C47_multi.
(** yet its unknowns are counted: a stacked single entry uses up two numbers here *)
Definition stacked : entry :=
  match add_entry (Multi (Head (fun _ => false) (fun _ => true) false (fun _ => false)) [])
          (Simple (on_cells false) (Single (fun _ => true))) with Some b => b | None => holey end.
Example C47_multi_nonvacuous :
  run empty [Register stacked] = Some (reg1 stacked, [0]) /\
  (exists h subs, get_entry (reg1 stacked) 0 = Some (Multi h subs)) /\
  snd (enumerate cells2 (reg1 stacked) fresh_offsets) = 2.
Proof. split; [reflexivity|]. split; [eexists _, _; reflexivity|reflexivity]. Qed.

(** Copying: the copy has the registered entries in order, numbered without gaps and
    all active. Indices are kept exactly when nothing was unregistered. *)
Theorem C47_copy : forall a, exists c, copy_aut a = Some c /\
  (forall j, get_entry c j = option_map (fun b => set_registered (copy_entry b) true) (nth_error (somes (reg a)) j)) /\
  (forall j b, get_entry c j = Some b -> nth j (act c) false = true) /\
  ((forall j, j < length (reg a) -> get_entry a j <> None) ->
   forall j, get_entry c j = option_map (fun b => set_registered (copy_entry b) true) (get_entry a j)).
Proof.
  intros a. rewrite copy_aut_eq. eexists. split; [reflexivity|].
  assert (P : forall j, get_entry (Aut (map Some (map ready (somes (reg a)))) (repeat true (length (somes (reg a)))) []) j =
              option_map (fun b => set_registered (copy_entry b) true) (nth_error (somes (reg a)) j)).
  { intros j. unfold get_entry. cbn [reg]. rewrite !nth_error_map.
    destruct (nth_error (somes (reg a)) j); reflexivity. }
  split; [exact P|]. split.
  - intros j b H. rewrite P in H. cbn [act]. destruct (nth_error (somes (reg a)) j) eqn:E; [|discriminate].
    assert (L : j < length (somes (reg a))) by (apply nth_error_Some; congruence).
    clear - L. revert j L. induction (length (somes (reg a))) as [|n IH]; intros [|j] L; cbn; try lia; auto. apply IH. lia.
  - intros H j. rewrite P. f_equal. unfold get_entry in *.
    assert (E : exists l, reg a = map Some l).
    { clear P. induction (reg a) as [|o r IH]; [exists []; reflexivity|].
      destruct IH as (l & ->). { intros q J. specialize (H (S q)). cbn in H. apply H. lia. }
      specialize (H 0). cbn in H. destruct o as [b|]; [exists (b :: l); reflexivity|]. exfalso. apply H; [lia|reflexivity]. }
    destruct E as (l & ->). rewrite somes_map, nth_error_map. destruct (nth_error l j); reflexivity.
Qed.
Print Assumptions C47_copy.
(** Otherwise indices kept by the user point to other entries in the copy, and
    entries that were deactivated are active. *)
Theorem C47_copy_refuted :
  (exists ops a l c i b c', run empty ops = Some (a, l) /\ copy_aut a = Some c /\
     get_entry a i = Some b /\ get_entry c i = Some c' /\ (forall e, size b e <> size c' e)) /\
  (exists ops a l c i, run empty ops = Some (a, l) /\ copy_aut a = Some c /\
     nth i (act a) false = false /\ nth i (act c) false = true /\ get_entry a i <> None).
Proof.
  set (b1 := Simple (on_cells false) (Single (fun _ => true))).
  set (b2 := Simple (on_cells false) (Block [(fun _ => true); (fun _ => true)])).
  split.
  - exists [Register b1; Register b2; Register b1; Unregister 0].
    eexists _, _, _, 1, _, _. split; [reflexivity|]. split; [reflexivity|]. split; [reflexivity|]. split; [reflexivity|].
    intros e. cbn. discriminate.
  - exists [Register b1; Deactivate 0]. eexists _, _, _, 0. split; [reflexivity|]. split; [reflexivity|].
    repeat split. cbn. discriminate.
Qed.
Print Assumptions C47_copy_refuted.

(** ** Concrete cases *)
Definition prs := Simple (on_cells false) (Single (fun _ => true)).
Definition vel := Simple (Head (fun t => (t =? 2) || (t =? 3)) (fun e => negb (snd e =? 7)) false (fun _ => false))
                    (Block [(fun _ => true); (fun _ => true); (fun _ => true)]).
Definition vec := Simple (on_cells true) (Vector (fun e => if snd e =? 0 then Some 2 else None)).
Definition busy : mesh := Mesh (fun t => if t =? 3 then [0; 1; 4] else if t =? 2 then [2; 7] else [])
                               (fun e => (fst e =? 3) && (snd e =? 4)).
Definition rega : aut :=
  match run empty [Register prs; Register vel; Unregister 0; Register vec; Register prs; Deactivate 2; Activate 2] with
  | Some (a, _) => a | None => empty end.
Lemma busy_ok : mesh_ok busy.
Proof. intros t. cbn. destruct (t =? 3); [|destruct (t =? 2)]; repeat (constructor; [|repeat constructor; lia]); constructor. Qed.
Lemma rega_complete : complete busy rega.
Proof.
  intros [|[|[|i]]] b e E I V Z; cbn in E; inversion E; subst; clear E; cbn in *.
  - destruct (snd e =? 0); [|congruence]. split; [eauto|reflexivity].
  - split; [eauto|reflexivity].
  - split; [eauto|reflexivity].
  - destruct i; discriminate.
Qed.
Example C47_serial_nonvacuous :
  mesh_ok busy /\ complete busy rega /\ snd (enumerate busy rega fresh_offsets) = 13 /\
  map (answer rega (fst (enumerate busy rega fresh_offsets)))
      [(0, (3, 0), 1); (1, (3, 1), 2); (1, (2, 2), 0); (1, (2, 7), 0); (2, (3, 1), 0)]
  = [Some 1; Some 7; Some 8; None; Some 12].
Proof. split; [exact busy_ok|]. split; [exact rega_complete|]. split; reflexivity. Qed.
Example C47_parallel_nonvacuous :
  let ps := [Part busy rega fresh_offsets; Part cells2 (reg1 prs) (fun _ _ => 9); Part busy rega fresh_offsets] in
  (forall p, In p ps -> mesh_ok (pm p) /\ complete (pm p) (pa p)) /\
  map first (enumerate_all ps 0) = [0; 13; 15] /\
  map (global_answer ps) [(0, (1, (3, 1), 2)); (1, (0, (3, 1), 0)); (2, (1, (3, 1), 2))] = [Some 7; Some 14; Some 22].
Proof.
  cbn zeta. split; [|split; reflexivity]. intros p [<-|[<-|[<-|[]]]]; cbn [pm pa].
  - split; [exact busy_ok|exact rega_complete].
  - split; [exact cells2_ok|]. intros [|[|i]] b e E I V Z; cbn in E; inversion E; subst. split; [eauto|reflexivity].
  - split; [exact busy_ok|exact rega_complete].
Qed.
Example C47_registry_nonvacuous :
  option_map snd (run empty [Register prs; Register vel; Unregister 0; Register vec; Register prs]) = Some [0; 1; 0; 2] /\
  run empty [Register prs; Unregister 0; Activate 0] = None.
Proof. split; reflexivity. Qed.
Example C47_order_nonvacuous :
  is_unknown busy rega (1, (3, 1), 2) /\ is_unknown busy rega (1, (2, 2), 0) /\ before (1, (3, 1), 2) (1, (2, 2), 0).
Proof.
  split; [|split].
  - eexists. split; [reflexivity|]. cbn. repeat split; auto; lia.
  - eexists. split; [reflexivity|]. cbn. repeat split; auto; lia.
  - cbn. lia.
Qed.
Example C47_block_nonvacuous :
  exists h haves, get_entry (reg1 holey) 0 = Some (Simple h (Block haves)) /\
  unknown cells2 (reg1 holey) 0 (3, 1) 0 /\
  answer (reg1 holey) (fst (enumerate cells2 (reg1 holey) fresh_offsets)) (0, (3, 1), 1) = Some 2.
Proof.
  eexists _, _. split; [reflexivity|]. split; [|reflexivity]. eexists. split; [reflexivity|]. cbn. repeat split; auto; lia.
Qed.
