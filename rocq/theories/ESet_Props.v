(** Properties C21-C25, C27, C58: element sets and element arrays. *)
From Coq Require Import List Bool Arith Lia Permutation Sorted.
From Verif Require Import Util Algo ESet_Model ESet_Proofs ESetHist_Proofs SSet_Proofs.
Import ListNotations.

(** a marker nobody holds: CreatePrivateMarker returns such a one *)
Definition fresh (m : marks) (k : nat) : Prop := forall h, m k h = false.
(** every marker of every element is as before *)
Definition same_marks (m m' : marks) : Prop := forall k h, m' k h = m k h.
(** [r] lists without repetition the handles satisfying [P], in the order of [l] *)
Definition lists (r l : list nat) (P : nat -> Prop) : Prop :=
  NoDup r /\ subseq r l /\ forall h, In h r <-> P h.
Definition no_marks : marks := fun _ _ => false.

(** ** C21 *)

(** [a] is the content of the set, with holes; [b] that of the operand *)
Theorem C21_union : forall m k a b, fresh m k -> exists m' r,
  union m k a b = Some (m', r) /\ lists r (a ++ b) (fun h => h <> 0 /\ (In h a \/ In h b)) /\
  same_marks m m'.
Proof.
  intros m k a b F. destruct (union_spec m k a b F) as [m' [r [H1 [H2 [H3 [H4 H5]]]]]].
  exists m', r. split; [exact H1|]. split; [|exact H5]. split; [exact H2|]. split; auto.
Qed.
Print Assumptions C21_union.

(** [sel]: element is not hidden *)
Theorem C21_difference_set : forall sel m k a b, fresh m k -> exists m' r,
  difference_set sel m k a b = Some (m', r) /\
  lists r a (fun h => h <> 0 /\ In h a /\ ~ (In h b /\ sel h = true)) /\ same_marks m m'.
Proof.
  intros sel m k a b F. destruct (difference_set_spec sel m k a b F) as [m' [r [H1 [H2 [H3 [H4 H5]]]]]].
  exists m', r. split; [exact H1|]. split; [|exact H5]. split; [exact H2|]. split; auto.
Qed.
Print Assumptions C21_difference_set.

Theorem C21_difference_array : forall m k a b, fresh m k -> exists m' r,
  difference_array m k a b = Some (m', r) /\
  lists r a (fun h => h <> 0 /\ In h a /\ ~ In h b) /\ same_marks m m'.
Proof.
  intros m k a b F. destruct (difference_array_spec m k a b F) as [m' [r [H1 [H2 [H3 [H4 H5]]]]]].
  exists m', r. split; [exact H1|]. split; [|exact H5]. split; [exact H2|]. split; auto.
Qed.
Print Assumptions C21_difference_array.

Theorem C21_intersection_set : forall sel m k k2 a b, k <> k2 -> fresh m k -> fresh m k2 ->
  exists m' r, intersection_set sel m k k2 a b = Some (m', r) /\
  lists r a (fun h => h <> 0 /\ In h a /\ In h b /\ sel h = true) /\ same_marks m m'.
Proof.
  intros sel m k k2 a b K F F2.
  destruct (intersection_set_spec sel m k k2 a b K F F2) as [m' [r [H1 [H2 [H3 [H4 H5]]]]]].
  exists m', r. split; [exact H1|]. split; [|exact H5]. split; [exact H2|]. split; auto.
Qed.
Print Assumptions C21_intersection_set.

Theorem C21_intersection_array : forall m k k2 a b, k <> k2 -> fresh m k -> fresh m k2 ->
  exists m' r, intersection_array m k k2 a b = Some (m', r) /\
  lists r a (fun h => h <> 0 /\ In h a /\ In h b) /\ same_marks m m'.
Proof.
  intros m k k2 a b K F F2.
  destruct (intersection_array_spec m k k2 a b K F F2) as [m' [r [H1 [H2 [H3 [H4 H5]]]]]].
  exists m', r. split; [exact H1|]. split; [|exact H5]. split; [exact H2|]. split; auto.
Qed.
Print Assumptions C21_intersection_array.

Example C21_nonvacuous :
  (* marker 7 is set on element 4 and stays so *)
  let m := mark no_marks 7 4 true in
  fresh m 0 /\ fresh m 1 /\
  option_map snd (union m 0 [4; 0; 2; 4] [5; 2; 0]) = Some [4; 2; 5] /\
  option_map snd (difference_set (fun _ => true) m 0 [4; 0; 2; 4; 3] [2; 0]) = Some [4; 3] /\
  option_map snd (intersection_array m 0 1 [4; 0; 2; 4; 3] [3; 4; 0]) = Some [4; 3] /\
  option_map (fun r => fst r 7 4) (union m 0 [4; 0; 2; 4] [5; 2; 0]) = Some true.
Proof. repeat split. Qed.

(** ** C22: an unsorted set under any history *)
Inductive op :=
| Add (e : nat) | Put (e : nat) | Adds (h : list nat)
| Remove (e : nat) | Removes (h : list nat)
| SubtractArray (h : list nat) | SubtractSet (o : list nat)
| IntersectArray (h : list nat) | IntersectSet (o : list nat)
| EraseAt (e : nat) (* Erase of the iterator that points at e *)
| ClearAll.

Definition step (sel : nat -> bool) (k : nat) (st : marks * eset) (o : op) : option (marks * eset) :=
  let (m, s) := st in
  match o with
  | Add e => Some (m, add_element s e)
  | Put e => Some (m, put_element s e)
  | Adds h => add_elements sel m k s h
  | Remove e => Some (m, remove_element s e)
  | Removes h => remove_elements m k s h
  | SubtractArray h => subtract_array m k s h
  | SubtractSet o => subtract_set sel m k s o
  | IntersectArray h => intersect_array m k s h
  | IntersectSet o => intersect_set sel m k s o
  | EraseAt e => match index_of e (lc s) with
                 | Some i => option_map (pair m) (erase s i)
                 | None => None
                 end
  | ClearAll => Some (m, clear s)
  end.
Fixpoint run (sel : nat -> bool) (k : nat) (st : marks * eset) (ops : list op) : option (marks * eset) :=
  match ops with
  | [] => Some st
  | o :: t => match step sel k st o with Some st' => run sel k st' t | None => None end
  end.

(** the finite set the calls describe *)
Definition ideal (sel : nat -> bool) (A : nat -> Prop) (o : op) : nat -> Prop :=
  fun x =>
  match o with
  | Add e | Put e => A x \/ x = e
  | Adds h => A x \/ In x h
  | Remove e | EraseAt e => A x /\ x <> e
  | Removes h | SubtractArray h => A x /\ ~ In x h
  | SubtractSet o => A x /\ ~ (In x o /\ sel x = true)
  | IntersectArray h => A x /\ In x h
  | IntersectSet o => A x /\ In x o /\ sel x = true
  | ClearAll => False
  end.
Fixpoint ideal_run (sel : nat -> bool) (A : nat -> Prop) (ops : list op) : nat -> Prop :=
  match ops with [] => A | o :: t => ideal_run sel (ideal sel A o) t end.

(** what the caller must respect: valid handles, PutElement and AddElements
    without repetition, an iterator that points at a member *)
Definition allowed (sel : nat -> bool) (A : nat -> Prop) (o : op) : Prop :=
  match o with
  | Add e | Remove e => e <> 0
  | Put e => e <> 0 /\ ~ A e
  | Adds h => ~ In 0 h /\ NoDup h /\ forall x, In x h -> A x -> sel x = true
  | EraseAt e => e <> 0 /\ A e
  | _ => True
  end.
Fixpoint allowed_run (sel : nat -> bool) (A : nat -> Prop) (ops : list op) : Prop :=
  match ops with [] => True | o :: t => allowed sel A o /\ allowed_run sel (ideal sel A o) t end.

Lemma not_iff_dec : forall (P : Prop), P \/ ~ P -> ((false = true <-> ~ P) <-> P).
Proof. intros P H. intuition discriminate. Qed.

Lemma step_ok : forall sel m0 m k s A o, fresh m0 k -> same_marks m0 m -> wf s ->
  (forall x, In x (members s) <-> A x) -> allowed sel A o ->
  exists m' s', step sel k (m, s) o = Some (m', s') /\ same_marks m0 m' /\ wf s' /\
    forall x, In x (members s') <-> ideal sel A o x.
Proof.
  intros sel m0 m k s A o F M W HA Ho.
  assert (F' : forall x, m k x = false) by (intros x; rewrite M; apply F).
  assert (T : forall m', (forall k' x, m' k' x = m k' x) -> same_marks m0 m')
    by (intros m' H k' x; now rewrite H, M).
  assert (L : forall x, x <> 0 -> (In x (lc s) <-> A x)) by (intros x Hx; rewrite <- HA, in_members; intuition).
  assert (DI : forall x l, In x l \/ ~ In x l) by (intros x l; destruct (in_dec Nat.eq_dec x l); auto).
  destruct o as [e|e|h|e|h|h|o|h|o|e|]; cbn [step ideal allowed] in *.
  - destruct (add_element_ok s e W Ho) as [W' P]. exists m, (add_element s e).
    split; [reflexivity|]. split; [exact M|]. split; [exact W'|]. intros x. now rewrite P, HA.
  - destruct Ho as [Ho1 Ho2]. rewrite <- L in Ho2 by auto.
    destruct (place_ok s e W Ho1 Ho2) as [W' P]. exists m, (put_element s e).
    split; [reflexivity|]. split; [exact M|]. split; [exact W'|]. intros x. unfold put_element. now rewrite P, HA.
  - destruct Ho as [H1 [H2 H3]].
    destruct (add_elements_ok sel m k s h W F' H1 H2) as [m' [s' [E [W' [P Q]]]]].
    { intros x Hx Hl. apply H3; auto. apply L; auto. intros ->. contradiction. }
    exists m', s'. split; [exact E|]. split; [auto|]. split; [exact W'|]. intros x. now rewrite P, HA.
  - destruct (remove_element_ok s e W Ho) as [W' P]. exists m, (remove_element s e).
    split; [reflexivity|]. split; [exact M|]. split; [exact W'|]. intros x. now rewrite P, HA.
  - destruct (drop_array_ok true m k s h W F') as [m' [s' [E [W' [P Q]]]]].
    exists m', s'. split; [exact E|]. split; [auto|]. split; [exact W'|]. intros x. rewrite P, HA. intuition.
  - destruct (drop_array_ok true m k s h W F') as [m' [s' [E [W' [P Q]]]]].
    exists m', s'. split; [exact E|]. split; [auto|]. split; [exact W'|]. intros x. rewrite P, HA. intuition.
  - destruct (drop_set_ok true sel m k s o W F') as [m' [s' [E [W' [P Q]]]]].
    exists m', s'. split; [exact E|]. split; [auto|]. split; [exact W'|]. intros x. rewrite P, HA. intuition.
  - destruct (drop_array_ok false m k s h W F') as [m' [s' [E [W' [P Q]]]]].
    exists m', s'. split; [exact E|]. split; [auto|]. split; [exact W'|]. intros x.
    rewrite P, HA, not_iff_dec; [reflexivity|apply DI].
  - destruct (drop_set_ok false sel m k s o W F') as [m' [s' [E [W' [P Q]]]]].
    exists m', s'. split; [exact E|]. split; [auto|]. split; [exact W'|]. intros x.
    rewrite P, HA, not_iff_dec; [reflexivity|].
    destruct (DI x o); [|intuition]. destruct (sel x); [auto|right; intros [_ K]; discriminate].
  - destruct Ho as [H1 H2]. rewrite <- L in H2 by auto.
    pose proof (index_of_spec e (lc s)) as K. destruct (index_of e (lc s)) as [i|]; [|contradiction].
    unfold erase. rewrite K. destruct (Nat.eqb_spec e 0); [contradiction|]. cbn [option_map].
    destruct (drop_at_ok s i e W H1 K) as [W' P]. exists m, (drop_at s i).
    split; [reflexivity|]. split; [exact M|]. split; [exact W'|]. intros x. now rewrite P, HA.
  - exists m, (clear s). split; [reflexivity|]. split; [exact M|]. split; [|cbn; intuition].
    destruct wf_empty as [W1 [W2 W3]]. split; [constructor|]. split; [exact W2|exact W3].
Qed.

(** Everything the user can observe agrees with the ideal set. *)
Definition behaves_as (s : eset) (A : nat -> Prop) : Prop :=
  (forall hid, NoDup (iterate hid s) /\ forall x, In x (iterate hid s) <-> A x /\ hid x = false) /\
  size s = length (iterate (fun _ => false) s) /\
  (is_empty s = true <-> forall x, ~ A x) /\
  (forall h, h <> 0 -> (find_handle s h = true <-> A h)).

Lemma wf_behaves : forall s A, wf s -> (forall x, In x (members s) <-> A x) -> behaves_as s A.
Proof.
  intros s A W HA.
  assert (E : forall hid, iterate hid s = filter (fun x => negb (hid x)) (members s))
    by (intros hid; rewrite iterate_spec; unfold members; now rewrite filter_filter).
  assert (Z : size s = length (members s)) by now apply wf_size.
  assert (E0 : iterate (fun _ => false) s = members s).
  { rewrite E. cbn [negb]. clear. induction (members s); cbn; congruence. }
  split; [|split; [|split]].
  - intros hid. rewrite E. split; [apply NoDup_filter, wf_nodup, W|].
    intros x. rewrite filter_In, HA, negb_true_iff. reflexivity.
  - now rewrite E0.
  - unfold is_empty. rewrite Z, Nat.eqb_eq, length_zero_iff_nil. split.
    + intros H x Hx. apply HA in Hx. now rewrite H in Hx.
    + intros H. destruct (members s) as [|x t]; [reflexivity|]. exfalso. apply (H x), HA. now left.
  - intros h Hh. unfold find_handle. rewrite existsb_in, <- HA, in_members. intuition.
Qed.

Theorem C22_history : forall sel m k ops, fresh m k ->
  allowed_run sel (fun _ => False) ops -> exists m' s',
  run sel k (m, empty_set) ops = Some (m', s') /\ same_marks m m' /\
  behaves_as s' (ideal_run sel (fun _ => False) ops).
Proof.
  intros sel m0 k ops F.
  assert (G : forall A m s, same_marks m0 m -> wf s -> (forall x, In x (members s) <-> A x) ->
    allowed_run sel A ops -> exists m' s', run sel k (m, s) ops = Some (m', s') /\
    same_marks m0 m' /\ behaves_as s' (ideal_run sel A ops)).
  { induction ops as [|o ops IH]; intros A m s M W HA Ho; cbn [run ideal_run allowed_run] in *.
    - exists m, s. split; [reflexivity|]. split; [exact M|]. now apply wf_behaves.
    - destruct Ho as [H1 H2]. destruct (step_ok sel m0 m k s A o F M W HA H1) as [m' [s' [E [M' [W' P]]]]].
      rewrite E. now apply IH. }
  intros Ho. apply (G (fun _ => False) m0 empty_set); auto.
  - intros ? ?; reflexivity.
  - apply wf_empty.
  - cbn. intuition.
Qed.
Print Assumptions C22_history.

Example C22_nonvacuous :
  let ops := [Adds [3; 1; 4]; Remove 1; Add 5; Put 9; SubtractSet [4; 0; 7]; EraseAt 3;
              Add 8; Removes [2]; IntersectArray [5; 8; 6]] in
  allowed_run (fun _ => true) (fun _ => False) ops /\
  option_map (fun r => (iterate (fun h => h =? 8) (snd r), size (snd r)))
    (run (fun _ => true) 0 (no_marks, empty_set) ops) = Some ([5], 2) /\
  option_map (fun r => lc (snd r)) (run (fun _ => true) 0 (no_marks, empty_set) ops) = Some [8; 5; 0; 0].
Proof.
  cbn zeta. split; [|split; reflexivity].
  cbn [allowed_run allowed ideal In]. repeat split; try discriminate; try (intuition discriminate); try tauto.
  repeat constructor; cbn; intuition discriminate.
Qed.

(** s.Subtract(s) empties the set but leaves the released marker on every
    former member ... *)
Theorem C22_subtract_itself : forall sel m k s, wf s -> fresh m k ->
  (forall x, In x (members s) -> sel x = true) -> exists m' s',
  subtract_self sel m k s = Some (m', s') /\ behaves_as s' (fun _ => False) /\
  forall k' x, m' k' x = true <-> m k' x = true \/ (k' = k /\ In x (members s)).
Proof.
  intros sel m k s W F Hs. unfold subtract_self.
  destruct (drop_loop_members (mark_elements sel m k true (lc s)) k true s W) as [s' [E [W' P]]].
  rewrite E.
  assert (N : forall x, ~ In x (members s')).
  { intros x Hx. apply P in Hx. destruct Hx as [Hx Hm]. cbn [negb] in Hm.
    apply not_true_iff_false in Hm. apply Hm. rewrite mark_elements_true. right.
    pose proof Hx as Hx'. apply in_members in Hx'. intuition. }
  eexists _, s'. split; [reflexivity|]. split; [apply wf_behaves; auto; intros x; split; [apply N|tauto]|].
  intros k' x. rewrite mark_elements_false, mark_elements_true.
  specialize (N x). specialize (Hs x). rewrite in_members in *. intuition.
Qed.
Print Assumptions C22_subtract_itself.

(** ... so a later operation that gets the same marker goes wrong. *)
Theorem C22_subtract_itself_marker_refuted :
  ~ (forall sel m k s m' s', wf s -> fresh m k -> subtract_self sel m k s = Some (m', s') ->
     same_marks m m').
Proof.
  intros H.
  assert (W : wf (ESet [1] [] 0)).
  { split; [constructor|]. cbn. split.
    - intros i. split; [intros []|]. destruct i as [|[|]]; discriminate.
    - intros i j x _. destruct i as [|[|]], j as [|[|]]; cbn; intros; congruence. }
  specialize (H (fun _ => true) no_marks 0 (ESet [1] [] 0) _ _ W ltac:(easy) eq_refl 0 1).
  discriminate.
Qed.
Print Assumptions C22_subtract_itself_marker_refuted.

Example C22_later_union_wrong :
  option_map (fun r => option_map snd (union (fst r) 0 [1] [2]))
    (subtract_self (fun _ => true) no_marks 0 (ESet [1] [] 0)) = Some (Some [2]).
Proof. reflexivity. Qed.

(** ** C23: adding many *)

(** distinct valid handles, unsorted set after any history *)
Theorem C23_add_elements : forall sel m k ops m' s h, fresh m k ->
  allowed_run sel (fun _ => False) ops -> run sel k (m, empty_set) ops = Some (m', s) ->
  ~ In 0 h -> NoDup h ->
  (forall x, In x h -> ideal_run sel (fun _ => False) ops x -> sel x = true) ->
  exists m'' s', add_elements sel m' k s h = Some (m'', s') /\ same_marks m m'' /\
    behaves_as s' (fun x => ideal_run sel (fun _ => False) ops x \/ In x h).
Proof.
  intros sel m k ops m' s h F Ho E H0 Hd Hs.
  assert (A : allowed_run sel (fun _ => False) (ops ++ [Adds h])).
  { revert Ho Hs. generalize (fun _ : nat => False). clear E. induction ops as [|o ops IH]; intros A Ho Hs;
      cbn [app allowed_run ideal_run] in *; [cbn; auto|]. destruct Ho. split; auto. }
  destruct (C22_history sel m k (ops ++ [Adds h]) F A) as [m2 [s2 [E2 [M2 B2]]]].
  exists m2, s2.
  assert (R : forall st, run sel k st ops = Some (m', s) ->
    run sel k st (ops ++ [Adds h]) = add_elements sel m' k s h).
  { clear. induction ops as [|o ops IH]; intros st E; cbn [app run] in *.
    - injection E as ->. cbn [step]. destruct (add_elements sel m' k s h); reflexivity.
    - destruct (step sel k st o); [auto|discriminate]. }
  rewrite (R _ E) in E2. split; [exact E2|]. split; [exact M2|].
  assert (I : forall A, ideal_run sel A (ops ++ [Adds h]) = ideal sel (ideal_run sel A ops) (Adds h)).
  { clear. induction ops as [|o ops IH]; intros A; cbn [app ideal_run]; [reflexivity|apply IH]. }
  rewrite I in B2. exact B2.
Qed.
Print Assumptions C23_add_elements.

Example C23_nonvacuous :
  option_map (fun r => lc (snd r)) (add_elements (fun _ => true) no_marks 0 (ESet [3; 0; 5] [1] 0) [5; 2; 7])
    = Some [3; 2; 5; 7].
Proof. reflexivity. Qed.

(** a repetition in the input is stored twice *)
Theorem C23_repetition_refuted :
  ~ (forall m k s h m' s', fresh m k -> wf s -> ~ In 0 h ->
     add_elements (fun _ => true) m k s h = Some (m', s') ->
     NoDup (iterate (fun _ => false) s')).
Proof.
  intros H. specialize (H no_marks 0 empty_set [1; 1] _ _ ltac:(easy) wf_empty ltac:(cbn; intuition discriminate) eq_refl).
  vm_compute in H. inversion H; subst. apply H2. now left.
Qed.
Print Assumptions C23_repetition_refuted.

(** PutElements: the new handles go to the holes and to the end, provided
    there are at least as many of them as holes; otherwise the input is read
    past its end. *)
Theorem C23_put_elements : forall s h, wf s ->
  ~ In 0 h -> NoDup h -> (forall x, In x h -> ~ In x (lc s)) ->
  (length (holes s) <= length h -> exists s', put_elements s h = Some s' /\
     behaves_as s' (fun x => In x (members s) \/ In x h)) /\
  (length h < length (holes s) -> put_elements s h = None).
Proof.
  intros s h [W1 [W2 W3]] H0 Hd Hn. split.
  - intros Hl. destruct (put_loop_ok (holes s) (lc s) h Hl W1 W2 W3 H0 Hd Hn) as
      [l [rest [E [P1 [P2 [P3 [P4 [P5 P6]]]]]]]].
    unfold put_elements. rewrite E. eexists. split; [reflexivity|].
    assert (Z : ~ In 0 (l ++ rest)) by (rewrite in_app_iff; intuition).
    apply wf_behaves.
    + split; [constructor|]. cbn [lc holes]. split.
      * intros i. split; [intros []|]. intros K. now apply nth_error_In in K.
      * apply nodup_filter_inj. rewrite filter_app. apply NoDup_app_disj.
        -- now apply filter_nodup.
        -- now apply NoDup_filter.
        -- intros x Hx Hy. apply filter_In in Hx. apply filter_In in Hy. now apply (P4 x).
    + intros x. rewrite !in_members. cbn [lc]. rewrite in_app_iff.
      destruct (Nat.eq_dec x 0) as [->|Nx]; [intuition|]. rewrite P3 by auto. intuition.
  - intros Hl. unfold put_elements. clear - Hl. revert h Hl.
    generalize (lc s) as l. induction (holes s) as [|i hs IH]; intros l h Hl; [cbn in Hl; lia|].
    destruct h as [|x h]; [reflexivity|]. cbn [put_loop]. apply IH. cbn in Hl. lia.
Qed.
Print Assumptions C23_put_elements.

(** Sorted sets. If nothing given is a member already, nothing repeats and
    there are no holes, the result is exactly the union, the sorted part stays
    sorted and the unsorted part follows. [h]: the input after sorting. *)
Definition union_sorted (less : nat -> nat -> bool) (m : marks) (s : eset) (h : list nat)
  (r : marks * eset) : Prop :=
  exists t, lc (snd r) = t ++ skipn (srtd s) (lc s) /\ srtd (snd r) = length t /\
    holes (snd r) = [] /\ Permutation t (firstn (srtd s) (lc s) ++ h) /\
    StronglySorted (fun x y => less x y = true) t /\ same_marks m (fst r).

Theorem C23_sorted_by_handle : forall m k s h, fresh m k ->
  NoDup (lc s ++ h) -> ~ In 0 (lc s ++ h) ->
  StronglySorted (fun x y => (x <? y) = true) (firstn (srtd s) (lc s)) ->
  StronglySorted (fun x y => (x <? y) = true) h ->
  union_sorted Nat.ltb m s h (add_elements_handle m k s h).
Proof. exact add_handle_ok. Qed.
Print Assumptions C23_sorted_by_handle.

Theorem C23_sorted : forall less D m k s h, strict_total less D -> ~ D 0 -> fresh m k ->
  NoDup (lc s ++ h) -> Forall D (lc s ++ h) ->
  StronglySorted (fun x y => less x y = true) (firstn (srtd s) (lc s)) ->
  StronglySorted (fun x y => less x y = true) h ->
  union_sorted less m s h (add_elements_marked less false m k s h).
Proof. intros less D m k s h ST D0. exact (add_marked_ok less D ST D0 m k s h). Qed.
Print Assumptions C23_sorted.

Theorem C23_unite_sets : forall less D m k s o, strict_total less D -> ~ D 0 -> fresh m k ->
  NoDup (lc s ++ lc o) -> Forall D (lc s ++ lc o) ->
  StronglySorted (fun x y => less x y = true) (firstn (srtd s) (lc s)) ->
  StronglySorted (fun x y => less x y = true) (firstn (srtd o) (lc o)) ->
  let r := unite_set less m k s o in
  exists t, lc (snd r) = t ++ skipn (srtd s) (lc s) ++ skipn (srtd o) (lc o) /\
    srtd (snd r) = length t /\ holes (snd r) = [] /\
    Permutation t (firstn (srtd s) (lc s) ++ firstn (srtd o) (lc o)) /\
    StronglySorted (fun x y => less x y = true) t /\ same_marks m (fst r).
Proof. intros less D m k s o ST D0. exact (unite_set_ok less D ST D0 m k s o). Qed.
Print Assumptions C23_unite_sets.

Example C23_sorted_nonvacuous :
  snd (add_elements_handle no_marks 0 (ESet [2; 5; 9; 1] [] 3) [3; 6; 7]) =
    ESet [2; 3; 5; 6; 7; 9; 1] [] 6 /\
  snd (add_elements_marked (fun x y => y <? x) false no_marks 0 (ESet [9; 5; 2; 1] [] 3) [7; 6; 3]) =
    ESet [9; 7; 6; 5; 3; 2; 1] [] 6 /\
  snd (unite_set Nat.ltb no_marks 0 (ESet [2; 5; 1] [] 2) (ESet [3; 4] [] 1)) = ESet [2; 3; 5; 1; 4] [] 3.
Proof. repeat split. Qed.

(** An element that is in both loses members of the set: {2,3} + {1,2} = {1,2}. *)
Theorem C23_sorted_loses_refuted :
  ~ (forall m k s h x, fresh m k -> holes s = [] -> ~ In 0 (lc s ++ h) ->
     srtd s = length (lc s) -> StronglySorted (fun x y => (x <? y) = true) (lc s) ->
     StronglySorted (fun x y => (x <? y) = true) h -> In x (lc s) ->
     In x (lc (snd (add_elements_handle m k s h)))).
Proof.
  intros H. specialize (H no_marks 0 (ESet [2; 3] [] 2) [1; 2] 3 ltac:(easy) eq_refl
    ltac:(cbn; intuition discriminate) eq_refl
    ltac:(repeat constructor) ltac:(repeat constructor) ltac:(cbn; auto)).
  vm_compute in H. intuition discriminate.
Qed.
Print Assumptions C23_sorted_loses_refuted.

(** The same for the other comparators and for Unite. *)
Theorem C23_unite_loses_refuted :
  ~ (forall m k s o x, fresh m k -> holes s = [] -> holes o = [] -> ~ In 0 (lc s ++ lc o) ->
     srtd s = length (lc s) -> srtd o = length (lc o) ->
     StronglySorted (fun x y => (x <? y) = true) (lc s) ->
     StronglySorted (fun x y => (x <? y) = true) (lc o) -> In x (lc s) ->
     In x (lc (snd (unite_set Nat.ltb m k s o))) /\
     In x (lc (snd (add_elements_marked Nat.ltb false m k s (lc o))))).
Proof.
  intros H. specialize (H no_marks 0 (ESet [2; 3] [] 2) (ESet [1; 2] [] 2) 3 ltac:(easy) eq_refl eq_refl
    ltac:(cbn; intuition discriminate) eq_refl eq_refl
    ltac:(repeat constructor) ltac:(repeat constructor) ltac:(cbn; auto)).
  destruct H as [H _]. vm_compute in H. intuition discriminate.
Qed.
Print Assumptions C23_unite_loses_refuted.

(** A repetition in the input ends the copying: {} + {1,1,2} = {1}. *)
Theorem C23_sorted_repetition_refuted :
  ~ (forall m k h x, fresh m k -> ~ In 0 h -> StronglySorted (fun x y => (x <=? y) = true) h ->
     In x h -> In x (lc (snd (add_elements_handle m k empty_set h)))).
Proof.
  intros H. specialize (H no_marks 0 [1; 1; 2] 2 ltac:(easy) ltac:(cbn; intuition discriminate)
    ltac:(repeat constructor) ltac:(cbn; auto)).
  vm_compute in H. intuition discriminate.
Qed.
Print Assumptions C23_sorted_repetition_refuted.

(** By centroid even disjoint inputs lose members: {5} + {3} = {3}, 5 is gone
    when 3 comes first in the order. *)
Theorem C23_centroid_loses_refuted :
  ~ (forall less D m k s h x, strict_total less D -> ~ D 0 -> fresh m k ->
     NoDup (lc s ++ h) -> Forall D (lc s ++ h) -> srtd s = length (lc s) -> holes s = [] ->
     StronglySorted (fun x y => less x y = true) (lc s) ->
     StronglySorted (fun x y => less x y = true) h -> In x (lc s) ->
     In x (lc (snd (add_elements_marked less true m k s h)))).
Proof.
  intros H. specialize (H Nat.ltb (fun x => x <> 0) no_marks 0 (ESet [5] [] 1) [3] 5 ltb_total).
  assert (~ In 5 (lc (snd (add_elements_marked Nat.ltb true no_marks 0 (ESet [5] [] 1) [3]))))
    by (vm_compute; intuition discriminate).
  apply H0, H; try reflexivity; try (repeat constructor; cbn; intuition discriminate); cbn; auto.
Qed.
Print Assumptions C23_centroid_loses_refuted.

(** ** C24: sorted sets without holes *)
Definition sorted_set (less : nat -> nat -> bool) (D : nat -> Prop) (s : eset) : Prop :=
  srtd s = length (lc s) /\ holes s = [] /\ Forall D (lc s) /\
  StronglySorted (fun x y => less x y = true) (lc s).

(** The set stays sorted under any history of AddElement, holds the old and
    the added elements, and FindHandle decides membership by binary search. *)
Theorem C24_sorted_history : forall less D s es, strict_total less D -> ~ D 0 ->
  sorted_set less D s -> Forall D es ->
  let s' := fold_left (add_element_sorted less) es s in
  sorted_set less D s' /\ NoDup (lc s') /\
  (forall x, In x (lc s') <-> In x (lc s) \/ In x es) /\
  (forall h, D h -> (find_sorted less s' h = true <-> In h (lc s) \/ In h es)) /\
  size s' = length (lc s') /\ iterate (fun _ => false) s' = lc s'.
Proof.
  intros less D s es ST D0 Hs He s'.
  assert (G : sorted_set less D s' /\ forall x, In x (lc s') <-> In x (lc s) \/ In x es).
  { unfold s'. clear s'. revert s Hs. induction es as [|e es IH]; intros s Hs; cbn [fold_left].
    - split; [exact Hs|]. cbn. intuition.
    - inversion He as [|? ? He1 He2]; subst. destruct (add_sorted_ok less D ST s e Hs He1) as [H1 H2].
      destruct (IH He2 (add_element_sorted less s e) H1) as [H3 H4]. split; [exact H3|].
      intros x. rewrite H4, H2. cbn [In]. intuition. }
  destruct G as [G1 G2]. split; [exact G1|]. pose proof G1 as [A1 [A2 [A3 A4]]].
  assert (ND : NoDup (lc s')) by now apply (ss_nodup less D ST).
  split; [exact ND|]. split; [exact G2|]. split.
  - intros h Hh. rewrite <- G2. now apply (find_sorted_ok less D ST).
  - split; [unfold size; rewrite A2; cbn; lia|].
    rewrite iterate_spec. clear - A3 D0. induction A3 as [|x l Hx Hl IH]; cbn [filter]; [reflexivity|].
    unfold seen at 1, nz. destruct (Nat.eqb_spec x 0) as [->|]; [contradiction|]. cbn. now f_equal.
Qed.
Print Assumptions C24_sorted_history.

(** RemoveElement takes out exactly its argument (once, the hole remains). *)
Theorem C24_remove : forall less D s e, strict_total less D -> ~ D 0 ->
  sorted_set less D s -> D e ->
  forall x, In x (iterate (fun _ => false) (remove_element_sorted less s e)) <-> In x (lc s) /\ x <> e.
Proof.
  intros less D s e ST D0 Hs He x. rewrite <- (remove_sorted_ok less D ST D0 s e Hs He x).
  rewrite iterate_spec, filter_In. unfold seen. rewrite andb_true_r. unfold members. rewrite filter_In.
  reflexivity.
Qed.
Print Assumptions C24_remove.

Example C24_nonvacuous :
  let s := fold_left (add_element_sorted Nat.ltb) [5; 2; 9; 2; 7] empty_set in
  s = ESet [2; 5; 7; 9] [] 4 /\ find_sorted Nat.ltb s 7 = true /\ find_sorted Nat.ltb s 6 = false /\
  remove_element_sorted Nat.ltb s 5 = ESet [2; 0; 7; 9] [1] 4.
Proof. repeat split. Qed.

(** After one RemoveElement members are reported missing, and adding one of
    them stores it a second time. *)
Theorem C24_after_removal_refuted :
  ~ (forall s e h, sorted_set Nat.ltb (fun x => x <> 0) s -> e <> 0 -> h <> 0 ->
     In h (lc (remove_element_sorted Nat.ltb s e)) ->
     find_sorted Nat.ltb (remove_element_sorted Nat.ltb s e) h = true).
Proof.
  intros H.
  assert (K : find_sorted Nat.ltb (remove_element_sorted Nat.ltb (ESet [1; 2; 3] [] 3) 2) 1 = true).
  { apply H; try discriminate; [|cbn; auto].
    split; [reflexivity|]. split; [reflexivity|]. split; repeat constructor; discriminate. }
  discriminate.
Qed.
Print Assumptions C24_after_removal_refuted.

Theorem C24_added_twice_refuted :
  ~ (forall s e h, sorted_set Nat.ltb (fun x => x <> 0) s -> e <> 0 -> h <> 0 ->
     NoDup (iterate (fun _ => false)
       (add_element_sorted Nat.ltb (remove_element_sorted Nat.ltb s e) h))).
Proof.
  intros H.
  assert (K : NoDup (iterate (fun _ => false)
     (add_element_sorted Nat.ltb (remove_element_sorted Nat.ltb (ESet [1; 2; 3] [] 3) 2) 1))).
  { apply H; try discriminate.
    split; [reflexivity|]. split; [reflexivity|]. split; repeat constructor; discriminate. }
  vm_compute in K. inversion K; subst. apply H2. cbn. auto.
Qed.
Print Assumptions C24_added_twice_refuted.

(** The unsorted part (PutElement on a sorted set) is searched only when the
    binary search runs to its end. *)
Theorem C24_unsorted_part_refuted :
  ~ (forall s e, sorted_set Nat.ltb (fun x => x <> 0) s -> e <> 0 ->
     find_sorted Nat.ltb (put_element_sorted s e) e = true).
Proof.
  intros H. assert (K : find_sorted Nat.ltb (put_element_sorted (ESet [5] [] 1) 3) 3 = true).
  { apply H; [|discriminate]. split; [reflexivity|]. split; [reflexivity|]. split; repeat constructor; discriminate. }
  discriminate.
Qed.
Print Assumptions C24_unsorted_part_refuted.

(** Insertion shifts the entries but not the recorded positions of holes, so
    Size stays right while a later reuse of the hole overwrites a member. *)
Theorem C24_stale_hole_refuted :
  ~ (forall s e f g x, sorted_set Nat.ltb (fun y => y <> 0) s -> e <> 0 -> f <> 0 -> g <> 0 ->
     let s1 := add_element_sorted Nat.ltb (remove_element_sorted Nat.ltb s e) f in
     In x (members s1) -> In x (members (put_element s1 g))).
Proof.
  intros H.
  assert (K : In 4 (members (put_element
     (add_element_sorted Nat.ltb (remove_element_sorted Nat.ltb (ESet [2; 4; 6] [] 3) 6) 1) 9))).
  { apply H; try discriminate; [|cbn; auto].
    split; [reflexivity|]. split; [reflexivity|]. split; repeat constructor; discriminate. }
  vm_compute in K. intuition discriminate.
Qed.
Print Assumptions C24_stale_hole_refuted.

(** ** C25: ReorderEmpty *)

(** Unsorted: a set that has members always loses one of them at least; an
    empty one is resized to a negative size. *)
Theorem C25_unsorted_loses : forall s,
  (members s <> [] -> exists s', reorder_unsorted s = Some s' /\
     length (iterate (fun _ => false) s') < length (iterate (fun _ => false) s)) /\
  (members s = [] -> reorder_unsorted s = None).
Proof.
  assert (E : forall s, iterate (fun _ => false) s = members s).
  { intros s. rewrite iterate_spec. apply filter_ext. intros a. unfold seen. apply andb_true_r. }
  intros s. split; [|apply reorder_unsorted_empty]. intros H.
  destruct (reorder_unsorted_loses s H) as [s' [H1 H2]]. exists s'. now rewrite !E.
Qed.
Print Assumptions C25_unsorted_loses.

(** Without holes exactly the last member goes. *)
Theorem C25_unsorted_last : forall s a x, holes s = [] -> ~ In 0 (lc s) -> lc s = a ++ [x] ->
  reorder_unsorted s = Some (ESet a [] (srtd s)).
Proof.
  intros s a x H1 H2 H3. rewrite reorder_unsorted_full; auto.
  - rewrite H3. now rewrite removelast_last.
  - rewrite H3. intros K. apply app_eq_nil in K. now destruct K.
Qed.
Print Assumptions C25_unsorted_last.

(** Sorted: the members in front of the first hole are erased, the rest is
    kept in order. *)
Theorem C25_sorted_exact : forall s pre rest, lc s = pre ++ 0 :: rest -> ~ In 0 pre ->
  holes s <> [] -> srtd s <= length (lc s) ->
  iterate (fun _ => false) (reorder_sorted s) = filter (fun h => negb (h =? 0)) rest /\
  holes (reorder_sorted s) = [] /\
  (pre = [] -> lc (reorder_sorted s) = members s).
Proof.
  intros s pre rest E H0 Hh Hs. destruct (reorder_sorted_exact s pre rest E H0 Hh Hs) as [H1 H2].
  split; [|split; [exact H2|]].
  - rewrite iterate_spec, H1, filter_app.
    assert (Z : forall n, filter (seen (fun _ => false)) (repeat 0 n) = []) by (induction n; auto).
    rewrite Z. cbn [app]. rewrite filter_filter. apply filter_ext. intros a. unfold seen, nz.
    destruct (a =? 0); reflexivity.
  - intros ->. rewrite H1. unfold members. rewrite E. reflexivity.
Qed.
Print Assumptions C25_sorted_exact.

Theorem C25_keeps_members_refuted :
  ~ (forall s s' x, wf s -> reorder_unsorted s = Some s' -> In x (members s) -> In x (members s')) /\
  ~ (forall s x, wf s -> srtd s = length (lc s) -> In x (members s) -> In x (members (reorder_sorted s))).
Proof.
  assert (W : wf (ESet [1; 2] [] 0)).
  { split; [constructor|]. cbn. split.
    - intros i. split; [intros []|]. destruct i as [|[|[|]]]; discriminate.
    - intros i j x _. destruct i as [|[|[|]]], j as [|[|[|]]]; cbn; intros; congruence. }
  assert (W2 : wf (ESet [1; 0; 3] [1] 3)).
  { split; [repeat constructor; auto|]. cbn. split.
    - intros i. destruct i as [|[|[|[|]]]]; cbn; intuition discriminate.
    - intros i j x N. destruct i as [|[|[|[|]]]], j as [|[|[|[|]]]]; cbn; intros; try congruence. }
  split; intros H.
  - specialize (H _ _ 2 W eq_refl ltac:(cbn; auto)). vm_compute in H. intuition discriminate.
  - specialize (H _ 1 W2 eq_refl ltac:(cbn; auto)). vm_compute in H. intuition discriminate.
Qed.
Print Assumptions C25_keeps_members_refuted.

Example C25_nonvacuous :
  reorder_unsorted (ESet [4; 7; 8] [] 0) = Some (ESet [4; 7] [] 0) /\
  reorder_sorted (ESet [1; 0; 3; 0; 5] [1; 3] 5) = ESet [0; 3; 5] [] 3 /\
  reorder_sorted (ESet [0; 3; 0; 5] [0; 2] 4) = ESet [3; 5] [] 2.
Proof. repeat split. Qed.

(** ** C27: ElementArray *)
Theorem C27_unite : forall m k c h, fresh m k -> c <> [] -> ~ In 0 c -> ~ In 0 h ->
  exists m' new, arr_unite m k c h = Some (m', c ++ new) /\
    lists new h (fun x => In x h /\ ~ In x c) /\ same_marks m m'.
Proof.
  intros m k c h F Hc H0 H1. destruct (arr_unite_spec m k c h F Hc H0 H1) as [m' [new [A1 [A2 [A3 [A4 A5]]]]]].
  exists m', new. split; [exact A1|]. split; [split; auto|exact A5].
Qed.
Print Assumptions C27_unite.

Theorem C27_subtract : forall m k c h, fresh m k -> ~ In 0 c -> exists m' r,
  arr_subtract m k c h = Some (m', r) /\ r = filter (fun x => negb (existsb (Nat.eqb x) h)) c /\
  (forall x, In x r <-> In x c /\ ~ In x h) /\ same_marks m m'.
Proof.
  intros m k c h F H0. destruct (arr_keep_spec false m k c h F H0) as [m' [E M]].
  exists m', (filter (fun x => negb (existsb (Nat.eqb x) h)) c). split.
  - unfold arr_subtract. rewrite E. reflexivity.
  - split; [reflexivity|]. split; [|exact M]. intros x.
    rewrite filter_In, negb_true_iff, <- not_true_iff_false, existsb_in. reflexivity.
Qed.
Print Assumptions C27_subtract.

Theorem C27_intersect : forall m k c h, fresh m k -> ~ In 0 c -> exists m' r,
  arr_intersect m k c h = Some (m', r) /\ r = filter (fun x => existsb (Nat.eqb x) h) c /\
  (forall x, In x r <-> In x c /\ In x h) /\ same_marks m m'.
Proof.
  intros m k c h F H0. destruct (arr_keep_spec true m k c h F H0) as [m' [E M]].
  exists m', (filter (fun x => existsb (Nat.eqb x) h) c). split.
  - unfold arr_intersect. rewrite E. do 2 f_equal. apply filter_ext. intros a. now destruct (existsb _ _).
  - split; [reflexivity|]. split; [|exact M]. intros x. now rewrite filter_In, existsb_in.
Qed.
Print Assumptions C27_intersect.

(** On an empty array Unite copies its argument, repetitions included. *)
Theorem C27_unite_empty : forall m k h, arr_unite m k [] h = Some (m, h).
Proof. reflexivity. Qed.
Print Assumptions C27_unite_empty.
Theorem C27_unite_empty_repetition_refuted :
  ~ (forall m k c h m' r, fresh m k -> NoDup c -> ~ In 0 (c ++ h) ->
     arr_unite m k c h = Some (m', r) -> NoDup r).
Proof.
  intros H. specialize (H no_marks 0 [] [1; 1] _ _ ltac:(easy) ltac:(constructor)
    ltac:(cbn; intuition discriminate) eq_refl).
  inversion H; subst. apply H2. now left.
Qed.
Print Assumptions C27_unite_empty_repetition_refuted.

(** An invalid handle in the array is a marker read outside the mesh. *)
Theorem C27_invalid_handle : forall m k c h b, In 0 c -> arr_keep b m k c h = None /\ arr_unite m k c h = None.
Proof.
  intros m k c h b H. split.
  - unfold arr_keep. destruct c as [|c0 c1]; [contradiction|]. set (c := c0 :: c1) in *.
    assert (K : forall m, keep_loop m k b c = None).
    { intros m'. clearbody c. induction c as [|x c IH]; [contradiction|]. cbn [keep_loop]. unfold get_mark.
      destruct (Nat.eqb_spec x 0); [reflexivity|]. destruct H as [H|H]; [contradiction|]. now rewrite IH. }
    now rewrite K.
  - unfold arr_unite. destruct c as [|c0 c1]; [contradiction|]. set (c := c0 :: c1) in *.
    assert (K : forall m, mark_all m k true c = None).
    { clearbody c. induction c as [|x c IH]; intros m'; [contradiction|]. cbn [mark_all]. unfold put_mark.
      destruct (Nat.eqb_spec x 0); [reflexivity|]. destruct H as [H|H]; [contradiction|]. now apply IH. }
    now rewrite K.
Qed.
Print Assumptions C27_invalid_handle.

Example C27_nonvacuous :
  option_map snd (arr_unite no_marks 0 [3; 1] [1; 5; 5; 2]) = Some [3; 1; 5; 2] /\
  option_map snd (arr_subtract no_marks 0 [3; 1; 3; 4] [0; 4; 1]) = Some [3; 3] /\
  option_map snd (arr_intersect no_marks 0 [3; 1; 3; 4] [0; 4; 3]) = Some [3; 3; 4].
Proof. repeat split. Qed.

(** ** C58: SortSet *)

(** what is used of std::sort and qsort: on distinct elements that the
    comparator orders it returns them in order *)
Definition sorts_with (less : nat -> nat -> bool) (D : nat -> Prop) (srt : list nat -> list nat) : Prop :=
  forall l, NoDup l -> Forall D l ->
    Permutation l (srt l) /\ StronglySorted (fun x y => less x y = true) (srt l).

(** No holes: the set keeps its members and becomes sorted as a whole; the
    part sorted earlier by the same comparator is merged. *)
Theorem C58_sort : forall less D srt s, strict_total less D -> ~ D 0 -> sorts_with less D srt ->
  holes s = [] -> srtd s <= length (lc s) -> NoDup (lc s) -> Forall D (lc s) ->
  StronglySorted (fun x y => less x y = true) (firstn (srtd s) (lc s)) ->
  exists s', sort_set less srt s = Some s' /\ sorted_set less D s' /\ Permutation (lc s) (lc s').
Proof. intros less D srt s ST D0. exact (sort_set_ok less D ST D0 srt s). Qed.
Print Assumptions C58_sort.

(** by global id: same, the compaction does nothing without holes *)
Theorem C58_sort_global_id : forall less D srt s, strict_total less D -> ~ D 0 -> sorts_with less D srt ->
  holes s = [] -> srtd s <= length (lc s) -> NoDup (lc s) -> Forall D (lc s) ->
  StronglySorted (fun x y => less x y = true) (firstn (srtd s) (lc s)) ->
  exists s', sort_set_gid less srt s = Some s' /\ sorted_set less D s' /\ Permutation (lc s) (lc s').
Proof.
  intros less D srt s ST D0 H1 H2 H3 H4 H5 H6.
  destruct (C58_sort less D srt s ST D0 H1 H2 H3 H4 H5 H6) as [s' [E P]]. exists s'. split; [|exact P].
  rewrite <- E. unfold sort_set_gid, sort_set. rewrite H2.
  destruct (length (lc s) <? srtd s); [reflexivity|].
  rewrite Nat.sub_0_r, <- skipn_length, firstn_all, skipn_length.
  replace (srtd s + (length (lc s) - srtd s)) with (length (lc s)) by lia.
  now rewrite skipn_all, app_nil_r.
Qed.
Print Assumptions C58_sort_global_id.

Fixpoint insert (less : nat -> nat -> bool) (x : nat) (l : list nat) : list nat :=
  match l with [] => [x] | y :: t => if less y x then y :: insert less x t else x :: l end.
Definition isort (less : nat -> nat -> bool) (l : list nat) : list nat := fold_right (insert less) [] l.

Lemma isort_sorts_with : sorts_with Nat.ltb (fun x => x <> 0) (isort Nat.ltb).
Proof.
  intros l N _. unfold isort.
  assert (P : forall x l, Permutation (x :: l) (insert Nat.ltb x l)).
  { clear. induction l as [|y l IH]; cbn [insert]; [reflexivity|]. destruct (y <? x); [|reflexivity].
    rewrite <- IH. apply perm_swap. }
  assert (PL : Permutation l (fold_right (insert Nat.ltb) [] l)).
  { clear N. induction l as [|x l IH]; cbn [fold_right]; [reflexivity|]. rewrite <- P. now constructor. }
  split; [exact PL|].
  assert (S : forall x l, ~ In x l -> StronglySorted (fun x y => (x <? y) = true) l ->
    StronglySorted (fun x y => (x <? y) = true) (insert Nat.ltb x l)).
  { clear - P. induction l as [|y l IH]; intros Hn Hs; cbn [insert].
    - repeat constructor.
    - inversion Hs as [|? ? S1 S2]; subst. cbn [In] in Hn. destruct (Nat.ltb_spec y x) as [L|L].
      + constructor; [apply IH; intuition|]. eapply Permutation_Forall; [apply P|].
        constructor; [now apply Nat.ltb_lt|exact S2].
      + constructor; [exact Hs|]. assert (x < y) by lia. constructor; [now apply Nat.ltb_lt|].
        rewrite Forall_forall in *. intros z Hz. apply S2 in Hz. apply Nat.ltb_lt in Hz. apply Nat.ltb_lt. lia. }
  clear PL. induction N as [|x l Hx N IH]; cbn [fold_right]; [constructor|].
  apply S; [|exact IH]. intros K. apply Hx.
  assert (PL : Permutation l (fold_right (insert Nat.ltb) [] l)).
  { clear - P. induction l as [|y l IH]; cbn [fold_right]; [reflexivity|]. rewrite <- P. now constructor. }
  now apply (Permutation_in _ (Permutation_sym PL)).
Qed.

Example C58_nonvacuous :
  sorts_with Nat.ltb (fun x => x <> 0) (isort Nat.ltb) /\
  sort_set Nat.ltb (isort Nat.ltb) (ESet [2; 6; 9; 7; 3] [] 3) = Some (ESet [2; 3; 6; 7; 9] [] 5) /\
  sort_set_gid Nat.ltb (isort Nat.ltb) (ESet [7; 3; 5] [] 0) = Some (ESet [3; 5; 7] [] 3).
Proof. split; [apply isort_sorts_with|]. split; reflexivity. Qed.

(** With a hole the members may be cut off: std::sort moves the invalid handle
    to the front, the resize drops the end. *)
Theorem C58_hole_refuted :
  ~ (forall s s' x, wf s -> srtd s = 0 -> sort_set Nat.ltb (isort Nat.ltb) s = Some s' ->
     In x (members s) -> In x (members s')) /\
  ~ (forall s s' x, wf s -> srtd s = 0 -> sort_set_gid Nat.ltb (isort Nat.ltb) s = Some s' ->
     In x (members s) -> In x (members s')).
Proof.
  assert (W2 : wf (ESet [1; 0] [1] 0)).
  { split; [repeat constructor; auto|]. cbn. split.
    - intros i. destruct i as [|[|[|]]]; cbn; intuition discriminate.
    - intros i j x N. destruct i as [|[|[|]]], j as [|[|[|]]]; cbn; intros; congruence. }
  split; intros H; specialize (H _ _ 1 W2 eq_refl eq_refl ltac:(cbn; auto)); vm_compute in H;
    intuition discriminate.
Qed.
Print Assumptions C58_hole_refuted.

(** Sorting a sorted set again by another comparator changes nothing, for
    every set without holes and every comparator: the order is not the one asked for. *)
Theorem C58_other_comparator : forall less srt s, holes s = [] -> srtd s = length (lc s) ->
  srt [] = [] -> ~ In 0 (lc s) -> sort_set less srt s = Some s.
Proof.
  intros less srt s Hh Hs H0 Z. unfold sort_set, sort_parts, sort_finish.
  destruct s as [l hs n]. cbn [lc holes srtd] in *. subst hs n.
  rewrite Nat.ltb_irrefl, firstn_all, skipn_all, H0, app_nil_r. cbn [length].
  destruct (Nat.eqb_spec (length l) 0) as [E|E].
  - cbn [option_map]. now rewrite Nat.sub_0_r, firstn_all.
  - rewrite firstn_all, skipn_all.
    assert (K : sort_merge less (S (length l)) l [] [] = (l, [], [])) by (destruct l; reflexivity).
    rewrite K. cbn [app take_valid]. rewrite app_nil_r, take_valid_all by exact Z.
    rewrite Nat.sub_diag. cbn [Nat.eqb repeat option_map]. now rewrite app_nil_r, Nat.sub_0_r, firstn_all.
Qed.
Print Assumptions C58_other_comparator.
Theorem C58_other_comparator_refuted :
  ~ (forall less s s', sorts_with less (fun x => x <> 0) (isort less) -> holes s = [] ->
     NoDup (lc s) -> ~ In 0 (lc s) -> srtd s = length (lc s) ->
     sort_set less (isort less) s = Some s' -> StronglySorted (fun x y => less x y = true) (lc s')).
Proof.
  intros H.
  specialize (H Nat.ltb (ESet [2; 1] [] 2) _ isort_sorts_with eq_refl
    ltac:(repeat constructor; cbn; intuition discriminate) ltac:(cbn; intuition discriminate) eq_refl eq_refl).
  cbn in H. inversion H as [|? ? _ K]; subst. inversion K; subst. discriminate.
Qed.
Print Assumptions C58_other_comparator_refuted.

(** Clear keeps the length of the sorted part: the next SortSet of a set that
    was sorted and not empty is out of bounds. *)
Theorem C58_sort_after_clear : forall less srt s, srtd s <> 0 ->
  sort_set less srt (clear s) = None /\ sort_set_gid less srt (clear s) = None.
Proof.
  intros less srt s H. unfold sort_set, sort_set_gid, clear. cbn [srtd lc length].
  destruct (Nat.ltb_spec 0 (srtd s)); [auto|lia].
Qed.
Print Assumptions C58_sort_after_clear.
