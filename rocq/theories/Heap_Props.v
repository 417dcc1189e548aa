(** Properties C12 and C13. *)
From Coq Require Import List Bool Arith Lia.
From Verif Require Import Util Heap_Model Heap_Proofs.
Import ListNotations.

(** A comparison usable as Comparator: [<] or [<=] of a total preorder. *)
Definition order_pair {K : Type} (cmp : K -> K -> bool) (le : K -> K -> Prop) : Prop :=
  (forall a, le a a) /\ (forall a b c, le a b -> le b c -> le a c) /\
  (forall a b, cmp a b = true -> le a b) /\ (forall a b, cmp a b = false -> le b a).

(** C12: after any history of legal calls (see [hist]) with [Q] the indices
    pushed and not yet popped: Contains and Size report exactly [Q]; PushHeap of
    another index works and stores its key; PopHeap and PeekHeap give ENUMUNDEF
    on the empty heap and otherwise an index of [Q] with a minimal key;
    DecreaseKey/IncreaseKey store the key; Clear empties the heap.  None of the
    calls leaves its arrays. *)
Theorem C12_heap_is_priority_queue :
  forall (K : Type) (cmp : K -> K -> bool) (le : K -> K -> Prop), order_pair cmp le ->
  forall (M : nat) (ks : list K) (s : hstate K) (Q : list nat), M <= length ks -> hist cmp le M ks s Q ->
  NoDup Q /\ hsize s = length Q /\
  (forall i, i <= M -> exists b, contains s i = Some b /\ (b = true <-> In i Q)) /\
  (forall i key, i < M -> ~ In i Q ->
     exists s', push cmp s i key = Some s' /\ keys s' = lset (keys s) i key) /\
  (Q = [] -> pop cmp s = Some (s, None) /\ peek s = Some None) /\
  (Q <> [] -> exists m s', pop cmp s = Some (s', Some m) /\ peek s = Some (Some m) /\ In m Q /\ keys s' = keys s /\
     forall j, In j Q -> exists x y, nth_error (keys s) m = Some x /\ nth_error (keys s) j = Some y /\ le x y) /\
  (forall i key old, In i Q -> nth_error (keys s) i = Some old -> le key old ->
     exists s', decrease_key cmp s i key = Some s' /\ keys s' = lset (keys s) i key) /\
  (forall i key old, In i Q -> nth_error (keys s) i = Some old -> le old key ->
     exists s', increase_key cmp s i key = Some s' /\ keys s' = lset (keys s) i key) /\
  (forall mx, exists s', clear cmp mx s = Some s' /\ hsize s' = 0 /\
     forall a, nth_error (keys s') a =
       if existsb (Nat.eqb a) Q then match mx with Some v => Some v | None => nth_error (keys s) a end
       else nth_error (keys s) a).
Proof.
  intros K cmp le (R & T & C1 & C2) M ks s Q L H.
  pose proof (hist_inv K cmp le R T C1 C2 M ks s Q L H) as I.
  split; [apply I|]. split; [apply I|].
  split; [intros i Hi; eapply inv_contains; eauto|].
  split. { intros i key Hi NI. destruct (inv_push cmp le R T C1 C2 M s Q i key I Hi NI) as (s' & E & _ & KE). eauto. }
  split. { intros ->. eapply inv_pop_empty; eauto. }
  split. { intros NE. destruct (inv_pop cmp le R T C1 C2 M s Q I NE) as (m & s' & E & P & Hm & MIN & _ & KE).
           exists m, s'. auto. }
  split. { intros i key old Hi EO LE.
    destruct (inv_decrease cmp le R T C1 C2 M s Q i key I Hi) as (s' & E & _ & KE); [exists old; auto|]. eauto. }
  split. { intros i key old Hi EO LE.
    destruct (inv_increase cmp le R T C1 C2 M s Q i key I Hi) as (s' & E & _ & KE); [exists old; auto|]. eauto. }
  intros mx. destruct (inv_clear cmp le R T C1 C2 M mx s Q I) as (s' & E & I' & KE). exists s'.
  split; [exact E|]. split; [apply I'|exact KE].
Qed.
Print Assumptions C12_heap_is_priority_queue.

(** Emptying a heap yields its indices in non-decreasing order of their keys,
    each exactly once (the heap used as a sorting device). *)
Fixpoint drain {K} (cmp : K -> K -> bool) (fuel : nat) (s : hstate K) : option (list nat) :=
  match fuel with
  | O => Some []
  | S f => match pop cmp s with
           | Some (s', Some m) => option_map (cons m) (drain cmp f s')
           | Some (_, None) => Some []
           | None => None end
  end.
Inductive sorted_by {K} (le : K -> K -> Prop) (ks : list K) : list nat -> Prop :=
| SNil : sorted_by le ks []
| SCons : forall m l, (forall j, In j l -> exists x y, nth_error ks m = Some x /\ nth_error ks j = Some y /\ le x y) ->
    sorted_by le ks l -> sorted_by le ks (m :: l).

Theorem C12_drain_sorts :
  forall (K : Type) (cmp : K -> K -> bool) (le : K -> K -> Prop), order_pair cmp le ->
  forall (M : nat) (ks : list K) (s : hstate K) (Q : list nat), M <= length ks -> hist cmp le M ks s Q ->
  exists l, drain cmp (length Q) s = Some l /\ NoDup l /\ (forall i, In i l <-> In i Q) /\ sorted_by le (keys s) l.
Proof.
  intros K cmp le (R & T & C1 & C2) M ks s Q L H.
  pose proof (hist_inv K cmp le R T C1 C2 M ks s Q L H) as I. clear ks L H.
  remember (length Q) as n eqn:EN. revert s Q I EN. induction n as [|n IH]; intros s Q I EN; cbn [drain].
  - destruct Q; [|discriminate]. exists []. repeat split; try constructor; auto.
  - assert (Q <> []) as NE by (intros ->; discriminate).
    destruct (inv_pop cmp le R T C1 C2 M s Q I NE) as (m & s' & E & P & Hm & MIN & I' & KE). rewrite E.
    assert (NoDup Q) as ND by apply I.
    destruct (IH s' (remove1 m Q) I') as (l & El & NDl & IN & SO).
    { pose proof (remove1_len m Q ND Hm). lia. }
    rewrite El. exists (m :: l). split; [reflexivity|]. split.
    { constructor; [|exact NDl]. rewrite IN, remove1_in. tauto. }
    split.
    { intros i. cbn [In]. rewrite IN, remove1_in. split.
      - intros [<-|(X & _)]; auto.
      - intros X. destruct (Nat.eq_dec i m); [left; congruence|right; auto]. }
    constructor; [|now rewrite <- KE].
    intros j Hj. apply MIN. apply IN, remove1_in in Hj. tauto.
Qed.
Print Assumptions C12_drain_sorts.

Lemma leb_pair : order_pair Nat.leb Nat.le.
Proof. repeat split; intros; unfold Nat.le in *; lia. Qed.
Lemma ltb_pair : order_pair Nat.ltb Nat.le.
Proof. repeat split; intros; unfold Nat.le in *; lia. Qed.

(** a reachable heap with several elements, for both comparisons *)
Definition pushes (cmp : nat -> nat -> bool) (M : nat) (l : list (nat * nat)) : option (hstate nat) :=
  fold_left (fun s p => match s with Some s => push cmp s (fst p) (snd p) | None => None end) l
            (Some (make (repeat 0 M) M)).
Lemma pushes_hist : forall cmp M l s, (forall p, In p l -> fst p < M) -> NoDup (map fst l) ->
  pushes cmp M l = Some s -> hist cmp Nat.le M (repeat 0 M) s (rev (map fst l)).
Proof.
  intros cmp M l. induction l as [|p l IH] using rev_ind; intros s HB ND E; unfold pushes in *.
  - cbn in E. injection E as <-. constructor.
  - rewrite fold_left_app in E. cbn [fold_left] in E.
    destruct (fold_left _ l _) as [s0|] eqn:E0; [|discriminate].
    rewrite map_app, rev_app_distr. cbn [map rev app].
    rewrite map_app in ND. apply NoDup_remove in ND. rewrite app_nil_r in ND. destruct ND as (ND & NI).
    eapply HPush; [apply IH| | |exact E]; auto.
    + intros q Hq. apply HB, in_or_app. now left.
    + apply HB, in_or_app. right. now left.
    + now rewrite <- in_rev.
Qed.

Example C12_nonvacuous : exists s, hist Nat.leb Nat.le 5 (repeat 0 5) s [2; 4; 0; 3] /\
  drain Nat.leb 4 s = Some [2; 3; 4; 0].
Proof.
  destruct (pushes Nat.leb 5 [(3, 7); (0, 9); (4, 8); (2, 1)]) as [s|] eqn:E; [|discriminate].
  exists s. split.
  - apply (pushes_hist _ _ _ _) in E; [exact E| |].
    + cbn. intros p H. repeat destruct H as [<-|H]; cbn; try lia; tauto.
    + cbn. repeat constructor; cbn; lia.
  - vm_compute in E. injection E as <-. vm_compute. reflexivity.
Qed.

(** C13, strict Comparator ([std::less], the only instantiation in the code):
    ChangeKey is right when the key does not grow ... *)
Theorem C13_change_key_lower :
  forall (K : Type) (cmp : K -> K -> bool) (le : K -> K -> Prop), order_pair cmp le ->
  (forall a, cmp a a = false) ->
  forall (M : nat) (ks : list K) s Q i key old, M <= length ks -> hist cmp le M ks s Q ->
  In i Q -> nth_error (keys s) i = Some old -> le key old ->
  exists s', change_key cmp s i key = Some s' /\ keys s' = lset (keys s) i key /\ hist cmp le M ks s' Q.
Proof.
  intros K cmp le OP ST M ks s Q i key old L H Hi EO LE.
  destruct OP as (R & T & C1 & C2). pose proof (hist_inv K cmp le R T C1 C2 M ks s Q L H) as I.
  destruct (inv_decrease cmp le R T C1 C2 M s Q i key I Hi) as (s' & E & _ & KE); [exists old; auto|].
  exists s'. rewrite change_strict by apply ST. split; [exact E|]. split; [exact KE|].
  eapply HDecrease; eauto.
Qed.
Print Assumptions C13_change_key_lower.

(** ... and a non-strict Comparator makes it right when the key does not drop. *)
Theorem C13_change_key_weak_raise :
  forall (K : Type) (cmp : K -> K -> bool) (le : K -> K -> Prop), order_pair cmp le ->
  (forall a, cmp a a = true) ->
  forall (M : nat) (ks : list K) s Q i key old, M <= length ks -> hist cmp le M ks s Q ->
  In i Q -> nth_error (keys s) i = Some old -> le old key ->
  exists s', change_key cmp s i key = Some s' /\ keys s' = lset (keys s) i key /\ hist cmp le M ks s' Q.
Proof.
  intros K cmp le OP ST M ks s Q i key old L H Hi EO LE.
  destruct OP as (R & T & C1 & C2). pose proof (hist_inv K cmp le R T C1 C2 M ks s Q L H) as I.
  destruct (inv_increase cmp le R T C1 C2 M s Q i key I Hi) as (s' & E & _ & KE); [exists old; auto|].
  exists s'. rewrite change_weak by apply ST. split; [exact E|]. split; [exact KE|].
  eapply HIncrease; eauto.
Qed.
Print Assumptions C13_change_key_weak_raise.

(** Raising a key with a strict Comparator breaks the heap: the next PopHeap
    returns an index that is not minimal.  IncreaseKey does it right. *)
Theorem C13_change_key_raise_refuted : exists s s' s'' Q,
  hist Nat.ltb Nat.le 3 (repeat 0 3) s Q /\ In 0 Q /\ change_key Nat.ltb s 0 9 = Some s' /\
  pop Nat.ltb s' = Some (s'', Some 0) /\ In 1 Q /\
  nth_error (keys s') 0 = Some 9 /\ nth_error (keys s') 1 = Some 2 /\
  exists t t', increase_key Nat.ltb s 0 9 = Some t /\ pop Nat.ltb t = Some (t', Some 1).
Proof.
  destruct (pushes Nat.ltb 3 [(0, 1); (1, 2); (2, 3)]) as [s|] eqn:E; [|discriminate].
  eexists s, _, _, [2; 1; 0]. split.
  - apply (pushes_hist _ _ _ _) in E; [exact E| |].
    + cbn. intros p H. repeat destruct H as [<-|H]; cbn; try lia; tauto.
    + cbn. repeat constructor; cbn; lia.
  - vm_compute in E. injection E as <-. split; [cbn; auto|]. split; [vm_compute; reflexivity|].
    split; [vm_compute; reflexivity|]. split; [cbn; auto|]. split; [reflexivity|]. split; [reflexivity|].
    eexists _, _. split; vm_compute; reflexivity.
Qed.
Print Assumptions C13_change_key_raise_refuted.

Example C13_nonvacuous : order_pair Nat.ltb Nat.le /\ (forall a, Nat.ltb a a = false) /\
  order_pair Nat.leb Nat.le /\ (forall a, Nat.leb a a = true).
Proof. split; [apply ltb_pair|]. split; [apply Nat.ltb_irrefl|]. split; [apply leb_pair|apply Nat.leb_refl]. Qed.
