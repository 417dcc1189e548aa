(** Properties of the search for the loops that become new faces and cells (C159-C161). *)
From Coq Require Import List Bool Arith ZArith QArith Qabs Lia Lqa.
From Verif Require Import Util Incid_Spec Incid_Model Incid_Proofs.
Import ListNotations.
Local Close Scope Q_scope.
Local Open Scope nat_scope.

(** Sums of measures stay below 10^20. *)
Definition moderate (n : nat) (low : list (list nat)) (meas : list Q) : Prop :=
  forall l, is_loop n low l -> (total meas l + eps <= huge)%Q.
(** Between searches nothing is shown. *)
Definition rested (head : list nat) (low : list (list nat)) (s : state) : Prop :=
  exists m, s = State (count (start head low)) (hidden (start head low)) (stub (start head low)) [] [] m.
(** Number of loops with the element [h]. *)
Definition times (L : list (list nat)) (h : nat) : nat := length (filter (fun r => existsb (Nat.eqb h) r) L).

Lemma cm_total meas l : (compute_measure meas l == total meas l)%Q.
Proof.
  unfold compute_measure. assert (G : forall l a, (fold_left (fun a q => a + nth q meas 0)%Q l a == a + total meas l)%Q); [| rewrite G; lra].
  induction l0 as [| q r IH]; intros a; cbn [fold_left total]; [lra |]. rewrite IH. lra.
Qed.
Lemma total_app meas a b : (total meas (a ++ b) == total meas a + total meas b)%Q.
Proof. induction a as [| q a IH]; cbn [app total]; [lra |]. rewrite IH. lra. Qed.
Lemma total_pos meas l : (forall q, In q l -> (0 <= nth q meas 0)%Q) -> (0 <= total meas l)%Q.
Proof. induction l as [| q l IH]; intros H; cbn [total]; [lra |]. pose proof (H q (or_introl eq_refl)). specialize (IH (fun w W => H w (or_intror W))). lra. Qed.
Lemma total_incl meas l1 : forall l2, NoDup l1 -> incl l1 l2 -> (forall q, In q l2 -> (0 <= nth q meas 0)%Q) -> (total meas l1 <= total meas l2)%Q.
Proof.
  induction l1 as [| q l1 IH]; intros l2 N I P; cbn [total]; [now apply total_pos |].
  destruct (in_split q l2) as (a & b & ->); [apply I; now left |]. inversion N as [| ? ? N1 N2]; subst. rewrite total_app. cbn [total].
  assert (total meas l1 <= total meas (a ++ b))%Q as H; [| rewrite total_app in H; lra].
  apply IH; [easy | |].
  - intros w W. assert (In w (a ++ q :: b)) as J by (apply I; now right). apply in_or_app. apply in_app_or in J. destruct J as [J | [-> | J]]; auto. contradiction.
  - intros w W. apply P. apply in_or_app. apply in_app_or in W. destruct W; [now left | right; now right].
Qed.
Lemma loop_iff head low l : loop head low l <-> is_loop (length head) low l.
Proof. unfold loop, is_loop. now rewrite closed_iff. Qed.
Lemma start_canon head low m : State (count (start head low)) (hidden (start head low)) (stub (start head low)) [] [] m = canon head low (tab (rows low) (fun _ => false)) [] [] m.
Proof. reflexivity. Qed.
Lemma zs_rest low : zs low [] (tab (rows low) (fun _ => false)).
Proof. split; [apply tab_length |]. intros i _. rewrite nth_tab. now destruct (i <? rows low). Qed.
Lemma zs_false low st : zs low [] st -> st = tab (rows low) (fun _ => false).
Proof. intros (L & Z). apply (nth_ext _ _ false false); [now rewrite tab_length |]. intros i Hi. rewrite nth_tab, Z by easy. now destruct (i <? rows low). Qed.
Lemma small_of head low meas : moderate (length head) low meas -> forall l, loop head low l -> (compute_measure meas l + eps <= huge)%Q.
Proof. intros M l L. rewrite cm_total. apply M. now apply loop_iff. Qed.

(** * C159: loops close and use each element as often as allowed *)

(** Whatever elements are given, the search ends. Each loop consists of different elements,
    is one connected piece, and each lower element is shared by two of its elements or by
    none. Inner elements are in at most two loops, outer ones in at most one. *)
Theorem C159_loops head low meas inner : NoDup head -> moderate (length head) low meas ->
  exists n, forall f, n <= f -> exists L v, split head low meas f inner = Some (L, v) /\
    (forall r, In r L -> exists l, r = map (fun q => nth q head 0) l /\ is_loop (length head) low l /\ joined low l) /\
    (forall q, q < length head -> let allowed := if q <? inner then 2 else 1 in times L (nth q head 0) <= allowed /\
      (nth q v 0%Z = Z.of_nat (allowed - times L (nth q head 0)) \/ nth q v 0%Z = 0%Z /\ times L (nth q head 0) + 1 = allowed)).
Proof.
  intros N M. exists (S (sum_visits head (first_visits head inner))). intros f Hf.
  destruct (all_loops_ok head low meas (fun _ _ => True)) with (f := f) (v := first_visits head inner) (st := tab (rows low) (fun _ : nat => false)) (m0 := 0%Q) as (L & v & E & A & B & _); auto.
  - now apply small_of.
  - apply zs_rest.
  - apply tab_length.
  - intros q Hq. unfold first_visits. rewrite nth_tab. destruct (q <? columns head); [| lia]. destruct (q <? inner); lia.
  - exists L, v. split; [exact E |]. split.
    + intros r R. destruct (A r R) as (l & A1 & A2 & A3 & _). exists l. split; [easy |]. split; [now apply loop_iff | now apply grown_joined].
    + intros q Hq. destruct (B q Hq) as (B1 & B2 & B3). unfold first_visits in B3. rewrite nth_tab in B3. unfold columns in B3. destruct (Nat.ltb_spec q (length head)) as [_ |]; [| lia].
      change (times L (nth q head 0)) with (used L (nth q head 0)). destruct (q <? inner); cbv zeta; lia.
Qed.
(** the two triangles of a square with a diagonal *)
Example C159_nonvacuous : split [10; 12; 23; 34; 41] [[1; 3]; [1; 2]; [2; 3]; [3; 4]; [4; 1]] [1414 # 1000; 1; 1; 1; 1]%Q 9 1 =
  Some ([[12; 10; 23]; [10; 41; 34]], [0; 0; 0; 0; 0]%Z).
Proof. vm_compute. reflexivity. Qed.
Example C159_nonvacuous_hypotheses : NoDup [10; 12; 23; 34; 41] /\ moderate 5 [[1; 3]; [1; 2]; [2; 3]; [3; 4]; [4; 1]] [1414 # 1000; 1; 1; 1; 1]%Q.
Proof.
  split; [repeat constructor; cbn [In]; intuition lia |]. intros l (_ & N & I & _).
  assert (total [1414 # 1000; 1; 1; 1; 1] l <= total [1414 # 1000; 1; 1; 1; 1] [0; 1; 2; 3; 4]%nat)%Q as H.
  { apply total_incl; [easy | intros q Q; apply I in Q; cbn [In]; lia |]. intros q Q. cbn [In] in Q. destruct Q as [<- | [<- | [<- | [<- | [<- | []]]]]]; cbn [nth]; lra. }
  cbn [total nth] in H. unfold huge, eps. change (10 ^ 20)%Z with 100000000000000000000%Z. unfold inject_Z. lra.
Qed.
(** tetrahedra: two cells above and below an inner face *)
Example C159_nonvacuous_cells : option_map fst (split [100; 1; 2; 3; 4; 5; 6]
    [[12; 13; 23]; [12; 14; 24]; [13; 14; 34]; [23; 24; 34]; [12; 15; 25]; [13; 15; 35]; [23; 25; 35]] [1; 1; 1; 1; 1; 1; 1]%Q 9 1) = Some [[1; 100; 2; 3]; [100; 4; 5; 6]].
Proof. vm_compute. reflexivity. Qed.

(** square pyramid: after some faces are shown, only edges of earlier faces are open *)
Example C159_nonvacuous_pyramid : option_map fst (split [10; 11; 12; 13; 14] [[0; 1; 2]; [0; 3; 4; 5]; [1; 4; 6]; [3; 6; 7]; [2; 5; 7]] [1; 1; 1; 1; 1]%Q 9 0) = Some [[10; 11; 13; 12; 14]].
Proof. vm_compute. reflexivity. Qed.

(** The same edge given twice: with the two copies a loop of two elements is found, which
    is not made a face, and the other half of the square is lost. *)
Theorem C159_twice_refuted : split [10; 10; 12; 23; 34; 41] [[1; 3]; [1; 3]; [1; 2]; [2; 3]; [3; 4]; [4; 1]] [1414 # 1000; 1414 # 1000; 1; 1; 1; 1]%Q 9 2 =
  Some ([[12; 10; 23]; [10; 10]], [0; 0; 0; 0; 0; 0]%Z).
Proof. vm_compute. reflexivity. Qed.

(** * C160: for edges the search fails only if there is no loop *)

(** Each call leaves the search at rest. For edges it returns nothing exactly if no loop
    of available elements has an element that may be visited once. *)
Theorem C160_complete head low meas s v : NoDup head -> length v = length head -> moderate (length head) low meas -> rested head low s ->
  exists v' s' r, find_shortest_loop head low meas v s = Some (v', s', r) /\ rested head low s' /\ length v' = length head /\
    (r = [] -> forall q, q < length head -> nth q v' 0%Z = if (nth q v 0 =? 1)%Z then 0%Z else nth q v 0%Z) /\
    (all_edges (length head) low -> (r = [] <-> forall l, is_loop (length head) low l -> (forall q, In q l -> (0 < nth q v 0)%Z) -> forall q, In q l -> nth q v 0%Z <> 1%Z)).
Proof.
  intros N Lv M (m0 & ->). rewrite start_canon.
  destruct (find_loop_ok head low meas (fun _ _ => True)) with (v := v) (st := tab (rows low) (fun _ : nat => false)) (m0 := m0) as (v1 & v' & st' & b & m & E & Z & G & V & L' & A); auto.
  { now apply small_of. }
  { apply zs_rest. }
  exists v', (canon head low st' [] [] m), (map (fun q => nth q head 0) b). split; [exact E |]. split; [exists m; now rewrite start_canon, (zs_false low st' Z) |]. split; [exact L' |].
  assert (Rb : map (fun q => nth q head 0) b = [] -> b = []) by now destruct b.
  split.
  - intros R q Hq. apply Rb in R. subst b. destruct A as [(_ & A) | ((A & _) & _)]; [| easy]. specialize (V q Hq). cbn [has existsb] in V. specialize (A q Hq).
    destruct (Z.eqb_spec (nth q v 0%Z) 1) as [E1 | E1]; destruct (G q) as [W | (W1 & W2 & _)]; lia.
  - intros Ed. apply edges_of in Ed. split.
    + intros R l Ll F q Q Q1. apply Rb in R. subst b. destruct A as [(_ & A) | ((A & _) & _)]; [| easy]. apply loop_iff in Ll. destruct Ll as (L1 & L2 & L3 & L4). assert (q < columns head) as Hq by now apply L3. specialize (A q Hq).
      destruct (G q) as [W | (_ & _ & W)]; [congruence |]. apply (W Ed l); [| easy]. split; [easy |]. split; [| easy]. intros w Hw. split; [now apply L3 | now apply F].
    + intros H. destruct A as [(-> & _) | (S1 & _ & S3 & _)]; [easy |]. exfalso. pose proof S1 as (NE & _ & F & _).
      assert (G1 : forall q, (0 < nth q v1 0)%Z -> nth q v 0%Z = nth q v1 0%Z) by (intros q Q; destruct (G q) as [W | (_ & W & _)]; lia).
      assert (Hh : In (hd 0 b) b) by (destruct b; [easy | now left]).
      apply (H b) with (q := hd 0 b); [apply loop_iff; eapply sound_loop; eauto | | easy |].
      * intros q Q. apply F in Q. destruct Q as (_ & Q). now rewrite G1.
      * rewrite G1; [easy |]. rewrite S3. lia.
Qed.
(** When a face was split, every loop of the remaining edges consists of inner edges that
    were not used at all. *)
Theorem C160_maximal head low meas inner : NoDup head -> moderate (length head) low meas -> all_edges (length head) low ->
  exists n, forall f, n <= f -> exists L v, split head low meas f inner = Some (L, v) /\
    forall l, is_loop (length head) low l -> (forall q, In q l -> times L (nth q head 0) < if q <? inner then 2 else 1) ->
      forall q, In q l -> q < inner /\ times L (nth q head 0) = 0.
Proof.
  intros N M Ed. exists (S (sum_visits head (first_visits head inner))). intros f Hf.
  destruct (all_loops_ok head low meas (fun _ _ => True)) with (f := f) (v := first_visits head inner) (st := tab (rows low) (fun _ : nat => false)) (m0 := 0%Q) as (L & v & E & _ & _ & C); auto.
  - now apply small_of.
  - apply zs_rest.
  - apply tab_length.
  - intros q Hq. unfold first_visits. rewrite nth_tab. destruct (q <? columns head); [| lia]. destruct (q <? inner); lia.
  - exists L, v. split; [exact E |]. intros l Ll Fl q Q. apply loop_iff in Ll. pose proof Ll as (_ & _ & L3 & _).
    assert (V : forall w, In w l -> nth w (first_visits head inner) 0%Z = if w <? inner then 2%Z else 1%Z).
    { intros w W. unfold first_visits. rewrite nth_tab. specialize (L3 w W). destruct (Nat.ltb_spec w (columns head)); [easy | lia]. }
    assert (K := C (edges_of head low Ed) l Ll). pose proof (Fl q Q) as Fq. change (times L (nth q head 0)) with (used L (nth q head 0)) in *. specialize (fun H => K H q Q). rewrite V in K by easy.
    destruct (Nat.ltb_spec q inner); [split; [easy |] |].
    + assert (2 - Z.of_nat (used L (nth q head 0%nat)) <> 1)%Z; [| lia]. apply K. intros w W. rewrite V by easy. specialize (Fl w W). change (times L (nth w head 0)) with (used L (nth w head 0)) in Fl. destruct (w <? inner); lia.
    + exfalso. assert (1 - Z.of_nat (used L (nth q head 0%nat)) <> 1)%Z; [| lia]. apply K. intros w W. rewrite V by easy. specialize (Fl w W). change (times L (nth w head 0)) with (used L (nth w head 0)) in Fl. destruct (w <? inner); lia.
Qed.
Theorem C160_rested head low : rested head low (start head low).
Proof. exists 0%Q. reflexivity. Qed.
Example C160_nonvacuous : all_edges 5 [[1; 3]; [1; 2]; [2; 3]; [3; 4]; [4; 1]] /\
  option_map snd (find_shortest_loop [10; 12; 23; 34; 41] [[1; 3]; [1; 2]; [2; 3]; [3; 4]; [4; 1]] [1; 1; 1; 1; 1]%Q [2; 1; 0; 1; 1]%Z (start [10; 12; 23; 34; 41] [[1; 3]; [1; 2]; [2; 3]; [3; 4]; [4; 1]])) = Some [34; 10; 41].
Proof.
  split; [| vm_compute; reflexivity]. intros q Hq.
  destruct q as [| [| [| [| [| q]]]]]; [exists 1, 3 | exists 1, 2 | exists 2, 3 | exists 3, 4 | exists 4, 1 | lia]; (split; [easy |]); intros h; cbn [nth In]; intuition lia.
Qed.

(** a square with an inner triangle that does not touch it: the triangle is not used *)
Example C160_nonvacuous_maximal : split [56; 67; 75; 12; 23; 34; 41] [[5; 6]; [6; 7]; [7; 5]; [1; 2]; [2; 3]; [3; 4]; [4; 1]] [1; 1; 1; 3; 3; 3; 3]%Q 9 3 =
  Some ([[12; 41; 34; 23]], [2; 2; 2; 0; 0; 0; 0]%Z).
Proof. vm_compute. reflexivity. Qed.

(** For faces it may fail: the first of these faces is in a loop of five, but is given up. *)
Definition f_head : list nat := [0; 1; 2; 3; 4; 5; 6].
Definition f_low : list (list nat) := [[0; 1; 2; 3]; [2; 4; 5]; [0; 2; 3]; [0; 1; 3]; [1; 4; 5]; [0; 6; 7]; [3; 6; 7]].
Theorem C160_faces_refuted : exists l v' s' r, is_loop 7 f_low l /\ In 0 l /\
  find_shortest_loop f_head f_low [1; 1; 1; 1; 1; 1; 1]%Q [1; 1; 1; 1; 1; 1; 1]%Z (start f_head f_low) = Some (v', s', r) /\ ~ In 0 r /\ nth 0 v' 0%Z = 0%Z.
Proof.
  exists [0; 1; 4; 5; 6]. do 3 eexists. split; [| split; [now left |]].
  - split; [easy |]. split; [repeat constructor; cbn [In]; intuition lia |]. split; [intros q Q; cbn [In] in Q; lia |].
    intros h. do 8 (destruct h as [| h]; [vm_compute; auto |]). left. reflexivity.
  - split; [vm_compute; reflexivity |]. split; [cbn [In]; intuition lia | reflexivity].
Qed.

(** * C161: the loop found is the shortest among those with no more edges *)

Theorem C161_shortest head low meas s v v' s' r : NoDup head -> length v = length head -> moderate (length head) low meas -> rested head low s ->
  all_edges (length head) low -> (forall q, q < length head -> (0 <= nth q meas 0)%Q) ->
  (forall l1 l2, is_loop (length head) low l1 -> is_loop (length head) low l2 -> (total meas l1 < total meas l2)%Q -> (total meas l1 + eps < total meas l2)%Q) ->
  find_shortest_loop head low meas v s = Some (v', s', r) -> r <> [] ->
  exists l q, r = map (fun q => nth q head 0) l /\ is_loop (length head) low l /\ (forall w, In w l -> (0 < nth w v 0)%Z) /\ In q l /\ nth q v 0%Z = 1%Z /\
    forall k, is_loop (length head) low k -> (forall w, In w k -> (0 < nth w v 0)%Z) -> In q k -> length k <= length l -> (total meas l <= total meas k)%Q.
Proof.
  intros N Lv M (m0 & ->) Ed P Sep E0 Nr. rewrite start_canon in E0. apply edges_of in Ed.
  destruct (find_loop_ok head low meas Qle) with (v := v) (st := tab (rows low) (fun _ : nat => false)) (m0 := m0) as (v1 & v2 & st' & b & m & E & Z & G & V & L' & A); auto.
  { intros a. lra. }
  { intros a c d. lra. }
  { intros l1 l2 L1 L2 H. rewrite !cm_total in *. apply loop_iff in L1. apply loop_iff in L2. destruct (Qlt_le_dec (total meas l1) (total meas l2)) as [K | K]; [| easy]. apply Sep in K; auto. lra. }
  { intros l1 l2 N1 N2 I F. rewrite !cm_total. apply total_incl; auto. }
  { now apply small_of. }
  { apply zs_rest. }
  rewrite E in E0. injection E0 as _ _ <-. destruct A as [(-> & _) | (S1 & -> & S3 & S4)]; [easy |].
  assert (G1 : forall q, (0 < nth q v1 0)%Z -> nth q v 0%Z = nth q v1 0%Z) by (intros q Q; destruct (G q) as [W | (_ & W & _)]; lia).
  assert (Hh : In (hd 0 b) b) by (destruct b; [easy | now left]). pose proof S1 as (_ & _ & F & _).
  exists b, (hd 0 b). split; [easy |]. split; [apply loop_iff; eapply sound_loop; eauto |]. split; [intros w W; apply F in W; destruct W as (_ & W); now rewrite G1 |]. split; [easy |]. split; [rewrite G1; [easy | rewrite S3; lia] |].
  intros k Lk Fk Hk Len. apply loop_iff in Lk. destruct Lk as (K1 & K2 & K3 & K4). rewrite <- !cm_total. apply S4; auto.
  assert (T : target head low v k) by (split; [easy |]; split; [| easy]; intros w W; split; [now apply K3 | now apply Fk]).
  split; [easy |]. split; [| easy]. intros w W. split; [now apply K3 |]. destruct (G w) as [-> | (_ & _ & Gw)]; [now apply Fk |]. exfalso. now apply (Gw Ed k).
Qed.
(** Loops with more edges are not looked at once a loop is known: the triangle of length 21
    is returned, not the quadrilateral of length 4; with another order of edges it is. *)
Theorem C161_shortest_refuted :
  option_map snd (find_shortest_loop [0; 1; 2; 3; 4; 5] [[0; 1]; [1; 2]; [2; 0]; [1; 3]; [3; 4]; [4; 0]] [1; 10; 10; 1; 1; 1]%Q [1; 1; 1; 1; 1; 1]%Z
    (start [0; 1; 2; 3; 4; 5] [[0; 1]; [1; 2]; [2; 0]; [1; 3]; [3; 4]; [4; 0]])) = Some [0; 2; 1] /\
  option_map snd (find_shortest_loop [0; 3; 4; 5; 1; 2] [[0; 1]; [1; 3]; [3; 4]; [4; 0]; [1; 2]; [2; 0]] [1; 1; 1; 1; 10; 10]%Q [1; 1; 1; 1; 1; 1]%Z
    (start [0; 3; 4; 5; 1; 2] [[0; 1]; [1; 3]; [3; 4]; [4; 0]; [1; 2]; [2; 0]])) = Some [0; 5; 4; 3].
Proof. split; vm_compute; reflexivity. Qed.
(** two triangles on the first edge: the shorter one is found though it comes last *)
Example C161_nonvacuous : option_map snd (find_shortest_loop [0; 1; 2; 3; 4] [[0; 1]; [1; 2]; [2; 0]; [1; 3]; [3; 0]] [1; 10; 10; 1; 1]%Q [1; 1; 1; 1; 1]%Z
    (start [0; 1; 2; 3; 4] [[0; 1]; [1; 2]; [2; 0]; [1; 3]; [3; 0]])) = Some [0; 4; 3].
Proof. vm_compute. reflexivity. Qed.

(** the separation holds for instance if the measures are whole numbers *)
Example C161_nonvacuous_separated zs l1 l2 : (total (map inject_Z zs) l1 < total (map inject_Z zs) l2)%Q -> (total (map inject_Z zs) l1 + eps < total (map inject_Z zs) l2)%Q.
Proof.
  assert (G : forall l, exists z, (total (map inject_Z zs) l == inject_Z z)%Q).
  { induction l as [| q l (z & IH)]; [exists 0%Z; reflexivity |]. exists (nth q zs 0 + z)%Z. cbn [total]. rewrite IH, inject_Z_plus. change 0%Q with (inject_Z 0). rewrite map_nth. reflexivity. }
  destruct (G l1) as (a & A), (G l2) as (b & B). rewrite A, B. intros H. rewrite <- Zlt_Qlt in H. assert (inject_Z (a + 1) <= inject_Z b)%Q as K by (rewrite <- Zle_Qle; lia).
  rewrite inject_Z_plus in K. assert (eps < inject_Z 1)%Q by (unfold eps, inject_Z; lra). lra.
Qed.

Print Assumptions C159_loops.
Print Assumptions C159_twice_refuted.
Print Assumptions C160_complete.
Print Assumptions C160_maximal.
Print Assumptions C160_rested.
Print Assumptions C160_faces_refuted.
Print Assumptions C161_shortest.
Print Assumptions C161_shortest_refuted.
