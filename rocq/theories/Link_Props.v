(** C148 (adjacency stays symmetric through Connect and Disconnect), C149 (what Disconnect
    and Connect change), C150 (which elements are computed again), C151 (the node lists of
    cells and the assertion about edges). *)
From Coq Require Import List Arith ZArith Bool Lia Permutation Sorted.
From Verif Require Import Adj_Model Adj_Proofs Adj_Props Link_Model Link_Proofs.
Import ListNotations.
Local Open Scope nat_scope.

(** m is the state after the calls cs on a new mesh (c: cells keep lists of their nodes) *)
Definition reached (c : bool) (cs : list call) (m : mesh) : Prop := perform_all (empty_mesh c) cs = Some m.
(** l without the elements of adj *)
Definition without (adj l : list elem) : list elem := filter (fun x => if in_dec elem_dec x adj then false else true) l.
Lemma reached_good c cs m : reached c cs m -> good m.
Proof. apply perform_all_good, good_empty. Qed.
Lemma without_has adj l : filter (fun x => negb (has adj x)) l = without adj l.
Proof. unfold without. apply filter_ext. intros x. destruct (has_cases adj x) as [(-> & I)|(-> & I)]; destruct (in_dec elem_dec x adj); try reflexivity; contradiction. Qed.
Lemma without_one h l : erase h l = without [h] l.
Proof. rewrite erase_not, <- without_has. apply filter_ext. intros x. unfold not_h. destruct (has_cases [h] x) as [(-> & I)|(-> & I)].
  - destruct I as [->|[]]. now rewrite eqe_refl.
  - f_equal. apply eqe_neq. intro E. apply I. now left.
Qed.
(** no list of nodes has to be updated: the cells do not keep them, or no cell is built on h *)
Definition no_cells (m : mesh) (h : elem) : Prop := cn m = false \/ forall x, built_on m h x -> fst x <> 3.

(** * C148 *)

(** After any sequence of calls, with Connect and Disconnect among them, an element x is
    listed below y as many times as y is listed above x, both exist, and their types are
    consecutive (or they are a cell and one of its nodes). *)
Theorem C148_symmetric : forall c cs m, reached c cs m ->
  (forall x y, times (low m y) x = times (high m x) y) /\
  (forall x y, In x (low m y) -> alive m x = true /\ alive m y = true /\ (fst y = fst x + 1 \/ fst x = 3 /\ fst y = 0 /\ cn m = true)).
Proof.
  intros c cs m H. pose proof (g_links _ (reached_good _ _ _ H)) as L. split.
  - intros x y. apply (l_sym _ _ L x y (fun F => F)).
  - intros x y I. destruct (l_ok _ _ L x y I) as (A & B & [V|V]); split; [assumption| |assumption|]; (split; [assumption|]); [left; lia|right; assumption].
Qed.
Print Assumptions C148_symmetric.
(** a face loses an edge, a new edge takes its place, later it is destroyed *)
Definition example_calls : list call :=
  map Other example_mesh ++ [Disconnect (f_ 0) [e_ 2]; Connect (f_ 0) [e_ 4]; Disconnect (e_ 0) [f_ 1; n_ 1]; Other (ODestroy (n_ 3))].
Example C148_nonvacuous :
  match perform_all (empty_mesh false) example_calls with
  | Some m => (low m (f_ 0), low m (e_ 0), high m (e_ 2), high m (n_ 1), high m (e_ 1), alive m (f_ 0)) = ([], [n_ 0], [], [e_ 1], [], false)
  | None => False
  end /\
  match perform_all (empty_mesh false) (firstn 16 example_calls) with
  | Some m => (low m (f_ 0), low m (f_ 1), low m (e_ 0), high m (e_ 4), high m (n_ 1), alive m (f_ 0)) = ([e_ 0; e_ 1; e_ 4], [e_ 3; e_ 4], [n_ 0], [f_ 1; f_ 0], [e_ 1; e_ 3], true)
  | None => False
  end.
Proof. vm_compute. auto. Qed.

(** * C149 *)

(** Disconnect removes exactly the connections between h and the listed elements, from both
    sides, and never fails; everything else keeps its lists.  Only for a cell the cells of
    a face may change places (the remaining visible one comes first). *)
Theorem C149_disconnect : forall c cs m set h adj, reached c cs m -> alive m h = true -> (forall a, In a adj -> alive m a = true) -> no_cells m h ->
  exists m' l, disconnect set h adj m = Some (m', l) /\
    (forall x, alive m' x = alive m x /\ hidden m' x = hidden m x) /\
    (1 <= fst h -> low m' h = without adj (low m h)) /\
    (fst h <= 2 -> high m' h = without adj (high m h)) /\
    (forall x, In x adj -> fst x = fst h + 1 -> low m' x = without [h] (low m x)) /\
    (forall x, In x adj -> fst h = fst x + 1 -> Permutation (high m' x) (without [h] (high m x)) /\
       filter (fun z => negb (hidden m z)) (high m' x) = without [h] (filter (fun z => negb (hidden m z)) (high m x)) /\
       (fst h <> 3 -> high m' x = without [h] (high m x))) /\
    (forall x, (x = h /\ fst h = 0 \/ x <> h /\ (~ In x adj \/ fst x <> fst h + 1)) -> low m' x = low m x) /\
    (forall x, (x = h /\ fst h = 3 \/ x <> h /\ (~ In x adj \/ fst h <> fst x + 1)) -> high m' x = high m x).
Proof.
  intros c cs m set h adj R A AA NC. pose proof (reached_good _ _ _ R) as G. pose proof (g_links _ G) as L.
  destruct (disconnect_parts set h adj m G A AA) as (m' & mods & E & P). pose proof (parted_links _ _ _ _ _ G A P) as G'.
  destruct (pt_mode _ _ _ _ _ P) as (ll & hh & M).
  exists m', (again m' mods). split.
  { rewrite E. apply propagate_plain. destruct NC as [NC|NC]; [left; rewrite M; exact NC|right].
    destruct (level3 m' mods) as [|x r] eqn:Q; [reflexivity|]. exfalso.
    destruct (levels m' mods (g_links _ G')) as (_ & _ & H3). destruct (proj1 (H3 x)) as (T & y & I & U); [rewrite Q; now left|].
    apply (NC x); [|assumption]. apply built_up; [assumption|]. eapply up_parted; eassumption. }
  assert (TH := s_rng _ (g_slots _ G) h A).
  split; [intros x; rewrite M; split; reflexivity|]. split; [|split; [|split; [|split; [|split]]]].
  - intros T. rewrite (pt_low_h _ _ _ _ _ P), without_has. destruct (Nat.ltb_spec 0 (fst h)); [reflexivity|lia].
  - intros T. rewrite (pt_high_h _ _ _ _ _ P), without_has. destruct (Nat.ltb_spec (fst h) 3); [reflexivity|lia].
  - intros x I T. assert (N : x <> h) by (intros ->; lia). assert (TX := s_rng _ (g_slots _ G) x (AA x I)).
    pose proof (pt_low _ _ _ _ _ P x N) as K. destruct (Nat.ltb_spec (fst h) 3); [|lia]. apply has_spec in I. rewrite I in K. cbn [andb] in K.
    apply taken_all in K; [|rewrite (l_sym _ _ L h x (fun F => F)); lia]. rewrite <- without_one. apply K. reflexivity.
  - intros x I T. assert (N : x <> h) by (intros ->; lia).
    pose proof (pt_high _ _ _ _ _ P x N) as K. destruct (Nat.ltb_spec 0 (fst h)); [|lia]. apply has_spec in I. rewrite I in K. cbn [andb] in K.
    apply taken_all in K; [|rewrite <- (l_sym _ _ L x h (fun F => F)); lia]. destruct K as (K1 & K2 & K3 & K4). rewrite <- without_one. split; [assumption|]. split.
    + rewrite <- without_one, erase_not.
      rewrite <- (erase_id h (filter (fun z => negb (hidden m z)) (high m' x))) by (rewrite filter_In; tauto). rewrite erase_not.
      assert (FF : forall l, filter (not_h h) (filter (fun z => negb (hidden m z)) l) = filter (fun z => not_h h z && visible m z) l).
      { unfold visible. clear. induction l as [|z r IH]; [reflexivity|]. cbn [filter]. destruct (hidden m z); cbn [negb filter]; [|destruct (not_h h z); cbn [andb]]; rewrite ?andb_false_r, IH; reflexivity. }
      rewrite !FF. apply K3; [now rewrite not_h_self|]. intros z Z. apply andb_true_iff in Z. tauto.
    + intros T3. apply K4. unfold strict_for. apply Nat.eqb_neq in T3. now rewrite T3.
  - intros x [(-> & T)|(N & T)]; [rewrite (pt_low_h _ _ _ _ _ P), T; reflexivity|]. apply (pt_low_eq _ _ _ _ _ P x N). destruct T as [T|T]; [now left|]. right.
    destruct (in_dec elem_dec x (high m h)) as [I|I]; [|now left]. right. destruct (links_high [] m h x L (fun F => F) I) as (_ & _ & [V|(V & _)]); lia.
  - intros x [(-> & T)|(N & T)]; [rewrite (pt_high_h _ _ _ _ _ P), T; reflexivity|]. apply (pt_high_eq _ _ _ _ _ P x N). destruct T as [T|T]; [now left|]. right.
    destruct (in_dec elem_dec x (low m h)) as [I|I]; [|now left]. right. destruct (l_ok _ _ L _ _ I) as (_ & _ & [V|(_ & V & _)]); lia.
Qed.
Print Assumptions C149_disconnect.
(** a cell leaves a face of two cells: the other cell comes first *)
Example C149_disconnect_nonvacuous :
  match perform_all (empty_mesh false) (map Other example_mesh) with
  | Some m => match disconnect None (c_ 0) [f_ 0; n_ 2] m with
              | Some (m', l) => (low m (c_ 0), high m (f_ 0), low m' (c_ 0), high m' (f_ 0), high m' (f_ 1), l) = ([f_ 0; f_ 1], [c_ 0; c_ 1], [f_ 1], [c_ 1], [c_ 0], [c_ 0])
              | None => False
              end
  | None => False
  end.
Proof. vm_compute. auto. Qed.

(** Connect appends the listed elements to h and h to each of them, once for every time it
    is listed, and changes nothing else; it succeeds if the elements are one type below h, an
    edge has at most two nodes before the call and no face gets a third cell. *)
Theorem C149_connect : forall c cs m set h adj, reached c cs m -> alive m h = true -> (forall a, In a adj -> alive m a = true) ->
  (forall y, y = h \/ In y adj -> no_cells m y) ->
  (forall a, In a adj -> fst h = fst a + 1) -> (fst h = 1 -> length (low m h) <= 2) ->
  (fst h = 3 -> forall a, In a adj -> length (high m a) + times adj a <= 2) ->
  exists m' l, connect set h adj m = Some (m', l) /\
    (forall x, alive m' x = alive m x /\ hidden m' x = hidden m x) /\
    low m' h = low m h ++ adj /\ (forall x, x <> h -> low m' x = low m x) /\
    (forall x, high m' x = high m x ++ repeat h (times adj x)).
Proof.
  intros c cs m set h adj R A AA NC TY ED FA. pose proof (reached_good _ _ _ R) as G. pose proof (g_links _ G) as L. assert (TH := s_rng _ (g_slots _ G) h A).
  destruct (attach_some h adj [] m) as ((m1 & ms) & E); [intros a I; specialize (TY a I); lia|lia|assumption|].
  assert (CE : exists m' mods, connect set h adj m = propagate set mods m' /\ joined h adj m m' mods).
  { destruct (attach_spec h adj [] m m1 ms E) as ((hh & Q & HH) & T & W & D). exists (set_low m1 h (low m1 h ++ adj)), (note ms h). split.
    - unfold connect. rewrite A. replace (forallb (alive m) adj) with true by (symmetry; rewrite forallb_forall; assumption). cbn [andb negb].
      destruct (Nat.eqb_spec (fst h) 1) as [T1|_]; cbn [andb]; [destruct (Nat.ltb_spec 2 (length (low m h))); [specialize (ED T1); lia|]|]; rewrite E; reflexivity.
    - subst m1. constructor; cbn [set_low set_conn low high].
      + do 2 eexists. reflexivity.
      + assumption.
      + apply upd_same.
      + intros x N. now apply upd_other.
      + assumption.
      + intros u. rewrite note_in, W. cbn [In]. tauto.
      + apply note_nodup, D. constructor. }
  destruct CE as (m' & mods & -> & J). pose proof (joined_good _ _ _ _ _ G A AA J) as G'. destruct (jn_mode _ _ _ _ _ J) as (ll & hh & M).
  exists m', (again m' mods). split.
  { apply propagate_plain. destruct (NC h (or_introl eq_refl)) as [C|NH]; [left; rewrite M; exact C|]. destruct (cn m) eqn:C; [right|left; rewrite M; exact C].
    destruct (level3 m' mods) as [|x r] eqn:Q; [reflexivity|]. exfalso.
    destruct (levels m' mods (g_links _ G')) as (_ & _ & H3). destruct (proj1 (H3 x)) as (T & y & I & U); [rewrite Q; now left|].
    destruct (up_joined _ _ _ _ _ _ _ J U) as [V|V].
    - destruct (NC y) as [?|NY]; [apply (jn_mods _ _ _ _ _ J) in I; assumption|congruence|]. apply (NY x); [|assumption]. now apply built_up.
    - apply (NH x); [|assumption]. now apply built_up. }
  split; [intros x; rewrite M; split; reflexivity|]. split; [apply J|]. split; [apply J|]. apply J.
Qed.
Print Assumptions C149_connect.
Example C149_connect_nonvacuous :
  match perform_all (empty_mesh false) (map Other example_mesh) with
  | Some m => match connect None (c_ 1) [f_ 1] m with
              | Some (m', l) => (low m' (c_ 1), high m' (f_ 1), high m' (f_ 0), l) = ([f_ 0; f_ 1], [c_ 0; c_ 1], [c_ 0; c_ 1], [f_ 1; c_ 1; c_ 0])
              | None => False
              end /\ connect None (c_ 1) [f_ 0] m = None
  | None => False
  end.
Proof. vm_compute. auto. Qed.

(** The cells of a face that loses a visible cell h: if there is exactly one other visible
    cell and it comes later, it moves to the place of h, otherwise the order is kept. *)
Theorem C149_face_order : forall c cs m set (h : elem) adj m' l x, reached c cs m -> cn m = false -> fst h = 3 -> disconnect set h adj m = Some (m', l) ->
  In x adj -> times (low m h) x = 1 ->
  (forall a b d z, high m x = a ++ h :: b ++ z :: d -> hidden m h = false -> hidden m z = false -> (forall y, In y (a ++ b ++ d) -> hidden m y = true) -> high m' x = a ++ z :: b ++ d) /\
  (length (filter (fun z => negb (hidden m z)) (high m x)) <> 2 -> high m' x = without [h] (high m x)).
Proof.
  intros c cs m set h adj m' l x R C T E I O. pose proof (reached_good _ _ _ R) as G. pose proof (g_links _ G) as L.
  assert (OH : times (high m x) h = 1) by (rewrite <- O; symmetry; apply (l_sym _ _ L x h (fun F => F))).
  assert (H : high m' x = remove_first h (if Nat.eqb (length (filter (visible m) (high m x))) 2 then swap_first (visible m) h (high m x) else high m x)).
  { unfold disconnect in E. destruct (negb (alive m h && forallb (alive m) adj)); [discriminate|]. rewrite T in E. change (Nat.ltb 0 3) with true in E. change (Nat.ltb 3 3) with false in E. cbv beta iota zeta in E.
    destruct (drop_low_at h (has adj) x (low m h) m) as (_ & D); [now apply has_spec|]. specialize (D O).
    destruct (drop_low_spec h (has adj) (low m h) m) as (hh & Q & _). rewrite Q in D, E. cbn [fst snd] in D, E.
    rewrite propagate_plain in E by (left; exact C). injection E as <- _. rewrite T in D. cbn [Nat.eqb andb set_low set_conn high] in D |- *. exact D. }
  split.
  - intros a b d z S VH VZ HI. rewrite H.
    assert (HX : forall y, In y (a ++ b ++ d) -> visible m y = false) by (intros y Y; unfold visible; now rewrite HI).
    assert (VH' : visible m h = true) by (unfold visible; now rewrite VH). assert (VZ' : visible m z = true) by (unfold visible; now rewrite VZ).
    assert (LEN : length (filter (visible m) (high m x)) = 2).
    { rewrite S. apply filter_two; assumption. }
    rewrite LEN, S. cbn [Nat.eqb].
    rewrite swap_first_shape; [|assumption|assumption|intros y Y; apply HX; rewrite !in_app_iff in *; tauto].
    replace (a ++ z :: b ++ h :: d) with ((a ++ z :: b) ++ h :: d) by (rewrite <- app_assoc; reflexivity). rewrite remove_first_shape; [rewrite <- app_assoc; reflexivity|].
    rewrite in_app_iff. cbn [In]. intros [X|[X|X]].
    + rewrite (HX h) in VH'; [discriminate|]. rewrite in_app_iff. now left.
    + subst z. unfold times in OH. rewrite S, count_occ_app in OH. cbn [count_occ] in OH. destruct (elem_dec h h); [|congruence]. rewrite count_occ_app in OH. cbn [count_occ] in OH. destruct (elem_dec h h); [lia|congruence].
    + rewrite (HX h) in VH'; [discriminate|]. rewrite !in_app_iff. tauto.
  - intros N. rewrite H. destruct (Nat.eqb_spec (length (filter (visible m) (high m x))) 2) as [X|_]; [contradiction|]. rewrite remove_first_once, without_one by assumption. reflexivity.
Qed.
Print Assumptions C149_face_order.
(** the cells of the face are a visible one, a hidden one and a new visible one *)
Example C149_face_order_nonvacuous :
  match perform_all (empty_mesh false) (map Other (example_mesh ++ [OBegin; OHide (c_ 1); OCreate 3 false [f_ 0] [n_ 0; n_ 1; n_ 2]])) with
  | Some m => (high m (f_ 0), map (hidden m) (high m (f_ 0)), times (low m (c_ 0)) (f_ 0)) = ([c_ 0; c_ 1; c_ 2], [false; true; false], 1) /\
              match disconnect None (c_ 0) [f_ 0] m with Some (m', _) => high m' (f_ 0) = [c_ 2; c_ 1] | None => False end
  | None => False
  end.
Proof. vm_compute. auto. Qed.

(** What Connect and Disconnect refuse: elements that do not exist, elements of a type that
    does not fit, a fourth node of an edge, a third cell of a face. *)
Theorem C149_refused : forall set h adj m r,
  (disconnect set h adj m = Some r -> alive m h = true /\ forall a, In a adj -> alive m a = true) /\
  (connect set h adj m = Some r -> alive m h = true /\ (forall a, In a adj -> alive m a = true /\ fst h = fst a + 1) /\
     (fst h = 1 -> length (low m h) <= 2) /\ (forall a, In a adj -> fst a = 2 -> length (high m a) + times adj a <= 2)).
Proof.
  intros set h adj m r. split; intros E.
  - unfold disconnect in E. destruct (alive m h && forallb (alive m) adj) eqn:A; [|discriminate]. apply andb_true_iff in A. rewrite forallb_forall in A. exact A.
  - destruct (connect_parts _ _ _ _ _ E) as (A & AA & m1 & mods & _ & J). split; [assumption|]. split; [|split].
    + intros a I. split; [auto|]. rewrite <- (jn_type _ _ _ _ _ J a I). lia.
    + intros T. unfold connect in E. destruct (negb _); [discriminate|]. rewrite T in E. cbn [Nat.eqb andb] in E. destruct (Nat.ltb_spec 2 (length (low m h))); [discriminate|lia].
    + unfold connect in E. destruct (negb _); [discriminate|]. destruct (Nat.eqb (fst h) 1 && _); [discriminate|]. destruct (attach h adj [] m) as [q|] eqn:Q; [|discriminate]. eapply attach_needs. exact Q.
Qed.
Print Assumptions C149_refused.
Example C149_refused_nonvacuous :
  match perform_all (empty_mesh false) (map Other example_mesh) with
  | Some m => connect None (c_ 1) [f_ 0] m = None /\ connect None (f_ 1) [n_ 0] m = None /\ connect None (f_ 1) [e_ 9] m = None /\ disconnect None (f_ 7) [e_ 0] m = None
  | None => False
  end.
Proof. vm_compute. auto. Qed.

(** * C150 *)

(** l is ordered by type and has no element twice *)
Definition by_type (l : list elem) : Prop := NoDup l /\ forall l1 x l2 y l3, l = l1 ++ x :: l2 ++ y :: l3 -> fst x <= fst y.
Lemma sorted_by_type l : StronglySorted (fun x y : elem => fst x <= fst y) l -> forall l1 x l2 y l3, l = l1 ++ x :: l2 ++ y :: l3 -> fst x <= fst y.
Proof.
  intros S l1. revert l S. induction l1 as [|z r IH]; intros l S x l2 y l3 ->; inversion S as [|? ? S' F]; subst.
  - rewrite Forall_forall in F. apply F. rewrite in_app_iff. right. now left.
  - eapply IH; [exact S'|reflexivity].
Qed.
Lemma again_sorted m mods : links [] m -> StronglySorted (fun x y : elem => fst x <= fst y) (again m mods).
Proof.
  intros L. destruct (levels m mods L) as (H1 & H2 & H3). unfold again.
  assert (C : forall (a : list elem) t b, (forall x, In x a -> fst x = t) -> (forall x, In x b -> t <= fst x) -> StronglySorted (fun x y : elem => fst x <= fst y) b ->
    StronglySorted (fun x y : elem => fst x <= fst y) (a ++ b)).
  { induction a as [|z r IH]; intros t b Ha Hb S; [assumption|]. cbn [app]. constructor; [apply (IH t); auto; intros x I; apply Ha; now right|].
    rewrite Forall_forall. intros x I. rewrite (Ha z) by now left. apply in_app_or in I. destruct I as [I|I]; [rewrite (Ha x) by (now right); lia|auto]. }
  apply (C _ 1); [intros x I; apply H1 in I; tauto|intros x I; rewrite in_app_iff, H2, H3 in I; lia|].
  apply (C _ 2); [intros x I; apply H2 in I; tauto|intros x I; rewrite H3 in I; lia|].
  rewrite <- (app_nil_r (level3 m mods)). apply (C _ 3); [intros x I; apply H3 in I; tauto|intros x []|constructor].
Qed.

(** Disconnect computes again the geometry of exactly the elements that are built, in the
    result, on an element whose lower list was changed: nothing out of date is left and
    nothing is computed without need, each element once and after those below it. *)
Theorem C150_disconnect : forall c cs m set h adj m' l, reached c cs m -> no_cells m h -> disconnect set h adj m = Some (m', l) ->
  by_type l /\ forall x, In x l <-> exists y, 1 <= fst y /\ low m' y <> low m y /\ built_on m' y x.
Proof.
  intros c cs m set h adj m' l R NC E. pose proof (reached_good _ _ _ R) as G. pose proof (g_links _ G) as L.
  destruct (alive m h && forallb (alive m) adj) eqn:A; [|unfold disconnect in E; rewrite A in E; discriminate].
  apply andb_true_iff in A. destruct A as (A & AA). rewrite forallb_forall in AA.
  destruct (disconnect_parts set h adj m G A AA) as (m1 & mods & Q & P). pose proof (parted_links _ _ _ _ _ G A P) as G'.
  rewrite Q, propagate_plain in E.
  2: { destruct (pt_mode _ _ _ _ _ P) as (ll & hh & M). destruct NC as [NC|NC]; [left; rewrite M; exact NC|right].
    destruct (level3 m1 mods) as [|x r] eqn:W; [reflexivity|]. exfalso.
    destruct (levels m1 mods (g_links _ G')) as (_ & _ & H3). destruct (proj1 (H3 x)) as (T & y & I & U); [rewrite W; now left|].
    apply (NC x); [|assumption]. apply built_up; [assumption|]. eapply up_parted; eassumption. }
  injection E as <- <-. assert (TH := s_rng _ (g_slots _ G) h A). split.
  - split; [apply again_nodup; [apply G'|apply P]|apply sorted_by_type, again_sorted, G'].
  - assert (MODS : forall y, In y mods <-> 1 <= fst y /\ low m1 y <> low m y).
    { intros y. rewrite (pt_mods _ _ _ _ _ P). split.
      - intros [(-> & T & a & I & J)|(T & I & J)].
        + split; [lia|]. rewrite (pt_low_h _ _ _ _ _ P), without_has. destruct (Nat.ltb_spec 0 (fst h)); [|lia]. intros W. rewrite <- W in J. unfold without in J.
          apply filter_In in J. destruct J as (_ & J). destruct (in_dec elem_dec a adj); [discriminate|contradiction].
        + destruct (links_high [] m h y L (fun F => F) J) as (_ & _ & V). assert (TY : fst y = S (fst h)) by (destruct V as [V|(V & _)]; lia). split; [lia|].
          assert (N : y <> h) by (intros ->; lia). pose proof (pt_low _ _ _ _ _ P y N) as K. destruct (Nat.ltb_spec (fst h) 3); [|lia]. apply has_spec in I. rewrite I in K. cbn [andb] in K.
          apply taken_all in K; [|rewrite (l_sym _ _ L h y (fun F => F)); lia]. destruct K as (K & _). intros W. apply K. rewrite W. now apply (links_in [] m h y L (fun F => F)).
      - intros (T & W). destruct (elem_dec y h) as [->|N].
        + left. split; [reflexivity|]. split; [lia|]. rewrite (pt_low_h _ _ _ _ _ P) in W. destruct (Nat.ltb_spec 0 (fst h)); [|lia].
          destruct (existsb (has adj) (low m h)) eqn:X; [apply existsb_exists in X; destruct X as (a & X & Y); apply has_spec in Y; eauto|]. exfalso. apply W.
          apply filter_all. intros x I. destruct (has adj x) eqn:Y; [|reflexivity]. exfalso. assert (Z : existsb (has adj) (low m h) = true) by (apply existsb_exists; eauto). congruence.
        + right. destruct (in_dec elem_dec y adj) as [I|I]; [|exfalso; apply W, (pt_low_eq _ _ _ _ _ P y N); auto].
          destruct (in_dec elem_dec y (high m h)) as [J|J]; [|exfalso; apply W, (pt_low_eq _ _ _ _ _ P y N); auto].
          destruct (Nat.le_gt_cases 3 (fst h)) as [K|K]; [exfalso; apply W, (pt_low_eq _ _ _ _ _ P y N); auto|]. auto. }
    intros x. rewrite (again_in _ _ _ (g_links _ G') (g_slots _ G')). split.
    + intros (_ & y & I & U). exists y. apply MODS in I. split; [apply I|]. split; [apply I|]. now apply built_up.
    + intros (y & T & W & B). apply built_up in B; [|assumption]. assert (I : In y mods) by (apply MODS; auto).
      assert (AY : alive m1 y = true).
      { destruct (pt_mode _ _ _ _ _ P) as (ll & hh & M). replace (alive m1) with (alive m) by (rewrite M; reflexivity). apply (pt_mods _ _ _ _ _ P) in I. destruct I as [(-> & _)|(_ & I & _)]; auto. }
      pose proof (up_alive _ _ _ (g_links _ G') AY B) as AX. apply (s_rng _ (g_slots _ G')) in AX. split; [|eauto]. split; [|lia].
      destruct (up_type _ _ _ (g_links _ G') B) as [V| ->]; lia.
Qed.
Print Assumptions C150_disconnect.

(** Connect computes again exactly the elements, except nodes, that are built in the result
    on h or on one of the connected elements. *)
Theorem C150_connect : forall c cs m set h adj m' l, reached c cs m -> (forall y, y = h \/ In y adj -> no_cells m y) -> connect set h adj m = Some (m', l) ->
  by_type l /\ forall x, In x l <-> 1 <= fst x /\ exists y, (y = h \/ In y adj) /\ built_on m' y x.
Proof.
  intros c cs m set h adj m' l R NC E. pose proof (reached_good _ _ _ R) as G.
  destruct (connect_parts _ _ _ _ _ E) as (A & AA & m1 & mods & Q & J). pose proof (joined_good _ _ _ _ _ G A AA J) as G'. destruct (jn_mode _ _ _ _ _ J) as (ll & hh & M).
  rewrite propagate_plain in Q.
  2: { destruct (NC h (or_introl eq_refl)) as [C|NH]; [left; rewrite M; exact C|]. destruct (cn m) eqn:C; [right|left; rewrite M; exact C].
    destruct (level3 m1 mods) as [|x r] eqn:W; [reflexivity|]. exfalso.
    destruct (levels m1 mods (g_links _ G')) as (_ & _ & H3). destruct (proj1 (H3 x)) as (T & y & I & U); [rewrite W; now left|].
    destruct (up_joined _ _ _ _ _ _ _ J U) as [V|V].
    - destruct (NC y) as [?|NY]; [apply (jn_mods _ _ _ _ _ J) in I; assumption|congruence|]. apply (NY x); [|assumption]. now apply built_up.
    - apply (NH x); [|assumption]. now apply built_up. }
  injection Q as <- <-. split.
  - split; [apply again_nodup; [apply G'|apply J]|apply sorted_by_type, again_sorted, G'].
  - intros x. rewrite (again_in _ _ _ (g_links _ G') (g_slots _ G')). split.
    + intros (T & y & I & U). split; [lia|]. exists y. apply (jn_mods _ _ _ _ _ J) in I. split; [assumption|]. now apply built_up.
    + intros (T & y & I & B). apply built_up in B; [|assumption].
      assert (AY : alive m1 y = true) by (replace (alive m1) with (alive m) by (rewrite M; reflexivity); destruct I as [->|I]; auto).
      pose proof (up_alive _ _ _ (g_links _ G') AY B) as AX. apply (s_rng _ (g_slots _ G')) in AX. split; [lia|]. exists y. split; [now apply (jn_mods _ _ _ _ _ J)|assumption].
Qed.
Print Assumptions C150_connect.
(** an edge loses a node: the edge, its two faces and their two cells are computed again *)
Example C150_nonvacuous :
  match perform_all (empty_mesh false) (map Other example_mesh) with
  | Some m => match disconnect None (e_ 0) [n_ 1] m with Some (_, l) => l = [e_ 0; f_ 0; f_ 1; c_ 0; c_ 1] | None => False end /\
              match disconnect None (e_ 0) [f_ 1; e_ 2] m with Some (_, l) => l = [f_ 1; c_ 0] | None => False end /\
              match connect None (f_ 1) [e_ 1] m with Some (_, l) => l = [e_ 1; f_ 1; f_ 0; c_ 0; c_ 1] | None => False end
  | None => False
  end.
Proof. vm_compute. auto. Qed.

(** * C151 *)

(** n is a node below the cell x *)
Definition node_of (m : mesh) (n x : elem) : Prop := exists f e, In f (low m x) /\ In e (low m f) /\ In n (low m e).

(** The lists of nodes kept by cells are not brought up to date: no call of Disconnect or
    Connect puts a node into the list of a cell, what is added is an element set. *)
Theorem C151_no_new_nodes_refuted : forall c cs m set h adj m' l, reached c cs m -> (forall s, set = Some s -> fst s = 4) ->
  disconnect set h adj m = Some (m', l) \/ connect set h adj m = Some (m', l) ->
  forall x n, fst x = 3 -> In n (high m' x) -> In n (high m x) \/ set = Some n.
Proof.
  intros c cs m set h adj m' l R S4 E x n T I. pose proof (reached_good _ _ _ R) as G. pose proof (g_links _ G) as L.
  assert (W : exists m1 mods, propagate set mods m1 = Some (m', l) /\ good m1 /\ NoDup mods /\ high m1 x = high m x).
  { destruct E as [E|E].
    - destruct (alive m h && forallb (alive m) adj) eqn:A; [|unfold disconnect in E; rewrite A in E; discriminate].
      apply andb_true_iff in A. destruct A as (A & AA). rewrite forallb_forall in AA.
      destruct (disconnect_parts set h adj m G A AA) as (m1 & mods & Q & P). exists m1, mods. split; [congruence|]. split; [eapply parted_links; eassumption|]. split; [apply P|].
      destruct (elem_dec x h) as [->|N]; [rewrite (pt_high_h _ _ _ _ _ P), T; reflexivity|]. apply (pt_high_eq _ _ _ _ _ P x N). right.
      destruct (in_dec elem_dec x (low m h)) as [J|J]; [|now left]. right. assert (TH := s_rng _ (g_slots _ G) h A). destruct (l_ok _ _ L _ _ J) as (_ & _ & [V|(_ & V & _)]); lia.
    - destruct (connect_parts _ _ _ _ _ E) as (A & AA & m1 & mods & Q & J). exists m1, mods. split; [assumption|]. split; [eapply joined_good; eassumption|]. split; [apply J|].
      rewrite (jn_high _ _ _ _ _ J), cnt_zero; [now rewrite app_nil_r|]. intro K. apply (jn_type _ _ _ _ _ J) in K. assert (TH := s_rng _ (g_slots _ G) h A). lia. }
  destruct W as (m1 & mods & Q & G1 & D & HE). destruct (cn m1) eqn:C.
  - destruct set as [s|].
    + destruct (propagate_some s mods m1 G1 D C (S4 s eq_refl)) as (m2 & Q2 & _ & K & _). rewrite Q2 in Q. injection Q as <- <-.
      destruct (K x n I) as [J| ->]; [left; congruence|now right].
    + left. rewrite <- HE. unfold propagate in Q. rewrite C in Q. cbv beta iota zeta in Q. match type of Q with context [update_cells ?a ?b ?d] => destruct (update_cells a b d) as [m2|] eqn:U end; [|discriminate Q]. injection Q as <- <-.
      clear - U I. revert U. generalize (level3 m1 mods). intros cs. revert m1. induction cs as [|d r IH]; intros m1; cbn [update_cells]; [intros U; injection U as <-; assumption|].
      match goal with |- context [update_nodes ?a ?b ?e] => destruct (update_nodes a b e) as [m3|] eqn:U3 end; [|discriminate]. intros U. apply IH in U. destruct (update_none _ _ _ U3) as (_ & ll & -> & _). cbn [set_conn high] in U.
      destruct (elem_dec x d) as [->|N]; [rewrite upd_same in U; destruct U|rewrite upd_other in U; assumption].
  - rewrite propagate_plain in Q by now left. injection Q as <- <-. left. congruence.
Qed.
Print Assumptions C151_no_new_nodes_refuted.

(** When the cells keep such lists, which is the default, a call that affects a cell with a
    node fails if there is no element set of a certain number s, and otherwise this set
    becomes a "node" of the cell. *)
Theorem C151_set_as_node_refuted : forall c cs m h adj x n, reached c cs m -> cn m = true -> fst x = 3 ->
  (forall m' l, disconnect None h adj m = Some (m', l) \/ connect None h adj m = Some (m', l) -> In x l -> ~ node_of m' n x) /\
  (forall s m' l, fst s = 4 -> disconnect (Some s) h adj m = Some (m', l) \/ connect (Some s) h adj m = Some (m', l) ->
     In x l -> node_of m' n x -> In s (high m' x)).
Proof.
  intros c cs m h adj x n R C T. pose proof (reached_good _ _ _ R) as G. pose proof (g_links _ G) as L.
  assert (W : forall set m' l, disconnect set h adj m = Some (m', l) \/ connect set h adj m = Some (m', l) ->
    exists m1 mods, propagate set mods m1 = Some (m', l) /\ good m1 /\ NoDup mods /\ cn m1 = true).
  { intros set m' l [E|E].
    - destruct (alive m h && forallb (alive m) adj) eqn:A; [|unfold disconnect in E; rewrite A in E; discriminate].
      apply andb_true_iff in A. destruct A as (A & AA). rewrite forallb_forall in AA.
      destruct (disconnect_parts set h adj m G A AA) as (m1 & mods & Q & P). exists m1, mods. split; [congruence|]. split; [eapply parted_links; eassumption|]. split; [apply P|].
      destruct (pt_mode _ _ _ _ _ P) as (ll & hh & M). rewrite M. assumption.
    - destruct (connect_parts _ _ _ _ _ E) as (A & AA & m1 & mods & Q & J). exists m1, mods. split; [assumption|]. split; [eapply joined_good; eassumption|]. split; [apply J|].
      destruct (jn_mode _ _ _ _ _ J) as (ll & hh & M). rewrite M. assumption. }
  assert (NB : forall m1 m', good m1 -> (forall z, 1 <= fst z <= 3 -> low m' z = low m1 z) -> node_of m' n x -> In n (nodes_below m1 x)).
  { intros m1 m' G1 E (f & e & F & EE & N). apply nodes_below_in. exists f, e. rewrite E in F by lia.
    assert (TF : fst f = 2). { destruct (l_ok _ _ (g_links _ G1) _ _ F) as (_ & _ & [V|(_ & V & _)]); rewrite T in V; [lia|discriminate]. }
    rewrite E in EE by lia. assert (TE : fst e = 1). { destruct (l_ok _ _ (g_links _ G1) _ _ EE) as (_ & _ & [V|(_ & V & _)]); lia. }
    rewrite E in N by lia. auto. }
  split.
  - intros m' l E I Z. destruct (W _ _ _ E) as (m1 & mods & Q & G1 & D & C1). destruct (propagate_none _ _ _ _ G1 Q) as (-> & _ & LO & _ & K).
    specialize (K C1 x I T). apply (NB m1 m' G1) in Z; [|intros z [? ?]; now apply LO]. rewrite K in Z. destruct Z.
  - intros s m' l S4 E I Z. destruct (W _ _ _ E) as (m1 & mods & Q & G1 & D & C1). destruct (propagate_some s mods m1 G1 D C1 S4) as (m2 & Q2 & LO & _ & K).
    rewrite Q2 in Q. injection Q as <- <-. apply K; [assumption|assumption|]. apply (NB m1 m2 G1 LO) in Z. intro X. rewrite X in Z. destruct Z.
Qed.
Print Assumptions C151_set_as_node_refuted.
(** the default mesh: removing an edge of a face of a cell fails; with a set numbered like
    the marker, the cell has the set among its nodes *)
Example C151_witness :
  match perform_all (empty_mesh true) (map Other example_mesh) with
  | Some m => disconnect None (f_ 0) [e_ 2] m = None /\ connect None (f_ 0) [e_ 4] m = None /\
              match disconnect (Some (4, 0)) (f_ 0) [e_ 2] m with
              | Some (m', _) => (high m' (c_ 0), low m' (4, 0)) = ([n_ 0; n_ 1; n_ 2; n_ 3; (4, 0)], [c_ 0; c_ 1])
              | None => False
              end /\
              match connect (Some (4, 0)) (c_ 1) [f_ 1] m with
              | Some (m', _) => node_of m' (n_ 3) (c_ 1) /\ high m' (c_ 1) = [n_ 0; n_ 1; n_ 2; (4, 0)]
              | None => False
              end
  | None => False
  end.
Proof. vm_compute. split; [reflexivity|]. split; [reflexivity|]. split; [reflexivity|]. split; [|reflexivity]. exists (f_ 1), (e_ 3). vm_compute. auto 10. Qed.

(** An edge with two nodes accepts a third one: the assertion that should prevent it
    compares with more than two. *)
Theorem C151_third_node_refuted : forall c cs m set h n, reached c cs m -> alive m h = true -> fst h = 1 -> alive m n = true -> fst n = 0 ->
  length (low m h) = 2 -> no_cells m h -> no_cells m n ->
  exists m' l, connect set h [n] m = Some (m', l) /\ length (low m' h) = 3.
Proof.
  intros c cs m set h n R A T AN TN LE NC NN.
  destruct (C149_connect c cs m set h [n] R A) as (m' & l & E & _ & LH & _).
  - intros a [<-|[]]. assumption.
  - intros y [->|[<-|[]]]; assumption.
  - intros a [<-|[]]. lia.
  - lia.
  - lia.
  - exists m', l. split; [assumption|]. rewrite LH, app_length, LE. reflexivity.
Qed.
Print Assumptions C151_third_node_refuted.
Example C151_third_node_witness :
  match perform_all (empty_mesh true) (map Other (firstn 5 example_mesh)) with
  | Some m => match connect None (e_ 0) [n_ 2] m with Some (m', _) => low m' (e_ 0) = [n_ 0; n_ 1; n_ 2] | None => False end
  | None => False
  end.
Proof. vm_compute. reflexivity. Qed.
