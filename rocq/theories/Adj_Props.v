(** C43 (adjacency is symmetric and destruction is complete), C44 (no duplicates),
    C45 (hiding, deletion and the end of a modification). *)
From Coq Require Import List Arith ZArith Bool Lia Permutation.
From Verif Require Import Adj_Model Adj_Proofs.
Import ListNotations.
Local Open Scope nat_scope.

(** number of times x is listed in l *)
Definition times (l : list elem) (x : elem) : nat := count_occ elem_dec l x.
(** m is the state after the calls os on a new mesh (c: cells keep lists of their nodes) *)
Definition history (c : bool) (os : list op) (m : mesh) : Prop := run (empty_mesh c) os = Some m.
(** x is h or is built, through lower lists, on h *)
Inductive built_on (m : mesh) (h : elem) : elem -> Prop :=
| built_self : built_on m h h
| built_low : forall y x, built_on m h y -> 1 <= fst x -> In y (low m x) -> built_on m h x.

Lemma history_good c os m : history c os m -> good m.
Proof. apply good_run. apply good_empty. Qed.
Lemma built_up m h x : good m -> (built_on m h x <-> up m h x).
Proof.
  intros G. pose proof (g_links _ G) as L. split; intros H.
  - induction H as [|y x H IH T I]; [constructor|].
    destruct (low_high m y x L (g_slots _ G) I T). eapply up_step; eassumption.
  - induction H as [|y x H IH T I]; [constructor|].
    destruct (links_high [] m y x L (fun F => F) I) as (_ & _ & V).
    eapply built_low; [exact IH| |apply (links_in [] m y x L (fun F => F)); assumption].
    destruct V as [V|(V & _)]; lia.
Qed.

(** two triangles that share the edge between nodes 0 and 1; each is one face of a cell *)
Definition n_ i : elem := (0, i). Definition e_ i : elem := (1, i). Definition f_ i : elem := (2, i). Definition c_ i : elem := (3, i).
Definition example_mesh : list op :=
  [ONode; ONode; ONode; ONode;
   OCreate 1 true [n_ 0; n_ 1] []; OCreate 1 true [n_ 1; n_ 2] []; OCreate 1 true [n_ 2; n_ 0] [];
   OCreate 1 true [n_ 1; n_ 3] []; OCreate 1 true [n_ 3; n_ 0] [];
   OCreate 2 true [e_ 0; e_ 1; e_ 2] []; OCreate 2 true [e_ 0; e_ 3; e_ 4] [];
   OCreate 3 true [f_ 0; f_ 1] [n_ 0; n_ 1; n_ 2; n_ 3]; OCreate 3 false [f_ 0] [n_ 0; n_ 1; n_ 2]].

(** * C43 *)

(** After any sequence of calls, in and out of modifications, an element x is listed
    below y exactly as many times as y is listed above x, both exist, and their types are
    consecutive (or they are a cell and one of its nodes). *)
Theorem C43_symmetric : forall c os m, history c os m ->
  (forall x y, times (low m y) x = times (high m x) y) /\
  (forall x y, In x (low m y) -> alive m x = true /\ alive m y = true /\
     (fst y = fst x + 1 \/ fst x = 3 /\ fst y = 0 /\ c = true)).
Proof.
  intros c os m H. pose proof (history_good _ _ _ H) as G. pose proof (g_links _ G) as L. split.
  - intros x y. apply (l_sym _ _ L x y (fun F => F)).
  - intros x y I. destruct (l_ok _ _ L x y I) as (A & B & V). split; [assumption|]. split; [assumption|].
    assert (CN : forall os m m', good m -> run m os = Some m' -> cn m' = cn m).
    { clear. induction os as [|o r IH]; intros m m' G; cbn [run]; [intros H; inversion H; reflexivity|].
      destruct (step m o) as [m1|] eqn:E; [|discriminate]. intros H. rewrite (IH _ _ (good_step _ _ _ G E) H). clear H IH.
      destruct o as [|t0 dup lows nodes|h|h|h|h| | |]; cbn [step] in E.
      - inversion E; subst. destruct (create_node_spec m (g_links _ G) (g_slots _ G)) as (h & _ & T & K). apply (c_mode _ _ _ _ _ K).
      - destruct (create m t0 dup lows nodes) as [[[m2 rr] b]|] eqn:Q; [|discriminate]. inversion E; subst.
        destruct (good_create _ _ _ _ _ _ _ _ G Q) as (AR & [(_ & -> & _)|[(_ & _ & -> & _)|(NE & SH & _ & h & _ & T & K)]]); try reflexivity.
        apply (c_mode _ _ _ _ _ K).
      - pose proof (destroy_alive _ _ _ _ E) as A.
        destruct (hon m) eqn:HO; [rewrite destroy_asserts in E; [discriminate|rewrite (g_mode _ G); assumption]|].
        destruct (destroy_spec h m (g_links _ G) (g_slots _ G) A HO) as (m2 & Q & K & UP); [rewrite (g_mode _ G); assumption|].
        rewrite Q in E. inversion E; subst. apply (k_mode _ _ _ K).
      - pose proof (delete_quiet _ _ _ _ G E) as A. destruct (hon m) eqn:HO.
        + destruct (hides_all 4 h m (g_links _ G) (g_slots _ G) A HO) as (m2 & Q & K & UH); [lia|].
          rewrite Q in E. inversion E; subst. apply (h_cn _ _ K).
        + destruct (kills_all 4 [] h m (g_links _ G) (g_slots _ G) A) as (m2 & Q & K & UP);
            [intros e []|assumption|rewrite (g_mode _ G); assumption|lia|].
          rewrite Q in E. inversion E; subst. apply (k_mode _ _ _ K).
      - destruct (alive m h) eqn:A; [|discriminate]. cbn in E. inversion E; subst. destruct (hon m) eqn:HO; [|reflexivity].
        destruct (hide_spec m h HO (g_slots _ G) A (g_links _ G)) as (K & U). apply (h_cn _ _ K).
      - destruct (alive m h) eqn:A; [|discriminate]. cbn in E. inversion E; subst. destruct (hon m); [|reflexivity].
        unfold show. destruct (hidden m h); reflexivity.
      - unfold begin_modification in E. destruct (hon m); [discriminate|]. inversion E; reflexivity.
      - unfold swap_modification in E. destruct (hon m); [|discriminate]. inversion E; reflexivity.
      - assert (HO : hon m = true) by (unfold end_modification in E; destruct (hon m); [reflexivity|discriminate]).
        destruct (end_spec m (g_links _ G) (g_slots _ G) HO) as (m2 & Q & _ & _ & _ & _ & _ & _ & _ & CQ & _).
        rewrite Q in E. inversion E; subst. assumption. }
    unfold history in H. apply CN in H; [|apply good_empty]. cbn in H. rewrite H in V.
    destruct V as [V|V]; [left; lia|right; assumption].
Qed.
Print Assumptions C43_symmetric.
Example C43_symmetric_nonvacuous :
  match run (empty_mesh true) (example_mesh ++ [OBegin; ODelete (e_ 3); OEnd; ODestroy (n_ 2)]) with
  | Some m => map (low m) [e_ 0; n_ 0] = [[n_ 0; n_ 1]; []] /\ high m (n_ 0) = [e_ 0; e_ 4] /\ alive m (f_ 0) = false
  | None => False
  end.
Proof. vm_compute. auto. Qed.

(** Destroy outside of a modification removes exactly the element and everything built on
    it; survivors keep their complete lower lists, and their upper lists (and the cells of a
    node) lose exactly the removed elements, in order. *)
Theorem C43_destroy : forall c os m h, history c os m -> hon m = false -> alive m h = true ->
  exists m', destroy h m = Some m' /\
    (forall x, alive m' x = true <-> alive m x = true /\ ~ built_on m h x) /\
    (forall x, alive m x = true -> alive m' x = false -> built_on m h x) /\
    (forall x, alive m' x = true -> 1 <= fst x -> low m' x = low m x) /\
    (forall x, alive m' x = true -> low m' x = filter (alive m') (low m x) /\ high m' x = filter (alive m') (high m x)) /\
    (forall x, alive m' x = false -> low m' x = [] /\ high m' x = []).
Proof.
  intros c os m h H HO A. pose proof (history_good _ _ _ H) as G.
  destruct (destroy_spec h m (g_links _ G) (g_slots _ G) A HO) as (m' & E & K & U); [rewrite (g_mode _ G); assumption|].
  exists m'. split; [assumption|]. split; [|split; [|split; [|split]]].
  - intros x. rewrite (built_up m h x G). split.
    + intros X. pose proof (k_alive _ _ _ K x X) as X0. split; [assumption|]. intros Q. apply (U x X0) in Q. congruence.
    + intros (X & N). destruct (alive m' x) eqn:Q; [reflexivity|]. apply (U x X) in Q. contradiction.
  - intros x X Q. apply (built_up m h x G). apply (U x X). assumption.
  - apply (up_low_kept m m' h G K U).
  - intros x X. split; [apply (k_low _ _ _ K x X)|apply (k_high _ _ _ K x X (fun F => F))].
  - intros x X. destruct (k_dead _ _ _ K x X) as (H1 & H2 & _). auto.
Qed.
Print Assumptions C43_destroy.
Example C43_destroy_nonvacuous :
  match run (empty_mesh true) example_mesh with
  | Some m => hon m = false /\ alive m (e_ 3) = true /\
      match destroy (e_ 3) m with
      | Some m' => map (alive m') [n_ 3; e_ 3; e_ 4; f_ 0; f_ 1; c_ 0; c_ 1] = [true; false; true; true; false; false; true] /\
                   low m' (n_ 0) = [c_ 1] /\ high m' (f_ 0) = [c_ 1]
      | None => False end
  | None => False
  end.
Proof. vm_compute. auto 10. Qed.

(** During a modification Destroy fails the assertion in UntieElement. *)
Theorem C43_destroy_in_modification : forall c os m h, history c os m -> hon m = true -> destroy h m = None.
Proof. intros c os m h H HO. apply destroy_asserts. rewrite (g_mode _ (history_good _ _ _ H)). assumption. Qed.
Print Assumptions C43_destroy_in_modification.
Example C43_destroy_in_modification_nonvacuous :
  match run (empty_mesh true) (example_mesh ++ [OBegin]) with Some m => hon m = true /\ destroy (n_ 0) m = None | None => False end.
Proof. vm_compute. auto. Qed.

(** * C44 *)

(** FindSharedAdjacency finds an element whenever a visible one lies above all the visible
    arguments, and then it is the first such in the order of the upper list of the first
    visible argument; with no visible argument it reads outside of the array. *)
Definition common (m : mesh) (arr : list elem) (x : elem) : Prop :=
  visible m x = true /\ forall a, In a arr -> visible m a = true -> In a (low m x).
Theorem C44_find : forall c os m arr, history c os m -> arr <> [] -> (forall a, In a arr -> fst a < 3) ->
  match filter (visible m) arr with
  | [] => shared m arr = None
  | k :: _ => exists r, shared m arr = Some r /\
     match r with
     | Some x => exists p q, high m k = p ++ x :: q /\ common m arr x /\ (forall z, In z p -> ~ common m arr z)
     | None => forall x, ~ common m arr x
     end
  end.
Proof.
  intros c os m arr H NE T. pose proof (g_links _ (history_good _ _ _ H)) as L.
  assert (Q : forall x, common m arr x <-> visible m x = true /\ forall a, In a arr -> visible m a = true -> In x (high m a)).
  { intros x. unfold common. split; intros (V & J); (split; [assumption|]); intros a Ia Va; apply (links_in [] m a x L (fun F => F)); auto. }
  pose proof (shared_spec m arr NE T) as SP. destruct (filter (visible m) arr) as [|k rest]; [exact SP|].
  destruct SP as (r & E & SP). exists r. split; [assumption|]. destruct r as [x|].
  - destruct SP as (p & q & E1 & E2 & E3). exists p, q. split; [assumption|]. split; [apply Q; assumption|].
    intros z Z C. apply (E3 z Z). apply Q. assumption.
  - intros x C. apply (SP x). apply Q. assumption.
Qed.
Print Assumptions C44_find.
Example C44_find_nonvacuous :
  match run (empty_mesh false) (example_mesh ++ [OBegin; ODelete (f_ 0)]) with
  | Some m => shared m [n_ 1; n_ 0] = Some (Some (e_ 0)) /\ shared m [n_ 2; n_ 3] = Some None /\
              shared m [e_ 0] = Some (Some (f_ 1)) /\ shared m [f_ 0] = None
  | None => False
  end.
Proof. vm_compute. auto. Qed.

(** Creation of an edge, face or cell: either the element found above all the arguments is
    returned and nothing changes, or a new element with exactly these lower elements is added
    and everything else stays, the new element being appended to their upper lists. *)
Theorem C44_create : forall c os m t dup lows nodes m' r b, history c os m ->
  create m t dup lows nodes = Some (m', r, b) -> lows <> [] ->
  exists h, r = Some h /\
  ((b = false /\ dup = true /\ m' = m /\ common m lows h) \/
   (b = true /\ (dup = true -> forall x, ~ common m lows x) /\ fst h = t /\ alive m h = false /\
    (forall x, alive m' x = true <-> alive m x = true \/ x = h) /\
    low m' h = lows /\
    (forall x, x <> h -> 1 <= fst x -> low m' x = low m x) /\
    (forall x, x <> h -> high m' x = high m x ++ repeat h (times lows x)) /\
    (t = 3 -> cn m = true -> high m' h = nodes /\ forall x, x <> h -> low m' x = low m x ++ repeat h (times nodes x)) /\
    (t < 3 -> high m' h = [] /\ forall x, x <> h -> low m' x = low m x))).
Proof.
  intros c os m t dup lows nodes m' r b H E NE. pose proof (history_good _ _ _ H) as G.
  assert (LT : args m t lows nodes -> forall a, In a lows -> fst a < 3) by (intros (T & A & _) a I; apply A in I; lia).
  destruct (good_create _ _ _ _ _ _ _ _ G E) as (AR & [(Q & _)|[(_ & DD & -> & -> & e & -> & SH)|(_ & SH & -> & h & -> & T & K)]]); [contradiction| |].
  - exists e. split; [reflexivity|]. left. split; [reflexivity|]. split; [assumption|]. split; [reflexivity|].
    pose proof (C44_find c os m lows H NE (LT AR)) as F. destruct (filter (visible m) lows); [congruence|].
    destruct F as (r & E1 & F). rewrite SH in E1. inversion E1; subst r. destruct F as (p & q & _ & F & _). assumption.
  - exists h. split; [reflexivity|]. right. split; [reflexivity|]. split.
    { intros DD. specialize (SH DD). pose proof (C44_find c os m lows H NE (LT AR)) as F. destruct (filter (visible m) lows); [congruence|].
      destruct F as (r & E1 & F). rewrite SH in E1. inversion E1; subst r. assumption. }
    split; [assumption|]. split; [apply (c_fresh _ _ _ _ _ K)|].
    split; [|split; [|split; [|split; [|split]]]].
    + intros x. rewrite (c_alive _ _ _ _ _ K). destruct (eqe x h) eqn:Q.
      * apply eqe_spec in Q. tauto.
      * apply eqe_neq in Q. tauto.
    + rewrite (c_low _ _ _ _ _ K), eqe_refl. reflexivity.
    + intros x N TX. rewrite (c_low _ _ _ _ _ K). apply eqe_neq in N. rewrite N.
      replace (count_occ elem_dec _ x) with 0; [apply app_nil_r|]. symmetry. apply cnt_zero. intros I.
      destruct AR as (_ & _ & AN). destruct ((t =? 3) && cn m); [|destruct I]. apply AN in I. lia.
    + intros x N. rewrite (c_high _ _ _ _ _ K). apply eqe_neq in N. rewrite N. reflexivity.
    + intros T3 C. rewrite (c_high _ _ _ _ _ K), eqe_refl, C. rewrite T3. split; [reflexivity|].
      intros x N. rewrite (c_low _ _ _ _ _ K), C, T3. apply eqe_neq in N. rewrite N. reflexivity.
    + intros T3. assert (Q : (t =? 3) = false) by (apply Nat.eqb_neq; lia). rewrite (c_high _ _ _ _ _ K), eqe_refl, Q.
      split; [reflexivity|]. intros x N. rewrite (c_low _ _ _ _ _ K), Q. apply eqe_neq in N. rewrite N. apply app_nil_r.
Qed.
Print Assumptions C44_create.
Example C44_create_nonvacuous :
  match run (empty_mesh false) example_mesh with
  | Some m =>
     match create m 1 true [n_ 1; n_ 0] [], create m 1 true [n_ 2; n_ 3] [] with
     | Some (_, r, b), Some (m2, r2, b2) => (r, b) = (Some (e_ 0), false) /\ (r2, b2) = (Some (e_ 5), true) /\ high m2 (n_ 3) = [e_ 3; e_ 4; e_ 5]
     | _, _ => False end
  | None => False
  end.
Proof. vm_compute. auto. Qed.

(** With the duplicate checks on, creation over visible elements, and no use of Hide, Show
    and SwapModification, no two visible elements of one type ever have the same set of
    lower elements. *)
Theorem C44_no_duplicates : forall c os m x y, history c os m -> tidy_run (empty_mesh c) os ->
  alive m x = true -> alive m y = true -> visible m x = true -> visible m y = true ->
  1 <= fst x -> fst x = fst y -> (forall a, In a (low m x) <-> In a (low m y)) -> x = y.
Proof.
  intros c os m x y H T Ax Ay Vx Vy T1 T2 EQ.
  destruct (tidy_run_spec os (empty_mesh c) m (good_empty c)) as (_ & D); try assumption.
  - intros a b Q. discriminate.
  - intros a b Q. discriminate.
  - destruct (elem_dec x y) as [E|N]; [assumption|]. exfalso. apply (D x y Ax Ay Vx Vy T1 T2 N EQ).
Qed.
Print Assumptions C44_no_duplicates.
Example C44_no_duplicates_nonvacuous :
  tidy_run (empty_mesh false) (firstn 12 example_mesh ++ [OBegin; ODelete (f_ 0); OCreate 2 true [e_ 1; e_ 2; e_ 0] []; OEnd]) /\
  match run (empty_mesh false) (firstn 12 example_mesh ++ [OBegin; ODelete (f_ 0); OCreate 2 true [e_ 1; e_ 2; e_ 0] []; OEnd]) with
  | Some m => map (alive m) [f_ 0; f_ 1; f_ 2] = [false; true; true]
  | None => False
  end.
Proof.
  split; [|vm_compute; reflexivity].
  vm_compute. repeat match goal with |- _ /\ _ => split | |- _ -> _ => intro | |- True => exact I end; auto;
    repeat match goal with H : _ \/ _ |- _ => destruct H | H : False |- _ => destruct H end; subst; reflexivity.
Qed.
(** Hide breaks this: an element created while its twin was hidden stays beside it after Show. *)
Theorem C44_show_refuted : exists os m x y, history false os m /\ alive m x = true /\ alive m y = true /\
  visible m x = true /\ visible m y = true /\ x <> y /\ fst x = 1 /\ fst y = 1 /\ low m x = low m y /\
  (forall t dup lows nodes, In (OCreate t dup lows nodes) os -> dup = true).
Proof.
  exists [ONode; ONode; OCreate 1 true [n_ 0; n_ 1] []; OBegin; OHide (e_ 0); OCreate 1 true [n_ 0; n_ 1] []; OShow (e_ 0); OEnd].
  eexists. exists (e_ 0), (e_ 1). split; [vm_compute; reflexivity|]. cbn. repeat split; try discriminate.
  intros t dup lows nodes I. repeat (destruct I as [I|I]; [inversion I; reflexivity|]). destruct I.
Qed.
Print Assumptions C44_show_refuted.

(** * C45 *)

(** Delete inside a modification removes nothing but hides the element and everything that
    can be reached from it through upper lists without passing an already hidden one. *)
Inductive reaches (m : mesh) (h : elem) : elem -> Prop :=
| reaches_self : reaches m h h
| reaches_up : forall y x, reaches m h y -> 1 <= fst x -> In y (low m x) -> hidden m x = false -> reaches m h x.
Theorem C45_delete : forall c os m h, history c os m -> hon m = true -> alive m h = true ->
  exists m', step m (ODelete h) = Some m' /\
    (forall x, alive m' x = alive m x) /\ (forall x, low m' x = low m x) /\
    (forall x, hidden m' x = true <-> hidden m x = true \/ reaches m h x) /\
    (forall x, Permutation (high m x) (high m' x)) /\
    (forall x, filter (visible m') (high m' x) = filter (visible m') (high m x)).
Proof.
  intros c os m h H HO A. pose proof (history_good _ _ _ H) as G.
  destruct (hides_all 4 h m (g_links _ G) (g_slots _ G) A HO) as (m' & E & K & U); [lia|].
  exists m'. split; [exact E|]. split; [intros x; rewrite (h_alive _ _ K); reflexivity|].
  split; [intros x; rewrite (h_low _ _ K); reflexivity|].
  assert (R : forall x, reaches m h x <-> reach m h x).
  { intros x. split; intros Q.
    - induction Q as [|y x Q IH T I V]; [constructor|].
      destruct (low_high m y x (g_links _ G) (g_slots _ G) I T). eapply reach_step; try eassumption.
      unfold hidden in V. rewrite HO in V. exact V.
    - induction Q as [|y x Q IH T I V]; [constructor|].
      destruct (links_high [] m y x (g_links _ G) (fun F => F) I) as (_ & _ & W).
      eapply reaches_up; [exact IH| |apply (links_in [] m y x (g_links _ G) (fun F => F)); assumption|unfold hidden; rewrite HO; exact V].
      destruct W as [W|(W & _)]; lia. }
  split; [intros x; unfold hidden at 1 2; rewrite (h_hon _ _ K), HO; cbn; rewrite U, R; reflexivity|].
  split; [apply (h_perm _ _ K)|]. intros x. apply (h_vis _ _ K). auto.
Qed.
Print Assumptions C45_delete.
Example C45_delete_nonvacuous :
  match run (empty_mesh true) (example_mesh ++ [OBegin]) with
  | Some m => hon m = true /\ match step m (ODelete (e_ 3)) with
      | Some m' => map (hidden m') [e_ 3; f_ 0; f_ 1; c_ 0; c_ 1; n_ 3] = [true; false; true; true; false; false] /\ high m' (f_ 0) = [c_ 1; c_ 0]
      | None => False end
  | None => False
  end.
Proof. vm_compute. auto. Qed.

(** If all that is built on hidden elements is hidden (true as long as Hide, Show and
    SwapModification are not used), Delete hides all that is built on the element. *)
Theorem C45_delete_all : forall c os m h, history c os m -> hon m = true -> alive m h = true ->
  (forall x y, hidden m y = true -> 1 <= fst x -> In y (low m x) -> hidden m x = true) ->
  exists m', step m (ODelete h) = Some m' /\
    (forall x, hidden m' x = true <-> hidden m x = true \/ built_on m h x).
Proof.
  intros c os m h H HO A UC. destruct (C45_delete c os m h H HO A) as (m' & E & _ & _ & U & _).
  exists m'. split; [assumption|]. intros x. rewrite U. split; intros [X|X]; auto.
  - right. induction X as [|y x Q IH T I V]; [constructor|]. eapply built_low; eassumption.
  - assert (Q : reaches m h x \/ hidden m x = true); [|tauto].
    induction X as [|y x Q IH T I]; [left; constructor|]. destruct (hidden m x) eqn:HX; [auto|]. left.
    destruct IH as [IH|IH]; [eapply reaches_up; eassumption|]. rewrite (UC x y IH T I) in HX. discriminate.
Qed.
Print Assumptions C45_delete_all.
Theorem C45_delete_closed : forall c os m, history c os m -> tidy_run (empty_mesh c) os ->
  forall x y, hidden m y = true -> 1 <= fst x -> In y (low m x) -> hidden m x = true.
Proof.
  intros c os m H T x y Y TX I. pose proof (history_good _ _ _ H) as G.
  destruct (tidy_run_spec os (empty_mesh c) m (good_empty c)) as (U & _); try assumption; try (intros a b Q; discriminate).
  destruct (low_high m y x (g_links _ G) (g_slots _ G) I TX). unfold hidden in *. apply andb_true_iff in Y. destruct Y as (-> & Y).
  apply (U x y Y); assumption.
Qed.
Print Assumptions C45_delete_closed.
Example C45_delete_all_nonvacuous :
  match run (empty_mesh true) (firstn 12 example_mesh ++ [OBegin; ODelete (f_ 0)]) with
  | Some m => hon m = true /\ hidden m (f_ 0) = true /\ hidden m (c_ 0) = true /\ hidden m (f_ 1) = false /\
      match step m (ODelete (e_ 0)) with Some m' => hidden m' (f_ 1) = true | None => False end
  | None => False
  end.
Proof. vm_compute. auto 10. Qed.
(** Otherwise Delete can leave visible elements that are built on the deleted one. *)
Theorem C45_delete_all_refuted : exists os m h x m', history false os m /\ hon m = true /\ alive m h = true /\
  step m (ODelete h) = Some m' /\ built_on m h x /\ hidden m' x = false.
Proof.
  exists (example_mesh ++ [OBegin; OHide (e_ 3); OHide (e_ 4)]). eexists. exists (n_ 3), (f_ 1). eexists.
  split; [vm_compute; reflexivity|]. split; [reflexivity|]. split; [reflexivity|]. split; [vm_compute; reflexivity|].
  split; [|vm_compute; reflexivity].
  eapply built_low with (y := e_ 3); [eapply built_low with (y := n_ 3); [constructor| |]| |]; cbn; auto.
Qed.
Print Assumptions C45_delete_all_refuted.

(** EndModification destroys exactly the hidden elements: the others keep their lists without
    the destroyed elements, in order; no marker, count or mode is left. *)
Theorem C45_end : forall c os m, history c os m -> hon m = true ->
  exists m', step m OEnd = Some m' /\
    (forall x, alive m' x = true <-> alive m x = true /\ hidden m x = false) /\
    (forall x, alive m' x = true -> low m' x = filter (visible m) (low m x) /\ high m' x = filter (visible m) (high m x)) /\
    (forall x, alive m' x = false -> low m' x = [] /\ high m' x = []) /\
    (forall x, hid m' x = false /\ nw m' x = false) /\ hon m' = false /\ non m' = false /\
    (forall t, hcount m' t = 0%Z /\ hcount0 m' t = 0%Z).
Proof.
  intros c os m H HO. pose proof (history_good _ _ _ H) as G.
  destruct (end_spec m (g_links _ G) (g_slots _ G) HO) as (m' & E & L & S1 & AE & LE & HN & M1 & M2 & _ & _ & HC).
  exists m'. split; [assumption|].
  assert (HH : forall x, hidden m x = hid m x) by (intros x; unfold hidden; rewrite HO; reflexivity).
  assert (AV : forall x, alive m x = true -> alive m' x = visible m x) by (intros x A; rewrite AE, A; unfold visible; rewrite HH; reflexivity).
  split; [intros x; rewrite AE, andb_true_iff, negb_true_iff, HH; reflexivity|]. split.
  { intros x X. destruct (LE x X) as (-> & ->). split; apply filter_ext_in; intros y I; apply AV.
    - apply (l_ok _ _ (g_links _ G) y x I).
    - apply (links_high [] m x y (g_links _ G) (fun F => F) I). }
  split; [|auto]. intros x X. destruct (l_dead _ _ L x X) as (H1 & H2 & _). auto.
Qed.
Print Assumptions C45_end.
Example C45_end_nonvacuous :
  match run (empty_mesh true) (example_mesh ++ [OBegin; OHide (f_ 1)]) with
  | Some m => hon m = true /\ match step m OEnd with
      | Some m' => map (alive m') [f_ 0; f_ 1; c_ 0] = [true; false; true] /\ low m (c_ 0) = [f_ 0; f_ 1] /\ low m' (c_ 0) = [f_ 0]
      | None => False end
  | None => False
  end.
Proof. vm_compute. auto. Qed.

(** A modification that only deletes h has the effect of Destroy. *)
Theorem C45_delete_then_end_is_destroy : forall c os m h, history c os m -> hon m = false -> alive m h = true ->
  exists m1 m2, run m [OBegin; ODelete h; OEnd] = Some m1 /\ destroy h m = Some m2 /\
    (forall x, alive m1 x = alive m2 x /\ low m1 x = low m2 x /\ high m1 x = high m2 x).
Proof.
  intros c os m h H HO A. pose proof (history_good _ _ _ H) as G.
  destruct (C43_destroy c os m h H HO A) as (m2 & E2 & A2 & _ & L2 & F2 & D2).
  set (mb := set_mode m true true).
  assert (HB : step m OBegin = Some mb) by (cbn; unfold begin_modification; rewrite HO; reflexivity).
  assert (HB' : history c (os ++ [OBegin]) mb).
  { unfold history in *. clear - H HB. revert H. generalize (empty_mesh c). induction os as [|o r IH]; intros m0; cbn [run app].
    - intros H. inversion H; subst. rewrite HB. reflexivity.
    - destruct (step m0 o); [|discriminate]. apply IH. }
  assert (QH : forall x, hid m x = false) by (intros x; apply (g_quiet _ G HO)).
  pose proof (history_good _ _ _ HB') as GB.
  destruct (hides_all 4 h mb (g_links _ GB) (g_slots _ GB) A eq_refl) as (md & ED & KD & UD); [lia|].
  assert (HD : history c ((os ++ [OBegin]) ++ [ODelete h]) md).
  { unfold history in *. clear - HB' ED. revert HB'. generalize (empty_mesh c). induction (os ++ [OBegin]) as [|o r IH]; intros m0; cbn [run app].
    - intros H. inversion H; subst. cbn [step]. rewrite ED. reflexivity.
    - destruct (step m0 o); [|discriminate]. apply IH. }
  pose proof (history_good _ _ _ HD) as GD.
  assert (OD : hon md = true) by (rewrite (h_hon _ _ KD); reflexivity).
  destruct (end_spec md (g_links _ GD) (g_slots _ GD) OD) as (m1 & E1 & L1 & S1 & A1 & F1 & _).
  exists m1, m2. split.
  { cbn [run]. rewrite HB. cbn [step]. rewrite ED, E1. reflexivity. }
  split; [assumption|].
  assert (RU : forall x, reach mb h x <-> up m h x).
  { intros x. split; intros Q; induction Q as [|y x Q IH T I]; try constructor; [eapply up_step|eapply reach_step]; try eassumption. apply QH. }
  assert (AA : forall x, alive m1 x = alive m2 x).
  { intros x. rewrite A1, (h_alive _ _ KD). change (alive mb x) with (alive m x).
    destruct (alive m2 x) eqn:X2.
    - apply A2 in X2. destruct X2 as (X & N). rewrite X. cbn. apply negb_true_iff. destruct (hid md x) eqn:Q; [|reflexivity].
      apply UD in Q. change (hid mb x) with (hid m x) in Q. rewrite QH in Q. destruct Q as [Q|Q]; [discriminate|].
      exfalso. apply N. apply (built_up m h x G). apply RU. assumption.
    - destruct (alive m x) eqn:X; [|reflexivity]. cbn. apply negb_false_iff. apply UD. right. apply RU.
      apply (built_up m h x G). destruct (C43_destroy c os m h H HO A) as (m2' & E2' & _ & B2 & _).
      rewrite E2 in E2'. inversion E2'; subst. apply B2; assumption. }
  intros x. split; [apply AA|]. destruct (alive m1 x) eqn:X1.
  - destruct (F1 x X1) as (-> & ->). rewrite AA in X1. destruct (F2 x X1) as (-> & ->).
    rewrite (h_low _ _ KD). change (low mb x) with (low m x). split; [apply filter_ext; assumption|].
    rewrite (h_vis _ _ KD).
    + change (high mb x) with (high m x). apply filter_ext. assumption.
    + intros z Z. rewrite A1 in Z. apply andb_true_iff in Z. unfold visible, hidden. rewrite OD. apply Z.
  - destruct (l_dead _ _ L1 x X1) as (-> & -> & _). rewrite AA in X1. destruct (D2 x X1) as (-> & ->). auto.
Qed.
Print Assumptions C45_delete_then_end_is_destroy.
Example C45_delete_then_end_nonvacuous :
  match run (empty_mesh true) example_mesh with
  | Some m => hon m = false /\ match run m [OBegin; ODelete (n_ 3); OEnd] with
       | Some m1 => map (alive m1) [n_ 3; e_ 3; e_ 4; f_ 1; c_ 0; c_ 1] = [false; false; false; false; false; true] | None => False end
  | None => False
  end.
Proof. vm_compute. auto. Qed.

(** NumberOf counts the visible elements as long as SwapModification is not used. *)
Theorem C45_number_of : forall c os m t, history c os m -> ~ In OSwap os ->
  number_of m t = Z.of_nat (length (filter (fun i => alive m (t, i) && negb (hidden m (t, i))) (seq 0 (next m t)))) /\
  (forall i, alive m (t, i) = true -> i < next m t).
Proof.
  intros c os m t H NS. pose proof (history_good _ _ _ H) as G. split.
  - rewrite number_of_spec.
    + rewrite (counted_run os NS (empty_mesh c) m (good_empty c) (fun t => eq_refl) H t). unfold visible. lia.
    + apply G.
    + intros x X. destruct (alive m x) eqn:A; [reflexivity|]. destruct (l_dead _ _ (g_links _ G) x A) as (_ & _ & Q & _). congruence.
    + destruct (hon m) eqn:HO; [auto|]. right. intros x. apply (g_quiet _ G HO).
  - intros i A. apply (s_rng _ (g_slots _ G) _ A).
Qed.
Print Assumptions C45_number_of.
Example C45_number_of_nonvacuous :
  match run (empty_mesh false) (example_mesh ++ [OBegin; ODelete (n_ 3); ONode]) with
  | Some m => map (number_of m) [0; 1; 2; 3] = [4; 3; 1; 1]%Z | None => False end.
Proof. vm_compute. reflexivity. Qed.
(** After SwapModification the elements created since BeginModification are hidden but counted. *)
Theorem C45_number_of_swap_refuted : exists os m, history false os m /\ number_of m 0 = 1%Z /\
  alive m (n_ 0) = true /\ hidden m (n_ 0) = true /\ next m 0 = 1.
Proof. exists [OBegin; ONode; OSwap]. eexists. split; [vm_compute; reflexivity|]. vm_compute. auto. Qed.
Print Assumptions C45_number_of_swap_refuted.

(** Hide followed by Show leaves all elements and lower lists as they were, and the upper
    lists up to order; the order of the two cells of a face may be exchanged. *)
Theorem C45_hide_show : forall c os m h, history c os m -> hon m = true -> alive m h = true -> hidden m h = false ->
  exists m', run m [OHide h; OShow h] = Some m' /\
    (forall x, alive m' x = alive m x /\ low m' x = low m x /\ hidden m' x = hidden m x /\ Permutation (high m x) (high m' x)) /\
    (forall t, number_of m' t = number_of m t).
Proof.
  intros c os m h H HO A V. pose proof (history_good _ _ _ H) as G.
  destruct (hide_spec m h HO (g_slots _ G) A (g_links _ G)) as (K & U).
  cbn [run step]. rewrite A, HO. cbn [negb]. rewrite (h_alive _ _ K), A, (h_hon _ _ K), HO. cbn [negb].
  assert (HH : hid (hide m h) h = true) by (apply U; auto).
  assert (SE : show (hide m h) h = set_marks (hide m h) (upd (hid (hide m h)) h false) (nw (hide m h))
     (updn (hcount (hide m h)) (fst h) (hcount (hide m h) (fst h) - 1)%Z) (hcount0 (hide m h))).
  { unfold show, hidden. rewrite (h_hon _ _ K), HO, HH. reflexivity. }
  rewrite SE. clear SE. eexists. split; [reflexivity|].
  assert (V' : hid m h = false) by (unfold hidden in V; rewrite HO in V; exact V).
  split.
  - intros x. cbn [set_marks alive low high hid hon]. rewrite (h_alive _ _ K), (h_low _ _ K). split; [reflexivity|]. split; [reflexivity|].
    split; [|apply (h_perm _ _ K)]. unfold hidden. cbn [set_marks hon hid]. rewrite (h_hon _ _ K), HO. cbn [andb].
    unfold upd. destruct (eqe x h) eqn:Q; [apply eqe_spec in Q; subst; congruence|]. apply eqe_neq in Q.
    destruct (hid m x) eqn:X; [apply U; auto|]. destruct (hid (hide m h) x) eqn:X'; [|reflexivity].
    apply U in X'. destruct X'; congruence.
  - intros t. unfold number_of. cbn [set_marks next free hcount]. rewrite (h_next _ _ K), (h_free _ _ K).
    unfold hide. rewrite V. cbn [set_marks hcount].
    assert (HC : hcount (if fst h =? 3 then swap_back m h else m) = hcount m).
    { destruct (fst h =? 3); [|reflexivity]. destruct (swap_back_spec m h) as (hh & -> & _). reflexivity. }
    rewrite HC. unfold updn. rewrite Nat.eqb_refl. destruct (Nat.eqb_spec t (fst h)) as [->|]; lia.
Qed.
Print Assumptions C45_hide_show.
Theorem C45_hide_show_reorders : exists os m h m' x, history false os m /\ hidden m h = false /\
  run m [OHide h; OShow h] = Some m' /\ high m' x <> high m x.
Proof.
  exists (example_mesh ++ [OBegin]). eexists. exists (c_ 0). eexists. exists (f_ 0).
  split; [vm_compute; reflexivity|]. split; [vm_compute; reflexivity|]. split; [vm_compute; reflexivity|]. vm_compute. discriminate.
Qed.
Print Assumptions C45_hide_show_reorders.
(** SwapModification exchanges the hidden and the new elements; from then on NumberOf answers
    the number of all elements, hidden or not; a second swap restores the state. *)
Theorem C45_swap : forall c os m, history c os m -> ~ In OSwap os -> hon m = true ->
  exists m', step m OSwap = Some m' /\
    (forall x, hid m' x = nw m x /\ nw m' x = hid m x /\ alive m' x = alive m x /\ low m' x = low m x /\ high m' x = high m x) /\
    (forall t, number_of m' t = Z.of_nat (length (filter (fun i => alive m (t, i)) (seq 0 (next m t))))) /\
    step m' OSwap = Some m.
Proof.
  intros c os m H NS HO. pose proof (history_good _ _ _ H) as G.
  cbn [step]. unfold swap_modification at 1. rewrite HO. eexists. split; [reflexivity|]. split; [|split].
  - intros x. cbn. auto.
  - intros t. unfold number_of. cbn [set_marks next free hcount]. rewrite (zero_run os NS (empty_mesh c) m (good_empty c) (fun t => eq_refl) H t).
    rewrite (free_count m t (g_slots _ G)). pose proof (filter_len_split (fun i => alive m (t, i)) (seq 0 (next m t))) as E.
    rewrite seq_length in E. lia.
  - unfold swap_modification. cbn [set_marks hon]. rewrite HO. destruct m; reflexivity.
Qed.
Print Assumptions C45_swap.
Example C45_swap_nonvacuous :
  match run (empty_mesh false) (example_mesh ++ [OBegin; ODelete (n_ 3); ONode; OSwap]) with
  | Some m => map (number_of m) [0; 1; 2; 3] = [5; 5; 2; 2]%Z /\ hidden m (n_ 4) = true /\ hidden m (n_ 3) = false | None => False end.
Proof. vm_compute. auto. Qed.
