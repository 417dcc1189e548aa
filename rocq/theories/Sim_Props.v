(** Properties of the class Model (C152-C155). *)
From Coq Require Import List Bool Arith ZArith Lia Sorted.
From Verif Require Import Sim_Model Sim_Spec Sim_Proofs.
Import ListNotations.

(** * C152: what was added is what is found *)

(** With assertions compiled, after any history of calls that was let through, an object
    of a kind is found under a name exactly if it was added under this name. *)
Theorem C152_found_iff_added cs m k n a : perform_all true new_model cs = Some m ->
  (get (listed k m) n = Some a <-> In (CAdd k n a) cs).
Proof.
  intros E. pose proof (perform_all_listed _ _ k _ _ E) as L. pose proof (perform_all_unique _ _ _ unique_new E) as [_ U].
  replace (listed k new_model) with (@nil (nat * nat)) in L by now destruct k. cbn [app] in L.
  assert (I : In (n, a) (flat_map (asked k) cs) <-> In (CAdd k n a) cs).
  { rewrite in_flat_map. split.
    - intros (c & C1 & C2). destruct c as [i b | i b | i b x | j i b | s i b | i b | i b]; destruct k; try destruct j; cbn in C2; try contradiction; destruct C2 as [C2 | []]; injection C2 as -> ->; exact C1.
    - intros H. exists (CAdd k n a). split; [exact H | destruct k; now left]. }
  rewrite <- I, <- L. split; [apply get_in | apply in_get, U].
Qed.
(** The names are listed once each, in the order of addition, with or without assertions. *)
Theorem C152_names_in_order checked cs m k : perform_all checked new_model cs = Some m ->
  names (listed k m) = map fst (flat_map (asked k) cs) /\ (checked = true -> NoDup (names (listed k m))).
Proof.
  intros E. split.
  - rewrite (perform_all_listed _ _ k _ _ E). now destruct k.
  - intros ->. apply (perform_all_unique _ _ _ unique_new E).
Qed.
Theorem C152_entries_found_iff_added cs m n a : perform_all true new_model cs = Some m ->
  (get (entries m) n = Some a <-> exists c, In c cs /\ asked_entry c n a) /\ NoDup (names (entries m)).
Proof.
  intros E. pose proof (perform_all_unique _ _ _ unique_new E) as [U _]. split; [| exact U].
  transitivity (In (n, a) (entries m)); [split; [apply get_in | apply in_get, U] |].
  rewrite (perform_all_entries _ n a _ _ _ E). cbn. split; [intros [[] | H]; exact H | now right].
Qed.
(** A name is refused exactly if it is taken or the model is initialized. *)
Theorem C152_refused m k n a :
  (add true k m n a = None <-> initialized m = true \/ In n (names (listed k m))) /\
  (add_entry true m n a = None <-> initialized m = true \/ In n (names (entries m))) /\
  (add_first_entry true m n a = None <-> initialized m = true \/ In n (names (entries m))) /\
  (forall x, add_after_entry true m n a x = None <-> initialized m = true \/ In n (names (entries m))).
Proof.
  assert (H : forall l (o : model), (if may_add true m l n then Some o else None) = None <-> initialized m = true \/ In n (names l)).
  { intros l o. pose proof (may_add_true m l n) as M. destruct (may_add true m l n).
    - split; [discriminate |]. destruct M as [M _]. destruct (M eq_refl) as [M1 M2]. intros [H | H]; [congruence | easy].
    - split; [| easy]. intros _. destruct M as [_ M]. destruct (initialized m); [now left |]. right.
      destruct (in_dec Nat.eq_dec n (names l)); [easy |]. exfalso. assert (false = true) by tauto. discriminate. }
  split; [apply H |]. split; [apply H |]. split; [apply H |]. intros x. apply H.
Qed.
(** Where an entry goes: to the end, to the front, right after the named one, to the end if
    the named one is not there. *)
Theorem C152_entry_places checked m n a m2 :
  (add_entry checked m n a = Some m2 -> entries m2 = entries m ++ [(n, a)]) /\
  (add_first_entry checked m n a = Some m2 -> entries m2 = (n, a) :: entries m) /\
  (forall x l1 b l2, add_after_entry checked m n a x = Some m2 -> entries m = l1 ++ (x, b) :: l2 -> ~ In x (names l1) -> entries m2 = l1 ++ (x, b) :: (n, a) :: l2) /\
  (forall x, add_after_entry checked m n a x = Some m2 -> ~ In x (names (entries m)) -> entries m2 = entries m ++ [(n, a)]).
Proof.
  unfold add_entry, add_first_entry, add_after_entry. destruct (may_add checked m (entries m) n);
    (split; [| split; [| split]]); try discriminate.
  - now intros [= <-].
  - now intros [= <-].
  - intros x l1 b l2 [= <-] E N. cbn. now apply insert_after_found.
  - intros x [= <-] N. cbn. now apply insert_after_missing.
Qed.
(** The names of scalar functions are not what the model lists as such. *)
Theorem C152_scalar_names_refuted : exists cs m, perform_all true new_model cs = Some m /\
  get (listed Scalar m) 7 = Some 70 /\ ~ In 7 (scalar_names m).
Proof. exists [CAdd Scalar 7 70; CAdd Matrix 8 80], (with_list Matrix (with_list Scalar new_model [(7, 70)]) [(8, 80)]). cbn. intuition discriminate. Qed.
(** It lists the names of matrix functions. *)
Theorem C152_scalar_names cs m : perform_all true new_model cs = Some m -> scalar_names m = map fst (flat_map (asked Matrix) cs) /\ matrix_names m = scalar_names m.
Proof. intros E. split; [| reflexivity]. apply (proj1 (C152_names_in_order _ _ _ Matrix E)). Qed.
Example C152_nonvacuous : exists m,
  perform_all true new_model [CEntry 1 10; CEntry 2 20; CFirst 3 30; CAfter 4 40 1; CAfter 5 50 9; CAdd SubModel 1 11; CAdd Scalar 1 12] = Some m /\
  names (entries m) = [3; 1; 4; 2; 5] /\ get (listed SubModel m) 1 = Some 11 /\ get (listed Scalar m) 1 = Some 12 /\ add true SubModel m 1 99 = None.
Proof. eexists. repeat split. Qed.

(** * C153: coupling terms *)

(** With assertions compiled no coupling term can be added at all: the test for a term with
    the same name looks into a list that is not there. *)
Theorem C153_checked_never cs m : perform_all true new_model cs = Some m ->
  couplings m = [] /\ (forall s n a, ~ In (CCoupling s n a) cs) /\ (forall s n a, add_coupling true m s n a = None).
Proof.
  intros E. destruct (perform_all_checked_couplings cs new_model m eq_refl E) as [A B]. split; [easy |]. split; [easy |]. intros s n a. now apply checked_no_coupling.
Qed.
Theorem C153_add_refuted : exists cs m s n a, perform_all true new_model cs = Some m /\ get (listed SubModel m) s <> None /\
  initialized m = false /\ add_coupling true m s n a = None /\ add_coupling false m s n a <> None.
Proof. exists [CAdd SubModel 1 11], (with_list SubModel new_model [(1, 11)]), 1, 2, 3. repeat split; discriminate. Qed.
(** Without assertions a term is found afterwards under its submodel and name, unless the
    name was taken there, and the other terms are found as before. *)
Theorem C153_found_unchecked cs m s n a m2 : perform_all false new_model cs = Some m -> add_coupling false m s n a = Some m2 ->
  get_coupling m2 s n = Some (Some (match get_coupling m s n with Some (Some b) => b | _ => a end)) /\
  (forall s2 n2, get_coupling m s2 n2 <> None -> n2 <> n \/ sub_address m s2 <> sub_address m s -> get_coupling m2 s2 n2 = get_coupling m s2 n2).
Proof.
  intros E A. assert (S : StronglySorted lt (keys (couplings m))) by (eapply perform_all_sorted; [| exact E]; constructor).
  unfold add_coupling in A. injection A as <-. unfold get_coupling. cbn [couplings with_couplings].
  change (forall s2, sub_address (with_couplings m (push_key (couplings m) (sub_address m s) (n, a))) s2 = sub_address m s2) with (forall s2, sub_address m s2 = sub_address m s2).
  split.
  - change (sub_address (with_couplings m (push_key (couplings m) (sub_address m s) (n, a))) s) with (sub_address m s). rewrite find_push, Nat.eqb_refl by easy. rewrite get_app. cbn [get]. rewrite Nat.eqb_refl.
    destruct (find_key (couplings m) (sub_address m s)) as [v |]; [| easy]. now destruct (get v n).
  - intros s2 n2 D N. change (sub_address (with_couplings m (push_key (couplings m) (sub_address m s) (n, a))) s2) with (sub_address m s2). rewrite find_push by easy.
    destruct (Nat.eqb_spec (sub_address m s2) (sub_address m s)) as [Q | Q]; [| easy]. rewrite Q in *. destruct N as [N | N]; [| easy].
    destruct (find_key (couplings m) (sub_address m s)) as [v |]; [| easy]. rewrite get_app. cbn [get].
    destruct (Nat.eqb_spec n n2); [congruence |]. now destruct (get v n2).
Qed.
(** A search is without meaning exactly if nothing was added for the address. *)
Theorem C153_search_defined m s n : get_coupling m s n = None <-> ~ In (sub_address m s) (map fst (couplings m)).
Proof.
  unfold get_coupling. generalize (couplings m). intros l. induction l as [| [k v] r IH]; cbn [find_key map fst In]; [tauto |].
  destruct (Nat.eqb_spec k (sub_address m s)) as [Q | Q].
  - split; [discriminate |]. intros H. exfalso. apply H. now left.
  - rewrite IH. intuition congruence.
Qed.
(** Names of submodels that are not there all stand for the same one: terms of one are found
    under another. *)
Theorem C153_unknown_names_refuted : exists cs m, perform_all false new_model cs = Some m /\
  (forall c s n a, In c cs -> c = CCoupling s n a -> s = 5) /\ get_coupling m 6 1 = Some (Some 10) /\ coupling_names m = [(0, [1])].
Proof.
  exists [CCoupling 5 1 10], (with_couplings new_model [(0, [(1, 10)])]). repeat split.
  intros c s n a [<- | []]. congruence.
Qed.
Theorem C153_unknown_names m s1 s2 n : get (listed SubModel m) s1 = None -> get (listed SubModel m) s2 = None -> get_coupling m s1 n = get_coupling m s2 n.
Proof. cbn [listed]. intros H1 H2. unfold get_coupling, sub_address. now rewrite H1, H2. Qed.
(** A term added before its submodel is not found any more once the submodel is added. *)
Theorem C153_term_before_submodel_refuted : exists m m2, perform_all false new_model [CCoupling 5 1 10] = Some m /\ get_coupling m 5 1 = Some (Some 10) /\
  add false SubModel m 5 50 = Some m2 /\ get_coupling m2 5 1 = None.
Proof. do 2 eexists. repeat split; reflexivity. Qed.
Example C153_nonvacuous : exists m m2, perform_all false new_model [CAdd SubModel 1 11; CAdd SubModel 2 9; CCoupling 1 5 50] = Some m /\
  get_coupling m 1 5 <> None /\ add_coupling false m 2 6 60 = Some m2 /\ get_coupling m2 2 6 = Some (Some 60) /\ get_coupling m2 1 5 = Some (Some 50) /\
  coupling_names m2 = [(2, [6]); (1, [5])].
Proof. do 2 eexists. repeat split; cbn; discriminate. Qed.

(** * C154: phases *)
Section Phases.
  Variable W : Type.
  Variable act : phase -> nat -> W -> W * bool.

  (** Each phase calls its objects once each in a fixed order, also after one of them has
      failed, and succeeds exactly if all of them do. *)
Theorem C154_initialize m w : let (m2, st) := initialize W act m w in
    called (act Init) (objects SubModel m ++ objects Operator m ++ terms m ++ objects Scalar m ++ objects Matrix m) w (fst st) (snd st) /\
    initialized m2 = snd st /\ registered m2 = registered m ++ map snd (entries m) /\
    (forall k, listed k m2 = listed k m) /\ entries m2 = entries m /\ couplings m2 = couplings m /\
    active_submodels m2 = active_submodels m /\ active_entries m2 = active_entries m.
  Proof.
    unfold initialize. rewrite !run_couplings_eq.
    match goal with |- context [run W act Init (addresses (matrices m)) ?x] => set (st := run W act Init (addresses (matrices m)) x) end.
    assert (E : st = run W act Init (objects SubModel m ++ objects Operator m ++ terms m ++ objects Scalar m ++ objects Matrix m) (w, true)) by (rewrite !run_app; reflexivity).
    destruct st as [w2 b] eqn:Q. symmetry in E. apply run_called in E. destruct E as (d & D & ->). cbn [andb].
    split; [exact D |]. split; [easy |]. split; [easy |]. split; [now intros [] |]. repeat split.
  Qed.
Theorem C154_prepare_entries m w w2 b : prepare_entries W act m w = (w2, b) -> called (act Prepare) (objects SubModel m) w w2 b.
  Proof. unfold prepare_entries. intros E. apply run_called in E. destruct E as (d & D & ->). exact D. Qed.
Theorem C154_prepare_iterations m w w2 b : prepare_iterations W act m w = (w2, b) ->
    called (act Iterations) (objects SubModel m ++ objects Operator m ++ terms m ++ objects Scalar m ++ objects Matrix m) w w2 b.
  Proof.
    unfold prepare_iterations. rewrite run_couplings_eq. intros E. change addresses with (map (@snd nat nat)) in E. rewrite <- !run_app, <- ?app_assoc in E.
    apply run_called in E. destruct E as (d & D & ->). exact D.
  Qed.
Theorem C154_time_step p m w w2 b : time_step W act p m w = (w2, b) ->
    called (act p) (objects SubModel m ++ terms m ++ objects Scalar m ++ objects Matrix m) w w2 b.
  Proof.
    unfold time_step. rewrite run_couplings_eq. intros E. change addresses with (map (@snd nat nat)) in E. rewrite <- !run_app, <- ?app_assoc in E.
    apply run_called in E. destruct E as (d & D & ->). exact D.
  Qed.
Theorem C154_fill_residual checked cs m clear w w2 b : perform_all checked new_model cs = Some m -> fill_residual W act clear m w = (w2, b) ->
    called (act Fill) (active_objects m ++ terms m) (clear w) w2 b.
  Proof.
    intros H. pose proof (perform_all_switch _ _ _ _ maps_sorted_new H) as ([S _] & _). unfold fill_residual. rewrite run_couplings_eq, run_active_eq by exact S. rewrite <- run_app. intros E.
    apply run_called in E. destruct E as (d & D & ->). exact D.
  Qed.
Theorem C154_update_solution checked cs m w w2 b : perform_all checked new_model cs = Some m -> update_solution W act m w = (w2, b) ->
    called (act Solution) (active_objects m) w w2 b.
  Proof.
    intros H. pose proof (perform_all_switch _ _ _ _ maps_sorted_new H) as ([S _] & _). unfold update_solution. rewrite run_active_eq by exact S. intros E.
    apply run_called in E. destruct E as (d & D & ->). exact D.
  Qed.
End Phases.
(** Success means that every call of the sequence answered yes. *)
Theorem C154_success_is_all (W : Type) (act : nat -> W -> W * bool) l w w2 b : called act l w w2 b ->
  (b = true <-> forall l1 a l2, l = l1 ++ a :: l2 -> exists w1 c, called act l1 w w1 c /\ snd (act a w1) = true).
Proof.
  intros C. induction C as [w | a l w w1 w2 b c E C IH].
  - split; [| easy]. intros _ l1 a l2 H. destruct l1; discriminate.
  - split.
    + intros H. apply andb_prop in H. destruct H as [-> ->]. intros l1 x l2 Q. destruct l1 as [| y l1]; cbn [app] in Q; injection Q as -> Q.
      * exists w, true. split; [constructor | now rewrite E].
      * destruct IH as [IH _]. destruct (IH eq_refl l1 x l2 Q) as (w3 & d & D1 & D2). exists w3, (true && d). split; [econstructor; eauto | easy].
    + intros H. apply andb_true_intro. split.
      * destruct (H [] a l eq_refl) as (w3 & d & D1 & D2). inversion D1; subst. now rewrite E in D2.
      * apply IH. intros l1 x l2 Q. destruct (H (a :: l1) x l2) as (w3 & d & D1 & D2); [now rewrite Q |]. inversion D1 as [| ? ? ? u ? e f E2 C2]; subst. rewrite E in E2. injection E2 as <- <-. eauto.
Qed.
(** A submodel takes part in the residual, in the update and in the multiplier unless the
    last switch of its name was to inactive. *)
Theorem C154_active_submodels checked cs m a : perform_all checked new_model cs = Some m ->
  (In a (active_objects m) <-> exists n, In (CAdd SubModel n a) cs /\ last_switch switch_sub cs n <> Some false).
Proof.
  intros E. destruct (perform_all_switch _ _ _ _ maps_sorted_new E) as ([S _] & F & _).
  unfold active_objects. rewrite in_map_iff. split.
  - intros ([n b] & <- & H). apply filter_In in H. destruct H as [H1 H2]. exists n. split.
    + rewrite (perform_all_listed _ _ SubModel _ _ E) in H1. cbn [listed new_model submodels app] in H1. apply in_flat_map in H1. destruct H1 as (c & C1 & C2).
      destruct c as [i d | i d | i d x | j i d | s i d | i d | i d]; try destruct j; cbn in C2; try contradiction; destruct C2 as [C2 | []]; injection C2 as -> ->; exact C1.
    + rewrite <- flag_skip in H2 by exact S. cbn [fst] in H2. intros L. specialize (F n). rewrite L in F. unfold skipped in H2. destruct (active_submodels m); [discriminate |]. now rewrite F in H2.
  - intros (n & H1 & H2). exists (n, a). split; [easy |]. apply filter_In. split.
    + rewrite (perform_all_listed _ _ SubModel _ _ E). apply in_flat_map. exists (CAdd SubModel n a). split; [exact H1 | now left].
    + rewrite <- flag_skip by exact S. cbn [fst]. apply negb_true_iff. specialize (F n). unfold skipped. cbn [new_model active_submodels flag] in F.
      destruct (active_submodels m) as [| x l]; [easy |]. rewrite F. destruct (last_switch switch_sub cs n) as [[] |]; easy.
Qed.
(** "Coupling terms linked to submodels are not evaluated for non-active submodels": they are. *)
Theorem C154_terms_of_inactive_refuted : exists cs m, perform_all false new_model cs = Some m /\
  cs = [CAdd SubModel 1 11; CCoupling 1 5 50; CActive 1 false] /\
  fst (fill_residual (list nat) (fun _ a w => (w ++ [a], true)) (fun _ => []) m []) = [50].
Proof. do 2 eexists. split; [| split; [reflexivity |]]; reflexivity. Qed.
(** Coupling terms are not called in the order of addition. *)
Theorem C154_term_order_refuted : exists cs m, perform_all false new_model cs = Some m /\
  cs = [CAdd SubModel 1 11; CAdd SubModel 2 9; CCoupling 1 5 50; CCoupling 2 6 60] /\
  fst (fill_residual (list nat) (fun _ a w => (w ++ [a], true)) (fun _ => []) m []) = [11; 9; 60; 50].
Proof. do 2 eexists. split; [| split; [reflexivity |]]; reflexivity. Qed.
(** Initialization that failed and is repeated registers every entry twice. *)
Theorem C154_initialize_again_refuted : exists m (act : phase -> nat -> nat -> nat * bool), 
  perform_all true new_model [CAdd SubModel 1 11; CEntry 2 20] = Some m /\
  (let (m1, st1) := initialize nat act m 0 in snd st1 = false /\
   let (m2, st2) := initialize nat act m1 (fst st1) in snd st2 = true /\ registered m2 = [20; 20]).
Proof. eexists. exists (fun _ a w => (S w, 0 <? w)). split; [reflexivity |]. cbn. repeat split. Qed.
(** After a successful initialization nothing can be added. *)
Theorem C154_closed_after_initialize (W : Type) act m w : let (m2, st) := initialize W act m w in snd st = true ->
  forall c, (forall n b, c <> CActive n b) -> (forall n b, c <> CEntryActive n b) -> perform true m2 c = None.
Proof.
  pose proof (C154_initialize W act m w) as H. destruct (initialize W act m w) as [m2 st]. destruct H as (_ & I & _). intros S c N1 N2. rewrite S in I.
  destruct c as [n a | n a | n a x | j n a | s n a | n b | n b]; cbn [perform]; unfold add_entry, add_first_entry, add_after_entry, add, add_coupling, may_add; rewrite ?I; try easy.
  - now destruct (N1 n b).
  - now destruct (N2 n b).
Qed.
Example C154_nonvacuous : exists m, perform_all true new_model [CAdd SubModel 1 11; CAdd SubModel 2 22; CAdd SubModel 3 33; CAdd Operator 1 44; CActive 2 false; CActive 3 false; CActive 3 true] = Some m /\
  active_objects m = [11; 33] /\
  prepare_iterations (list nat) (fun _ a w => (w ++ [a], negb (a =? 22))) m [] = ([11; 22; 33; 44], false).
Proof. eexists. repeat split. Qed.

(** * C155: multiplier, time step and switches of entries *)
Section Least.
  Variable T : Type.
  Variable ltb : T -> T -> bool.
  Variable num : T -> Prop.
  (** The multiplier is the least of 1 and of what the active submodels, all terms and all
      functions answer; answers that compare with nothing are passed over. *)
Theorem C155_multiplier_least checked cs m ans one : ordered ltb num -> num one -> perform_all checked new_model cs = Some m ->
    let r := update_multiplier T ltb ans one m in
    let l := active_objects m ++ terms m ++ objects Scalar m ++ objects Matrix m in
    (r = one \/ exists a, In a l /\ r = ans a) /\ ltb one r = false /\ num r /\ forall a, In a l -> ltb (ans a) r = false.
  Proof.
    intros O N E. destruct (perform_all_switch _ _ _ _ maps_sorted_new E) as ([S _] & _). cbv zeta. unfold update_multiplier. rewrite least_couplings_eq, least_active_eq by exact S.
    change addresses with (map (@snd nat nat)). rewrite <- !least_app, <- ?app_assoc. destruct (least_spec T ltb num O ans (active_objects m ++ terms m ++ map snd (scalars m) ++ map snd (matrices m)) one) as (A & B & C).
    destruct (C N) as [C1 C2]. auto.
  Qed.
  (** The time step is the least of the given one and of what all submodels, terms and
      functions answer, also the inactive submodels. *)
Theorem C155_time_step_least m ans dt : ordered ltb num -> num dt ->
    let r := adjust_time_step T ltb ans dt m in
    let l := objects SubModel m ++ terms m ++ objects Scalar m ++ objects Matrix m in
    (r = dt \/ exists a, In a l /\ r = ans a) /\ ltb dt r = false /\ num r /\ forall a, In a l -> ltb (ans a) r = false.
  Proof.
    intros O N. cbv zeta. unfold adjust_time_step. rewrite least_couplings_eq.
    change addresses with (map (@snd nat nat)). rewrite <- !least_app, <- ?app_assoc. destruct (least_spec T ltb num O ans (map snd (submodels m) ++ terms m ++ map snd (scalars m) ++ map snd (matrices m)) dt) as (A & B & C).
    destruct (C N) as [C1 C2]. auto.
  Qed.
End Least.
(** The state of entries is brought over exactly if every switched name is the name of an
    entry; then each switched entry gets the last state asked for it. *)
Theorem C155_toggle_defined checked cs m : perform_all checked new_model cs = Some m ->
  (toggle_entry_state m = None <-> exists n b, last_switch switch_entry cs n = Some b /\ get (entries m) n = None).
Proof.
  intros E. destruct (perform_all_switch _ _ _ _ maps_sorted_new E) as ([_ S] & _ & F). unfold toggle_entry_state.
  assert (G : forall n b, last_switch switch_entry cs n = Some b <-> In (n, b) (active_entries m)).
  { intros n b. rewrite <- flag_in by exact S. rewrite F. cbn [new_model active_entries flag]. now destruct (last_switch switch_entry cs n). }
  pose proof (toggles_spec m (active_entries m)) as T. destruct (toggles m (active_entries m)) as [q |].
  - split; [discriminate |]. intros (n & b & H1 & H2). exfalso. apply G in H1. destruct T as [_ T].
    clear G F S E. induction T as [| x y l q Q T IH]; [easy |]. destruct H1 as [-> | H1]; [cbn [fst] in Q; congruence | now apply IH].
  - split; [| easy]. intros _. destruct T as (n & b & T1 & T2). exists n, b. split; [now apply G | easy].
Qed.
Theorem C155_toggle checked cs m q : perform_all checked new_model cs = Some m -> toggle_entry_state m = Some q ->
  forall a b, In (a, b) q <-> exists n, get (entries m) n = Some a /\ last_switch switch_entry cs n = Some b.
Proof.
  intros E Q. destruct (perform_all_switch _ _ _ _ maps_sorted_new E) as ([_ S] & _ & F). unfold toggle_entry_state in Q.
  assert (G : forall n b, last_switch switch_entry cs n = Some b <-> In (n, b) (active_entries m)).
  { intros n b. rewrite <- flag_in by exact S. rewrite F. cbn [new_model active_entries flag]. now destruct (last_switch switch_entry cs n). }
  intros a b. transitivity (exists n, get (entries m) n = Some a /\ In (n, b) (active_entries m)).
  - clear G F S E. revert q Q. generalize (active_entries m). intros l. induction l as [| [n c] r IH]; cbn [toggles]; intros q Q.
    + injection Q as <-. split; [easy |]. now intros (n & _ & []).
    + destruct (get (entries m) n) as [x |] eqn:X; [| discriminate]. destruct (toggles m r) as [q1 |]; [| discriminate]. injection Q as <-. cbn [In]. rewrite (IH _ eq_refl). split.
      * intros [H | (k & K1 & K2)]; [exists n; split; [congruence | left; congruence] | exists k; tauto].
      * intros (k & K1 & [K2 | K2]); [left; congruence | right; exists k; tauto].
  - split; intros (n & N1 & N2); exists n; (split; [easy |]); now apply G.
Qed.
(** Switching a name without an entry is let through and breaks the next ToggleEntryState. *)
Theorem C155_toggle_refuted : exists m, perform_all true new_model [CEntry 1 10; CEntryActive 2 false] = Some m /\ toggle_entry_state m = None.
Proof. eexists. split; reflexivity. Qed.
Definition oz_ltb (x y : option Z) : bool := match x, y with Some a, Some b => Z.ltb a b | _, _ => false end.
Example C155_ordered : ordered oz_ltb (fun x => x <> None).
Proof.
  split.
  - intros [x |] [y |]; cbn; try discriminate. now split.
  - intros [x |]; cbn; [apply Z.ltb_irrefl | easy].
  - intros [x |] [y |] [z |]; cbn; try discriminate. rewrite !Z.ltb_lt. lia.
  - intros [x |] [y |]; cbn; try congruence. intros _ _. rewrite !Z.ltb_lt. destruct (Z.lt_total x y) as [H | [H | H]]; [now left | right; right; now f_equal | right; now left].
Qed.
Example C155_nonvacuous : exists m,
  perform_all true new_model [CAdd SubModel 1 11; CAdd SubModel 2 22; CAdd Scalar 1 33; CActive 1 false; CEntry 1 10; CEntry 2 20; CEntryActive 2 true; CEntryActive 1 true; CEntryActive 1 false] = Some m /\
  update_multiplier (option Z) oz_ltb (fun a => if a =? 11 then Some 2%Z else if a =? 22 then None else Some 5%Z) (Some 10%Z) m = Some 5%Z /\
  adjust_time_step (option Z) oz_ltb (fun a => if a =? 11 then Some 2%Z else if a =? 22 then None else Some 5%Z) (Some 10%Z) m = Some 2%Z /\
  toggle_entry_state m = Some [(10, false); (20, true)].
Proof. eexists. repeat split. Qed.

Print Assumptions C152_found_iff_added.
Print Assumptions C152_names_in_order.
Print Assumptions C152_entries_found_iff_added.
Print Assumptions C152_refused.
Print Assumptions C152_entry_places.
Print Assumptions C152_scalar_names_refuted.
Print Assumptions C152_scalar_names.
Print Assumptions C153_checked_never.
Print Assumptions C153_add_refuted.
Print Assumptions C153_found_unchecked.
Print Assumptions C153_search_defined.
Print Assumptions C153_unknown_names_refuted.
Print Assumptions C153_unknown_names.
Print Assumptions C153_term_before_submodel_refuted.
Print Assumptions C154_initialize.
Print Assumptions C154_prepare_entries.
Print Assumptions C154_prepare_iterations.
Print Assumptions C154_time_step.
Print Assumptions C154_fill_residual.
Print Assumptions C154_update_solution.
Print Assumptions C154_success_is_all.
Print Assumptions C154_active_submodels.
Print Assumptions C154_terms_of_inactive_refuted.
Print Assumptions C154_term_order_refuted.
Print Assumptions C154_initialize_again_refuted.
Print Assumptions C154_closed_after_initialize.
Print Assumptions C155_multiplier_least.
Print Assumptions C155_time_step_least.
Print Assumptions C155_toggle_defined.
Print Assumptions C155_toggle.
Print Assumptions C155_toggle_refuted.
