(** Properties of the parameter optimizers. *)
From Coq Require Import Ascii String List Arith ZArith Lia Bool Field QArith Qcanon SpecFloat.
From Verif Require Import Util OField Opt_Spec Opt_Model Opt_Proofs Opt2_Proofs Opt3_Proofs Opt4_Proofs.
Import ListNotations.
Open Scope nat_scope.

Section Props.
Variable F : ofield.
Add Field Fo : (fth F).
Variable pow10 : F -> F.
Notation le := (Opt_Spec.le F).
Notation points := (points F pow10).
Notation trial := (trial F pow10).
Notation trials := (trials F pow10).

(** C139: a range whose length is a whole number of steps gives the values from its
    start, one per step, without its end; the array has [n] elements, the quotient
    without its fraction. *)
Theorem C139_range : forall n first last step, (0 <? step)%F = true -> (last - first)%F = steps F n step ->
  whole_quotient F n (last - first)%F step /\
  range_values 0%F flt fadd n first last step = Some (map (fun i => (first + steps F i step)%F) (seq 0 n)).
Proof.
  intros n first last step P E. split.
  - split.
    + rewrite E. apply flt_irr.
    + rewrite E. rewrite steps_S. replace (steps F n step) with (0 + steps F n step)%F at 1 by ring. now apply flt_add.
  - unfold range_values. rewrite (fill_exact F n first last step P E). rewrite map_length, seq_length, Nat.sub_diag. cbn [repeat]. now rewrite app_nil_r.
Qed.

(** C139: any other range is written past the end of the array. *)
Theorem C139_overrun_refuted : forall n first last step, (0 <? step)%F = true ->
  whole_quotient F n (last - first)%F step -> (last - first)%F <> steps F n step ->
  range_values 0%F flt fadd n first last step = None.
Proof.
  intros n first last step P (L & _) N. unfold range_values. rewrite fill_over; auto.
  destruct (steps F n step <? last - first)%F eqn:E; [reflexivity|]. exfalso. apply N. now apply (flt_total F).
Qed.

(** C140: the closest value is the first of the values at the smallest distance, and
    a value of the parameter is closest to itself. *)
Theorem C140_closest : forall p to, p_values F p <> [] ->
  first_smallest F (fun x => fabs (x - to)%F) (p_values F p) (closest_index F p to) /\
  closest_to F p to = nth_error (p_values F p) (closest_index F p to) /\ closest_to F p to <> None.
Proof.
  intros p to N. assert (H := min_element_ok F F (fun x => fabs (x - to)%F) (p_values F p) N).
  split; [exact H|]. split; [reflexivity|]. destruct H as (x & X & _). unfold closest_to, closest_index. rewrite X. discriminate.
Qed.

Theorem C140_itself : forall p v, In v (p_values F p) -> closest_to F p v = Some v.
Proof.
  intros p v I. assert (N : p_values F p <> []) by (intro E; rewrite E in I; contradiction).
  destruct (C140_closest p v N) as ((x & X & M & _) & -> & _). rewrite X. f_equal.
  apply In_nth_error in I. destruct I as [j J]. specialize (M j v J). cbv beta in M. unfold Opt_Spec.le in M.
  replace (v - v)%F with (0 : F)%F in M by ring. rewrite fabs_0 in M.
  apply fabs_le_0 in M. replace x with ((x - v) + v)%F by ring. rewrite M. ring.
Qed.

(** C141: the buffer of results holds the latest ones, the latest first, however many
    were pushed. *)
Theorem C141_buffer : forall cap rs, 1 <= cap ->
  exists buf, pushes F cap [] rs = Some buf /\ view F buf = latest cap rs /\ length buf <= cap.
Proof. intros cap rs C. apply (pushes_ok F cap rs [] []); auto; [|cbn; lia]. unfold latest. cbn. now rewrite firstn_nil. Qed.

(** C141: pushing on a buffer of capacity zero removes from an empty deque. *)
Theorem C141_zero_capacity_refuted : forall r, push F 0 [] r = None.
Proof. reflexivity. Qed.

(** C141: the last successful result is good, and no later one is. *)
Theorem C141_last_successful : forall buf r, last_successful F buf = Some r <->
  exists k, nth_error (view F buf) k = Some r /\ r_good F r = true /\
    forall j y, j < k -> nth_error (view F buf) j = Some y -> r_good F y = false.
Proof. intros buf r. apply find_first. Qed.

Theorem C141_successful : forall buf,
  (successful_exists F buf = true <-> exists r, last_successful F buf = Some r) /\
  (last_result_successful F buf = true <-> exists r, nth_error (view F buf) 0 = Some r /\ r_good F r = true).
Proof.
  intro buf. split.
  - unfold successful_exists, last_successful. induction (view F buf) as [|r l IH]; cbn [existsb find].
    + split; [discriminate|]. intros (r & E). discriminate.
    + destruct (r_good F r); cbn [orb]; [|exact IH]. split; [|reflexivity]. eauto.
  - unfold last_result_successful. destruct (view F buf) as [|r l]; cbn [nth_error].
    + split; [discriminate|]. intros (r & E & _). discriminate.
    + split; [eauto|]. intros (r' & E & G). now injection E as <-.
Qed.

(** C141: the last unique entries are stored results that differ pairwise by more
    than the tolerance; there are at most one more than asked for, and if there are
    not more than asked for then every stored result is close to one of them. *)
Theorem C141_unique : forall d max buf, Forall (fun r => length (r_after F r) = d) (view F buf) ->
  exists us, last_unique F max buf = Some us /\ apart F us /\ incl us (view F buf) /\ length us <= S max /\
    (length us <= max -> forall r, In r (view F buf) -> exists u, In u us /\ near F (r_after F r) (r_after F u)).
Proof.
  intros d max buf A. unfold last_unique.
  destruct (unique_loop_ok F d max (view F buf) [] A) as (us & E & P & L & _ & I & C); auto.
  - intros i j u v _ U. destruct i; discriminate.
  - cbn. lia.
  - exists us. auto.
Qed.

(** C141: one more entry than asked for is returned. *)
Theorem C141_one_more_refuted : forall r, last_unique F 0 [r] = Some [r].
Proof. reflexivity. Qed.

(** C142: carrying out changes of different parameters gives the points that were
    announced for them; for repeated parameters it may not. *)
Theorem C142_one_change : forall i v m ps, i < length (entries F ps) ->
  exists ps', update F [(i, v)] m ps = Some ps' /\ points ps' = points_with F pow10 [(i, v)] 0 (entries F ps) /\
    metrics F ps' = m /\
    (forall p w, nth_error (entries F ps) i = Some (p, w) -> nth_error (points ps') i = Some (convert F pow10 v (p_type F p))) /\
    (forall j, j <> i -> nth_error (points ps') j = nth_error (points ps) j).
Proof.
  intros i v m ps L. destruct (update_one F pow10 i v m ps L) as (ps' & U & P & M & _ & _). exists ps'. split; [exact U|]. split; [exact P|]. split; [exact M|].
  destruct (nth_error (entries F ps) i) as [[p w]|] eqn:E; [|apply nth_error_None in E; lia].
  assert (EN := update1_entries F _ _ _ _ _ U _ _ E). split.
  - intros p' w' E'. injection E' as <- <-. unfold Opt_Model.points. rewrite EN. erewrite map_nth_error; [|apply nth_error_lset_eq; exact L]. reflexivity.
  - intros j NE. unfold Opt_Model.points. rewrite EN. rewrite !nth_error_map. now rewrite nth_error_lset_ne by auto.
Qed.

(** C142: the point of a parameter of exponential type is ten to the power of its
    value. *)
Theorem C142_types : forall ps i p w, nth_error (entries F ps) i = Some (p, w) ->
  nth_error (points ps) i = Some (match p_type F p with Default => w | Exponent => pow10 w end).
Proof. intros ps i p w E. unfold Opt_Model.points. now rewrite (map_nth_error _ _ _ E). Qed.

(** C142: with two changes of one parameter the announced point has the first of
    them, the point after the update the second. *)
Theorem C142_repeated_refuted : forall p w x y m, p_type F p = Default ->
  points_with F pow10 [(0, x); (0, y)] 0 [(p, w)] = [x] /\
  exists ps', update F [(0, x); (0, y)] m (mk_params F [(p, w)] 0%F) = Some ps' /\ points ps' = [y].
Proof.
  intros p w x y m T. split.
  - cbn [points_with find fst snd Nat.eqb]. unfold convert. now rewrite T.
  - eexists. split; [reflexivity|]. unfold Opt_Model.points. cbn [entries map fst snd lset]. unfold convert. now rewrite T.
Qed.

(** C142: a suggestion describes the current point and changes one parameter; saving
    its result either moves to the suggested point with the reported metrics, which
    requires a good result, or leaves point and metrics as they were. *)
Definition step_spec {A} (o o' : optimizer F A) (s : suggestion F) (m : F) (good : bool) : Prop :=
  s_before F s = points (o_params F A o) /\ s_metrics F s = metrics F (o_params F A o) /\
  (exists i v, s_changed F s = [(i, v)] /\ i < length (entries F (o_params F A o)) /\
     (forall p w, nth_error (entries F (o_params F A o)) i = Some (p, w) -> nth_error (s_after F s) i = Some (convert F pow10 v (p_type F p))) /\
     (forall j, j <> i -> nth_error (s_after F s) j = nth_error (s_before F s) j)) /\
  ((good = true /\ points (o_params F A o') = s_after F s /\ metrics F (o_params F A o') = m) \/ o_params F A o' = o_params F A o).

Lemma step_from_trial : forall A (alg : algorithm F A) Inv o m good, lawful F alg Inv -> good_state F pow10 Inv o -> o_restart F A o = false ->
  (exists a c, alg_make F A alg (o_alg F A o) (o_params F A o) = Some (a, c)) ->
  (forall a c buf, alg_make F A alg (o_alg F A o) (o_params F A o) = Some (a, c) -> (exists r t, view F buf = r :: t /\ r_changed F r = c) ->
     exists x, alg_update F A alg a (o_params F A o) buf = Some x) ->
  exists o' s, trial alg o m good = Some (o', s) /\ good_state F pow10 Inv o' /\ step_spec o o' s m good.
Proof.
  intros A alg Inv o m good LW GS R MK UPD.
  destruct (trial_ok F pow10 A alg Inv o m good LW GS ltac:(congruence) MK UPD) as (o' & s & T & G' & _ & _ & _ & _ & SB & SM & (i & v & EC & IL & EA) & CS).
  exists o', s. split; [exact T|]. split; [exact G'|]. split; [exact SB|]. split; [exact SM|]. split.
  - exists i, v. split; [exact EC|]. split; [exact IL|]. destruct (C142_one_change i v 0%F (o_params F A o) IL) as (ps' & _ & P & _ & P1 & P2).
    rewrite EA, <- P, SB. auto.
  - destruct CS as [(-> & P & M & _)|[(P & _)|(RR & _)]]; [left; auto|right; exact P|]. destruct RR as (RR & _). congruence.
Qed.

Theorem C142_noop : forall o m good, good_state F pow10 (fun _ l => l <> []) o -> o_restart F unit o = false ->
  exists o' s, trial (noop F) o m good = Some (o', s) /\ good_state F pow10 (fun _ l => l <> []) o' /\ step_spec o o' s m good /\
    (good = true -> points (o_params F unit o') = s_after F s /\ metrics F (o_params F unit o') = m).
Proof.
  intros o m good G R.
  destruct (trial_ok F pow10 _ (noop F) _ o m good (noop_lawful F pow10) G ltac:(congruence)) as (o2 & s2 & T2 & _ & _ & _ & _ & _ & _ & _ & _ & CS).
  - destruct (o_alg F unit o). apply noop_make. apply G.
  - intros a c buf MK V. destruct (o_alg F unit o). eapply noop_update; eauto.
  - destruct (step_from_trial _ (noop F) _ o m good (noop_lawful F pow10) G R) as (o' & s & T & G' & SP).
    + destruct (o_alg F unit o). apply noop_make. apply G.
    + intros a c buf MK V. destruct (o_alg F unit o). eapply noop_update; eauto.
    + rewrite T in T2. injection T2 as <- <-. exists o', s. split; [exact T|]. split; [exact G'|]. split; [exact SP|]. intros ->.
      destruct CS as [(_ & P & M & _)|[(_ & _ & _ & [X|(a & buf & a2 & ps2 & X)] & _)|(RR & _)]]; [split; [exact P|exact M]|discriminate| |destruct RR; congruence].
      exfalso. cbn [noop alg_update] in X. unfold update_base in X. destruct (view F buf); [discriminate|]. destruct (update F _ _ _); discriminate.
Qed.

Theorem C142_alternating : forall o m good, good_state F pow10 (alt_ok F) o -> o_restart F _ o = false ->
  exists o' s, trial (alternating_alg F) o m good = Some (o', s) /\ good_state F pow10 (alt_ok F) o' /\ step_spec o o' s m good.
Proof.
  intros o m good G R. apply step_from_trial; auto.
  - apply alt_lawful, pow10.
  - apply (alt_make_total F pow10). exact (gs_inv _ _ _ _ G).
  - intros a c buf MK V. eapply (alt_update_total F pow10); eauto. exact (gs_inv _ _ _ _ G).
Qed.

Theorem C142_annealing : forall shape accept fuel o m good, good_state F pow10 (ann_ok F) o -> o_restart F _ o = false ->
  alg_make F _ (annealing_alg F shape accept fuel) (o_alg F _ o) (o_params F _ o) <> None ->
  exists o' s, trial (annealing_alg F shape accept fuel) o m good = Some (o', s) /\ good_state F pow10 (ann_ok F) o' /\ step_spec o o' s m good.
Proof.
  intros shape accept fuel o m good G R MK. apply step_from_trial; auto.
  - apply ann_lawful, pow10.
  - destruct (alg_make _ _ _ _ _) as [[a c]|]; [eauto|congruence].
  - intros a c buf MK' V. eapply (ann_update_total F pow10); eauto. exact (gs_inv _ _ _ _ G).
Qed.

(** C143: restarting with the best result, when the buffer has room for more results
    than failures are allowed: a trial moves to the suggested point (good result),
    or counts one more failure, or the failures are more than allowed and the
    optimizer moves to the point, with its metrics, of a result with smallest metrics
    among as many of the latest results as failures are allowed, the latest if none
    is. *)
Definition restart_spec {A} (o o' : optimizer F A) (s : suggestion F) (m : F) (good : bool) : Prop :=
  (good = true /\ points (o_params F A o') = s_after F s /\ metrics F (o_params F A o') = m /\ o_fails F A o' = 0) \/
  (o_params F A o' = o_params F A o /\ o_fails F A o' = S (o_fails F A o) /\ o_fails F A o' <= o_max F A o) \/
  (o_max F A o <= o_fails F A o /\ o_fails F A o' = 0 /\
   exists best, best_of F (o_max F A o)
       (mk_result F (s_changed F s) (s_before F s) (s_after F s) (s_metrics F s) m good :: firstn (o_cap F A o - 1) (view F (o_results F A o))) best /\
     points (o_params F A o') = r_after F best /\ metrics F (o_params F A o') = r_mafter F best).

Lemma restart_from_trial : forall A (alg : algorithm F A) Inv o m good, lawful F alg Inv -> good_state F pow10 Inv o ->
  o_restart F A o = true -> 2 <= o_cap F A o -> o_max F A o < o_cap F A o ->
  (exists a c, alg_make F A alg (o_alg F A o) (o_params F A o) = Some (a, c)) ->
  (forall a c buf, alg_make F A alg (o_alg F A o) (o_params F A o) = Some (a, c) -> (exists r t, view F buf = r :: t /\ r_changed F r = c) ->
     exists x, alg_update F A alg a (o_params F A o) buf = Some x) ->
  exists o' s, trial alg o m good = Some (o', s) /\ good_state F pow10 Inv o' /\ restart_spec o o' s m good.
Proof.
  intros A alg Inv o m good LW GS R C2 CM MK UPD.
  destruct (trial_ok F pow10 A alg Inv o m good LW GS ltac:(auto) MK UPD) as (o' & s & T & G' & _ & _ & _ & _ & SB & SM & _ & CS).
  exists o', s. split; [exact T|]. split; [exact G'|].
  destruct CS as [(-> & P & M & Z0 & _)|[(P & FS & LE & _)|((_ & LE & Z0) & _ & best & B & P & M & _)]].
  - left. auto.
  - right. left. auto.
  - right. right. split; [exact LE|]. split; [exact Z0|]. exists best. rewrite SB, SM. auto.
Qed.

Theorem C143_noop : forall o m good, good_state F pow10 (fun _ l => l <> []) o -> o_restart F unit o = true -> 2 <= o_cap F unit o -> o_max F unit o < o_cap F unit o ->
  exists o' s, trial (noop F) o m good = Some (o', s) /\ good_state F pow10 (fun _ l => l <> []) o' /\ restart_spec o o' s m good.
Proof.
  intros o m good G R C1 C2. apply restart_from_trial; auto.
  - apply (noop_lawful F pow10).
  - destruct (o_alg F unit o). apply noop_make. apply G.
  - intros a c buf MK V. destruct (o_alg F unit o). eapply noop_update; eauto.
Qed.

Theorem C143_alternating : forall o m good, good_state F pow10 (alt_ok F) o -> o_restart F _ o = true -> 2 <= o_cap F _ o -> o_max F _ o < o_cap F _ o ->
  exists o' s, trial (alternating_alg F) o m good = Some (o', s) /\ good_state F pow10 (alt_ok F) o' /\ restart_spec o o' s m good.
Proof.
  intros o m good G R C1 C2. apply restart_from_trial; auto.
  - apply alt_lawful, pow10.
  - apply (alt_make_total F pow10). exact (gs_inv _ _ _ _ G).
  - intros a c buf MK V. eapply (alt_update_total F pow10); eauto. exact (gs_inv _ _ _ _ G).
Qed.

(** C143: with a buffer smaller than the number of allowed failures the restart reads
    past the end of the buffer. *)
Theorem C143_small_buffer_refuted : forall A (o : optimizer F A),
  length (o_results F A o) <= o_cap F A o -> o_cap F A o < o_max F A o -> restart F o = None.
Proof.
  intros A o L C. unfold restart. unfold view. rewrite rev_length. destruct (Nat.leb_spec (o_max F A o) (length (o_results F A o))); [lia|reflexivity].
Qed.

(** C143: with a full buffer as large as the number of allowed failures it uses the
    best result after removing it, if that is the oldest. *)
Theorem C143_removed_refuted : forall A (o : optimizer F A) best,
  1 <= o_cap F A o -> length (o_results F A o) = o_cap F A o -> o_max F A o = o_cap F A o ->
  nth_error (view F (o_results F A o)) (o_cap F A o - 1) = Some best ->
  (forall j y, j < o_cap F A o - 1 -> nth_error (view F (o_results F A o)) j = Some y -> (r_mafter F best <? r_mafter F y)%F = true) ->
  restart F o = None.
Proof.
  intros A o best C1 L M E LT. unfold restart. rewrite M.
  assert (VL : length (view F (o_results F A o)) = o_cap F A o) by (unfold view; rewrite rev_length; exact L).
  destruct (Nat.leb_spec (o_cap F A o) (length (view F (o_results F A o)))); [|lia].
  destruct (best_pos F (o_cap F A o) (view F (o_results F A o)) ltac:(lia) ltac:(lia)) as (k & r & KE & KB & BO & KL).
  assert (k = o_cap F A o - 1) as ->.
  { destruct (Nat.eq_dec k (o_cap F A o - 1)); [assumption|]. exfalso.
    assert (X := LT k r ltac:(lia) KB). destruct (o_cap F A o) as [|c] eqn:EC; [lia|]. cbn [best_of] in BO. destruct BO as (k2 & (r2 & R2 & Q & _) & R3).
    assert (r2 = r) by congruence. subst r2.
    assert (Y := Q (S c - 1) best). unfold Opt_Spec.le in Y. rewrite Y in X; [discriminate|]. rewrite firstn_all2 by lia. exact E. }
  rewrite KE, KB. destruct (push F (o_cap F A o) (o_results F A o) r); [|reflexivity]. rewrite L, Nat.eqb_refl, Nat.eqb_refl. reflexivity.
Qed.

(** C143: a restart of the noop optimizer always moves to a result that was reported
    as not good. *)
Theorem C143_bad_adopted_refuted : forall l o o1 m o2 s, good_state F pow10 (fun _ l => l <> []) o -> o_fails F unit o = 0 ->
  o_restart F unit o = true -> 2 <= o_cap F unit o -> o_max F unit o < o_cap F unit o ->
  trials (noop F) o l = Some o1 -> o_max F unit o <= o_fails F unit o1 -> trial (noop F) o1 m false = Some (o2, s) ->
  exists best, r_good F best = false /\ points (o_params F unit o2) = r_after F best /\ metrics F (o_params F unit o2) = r_mafter F best.
Proof.
  intros l o o1 m o2 s G Z0 R C1 C2 T M T2.
  assert (NB : forall x a buf a2 ps2, alg_update F unit (noop F) a (o_params F unit x) buf <> Some (a2, ps2, false)).
  { clear. intros x a buf a2 ps2 X. cbn [noop alg_update] in X. unfold update_base in X. destruct (view F buf); [discriminate|]. destruct (update F _ _ _); discriminate. }
  set (I := fun x : optimizer F unit => good_state F pow10 (fun _ l => l <> []) x /\ o_restart F unit x = true /\ o_cap F unit x = o_cap F unit o /\
     o_max F unit x = o_max F unit o /\ forall r, In r (pending F x) -> r_good F r = false).
  assert (TO : forall x mm g, I x -> exists x' s', trial (noop F) x mm g = Some (x', s') /\ I x' /\
     (g = false -> o_max F unit o <= o_fails F unit x -> exists best, r_good F best = false /\ points (o_params F unit x') = r_after F best /\ metrics F (o_params F unit x') = r_mafter F best)).
  { intros x mm g (GX & RX & CX & MX & PX).
    destruct (trial_ok F pow10 _ (noop F) _ x mm g (noop_lawful F pow10) GX) as (x' & s' & TX & G' & E1 & E2 & E3 & _ & _ & _ & _ & CS).
    - rewrite CX, MX. auto.
    - destruct (o_alg F unit x). apply noop_make. apply GX.
    - intros a c buf MK V. destruct (o_alg F unit x). eapply noop_update; eauto.
    - exists x', s'. split; [exact TX|].
      assert (B0 : forall y : optimizer F unit, o_fails F unit y = 0 -> forall r, In r (pending F y) -> r_good F r = false).
      { intros y Y r RI. unfold pending in RI. rewrite Y in RI. destruct RI. }
      destruct CS as [(-> & _ & _ & FZ & _)|[(PE & FS & LE & WHY & PP)|((_ & LE & FZ) & WHY & best & _ & BP & BM & BI & _)]].
      + split; [|discriminate]. repeat (split; [first [exact G'|congruence]|]). now apply B0.
      + destruct WHY as [->|(a & buf & a2 & ps2 & X)]; [|exfalso; eapply NB; exact X]. split.
        * repeat (split; [first [exact G'|congruence]|]). intros r RI. apply PP in RI. destruct RI as [->|RI]; [reflexivity|now apply PX].
        * intros _ LE2. specialize (LE RX). lia.
      + destruct WHY as [->|(a & buf & a2 & ps2 & X)]; [|exfalso; eapply NB; exact X]. split.
        * repeat (split; [first [exact G'|congruence]|]). now apply B0.
        * intros _ _. exists best. split; [|auto]. destruct BI as [->|BI]; [reflexivity|now apply PX]. }
  assert (I1 : I o1).
  { eapply (trials_inv F pow10 unit (noop F) I); [|split; [exact G|]; repeat (split; [auto; fail|]); unfold pending; rewrite Z0; intros r []|exact T].
    intros x mm g x' s' IX TX. destruct (TO x mm g IX) as (x2 & s2 & TX2 & I2 & _). rewrite TX in TX2. injection TX2 as <- <-. exact I2. }
  destruct (TO o1 m false I1) as (x & s' & TX & _ & B). rewrite T2 in TX. injection TX as <- <-. auto.
Qed.

(** States of the alternating optimizer that a user can bring about. *)
Definition alt_reachable (ps : params F) (cap mx : nat) (b : bool) (o : optimizer F (alternating F)) : Prop :=
  exists l, trials (alternating_alg F) (set_restart F (create F ps cap mx (new_alternating F ps)) b mx) l = Some o.
Definition proper (ps : params F) : Prop := entries F ps <> [] /\ Forall (fun e => p_values F (fst e) <> []) (entries F ps).

Lemma alt_start : forall ps cap mx b, proper ps -> 1 <= cap -> (b = true -> 2 <= cap /\ mx < cap) ->
  good_state F pow10 (alt_ok F) (set_restart F (create F ps cap mx (new_alternating F ps)) b mx) /\
  alt_room F (set_restart F (create F ps cap mx (new_alternating F ps)) b mx).
Proof.
  intros ps cap mx b (N & V) C R. split; [|exact R]. apply set_restart_good. apply create_good; [exact C|]. now apply new_alt_ok.
Qed.

(** C144: the alternating optimizer never fails, whatever the results, also with
    restarts given room in the buffer, and always suggests a listed value of one
    parameter. *)
Theorem C144_never_fails : forall ps cap mx b, proper ps -> 1 <= cap -> (b = true -> 2 <= cap /\ mx < cap) ->
  forall l, exists o, trials (alternating_alg F) (set_restart F (create F ps cap mx (new_alternating F ps)) b mx) l = Some o /\
    forall m g, exists o' s i v p w, trial (alternating_alg F) o m g = Some (o', s) /\ s_changed F s = [(i, v)] /\
      nth_error (entries F (o_params F _ o)) i = Some (p, w) /\ In v (p_values F p).
Proof.
  intros ps cap mx b P C R l. destruct (alt_start ps cap mx b P C R) as [G RM].
  destruct (alt_reach F pow10 l _ G RM) as (o & T & GO & RO). exists o. split; [exact T|]. intros m g.
  destruct (alt_step F pow10 o m g GO RO) as (o' & s & T' & _ & _).
  destruct (trial_alg F pow10 _ _ _ _ _ _ _ T') as (a1 & MK & _ & _ & _).
  destruct (alt_make_ok F pow10 _ _ (gs_inv _ _ _ _ GO)) as (h & v & E & EV & MK' & w & EN).
  cbn [alternating_alg alg_make] in MK. rewrite MK in MK'. injection MK' as _ EC.
  exists o', s, (a_cur F (o_alg F _ o)), v, (h_param F h), w. split; [exact T'|]. split; [exact EC|]. split; [exact EN|]. eapply nth_error_In; eauto.
Qed.

(** C144: after a good result the next suggestion is about the next parameter, in a
    circle; after a result that is not good the same suggestion is made again. *)
Theorem C144_turns : forall ps cap mx b o m g o1 s1 m' g' o2 s2, proper ps -> 1 <= cap -> (b = true -> 2 <= cap /\ mx < cap) ->
  alt_reachable ps cap mx b o -> trial (alternating_alg F) o m g = Some (o1, s1) -> trial (alternating_alg F) o1 m' g' = Some (o2, s2) ->
  exists i v i' v', s_changed F s1 = [(i, v)] /\ s_changed F s2 = [(i', v')] /\
    (if g then i' = S i mod length (entries F (o_params F _ o)) else i' = i /\ v' = v).
Proof.
  intros ps cap mx b o m g o1 s1 m' g' o2 s2 P C R (l & T) T1 T2. destruct (alt_start ps cap mx b P C R) as [G RM].
  destruct (alt_reach F pow10 l _ G RM) as (o' & T' & GO & RO). unfold Opt2_Proofs.trials in *. rewrite T in T'. injection T' as <-.
  destruct (alt_step F pow10 o m g GO RO) as (o1' & s1' & T1' & GO1 & RO1). rewrite T1 in T1'. injection T1' as <- <-.
  destruct (trial_alg F pow10 _ _ _ _ _ _ _ T1) as (a1 & MK & _ & _ & FALSE & TRUE & _).
  destruct (alt_make_ok F pow10 _ _ (gs_inv _ _ _ _ GO)) as (h & v & E & EV & MK' & w & EN).
  destruct (trial_alg F pow10 _ _ _ _ _ _ _ T2) as (a2 & MK2 & _).
  destruct (alt_make_ok F pow10 _ _ (gs_inv _ _ _ _ GO1)) as (h2 & v2 & E2 & EV2 & MK2' & w2 & EN2).
  cbn [alternating_alg alg_make alg_update] in *. rewrite MK in MK'. injection MK' as EA EC. rewrite MK2 in MK2'. injection MK2' as EA2 EC2.
  exists (a_cur F (o_alg F _ o)), v, (a_cur F (o_alg F _ o1)), v2. split; [exact EC|]. split; [exact EC2|].
  assert (HL : a_cur F (o_alg F _ o) < length (a_handlers F (o_alg F _ o))) by (apply nth_error_Some; congruence).
  destruct g.
  - destruct (TRUE eq_refl) as (buf & t & ps2 & u & V & AU & _).
    destruct (alt_update_ok F pow10 _ _ _ _ _ buf t (gs_inv _ _ _ _ GO) MK V) as (h' & v' & _ & _ & _ & ps1 & _ & AU'). rewrite AU in AU'. injection AU' as EB _ _.
    rewrite EB. cbn [a_cur]. f_equal. destruct (gs_inv _ _ _ _ GO) as (MM & _ & _). apply (f_equal (@length _)) in MM. unfold plist in MM. now rewrite !map_length in MM.
  - destruct (FALSE eq_refl) as (EB & _). rewrite EB, EA in E2, EC2 |- *. cbn [a_cur a_handlers] in *. split; [reflexivity|].
    rewrite nth_error_lset_eq in E2 by exact HL. injection E2 as <-. rewrite next_index_again in EV2. cbn [h_param] in EV2. congruence.
Qed.

(** C144: a parameter with two values is never changed: every suggestion for it is
    the value closest to its default. *)
Theorem C144_two_values_refuted : forall ps cap mx b o m g o' s i v p w, proper ps -> 1 <= cap -> (b = true -> 2 <= cap /\ mx < cap) ->
  alt_reachable ps cap mx b o -> trial (alternating_alg F) o m g = Some (o', s) -> s_changed F s = [(i, v)] ->
  nth_error (entries F ps) i = Some (p, w) -> length (p_values F p) <= 2 -> closest_to F p (p_default F p) = Some v.
Proof.
  intros ps cap mx b o m g o' s i v p w P C R (l & T) T1 EC EN L2. destruct (alt_start ps cap mx b P C R) as [G RM].
  set (J := fun x : optimizer F (alternating F) => good_state F pow10 (alt_ok F) x /\ alt_room F x /\ plist F (o_params F _ x) = plist F ps /\
    exists h, nth_error (a_handlers F (o_alg F _ x)) i = Some h /\ h_param F h = p /\ h_index F h = closest_index F p (p_default F p)).
  assert (L1 : 1 <= length (p_values F p)).
  { destruct P as (_ & V). assert (X := Forall_nth_error _ _ _ _ _ V EN). cbn in X. destruct (p_values F p); [congruence|cbn; lia]. }
  assert (STEP : forall x mm gg x' ss, J x -> trial (alternating_alg F) x mm gg = Some (x', ss) -> J x' /\
     (forall vv, s_changed F ss = [(i, vv)] -> closest_to F p (p_default F p) = Some vv)).
  { intros x mm gg x' ss (GX & RX & PX & h & HE & HP & HI) TX.
    destruct (trial_ok F pow10 _ (alternating_alg F) _ x mm gg (alt_lawful F pow10) GX RX) as (x2 & s2 & TX2 & G2 & C1 & C2 & C3 & PL & _).
    { apply (alt_make_total F pow10). exact (gs_inv _ _ _ _ GX). }
    { intros a c buf MK V. eapply (alt_update_total F pow10); eauto. exact (gs_inv _ _ _ _ GX). }
    unfold Opt2_Proofs.trial in *. rewrite TX in TX2. injection TX2 as <- <-.
    assert (R2 : alt_room F x') by (unfold alt_room; rewrite C1, C2, C3; exact RX).
    destruct (trial_alg F pow10 _ _ _ _ _ _ _ TX) as (a1 & MK & _ & _ & FALSE & TRUE & _).
    destruct (alt_make_ok F pow10 _ _ (gs_inv _ _ _ _ GX)) as (hc & vc & E & EV & MK' & wc & ENC).
    cbn [alternating_alg alg_make alg_update] in *. assert (MK2 := MK). rewrite MK in MK'. injection MK' as EA ECC.
    assert (HL : a_cur F (o_alg F _ x) < length (a_handlers F (o_alg F _ x))) by (apply nth_error_Some; congruence).
    split.
    - split; [exact G2|]. split; [exact R2|]. split; [congruence|]. destruct gg.
      + destruct (TRUE eq_refl) as (buf & t & ps2 & u & V & AU & _).
        destruct (alt_update_ok F pow10 _ _ _ _ _ buf t (gs_inv _ _ _ _ GX) MK2 V) as (h' & v' & E' & _ & _ & ps1 & _ & AU'). rewrite AU in AU'. injection AU' as EB _ _.
        rewrite EB. cbn [a_handlers]. destruct (Nat.eq_dec i (a_cur F (o_alg F _ x))) as [EI|NE].
        * rewrite EI in *. rewrite nth_error_lset_eq by exact HL. rewrite HE in E'. injection E' as <-. eexists. split; [reflexivity|]. cbn [h_param h_index].
          split; [exact HP|]. rewrite two_values_same by (rewrite HP; lia). cbn [snd]. match goal with |- (if ?c then _ else _) = _ => now destruct c end.
        * rewrite nth_error_lset_ne by auto. eauto.
      + destruct (FALSE eq_refl) as (EB & _). rewrite EB, EA. cbn [a_handlers]. destruct (Nat.eq_dec i (a_cur F (o_alg F _ x))) as [EI|NE].
        * rewrite EI in *. rewrite nth_error_lset_eq by exact HL. rewrite HE in E. injection E as <-. eexists. split; [reflexivity|]. auto.
        * rewrite nth_error_lset_ne by auto. eauto.
    - intros vv EVV. rewrite ECC in EVV. injection EVV as EI <-. rewrite EI in *. rewrite HE in E. injection E as <-.
      rewrite two_values_same in EV by (rewrite HP; lia). cbn [snd] in EV. rewrite HI, HP in EV. exact EV. }
  assert (J0 : J (set_restart F (create F ps cap mx (new_alternating F ps)) b mx)).
  { split; [exact G|]. split; [exact RM|]. split; [reflexivity|]. cbn [set_restart create o_alg new_alternating a_handlers].
    exists (new_handler F p). split; [|split; reflexivity]. now rewrite (map_nth_error (fun e => new_handler F (fst e)) _ _ EN). }
  assert (JO : J o) by (eapply (trials_inv F pow10 _ (alternating_alg F) J); [|exact J0|exact T]; intros; eapply STEP; eauto).
  eapply STEP; eauto.
Qed.

(** C145: without restarts, and with defaults among the listed values, the
    alternating optimizer leaves its point only for a result reported as good whose
    metrics are smaller than the current ones, or if the current ones are not known
    (negative). *)
Theorem C145_only_improves : forall ps cap mx o m g o' s, proper ps -> 1 <= cap ->
  Forall (fun e => snd e = p_default F (fst e) /\ In (snd e) (p_values F (fst e))) (entries F ps) ->
  alt_reachable ps cap mx false o -> trial (alternating_alg F) o m g = Some (o', s) ->
  points (o_params F _ o') <> points (o_params F _ o) ->
  g = true /\ ((metrics F (o_params F _ o) <? 0)%F = true \/ (m <? metrics F (o_params F _ o))%F = true).
Proof.
  intros ps cap mx o m g o' s P C D (l & T) T1. 
  assert (S0 : synced F (set_restart F (create F ps cap mx (new_alternating F ps)) false mx)).
  { split; [reflexivity|]. split; [cbn; destruct P; now apply new_alt_ok|]. cbn [set_restart create o_alg o_params new_alternating a_handlers].
    intros i h p w H1 H2. rewrite (map_nth_error (fun e => new_handler F (fst e)) _ _ H2) in H1. injection H1 as <-. cbn [fst new_handler h_index].
    assert (X := Forall_nth_error _ _ _ _ _ D H2). cbn [fst snd] in X. destruct X as [-> I]. exact (C140_itself p (p_default F p) I). }
  assert (SO : synced F o) by (eapply (trials_inv F pow10 _ (alternating_alg F) (synced F)); [|exact S0|exact T]; intros; eapply synced_trial; eauto).
  eapply synced_trial; eauto.
Qed.

(** C146: the annealing optimizer stays within the range of each parameter: if all
    values in use lie there, every suggestion does, and the values in use keep doing
    so. *)
Theorem C146_range : forall shape accept fuel l o o1, Forall (within F) (n_handlers F (o_alg F _ o)) ->
  trials (annealing_alg F shape accept fuel) o l = Some o1 ->
  Forall (within F) (n_handlers F (o_alg F _ o1)) /\
  forall m g o2 s, trial (annealing_alg F shape accept fuel) o1 m g = Some (o2, s) ->
    exists i v h a b, s_changed F s = [(i, v)] /\ nth_error (n_handlers F (o_alg F _ o1)) i = Some h /\
      minimal F (ah_param F h) = Some a /\ maximal F (ah_param F h) = Some b /\ le a v /\ le v b.
Proof.
  intros shape accept fuel l o o1 W T.
  assert (W1 : Forall (within F) (n_handlers F (o_alg F _ o1))).
  { eapply (trials_inv F pow10 _ (annealing_alg F shape accept fuel) (fun x => Forall (within F) (n_handlers F (o_alg F _ x)))); [|exact W|exact T].
    cbv beta. intros x mm g x' s WX TX. eapply within_trial; eauto. }
  split; [exact W1|]. intros m g o2 s T2. destruct (within_trial F pow10 shape accept fuel o1 m g o2 s W1 T2) as (_ & i & v & h & a & b & E1 & _ & E2 & E3 & E4 & E5 & E6).
  exists i, v, h, a, b. auto 8.
Qed.

(** C146: the step is limited to the given part of the range; with the property
    use_closest the value is a listed one. *)
Theorem C146_step : forall shape fuel h a b n v, minimal F (ah_param F h) = Some a -> maximal F (ah_param F h) = Some b ->
  le a (ah_value F h) -> le (ah_value F h) b -> next_value F shape fuel h = Some (n, v) ->
  (ah_closest F h = false -> le a v /\ le v b /\ ((0 <? ah_barrier F h)%F = true -> le (fabs (v - ah_value F h))%F (ah_barrier F h * (b - a))%F)) /\
  (ah_closest F h = true -> In v (p_values F (ah_param F h))).
Proof.
  intros shape fuel h a b n v MN MX LA LB H. destruct (next_value_ok F pow10 shape fuel h a b n v MN MX LA LB H) as (w & WA & WB & ST & E). split; intro CL; rewrite CL in E.
  - subst v. auto.
  - eapply closest_in; exact E.
Qed.

(** C146: with the strict bound a value at an end of the range is never left, and a
    parameter with one value has no suggestion (the step is divided by zero). *)
Theorem C146_stuck_refuted : forall shape fuel h a b, minimal F (ah_param F h) = Some a -> maximal F (ah_param F h) = Some b ->
  (a <? b)%F = true -> ah_strict F h = true -> ah_closest F h = false -> (0 <? ah_barrier F h)%F = true ->
  (ah_value F h = a \/ ah_value F h = b) -> next_value F shape (S fuel) h = Some (S (ah_n F h), ah_value F h).
Proof. intros. now apply (strict_end F shape fuel h a b). Qed.

Theorem C146_single_value_refuted : forall shape fuel h a, p_values F (ah_param F h) = [a] -> (0 <? ah_barrier F h)%F = true ->
  next_value F shape fuel h = None.
Proof. intros shape fuel h a. apply single_value. Qed.

(** C147: saved optimizers are found under their names and saving one leaves the
    others alone; without parameters nothing is saved. *)
Lemma get_store : forall O (st : saved O) name v other, get_saved (store st name v) other = if String.eqb name other then v else get_saved st other.
Proof.
  intros O st name v other. unfold get_saved, lookup, store. cbn [find fst]. destruct (String.eqb_spec name other) as [->|N]; [reflexivity|].
  induction st as [|[n w] st IH]; cbn [filter find fst]; [reflexivity|]. destruct (String.eqb_spec n name) as [->|N2]; cbn [negb find fst].
  - destruct (String.eqb_spec name other); [congruence|exact IH].
  - destruct (String.eqb_spec n other); [reflexivity|exact IH].
Qed.

Theorem C147_saved : forall O (make : string -> option O) st name type count other, count <> 0 ->
  get_saved (save_or_replace make st name type count) other = if String.eqb name other then make type else get_saved st other.
Proof.
  intros O make st name type count other C. unfold save_or_replace. destruct (Nat.eqb_spec count 0); [congruence|]. apply get_store.
Qed.

(** C147: an unknown type destroys the optimizer saved under the name. *)
Theorem C147_unknown_type_refuted : forall O (make : string -> option O) st name type count, count <> 0 -> make type = None ->
  get_saved (save_or_replace make st name type count) name = None.
Proof. intros O make st name type count C U. rewrite C147_saved by exact C. now rewrite String.eqb_refl. Qed.

Theorem C147_no_parameters : forall O (make : string -> option O) st name type, save_or_replace make st name type 0 = st.
Proof. reflexivity. Qed.

End Props.

(** C139: in doubles the range from 0 to 1 in steps of 0.1 has the quotient ten, but
    the sum of ten steps is less than one and the array is overrun. *)
Definition one : spec_float := S754_finite false 4503599627370496 (-52).
Definition tenth : spec_float := S754_finite false 7205759403792794 (-56).
Definition ten : spec_float := S754_finite false 5629499534213120 (-49).
Theorem C139_tenths_refuted : SFdiv 53 1024 one tenth = ten /\
  range_values (S754_zero false) SFltb (SFadd 53 1024) 10 (S754_zero false) one tenth = None.
Proof. split; vm_compute; reflexivity. Qed.

Notation K := Qc_ofield.
Definition q (z : Z) : K := Q2Qc (inject_Z z).
Definition show (l : list K) : list Q := map (fun x => this x) l.

Definition p3 : param K := mk_param K [q 0; q 1; q 2]%Z (q 0%Z) Default.
Definition p2 : param K := mk_param K [q 4; q 6]%Z (q 6%Z) Default.
Definition ps3 : params K := mk_params K [(p3, q 0%Z)] (q (-1)%Z).
Definition ps32 : params K := mk_params K [(p3, q 0%Z); (p2, q 6%Z)] (q (-1)%Z).
Definition id10 : K -> K := fun x => x.

(** C145: with restarts the alternating optimizer moves to a worse point. *)
Theorem C145_restart_refuted :
  match trials K id10 (alternating_alg K) (set_restart K (create K ps3 3 0 (new_alternating K ps3)) true 0) [(q 5%Z, true)] with
  | Some o => match trial K id10 (alternating_alg K) o (q 9%Z) false with
              | Some (o', _) => show [metrics K (o_params K _ o)] = [5]%Q /\ show [metrics K (o_params K _ o')] = [9]%Q /\
                  show (points K id10 (o_params K _ o)) = [1]%Q /\ show (points K id10 (o_params K _ o')) = [2]%Q
              | None => False
              end
  | None => False
  end.
Proof. vm_compute. repeat split. Qed.

Example C139_nonvacuous : (0 <? q 2)%F%Z = true /\ (q 9 - q 3)%F%Z = steps K 3 (q 2%Z) /\
  whole_quotient K 3 (q 10 - q 3)%F%Z (q 2%Z) /\ (q 10 - q 3)%F%Z <> steps K 3 (q 2%Z).
Proof.
  split; [reflexivity|]. split; [apply Qc_is_canon; reflexivity|]. split; [split; reflexivity|].
  intro E. apply (f_equal this) in E. vm_compute in E. discriminate.
Qed.

Example C140_nonvacuous : closest_to K p3 (q 1%Z) = Some (q 1%Z) /\ closest_index K p2 (q 5%Z) = 0 /\ In (q 1%Z) (p_values K p3).
Proof. repeat split; cbn; auto. Qed.

Definition res (x m : Z) (g : bool) : result K := mk_result K [(0, q x)] [q 0%Z] [q x] (q (-1)%Z) (q m) g.
Example C141_nonvacuous :
  match pushes K 2 [] [res 0 1 true; res 1 2 true; res 2 3 false]%Z with
  | Some buf => map (r_good K) (view K buf) = [false; true] /\ successful_exists K buf = true /\
      match last_successful K buf with Some r => show (r_after K r) = [1]%Q | None => False end
  | None => False
  end /\
  match last_unique K 1 [res 0 1 true; res 1 2 true; res 1 3 true]%Z with
  | Some us => map (fun u => show (r_after K u)) us = [[1]; [0]]%Q
  | None => False
  end.
Proof. vm_compute. repeat split. Qed.

Example C142_nonvacuous : good_state K id10 (fun _ l => l <> []) (create K ps32 4 7 tt) /\ good_state K id10 (alt_ok K) (create K ps32 4 7 (new_alternating K ps32)) /\
  match trial K id10 (alternating_alg K) (create K ps32 4 7 (new_alternating K ps32)) (q 3%Z) true with
  | Some (o', s) => show (s_before K s) = [0; 6]%Q /\ show (s_after K s) = [1; 6]%Q /\ show (points K id10 (o_params K _ o')) = [1; 6]%Q
  | None => False
  end.
Proof.
  split; [apply create_good; [lia|discriminate]|]. split.
  - apply create_good; [lia|]. apply new_alt_ok; [discriminate|]. repeat constructor; discriminate.
  - vm_compute. repeat split.
Qed.

Example C143_nonvacuous :
  match trials K id10 (alternating_alg K) (set_restart K (create K ps32 4 2 (new_alternating K ps32)) true 2) [(q 3%Z, true); (q 9%Z, false); (q 7%Z, false)] with
  | Some o => o_fails K _ o = 2 /\
      match trial K id10 (alternating_alg K) o (q 8%Z) false with
      | Some (o', _) => o_fails K _ o' = 0 /\ show [metrics K (o_params K _ o')] = [7]%Q
      | None => False
      end
  | None => False
  end.
Proof. vm_compute. repeat split. Qed.

Example C144_nonvacuous : proper K ps32 /\
  match trials K id10 (alternating_alg K) (create K ps32 4 7 (new_alternating K ps32)) [(q 3%Z, true); (q 5%Z, true)] with
  | Some o => match trial K id10 (alternating_alg K) o (q 2%Z) true with
              | Some (o', s) => show (s_after K s) = [2; 6]%Q /\ show (points K id10 (o_params K _ o')) = [2; 6]%Q
              | None => False
              end
  | None => False
  end.
Proof. split; [split; [discriminate|repeat constructor; discriminate]|vm_compute; repeat split]. Qed.

Example C145_nonvacuous : proper K ps32 /\ Forall (fun e => snd e = p_default K (fst e) /\ In (snd e) (p_values K (fst e))) (entries K ps32) /\
  alt_reachable K id10 ps32 4 7 false (create K ps32 4 7 (new_alternating K ps32)) /\
  match trial K id10 (alternating_alg K) (create K ps32 4 7 (new_alternating K ps32)) (q 3%Z) true with
  | Some (o', _) => points K id10 (o_params K _ o') <> points K id10 (o_params K _ (create K ps32 4 7 (new_alternating K ps32)))
  | None => False
  end.
Proof.
  split; [split; [discriminate|repeat constructor; discriminate]|]. split; [do 2 (apply Forall_cons; [split; [reflexivity|cbn; auto]|]); apply Forall_nil|]. split; [exists []; reflexivity|].
  set (t := trial _ _ _ _ _ _). assert (E : match t with Some (o', _) => show (points K id10 (o_params K _ o')) = [1; 6]%Q | None => False end) by (vm_compute; repeat split).
  destruct t as [[o' s]|]; [|contradiction]. intro X. rewrite X in E. vm_compute in E. discriminate.
Qed.

Definition ah (v : Z) (strict closest : bool) : ahandler K :=
  mk_ah K p3 (q v) 0 strict closest (Q2Qc (1 # 2)%Q) (fun n => Q2Qc (1 # Pos.of_nat (2 + n))%Q) 0.
Example C146_nonvacuous : Forall (within K) [ah 1 false false; ah 0 true true]%Z /\
  match next_value K (fun _ x => x) 5 (ah 1 false false) with Some (n, v) => show [v] = [2]%Q | None => False end /\
  match next_value K (fun _ x => x) 5 (ah 1 false true) with Some (n, v) => show [v] = [2]%Q | None => False end /\
  minimal K (ah_param K (ah 0 true false)) = Some (q 0%Z) /\ maximal K (ah_param K (ah 0 true false)) = Some (q 2%Z) /\
  ah_value K (ah 0 true false) = q 0%Z.
Proof.
  split.
  - repeat constructor; exists (q 0%Z), (q 2%Z); (split; [reflexivity|]; split; [reflexivity|]; split; [reflexivity|]; split; [reflexivity|]);
      intros v [<-|[<-|[<-|[]]]]; split; reflexivity.
  - vm_compute. repeat split.
Qed.

Example C147_nonvacuous :
  let make := fun t => if String.eqb t "noop" then Some 1 else if String.eqb t "annealing" then Some 2 else None in
  let st := save_or_replace make (save_or_replace make [] "a" "noop" 1) "b" "annealing" 1 in
  get_saved st "a" = Some 1 /\ get_saved st "b" = Some 2 /\ get_saved (save_or_replace make st "a" "bogus" 1) "a" = None /\ get_saved st "c" = None.
Proof. repeat split. Qed.

Print Assumptions C139_range.
Print Assumptions C139_overrun_refuted.
Print Assumptions C140_closest.
Print Assumptions C140_itself.
Print Assumptions C141_buffer.
Print Assumptions C141_zero_capacity_refuted.
Print Assumptions C141_last_successful.
Print Assumptions C141_successful.
Print Assumptions C141_unique.
Print Assumptions C141_one_more_refuted.
Print Assumptions C142_one_change.
Print Assumptions C142_types.
Print Assumptions C142_repeated_refuted.
Print Assumptions C142_noop.
Print Assumptions C142_alternating.
Print Assumptions C142_annealing.
Print Assumptions C143_noop.
Print Assumptions C143_alternating.
Print Assumptions C143_small_buffer_refuted.
Print Assumptions C143_removed_refuted.
Print Assumptions C143_bad_adopted_refuted.
Print Assumptions C144_never_fails.
Print Assumptions C144_turns.
Print Assumptions C144_two_values_refuted.
Print Assumptions C145_only_improves.
Print Assumptions C146_range.
Print Assumptions C146_step.
Print Assumptions C146_stuck_refuted.
Print Assumptions C146_single_value_refuted.
Print Assumptions C147_saved.
Print Assumptions C147_unknown_type_refuted.
Print Assumptions C147_no_parameters.
Print Assumptions C139_tenths_refuted.
Print Assumptions C145_restart_refuted.
