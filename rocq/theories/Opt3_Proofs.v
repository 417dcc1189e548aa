(** Proofs about the alternating and annealing optimizers. *)
From Coq Require Import Ascii String List Arith Lia Bool Field.
From Verif Require Import Util OField Opt_Spec Opt_Model Opt_Proofs Opt2_Proofs.
Import ListNotations.
Open Scope nat_scope.

Section Alt.
Variable F : ofield.
Variable pow10 : F -> F.
Notation params := (params F).
Notation handler := (handler F).
Notation alternating := (alternating F).
Notation plist := (plist F).
Notation values h := (p_values F (h_param F h)).

Lemma next_index_lt : forall h : handler, h_index F h < length (values h) -> snd (next_index F h) < length (values h).
Proof.
  intros h H. unfold next_index. destruct ((1 <=? length (values h)) && (length (values h) - 1 <? 2)) eqn:E; [exact H|].
  assert (3 <= length (values h)).
  { apply andb_false_iff in E. destruct E as [E|E]; [apply Nat.leb_gt in E; lia|apply Nat.ltb_ge in E; lia]. }
  destruct (h_dir F h).
  - destruct ((1 <=? length (values h)) && (h_index F h =? length (values h) - 1)) eqn:E2; cbn [snd].
    + destruct (Nat.eqb_spec (h_index F h) 0); [|lia]. apply andb_true_iff in E2. destruct E2 as [_ E2]. apply Nat.eqb_eq in E2. lia.
    + apply andb_false_iff in E2. destruct E2 as [E2|E2]; [apply Nat.leb_gt in E2; lia|apply Nat.eqb_neq in E2; lia].
  - exact H.
  - destruct (Nat.eqb_spec (h_index F h) 0); cbn [snd]; lia.
Qed.

Lemma next_index_again : forall h : handler,
  next_index F (mk_h F (h_param F h) (h_index F h) (fst (next_index F h))) = next_index F h.
Proof.
  intros h. unfold next_index. cbn [h_param h_index h_dir].
  destruct ((1 <=? length (values h)) && (length (values h) - 1 <? 2)) eqn:E; [reflexivity|].
  destruct (h_dir F h) eqn:D; cbn [fst].
  - destruct ((1 <=? length (values h)) && (h_index F h =? length (values h) - 1)) eqn:E2; cbn [fst].
    + apply andb_true_iff in E2. destruct E2 as [E1 E2]. apply Nat.eqb_eq in E2. apply Nat.leb_le in E1.
      apply andb_false_iff in E. destruct E as [E|E]; [apply Nat.leb_gt in E; lia|apply Nat.ltb_ge in E].
      destruct (Nat.eqb_spec (h_index F h) 0); [lia|]. reflexivity.
    + reflexivity.
  - reflexivity.
  - destruct (Nat.eqb_spec (h_index F h) 0) as [Z'|NZ]; cbn [fst].
    + rewrite Z'. destruct ((1 <=? length (values h)) && (0 =? length (values h) - 1)) eqn:E2; [|reflexivity].
      exfalso. apply andb_true_iff in E2. destruct E2 as [E1 E2]. apply Nat.eqb_eq in E2. apply Nat.leb_le in E1.
      apply andb_false_iff in E. destruct E as [E|E]; [apply Nat.leb_gt in E; lia|apply Nat.ltb_ge in E; lia].
    + destruct (Nat.eqb_spec (h_index F h) 0); [lia|reflexivity].
Qed.

(** The handlers belong to the parameters and stay within their values. *)
Definition alt_ok (a : alternating) (l : list (param F)) : Prop :=
  map (h_param F) (a_handlers F a) = l /\ a_cur F a < length l /\ Forall (fun h => h_index F h < length (values h)) (a_handlers F a).

Lemma map_lset_same : forall A B (f : A -> B) l i x y, nth_error l i = Some x -> f y = f x -> map f (lset l i y) = map f l.
Proof.
  intros A B f. induction l as [|z l IH]; intros [|i] x y E H; try discriminate; cbn [lset map] in *.
  - injection E as ->. now rewrite H.
  - f_equal. eapply IH; eauto.
Qed.

Lemma Forall_lset : forall A (P : A -> Prop) l i x, Forall P l -> P x -> Forall P (lset l i x).
Proof. intros A P. induction l as [|z l IH]; intros [|i] x H X; cbn [lset]; inversion H; constructor; auto. Qed.

Lemma lset_twice : forall A (l : list A) i y z, lset (lset l i y) i z = lset l i z.
Proof. intros A. induction l as [|x l IH]; intros [|i] y z; cbn [lset]; [reflexivity..|]. f_equal. apply IH. Qed.

Lemma alt_make_ok : forall a ps, alt_ok a (plist ps) ->
  exists h v, nth_error (a_handlers F a) (a_cur F a) = Some h /\ nth_error (values h) (snd (next_index F h)) = Some v /\
    alt_make F a ps = Some (mk_alt F (a_cur F a) (lset (a_handlers F a) (a_cur F a) (mk_h F (h_param F h) (h_index F h) (fst (next_index F h)))), [(a_cur F a, v)]) /\
    (exists w, nth_error (entries F ps) (a_cur F a) = Some (h_param F h, w)).
Proof.
  intros a ps (M & C & H). assert (L : length (a_handlers F a) = length (plist ps)) by (rewrite <- M; now rewrite map_length).
  destruct (nth_error (a_handlers F a) (a_cur F a)) as [h|] eqn:E; [|apply nth_error_None in E; lia].
  assert (HI := Forall_nth_error _ _ _ _ _ H E). cbv beta in HI.
  assert (NI := next_index_lt h HI).
  destruct (nth_error (values h) (snd (next_index F h))) as [v|] eqn:V; [|apply nth_error_None in V; lia].
  exists h, v. split; [reflexivity|]. split; [exact V|]. split.
  - unfold alt_make. rewrite E. destruct (next_index F h) as [d i]. cbn [fst snd] in *. rewrite V. reflexivity.
  - assert (P : nth_error (plist ps) (a_cur F a) = Some (h_param F h)) by (rewrite <- M; now apply map_nth_error).
    unfold Opt2_Proofs.plist in P. destruct (nth_error (entries F ps) (a_cur F a)) as [[p w]|] eqn:N.
    + rewrite (map_nth_error fst _ _ N) in P. injection P as <-. eauto.
    + apply nth_error_None in N. assert (a_cur F a < length (entries F ps)); [|lia]. unfold Opt2_Proofs.plist in C. now rewrite map_length in C.
Qed.

(** The update after a suggestion, in full. *)
Lemma alt_update_ok : forall a ps a' c r buf t, alt_ok a (plist ps) -> alt_make F a ps = Some (a', c) -> view F buf = r :: t ->
  exists h v, nth_error (a_handlers F a) (a_cur F a) = Some h /\ nth_error (values h) (snd (next_index F h)) = Some v /\ c = [(a_cur F a, v)] /\
    let better := ((r_mbefore F r <? 0)%F || (r_mafter F r <? r_mbefore F r)%F)%bool in
    let acc := (r_good F r && (better || is_stay (fst (next_index F h))))%bool in
    exists ps1, update F c (r_mafter F r) ps = Some ps1 /\
    alt_update F a' ps buf =
      Some (mk_alt F (S (a_cur F a) mod length (a_handlers F a))
              (lset (a_handlers F a) (a_cur F a)
                 (mk_h F (h_param F h) (if acc then snd (next_index F h) else h_index F h)
                    (if better then fst (next_index F h) else next_dir (fst (next_index F h))))),
            (if acc then ps1 else ps), acc).
Proof.
  intros a ps a' c r buf t OK MK V. destruct (alt_make_ok a ps OK) as (h & v & E & EV & MK' & w & EN).
  rewrite MK in MK'. injection MK' as -> ->. exists h, v. split; [exact E|]. split; [exact EV|]. split; [reflexivity|]. cbv zeta.
  assert (CL : a_cur F a < length (entries F ps)) by (apply nth_error_Some; congruence).
  assert (HL : a_cur F a < length (a_handlers F a)) by (apply nth_error_Some; congruence).
  destruct (update_one F pow10 (a_cur F a) v (r_mafter F r) ps CL) as (ps1 & U & _ & _ & _ & U1). exists ps1. split; [exact U|].
  unfold alt_update. cbn [a_handlers a_cur]. rewrite nth_error_lset_eq by exact HL. rewrite V, lset_length.
  cbn [h_dir]. rewrite next_index_again.
  assert (LL : forall y z : handler, lset (lset (a_handlers F a) (a_cur F a) y) (a_cur F a) z = lset (a_handlers F a) (a_cur F a) z).
  { intros. apply lset_twice. }
  destruct (next_index F h) as [d i]. cbn [fst snd] in *. rewrite EN, EV, U1.
  destruct (r_good F r && _)%bool; destruct (((r_mbefore F r <? 0)%F || (r_mafter F r <? r_mbefore F r)%F)%bool); cbn [h_param h_index h_dir]; rewrite LL; reflexivity.
Qed.

Lemma alt_lawful : lawful F (alternating_alg F) alt_ok.
Proof.
  constructor.
  - intros a ps a' c OK MK. cbn [alternating_alg alg_make] in MK. destruct (alt_make_ok a ps OK) as (h & v & E & EV & MK' & w & EN).
    rewrite MK in MK'. injection MK' as -> ->. split.
    + destruct OK as (M & C & H). split; [|split].
      * cbn [a_handlers]. rewrite <- M. eapply map_lset_same; [exact E|reflexivity].
      * exact C.
      * cbn [a_handlers]. apply Forall_lset; [exact H|]. cbn [h_index h_param]. apply (Forall_nth_error _ _ _ _ _ H E).
    + exists (a_cur F a), v. split; [reflexivity|]. apply nth_error_Some. congruence.
  - intros a ps a' c r buf a2 ps2 b OK MK EC G U (t & V). cbn [alternating_alg alg_make alg_update] in *.
    destruct (alt_update_ok a ps a' c r buf t OK MK V) as (h & v & E & EV & EC' & ps1 & UP & AU).
    rewrite AU in U. injection U as <- <- <-.
    set (better := ((r_mbefore F r <? 0)%F || (r_mafter F r <? r_mbefore F r)%F)%bool) in *.
    set (acc := (r_good F r && (better || is_stay (fst (next_index F h))))%bool) in *.
    assert (CL : a_cur F a < length (entries F ps)) by (destruct OK as (_ & C & _); unfold Opt2_Proofs.plist in C; now rewrite map_length in C).
    destruct (update_one F pow10 (a_cur F a) v (r_mafter F r) ps CL) as (psx & U' & _ & _ & PL & _). clear EC. subst c. rewrite U' in UP.
    assert (psx = ps1) by congruence. subst psx. clear UP.
    split.
    + assert (PP : plist (if acc then ps1 else ps) = plist ps) by (destruct acc; auto).
      rewrite PP. destruct OK as (M & C & H).
      assert (L : length (a_handlers F a) = length (plist ps)) by (rewrite <- M; now rewrite map_length).
      split; [|split].
      * cbn [a_handlers]. rewrite <- M. eapply map_lset_same; [exact E|reflexivity].
      * cbn [a_cur]. rewrite L. apply Nat.mod_upper_bound. lia.
      * cbn [a_handlers]. apply Forall_lset; [exact H|]. cbn [h_index h_param].
        assert (HI := Forall_nth_error _ _ _ _ _ H E). cbv beta in HI.
        destruct acc; [now apply next_index_lt|exact HI].
    + destruct acc; [left; split; [reflexivity|exact U']|right; auto].
Qed.

Lemma alt_make_total : forall a ps, alt_ok a (plist ps) -> exists a' c, alg_make F _ (alternating_alg F) a ps = Some (a', c).
Proof. intros a ps OK. destruct (alt_make_ok a ps OK) as (h & v & _ & _ & E & _). cbn [alternating_alg alg_make]. eauto. Qed.

Lemma alt_update_total : forall a ps a' c buf, alt_ok a (plist ps) -> alg_make F _ (alternating_alg F) a ps = Some (a', c) ->
  (exists r t, view F buf = r :: t /\ r_changed F r = c) -> exists x, alg_update F _ (alternating_alg F) a' ps buf = Some x.
Proof.
  intros a ps a' c buf OK MK (r & t & V & _). cbn [alternating_alg alg_make alg_update] in *.
  destruct (alt_update_ok a ps a' c r buf t OK MK V) as (h & v & _ & _ & _ & ps1 & _ & AU). eauto.
Qed.

Lemma new_alt_ok : forall ps, entries F ps <> [] -> Forall (fun e => p_values F (fst e) <> []) (entries F ps) -> alt_ok (new_alternating F ps) (plist ps).
Proof.
  intros ps N V. unfold new_alternating. split; [|split]; cbn [a_handlers a_cur].
  - rewrite map_map. reflexivity.
  - unfold Opt2_Proofs.plist. rewrite map_length. destruct (entries F ps); [congruence|cbn; lia].
  - apply Forall_forall. intros h H. apply in_map_iff in H. destruct H as (e & <- & I). rewrite Forall_forall in V. specialize (V e I).
    cbn [new_handler h_index h_param]. unfold closest_index.
    destruct (min_element_ok F F (fun x => fabs (x - p_default F (fst e))%F) (p_values F (fst e)) V) as (x & X & _).
    apply nth_error_Some. congruence.
Qed.

(** The state of the algorithm after a trial. *)
Lemma restart_alg : forall A (o o' : optimizer F A), restart F o = Some o' -> o_alg F A o' = o_alg F A o.
Proof.
  intros A o o' H. unfold restart in H. destruct (o_max F A o <=? length (view F (o_results F A o))); [|discriminate].
  destruct (nth_error _ _) as [best|]; [|discriminate]. destruct (push F _ _ _) as [b|]; [|discriminate].
  destruct (_ && _); [discriminate|]. destruct (update F _ _ _) as [ps|]; [|discriminate]. now injection H as <-.
Qed.

Lemma restart_strategy : forall A (o o' : optimizer F A), restart F o = Some o' -> o_restart F A o' = o_restart F A o.
Proof.
  intros A o o' H. unfold restart in H. destruct (o_max F A o <=? length (view F (o_results F A o))); [|discriminate].
  destruct (nth_error _ _) as [best|]; [|discriminate]. destruct (push F _ _ _) as [b|]; [|discriminate].
  destruct (_ && _); [discriminate|]. destruct (update F _ _ _) as [ps|]; [|discriminate]. now injection H as <-.
Qed.

Lemma trial_alg : forall A (alg : algorithm F A) o m good o' s, trial F pow10 alg o m good = Some (o', s) ->
  exists a1, alg_make F A alg (o_alg F A o) (o_params F A o) = Some (a1, s_changed F s) /\
    s_before F s = points F pow10 (o_params F A o) /\ s_after F s = points_with F pow10 (s_changed F s) 0 (entries F (o_params F A o)) /\
    (good = false -> o_alg F A o' = a1 /\ (o_restart F A o = false -> o_params F A o' = o_params F A o)) /\
    (good = true -> exists buf t ps2 u,
       view F buf = mk_result F (s_changed F s) (points F pow10 (o_params F A o)) (s_after F s) (metrics F (o_params F A o)) m true :: t /\
       alg_update F A alg a1 (o_params F A o) buf = Some (o_alg F A o', ps2, u) /\ (o_restart F A o = false -> o_params F A o' = ps2)) /\
    o_restart F A o' = o_restart F A o.
Proof.
  intros A alg o m good o' s H. unfold trial, suggest in H.
  destruct (alg_make F A alg (o_alg F A o) (o_params F A o)) as [[a c]|]; [|discriminate].
  set (s1 := mk_sugg F c (points F pow10 (o_params F A o)) (metrics F (o_params F A o)) (points_with F pow10 c 0 (entries F (o_params F A o)))) in *.
  unfold save, save_full in H. cbn [o_params o_cap o_results o_restart o_max o_fails o_suggestions o_alg] in H.
  set (r := mk_result F (s_changed F s1) (points F pow10 (o_params F A o)) (s_after F s1) (metrics F (o_params F A o)) m good) in *.
  destruct (push F (o_cap F A o) (o_results F A o) r) as [b|] eqn:PU; [|discriminate].
  assert (VB : exists t, view F b = r :: t).
  { unfold push in PU. destruct (length (o_results F A o) =? o_cap F A o).
    - destruct (o_results F A o) as [|x l]; [discriminate|]. injection PU as <-. unfold view. rewrite rev_app_distr. cbn [rev app]. eauto.
    - injection PU as <-. unfold view. rewrite rev_app_distr. cbn [rev app]. eauto. }
  destruct VB as (t & VB).
  destruct (if r_good F r then alg_update F A alg a (o_params F A o) b else Some (a, o_params F A o, false)) as [[[a2 ps2] u]|] eqn:UP; [|discriminate].
  set (fl := if u then 0 else S (o_fails F A o)) in *.
  set (o1 := mk_opt F A ps2 (o_cap F A o) b (o_restart F A o) (o_max F A o) fl (s1 :: tl (o_suggestions F A o)) a2) in *.
  assert (X : o_alg F A o' = a2 /\ (o_restart F A o = false -> o_params F A o' = ps2) /\ s = s1 /\ o_restart F A o' = o_restart F A o).
  { destruct ((o_max F A o <? fl) && o_restart F A o) eqn:C.
    - destruct (restart F o1) as [o2|] eqn:R; [|discriminate]. injection H as <- <-. split; [now apply restart_alg in R|]. split.
      + intro Y. rewrite Y, andb_false_r in C. discriminate.
      + split; [reflexivity|]. now apply restart_strategy in R.
    - injection H as <- <-. auto. }
  destruct X as (X1 & X2 & -> & X3). exists a. split; [reflexivity|]. split; [reflexivity|]. split; [reflexivity|].
  change (r_good F r) with good in UP.
  split; [|split; [|exact X3]].
  - intros ->. injection UP as <- <- <-. auto.
  - intros ->. exists b, t, ps2, u. rewrite X1. auto.
Qed.

Lemma trials_snoc : forall A (alg : algorithm F A) l o o' m g o2 s, trials F pow10 alg o l = Some o' -> trial F pow10 alg o' m g = Some (o2, s) ->
  trials F pow10 alg o (l ++ [(m, g)]) = Some o2.
Proof.
  intros A alg. induction l as [|[m1 g1] l IH]; intros o o' m g o2 s T1 T2; cbn [trials app] in *.
  - injection T1 as <-. now rewrite T2.
  - destruct (trial F pow10 alg o m1 g1) as [[o1 s1]|]; [|discriminate]. eapply IH; eassumption.
Qed.

Lemma trials_inv : forall A (alg : algorithm F A) (P : optimizer F A -> Prop),
  (forall o m g o' s, P o -> trial F pow10 alg o m g = Some (o', s) -> P o') ->
  forall l o o', P o -> trials F pow10 alg o l = Some o' -> P o'.
Proof.
  intros A alg P ST. induction l as [|[m g] l IH]; intros o o' H T; cbn [trials] in T; [now injection T as <-|].
  destruct (trial F pow10 alg o m g) as [[o1 s]|] eqn:E; [|discriminate]. eapply IH; [|exact T]. eapply ST; eauto.
Qed.

(** Reachable states of the alternating optimizer. *)
Definition alt_room (o : optimizer F alternating) : Prop := o_restart F _ o = true -> 2 <= o_cap F _ o /\ o_max F _ o < o_cap F _ o.
Lemma alt_step : forall o m g, good_state F pow10 alt_ok o -> alt_room o ->
  exists o' s, trial F pow10 (alternating_alg F) o m g = Some (o', s) /\ good_state F pow10 alt_ok o' /\ alt_room o'.
Proof.
  intros o m g G R.
  destruct (trial_ok F pow10 _ (alternating_alg F) alt_ok o m g alt_lawful G R) as (o' & s & T & G' & C1 & C2 & C3 & _).
  - apply alt_make_total. apply G.
  - intros a c buf MK V. eapply alt_update_total; eauto. apply G.
  - exists o', s. split; [exact T|]. split; [exact G'|]. unfold alt_room. rewrite C1, C2, C3. exact R.
Qed.

Lemma alt_reach : forall l o, good_state F pow10 alt_ok o -> alt_room o ->
  exists o', trials F pow10 (alternating_alg F) o l = Some o' /\ good_state F pow10 alt_ok o' /\ alt_room o'.
Proof.
  induction l as [|[m g] l IH]; intros o G R; cbn [trials]; [eauto|].
  destruct (alt_step o m g G R) as (o1 & s & -> & G1 & R1). now apply IH.
Qed.

(** A parameter with at most two values keeps its index. *)
Lemma two_values_same : forall h : handler, 1 <= length (values h) <= 2 -> next_index F h = (h_dir F h, h_index F h).
Proof.
  intros h H. unfold next_index. destruct (Nat.leb_spec 1 (length (values h))); [|lia].
  destruct (Nat.ltb_spec (length (values h) - 1) 2); [|lia]. reflexivity.
Qed.

Lemma next_index_near : forall h : handler, snd (next_index F h) <= S (h_index F h) /\ h_index F h <= S (snd (next_index F h)).
Proof.
  intros h. unfold next_index. destruct (_ && _); cbn [snd]; [lia|]. destruct (h_dir F h); cbn [snd].
  - destruct (_ && _); cbn [snd]; [|lia]. destruct (Nat.eqb_spec (h_index F h) 0); lia.
  - lia.
  - destruct (Nat.eqb_spec (h_index F h) 0); cbn [snd]; lia.
Qed.

Lemma stay_same : forall h : handler, is_stay (fst (next_index F h)) = true -> snd (next_index F h) = h_index F h.
Proof.
  intros h. unfold next_index. destruct (_ && _); cbn [fst snd]; [reflexivity|]. destruct (h_dir F h); cbn [fst snd].
  - destruct (_ && _); discriminate.
  - reflexivity.
  - destruct (_ =? _); discriminate.
Qed.

(** The values in use are those the handlers point to. *)
Definition synced (o : optimizer F alternating) : Prop :=
  o_restart F _ o = false /\ alt_ok (o_alg F _ o) (plist (o_params F _ o)) /\
  forall i h p w, nth_error (a_handlers F (o_alg F _ o)) i = Some h -> nth_error (entries F (o_params F _ o)) i = Some (p, w) ->
    nth_error (p_values F p) (h_index F h) = Some w.

Lemma update1_entries : forall i v m ps ps', update F [(i, v)] m ps = Some ps' -> forall p w, nth_error (entries F ps) i = Some (p, w) ->
  entries F ps' = lset (entries F ps) i (p, v).
Proof.
  intros i v m ps ps' U p w E. unfold update in U. cbn [set_entries] in U. unfold set_entry in U. rewrite E in U. now injection U as <-.
Qed.

Lemma synced_trial : forall o m g o' s, synced o -> trial F pow10 (alternating_alg F) o m g = Some (o', s) ->
  synced o' /\ (points F pow10 (o_params F _ o') <> points F pow10 (o_params F _ o) ->
     g = true /\ ((metrics F (o_params F _ o) <? 0)%F = true \/ (m <? metrics F (o_params F _ o))%F = true)).
Proof.
  intros o m g o' s (R & OK & SY) T. destruct (trial_alg _ _ _ _ _ _ _ T) as (a1 & MK & SB & SA & FALSE & TRUE & RR).
  destruct (alt_make_ok _ _ OK) as (h & v & E & EV & MK' & w & EN).
  cbn [alternating_alg alg_make alg_update] in *.
  assert (HL : a_cur F (o_alg F _ o) < length (a_handlers F (o_alg F _ o))) by (apply nth_error_Some; congruence).
  assert (PN : forall k hh pp ww, nth_error (a_handlers F (o_alg F _ o)) k = Some hh -> nth_error (entries F (o_params F _ o)) k = Some (pp, ww) -> h_param F hh = pp).
  { intros k hh pp ww H1 H2. destruct OK as (M & _ & _). assert (X := map_nth_error (h_param F) _ _ H1). rewrite M in X. unfold Opt2_Proofs.plist in X.
    rewrite (map_nth_error fst _ _ H2) in X. cbn [fst] in X. congruence. }
  destruct g.
  - destruct (TRUE eq_refl) as (buf & t & ps2 & u & V & AU & PP). specialize (PP R).
    destruct (alt_update_ok _ _ _ _ _ buf t OK MK V) as (h' & v' & E' & EV' & EC & ps1 & UP & AU').
    rewrite E in E'. injection E' as <-. rewrite EV in EV'. injection EV' as <-.
    cbn [r_mbefore r_mafter r_good] in *.
    assert (OK2 := proj1 (law_update _ _ _ alt_lawful _ _ _ _ (mk_result F (s_changed F s) (points F pow10 (o_params F _ o)) (s_after F s) (metrics F (o_params F _ o)) m true) buf _ _ _ OK MK eq_refl eq_refl AU ltac:(eauto))).
    rewrite AU in AU'. injection AU' as EA EP EU.
    set (better := ((metrics F (o_params F _ o) <? 0)%F || (m <? metrics F (o_params F _ o))%F)%bool) in *.
    cbn [andb] in *. destruct (better || is_stay (fst (next_index F h)))%bool eqn:ACC.
    + split.
      * split; [congruence|]. split; [rewrite PP; exact OK2|]. intros i hh pp ww H1 H2. rewrite EA in H1. cbn [a_handlers] in H1.
        rewrite PP, EP in H2. rewrite EC in UP. rewrite (update1_entries _ _ _ _ _ UP _ _ EN) in H2.
        assert (NL : a_cur F (o_alg F _ o) < length (entries F (o_params F _ o))) by (apply nth_error_Some; congruence).
        destruct (Nat.eq_dec i (a_cur F (o_alg F _ o))) as [->|NE].
        -- rewrite nth_error_lset_eq in H1 by exact HL. injection H1 as <-. rewrite nth_error_lset_eq in H2 by exact NL. injection H2 as <- <-. exact EV.
        -- rewrite nth_error_lset_ne in H1 by auto. rewrite nth_error_lset_ne in H2 by auto. eapply SY; eauto.
      * intro NP. split; [reflexivity|]. destruct better eqn:B; [apply orb_true_iff in B; exact B|]. exfalso. cbn [orb] in ACC.
        apply NP. rewrite PP, EP. unfold points. rewrite EC in UP. rewrite (update1_entries _ _ _ _ _ UP _ _ EN).
        assert (v = w).
        { rewrite (stay_same h ACC) in EV. assert (X := SY _ _ _ _ E EN). congruence. }
        subst w. rewrite (map_lset_same _ _ _ _ _ _ _ EN); reflexivity.
    + split.
      * split; [congruence|]. split; [rewrite PP; exact OK2|]. intros i hh pp ww H1 H2. rewrite EA in H1. cbn [a_handlers] in H1. rewrite PP, EP in H2.
        destruct (Nat.eq_dec i (a_cur F (o_alg F _ o))) as [->|NE].
        -- rewrite nth_error_lset_eq in H1 by exact HL. injection H1 as <-. cbn [h_index]. eapply SY; eauto.
        -- rewrite nth_error_lset_ne in H1 by auto. eapply SY; eauto.
      * intro NP. exfalso. apply NP. now rewrite PP, EP.
  - destruct (FALSE eq_refl) as (EA & PP). specialize (PP R). split.
    + split; [congruence|]. split.
      * rewrite PP, EA. apply (law_make _ _ _ alt_lawful _ _ _ _ OK MK).
      * intros i hh pp ww H1 H2. rewrite EA in H1. rewrite MK in MK'. injection MK' as -> _. cbn [a_handlers] in H1. rewrite PP in H2.
        destruct (Nat.eq_dec i (a_cur F (o_alg F _ o))) as [->|NE].
        -- rewrite nth_error_lset_eq in H1 by exact HL. injection H1 as <-. cbn [h_index]. eapply SY; eauto.
        -- rewrite nth_error_lset_ne in H1 by auto. eapply SY; eauto.
    + intro NP. exfalso. apply NP. now rewrite PP.
Qed.

End Alt.
