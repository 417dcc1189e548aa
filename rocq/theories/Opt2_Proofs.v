(** Proofs about suggesting and saving results. *)
From Coq Require Import Ascii String List Arith Lia Bool Field.
From Verif Require Import Util OField Opt_Spec Opt_Model Opt_Proofs.
Import ListNotations.
Open Scope nat_scope.

Section Protocol.
Variable F : ofield.
Variable pow10 : F -> F.
Notation result := (result F).
Notation params := (params F).
Notation points := (points F pow10).
Notation points_with := (points_with F pow10).
Notation suggest := (suggest F pow10).
Notation save := (save F pow10).

Definition plist (ps : params) : list (param F) := map fst (entries F ps).

Lemma points_with_none : forall i v k es, (forall e, nth_error es e <> None -> k + e <> i) ->
  points_with [(i, v)] k es = map (fun e => convert F pow10 (snd e) (p_type F (fst e))) es.
Proof.
  intros i v k es. revert k. induction es as [|e es IH]; intros k N; cbn [Opt_Model.points_with map]; [reflexivity|].
  cbn [find fst]. destruct (Nat.eqb_spec i k) as [->|NE].
  - exfalso. apply (N 0); [discriminate|lia].
  - f_equal. apply IH. intros j J. specialize (N (S j) J). lia.
Qed.

(** One change: the points after it. *)
Lemma one_change : forall i v (es : list (param F * F)) p w k, nth_error es i = Some (p, w) ->
  points_with [(k + i, v)] k es = map (fun e => convert F pow10 (snd e) (p_type F (fst e))) (lset es i (p, v)).
Proof.
  intros i v. induction i as [|i IH]; intros [|e es] p w k E; try discriminate; cbn [Opt_Model.points_with find fst].
  - cbn in E. injection E as ->. rewrite Nat.add_0_r, Nat.eqb_refl. cbn [lset map snd fst]. f_equal.
    apply points_with_none. intros j _. lia.
  - destruct (Nat.eqb_spec (k + S i) k); [lia|]. cbn [lset map]. f_equal. replace (k + S i) with (S k + i) by lia. now apply (IH es p w).
Qed.

Lemma set_entry_some : forall i v (es : list (param F * F)), i < length es -> exists p w, nth_error es i = Some (p, w) /\ set_entry F i v es = Some (lset es i (p, v)).
Proof.
  intros i v es L. unfold set_entry. destruct (nth_error es i) as [[p w]|] eqn:E; [eauto|]. apply nth_error_None in E. lia.
Qed.

Lemma update_one : forall i v m (ps : params), i < length (entries F ps) ->
  exists ps', update F [(i, v)] m ps = Some ps' /\ points ps' = points_with [(i, v)] 0 (entries F ps) /\ metrics F ps' = m /\
    plist ps' = plist ps /\ update1 F i v m ps = Some ps'.
Proof.
  intros i v m ps L. unfold update, update1. cbn [set_entries]. destruct (set_entry_some i v (entries F ps) L) as (p & w & E & ->).
  eexists. split; [reflexivity|]. split; [|split; [reflexivity|split; [|reflexivity]]].
  - unfold Opt_Model.points. cbn [entries]. symmetry. now apply (one_change i v (entries F ps) p w 0).
  - unfold plist. cbn [entries]. clear L. revert i E. induction (entries F ps) as [|e es IH]; intros [|i] E; try discriminate; cbn [lset map].
    + cbn in E. injection E as ->. reflexivity.
    + f_equal. now apply IH.
Qed.

Lemma update_one_inv : forall c m ps ps', update F c m ps = Some ps' -> metrics F ps' = m.
Proof. intros c m ps ps'. unfold update. destruct (set_entries F c (entries F ps)); [|discriminate]. intro H. now injection H as <-. Qed.

(** What the three algorithms have in common: one parameter is changed at a time,
    and accepting the result of the latest suggestion carries that change out. *)
Record lawful {A} (alg : algorithm F A) (Inv : A -> list (param F) -> Prop) : Prop := {
  law_make : forall a ps a' c, Inv a (plist ps) -> alg_make F A alg a ps = Some (a', c) ->
    Inv a' (plist ps) /\ exists i v, c = [(i, v)] /\ i < length (entries F ps);
  law_update : forall a ps a' c r buf a2 ps2 b, Inv a (plist ps) -> alg_make F A alg a ps = Some (a', c) ->
    r_changed F r = c -> r_good F r = true -> alg_update F A alg a' ps buf = Some (a2, ps2, b) ->
    (exists t, view F buf = r :: t) ->
    Inv a2 (plist ps2) /\ ((b = true /\ update F c (r_mafter F r) ps = Some ps2) \/ (b = false /\ ps2 = ps)) }.

(** A suggestion followed by saving its result. *)
Definition trial {A} (alg : algorithm F A) (o : optimizer F A) (m : F) (good : bool) : option (optimizer F A * suggestion F) :=
  match suggest alg o with
  | None => None
  | Some (o1, s) => match save alg o1 s m good with None => None | Some o2 => Some (o2, s) end
  end.

Fixpoint trials {A} (alg : algorithm F A) (o : optimizer F A) (l : list (F * bool)) : option (optimizer F A) :=
  match l with
  | [] => Some o
  | (m, g) :: r => match trial alg o m g with None => None | Some (o', _) => trials alg o' r end
  end.

(** The results saved since the last accepted one are possible changes of the current
    parameters. *)
Definition pending {A} (o : optimizer F A) : list result := firstn (o_fails F A o) (view F (o_results F A o)).
Definition applies (ps : params) (r : result) : Prop :=
  exists i v, r_changed F r = [(i, v)] /\ i < length (entries F ps) /\ r_after F r = points_with (r_changed F r) 0 (entries F ps).

Record good_state {A} (Inv : A -> list (param F) -> Prop) (o : optimizer F A) : Prop := {
  gs_inv : Inv (o_alg F A o) (plist (o_params F A o));
  gs_cap : 1 <= o_cap F A o /\ length (o_results F A o) <= o_cap F A o;
  gs_len : Nat.min (o_cap F A o) (o_fails F A o) <= length (o_results F A o);
  gs_pend : Forall (applies (o_params F A o)) (pending o) }.

Lemma plist_length : forall ps ps', plist ps = plist ps' -> length (entries F ps) = length (entries F ps').
Proof. intros ps ps' H. apply (f_equal (@length _)) in H. unfold plist in H. now rewrite !map_length in H. Qed.

Lemma create_good : forall A (Inv : A -> list (param F) -> Prop) ps cap mx a, 1 <= cap -> Inv a (plist ps) -> good_state Inv (create F ps cap mx a).
Proof. intros. constructor; cbn; auto; lia. Qed.

Lemma set_restart_good : forall A (Inv : A -> list (param F) -> Prop) o b mx, good_state Inv o -> good_state Inv (set_restart F o b mx).
Proof. intros A Inv o b mx []. constructor; assumption. Qed.

Lemma firstn_view_push : forall (b buf : list result) r cap k, view F b = r :: firstn (cap - 1) (view F buf) -> length buf <= cap ->
  exists j, firstn (S k) (view F b) = r :: firstn j (view F buf) /\ j <= k.
Proof.
  intros b buf r cap k V L. rewrite V. cbn [firstn]. rewrite firstn_firstn. eexists. split; [reflexivity|]. lia.
Qed.

Lemma Forall_firstn_le : forall A (P : A -> Prop) (l : list A) j k, j <= k -> Forall P (firstn k l) -> Forall P (firstn j l).
Proof.
  intros A P l j k J H. replace (firstn j l) with (firstn j (firstn k l)) by (rewrite firstn_firstn; f_equal; lia).
  revert H. generalize (firstn k l). clear. intros l H. revert j. induction H; intros [|j]; cbn [firstn]; constructor; auto.
Qed.

Lemma Forall_nth_error : forall A (P : A -> Prop) (l : list A) k x, Forall P l -> nth_error l k = Some x -> P x.
Proof. intros A P l k x H E. rewrite Forall_forall in H. apply H. eapply nth_error_In; eauto. Qed.

(** The best of the latest results: the newest if none is asked for. *)
Definition best_of (mx : nat) (l : list result) (r : result) : Prop :=
  match mx with
  | O => nth_error l 0 = Some r
  | _ => exists k, first_smallest F (r_mafter F) (firstn mx l) k /\ nth_error (firstn mx l) k = Some r
  end.

Lemma best_pos : forall mx (l : list result), mx <= length l -> 1 <= length l ->
  exists k r, min_element (fun l r => (r_mafter F l <? r_mafter F r)%F) (firstn mx l) = k /\ nth_error l k = Some r /\ best_of mx l r /\
    (k < mx \/ (mx = 0 /\ k = 0)).
Proof.
  intros [|mx] l L L1.
  - exists 0. destruct l as [|r l]; [cbn in L1; lia|]. exists r. cbn. repeat split; auto.
  - destruct (firstn (S mx) l) as [|x t] eqn:E; [destruct l; cbn in *; [lia|discriminate]|].
    assert (Q := min_element_ok F result (r_mafter F) (x :: t) ltac:(discriminate)).
    set (k := min_element (fun l r : result => (r_mafter F l <? r_mafter F r)%F) (x :: t)) in *.
    destruct Q as (r & R & Q1 & Q2). exists k, r. split; [reflexivity|].
    assert (KL : k < length (x :: t)) by (apply nth_error_Some; congruence).
    assert (LL : length (x :: t) <= S mx) by (rewrite <- E; apply firstn_le_length).
    split; [|split; [|left; lia]].
    + assert (R' := R). rewrite <- E in R'. rewrite <- (firstn_skipn (S mx) l). rewrite nth_error_app1; [exact R'|]. rewrite E. lia.
    + cbn [best_of]. rewrite E. exists k. split; [|exact R]. exists r. auto.
Qed.

(** A restart, with room for more results than failures are allowed. *)
Lemma restart_ok : forall A (Inv : A -> list (param F) -> Prop) (o : optimizer F A), good_state Inv o ->
  2 <= o_cap F A o -> o_max F A o < o_cap F A o -> o_max F A o < o_fails F A o ->
  exists o' best, restart F o = Some o' /\ good_state Inv o' /\ best_of (o_max F A o) (view F (o_results F A o)) best /\ In best (pending o) /\
    points (o_params F A o') = r_after F best /\ metrics F (o_params F A o') = r_mafter F best /\ o_fails F A o' = 0 /\
    o_alg F A o' = o_alg F A o /\ plist (o_params F A o') = plist (o_params F A o) /\
    o_cap F A o' = o_cap F A o /\ o_restart F A o' = o_restart F A o /\ o_max F A o' = o_max F A o /\
    update F (r_changed F best) (r_mafter F best) (o_params F A o) = Some (o_params F A o') /\
    view F (o_results F A o') = best :: firstn (o_cap F A o - 1) (view F (o_results F A o)).
Proof.
  intros A Inv o [GI [C1 C2] GL GP] C3 MC MF. unfold restart.
  assert (LL : o_max F A o < length (o_results F A o)) by lia.
  assert (VL : length (view F (o_results F A o)) = length (o_results F A o)) by (unfold view; apply rev_length).
  destruct (Nat.leb_spec (o_max F A o) (length (view F (o_results F A o)))) as [_|]; [|lia].
  destruct (best_pos (o_max F A o) (view F (o_results F A o)) ltac:(lia) ltac:(lia)) as (k & best & -> & KB & BO & KL). rewrite KB.
  destruct (push_view F (o_cap F A o) (o_results F A o) best C1 C2) as (b & -> & VB & LB & LB2).
  assert (NP : (length (o_results F A o) =? o_cap F A o) && (k =? length (o_results F A o) - 1) = false).
  { apply andb_false_iff. destruct (Nat.eqb_spec (length (o_results F A o)) (o_cap F A o)); [right|now left]. apply Nat.eqb_neq. lia. }
  rewrite NP.
  assert (PB : In best (pending o)).
  { unfold pending. apply nth_error_In with k. rewrite <- KB. rewrite <- (firstn_skipn (o_fails F A o) (view F (o_results F A o))) at 2.
    rewrite nth_error_app1; [reflexivity|]. rewrite firstn_length. lia. }
  assert (AP : applies (o_params F A o) best) by (rewrite Forall_forall in GP; now apply GP).
  destruct AP as (i & v & EC & IL & EA).
  destruct (update_one i v (r_mafter F best) (o_params F A o) IL) as (ps' & U & P & M & PL & _). rewrite EC, U.
  eexists _, best. split; [reflexivity|]. cbn [o_params o_cap o_results o_restart o_max o_fails o_suggestions o_alg].
  repeat split; auto; try congruence; cbn [o_params o_cap o_results o_restart o_max o_fails o_suggestions o_alg]; try lia.
  - rewrite PL. exact GI.
  - constructor.
Qed.

(** One trial, in all cases. *)
Lemma trial_ok : forall A (alg : algorithm F A) Inv o m good, lawful alg Inv -> good_state Inv o ->
  (o_restart F A o = true -> 2 <= o_cap F A o /\ o_max F A o < o_cap F A o) ->
  (exists a c, alg_make F A alg (o_alg F A o) (o_params F A o) = Some (a, c)) ->
  (forall a c buf, alg_make F A alg (o_alg F A o) (o_params F A o) = Some (a, c) -> (exists r t, view F buf = r :: t /\ r_changed F r = c) ->
     exists x, alg_update F A alg a (o_params F A o) buf = Some x) ->
  exists o' s, trial alg o m good = Some (o', s) /\ good_state Inv o' /\
    o_cap F A o' = o_cap F A o /\ o_restart F A o' = o_restart F A o /\ o_max F A o' = o_max F A o /\ plist (o_params F A o') = plist (o_params F A o) /\
    s_before F s = points (o_params F A o) /\ s_metrics F s = metrics F (o_params F A o) /\
    (exists i v, s_changed F s = [(i, v)] /\ i < length (entries F (o_params F A o)) /\ s_after F s = points_with [(i, v)] 0 (entries F (o_params F A o))) /\
    ((good = true /\ points (o_params F A o') = s_after F s /\ metrics F (o_params F A o') = m /\ o_fails F A o' = 0 /\
      update F (s_changed F s) m (o_params F A o) = Some (o_params F A o')) \/
     (o_params F A o' = o_params F A o /\ o_fails F A o' = S (o_fails F A o) /\ (o_restart F A o = true -> o_fails F A o' <= o_max F A o) /\
      (good = false \/ exists a buf a2 ps2, alg_update F A alg a (o_params F A o) buf = Some (a2, ps2, false)) /\
      forall x, In x (pending o') -> x = mk_result F (s_changed F s) (points (o_params F A o)) (s_after F s) (metrics F (o_params F A o)) m good \/ In x (pending o)) \/
     (o_restart F A o = true /\ o_max F A o <= o_fails F A o /\ o_fails F A o' = 0) /\
      (good = false \/ exists a buf a2 ps2, alg_update F A alg a (o_params F A o) buf = Some (a2, ps2, false)) /\
      let r := mk_result F (s_changed F s) (points (o_params F A o)) (s_after F s) (metrics F (o_params F A o)) m good in
      exists best, best_of (o_max F A o) (r :: firstn (o_cap F A o - 1) (view F (o_results F A o))) best /\
        points (o_params F A o') = r_after F best /\ metrics F (o_params F A o') = r_mafter F best /\
        (best = r \/ In best (pending o)) /\ update F (r_changed F best) (r_mafter F best) (o_params F A o) = Some (o_params F A o')).
Proof.
  intros A alg Inv o m good LW GS RC (a & c & MK) UPD. destruct GS as [GI [C1 C2] GL GP].
  destruct (law_make _ _ LW _ _ _ _ GI MK) as (GI' & i & v & EC & IL).
  unfold trial, Opt_Model.suggest. rewrite MK.
  set (s := mk_sugg F c (points (o_params F A o)) (metrics F (o_params F A o)) (points_with c 0 (entries F (o_params F A o)))).
  unfold Opt_Model.save, save_full. cbn [o_params o_cap o_results o_restart o_max o_fails o_suggestions o_alg].
  set (r := mk_result F (s_changed F s) (points (o_params F A o)) (s_after F s) (metrics F (o_params F A o)) m good).
  destruct (push_view F (o_cap F A o) (o_results F A o) r C1 C2) as (b & -> & VB & LB & LB2).
  assert (SH : exists i v, s_changed F s = [(i, v)] /\ i < length (entries F (o_params F A o)) /\ s_after F s = points_with [(i, v)] 0 (entries F (o_params F A o))).
  { exists i, v. subst c. repeat split; auto. }
  assert (APR : applies (o_params F A o) r).
  { exists i, v. subst c. repeat split; auto. }
  (* outcome of the update *)
  assert (OUT : exists a2 ps2 u, (if r_good F r then alg_update F A alg a (o_params F A o) b else Some (a, o_params F A o, false)) = Some (a2, ps2, u) /\
     Inv a2 (plist ps2) /\ ((u = true /\ good = true /\ update F c m (o_params F A o) = Some ps2) \/ (u = false /\ ps2 = o_params F A o /\ (good = false \/ exists a buf a2 ps2, alg_update F A alg a (o_params F A o) buf = Some (a2, ps2, false))))).
  { change (r_good F r) with good. destruct good.
    - destruct (UPD a c b MK ltac:(rewrite VB; eauto)) as ([[a2 ps2] u] & EU). rewrite EU. exists a2, ps2, u. split; [reflexivity|].
      destruct (law_update _ _ LW _ _ _ _ r b _ _ _ GI MK eq_refl eq_refl EU ltac:(eauto)) as (I2 & [[-> U]|[-> ->]]); (split; [exact I2|]); [left; auto|right; repeat split; right; eauto 6].
    - exists a, (o_params F A o), false. auto 7. }
  destruct OUT as (a2 & ps2 & u & -> & I2 & CASES).
  destruct CASES as [(-> & -> & U)|(-> & -> & WHY)].
  - (* accepted *)
    destruct (Nat.ltb_spec (o_max F A o) 0) as [X|_]; [lia|]. cbn [andb].
    subst c. destruct (update_one i v m (o_params F A o) IL) as (ps' & U' & P & M & PL & _). rewrite U in U'. injection U' as <-.
    eexists _, s. split; [reflexivity|]. split.
    { constructor; cbn [o_params o_cap o_results o_fails o_alg]; auto; try lia. constructor. }
    cbn [o_params o_cap o_restart o_max o_fails]. do 6 (split; [auto; fail|]).
    split; [exact SH|]. left. split; [reflexivity|]. split; [exact P|]. split; [exact M|]. split; [reflexivity|]. exact U.
  - (* not accepted *)
    set (o1 := mk_opt F A (o_params F A o) (o_cap F A o) b (o_restart F A o) (o_max F A o) (S (o_fails F A o)) (s :: tl (o_suggestions F A o)) a2).
    assert (PE : forall x, In x (pending o1) -> x = r \/ In x (pending o)).
    { intros x X. unfold pending, o1 in X. cbn [o_fails o_results] in X.
      destruct (firstn_view_push b (o_results F A o) r (o_cap F A o) (o_fails F A o) VB C2) as (j & J1 & J2). rewrite J1 in X.
      destruct X as [<-|X]; [now left|right]. unfold pending.
      replace (firstn j (view F (o_results F A o))) with (firstn j (firstn (o_fails F A o) (view F (o_results F A o)))) in X by (rewrite firstn_firstn; f_equal; lia).
      rewrite <- (firstn_skipn j). apply in_app_iff. now left. }
    assert (G1 : good_state Inv o1).
    { constructor; unfold o1; cbn [o_params o_cap o_results o_fails o_alg]; auto; try lia.
      fold o1. apply Forall_forall. intros x X. apply PE in X. destruct X as [->|X]; [exact APR|]. rewrite Forall_forall in GP. now apply GP. }
    destruct ((o_max F A o <? S (o_fails F A o)) && o_restart F A o) eqn:RS.
    + apply andb_true_iff in RS. destruct RS as [R1 R2]. apply Nat.ltb_lt in R1.
      destruct (restart_ok A Inv o1 G1 ltac:(cbn; apply RC, R2) ltac:(cbn; apply RC, R2) ltac:(cbn; lia)) as (o' & best & -> & G' & BO & IP & P & M & FZ & _ & PL & CP & RR & MX & U & _).
      exists o', s. split; [reflexivity|]. split; [exact G'|]. cbn [o1 o_params o_cap o_restart o_max o_fails] in *.
      split; [exact CP|]. split; [exact RR|]. split; [exact MX|]. split; [exact PL|].
      split; [reflexivity|]. split; [reflexivity|]. split; [exact SH|]. right. right. split.
      { repeat split; auto. lia. }
      split; [exact WHY|]. cbv zeta. fold r. exists best. unfold o1 in BO. cbn [o_max o_results] in BO. rewrite VB in BO. split; [exact BO|].
      split; [exact P|]. split; [exact M|]. split; [now apply PE|]. exact U.
    + exists o1, s. split; [reflexivity|]. split; [exact G1|]. cbn [o1 o_params o_cap o_restart o_max o_fails] in *.
      do 6 (split; [auto; fail|]). split; [exact SH|]. right. left. split; [reflexivity|]. split; [reflexivity|]. split; [|split; [exact WHY|exact PE]]. intro R. rewrite R, andb_true_r in RS. apply Nat.ltb_ge in RS. lia.
Qed.

(** noop. *)
Lemma noop_lawful : lawful (noop F) (fun _ l => l <> []).
Proof.
  constructor.
  - intros a ps a' c I E. cbn [noop alg_make] in E. split; [exact I|]. destruct (nth_error (entries F ps) 0) as [[p w]|] eqn:N; [|discriminate].
    injection E as <- <-. exists 0, (p_default F p). split; [reflexivity|]. apply nth_error_Some. congruence.
  - intros a ps a' c r buf a2 ps2 b I E EC G U (t & V). cbn [noop alg_make alg_update] in *.
    destruct (nth_error (entries F ps) 0) as [[p w]|] eqn:N; [|discriminate]. injection E as <- <-.
    unfold update_base in U. rewrite V, EC in U.
    destruct (update_one 0 (p_default F p) (r_mafter F r) ps) as (ps' & U' & _ & _ & PL & _); [apply nth_error_Some; congruence|].
    rewrite U' in U. injection U as <- <- <-. split; [now rewrite PL|]. left. auto.
Qed.

Lemma noop_make : forall ps, plist ps <> [] -> exists a c, alg_make F unit (noop F) tt ps = Some (a, c).
Proof. intros ps N. cbn. unfold plist in N. destruct (entries F ps) as [|[p w] es]; [now contradiction N|]. cbn. eauto. Qed.

Lemma noop_update : forall ps a c buf, alg_make F unit (noop F) tt ps = Some (a, c) ->
  (exists r t, view F buf = r :: t /\ r_changed F r = c) -> exists x, alg_update F unit (noop F) a ps buf = Some x.
Proof.
  intros ps a c buf E (r & t & V & EC). cbn [noop alg_make alg_update] in *. unfold update_base. rewrite V, EC.
  destruct (nth_error (entries F ps) 0) as [[p w]|] eqn:N; [|discriminate]. injection E as <- <-.
  destruct (update_one 0 (p_default F p) (r_mafter F r) ps) as (ps' & -> & _); [apply nth_error_Some; congruence|]. eauto.
Qed.

End Protocol.
