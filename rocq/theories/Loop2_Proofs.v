From Coq Require Import List Arith Bool Lia Permutation.
From Verif Require Import Util Adj_Model Adj_Proofs Loop_Model Loop_Spec Loop_Proofs.
Import ListNotations.

(** * Swaps *)

Lemma swap_split (l : list elem) i j a b : i < j -> nth_error l i = Some a -> nth_error l j = Some b ->
  exists X Y Z, l = X ++ a :: Y ++ b :: Z /\ length X = i /\ length X + S (length Y) = j /\ swap l i j = X ++ b :: Y ++ a :: Z.
Proof.
  intros L A B. destruct (nth_error_split l i A) as (X & R & -> & LX).
  assert (B' : nth_error R (j - i - 1) = Some b).
  { rewrite nth_error_app2 in B by lia. replace (j - length X) with (S (j - i - 1)) in B by lia. exact B. }
  destruct (nth_error_split R _ B') as (Y & Z & -> & LY). exists X, Y, Z. split; [reflexivity|]. split; [assumption|]. split; [lia|].
  unfold swap. rewrite A, B.
  rewrite lset_app_r by lia. rewrite LX, Nat.sub_diag. cbn [lset].
  rewrite lset_app_r by lia. replace (j - length X) with (S (length Y)) by lia. cbn [lset].
  rewrite lset_app_r by lia. rewrite Nat.sub_diag. reflexivity.
Qed.

Lemma swap_perm (l : list elem) i j : i < j -> Permutation l (swap l i j).
Proof.
  intros L. destruct (nth_error l i) as [a|] eqn:A; [destruct (nth_error l j) as [b|] eqn:B|].
  - destruct (swap_split l i j a b L A B) as (X & Y & Z & E & _ & _ & S). rewrite S, E.
    apply Permutation_app_head.
    transitivity (b :: a :: Y ++ Z); [|transitivity (a :: b :: Y ++ Z); [apply perm_swap|]].
    + transitivity (a :: b :: Y ++ Z); [apply perm_skip; symmetry; apply Permutation_middle|apply perm_swap].
    + transitivity (b :: a :: Y ++ Z); [apply perm_swap|]. apply perm_skip. apply Permutation_middle.
  - unfold swap. rewrite A, B. reflexivity.
  - unfold swap. rewrite A. reflexivity.
Qed.
Lemma swap_length (l : list elem) i j : length (swap l i j) = length l.
Proof. unfold swap. destruct (nth_error l i), (nth_error l j); rewrite ?lset_length; reflexivity. Qed.
Lemma swap_firstn (l : list elem) i j : i < j -> firstn i (swap l i j) = firstn i l.
Proof.
  intros L. destruct (nth_error l i) as [a|] eqn:A; [destruct (nth_error l j) as [b|] eqn:B|].
  - destruct (swap_split l i j a b L A B) as (X & Y & Z & E & LX & _ & S). rewrite S, E.
    rewrite !firstn_app, LX, Nat.sub_diag. reflexivity.
  - unfold swap. rewrite A, B. reflexivity.
  - unfold swap. rewrite A. reflexivity.
Qed.
Lemma swap_at (l : list elem) i j b : i < j -> nth_error l j = Some b -> nth_error (swap l i j) i = Some b.
Proof.
  intros L B. destruct (nth_error l i) as [a|] eqn:A.
  - destruct (swap_split l i j a b L A B) as (X & Y & Z & E & LX & _ & S). rewrite S, <- LX. apply nth_error_mid.
  - apply nth_error_None in A. assert (nth_error l j = None) by (apply nth_error_None; lia). congruence.
Qed.

(** * Search *)

Lemma search_found low adv fuel hit lc : forall j k, search low adv fuel hit lc j = Some (Found k) ->
  j <= k /\ exists e p, nth_error lc k = Some e /\ two (low e) = Some p /\ hit p = true.
Proof.
  induction fuel as [|f IH]; intros j k H; cbn [search] in H; [discriminate|].
  destruct (nth_error lc j) as [e|] eqn:E; [|discriminate].
  destruct (two (low e)) as [p|] eqn:T; [|discriminate].
  destruct (hit p) eqn:P.
  - inversion H; subst. split; [lia|]. eauto.
  - apply IH in H. destruct H as (L & X). split; [destruct adv; lia|assumption].
Qed.
Lemma search_missing low fuel hit lc : forall j, search low true fuel hit lc j = Some Missing ->
  forall k e, j <= k -> nth_error lc k = Some e -> exists p, two (low e) = Some p /\ hit p = false.
Proof.
  induction fuel as [|f IH]; intros j H k e L E; cbn [search] in H; [discriminate|].
  destruct (nth_error lc j) as [e'|] eqn:E'.
  - destruct (two (low e')) as [p|] eqn:T; [|discriminate]. destruct (hit p) eqn:P; [discriminate|].
    destruct (Nat.eq_dec j k) as [->|N].
    + rewrite E' in E. inversion E; subst. eauto.
    + apply (IH _ H k e); [lia|assumption].
  - apply nth_error_None in E'. assert (nth_error lc k = None) by (apply nth_error_None; lia). congruence.
Qed.
Lemma search_bad low adv fuel hit lc : forall j, search low adv fuel hit lc j = Some Bad ->
  exists e, In e lc /\ two (low e) = None.
Proof.
  induction fuel as [|f IH]; intros j H; cbn [search] in H; [discriminate|].
  destruct (nth_error lc j) as [e'|] eqn:E'; [|discriminate].
  destruct (two (low e')) as [p|] eqn:T.
  - destruct (hit p); [discriminate|]. eauto.
  - exists e'. split; [eapply nth_error_In; eassumption|assumption].
Qed.
Lemma search_total low fuel hit lc : forall j, length lc < fuel + j -> 0 < fuel -> search low true fuel hit lc j <> None.
Proof.
  induction fuel as [|f IH]; intros j L P; [lia|]. cbn [search].
  destruct (nth_error lc j) as [e'|] eqn:E'; [|discriminate].
  destruct (two (low e')) as [p|]; [|discriminate]. destruct (hit p); [discriminate|].
  assert (j < length lc) by (apply nth_error_Some; congruence). apply IH; lia.
Qed.

(** * The main loop *)

Lemma touches_joins low e p x : two (low e) = Some p -> touches x p = true -> exists y, joins low e x y.
Proof.
  destruct (low e) as [|a [|b [|c l]]] eqn:E; cbn; intros H; inversion H; subst; clear H.
  unfold touches. cbn. rewrite orb_true_iff, !eqe_spec. intros [->| ->]; [exists b; left|exists a; right]; assumption.
Qed.

Lemma order_sound low adv : forall fuel lc last it iend st, order low adv fuel lc last it iend = Some st ->
  it <= iend -> iend < length lc ->
  match st with
  | Stop lc' => Permutation lc lc'
  | Go last' lc' => Permutation lc lc' /\ firstn it lc' = firstn it lc /\
      exists ns, path low (firstn (iend - it) (skipn it lc')) (ns ++ [last']) /\ hd last' ns = last
  end.
Proof.
  induction fuel as [|f IH]; intros lc last it iend st H L1 L2; cbn [order] in H; [discriminate|].
  destruct (Nat.ltb it iend) eqn:C.
  2:{ inversion H; subst. apply Nat.ltb_ge in C. split; [reflexivity|]. split; [reflexivity|].
      replace (iend - it) with 0 by lia. exists []. split; [constructor|reflexivity]. }
  apply Nat.ltb_lt in C.
  destruct (nth_error lc it) as [e|] eqn:E; [|inversion H; subst; reflexivity].
  destruct (two (low e)) as [[a b]|] eqn:T; [|inversion H; subst; reflexivity].
  assert (STEP : forall y, joins low e last y -> order low adv f lc y (S it) iend = Some st ->
    match st with
    | Stop lc' => Permutation lc lc'
    | Go last' lc' => Permutation lc lc' /\ firstn it lc' = firstn it lc /\
        exists ns, path low (firstn (iend - it) (skipn it lc')) (ns ++ [last']) /\ hd last' ns = last
    end).
  { intros y J O. specialize (IH _ _ _ _ _ O ltac:(lia) L2). destruct st as [lc'|last' lc']; [assumption|].
    destruct IH as (P & F & ns & W & HD). split; [assumption|].
    assert (F' : firstn it lc' = firstn it lc).
    { apply (f_equal (firstn it)) in F. rewrite !firstn_firstn in F. replace (Nat.min it (S it)) with it in F by lia. assumption. }
    split; [assumption|].
    assert (E' : nth_error lc' it = Some e).
    { rewrite <- E. transitivity (nth_error (firstn (S it) lc') it).
      - symmetry. rewrite nth_error_firstn_if. destruct (Nat.ltb it (S it)) eqn:Q; [reflexivity|apply Nat.ltb_ge in Q; lia].
      - rewrite F. rewrite nth_error_firstn_if. destruct (Nat.ltb it (S it)) eqn:Q; [reflexivity|apply Nat.ltb_ge in Q; lia]. }
    assert (SK : skipn it lc' = e :: skipn (S it) lc').
    { clear - E'. revert lc' E'. induction it as [|it IH]; intros [|x lc'] E'; cbn in *; try discriminate; [congruence|]. apply IH. assumption. }
    rewrite SK. replace (iend - it) with (S (iend - S it)) by lia. cbn [firstn].
    destruct ns as [|z ns].
    - cbn in HD. subst y. exists [last]. split; [|reflexivity]. cbn in *. constructor; assumption.
    - cbn in HD. subst z. exists (last :: y :: ns). split; [|reflexivity]. cbn in *. constructor; assumption. }
  assert (TL : low e = [a; b]).
  { destruct (low e) as [|a' [|b' [|c l]]]; cbn in T; inversion T; subst. reflexivity. }
  destruct (eqe last a) eqn:A.
  { apply eqe_spec in A. subst a. apply (STEP b); [left; assumption|assumption]. }
  destruct (eqe last b) eqn:B.
  { apply eqe_spec in B. subst b. apply (STEP a); [right; assumption|assumption]. }
  destruct (search low adv f (touches last) lc (S it)) as [[j| |]|] eqn:S; try discriminate; try (inversion H; subst; reflexivity).
  destruct (search_found _ _ _ _ _ _ _ S) as (LJ & _).
  specialize (IH _ _ _ _ _ H L1). rewrite swap_length in IH. specialize (IH L2).
  pose proof (swap_perm lc it j ltac:(lia)) as SP.
  destruct st as [lc'|last' lc'].
  - rewrite SP. assumption.
  - destruct IH as (P & F & X). split; [rewrite SP; assumption|]. rewrite swap_firstn in F by lia. auto.
Qed.

Lemma order_total low : forall fuel lc last it iend,
  2 * (iend - it) + (match nth_error lc it with Some e => match two (low e) with Some p => if touches last p then 0 else 1 | None => 0 end | None => 0 end)
    + length lc + 2 <= fuel -> iend < length lc -> order low true fuel lc last it iend <> None.
Proof.
  induction fuel as [|f IH]; intros lc last it iend L B; [lia|]. cbn [order].
  destruct (Nat.ltb it iend) eqn:C; [|discriminate]. apply Nat.ltb_lt in C.
  destruct (nth_error lc it) as [e|] eqn:E; [|discriminate].
  destruct (two (low e)) as [[a b]|] eqn:T; [|discriminate].
  assert (G : forall y, order low true f lc y (S it) iend <> None).
  { intros y. apply IH; [|assumption].
    destruct (nth_error lc (S it)) as [e'|]; [destruct (two (low e')) as [p'|]; [destruct (touches y p')|]|]; lia. }
  unfold touches in L. cbn [fst snd] in L.
  destruct (eqe last a); [apply G|]. destruct (eqe last b); [apply G|]. cbn [orb] in L.
  destruct (search low true f (touches last) lc (S it)) as [[j| |]|] eqn:S; try discriminate.
  - destruct (search_found _ _ _ _ _ _ _ S) as (LJ & e' & p' & E' & T' & H').
    apply IH; rewrite ?swap_length; [|assumption].
    rewrite (swap_at lc it j e') by (auto; lia). rewrite T', H'. lia.
  - exfalso. revert S. apply search_total; lia.
Qed.

(** * Rotations and reflections of polygons *)

Lemma round_rot low e es n ns : goes_round low (e :: es) (n :: ns) -> goes_round low (es ++ [e]) (ns ++ [n]).
Proof.
  intros (L & P). destruct ns as [|m ns]; [cbn in L; lia|]. split; [rewrite app_length; cbn in *; lia|].
  cbn [app] in P. apply path_inv in P. destruct P as (e' & es' & Q & J & P). inversion Q; subst.
  cbn [app]. replace (m :: (ns ++ [n]) ++ [m]) with ((m :: ns) ++ n :: [m]) by (cbn; rewrite <- app_assoc; reflexivity).
  apply path_app; [assumption|]. constructor; [assumption|constructor].
Qed.
Lemma polygon_rot low e es n ns : polygon low (e :: es) (n :: ns) -> polygon low (es ++ [e]) (ns ++ [n]).
Proof.
  intros (R & N). split; [apply round_rot; assumption|].
  eapply Permutation_NoDup; [|exact N]. apply Permutation_cons_append.
Qed.
Lemma round_rev low es n ns : goes_round low es (n :: ns) -> goes_round low (rev es) (n :: rev ns).
Proof.
  intros (L & P). split; [cbn in *; rewrite rev_length; assumption|].
  apply path_rev in P. cbn [app rev] in P. rewrite rev_app_distr in P. exact P.
Qed.
Lemma polygon_rev low es n ns : polygon low es (n :: ns) -> polygon low (rev es) (n :: rev ns).
Proof.
  intros (R & N). split; [apply round_rev; assumption|].
  eapply Permutation_NoDup; [|exact N]. apply perm_skip. apply Permutation_rev.
Qed.
Lemma polygon_length low es ns : polygon low es ns -> length es = length ns.
Proof. intros ((L & P) & _). destruct ns as [|n ns]; [contradiction|]. apply path_len in P. rewrite app_length in P. cbn in *. lia. Qed.

Lemma polygon_rots low : forall k es ns, polygon low es ns -> k <= length es ->
  polygon low (skipn k es ++ firstn k es) (skipn k ns ++ firstn k ns).
Proof.
  induction k as [|k IH]; intros es ns P L.
  - cbn. rewrite !app_nil_r. assumption.
  - pose proof (polygon_length _ _ _ P) as LN. specialize (IH es ns P ltac:(lia)).
    destruct (nth_error es k) as [e|] eqn:E; [|apply nth_error_None in E; lia].
    destruct (nth_error ns k) as [n|] eqn:N; [|apply nth_error_None in N; lia].
    assert (SP : forall (l : list elem) x, nth_error l k = Some x -> skipn k l = x :: skipn (S k) l /\ firstn (S k) l = firstn k l ++ [x]).
    { clear. induction k as [|k IH]; intros [|y l] x H; cbn in H; try discriminate.
      - inversion H; subst. auto.
      - destruct (IH l x H) as (A & B). split; [exact A|]. cbn. f_equal. exact B. }
    destruct (SP _ _ E) as (A1 & A2), (SP _ _ N) as (B1 & B2). rewrite A1, B1 in IH. cbn [app] in IH.
    apply polygon_rot in IH. rewrite A2, B2, !app_assoc. assumption.
Qed.

(** Any edge can be taken as the first one. *)
Lemma polygon_from low es ns e : polygon low es ns -> In e es ->
  exists es' ns', polygon low (e :: es') ns' /\ Permutation es (e :: es') /\ Permutation ns ns'.
Proof.
  intros P I. apply In_nth_error in I. destruct I as (k & K).
  pose proof (polygon_rots low k es ns P) as R.
  assert (LK : k < length es) by (apply nth_error_Some; congruence). specialize (R ltac:(lia)).
  destruct (nth_error_split es k K) as (X & Y & E & LX).
  assert (SK : skipn k es = e :: Y) by (rewrite E, <- LX, skipn_app, skipn_all, Nat.sub_diag; reflexivity).
  rewrite SK in R. exists (Y ++ firstn k es), (skipn k ns ++ firstn k ns). split; [exact R|]. split.
  - rewrite E at 1. rewrite E, firstn_app, <- LX, Nat.sub_diag, firstn_all. cbn. rewrite app_nil_r.
    etransitivity; [apply Permutation_app_comm|]. reflexivity.
  - rewrite <- (firstn_skipn k ns) at 1. apply Permutation_app_comm.
Qed.
Lemma polygon_flip low e es n0 n1 ns : polygon low (e :: es) (n0 :: n1 :: ns) -> polygon low (e :: rev es) (n1 :: n0 :: rev ns).
Proof.
  intros P. apply polygon_rot in P. cbn [app] in P. apply polygon_rev in P.
  rewrite !rev_app_distr in P. cbn in P. exact P.
Qed.

(** An edge that touches a given node lies on one of its two sides. *)
Lemma polygon_touch low es ns : polygon low es ns -> forall j k e x p,
  nth_error es j = Some e -> nth_error ns k = Some x -> two (low e) = Some p -> touches x p = true -> 1 <= k -> k <= j -> j = k.
Proof.
  intros ((L & P) & N) j k e x p E X T H K1 K2. destruct ns as [|n ns]; [contradiction|].
  destruct (path_at _ _ _ _ _ P E) as (a & b & A & B & J).
  assert (LE := path_len _ _ _ P). rewrite app_length in LE. cbn [length] in LE.
  assert (LJ : j < length es) by (apply nth_error_Some; congruence).
  assert (LK : k < length (n :: ns)) by (apply nth_error_Some; congruence). cbn [length] in LK.
  assert (U : forall i y, nth_error (n :: ns) i = Some y -> y = x -> i = k).
  { intros i y I ->. apply (proj1 (NoDup_nth_error (n :: ns)) N); [apply nth_error_Some; congruence|congruence]. }
  rewrite nth_error_app1 in A by (cbn [length]; lia).
  assert (Q : x = a \/ x = b).
  { destruct J as [J|J]; rewrite J in T; cbn in T; inversion T; subst; unfold touches in H; cbn in H; rewrite orb_true_iff, !eqe_spec in H; tauto. }
  destruct Q as [->| ->]; [apply (U j a A eq_refl)|].
  destruct (Nat.eq_dec (S j) (length (n :: ns))) as [Z|Z].
  - rewrite nth_error_app2 in B by lia. rewrite Z, Nat.sub_diag in B. cbn in B. inversion B; subst.
    specialize (U 0 b eq_refl eq_refl). lia.
  - rewrite nth_error_app1 in B by (cbn [length] in *; lia). specialize (U (S j) b B eq_refl). lia.
Qed.

Lemma polygon_two low es ns e : polygon low es ns -> In e es -> exists p, two (low e) = Some p.
Proof.
  intros ((L & P) & N) I. destruct ns as [|n ns]; [contradiction|].
  destruct (path_two _ _ _ _ P I) as (a & b & E & _). rewrite E. exists (a, b). reflexivity.
Qed.

Lemma polygon_at low es ns i e : polygon low es ns -> nth_error es i = Some e -> S i < length ns ->
  exists a b, nth_error ns i = Some a /\ nth_error ns (S i) = Some b /\ joins low e a b.
Proof.
  intros ((L & P) & N) E LI. destruct ns as [|n ns]; [contradiction|].
  destruct (path_at _ _ _ _ _ P E) as (a & b & A & B & J). rewrite nth_error_app1 in A, B by lia. eauto.
Qed.

(** The loop arranges the edges as in the polygon. *)
Lemma nth_firstn {A} (l l' : list A) k i : firstn k l = firstn k l' -> i < k -> nth_error l i = nth_error l' i.
Proof.
  intros F L. transitivity (nth_error (firstn k l) i); [symmetry|rewrite F]; rewrite nth_error_firstn_if;
    (destruct (Nat.ltb i k) eqn:Q; [reflexivity|apply Nat.ltb_ge in Q; lia]).
Qed.

Lemma order_complete low c ns : polygon low c ns -> forall fuel lc last it st,
  order low true fuel lc last it (length lc - 1) = Some st ->
  Permutation lc c -> 1 <= it -> it <= length lc - 1 -> firstn it lc = firstn it c -> nth_error ns it = Some last ->
  exists z, nth_error ns (length ns - 1) = Some z /\ st = Go z c.
Proof.
  intros P. pose proof (polygon_length _ _ _ P) as LN. assert (L3 : 3 <= length ns) by (destruct P as ((L & _) & _); exact L).
  induction fuel as [|f IH]; intros lc last it st H PM I1 I2 F NL; cbn [order] in H; [discriminate|].
  pose proof (Permutation_length PM) as LC.
  assert (NDC : NoDup c).
  { apply NoDup_nth_error. intros i j LI E. destruct (nth_error c i) as [e|] eqn:Ei; [|apply nth_error_None in Ei; lia].
    symmetry in E. destruct P as ((L & PA) & ND). destruct ns as [|n ns]; [contradiction|].
    assert (LJ : j < length c) by (apply nth_error_Some; congruence).
    destruct (path_at _ _ _ _ _ PA Ei) as (a & b & A & B & J). destruct (path_at _ _ _ _ _ PA E) as (a' & b' & A' & B' & J').
    rewrite nth_error_app1 in A, A' by (cbn [length] in *; lia).
    assert (U : forall x i j, nth_error (n :: ns) i = Some x -> nth_error (n :: ns) j = Some x -> i = j).
    { intros x i' j' X Y. apply (proj1 (NoDup_nth_error _) ND); [apply nth_error_Some; congruence|congruence]. }
    assert (V : forall i x, i < length (n :: ns) -> nth_error ((n :: ns) ++ [n]) (S i) = Some x ->
      (S i < length (n :: ns) /\ nth_error (n :: ns) (S i) = Some x) \/ (S i = length (n :: ns) /\ x = n)).
    { intros i' x LI' X. destruct (Nat.eq_dec (S i') (length (n :: ns))) as [Z|Z].
      - right. rewrite nth_error_app2 in X by lia. rewrite Z, Nat.sub_diag in X. cbn in X. inversion X. auto.
      - left. rewrite nth_error_app1 in X by lia. split; [lia|assumption]. }
    assert (W : (a = a' /\ b = b') \/ (a = b' /\ b = a')).
    { destruct J as [J|J], J' as [J'|J']; rewrite J in J'; inversion J'; subst; auto. }
    destruct W as [(-> & ->)|(-> & ->)]; [eapply U; eassumption|].
    apply V in B; [|cbn [length] in *; lia]. apply V in B'; [|cbn [length] in *; lia].
    destruct B as [(B1 & B)|(B1 & B)], B' as [(B'1 & B')|(B'1 & B')].
    - pose proof (U _ _ _ B A'). pose proof (U _ _ _ B' A). lia.
    - subst b'. pose proof (U _ _ _ B A'). assert (i = 0) by (eapply U; [exact A|reflexivity]). cbn [length] in *. lia.
    - subst a'. pose proof (U _ _ _ B' A). assert (j = 0) by (eapply U; [exact A'|reflexivity]). cbn [length] in *. lia.
    - lia. }
  destruct (Nat.ltb it (length lc - 1)) eqn:C.
  2:{ apply Nat.ltb_ge in C. inversion H; subst. assert (it = length ns - 1) by lia. subst it.
      exists last. split; [assumption|]. f_equal.
      (* the lists agree up to the last entry, hence there too *)
      assert (PS : Permutation (skipn (length ns - 1) lc) (skipn (length ns - 1) c)).
      { apply (Permutation_app_inv_l (firstn (length ns - 1) c)). rewrite firstn_skipn. rewrite <- F. rewrite firstn_skipn. exact PM. }
      rewrite <- (firstn_skipn (length ns - 1) lc), <- (firstn_skipn (length ns - 1) c), F. f_equal.
      assert (LS : length (skipn (length ns - 1) lc) = 1) by (rewrite skipn_length; lia).
      destruct (skipn (length ns - 1) lc) as [|x [|y r]]; cbn in LS; try lia.
      apply Permutation_length_1_inv in PS. symmetry. exact PS. }
  apply Nat.ltb_lt in C.
  destruct (nth_error c it) as [ci|] eqn:CI; [|apply nth_error_None in CI; lia].
  destruct (polygon_at _ _ _ _ _ P CI ltac:(lia)) as (a0 & b0 & NA & NB & JC). rewrite NL in NA. inversion NA; subst a0. clear NA.
  assert (INC : forall e, In e lc -> In e c) by (intros e I; exact (Permutation_in _ PM I)).
  (* an entry at or after it that touches last is ci *)
  assert (UNI : forall j e p, it <= j -> nth_error lc j = Some e -> two (low e) = Some p -> touches last p = true -> e = ci).
  { intros j e p LJ E T H'. pose proof (INC e (nth_error_In _ _ E)) as I. apply In_nth_error in I. destruct I as (k & K).
    assert (it <= k).
    { destruct (Nat.le_gt_cases it k) as [|LT]; [assumption|]. exfalso.
      assert (nth_error lc k = Some e) by (rewrite (nth_firstn lc c it k F LT); assumption).
      assert (ND : NoDup lc) by (eapply Permutation_NoDup; [symmetry; exact PM|exact NDC]).
      assert (j = k); [|lia]. apply (proj1 (NoDup_nth_error _) ND); [apply nth_error_Some; congruence|congruence]. }
    assert (k = it) by (eapply (polygon_touch _ _ _ P k it); eassumption). subst k. congruence. }
  assert (STEP : forall lc', Permutation lc' c -> length lc' = length lc -> firstn it lc' = firstn it c -> nth_error lc' it = Some ci ->
    forall y, joins low ci last y -> firstn (S it) lc' = firstn (S it) c /\ y = b0).
  { intros lc' PM' LL F' E' y J. split.
    - apply nth_error_ext. intros i. rewrite !nth_error_firstn_if. destruct (Nat.ltb i (S it)) eqn:Q; [|reflexivity].
      apply Nat.ltb_lt in Q. destruct (Nat.eq_dec i it) as [->|NE]; [congruence|]. apply (nth_firstn _ _ it); [assumption|lia].
    - destruct P as (_ & ND). assert (last <> b0).
      { intros ->. assert (it = S it); [|lia]. apply (proj1 (NoDup_nth_error _) ND); [apply nth_error_Some; congruence|congruence]. }
      destruct J as [J|J], JC as [JC|JC]; rewrite JC in J; inversion J; subst; congruence. }
  destruct (nth_error lc it) as [e|] eqn:E; [|apply nth_error_None in E; lia].
  destruct (polygon_two _ _ _ e P (INC _ (nth_error_In _ _ E))) as ([a b] & T). rewrite T in H.
  assert (TL : low e = [a; b]).
  { destruct (low e) as [|a' [|b' [|cc l]]]; cbn in T; inversion T; subst. reflexivity. }
  destruct (eqe last a) eqn:A.
  { apply eqe_spec in A. subst a. assert (e = ci) as -> by (apply (UNI it e (last, b)); auto; unfold touches; cbn; rewrite eqe_refl; reflexivity).
    destruct (STEP lc PM eq_refl F E b ltac:(left; assumption)) as (F2 & ->).
    apply (IH lc b0 (S it) st); auto; lia. }
  destruct (eqe last b) eqn:B.
  { apply eqe_spec in B. subst b. assert (e = ci) as -> by (apply (UNI it e (a, last)); auto; unfold touches; cbn; rewrite eqe_refl; apply orb_true_r).
    destruct (STEP lc PM eq_refl F E a ltac:(right; assumption)) as (F2 & ->).
    apply (IH lc b0 (S it) st); auto; lia. }
  destruct (search low true f (touches last) lc (S it)) as [[j| |]|] eqn:S; [| | |discriminate].
  - destruct (search_found _ _ _ _ _ _ _ S) as (LJ & e' & p' & E' & T' & H').
    apply (IH (swap lc it j) last it st); rewrite ?swap_length; auto.
    + etransitivity; [symmetry; apply swap_perm; lia|assumption].
    + rewrite swap_firstn by lia. assumption.
  - exfalso. assert (I : In ci lc) by (apply (Permutation_in _ (Permutation_sym PM)); eapply nth_error_In; eassumption).
    apply In_nth_error in I. destruct I as (k & K).
    assert (LK : it <= k).
    { destruct (Nat.le_gt_cases it k) as [|LT]; [assumption|]. exfalso.
      assert (nth_error c k = Some ci) by (rewrite <- (nth_firstn lc c it k F LT); assumption).
      assert (k = it); [|lia]. apply (proj1 (NoDup_nth_error _) NDC); [apply nth_error_Some; congruence|congruence]. }
    assert (TC : exists p, two (low ci) = Some p /\ touches last p = true).
    { destruct JC as [JC|JC]; rewrite JC; eexists; (split; [reflexivity|]); unfold touches; cbn; rewrite eqe_refl; rewrite ?orb_true_r; reflexivity. }
    destruct TC as (p & TC & HC).
    destruct (Nat.eq_dec it k) as [<-|NE].
    + rewrite E in K. inversion K; subst. rewrite T in TC. inversion TC; subst. unfold touches in HC. cbn in HC. rewrite A, B in HC. discriminate.
    + destruct (search_missing _ _ _ _ _ S k ci ltac:(lia) K) as (p2 & T2 & H2). congruence.
  - exfalso. destruct (search_bad _ _ _ _ _ _ S) as (e' & I & N). destruct (polygon_two _ _ _ e' P (INC _ I)) as (p & Q). congruence.
Qed.
