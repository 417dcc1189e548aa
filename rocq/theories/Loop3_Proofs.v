From Coq Require Import List Arith Bool Lia Permutation.
From Verif Require Import Util Adj_Model Adj_Proofs Loop_Model Loop_Spec Loop_Proofs Loop2_Proofs.
Import ListNotations.

Lemma two_list l p : two l = Some p -> l = [fst p; snd p].
Proof. destruct l as [|a [|b [|c l]]]; cbn; intros H; inversion H; subst; reflexivity. Qed.

Lemma order_keeps low adv fuel lc last it iend last' lc' e p : order low adv fuel lc last it iend = Some (Go last' lc') ->
  it < iend -> iend < length lc -> nth_error lc it = Some e -> two (low e) = Some p -> touches last p = true ->
  firstn (S it) lc' = firstn (S it) lc.
Proof.
  intros H L1 L2 E T C. destruct fuel as [|f]; cbn [order] in H; [discriminate|].
  rewrite (proj2 (Nat.ltb_lt _ _) L1), E, T in H. destruct p as [a b]. unfold touches in C. cbn in C.
  destruct (eqe last a); [|cbn in C; rewrite C in H]; apply order_sound in H; try lia; apply H.
Qed.

Lemma start_spec low fuel q r l a b p' first st : two (low q) = Some (a, b) -> two (low r) = Some p' ->
  start low fuel (q :: r :: l) a b p' = Some (first, st) ->
  match st with
  | Stop lc' => Permutation (q :: r :: l) lc'
  | Go last lc' => exists r' l' p'', lc' = q :: r' :: l' /\ Permutation (q :: r :: l) lc' /\ two (low r') = Some p'' /\
      orient (a, b) p'' = (first, last) /\ touches last p'' = true /\ joins low q first last
  end.
Proof.
  intros TQ TR H. pose proof (two_list _ _ TQ) as LQ. cbn in LQ. unfold start in H.
  destruct (touches a p') eqn:A.
  { inversion H; subst. exists r, l, p'. repeat split; auto; [unfold orient; cbn; rewrite A; reflexivity|right; assumption]. }
  destruct (touches b p') eqn:B.
  { inversion H; subst. exists r, l, p'. repeat split; auto; [unfold orient; cbn; rewrite A; reflexivity|left; assumption]. }
  destruct (search _ _ _ _ _ _) as [[j| |]|] eqn:S; try discriminate; try (inversion H; subst; reflexivity).
  destruct (search_found _ _ _ _ _ _ _ S) as (LJ & e & p & E & T & HP). rewrite E in H.
  destruct (swap_split (q :: r :: l) 1 j r e ltac:(lia) eq_refl E) as (X & Y & Z & EQ & LX & LY & SW).
  destruct X as [|x [|? ?]]; cbn in LX; try lia. cbn in EQ. inversion EQ; subst x. cbn in SW.
  pose proof (swap_perm (q :: r :: l) 1 j ltac:(lia)) as SP.
  assert (EA : existsb (eqe a) (low e) = touches a p).
  { rewrite (two_list _ _ T). unfold touches. cbn. rewrite orb_false_r. reflexivity. }
  rewrite EA in H. destruct (touches a p) eqn:TA; inversion H; subst; clear H.
  - exists e, (Y ++ r :: Z), p. split; [assumption|]. split; [assumption|]. split; [assumption|].
    split; [unfold orient; cbn; rewrite TA; reflexivity|]. split; [assumption|right; assumption].
  - exists e, (Y ++ r :: Z), p. split; [assumption|]. split; [assumption|]. split; [assumption|].
    split; [unfold orient; cbn; rewrite TA; reflexivity|]. split; [exact HP|left; assumption].
Qed.

Lemma firstn2_inv {A} (l : list A) x y t : firstn 2 l = x :: y :: t -> exists l', l = x :: y :: l'.
Proof. destruct l as [|u [|v l]]; cbn; intros H; inversion H; subst. eauto. Qed.

Lemma fix_sound low adv fuel lc b lc' : fix_order low adv fuel lc = Some (b, lc') ->
  Permutation lc lc' /\ (b = true -> exists ns, goes_round low lc' ns /\ ring low lc' = Some ns).
Proof.
  unfold fix_order. destruct (Nat.ltb (length lc) 3) eqn:L; [intros H; inversion H; subst; split; [reflexivity|discriminate]|].
  apply Nat.ltb_ge in L. destruct lc as [|q [|r l]]; cbn [length] in L; try lia.
  destruct (two (low q)) as [[a b0]|] eqn:TQ; [|intros H; inversion H; subst; split; [reflexivity|discriminate]].
  destruct (two (low r)) as [p'|] eqn:TR; [|intros H; inversion H; subst; split; [reflexivity|discriminate]].
  destruct (start low fuel (q :: r :: l) a b0 p') as [[first [l1|last l1]]|] eqn:ST; [| |discriminate].
  { intros H. inversion H; subst. split; [exact (start_spec _ _ _ _ _ _ _ _ _ _ TQ TR ST)|discriminate]. }
  destruct (start_spec _ _ _ _ _ _ _ _ _ _ TQ TR ST) as (r' & l' & p'' & EL & PM & TR' & O & TO & JQ).
  destruct (order low adv fuel l1 last 1 (length l1 - 1)) as [[l2|last' l2]|] eqn:OR; [| |discriminate].
  { intros H. inversion H; subst b lc'. pose proof (Permutation_length PM) as LP. cbn [length] in LP.
    pose proof (order_sound _ _ _ _ _ _ _ _ OR ltac:(lia) ltac:(lia)) as OS. cbn in OS.
    split; [rewrite PM; assumption|discriminate]. }
  pose proof (Permutation_length PM) as LP. cbn [length] in LP.
  destruct (order_sound _ _ _ _ _ _ _ _ OR ltac:(lia) ltac:(lia)) as (PM2 & F & ns & W & HD).
  pose proof (Permutation_length PM2) as LP2.
  assert (F2 : firstn 2 l2 = firstn 2 l1).
  { eapply order_keeps; [exact OR|lia|lia|rewrite EL; reflexivity|exact TR'|exact TO]. }
  rewrite EL in F2. cbn [firstn] in F2. destruct (firstn2_inv _ _ _ _ F2) as (l3 & E2).
  destruct (nth_error l2 (length l2 - 1)) as [e|] eqn:EE; [|discriminate].
  assert (PMT : Permutation (q :: r :: l) l2) by (rewrite PM; assumption).
  destruct (two (low e)) as [[x y]|] eqn:TE; [|intros H; inversion H; subst; split; [assumption|discriminate]].
  intros H. inversion H as [[HB HL]]. subst lc'. split; [assumption|]. rewrite HB. intros BT. clear H. rewrite BT in HB. clear b BT.
  assert (JE : joins low e last' first).
  { pose proof (two_list _ _ TE) as LE. cbn in LE. apply orb_true_iff in HB. rewrite !andb_true_iff, !eqe_spec in HB.
    destruct HB as [(-> & ->)|(-> & ->)]; [left|right]; assumption. }
  (* l2 = q :: mid ++ [e] *)
  assert (SH : l2 = q :: firstn (length l1 - 1 - 1) (skipn 1 l2) ++ [e]).
  { subst l2. cbn [skipn]. f_equal. cbn [length] in *. 
    destruct (removelast_shape (r' :: l3)) as (u & v & UV); [discriminate|].
    rewrite UV in *. 
    assert (LL : length (r' :: l3) = length u + 1) by (rewrite UV, app_length; reflexivity). cbn [length] in LL.
    replace (S (S (length l3)) - 1) with (S (length u)) in EE by lia.
    change (nth_error (u ++ [v]) (length u) = Some e) in EE. rewrite nth_error_mid in EE. inversion EE; subst v.
    replace (length l1 - 1 - 1) with (length u) by lia. rewrite firstn_app, firstn_all, Nat.sub_diag. cbn. rewrite app_nil_r. reflexivity. }
  remember (firstn (length l1 - 1 - 1) (skipn 1 l2)) as mid eqn:EM.
  assert (HM : length mid = length ns) by (apply path_len in W; rewrite app_length in W; cbn in W; lia).
  assert (LM : 1 <= length mid).
  { assert (length l2 = length mid + 2) by (rewrite SH; cbn; rewrite app_length; cbn; lia). lia. }
  destruct ns as [|n1 ns]; [cbn in HM; lia|]. cbn in HD. subst n1.
  exists (first :: (last :: ns) ++ [last']). split.
  - split; [cbn; rewrite app_length; cbn in *; lia|]. rewrite SH. cbn [app].
    constructor; [assumption|].
    replace (last :: (ns ++ [last']) ++ [first]) with ((last :: ns) ++ last' :: [first]) by (cbn; rewrite <- app_assoc; reflexivity).
    apply path_app; [assumption|]. constructor; [assumption|constructor].
  - unfold ring. replace (Nat.leb (length l2) 2) with false by (symmetry; apply Nat.leb_gt; lia).
    replace (length l2 - 2) with (length l1 - 1 - 1) by lia. rewrite <- EM.
    assert (X0 : nth_error l2 0 = Some q) by (rewrite E2; reflexivity).
    assert (X1 : nth_error l2 1 = Some r') by (rewrite E2; reflexivity). rewrite X0, X1. cbn [bind]. rewrite TQ. cbn [bind]. rewrite TR'. cbn [bind]. rewrite O.
    rewrite (walk_path _ low mid (ns ++ [last']) last); [reflexivity|reflexivity|assumption].
Qed.

Lemma fix_total low lc fuel : 4 * length lc + 5 <= fuel -> fix_order low true fuel lc <> None.
Proof.
  intros LF. unfold fix_order. destruct (Nat.ltb (length lc) 3) eqn:L; [discriminate|]. apply Nat.ltb_ge in L.
  destruct lc as [|q [|r l]]; cbn [length] in L; try lia.
  destruct (two (low q)) as [[a b0]|] eqn:TQ; [|discriminate].
  destruct (two (low r)) as [p'|] eqn:TR; [|discriminate].
  destruct (start low fuel (q :: r :: l) a b0 p') as [[first [l1|last l1]]|] eqn:ST; [discriminate| |].
  - destruct (start_spec _ _ _ _ _ _ _ _ _ _ TQ TR ST) as (r' & l' & p'' & EL & PM & _).
    pose proof (Permutation_length PM) as LP. cbn [length] in LP, LF.
    destruct (order low true fuel l1 last 1 (length l1 - 1)) as [[l2|last' l2]|] eqn:OR; [discriminate| |].
    + destruct (order_sound _ _ _ _ _ _ _ _ OR ltac:(lia) ltac:(lia)) as (PM2 & _). pose proof (Permutation_length PM2) as LP2.
      destruct (nth_error l2 (length l2 - 1)) as [e|] eqn:EE; [|apply nth_error_None in EE; lia].
      destruct (two (low e)) as [[x y]|]; discriminate.
    + exfalso. revert OR. apply order_total; [|lia].
      destruct (nth_error l1 1) as [e|]; [destruct (two (low e)) as [p|]; [destruct (touches last p)|]|]; lia.
  - exfalso. unfold start in ST. destruct (touches a p'); [discriminate|]. destruct (touches b0 p'); [discriminate|].
    destruct (search _ _ _ _ _ _) as [[j| |]|] eqn:S; try discriminate.
    + destruct (search_found _ _ _ _ _ _ _ S) as (LJ & e & p & E & _). rewrite E in ST. destruct (existsb _ _); discriminate.
    + revert S. cbn [length] in LF. apply search_total; cbn [length]; lia.
Qed.

Lemma fix_complete low c ns lc fuel : polygon low c ns -> Permutation lc c -> 4 * length lc + 5 <= fuel ->
  exists c' ns', fix_order low true fuel lc = Some (true, c') /\ polygon low c' ns' /\ Permutation ns ns'.
Proof.
  intros P PM LF.
  assert (L3 : 3 <= length lc).
  { rewrite (Permutation_length PM), (polygon_length _ _ _ P). destruct P as ((L & _) & _). exact L. }
  pose proof (fix_total low lc fuel LF) as TOT.
  destruct (fix_order low true fuel lc) as [[b lc']|] eqn:FX; [|congruence]. clear TOT.
  unfold fix_order in FX. replace (Nat.ltb (length lc) 3) with false in FX by (symmetry; apply Nat.ltb_ge; lia).
  destruct lc as [|q [|r l]]; cbn [length] in L3; try lia.
  assert (T2 : forall e, In e (q :: r :: l) -> exists p, two (low e) = Some p).
  { intros e I. eapply polygon_two; [exact P|]. exact (Permutation_in _ PM I). }
  destruct (T2 q ltac:(left; reflexivity)) as ([a b0] & TQ). destruct (T2 r ltac:(right; left; reflexivity)) as (p' & TR).
  rewrite TQ, TR in FX. pose proof (two_list _ _ TQ) as LQ. cbn in LQ.
  (* the polygon seen from q *)
  destruct (polygon_from low c ns q P) as (es & ns1 & P1 & PE & PN).
  { apply (Permutation_in _ PM). left. reflexivity. }
  assert (PR : Permutation (r :: l) es) by (apply (Permutation_cons_inv (a := q)); rewrite PM; assumption).
  (* both directions *)
  assert (BOTH : exists n0 n1 es1 es2 m1 m2, polygon low (q :: es1) (n0 :: n1 :: m1) /\ polygon low (q :: es2) (n1 :: n0 :: m2) /\
    joins low q n0 n1 /\ Permutation es es1 /\ Permutation es es2 /\ Permutation ns (n0 :: n1 :: m1) /\ Permutation ns (n1 :: n0 :: m2)).
  { destruct P1 as ((L1 & W) & ND). destruct ns1 as [|n0 [|n1 m]]; try contradiction; cbn [length] in L1; try lia.
    exists n0, n1, es, (rev es), m, (rev m). split; [split; [split|]; assumption|].
    split; [apply polygon_flip; split; [split|]; assumption|].
    split; [cbn in W; apply path_inv in W; destruct W as (? & ? & EQ & J & _); inversion EQ; subst; assumption|].
    split; [reflexivity|]. split; [apply Permutation_rev|]. split; [assumption|].
    rewrite PN. etransitivity; [apply perm_swap|]. do 2 apply perm_skip. apply Permutation_rev. }
  destruct BOTH as (n0 & n1 & es1 & es2 & m1 & m2 & PA & PB & JQ & E1 & E2 & N1 & N2).
  (* start succeeds *)
  destruct (start low fuel (q :: r :: l) a b0 p') as [[first [l1|last l1]]|] eqn:ST; [| |discriminate].
  { exfalso. unfold start in ST. destruct (touches a p') eqn:A; [discriminate|]. destruct (touches b0 p') eqn:B; [discriminate|].
    destruct (search _ _ _ _ _ _) as [[j| |]|] eqn:S; [| | |discriminate].
    - destruct (nth_error _ j); [destruct (existsb _ _)|]; discriminate.
    - (* the second edge of the polygon touches n1 *)
      destruct (polygon_shape _ _ _ PA) as (e0 & e1 & mid & el & x0 & x1 & x2 & rest & EE & EN & _ & J1 & _).
      inversion EE as [[Q0 QE]]. inversion EN; subst.
      assert (I1 : In e1 (r :: l)) by (apply (Permutation_in _ (Permutation_sym PR)); apply (Permutation_in _ (Permutation_sym E1)); left; reflexivity).
      assert (NT : forall e p, In e (r :: l) -> two (low e) = Some p -> touches a p = false /\ touches b0 p = false).
      { intros e p [<-|I] T; [rewrite TR in T; inversion T; subst; auto|].
        apply In_nth_error in I. destruct I as (k & K).
        destruct (search_missing _ _ _ _ _ S (2 + k) e ltac:(lia) K) as (p2 & T' & H2). rewrite T in T'. inversion T'; subst. apply orb_false_iff in H2. exact H2. }
      assert (TP : exists p, two (low e1) = Some p /\ touches x1 p = true).
      { destruct J1 as [J|J]; rewrite J; eexists; (split; [reflexivity|]); unfold touches; cbn; rewrite eqe_refl, ?orb_true_r; reflexivity. }
      destruct TP as (p & TP & TT). destruct (NT e1 p I1 TP) as (NA & NB).
      destruct JQ as [J|J]; rewrite LQ in J; inversion J; subst; congruence.
    - destruct (search_bad _ _ _ _ _ _ S) as (e & I & N). destruct (T2 e I) as (p & T). congruence. }
  destruct (start_spec _ _ _ _ _ _ _ _ _ _ TQ TR ST) as (r' & l' & p'' & EL & PML & TR' & O & TO & JF).
  pose proof (Permutation_length PML) as LL. cbn [length] in LL.
  assert (CH : exists c' ns', polygon low c' ns' /\ Permutation ns ns' /\ Permutation l1 c' /\ firstn 1 c' = [q] /\
     nth_error ns' 0 = Some first /\ nth_error ns' 1 = Some last).
  { assert (FL : (first = n0 /\ last = n1) \/ (first = n1 /\ last = n0)).
    { destruct JQ as [J|J], JF as [J'|J']; rewrite J in J'; inversion J'; subst; auto. }
    assert (PL : Permutation l1 (q :: es)) by (rewrite <- PML; apply perm_skip; assumption).
    destruct FL as [(-> & ->)|(-> & ->)].
    - exists (q :: es1), (n0 :: n1 :: m1). repeat split; auto; try apply PA. rewrite PL. apply perm_skip. assumption.
    - exists (q :: es2), (n1 :: n0 :: m2). repeat split; auto; try apply PB. rewrite PL. apply perm_skip. assumption. }
  destruct CH as (c' & ns' & PC & PNS & PL1 & F1 & NF & NLA).
  destruct (order low true fuel l1 last 1 (length l1 - 1)) as [st|] eqn:OR; [|discriminate].
  destruct (order_complete low c' ns' PC _ _ _ _ _ OR PL1) as (z & NZ & ->); try lia; auto.
  { rewrite F1, EL. reflexivity. }
  exists c', ns'. split; [|split; assumption].
  pose proof (polygon_length _ _ _ PC) as LC. pose proof (Permutation_length PL1) as LP1.
  destruct (nth_error c' (length c' - 1)) as [e|] eqn:EE; [|discriminate].
  destruct PC as ((L3' & W) & ND). destruct ns' as [|n ns']; [contradiction|]. cbn in NF. inversion NF; subst n.
  destruct (path_at _ _ _ _ _ W EE) as (x & y & X & Y & J).
  rewrite nth_error_app1 in X by lia. rewrite LC in X. rewrite NZ in X. inversion X; subst x.
  replace (S (length c' - 1)) with (length (first :: ns')) in Y by (cbn [length] in *; lia). rewrite nth_error_mid in Y. inversion Y; subst y.
  destruct J as [J|J]; rewrite J in FX; cbn [two] in FX; rewrite !eqe_refl in FX; cbn in FX; rewrite ?orb_true_r in FX; inversion FX; reflexivity.
Qed.

(** * CheckEdgeOrder *)

Lemma chain_path low es : forall pair strict x, (forall e, In e es -> exists a b, low e = [a; b]) ->
  (forall e, In e es -> pair e = two (low e)) ->
  exists b, chain pair strict x es = Some b /\ (b = true <-> exists ns, path low es (x :: ns)).
Proof.
  induction es as [|e es IH]; intros pair strict x T E; cbn [chain].
  - exists true. split; [reflexivity|]. split; [|reflexivity]. intros _. exists []. constructor.
  - rewrite (E e) by (left; reflexivity). destruct (T e (or_introl eq_refl)) as (a & b & L). rewrite L. cbn [two].
    destruct (eqe x a) eqn:A.
    + apply eqe_spec in A. subst a. destruct (IH pair strict b) as (r & C & IFF); [intros; apply T; right; assumption|intros; apply E; right; assumption|].
      exists r. split; [assumption|]. rewrite IFF. split; intros (ns & P).
      * exists (b :: ns). constructor; [left; assumption|assumption].
      * inversion P as [|? ? y ? ns' J PP]; subst. destruct J as [J|J]; rewrite L in J; inversion J; subst; eauto.
    + apply eqe_neq in A. destruct (eqe x b) eqn:B.
      * apply eqe_spec in B. subst b. destruct (IH pair strict a) as (r & C & IFF); [intros; apply T; right; assumption|intros; apply E; right; assumption|].
        exists r. split; [assumption|]. rewrite IFF. split; intros (ns & P).
        -- exists (a :: ns). constructor; [right; assumption|assumption].
        -- inversion P as [|? ? y ? ns' J PP]; subst. destruct J as [J|J]; rewrite L in J; inversion J; subst; eauto.
      * apply eqe_neq in B. exists false. split; [reflexivity|]. split; [discriminate|]. intros (ns & P).
        inversion P as [|? ? y ? ns' J PP]; subst. destruct J as [J|J]; rewrite L in J; inversion J; subst; congruence.
Qed.

Lemma check_plain_spec low strict lc : (forall e, In e lc -> exists a b, low e = [a; b] /\ a <> b) ->
  (forall q r l x y, lc = q :: r :: l -> joins low q x y -> ~ joins low r x y) ->
  exists b, check_plain low strict lc = Some b /\
    (b = true <-> 3 <= length lc /\ exists ns, path low (removelast lc) ns).
Proof.
  intros T PAR. unfold check_plain. destruct (Nat.ltb (length lc) 3) eqn:L.
  { apply Nat.ltb_lt in L. exists false. split; [reflexivity|]. split; [discriminate|lia]. }
  apply Nat.ltb_ge in L. destruct lc as [|q [|r l]]; cbn [length] in L; try lia.
  destruct (T q ltac:(cbn; auto)) as (a & b & LQ & NQ). destruct (T r ltac:(cbn; auto)) as (c & d & LR & NR).
  cbn [nth_error bind]. rewrite LQ, LR. cbn [first_two bind fst snd].
  destruct (removelast_shape l) as (mid & el & ->); [intros ->; cbn in L; lia|].
  pose proof (mid_of q r mid el) as M. cbn [app] in M. rewrite M.
  assert (RL : removelast (q :: r :: mid ++ [el]) = q :: r :: mid).
  { change (q :: r :: mid ++ [el]) with ((q :: r :: mid) ++ [el]). apply removelast_last. }
  rewrite RL.
  assert (PW : forall ns, path low (q :: r :: mid) ns -> exists x y ns', ns = x :: y :: ns' /\ joins low q x y /\ path low (r :: mid) (y :: ns') /\ touches y (c, d) = true).
  { intros ns P. inversion P as [|? x y ? ns' J PP]; subst. exists x, y, ns'. repeat split; auto.
    inversion PP as [|? ? z ? ns2 J2 _]; subst. unfold touches. cbn.
    destruct J2 as [J2|J2]; rewrite LR in J2; inversion J2; subst; rewrite eqe_refl, ?orb_true_r; reflexivity. }
  destruct (touches a (c, d) || touches b (c, d)) eqn:TT.
  2:{ exists false. split; [reflexivity|]. split; [discriminate|]. intros (_ & ns & P). exfalso.
      destruct (PW _ P) as (x & y & ns' & -> & J & _ & TY). apply orb_false_iff in TT. destruct TT.
      destruct J as [J|J]; rewrite LQ in J; inversion J; subst; congruence. }
  destruct (chain_path low (r :: mid) (fun e => if strict then two (low e) else first_two (low e)) strict (snd (orient (a, b) (c, d)))) as (res & C & IFF).
  { intros e I. destruct (T e) as (x & y & E & _); [destruct I as [<-|I]; cbn; [auto|right; right; apply in_or_app; auto]|eauto]. }
  { intros e I. destruct (T e) as (x & y & E & _); [destruct I as [<-|I]; cbn; [auto|right; right; apply in_or_app; auto]|]. rewrite E. destruct strict; reflexivity. }
  exists res. split; [exact C|]. rewrite IFF. split.
  - intros (ns & P). split; [cbn [length]; lia|]. unfold orient in P. cbn in P. destruct (touches a (c, d)) eqn:TA; cbn in P.
    + exists (b :: a :: ns). constructor; [right; assumption|assumption].
    + exists (a :: b :: ns). constructor; [left; assumption|assumption].
  - intros (_ & ns & P). destruct (PW _ P) as (x & y & ns' & -> & J & P2 & TY).
    unfold orient. cbn. destruct (touches a (c, d)) eqn:TA; cbn.
    + destruct J as [J|J]; rewrite LQ in J; inversion J; subst; [|eauto].
      (* both ends touch the second edge *)
      assert (SAME : low r = [x; y] \/ low r = [y; x]).
      { unfold touches in TA, TY. cbn in TA, TY. rewrite orb_true_iff, !eqe_spec in TA, TY. rewrite LR.
        destruct TA as [<-|<-], TY as [<-|<-]; try congruence; auto. }
      exfalso. eapply (PAR q r _ x y eq_refl); [left; assumption|destruct SAME; [left|right]; assumption].
    + destruct J as [J|J]; rewrite LQ in J; inversion J; subst; [eauto|congruence].
Qed.

(** * With hidden entries *)

Lemma polygon_start low c ns : polygon low c ns -> exists q r mid el n0 n1 n2 rest p p',
  c = q :: (r :: mid) ++ [el] /\ ns = n0 :: n1 :: n2 :: rest /\ two (low q) = Some p /\ two (low r) = Some p' /\
  orient p p' = (n0, n1) /\ touches (fst p) p' || touches (snd p) p' = true /\
  path low ((r :: mid) ++ [el]) ((n1 :: n2 :: rest) ++ [n0]).
Proof.
  intros P. pose proof P as ((L & W) & ND).
  destruct (polygon_shape _ _ _ P) as (q & r & mid & el & n0 & n1 & n2 & rest & EC & EN & JQ & JR & _).
  subst c ns. 
  assert (D : n0 <> n1 /\ n0 <> n2 /\ n1 <> n2).
  { inversion ND as [|? ? N0 ND1]; subst. inversion ND1 as [|? ? N1 _]; subst. cbn in N0, N1. repeat split; intros ->; auto. }
  destruct D as (D1 & D2 & D3). 
  destruct (joins_orient low q r n0 n1 n2 JQ JR D1 D2 D3) as (p & p' & TQ & TR & O).
  exists q, r, mid, el, n0, n1, n2, rest, p, p'. split; [reflexivity|]. split; [reflexivity|].
  split; [assumption|]. split; [assumption|]. split; [assumption|]. split.
  - pose proof (two_list _ _ TQ) as LQ. pose proof (two_list _ _ TR) as LR.
    assert (T1 : touches n1 p' = true).
    { unfold touches. destruct JR as [J|J]; rewrite LR in J; inversion J; subst; rewrite eqe_refl, ?orb_true_r; reflexivity. }
    destruct JQ as [J|J]; rewrite LQ in J; inversion J; subst; rewrite T1, ?orb_true_r; reflexivity.
  - cbn [app] in W |- *. apply path_inv in W. destruct W as (? & ? & EQ & _ & W). inversion EQ; subst. exact W.
Qed.

Lemma chain_ext p1 p2 strict es : (forall e, p1 e = p2 e) -> forall x, chain p1 strict x es = chain p2 strict x es.
Proof. intros E. induction es as [|e es IH]; intros x; cbn [chain]; [reflexivity|]. rewrite E. destruct (p2 e) as [[a b]|]; [|reflexivity]. rewrite !IH. reflexivity. Qed.

Lemma chain_of_path low pair strict es x ns : (forall e, In e es -> pair e = two (low e)) ->
  path low es (x :: ns) -> chain pair strict x es = Some true.
Proof.
  intros E P. destruct (chain_path low es pair strict x) as (b & C & IFF).
  - intros e I. destruct (path_two _ _ _ _ P I) as (a & b & L & _). eauto.
  - exact E.
  - rewrite C. f_equal. apply IFF. eauto.
Qed.

Lemma path_prefix low es1 es2 x ns : path low (es1 ++ es2) (x :: ns) -> exists ns', path low es1 (x :: ns').
Proof.
  revert x ns. induction es1 as [|e es1 IH]; intros x ns P; [exists []; constructor|].
  inversion P as [|? ? y ? ns' J PP]; subst. destruct (IH _ _ PP) as (n & PN). exists (y :: n). constructor; assumption.
Qed.

Lemma check_plain_polygon low strict lc ns : polygon low lc ns -> check_plain low strict lc = Some true.
Proof.
  intros P. pose proof (polygon_length _ _ _ P) as PL. pose proof P as ((L3 & _) & _).
  destruct (polygon_start _ _ _ P) as (q & r & mid & el & n0 & n1 & n2 & rest & p & p' & EC & EN & TQ & TR & O & TT & W).
  unfold check_plain. replace (Nat.ltb (length lc) 3) with false by (symmetry; apply Nat.ltb_ge; lia).
  rewrite EC. rewrite mid_of. cbn [app nth_error bind]. rewrite (two_first _ _ TQ), (two_first _ _ TR). cbn [bind]. rewrite TT, O. cbn [snd].
  destruct (path_prefix _ _ _ _ _ W) as (ns' & W').
  apply (chain_of_path low _ strict _ _ ns'); [|exact W'].
  intros e I. destruct (path_two _ _ _ _ W' I) as (a & b & E & _). rewrite E. destruct strict; reflexivity.
Qed.

Lemma shown_prefix h (l : list elem) k : exists z, shown h l = shown h (firstn k l) ++ z.
Proof. exists (shown h (skipn k l)). rewrite <- shown_app, firstn_skipn. reflexivity. Qed.

Lemma check_hidden_polygon low h strict q0 lc ns : h q0 = false ->
  polygon (fun e => shown h (low e)) (shown h (q0 :: lc)) ns -> check_hidden low h strict (q0 :: lc) = Some true.
Proof.
  intros Q0 P. pose proof (polygon_length _ _ _ P) as PL. pose proof P as ((L3 & _) & _).
  destruct (polygon_start _ _ _ P) as (q & r & mid & el & n0 & n1 & n2 & rest & p & p' & EC & EN & TQ & TR & O & TT & W).
  unfold check_hidden. unfold count. fold (shown h (q0 :: lc)).
  replace (Nat.ltb (length (shown h (q0 :: lc))) 3) with false by (symmetry; apply Nat.ltb_ge; lia).
  rewrite nth_next0, nth_next1, EC. cbn [app nth_error bind]. rewrite !visible_two_shown.
  rewrite (two_first _ _ TQ), (two_first _ _ TR). cbn [bind]. rewrite TT, O. cbn [snd skipn].
  assert (ES : shown h lc = (r :: mid) ++ [el]).
  { cbn in EC. rewrite Q0 in EC. cbn in EC. injection EC as _ EC. exact EC. }
  destruct (shown_prefix h lc (length (q0 :: lc) - 2)) as (z & PZ).
  rewrite ES in PZ. rewrite PZ in W. destruct (path_prefix _ _ _ _ _ W) as (ns' & W'). unfold unhidden. fold (shown h (firstn (length (q0 :: lc) - 2) lc)).
  apply (chain_of_path (fun e => shown h (low e)) _ strict _ _ ns'); [|exact W'].
  intros e I. destruct (path_two _ _ _ _ W' I) as (a & b & E & _). destruct strict; [apply exactly_two_shown|].
  rewrite visible_two_shown, E. reflexivity.
Qed.

Lemma follow_path low pair es : forall x ns z, (forall e, In e es -> pair e = two (low e)) ->
  path low es (x :: ns) -> last (x :: ns) x = z -> follow pair x es = Some z.
Proof.
  induction es as [|e es IH]; intros x ns z E P LZ.
  - inversion P; subst. reflexivity.
  - inversion P as [|? ? y ? ns' J PP]; subst. cbn [follow]. rewrite (E e) by (left; reflexivity).
    assert (LL : last (y :: ns') y = last (x :: y :: ns') x).
    { cbn [last]. destruct ns' as [|w ns']; [reflexivity|]. clear. revert w. induction ns' as [|v ns' IH]; intros w; [reflexivity|]. cbn [last]. apply IH. }
    destruct J as [J|J]; rewrite J; cbn [two bind].
    + rewrite eqe_refl. apply (IH y ns'); auto. intros; apply E; right; assumption.
    + destruct (eqe x y) eqn:XY.
      * apply eqe_spec in XY. subst y. apply (IH x ns'); auto. intros; apply E; right; assumption.
      * rewrite eqe_refl. apply (IH y ns'); auto. intros; apply E; right; assumption.
Qed.

Lemma fix_hidden_polygon low h e lc ns : h e = false ->
  polygon (fun e => shown h (low e)) (shown h (lc ++ [e])) ns -> fix_hidden_ordered low h (lc ++ [e]) = Some true.
Proof.
  intros Q0 P. pose proof (polygon_length _ _ _ P) as PL. pose proof P as ((L3 & _) & _).
  destruct (polygon_start _ _ _ P) as (q & r & mid & el & n0 & n1 & n2 & rest & p & p' & EC & EN & TQ & TR & O & TT & W).
  unfold fix_hidden_ordered. unfold count. fold (shown h (lc ++ [e])).
  replace (Nat.ltb (length (shown h (lc ++ [e]))) 3) with false by (symmetry; apply Nat.ltb_ge; lia).
  rewrite nth_next0, nth_next1, EC. cbn [app nth_error bind]. rewrite !exactly_two_shown, TQ, TR. cbn [bind]. rewrite TT, O.
  assert (ES : el = e /\ shown h lc = q :: r :: mid).
  { rewrite shown_app in EC. cbn in EC. rewrite Q0 in EC. cbn [negb] in EC.
    change (q :: r :: mid ++ [el]) with ((q :: r :: mid) ++ [el]) in EC. apply app_inj_tail in EC. destruct EC. auto. }
  destruct ES as (-> & ES).
  destruct (first_shown _ _ _ _ ES) as (A & B & -> & FA & Q & R).
  destruct (first_shown _ _ _ _ R) as (B1 & C & -> & FB & Q1 & R1).
  replace ((A ++ q :: B1 ++ r :: C) ++ [e]) with (A ++ q :: B1 ++ r :: (C ++ [e])) by (repeat (cbn [app]; rewrite <- app_assoc); reflexivity).
  rewrite get_next_first, get_next_second by assumption.
  replace (A ++ q :: B1 ++ r :: C ++ [e]) with ((A ++ q :: B1) ++ (r :: C) ++ [e]) by (rewrite <- !app_assoc; reflexivity).
  replace (length A + 1 + length B1) with (length (A ++ q :: B1)) by (rewrite app_length; cbn; lia).
  replace (length ((A ++ q :: B1) ++ (r :: C) ++ [e]) - 1) with (length ((A ++ q :: B1) ++ (r :: C))) by (rewrite !app_length; cbn [length]; lia).
  rewrite firstn_skipn_mid. unfold unhidden. fold (shown h (r :: C)).
  assert (ER : shown h (r :: C) = r :: mid) by (cbn; rewrite Q1; cbn; f_equal; assumption). rewrite ER.
  destruct (path_split _ _ _ _ W) as (m & x & m' & EM & _ & W1 & W2).
  assert (m' = [n0]) as ->.
  { inversion W2 as [|? ? y ? ns' J PP]; subst. apply path_len in PP. cbn in PP. destruct ns'; [|cbn in PP; lia].
    replace (m ++ [x; y]) with ((m ++ [x]) ++ [y]) in EM by (rewrite <- app_assoc; reflexivity). apply app_inj_tail in EM. destruct EM as (_ & <-). reflexivity. }
  assert (EM' : n1 :: n2 :: rest = m ++ [x]).
  { replace (m ++ [x; n0]) with ((m ++ [x]) ++ [n0]) in EM by (rewrite <- app_assoc; reflexivity). apply app_inj_tail in EM. apply EM. }
  rewrite <- EM' in W1.
  erewrite (follow_path (fun e => shown h (low e)) _ _ n1 (n2 :: rest) x); [|intros; apply exactly_two_shown|exact W1|rewrite EM'; apply last_last].
  cbn [bind].
  rewrite app_assoc. rewrite nth_error_mid. cbn [bind]. rewrite exactly_two_shown.
  inversion W2 as [|? ? ? ? ? J _]; subst. destruct J as [J|J]; rewrite J; cbn [two]; rewrite !eqe_refl, ?orb_true_r; reflexivity.
Qed.

(** * Orientation *)

Lemma swap_nth (l : list elem) i j k : i < length l -> j < length l -> i <> j ->
  nth_error (swap l i j) k = if Nat.eqb k i then nth_error l j else if Nat.eqb k j then nth_error l i else nth_error l k.
Proof.
  intros LI LJ N. unfold swap. destruct (nth_error l i) as [a|] eqn:A; [|apply nth_error_None in A; lia].
  destruct (nth_error l j) as [b|] eqn:B; [|apply nth_error_None in B; lia].
  destruct (Nat.eqb_spec k j) as [->|NJ].
  - rewrite nth_error_lset_eq by (rewrite lset_length; lia). destruct (Nat.eqb_spec j i); [lia|reflexivity].
  - rewrite nth_error_lset_ne by lia. destruct (Nat.eqb_spec k i) as [->|NI]; [rewrite nth_error_lset_eq by lia; reflexivity|apply nth_error_lset_ne; lia].
Qed.

Lemma reorder_loop_length n lc : length (reorder_loop n lc) = length lc.
Proof. induction n as [|n IH]; cbn [reorder_loop]; [reflexivity|]. rewrite swap_length. assumption. Qed.

Lemma reorder_loop_nth lc : forall n k, 2 * n <= length lc -> k < length lc ->
  nth_error (reorder_loop n lc) k =
  if Nat.ltb k n || Nat.leb (length lc - n) k then nth_error lc (length lc - 1 - k) else nth_error lc k.
Proof.
  induction n as [|n IH]; intros k L K; cbn [reorder_loop].
  - rewrite (proj2 (Nat.leb_gt (length lc - 0) k)) by lia. reflexivity.
  - rewrite swap_nth by (rewrite ?reorder_loop_length; lia). rewrite !IH by lia.
    destruct (Nat.eqb_spec k n) as [->|N1].
    + rewrite (proj2 (Nat.ltb_ge (length lc - 1 - n) n)) by lia. rewrite (proj2 (Nat.leb_gt (length lc - n) (length lc - 1 - n))) by lia.
      rewrite (proj2 (Nat.ltb_lt n (S n))) by lia. reflexivity.
    + destruct (Nat.eqb_spec k (length lc - 1 - n)) as [->|N2].
      * rewrite Nat.ltb_irrefl. rewrite (proj2 (Nat.leb_gt (length lc - n) n)) by lia. cbn [orb].
        rewrite (proj2 (Nat.leb_le (length lc - S n) (length lc - 1 - n))) by lia. rewrite orb_true_r. f_equal. lia.
      * assert (E : (Nat.ltb k n || Nat.leb (length lc - n) k) = (Nat.ltb k (S n) || Nat.leb (length lc - S n) k)).
        { apply Bool.eq_iff_eq_true. rewrite !orb_true_iff, !Nat.ltb_lt, !Nat.leb_le. lia. }
        rewrite E. reflexivity.
Qed.

Lemma reorder_rev lc : reorder lc = rev lc.
Proof.
  apply nth_error_ext. intros k. unfold reorder.
  pose proof (Nat.div2_div (length lc)) as D2. pose proof (Nat.div_mod (length lc) 2 ltac:(lia)) as DM. pose proof (Nat.mod_upper_bound (length lc) 2 ltac:(lia)) as MB.
  destruct (Nat.lt_ge_cases k (length lc)) as [K|K].
  - rewrite reorder_loop_nth by lia.
    assert (R : nth_error (rev lc) k = nth_error lc (length lc - 1 - k)).
    { destruct (nth_error lc (length lc - 1 - k)) as [x|] eqn:X; [|apply nth_error_None in X; lia].
      rewrite (nth_error_nth' (rev lc) x) by (rewrite rev_length; lia). rewrite rev_nth by lia. f_equal.
      replace (length lc - S k) with (length lc - 1 - k) by lia. apply nth_error_nth. assumption. }
    rewrite R. destruct (Nat.ltb k (Nat.div2 (length lc)) || Nat.leb (length lc - Nat.div2 (length lc)) k) eqn:C; [reflexivity|].
    apply orb_false_iff in C. rewrite Nat.ltb_ge, Nat.leb_gt in C. f_equal. lia.
  - rewrite !(proj2 (nth_error_None _ k)); [reflexivity|rewrite rev_length; lia|rewrite reorder_loop_length; lia].
Qed.

Lemma app_eq_len {A} (x y u v : list A) : length x = length y -> x ++ u = y ++ v -> x = y /\ u = v.
Proof.
  revert y. induction x as [|a x IH]; intros [|b y] L E; cbn in *; try discriminate; [auto|].
  injection E as -> E. destruct (IH y) as (-> & ->); auto.
Qed.

Lemma two_shown_split h l a b : shown h l = [a; b] ->
  exists A B C, l = A ++ a :: B ++ b :: C /\ Forall (fun x => h x = true) A /\ Forall (fun x => h x = true) B /\ Forall (fun x => h x = true) C /\
    h a = false /\ h b = false.
Proof.
  intros E. destruct (first_shown _ _ _ _ E) as (A & B & -> & FA & Q & R).
  destruct (first_shown _ _ _ _ R) as (B1 & C & -> & FB & Q1 & R1). apply shown_nil in R1.
  exists A, B1, C. repeat split; auto.
Qed.

Lemma swap_two_split h A a B b C : Forall (fun x => h x = true) A -> Forall (fun x => h x = true) B -> Forall (fun x => h x = true) C ->
  h a = false -> h b = false -> swap_two h (A ++ a :: B ++ b :: C) = A ++ b :: B ++ a :: C.
Proof.
  intros FA FB FC HA HB.
  unfold swap_two. assert (E : shown h (A ++ a :: B ++ b :: C) = [a; b]).
  { rewrite shown_app, (shown_hidden h A) by assumption. cbn. rewrite HA. cbn. f_equal. fold (shown h (B ++ b :: C)). rewrite shown_app, (shown_hidden h B) by assumption.
    cbn. rewrite HB. cbn. fold (shown h C). rewrite (shown_hidden h C) by assumption. reflexivity. }
  unfold count. fold (shown h (A ++ a :: B ++ b :: C)). rewrite E. cbn [length Nat.eqb].
  rewrite get_next_first, get_next_second by assumption.
  destruct (swap_split (A ++ a :: B ++ b :: C) (length A) (length A + 1 + length B) a b) as (X & Y & Z & EQ & LX & LY & SW).
  - lia.
  - apply nth_error_mid.
  - replace (A ++ a :: B ++ b :: C) with ((A ++ a :: B) ++ b :: C) by (rewrite <- app_assoc; reflexivity).
    replace (length A + 1 + length B) with (length (A ++ a :: B)) by (rewrite app_length; cbn; lia). apply nth_error_mid.
  - rewrite SW. destruct (app_eq_len A X (a :: B ++ b :: C) (a :: Y ++ b :: Z)) as (-> & EQ2); [lia|exact EQ|].
    injection EQ2 as EQ2. destruct (app_eq_len B Y (b :: C) (b :: Z)) as (-> & EQ3); [lia|exact EQ2|]. injection EQ3 as ->. reflexivity.
Qed.

Lemma shown_none h l : (forall x, h x = false) -> shown h l = l.
Proof. intros N. induction l as [|x l IH]; [reflexivity|]. cbn. rewrite N. cbn. f_equal. exact IH. Qed.

Lemma back_cell_shown h modif l : (modif = false -> forall x, h x = false) -> back_cell h modif l = Some (nth_error (shown h l) 0).
Proof.
  intros M. unfold back_cell. destruct modif.
  - destruct l as [|x l]; [reflexivity|]. rewrite nth_next0. destruct (shown h (x :: l)) as [|y r] eqn:E.
    + apply shown_nil in E. unfold get_next. cbn [skipn Nat.add]. rewrite lead_none by assumption. rewrite Nat.eqb_refl. reflexivity.
    + destruct (first_shown _ _ _ _ E) as (A & B & E2 & F & Q & R). rewrite E2, get_next_first by assumption.
      destruct (Nat.eqb_spec (length A) (length (A ++ y :: B))) as [N|_]; [rewrite app_length in N; cbn in N; lia|reflexivity].
  - rewrite shown_none by auto. reflexivity.
Qed.

Lemma front_cell_shown h modif l : (modif = false -> forall x, h x = false) -> front_cell h modif l = Some (nth_error (shown h l) 1).
Proof.
  intros M. unfold front_cell. destruct modif.
  - destruct l as [|x l]; [reflexivity|]. destruct (shown h (x :: l)) as [|y r] eqn:E.
    + apply shown_nil in E. unfold get_next at 1 2 4. cbn [skipn Nat.add]. rewrite lead_none by assumption. rewrite !Nat.eqb_refl. reflexivity.
    + destruct (first_shown _ _ _ _ E) as (A & B & E2 & F & Q & R). rewrite E2, get_next_first by assumption.
      destruct (Nat.eqb_spec (length A) (length (A ++ y :: B))) as [N|_]; [rewrite app_length in N; cbn in N; lia|].
      destruct r as [|z r].
      * apply shown_nil in R. rewrite get_next_second_none by assumption. rewrite Nat.eqb_refl. reflexivity.
      * destruct (first_shown _ _ _ _ R) as (B1 & C & -> & F1 & Q1 & R1). rewrite get_next_second by assumption.
        destruct (Nat.eqb_spec (length A + 1 + length B1) (length (A ++ y :: B1 ++ z :: C))) as [N|_]; [rewrite !app_length in N; cbn in N; rewrite app_length in N; cbn in N; lia|].
        replace (A ++ y :: B1 ++ z :: C) with ((A ++ y :: B1) ++ z :: C) by (rewrite <- app_assoc; reflexivity).
        replace (length A + 1 + length B1) with (length (A ++ y :: B1)) by (rewrite app_length; cbn; lia). rewrite nth_error_mid. reflexivity.
  - rewrite shown_none by auto. reflexivity.
Qed.

Lemma edge_end_shown h modif l : (modif = false -> length l = 2 /\ forall x, h x = false) -> shown h l <> [] ->
  edge_end h modif l = Some (nth_error (shown h l) 1).
Proof.
  intros M NE. unfold edge_end. destruct modif.
  - rewrite nth_next1. destruct l as [|x l]; [contradiction|]. destruct (shown h (x :: l)) as [|y r] eqn:E; [contradiction|].
    destruct (first_shown _ _ _ _ E) as (A & B & E2 & F & Q & R). rewrite E2, get_next_first by assumption.
    destruct r as [|z r].
    + apply shown_nil in R. rewrite get_next_second_none by assumption. rewrite Nat.eqb_refl. reflexivity.
    + destruct (first_shown _ _ _ _ R) as (B1 & C & -> & F1 & Q1 & R1). rewrite get_next_second by assumption.
      destruct (Nat.eqb_spec (length A + 1 + length B1) (length (A ++ y :: B1 ++ z :: C))) as [N|_]; [rewrite !app_length in N; cbn in N; rewrite app_length in N; cbn in N; lia|].
      reflexivity.
  - destruct (M eq_refl) as (L & N). rewrite shown_none by assumption. destruct l as [|a [|b [|c l]]]; try discriminate. reflexivity.
Qed.

Lemma edge_end_hidden h l : l <> [] -> shown h l = [] -> edge_end h true l = None.
Proof.
  intros N E. unfold edge_end. rewrite nth_next1, E. destruct l as [|x l]; [contradiction|]. 
  apply shown_nil in E. unfold get_next. cbn [skipn Nat.add]. rewrite lead_none by assumption. cbn [length].
  rewrite skipn_all2 by lia. cbn [lead]. destruct (Nat.eqb_spec (S (S (length l) + 0)) (S (length l))) as [Q|_]; [lia|reflexivity].
Qed.
