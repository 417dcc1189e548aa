From Coq Require Import List Arith Bool Lia Permutation.
From Verif Require Import Util Adj_Model Adj_Proofs Loop_Model Loop_Spec.
Import ListNotations.

(** * Paths *)

Lemma path_len low es ns : path low es ns -> length ns = S (length es).
Proof. induction 1; cbn in *; lia. Qed.

Lemma path_inv low es x y ns : path low es (x :: y :: ns) -> exists e es', es = e :: es' /\ joins low e x y /\ path low es' (y :: ns).
Proof. intros P. inversion P; subst. eauto. Qed.
Lemma path_one low es x : path low es [x] -> es = [].
Proof. intros P. inversion P; subst. reflexivity. Qed.

Lemma path_app low es x ns es' ns' : path low es (ns ++ [x]) -> path low es' (x :: ns') -> path low (es ++ es') (ns ++ x :: ns').
Proof.
  revert es. induction ns as [|y ns IH]; intros es P Q.
  - cbn in *. apply path_one in P. subst. assumption.
  - destruct ns as [|z ns]; cbn in *; apply path_inv in P; destruct P as (e & es1 & -> & J & P).
    + cbn. constructor; [assumption|]. apply path_one in P. subst. assumption.
    + cbn. constructor; [assumption|]. apply IH; assumption.
Qed.

Lemma path_split low es1 : forall es2 ns, path low (es1 ++ es2) ns ->
  exists P x Q, ns = P ++ x :: Q /\ length P = length es1 /\ path low es1 (P ++ [x]) /\ path low es2 (x :: Q).
Proof.
  induction es1 as [|e es1 IH]; intros es2 ns H; cbn in H.
  - pose proof (path_len _ _ _ H) as L. destruct ns as [|x Q]; [discriminate|].
    exists [], x, Q. repeat split; auto. constructor.
  - inversion H as [|? x y ? ? J PP]; subst. destruct (IH _ _ PP) as (P & w & Q & E & LP & A & B).
    destruct P as [|p P]; cbn in E; inversion E; subst.
    + exists [x], w, Q. cbn in *. repeat split; auto. constructor; assumption.
    + exists (x :: p :: P), w, Q. cbn in *. repeat split; auto. constructor; assumption.
Qed.

Lemma joins_sym low e a b : joins low e a b -> joins low e b a.
Proof. unfold joins. tauto. Qed.

Lemma path_rev low es ns : path low es ns -> path low (rev es) (rev ns).
Proof.
  induction 1 as [x|e x y es ns J P IH]; cbn; [constructor|].
  cbn in IH. rewrite <- app_assoc. cbn. apply path_app; [assumption|].
  constructor; [apply joins_sym; assumption|constructor].
Qed.

Lemma path_two low es ns e : path low es ns -> In e es -> exists a b, low e = [a; b] /\ In a ns /\ In b ns.
Proof.
  induction 1 as [x|e' x y es ns J P IH]; intros I; [destruct I|]. destruct I as [<-|I].
  - destruct J as [J|J]; do 2 eexists; split; [exact J| |exact J|]; cbn; auto.
  - destruct (IH I) as (a & b & E & A & B). exists a, b. cbn in *. auto.
Qed.

Lemma path_at low es ns i e : path low es ns -> nth_error es i = Some e ->
  exists a b, nth_error ns i = Some a /\ nth_error ns (S i) = Some b /\ joins low e a b.
Proof.
  intros P. revert i. induction P as [x|e' x y es ns J P IH]; intros [|i] E; cbn in E; try discriminate.
  - inversion E; subst. exists x, y. auto.
  - destruct (IH i E) as (a & b & A & B & C). exists a, b. auto.
Qed.

(** * Walking *)

Lemma walk_path pair low es ns x : (forall e, In e es -> pair e = two (low e)) ->
  path low es (x :: ns) -> walk pair x es = Some ns.
Proof.
  revert x ns. induction es as [|e es IH]; intros x ns E P; inversion P as [|? ? y ? ns1 J0 H3]; subst; [reflexivity|].
  cbn [walk]. rewrite (E e) by (left; reflexivity).
  destruct J0 as [J|J]; rewrite J; cbn [two bind].
  - rewrite eqe_refl. rewrite (IH _ _ (fun z I => E z (or_intror I)) H3). reflexivity.
  - destruct (eqe x y) eqn:Q.
    + apply eqe_spec in Q. subst y. rewrite (IH _ _ (fun z I => E z (or_intror I)) H3). reflexivity.
    + rewrite (IH _ _ (fun z I => E z (or_intror I)) H3). reflexivity.
Qed.

Lemma walk_mask_walk pair ok es : forall x t, walk pair x es = Some t -> walk_mask pair ok x es = Some (filter ok t).
Proof.
  induction es as [|e es IH]; intros x t W; cbn [walk walk_mask] in *.
  - inversion W. reflexivity.
  - destruct (pair e) as [[a b]|]; cbn [bind] in *; [|discriminate].
    destruct (walk pair (if eqe x a then b else a) es) as [t'|] eqn:Q; cbn [bind] in W; [|discriminate].
    inversion W; subst. rewrite (IH _ _ Q). cbn [bind filter]. destruct (ok _); reflexivity.
Qed.

Lemma walk_ext p1 p2 es : (forall e, In e es -> p1 e = p2 e) -> forall x, walk p1 x es = walk p2 x es.
Proof.
  induction es as [|e es IH]; intros E x; cbn [walk]; [reflexivity|].
  rewrite (E e) by (left; reflexivity). destruct (p2 e) as [[a b]|]; cbn [bind]; [|reflexivity].
  rewrite IH; [reflexivity|]. intros z I. apply E. right. assumption.
Qed.

Lemma joins_orient low e0 e1 n0 n1 n2 : joins low e0 n0 n1 -> joins low e1 n1 n2 -> n0 <> n1 -> n0 <> n2 -> n1 <> n2 ->
  exists p q, two (low e0) = Some p /\ two (low e1) = Some q /\ orient p q = (n0, n1).
Proof.
  intros J0 J1 A B C. exists (if eqe n0 (nth 0 (low e0) n0) then (n0, n1) else (n1, n0)), (nth 0 (low e1) n0, nth 1 (low e1) n0).
  destruct J0 as [J0|J0], J1 as [J1|J1]; rewrite J0, J1; cbn [nth two]; rewrite ?eqe_refl, ?(proj2 (eqe_neq n0 n1) A);
    repeat split; unfold orient, touches; cbn [fst snd]; rewrite ?eqe_refl, ?(proj2 (eqe_neq n0 n1) A), ?(proj2 (eqe_neq n0 n2) B), ?orb_true_r; reflexivity.
Qed.

(** The pieces of a polygon. *)
Lemma polygon_shape low es ns : polygon low es ns ->
  exists e0 e1 mid el n0 n1 n2 rest, es = e0 :: (e1 :: mid) ++ [el] /\ ns = n0 :: n1 :: n2 :: rest /\
    joins low e0 n0 n1 /\ joins low e1 n1 n2 /\ path low (e1 :: mid) (n1 :: n2 :: rest) /\
    joins low el (last (n2 :: rest) n0) n0.
Proof.
  intros ((L & G) & N). destruct ns as [|n0 ns]; [contradiction|]. destruct ns as [|n1 [|n2 rest]]; cbn [length] in L; try lia.
  cbn [app] in G. apply path_inv in G. destruct G as (e & es0 & -> & J0 & G). apply path_inv in G. destruct G as (e0 & es1 & -> & J1 & H5).
  pose proof (path_len _ _ _ H5) as LP.
  assert (Q : exists mid el, es1 = mid ++ [el]).
  { destruct (rev es1) as [|el r] eqn:R.
    - apply (f_equal (@rev _)) in R. rewrite rev_involutive in R. subst es1. cbn in LP. rewrite app_length in LP. cbn in LP. lia.
    - exists (rev r), el. apply (f_equal (@rev _)) in R. rewrite rev_involutive in R. exact R. }
  destruct Q as (mid & el & ->).
  exists e, e0, mid, el, n0, n1, n2, rest. cbn [app]. split; [reflexivity|]. split; [reflexivity|].
  split; [assumption|]. split; [assumption|].
  destruct (path_split _ _ _ _ H5) as (P & x & Q & E & LE & A & B).
  inversion B as [|? ? y ? ? JB PB]; subst. inversion PB; subst.
  rewrite app_comm_cons in E.
  assert (S1 : P ++ [x] = n2 :: rest /\ y = n0).
  { change (x :: y :: []) with ([x] ++ [y]) in E. rewrite app_assoc in E. apply app_inj_tail in E. destruct E; auto. }
  destruct S1 as (S1 & ->). split.
  - constructor; [assumption|]. rewrite <- S1. assumption.
  - rewrite <- S1. rewrite last_last. assumption.
Qed.

Lemma mid_of (e0 e1 : elem) mid el : firstn (length (e0 :: (e1 :: mid) ++ [el]) - 2) (skipn 1 (e0 :: (e1 :: mid) ++ [el])) = e1 :: mid.
Proof.
  cbn [skipn length]. rewrite app_length. cbn [length].
  replace (S (S (length mid) + 1) - 2) with (length (e1 :: mid)) by (cbn; lia).
  rewrite firstn_app, firstn_all, Nat.sub_diag. cbn. rewrite app_nil_r. reflexivity.
Qed.

Lemma ring_polygon low es ns : polygon low es ns -> ring low es = Some ns.
Proof.
  intros P. destruct (polygon_shape _ _ _ P) as (e0 & e1 & mid & el & n0 & n1 & n2 & rest & E & F & J0 & J1 & W & JL).
  destruct P as (_ & N). subst ns. inversion N as [|? ? A N1]; subst. inversion N1 as [|? ? B N2]; subst.
  destruct (joins_orient low e0 e1 n0 n1 n2 J0 J1) as (p & q & T0 & T1 & O).
  1,2: intros ->; apply A; cbn; auto. { intros ->; apply B; cbn; auto. }
  unfold ring. rewrite mid_of.
  replace (Nat.leb (length (e0 :: (e1 :: mid) ++ [el])) 2) with false by (symmetry; apply Nat.leb_gt; cbn; rewrite app_length; cbn; lia).
  cbn [nth_error app bind]. rewrite T0. cbn [bind]. rewrite T1. cbn [bind]. rewrite O.
  rewrite (walk_path _ low _ (n2 :: rest) n1); [reflexivity|reflexivity|assumption].
Qed.

(** * Passing over hidden entries *)

Lemma shown_unhidden h l : unhidden h l = shown h l. Proof. reflexivity. Qed.

Lemma lead_all h A q B : Forall (fun x => h x = true) A -> h q = false -> lead h (A ++ q :: B) = length A.
Proof. induction 1; intros Q; cbn; [rewrite Q; reflexivity|]. rewrite H, IHForall by assumption. reflexivity. Qed.
Lemma lead_none h A : Forall (fun x => h x = true) A -> lead h A = length A.
Proof. induction 1; cbn; [reflexivity|]. rewrite H, IHForall. reflexivity. Qed.

Lemma shown_hidden h A : Forall (fun x => h x = true) A -> shown h A = [].
Proof. induction 1; cbn; [reflexivity|]. unfold shown in *. rewrite H. cbn. assumption. Qed.
Lemma shown_app h A B : shown h (A ++ B) = shown h A ++ shown h B.
Proof. apply filter_app. Qed.

Lemma shown_nil h l : shown h l = [] -> Forall (fun x => h x = true) l.
Proof.
  induction l as [|x l IH]; cbn; intros E; constructor.
  - destruct (h x); [reflexivity|discriminate].
  - destruct (h x); cbn in E; [auto|discriminate].
Qed.

Lemma first_shown h l q r : shown h l = q :: r ->
  exists A B, l = A ++ q :: B /\ Forall (fun x => h x = true) A /\ h q = false /\ shown h B = r.
Proof.
  induction l as [|x l IH]; cbn; intros E; [discriminate|]. destruct (h x) eqn:X; cbn in E.
  - destruct (IH E) as (A & B & -> & F & Q & R). exists (x :: A), B. repeat split; auto.
  - inversion E; subst. exists [], l. repeat split; auto.
Qed.

Lemma last_shown h l r e : shown h l = r ++ [e] ->
  exists D H, l = D ++ e :: H /\ Forall (fun x => h x = true) H /\ h e = false /\ shown h D = r.
Proof.
  revert r. induction l as [|x l IH]; cbn; intros r E; [destruct r; discriminate|].
  destruct (h x) eqn:X; cbn in E.
  - destruct (IH _ E) as (D & H & -> & F & Q & R). exists (x :: D), H. repeat split; auto. cbn. rewrite X. assumption.
  - destruct r as [|y r]; cbn in E; inversion E; subst.
    + exists [], l. repeat split; auto. apply shown_nil. assumption.
    + destruct (IH _ H1) as (D & H & -> & F & Q & R). exists (y :: D), H. repeat split; auto. cbn. rewrite X. cbn. f_equal. assumption.
Qed.

Lemma get_next_first h A q B : Forall (fun x => h x = true) A -> h q = false -> get_next h (A ++ q :: B) 0 = length A.
Proof. intros F Q. unfold get_next. cbn [skipn]. rewrite lead_all by assumption. reflexivity. Qed.
Lemma get_next_second h A q B r C : Forall (fun x => h x = true) B -> h r = false ->
  get_next h (A ++ q :: B ++ r :: C) (S (length A)) = length A + 1 + length B.
Proof.
  intros F Q. unfold get_next.
  replace (skipn (S (length A)) (A ++ q :: B ++ r :: C)) with (B ++ r :: C).
  - rewrite lead_all by assumption. lia.
  - rewrite skipn_app. rewrite skipn_all2 by lia. replace (S (length A) - length A) with 1 by lia. reflexivity.
Qed.
Lemma get_next_second_none h A q B : Forall (fun x => h x = true) B ->
  get_next h (A ++ q :: B) (S (length A)) = length (A ++ q :: B).
Proof.
  intros F. unfold get_next.
  replace (skipn (S (length A)) (A ++ q :: B)) with B.
  - rewrite lead_none by assumption. rewrite app_length. cbn. lia.
  - rewrite skipn_app. rewrite skipn_all2 by lia. replace (S (length A) - length A) with 1 by lia. reflexivity.
Qed.

Lemma nth_error_mid {A} (l : list A) x r : nth_error (l ++ x :: r) (length l) = Some x.
Proof. rewrite nth_error_app2 by lia. rewrite Nat.sub_diag. reflexivity. Qed.

Lemma nth_next0 h l : nth_error l (get_next h l 0) = nth_error (shown h l) 0.
Proof.
  destruct (shown h l) as [|q r] eqn:E.
  - apply shown_nil in E. unfold get_next. cbn [skipn]. rewrite lead_none by assumption. cbn [nth_error]. apply nth_error_None. lia.
  - destruct (first_shown _ _ _ _ E) as (A & B & -> & F & Q & R). rewrite get_next_first by assumption. apply nth_error_mid.
Qed.
Lemma nth_next1 h l : nth_error l (get_next h l (S (get_next h l 0))) = nth_error (shown h l) 1.
Proof.
  destruct (shown h l) as [|q r] eqn:E.
  - apply shown_nil in E. unfold get_next at 2. cbn [skipn]. rewrite lead_none by assumption. cbn [nth_error]. apply nth_error_None. unfold get_next. lia.
  - destruct (first_shown _ _ _ _ E) as (A & B & -> & F & Q & R). rewrite get_next_first by assumption.
    destruct r as [|r rr].
    + apply shown_nil in R. rewrite get_next_second_none by assumption. cbn [nth_error]. apply nth_error_None. lia.
    + destruct (first_shown _ _ _ _ R) as (B1 & C & -> & F1 & Q1 & R1). rewrite get_next_second by assumption.
      cbn [nth_error]. replace (A ++ q :: B1 ++ r :: C) with ((A ++ q :: B1) ++ r :: C) by (rewrite <- app_assoc; reflexivity).
      replace (length A + 1 + length B1) with (length (A ++ q :: B1)) by (rewrite app_length; cbn; lia). apply nth_error_mid.
Qed.

Lemma visible_two_shown h l : visible_two h l = first_two (shown h l).
Proof.
  unfold visible_two. rewrite nth_next0, nth_next1. destruct (shown h l) as [|a [|b r]]; reflexivity.
Qed.
Lemma exactly_two_shown h l : exactly_two h l = two (shown h l).
Proof.
  unfold exactly_two. rewrite visible_two_shown. unfold count. fold (shown h l).
  destruct (shown h l) as [|a [|b [|c r]]]; reflexivity.
Qed.

Lemma trim_last h D e H : Forall (fun x => h x = true) H -> h e = false ->
  trim h (D ++ e :: H) (length (D ++ e :: H) - 1) = length D.
Proof.
  intros F E.
  assert (G : forall k, k <= length H -> trim h (D ++ e :: H) (length D + k) = length D).
  { induction k as [|k IH]; intros K.
    - rewrite Nat.add_0_r. destruct (length D) as [|d] eqn:LD; [reflexivity|]. cbn [trim]. rewrite <- LD. rewrite nth_error_mid. rewrite E. reflexivity.
    - rewrite Nat.add_succ_r. cbn [trim].
      replace (nth_error (D ++ e :: H) (S (length D + k))) with (nth_error H k).
      2:{ rewrite nth_error_app2 by lia. replace (S (length D + k) - length D) with (S k) by lia. reflexivity. }
      destruct (nth_error H k) as [x|] eqn:X; [|apply nth_error_None in X; lia].
      rewrite (proj1 (Forall_forall _ _) F x (nth_error_In _ _ X)). apply IH. lia. }
  rewrite app_length. cbn [length]. replace (length D + S (length H) - 1) with (length D + length H) by lia. apply G. lia.
Qed.

Lemma firstn_skipn_mid {A} (X D : list A) Z : firstn (length (X ++ D) - length X) (skipn (length X) (X ++ D ++ Z)) = D.
Proof.
  rewrite app_length, skipn_app, skipn_all2, Nat.sub_diag by lia. cbn [skipn app].
  replace (length X + length D - length X) with (length D) by lia. rewrite firstn_app, firstn_all, Nat.sub_diag. cbn. apply app_nil_r.
Qed.

Lemma removelast_shape {A} (l : list A) : l <> [] -> exists r e, l = r ++ [e].
Proof. intros N. destruct (rev l) as [|e r] eqn:R; apply (f_equal (@rev _)) in R; rewrite rev_involutive in R; subst; [contradiction|]. exists (rev r), e. reflexivity. Qed.

(** [ring_hidden] does on the whole lists what [ring] does on the visible parts. *)
Lemma ring_hidden_eq low h lc : 3 <= length (shown h lc) ->
  ring_hidden low h lc = ring (fun e => shown h (low e)) (shown h lc).
Proof.
  intros L. unfold ring_hidden, ring.
  replace (Nat.leb (length (shown h lc)) 2) with false by (symmetry; apply Nat.leb_gt; lia).
  destruct (shown h lc) as [|q [|r rr]] eqn:E; cbn [length] in L; try lia.
  rewrite nth_next0, nth_next1, E. cbn [nth_error bind]. rewrite !exactly_two_shown.
  destruct (two (shown h (low q))) as [p|]; [|reflexivity]. cbn [bind].
  destruct (two (shown h (low r))) as [p'|]; [|reflexivity]. cbn [bind].
  destruct (orient p p') as [x y].
  destruct (first_shown _ _ _ _ E) as (A & B & -> & FA & Q & R).
  destruct (first_shown _ _ _ _ R) as (B1 & C & -> & FB & Q1 & R1).
  rewrite get_next_first, get_next_second by assumption.
  destruct (removelast_shape rr) as (mid & el & ->); [intros ->; cbn in L; lia|].
  destruct (last_shown _ _ _ _ R1) as (D & H & -> & FH & QH & RD).
  assert (T : trim h (A ++ q :: B1 ++ r :: D ++ el :: H) (length (A ++ q :: B1 ++ r :: D ++ el :: H) - 1) = length ((A ++ q :: B1) ++ r :: D)).
  { rewrite <- (trim_last h ((A ++ q :: B1) ++ r :: D) el H) by assumption. repeat (cbn [app]; rewrite <- app_assoc). reflexivity. }
  rewrite T. clear T.
  replace (length A + 1 + length B1) with (length (A ++ q :: B1)) by (rewrite app_length; cbn; lia).
  replace (A ++ q :: B1 ++ r :: D ++ el :: H) with ((A ++ q :: B1) ++ (r :: D) ++ el :: H) by (rewrite <- !app_assoc; reflexivity).
  rewrite firstn_skipn_mid. unfold unhidden. fold (shown h (r :: D)).
  replace (firstn (length (q :: r :: mid ++ [el]) - 2) (skipn 1 (q :: r :: mid ++ [el]))) with (shown h (r :: D)).
  - rewrite (walk_ext _ (fun e => two (shown h (low e)))); [reflexivity|]. intros e _. apply exactly_two_shown.
  - pose proof (mid_of q r mid el) as M. cbn [app] in M. rewrite M. cbn. rewrite Q1. cbn. f_equal. exact RD.
Qed.

(** * Masks *)

Lemma ring_inv low lc ns : ring low lc = Some ns ->
  exists q r e p p' x y t, lc = q :: r :: e /\ 3 <= length lc /\ two (low q) = Some p /\ two (low r) = Some p' /\
    orient p p' = (x, y) /\ walk (fun e => two (low e)) y (firstn (length lc - 2) (skipn 1 lc)) = Some t /\ ns = x :: y :: t.
Proof.
  unfold ring. destruct (Nat.leb (length lc) 2) eqn:L; [discriminate|]. apply Nat.leb_gt in L.
  destruct lc as [|q [|r e]]; cbn [length] in L; try lia. cbn [nth_error bind].
  destruct (two (low q)) as [p|] eqn:TQ; [|discriminate]. cbn [bind].
  destruct (two (low r)) as [p'|] eqn:TR; [|discriminate]. cbn [bind].
  destruct (orient p p') as [x y] eqn:O.
  destruct (walk _ y _) as [t|] eqn:W; cbn [bind]; [|discriminate]. intros E. inversion E; subst.
  exists q, r, e, p, p', x, y, t. repeat (split; [first [reflexivity|assumption|cbn; lia]|]). reflexivity.
Qed.

Lemma two_first l p : two l = Some p -> first_two l = Some p.
Proof. destruct l as [|a [|b [|c l]]]; cbn; congruence. Qed.

Lemma first_edge_spec ok p p' x y : orient p p' = (x, y) -> first_edge ok p p' = (filter ok [x; y], y).
Proof.
  destruct p as [a b]. unfold orient, first_edge. cbn [fst snd]. destruct (touches a p'); intros E; inversion E; subst; clear E; [|reflexivity].
  f_equal. cbn [filter]. destruct (ok x), (ok y); reflexivity.
Qed.

Lemma walk_first low es : forall y t, walk (fun e => two (low e)) y es = Some t -> walk (fun e => first_two (low e)) y es = Some t.
Proof.
  induction es as [|e es IH]; intros y t W; cbn [walk] in *; [assumption|].
  destruct (two (low e)) as [[a b]|] eqn:T; cbn [bind] in W; [|discriminate]. rewrite (two_first _ _ T). cbn [bind].
  destruct (walk _ (if eqe y a then b else a) es) as [t'|] eqn:W'; cbn [bind] in W; [|discriminate].
  rewrite (IH _ _ W'). assumption.
Qed.

Lemma ring_mask_ring low ok lc ns : ring low lc = Some ns -> ring_mask low ok lc = Some (filter ok ns).
Proof.
  intros H. destruct (ring_inv _ _ _ H) as (q & r & e & p & p' & x & y & t & -> & L & Tq & Tr & O & W & ->).
  unfold ring_mask. cbn [nth_error bind]. rewrite (two_first _ _ Tq), (two_first _ _ Tr). cbn [bind].
  rewrite (first_edge_spec ok _ _ _ _ O).
  rewrite (walk_mask_walk _ ok _ _ _ (walk_first _ _ _ _ W)). cbn [bind].
  change (x :: y :: t) with ([x; y] ++ t). rewrite filter_app. reflexivity.
Qed.

(** With hidden entries the masked search agrees if the first edge is visible and, for
    private masks, the last one too. *)
Lemma ring_mask_hidden_eq low h priv ok q0 lc' :
  3 <= length (shown h (q0 :: lc')) -> h q0 = false ->
  (priv = true -> h (last (q0 :: lc') q0) = false) ->
  ring_mask_hidden low h priv ok (q0 :: lc') = ring_mask (fun e => shown h (low e)) ok (shown h (q0 :: lc')).
Proof.
  intros L Q0 PL.
  assert (E : shown h (q0 :: lc') = q0 :: shown h lc') by (cbn; rewrite Q0; reflexivity).
  rewrite E in *. destruct (shown h lc') as [|r rr] eqn:R; cbn [length] in L; try lia.
  unfold ring_mask_hidden, ring_mask. rewrite nth_next0, nth_next1, E. cbn [nth_error bind]. rewrite !visible_two_shown.
  destruct (first_two (shown h (low q0))) as [p|]; [|reflexivity]. cbn [bind].
  destruct (first_two (shown h (low r))) as [p'|]; [|reflexivity]. cbn [bind].
  destruct (first_edge ok p p') as [a la].
  destruct (first_shown _ _ _ _ R) as (B & C & -> & FB & Q1 & R1).
  destruct (removelast_shape rr) as (mid & el & ->); [intros ->; cbn in L; lia|].
  destruct (last_shown _ _ _ _ R1) as (D & H & -> & FH & QH & RD).
  assert (T : (if priv then length (q0 :: B ++ r :: D ++ el :: H) - 1 else trim h (q0 :: B ++ r :: D ++ el :: H) (length (q0 :: B ++ r :: D ++ el :: H) - 1)) = length (q0 :: B ++ r :: D)).
  { assert (EQ : q0 :: B ++ r :: D ++ el :: H = (q0 :: B ++ r :: D) ++ el :: H) by (cbn; rewrite <- !app_assoc; reflexivity).
    rewrite EQ in *. clear EQ.
    destruct priv; [|apply trim_last; assumption].
    assert (H = []) as ->.
    { destruct H as [|z H]; [reflexivity|]. exfalso. specialize (PL eq_refl).
      destruct (removelast_shape (z :: H)) as (H' & w & EH); [discriminate|]. rewrite EH in PL, FH.
      replace ((q0 :: B ++ r :: D) ++ el :: H' ++ [w]) with (((q0 :: B ++ r :: D) ++ el :: H') ++ [w]) in PL by (rewrite <- app_assoc; reflexivity). rewrite last_last in PL.
      apply Forall_app in FH. destruct FH as (_ & FH). inversion FH; subst. congruence. }
    rewrite app_length. cbn [length]. lia. }
  rewrite T. clear T PL.
  replace (q0 :: B ++ r :: D ++ el :: H) with ([q0] ++ (B ++ r :: D) ++ el :: H) by (cbn; rewrite <- !app_assoc; reflexivity).
  pose proof (firstn_skipn_mid [q0] (B ++ r :: D) (el :: H)) as M. cbn [app length] in M. cbn [app length]. rewrite M.
  unfold unhidden. fold (shown h (B ++ r :: D)). rewrite shown_app, (shown_hidden h B) by assumption. cbn [app].
  replace (firstn (S (S (length (mid ++ [el]))) - 2) (skipn 1 (q0 :: r :: mid ++ [el]))) with (shown h (r :: D)).
  - clear. generalize (shown h (r :: D)). intros es.
    assert (G : forall es x, walk_mask (fun e => visible_two h (low e)) ok x es = walk_mask (fun e => first_two (shown h (low e))) ok x es).
    { clear. induction es as [|e es IH]; intros x; cbn [walk_mask]; [reflexivity|]. rewrite visible_two_shown.
      destruct (first_two _) as [[u v]|]; cbn [bind]; [|reflexivity]. rewrite IH. reflexivity. }
    rewrite G. reflexivity.
  - pose proof (mid_of q0 r mid el) as M2. cbn [app length] in M2. rewrite M2. cbn. rewrite Q1. cbn. f_equal. exact RD.
Qed.
