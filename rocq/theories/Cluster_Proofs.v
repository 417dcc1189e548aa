(** Proofs about the k-means partitioners: collective redistribution of the
    points, choice of the nearest centre, sums over processes, the rounds as
    runs of the damped Lloyd iteration, cost. *)
From Coq Require Import List Arith Lia Bool Field.
From Verif Require Import Util OField Cluster_Spec Cluster_Model.
Import ListNotations.

(* ----- lists ----- *)

Lemma map2_length : forall A B C (f : A -> B -> C) l l', length l = length l' -> length (map2 f l l') = length l.
Proof. induction l; intros [|y l'] E; cbn in *; try discriminate; auto. Qed.

Lemma map2_nth : forall A B C (f : A -> B -> C) l l' i x y,
  nth_error l i = Some x -> nth_error l' i = Some y -> nth_error (map2 f l l') i = Some (f x y).
Proof.
  induction l; intros l' [|i] x y E1 E2; cbn in E1; try discriminate; destruct l'; cbn in E2; try discriminate; cbn.
  - congruence.
  - now apply IHl.
Qed.

Lemma gatherv_ok : forall A (chunks : list (list A)) pre rest,
  length rest = fold_right plus 0 (map (@length A) chunks) ->
  gatherv (pre ++ rest) chunks (displs_from (length pre) (map (@length A) chunks)) = pre ++ concat chunks.
Proof.
  induction chunks as [|c r IH]; intros pre rest E; cbn in *.
  - destruct rest; [reflexivity|discriminate].
  - unfold put.
    assert (F : firstn (length pre) (pre ++ rest) = pre).
    { rewrite firstn_app, Nat.sub_diag, firstn_all, firstn_O. apply app_nil_r. }
    assert (G : skipn (length pre + length c) (pre ++ rest) = skipn (length c) rest).
    { rewrite skipn_app, skipn_all2 by lia. cbn. f_equal. lia. }
    rewrite F, G, app_assoc.
    replace (length pre + length c) with (length (pre ++ c)) by apply app_length.
    rewrite IH.
    + now rewrite <- app_assoc.
    + rewrite skipn_length. lia.
Qed.

Lemma gather_ok : forall A (x : A) (chunks : list (list A)),
  gatherv (repeat x (fold_right plus 0 (map (@length A) chunks))) chunks (displs_from 0 (map (@length A) chunks)) = concat chunks.
Proof.
  intros. apply (gatherv_ok A chunks []). now rewrite repeat_length.
Qed.

Lemma scatterv_ok : forall A (counts : list nat) pre (l : list A),
  length l = fold_right plus 0 counts ->
  let r := scatterv (pre ++ l) counts (displs_from (length pre) counts) in
  concat r = l /\ map (@length A) r = counts.
Proof.
  unfold scatterv.
  induction counts as [|c r IH]; intros pre l E; cbn in *.
  - destruct l; [auto|discriminate].
  - assert (G : skipn (length pre) (pre ++ l) = l).
    { rewrite skipn_app, skipn_all2, Nat.sub_diag by lia. reflexivity. }
    rewrite G.
    destruct (IH (pre ++ firstn c l) (skipn c l)) as [I J].
    { rewrite skipn_length. lia. }
    rewrite <- app_assoc, firstn_skipn, app_length, firstn_length, Nat.min_l in I, J by lia.
    split.
    + rewrite I. apply firstn_skipn.
    + rewrite J, firstn_length, Nat.min_l by lia. reflexivity.
Qed.

Lemma scatter_ok : forall A (counts : list nat) (l : list A),
  length l = fold_right plus 0 counts ->
  let r := scatterv l counts (displs_from 0 counts) in
  concat r = l /\ map (@length A) r = counts.
Proof. intros A counts l E. exact (scatterv_ok A counts [] l E). Qed.

Lemma concat_length : forall A (l : list (list A)), length (concat l) = fold_right plus 0 (map (@length A) l).
Proof. induction l; cbn; [reflexivity|]. rewrite app_length. now f_equal. Qed.

Lemma displs_last : forall P part d, last (displs_from d (repeat part (S P))) 0 = d + P * part.
Proof.
  induction P as [|P IH]; intros part d; [cbn; lia|].
  change (repeat part (S (S P))) with (part :: repeat part (S P)).
  change (displs_from d (part :: repeat part (S P))) with (d :: displs_from (d + part) (repeat part (S P))).
  transitivity (last (displs_from (d + part) (repeat part (S P))) 0); [reflexivity|].
  rewrite IH. nia.
Qed.

Lemma even_length : forall tot P, length (even_counts tot P) = P.
Proof. intros. unfold even_counts. now rewrite lset_length, repeat_length. Qed.

Lemma even_sum : forall tot P, 0 < P -> fold_right plus 0 (even_counts tot P) = tot.
Proof.
  intros tot P H. destruct P as [|P]; [lia|]. unfold even_counts.
  rewrite displs_last. set (part := tot / S P).
  assert (L : P * part <= tot).
  { assert (S P * part <= tot) by (apply Nat.mul_div_le; lia). nia. }
  clearbody part. replace (S P - 1) with P by lia.
  assert (G : forall n x, fold_right plus 0 (lset (repeat part (S n)) n x) = n * part + x).
  { induction n; intro x.
    - cbn. lia.
    - change (lset (repeat part (S (S n))) (S n) x) with (part :: lset (repeat part (S n)) n x).
      cbn [fold_right]. rewrite IHn. lia. }
  rewrite G. lia.
Qed.

Section Proofs.
Variable F : ofield.
Add Field Fc : (fth F).
Notation pt := (pt F).
Notation center := (option pt).
Implicit Types (cs : list center) (ps : list pt) (pss : list (list pt)).

Lemma spread_ok : forall pss, pss <> [] ->
  concat (spread F pss) = concat pss /\
  map (@length pt) (spread F pss) = even_counts (fold_right plus 0 (map (@length pt) pss)) (length pss).
Proof.
  intros pss N. unfold spread. rewrite gather_ok. apply scatter_ok.
  rewrite even_sum by (destruct pss; [contradiction|cbn; lia]). apply concat_length.
Qed.

Lemma give_back_ok : forall npoints cls, npoints <> [] ->
  map (@length (option nat)) cls = even_counts (fold_right plus 0 npoints) (length npoints) ->
  concat (give_back npoints cls) = concat cls /\ map (@length (option nat)) (give_back npoints cls) = npoints.
Proof.
  intros npoints cls N E. unfold give_back.
  assert (S : fold_right plus 0 npoints = fold_right plus 0 (map (@length (option nat)) cls)).
  { rewrite E, even_sum; [reflexivity|]. destruct npoints; [contradiction|cbn; lia]. }
  rewrite <- E, S, gather_ok. apply scatter_ok. now rewrite concat_length.
Qed.

(* ----- field facts ----- *)

Lemma nat_f_add : forall a b, nat_f F (a + b) = (nat_f F a + nat_f F b)%F.
Proof. induction a; intro b; cbn; [ring|]. rewrite IHa. ring. Qed.

Lemma nat_f_nneg : forall n, (nat_f F n <? 0)%F = false.
Proof.
  induction n; cbn; [apply flt_irr|]. apply add_nneg; [exact IHn|]. apply flt_asym, f1_pos.
Qed.

Lemma nat_f_pos : forall n, 0 < n -> (0 <? nat_f F n)%F = true.
Proof.
  intros [|n] H; [lia|]. cbn. replace (nat_f F n + 1)%F with (1 + nat_f F n)%F by ring.
  apply add_pos; [apply f1_pos|apply nat_f_nneg].
Qed.

Lemma nat_f_neq : forall n, 0 < n -> nat_f F n <> 0%F.
Proof. intros n H. apply pos_neq. now apply nat_f_pos. Qed.

Lemma pt_eq : forall a b : pt, px F a = px F b -> py F a = py F b -> pz F a = pz F b -> a = b.
Proof. intros [a1 a2 a3] [b1 b2 b3]; cbn; intros; now subst. Qed.

Lemma padd_assoc : forall a b c : pt, padd F (padd F a b) c = padd F a (padd F b c).
Proof. intros. apply pt_eq; cbn; ring. Qed.
Lemma padd_comm : forall a b : pt, padd F a b = padd F b a.
Proof. intros. apply pt_eq; cbn; ring. Qed.
Lemma padd_0_l : forall a : pt, padd F (origin F) a = a.
Proof. intros. apply pt_eq; cbn; ring. Qed.
Lemma padd_0_r : forall a : pt, padd F a (origin F) = a.
Proof. intros. apply pt_eq; cbn; ring. Qed.

Lemma total_app : forall l l', total F (l ++ l') = padd F (total F l) (total F l').
Proof.
  unfold total. induction l; intro l'; cbn [app fold_right]; [now rewrite padd_0_l|]. rewrite IHl. symmetry. apply padd_assoc.
Qed.

Lemma fold_left_total : forall ps a, fold_left (padd F) ps a = padd F a (total F ps).
Proof.
  unfold total. induction ps; intro a0; cbn [fold_left fold_right]; [now rewrite padd_0_r|]. rewrite IHps. apply padd_assoc.
Qed.

(* ----- nearest centre ----- *)

Lemma nearest_from_ok : forall r p pre lmin id,
  (match lmin, id with
   | None, None => forall i c, nth_error pre i <> Some (Some c)
   | Some l, Some k => nearest F pre p k /\ (forall c, nth_error pre k = Some (Some c) -> l = dist2 F p c)
   | _, _ => False
   end) ->
  match nearest_from F r p (length pre) lmin id with
  | Some j => nearest F (pre ++ r) p j
  | None => forall i c, nth_error (pre ++ r) i <> Some (Some c)
  end.
Proof.
  induction r as [|o r IH]; intros p pre lmin id H; cbn [nearest_from].
  - rewrite app_nil_r. destruct lmin, id; try contradiction; [apply H|exact H].
  - assert (E : pre ++ o :: r = (pre ++ [o]) ++ r) by (rewrite <- app_assoc; reflexivity).
    assert (L : S (length pre) = length (pre ++ [o])) by (rewrite app_length; cbn; lia).
    assert (NE : forall i c, nth_error (pre ++ [o]) i = Some (Some c) ->
              nth_error pre i = Some (Some c) \/ (i = length pre /\ o = Some c)).
    { intros i c X. destruct (lt_dec i (length pre)).
      - left. now rewrite nth_error_app1 in X by assumption.
      - right. rewrite nth_error_app2 in X by lia. destruct (i - length pre) as [|k] eqn:D; cbn in X.
        + split; [lia|congruence].
        + destruct k; discriminate. }
    assert (UP : forall i c, nth_error pre i = Some (Some c) -> nth_error (pre ++ [o]) i = Some (Some c)).
    { intros i c X. rewrite nth_error_app1; [exact X|]. apply nth_error_Some. congruence. }
    destruct o as [c|].
    + cbv zeta. destruct lmin as [m|], id as [k|]; try contradiction.
      * destruct H as [N D]. destruct N as [ck [K0 N]]. pose proof (D _ K0) as ->.
        destruct (dist2 F p c <? dist2 F p ck)%F eqn:T; rewrite E, L; apply IH.
        -- split.
           ++ exists c. split; [rewrite nth_error_app2, Nat.sub_diag by lia; reflexivity|].
              intros i c' X. destruct (NE _ _ X) as [Y|[-> Y]].
              ** destruct (N _ _ Y) as [N1 _].
                 assert (TT : (dist2 F p c <? dist2 F p c')%F = true) by (eapply flt_lt_le; eassumption).
                 split; [now apply flt_asym|intros _; exact TT].
              ** injection Y as <-. split; [apply flt_irr|lia].
           ++ intros c0 X. rewrite nth_error_app2, Nat.sub_diag in X by lia. cbn in X. congruence.
        -- split.
           ++ exists ck. split; [now apply UP|]. intros i c' X. destruct (NE _ _ X) as [Y|[-> Y]].
              ** now apply N.
              ** injection Y as <-. split; [exact T|]. intro LT.
                 assert (k < length pre) by (apply nth_error_Some; congruence). lia.
           ++ intros c0 X. apply D. rewrite nth_error_app1 in X; [exact X|]. apply nth_error_Some. congruence.
      * rewrite E, L. apply IH. split.
        -- exists c. split; [rewrite nth_error_app2, Nat.sub_diag by lia; reflexivity|].
           intros i c' X. destruct (NE _ _ X) as [Y|[-> Y]].
           ++ now apply H in Y.
           ++ injection Y as <-. split; [apply flt_irr|lia].
        -- intros c0 X. rewrite nth_error_app2, Nat.sub_diag in X by lia. cbn in X. congruence.
    + rewrite E, L. apply IH. destruct lmin as [m|], id as [k|]; try contradiction.
      * destruct H as [[ck [K0 N]] D]. split.
        -- exists ck. split; [now apply UP|]. intros i c' X. destruct (NE _ _ X) as [Y|[-> Y]]; [now apply N|discriminate].
        -- intros c0 X. apply D. rewrite nth_error_app1 in X; [exact X|]. apply nth_error_Some. congruence.
      * intros i c X. destruct (NE _ _ X) as [Y|[_ Y]]; [now apply H in Y|discriminate].
Qed.

Lemma nearest_center_ok : forall cs p,
  match nearest_center F cs p with
  | Some j => nearest F cs p j
  | None => forall i c, nth_error cs i <> Some (Some c)
  end.
Proof.
  intros. apply (nearest_from_ok cs p [] None None). intros [|i] c; cbn; discriminate.
Qed.

Lemma nearest_lt : forall cs p j, nearest F cs p j -> j < length cs.
Proof. intros cs p j [c [E _]]. apply nth_error_Some. congruence. Qed.

Lemma nearest_unique : forall cs p j k, nearest F cs p j -> nearest F cs p k -> j = k.
Proof.
  intros cs p j k [c [E N]] [d [E' N']].
  destruct (N _ _ E') as [_ A]. destruct (N' _ _ E) as [_ B].
  destruct (lt_eq_lt_dec j k) as [[L|]|L]; [|assumption|].
  - destruct (N' _ _ E) as [B1 _]. destruct (N _ _ E') as [A1 _].
    specialize (B L). rewrite B in A1. discriminate.
  - specialize (A L). destruct (N' _ _ E) as [B1 _]. rewrite A in B1. discriminate.
Qed.

Lemma assignment_unique : forall cs ps a b, Forall2 (nearest F cs) ps a -> Forall2 (nearest F cs) ps b -> a = b.
Proof.
  intros cs ps a b H. revert b. induction H; intros b G; inversion G; subst; [reflexivity|].
  f_equal; [eapply nearest_unique; eassumption|now apply IHForall2].
Qed.

Definition some_center cs : Prop := exists i c, nth_error cs i = Some (Some c).

Lemma assign_ok : forall cs pss, (concat pss = [] \/ some_center cs) ->
  exists asgs, assign F cs pss = map (map Some) asgs /\ map (@length nat) asgs = map (@length pt) pss /\
    Forall2 (nearest F cs) (concat pss) (concat asgs).
Proof.
  intros cs pss H.
  assert (P : forall ps, (ps = [] \/ some_center cs) ->
     exists a, map (nearest_center F cs) ps = map Some a /\ length a = length ps /\ Forall2 (nearest F cs) ps a).
  { induction ps as [|p ps IH]; intro G.
    - exists []. repeat split. constructor.
    - destruct G as [G|G]; [discriminate|]. destruct (IH (or_intror G)) as [a [A1 [A2 A3]]].
      pose proof (nearest_center_ok cs p) as N. destruct (nearest_center F cs p) as [j|] eqn:E.
      + exists (j :: a). cbn. rewrite E, A1, A2. repeat split. now constructor.
      + destruct G as [i [c G]]. now apply N in G. }
  unfold assign. induction pss as [|ps pss IH].
  - exists []. repeat split. constructor.
  - destruct IH as [asgs [I1 [I2 I3]]].
    { destruct H as [H|H]; [|now right]. left. cbn in H. now apply app_eq_nil in H. }
    destruct (P ps) as [a [A1 [A2 A3]]].
    { destruct H as [H|H]; [|now right]. left. cbn in H. now apply app_eq_nil in H. }
    exists (a :: asgs). cbn. rewrite A1, I1, A2, I2. repeat split. now apply Forall2_app.
Qed.

(* ----- changes ----- *)

Lemma same_cluster_iff : forall a b, same_cluster a b = true <-> a = b.
Proof.
  intros [a|] [b|]; cbn; split; intro H; try congruence.
  - apply Nat.eqb_eq in H. congruence.
  - injection H as ->. apply Nat.eqb_refl.
Qed.

Lemma changed_on_0 : forall old new, length old = length new -> (changed_on old new = 0 <-> old = new).
Proof.
  induction old as [|a old IH]; intros [|b new] L; cbn in L; try discriminate; cbn [changed_on]; [tauto|].
  injection L as L. destruct (same_cluster a b) eqn:E.
  - apply same_cluster_iff in E. subst b. cbn. rewrite (IH _ L). split; congruence.
  - split; [lia|]. intros H. injection H as <- <-.
    assert (same_cluster a a = true) by (now apply same_cluster_iff). congruence.
Qed.

Lemma changed_0 : forall old new, map (@length (option nat)) old = map (@length (option nat)) new ->
  (changed old new = 0 <-> concat old = concat new).
Proof.
  unfold changed. induction old as [|a old IH]; intros [|b new] L; cbn in L; try discriminate; cbn; [tauto|].
  injection L as L1 L2. specialize (IH _ L2). pose proof (changed_on_0 a b L1) as C.
  split.
  - intro H. f_equal; [apply C; lia|apply IH; lia].
  - intro H. assert (E : a = b /\ concat old = concat new).
    { clear - H L1. revert b L1 H. induction a; intros [|y b] L1 H; cbn in *; try discriminate; [auto|].
      injection H as -> H. injection L1 as L1. destruct (IHa _ L1 H) as [-> ->]. auto. }
    destruct E as [E1 E2]. apply C in E1. apply IH in E2. lia.
Qed.

(* ----- sums ----- *)

Lemma members_app : forall j ps a ps' a', length ps = length a ->
  members F j (ps ++ ps') (a ++ a') = members F j ps a ++ members F j ps' a'.
Proof.
  induction ps as [|p ps IH]; intros [|i a] ps' a' L; cbn in L; try discriminate; [reflexivity|].
  injection L as L. cbn. rewrite IH by assumption. destruct (i =? j); reflexivity.
Qed.

Lemma members_length : forall j ps a, length ps = length a -> length (members F j ps a) = occurrences j a.
Proof.
  induction ps as [|p ps IH]; intros [|i a] L; cbn in L; try discriminate; [reflexivity|].
  injection L as L. cbn. destruct (i =? j); cbn; now rewrite IH.
Qed.

Lemma accumulate_ok : forall ps a acc, length ps = length a -> Forall (fun j => j < length acc) a ->
  exists acc', accumulate F ps (map Some a) acc = Some acc' /\ length acc' = length acc /\
    forall j s n, nth_error acc j = Some (s, n) ->
      nth_error acc' j = Some (padd F s (total F (members F j ps a)), n + length (members F j ps a)).
Proof.
  induction ps as [|p ps IH]; intros [|i a] acc L B; cbn in L; try discriminate.
  - exists acc. repeat split. intros j s n E. cbn. now rewrite padd_0_r, Nat.add_0_r.
  - injection L as L. inversion B as [|? ? B1 B2]; subst. cbn [accumulate map].
    destruct (nth_error acc i) as [[s0 n0]|] eqn:E0; [|apply nth_error_None in E0; lia].
    destruct (IH a (lset acc i (padd F s0 p, S n0)) L) as [acc' [A1 [A2 A3]]].
    { rewrite lset_length. exact B2. }
    exists acc'. split; [exact A1|]. rewrite lset_length in A2. split; [exact A2|].
    intros j s n E. cbn [members]. destruct (Nat.eqb_spec i j) as [->|N].
    + rewrite E in E0. injection E0 as <- <-.
      rewrite (A3 j (padd F s p) (S n)) by (now apply nth_error_lset_eq).
      cbn. rewrite padd_assoc. do 2 f_equal. lia.
    + apply A3. now rewrite nth_error_lset_ne.
Qed.

Lemma nth_error_repeat_eq : forall A (x : A) n i, i < n -> nth_error (repeat x n) i = Some x.
Proof. induction n; intros [|i] H; cbn; try lia; [reflexivity|]. apply IHn. lia. Qed.

Lemma all_sums_ok : forall K pss asgs, map (@length nat) asgs = map (@length pt) pss ->
  Forall (fun j => j < K) (concat asgs) ->
  exists t, all_sums F K pss (map (map Some) asgs) = Some t /\ length t = K /\
    forall j, j < K -> nth_error t j = Some (total F (members F j (concat pss) (concat asgs)),
                                             length (members F j (concat pss) (concat asgs))).
Proof.
  intros K. induction pss as [|ps pss IH]; intros [|a asgs] L B; cbn in L; try discriminate.
  - exists (repeat (origin F, 0) K). cbn. rewrite repeat_length. repeat split. intros j H. now apply nth_error_repeat_eq.
  - injection L as L1 L2. cbn [concat] in B. apply Forall_app in B as [B1 B2].
    destruct (IH asgs L2 B2) as [t [T1 [T2 T3]]].
    destruct (accumulate_ok ps a (repeat (origin F, 0) K)) as [t' [A1 [A2 A3]]]; [congruence| |].
    { now rewrite repeat_length. }
    rewrite repeat_length in A2.
    exists (add_sums F t' t). cbn [map all_sums concat]. rewrite A1, T1. split; [reflexivity|].
    split; [unfold add_sums; rewrite map2_length; congruence|].
    intros j H. rewrite members_app by congruence. rewrite total_app, app_length. unfold add_sums.
    rewrite (map2_nth _ _ _ _ _ _ j _ _ (A3 j _ _ (nth_error_repeat_eq _ _ _ _ H)) (T3 j H)).
    cbn [fst snd]. now rewrite padd_0_l.
Qed.

Lemma divide_mean : forall l, l <> [] -> exists m, divide F (total F l, length l) = Some m /\ mean F l m.
Proof.
  intros l H. unfold divide. cbn [fst snd]. destruct (length l) as [|n] eqn:E.
  - destruct l; [contradiction|discriminate].
  - eexists. split; [reflexivity|]. split; [exact H|]. rewrite E.
    assert (N : nat_f F (S n) <> 0%F) by (apply nat_f_neq; lia).
    apply pt_eq; cbn [px py pz pscale]; field; exact N.
Qed.

Lemma divide_empty : divide F (total F [], 0) = None.
Proof. reflexivity. Qed.

Lemma damp_ok : forall o c, damp F o c = padd F (pscale F (old_part F) o) (pscale F (new_part F) c).
Proof.
  intros o c. unfold damp, old_part, new_part. apply pt_eq; cbn [px py pz pscale padd]; ring.
Qed.

Lemma Forall2_nth : forall A B (R : A -> B -> Prop) l l' i y, Forall2 R l l' -> nth_error l' i = Some y ->
  exists x, nth_error l i = Some x /\ R x y.
Proof.
  intros A B R l l' i y H. revert i. induction H; intros [|i] E; cbn in E; try discriminate.
  - injection E as <-. exists x. auto.
  - now apply IHForall2.
Qed.

Lemma members_in : forall j ps a, members F j ps a <> [] -> In j a.
Proof.
  induction ps as [|p ps IH]; intros [|i a] H; cbn in H; try contradiction.
  destruct (Nat.eqb_spec i j) as [->|N]; [now left|]. right. now apply IH.
Qed.

Lemma in_members : forall j ps a, length ps = length a -> In j a -> members F j ps a <> [].
Proof.
  induction ps as [|p ps IH]; intros [|i a] L H; cbn in *; try discriminate; try contradiction.
  destruct (Nat.eqb_spec i j) as [->|N]; [discriminate|]. destruct H as [H|H]; [contradiction|].
  apply IH; [congruence|assumption].
Qed.

Lemma nearest_member_center : forall cs ps a j, Forall2 (nearest F cs) ps a -> In j a -> exists c, nth_error cs j = Some (Some c).
Proof.
  intros cs ps a j H I. apply In_nth_error in I as [k I]. destruct (Forall2_nth _ _ _ _ _ _ _ H I) as [p [_ [c [E _]]]].
  now exists c.
Qed.

Lemma recentre_ok : forall k cs pss asgs t, 1 <= k ->
  Forall2 (nearest F cs) (concat pss) (concat asgs) ->
  length t = length cs ->
  (forall j, j < length cs -> nth_error t j = Some (total F (members F j (concat pss) (concat asgs)),
                                             length (members F j (concat pss) (concat asgs)))) ->
  recentred F k cs (concat pss) (concat asgs) (recentre F k cs t).
Proof.
  intros k cs pss asgs t K1 N L T. split.
  { unfold recentre. now apply map2_length. }
  intros j J. specialize (T j J).
  destruct (nth_error cs j) as [o|] eqn:O; [|apply nth_error_None in O; lia].
  assert (R : nth_error (recentre F k cs t) j = Some (
     let c := divide F (total F (members F j (concat pss) (concat asgs)), length (members F j (concat pss) (concat asgs))) in
     if 1 <? k then match o, c with Some o', Some c' => Some (damp F o' c') | _, _ => None end else c)).
  { unfold recentre.
    exact (map2_nth _ _ _ (fun o t => let c := divide F t in
      if 1 <? k then match o, c with Some o', Some c' => Some (damp F o' c') | _, _ => None end else c) _ _ j _ _ O T). }
  split.
  - intro M. rewrite R, M. change (length []) with 0. rewrite divide_empty. cbv zeta. destruct (1 <? k), o; reflexivity.
  - intro M. destruct (divide_mean _ M) as [m [D1 D2]].
    destruct (nearest_member_center _ _ _ _ N (members_in _ _ _ M)) as [c C].
    rewrite O in C. injection C as ->.
    exists m. rewrite R, D1. cbv zeta. destruct (Nat.ltb_spec 1 k).
    + exists (damp F c m). split; [exact D2|]. split; [reflexivity|]. split; [lia|]. intros _.
      exists c. split; [first [reflexivity|exact O]|apply damp_ok].
    + exists m. split; [exact D2|]. split; [reflexivity|]. split; [reflexivity|lia].
Qed.

Lemma recentred_some : forall k cs ps a cs', recentred F k cs ps a cs' -> Forall2 (nearest F cs) ps a ->
  (ps = [] \/ some_center cs').
Proof.
  intros k cs ps a cs' [L H] N. destruct ps as [|p ps]; [now left|right].
  inversion N as [|? j ? a' N1 N2]; subst.
  destruct (H j (nearest_lt _ _ _ N1)) as [_ G]. destruct G as [m [c' [_ [E _]]]].
  - cbn. rewrite Nat.eqb_refl. discriminate.
  - now exists j, c'.
Qed.

Lemma map_Some_concat : forall (l : list (list nat)), concat (map (map Some) l) = map Some (concat l).
Proof. induction l; cbn; [reflexivity|]. now rewrite map_app, IHl. Qed.

Lemma map_Some_length : forall (l : list (list nat)), map (@length (option nat)) (map (map Some) l) = map (@length nat) l.
Proof. induction l; cbn; [reflexivity|]. now rewrite map_length, IHl. Qed.

Lemma Forall2_lt : forall cs ps a, Forall2 (nearest F cs) ps a -> Forall (fun j => j < length cs) a.
Proof. intros cs ps a H. induction H; constructor; [now apply nearest_lt in H|assumption]. Qed.

Lemma kloop_run : forall left iter cs pss cls,
  1 <= iter -> (concat pss = [] \/ some_center cs) ->
  map (@length (option nat)) cls = map (@length pt) pss ->
  exists cs' asgs, kloop F left iter cs pss cls = Some (cs', map (map Some) asgs) /\
    map (@length nat) asgs = map (@length pt) pss /\ length cs' = length cs /\
    run F (left + iter) (concat pss) iter cs (concat cls) cs' (concat asgs).
Proof.
  induction left as [|left IH]; intros iter cs pss cls I1 SC L;
    destruct (assign_ok cs pss SC) as [asgs [A1 [A2 A3]]];
    cbn [kloop]; rewrite A1;
    assert (CH := changed_0 cls (map (map Some) asgs) (eq_trans L (eq_trans (eq_sym A2) (eq_sym (map_Some_length asgs)))));
    rewrite map_Some_concat in CH.
  - exists cs, asgs. split; [now destruct (_ =? _)|]. split; [exact A2|]. split; [reflexivity|].
    apply run_stop; [exact A3|]. right. lia.
  - destruct (Nat.eqb_spec (changed cls (map (map Some) asgs)) 0) as [E|E].
    + exists cs, asgs. split; [reflexivity|]. split; [exact A2|]. split; [reflexivity|].
      apply run_stop; [exact A3|]. left. symmetry. now apply CH.
    + destruct (all_sums_ok (length cs) pss asgs A2 (Forall2_lt _ _ _ A3)) as [t [T1 [T2 T3]]].
      rewrite T1.
      pose proof (recentre_ok iter cs pss asgs t I1 A3 T2 T3) as R.
      destruct (IH (S iter) (recentre F iter cs t) pss (map (map Some) asgs)) as [cs' [asgs' [B1 [B2 [B3 B4]]]]].
      * lia.
      * exact (recentred_some _ _ _ _ _ R A3).
      * rewrite map_Some_length. exact A2.
      * exists cs', asgs'. split; [exact B1|]. split; [exact B2|]. split; [rewrite B3; apply R|].
        rewrite map_Some_concat in B4. replace (left + S iter) with (S left + iter) in B4 by lia.
        eapply run_round; try eassumption; [|lia]. intro X. apply E, CH. now symmetry.
Qed.

End Proofs.
