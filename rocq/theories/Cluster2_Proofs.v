(** Proofs about the k-means partitioners, continued: starting centres, cost of
    the runs, and the partitioner that refills empty clusters. *)
From Coq Require Import List Arith Lia Bool Field.
From Verif Require Import Util OField Cluster_Spec Cluster_Model Cluster_Proofs.
Import ListNotations.

Lemma f2_len : forall A B (R : A -> B -> Prop) l l', Forall2 R l l' -> length l = length l'.
Proof. intros A B R l l' H. induction H; cbn; congruence. Qed.

Section Proofs.
Variable F : ofield.
Add Field Fc2 : (fth F).
Notation pt := (pt F).
Notation center := (option pt).
Implicit Types (cs : list center) (ps : list pt) (pss : list (list pt)).

(* ----- order ----- *)

Lemma flt_shift : forall x y : F, (y <? x)%F = (y - x <? 0)%F.
Proof.
  intros x y. destruct (y <? x)%F eqn:A.
  - apply (flt_add F _ _ (- x)%F) in A. replace (x + - x)%F with (0 : F)%F in A by ring.
    now replace (y + - x)%F with (y - x)%F in A by ring.
  - destruct (y - x <? 0)%F eqn:B; [|reflexivity]. apply (flt_add F _ _ x) in B.
    replace (y - x + x)%F with y in B by ring. replace (0 + x)%F with x in B by ring. congruence.
Qed.

Lemma le_add : forall a b c d : F, (b <? a)%F = false -> (d <? c)%F = false -> (b + d <? a + c)%F = false.
Proof.
  intros a b c d A B. rewrite flt_shift in *. replace (b + d - (a + c))%F with ((b - a) + (d - c))%F by ring.
  now apply add_nneg.
Qed.

Lemma fsum_le : forall n (f g : nat -> F), (forall i, i < n -> (g i <? f i)%F = false) -> (fsum n g <? fsum n f)%F = false.
Proof.
  induction n; intros f g H; cbn; [apply flt_irr|]. apply le_add; [apply IHn; intros; apply H; lia|apply H; lia].
Qed.

Lemma fmax_l : forall a b : F, (fmax F a b <? a)%F = false.
Proof. intros. unfold fmax. destruct (a <? b)%F eqn:E; [now apply flt_asym|apply flt_irr]. Qed.
Lemma fmax_r : forall a b : F, (fmax F a b <? b)%F = false.
Proof. intros. unfold fmax. destruct (a <? b)%F eqn:E; [apply flt_irr|exact E]. Qed.

Lemma imb_fold_ge : forall a r x,
  (fold_left (fun x b => fmax F (fmax F x (ratio F a b)) (ratio F b a)) r x <? x)%F = false /\
  (forall b, In b r ->
    (fold_left (fun x b => fmax F (fmax F x (ratio F a b)) (ratio F b a)) r x <? ratio F a b)%F = false /\
    (fold_left (fun x b => fmax F (fmax F x (ratio F a b)) (ratio F b a)) r x <? ratio F b a)%F = false).
Proof.
  induction r as [|c r IH]; intro x; cbn [fold_left].
  - split; [apply flt_irr|]. intros b [].
  - destruct (IH (fmax F (fmax F x (ratio F a c)) (ratio F c a))) as [I1 I2]. split.
    + eapply flt_ge_trans; [exact I1|]. eapply flt_ge_trans; [apply fmax_l|apply fmax_l].
    + intros b [<-|B]; [|now apply I2]. split.
      * eapply flt_ge_trans; [exact I1|]. eapply flt_ge_trans; [apply fmax_l|apply fmax_r].
      * eapply flt_ge_trans; [exact I1|apply fmax_r].
Qed.

Lemma imb_ge : forall l x, (imbalance_from F l x <? x)%F = false.
Proof.
  induction l as [|a r IH]; intro x; cbn [imbalance_from]; [apply flt_irr|].
  eapply flt_ge_trans; [apply IH|]. apply imb_fold_ge.
Qed.

Lemma imb_pair : forall l x i j a b, i < j -> nth_error l i = Some a -> nth_error l j = Some b ->
  (imbalance_from F l x <? ratio F a b)%F = false /\ (imbalance_from F l x <? ratio F b a)%F = false.
Proof.
  induction l as [|c r IH]; intros x i j a b L A B; [destruct i; discriminate|].
  destruct j as [|j]; [lia|]. cbn in B. cbn [imbalance_from]. destruct i as [|i]; cbn in A.
  - injection A as ->. apply nth_error_In in B.
    destruct (imb_fold_ge a r x) as [_ G]. destruct (G b B) as [G1 G2].
    split; eapply flt_ge_trans; try (apply imb_ge); assumption.
  - apply (IH _ i j); [lia|assumption|assumption].
Qed.

Lemma e15_lt_1 : ((e_minus 15 : F) <? 1)%F = true.
Proof.
  assert (T : (1 <? (ften : F))%F = true).
  { apply flt_sub. unfold ften. cbv zeta. replace ((1 + 1) * (1 + 1) * (1 + 1) + (1 + 1) - 1)%F with (nat_f F 9) by (cbn; ring).
    apply nat_f_pos. lia. }
  assert (P : forall n, (1 <? fpow (ften : F) (S n))%F = true).
  { induction n.
    - cbn. replace (ften * 1)%F with (ften : F) by ring. exact T.
    - change (fpow ften (S (S n))) with ((ften : F) * fpow ften (S n))%F.
      apply flt_sub. apply flt_sub in T. apply flt_sub in IHn.
      set (t := (ften : F)) in *. set (u := fpow t (S n)) in *. clearbody u.
      replace (t * u - 1)%F with ((t - 1) * (u - 1) + ((t - 1) + (u - 1)))%F by ring.
      apply add_pos; [now apply flt_mul|]. apply add_nneg; now apply flt_asym. }
  specialize (P 14). unfold e_minus. set (q := fpow ften 15) in *.
  assert (Q0 : (0 <? q)%F = true) by (eapply flt_trans; [apply f1_pos|exact P]).
  apply flt_sub. apply flt_sub in P.
  replace (1 - 1 / q)%F with ((q - 1) * (1 / q))%F by (field; now apply pos_neq).
  apply flt_mul; [exact P|now apply inv_pos].
Qed.

Lemma ratio_big : forall n, (nat_f F 12 / nat_f F 10 <? ratio F (S n) 0)%F = true.
Proof.
  intro n. unfold ratio. pose proof (e_minus_pos F 15) as E0. pose proof e15_lt_1 as E1.
  set (e := e_minus 15) in *. change (nat_f F 0) with (0 : F)%F.
  assert (T : nat_f F 10 <> 0%F) by (apply nat_f_neq; lia).
  assert (EN : e <> 0%F) by (now apply pos_neq).
  apply flt_sub.
  replace ((nat_f F (S n) + e) / (0 + e) - nat_f F 12 / nat_f F 10)%F
    with (((nat_f F 10 * (1 - e) + (nat_f F 10 * nat_f F n + nat_f F 8 * e))) * ((1 / nat_f F 10) * (1 / e)))%F.
  - apply flt_mul.
    + apply add_pos; [apply flt_mul; [apply nat_f_pos; lia|exact (proj1 (flt_sub F _ _) E1)]|].
      apply add_nneg; apply mul_nneg; try apply nat_f_nneg. now apply flt_asym.
    + apply flt_mul; apply inv_pos; [apply nat_f_pos; lia|exact E0].
  - change (nat_f F (S n)) with (nat_f F n + 1)%F.
    assert (X : nat_f F 12 = (nat_f F 10 + (1 + 1))%F) by (change 12 with (10 + 2); rewrite nat_f_add; cbn [nat_f]; ring).
    assert (Y : nat_f F 10 = (nat_f F 8 + (1 + 1))%F) by (change 10 with (8 + 2); rewrite nat_f_add; cbn [nat_f]; ring).
    rewrite X. assert (Z : nat_f F 8 = (nat_f F 10 - (1 + 1))%F) by (rewrite Y; ring). rewrite Z.
    clear X Y Z. set (t := nat_f F 10) in *. clearbody t e. field. split; assumption.
Qed.

(** Unless all processes are without cells, one of them without cells makes the
    points be redistributed. *)
Lemma unbalanced_empty : forall npoints i, balance F npoints = false -> nth_error npoints i = Some 0 ->
  fold_right plus 0 npoints = 0.
Proof.
  intros npoints i B E.
  assert (Z : forall j b, nth_error npoints j = Some b -> b = 0).
  { intros j [|b] EB; [reflexivity|]. exfalso. unfold balance in B.
    assert (G : (imbalance_from F npoints 1 <? ratio F (S b) 0)%F = false).
    { destruct (lt_eq_lt_dec i j) as [[L| ->]|L].
      - apply (imb_pair npoints 1%F i j 0 (S b) L E EB).
      - congruence.
      - apply (imb_pair npoints 1%F j i (S b) 0 L EB E). }
    rewrite (flt_lt_le F _ _ _ (ratio_big b) G) in B. discriminate. }
  clear B E. induction npoints as [|a r IH]; cbn; [reflexivity|].
  rewrite (Z 0 a eq_refl), IH; [reflexivity|]. intros j b H. exact (Z (S j) b H).
Qed.

Lemma even_zero : forall tot P i, nth_error (even_counts tot P) i = Some 0 -> tot < P.
Proof.
  intros tot P i E.
  assert (I : i < P).
  { rewrite <- (even_length tot P). apply nth_error_Some. congruence. }
  destruct P as [|P]; [lia|]. unfold even_counts in E. rewrite displs_last in E.
  assert (L : S P * (tot / S P) <= tot) by (apply Nat.mul_div_le; lia).
  assert (Z : tot / S P = 0 -> tot < S P) by (intro Z; apply Nat.div_small_iff in Z; lia).
  apply Z. replace (S P - 1) with P in E by lia. rewrite nth_error_lset in E. rewrite repeat_length in E.
  destruct (Nat.eqb_spec P i) as [Q|N]; cbn [andb] in E.
  - subst i. destruct (Nat.ltb_spec P (S P)) as [_|H]; [|lia].
    assert (G : tot - (0 + P * (tot / S P)) = 0) by congruence. nia.
  - rewrite nth_error_repeat_eq in E by lia. congruence.
Qed.

(* ----- starting centres ----- *)

Lemma own_center_mean : forall ps, ps <> [] -> exists m, own_center F ps = Some m /\ mean F ps m.
Proof.
  intros ps H. unfold own_center. rewrite fold_left_total, padd_0_l. now apply divide_mean.
Qed.

Lemma seeds_nth : forall draw box pss locals i own local,
  nth_error pss i = Some own -> nth_error locals i = Some local ->
  nth_error (seeds F draw box pss locals) i = Some (seed F draw box i own local).
Proof.
  intros draw box pss locals i own local A B. unfold seeds.
  assert (I : i < length pss) by (apply nth_error_Some; congruence).
  assert (C : nth_error (combine pss locals) i = Some (own, local)).
  { clear I. revert locals i A B. induction pss as [|x pss IH]; intros [|y locals] [|i] A B; cbn in *; try discriminate.
    - congruence.
    - now apply IH. }
  assert (S0 : nth_error (seq 0 (length pss)) i = Some i).
  { rewrite (nth_error_nth' _ 0) by (now rewrite seq_length). now rewrite seq_nth. }
  exact (map2_nth _ _ _ (fun i ol => seed F draw box i (fst ol) (snd ol)) _ _ i _ _ S0 C).
Qed.

Lemma seeds_length : forall draw box pss locals, length locals = length pss -> length (seeds F draw box pss locals) = length pss.
Proof.
  intros. unfold seeds. rewrite map2_length; rewrite ?seq_length; [reflexivity|]. rewrite combine_length. lia.
Qed.

Definition locals_of pss : list (list pt) := if balance F (map (@length pt) pss) then spread F pss else pss.

Lemma locals_ok : forall pss, pss <> [] ->
  concat (locals_of pss) = concat pss /\ length (locals_of pss) = length pss /\
  (balance F (map (@length pt) pss) = true -> map (@length pt) (locals_of pss) = even_counts (fold_right plus 0 (map (@length pt) pss)) (length pss)) /\
  (balance F (map (@length pt) pss) = false -> locals_of pss = pss).
Proof.
  intros pss N. unfold locals_of. destruct (balance F (map (@length pt) pss)).
  - destruct (spread_ok F pss N) as [A B]. split; [exact A|]. split; [|split; [auto|discriminate]].
    rewrite <- (map_length (@length pt)). rewrite B. apply even_length.
  - repeat split; auto. discriminate.
Qed.

Lemma local_empty : forall pss i, pss <> [] -> nth_error pss i = Some [] -> nth_error (locals_of pss) i = Some [] ->
  length (concat pss) < length pss.
Proof.
  intros pss i N E L. destruct (locals_ok pss N) as [C [LL [B1 B2]]].
  rewrite concat_length.
  destruct (balance F (map (@length pt) pss)) eqn:B.
  - specialize (B1 eq_refl). apply (even_zero _ _ i). rewrite <- B1.
    rewrite nth_error_map, L. reflexivity.
  - rewrite (unbalanced_empty _ i B).
    + destruct pss; [contradiction|cbn; lia].
    + rewrite nth_error_map, E. reflexivity.
Qed.

Lemma seeds_start : forall draw box pss, pss <> [] ->
  starts F box pss (map fst (seeds F draw box pss (locals_of pss))) /\
  map (@length (option nat)) (map snd (seeds F draw box pss (locals_of pss))) = map (@length pt) (locals_of pss).
Proof.
  intros draw box pss N. destruct (locals_ok pss N) as [C [LL _]]. split.
  - split; [rewrite map_length; now apply seeds_length|].
    intros i own E.
    destruct (nth_error (locals_of pss) i) as [local|] eqn:EL.
    2:{ apply nth_error_None in EL. assert (i < length pss) by (apply nth_error_Some; congruence). lia. }
    rewrite nth_error_map, (seeds_nth draw box pss _ i own local E EL). cbn [option_map]. unfold seed. split.
    + intro H. destruct (own_center_mean own H) as [m [M1 M2]]. exists m. split; [exact M2|].
      destruct own; [contradiction|]. cbn [fst]. now rewrite M1.
    + intros ->. destruct local as [|p local].
      * exists (box i). split; [reflexivity|]. right. split; [|reflexivity]. eapply local_empty; eassumption.
      * set (k := draw i mod length (p :: local)).
        assert (K : k < length (p :: local)) by (apply Nat.mod_upper_bound; discriminate).
        destruct (nth_error (p :: local) k) as [c|] eqn:EK; [|apply nth_error_None in EK; lia].
        exists c. split; [reflexivity|]. left. rewrite <- C. apply in_concat.
        exists (p :: local). split; [eapply nth_error_In; eassumption|eapply nth_error_In; eassumption].
  - rewrite map_map. apply nth_error_ext. intro i. rewrite !nth_error_map.
    destruct (nth_error (locals_of pss) i) as [local|] eqn:EL.
    + destruct (nth_error pss i) as [own|] eqn:E.
      * rewrite (seeds_nth draw box pss _ i own local E EL). cbn [option_map]. f_equal. unfold seed.
        destruct own; [destruct local|]; cbn [snd]; rewrite ?lset_length, ?repeat_length; reflexivity.
      * apply nth_error_None in E. assert (i < length (locals_of pss)) by (apply nth_error_Some; congruence). lia.
    + assert (G : nth_error (seeds F draw box pss (locals_of pss)) i = None).
      { apply nth_error_None. apply nth_error_None in EL. rewrite seeds_length; lia. }
      now rewrite G.
Qed.

Lemma concat_marks : forall pss cls, length (concat cls) = length (concat pss) ->
  (forall r row k j, nth_error cls r = Some row -> nth_error row k = Some (Some j) -> nth_error pss j = Some []) ->
  marks_ok F pss (concat cls).
Proof.
  intros pss cls L H. split; [exact L|]. intros k j E. apply nth_error_In in E. apply in_concat in E as [row [A B]].
  apply In_nth_error in A as [r A]. apply In_nth_error in B as [i B]. eapply H; eassumption.
Qed.

Lemma seeds_marks : forall draw box pss, pss <> [] -> marks_ok F pss (concat (map snd (seeds F draw box pss (locals_of pss)))).
Proof.
  intros draw box pss N. destruct (seeds_start draw box pss N) as [_ S2]. destruct (locals_ok pss N) as [C [LL _]].
  apply concat_marks; [now rewrite concat_length, S2, <- concat_length, C|].
  intros r row k j E G. rewrite nth_error_map in E.
  assert (RL : r < length pss).
  { destruct (lt_dec r (length pss)); [assumption|]. rewrite (proj2 (nth_error_None _ _)) in E; [discriminate|].
    rewrite seeds_length; lia. }
  assert (E1 : nth_error pss r = Some (nth r pss [])) by (now apply nth_error_nth').
  assert (E2 : nth_error (locals_of pss) r = Some (nth r (locals_of pss) [])) by (apply nth_error_nth'; lia).
  rewrite (seeds_nth draw box pss _ r _ _ E1 E2) in E. cbn [option_map] in E. injection E as <-.
  assert (RP : forall n i x, nth_error (repeat (@None nat) n) i = Some x -> x = None).
  { intros n i x X. apply nth_error_In in X. now apply repeat_spec in X. }
  unfold seed in G. destruct (nth r pss []) as [|p own].
  - destruct (nth r (locals_of pss) []) as [|q loc]; cbn [snd] in G.
    + apply RP in G. discriminate.
    + cbv zeta in G. cbn [snd] in G. rewrite nth_error_lset in G. destruct (_ && _).
      * injection G as <-. exact E1.
      * apply RP in G. discriminate.
  - cbn [snd] in G. apply RP in G. discriminate.
Qed.

Lemma give_back_shape : forall pss asgs, pss <> [] ->
  balance F (map (@length pt) pss) = true ->
  map (@length nat) asgs = map (@length pt) (locals_of pss) ->
  exists b, give_back (map (@length pt) pss) (map (map Some) asgs) = map (map Some) b /\
    map (@length nat) b = map (@length pt) pss /\ concat b = concat asgs.
Proof.
  intros pss asgs N B L. destruct (locals_ok pss N) as [_ [_ [B1 _]]]. specialize (B1 B).
  assert (NN : map (@length pt) pss <> []) by (destruct pss; [contradiction|discriminate]).
  destruct (give_back_ok (map (@length pt) pss) (map (map Some) asgs) NN) as [G1 G2].
  { now rewrite map_Some_length, L, B1, map_length. }
  rewrite map_Some_concat in G1.
  assert (U : forall (l : list (list (option nat))) (r : list nat), concat l = map Some r ->
            exists b, l = map (map Some) b /\ concat b = r).
  { induction l as [|x l IH]; intros r H; cbn in H.
    - exists []. destruct r; [auto|discriminate].
    - symmetry in H. apply map_eq_app in H as [r1 [r2 [-> [H1 H2]]]].
      destruct (IH r2) as [b [-> H3]]; [now symmetry|]. exists (r1 :: b). cbn. rewrite H1, H3. auto. }
  destruct (U _ _ G1) as [b [E1 E2]]. exists b. split; [exact E1|]. split; [|exact E2].
  rewrite E1, map_Some_length in G2. exact G2.
Qed.

Theorem kmeans_ok : forall draw box pss, pss <> [] ->
  exists cs0 marks cs asgs, kmeans F draw box pss = Some (map (map Some) asgs) /\
    map (@length nat) asgs = map (@length pt) pss /\ starts F box pss cs0 /\ marks_ok F pss marks /\ length cs = length pss /\
    run F max_iterations (concat pss) 1 cs0 marks cs (concat asgs).
Proof.
  intros draw box pss N. destruct (seeds_start draw box pss N) as [S1 S2].
  pose proof (seeds_marks draw box pss N) as SM.
  destruct (locals_ok pss N) as [C [LL [B1 B2]]].
  set (st := seeds F draw box pss (locals_of pss)) in *.
  destruct (kloop_run F (max_iterations - 1) 1 (map fst st) (locals_of pss) (map snd st)) as [cs [asgs [K1 [K2 [K3 K4]]]]].
  - lia.
  - right. destruct S1 as [SL SS]. destruct pss as [|own pss]; [contradiction|]. exists 0.
    destruct (SS 0 own eq_refl) as [X Y]. destruct own as [|p own].
    + destruct (Y eq_refl) as [c [E _]]. now exists c.
    + destruct X as [m [_ E]]; [discriminate|]. now exists m.
  - exact S2.
  - unfold kmeans. cbv zeta. fold (locals_of pss). fold st. rewrite K1.
    assert (K3' : length cs = length pss) by (rewrite K3; apply S1).
    rewrite C in K4. change (max_iterations - 1 + 1) with max_iterations in K4.
    destruct (balance F (map (@length pt) pss)) eqn:B.
    + destruct (give_back_shape pss asgs N B K2) as [b [G1 [G2 G3]]].
      exists (map fst st), (concat (map snd st)), cs, b. rewrite G1, G3. auto 10.
    + exists (map fst st), (concat (map snd st)), cs, asgs. rewrite K2, (B2 eq_refl). auto 10.
Qed.

(* ----- runs ----- *)

Lemma run_final : forall limit ps k cs old cs' a, run F limit ps k cs old cs' a -> Forall2 (nearest F cs') ps a.
Proof. intros limit ps k cs old cs' a H. induction H; assumption. Qed.

Lemma mean_unique : forall l m m', mean F l m -> mean F l m' -> m = m'.
Proof.
  intros l m m' [N E] [_ E']. rewrite <- E' in E.
  assert (P : nat_f F (length l) <> 0%F) by (apply nat_f_neq; destruct l; [contradiction|cbn; lia]).
  set (n := nat_f F (length l)) in *. clearbody n.
  assert (C : forall x y : F, (n * x = n * y)%F -> x = y).
  { intros x y H. replace x with ((n * x) / n)%F by (field; exact P). rewrite H. field. exact P. }
  apply pt_eq; apply C; [exact (f_equal (px F) E)|exact (f_equal (py F) E)|exact (f_equal (pz F) E)].
Qed.

Lemma recentred_unique : forall k cs ps a c1 c2, 1 <= k -> recentred F k cs ps a c1 -> recentred F k cs ps a c2 -> c1 = c2.
Proof.
  intros k cs ps a c1 c2 K [L1 H1] [L2 H2]. apply nth_error_ext. intro j.
  destruct (lt_dec j (length cs)) as [J|J].
  - destruct (H1 j J) as [A1 B1]. destruct (H2 j J) as [A2 B2].
    assert (D : members F j ps a = [] \/ members F j ps a <> []) by (destruct (members F j ps a); [now left|right; discriminate]).
    destruct D as [D|D].
    + now rewrite (A1 D), (A2 D).
    + destruct (B1 D) as [m [c [M [E [X Y]]]]]. destruct (B2 D) as [m' [c' [M' [E' [X' Y']]]]].
      rewrite (mean_unique _ _ _ M' M) in *. rewrite E, E'. do 2 f_equal.
      destruct (Nat.eq_dec k 1) as [K1|K1].
      * now rewrite (X K1), (X' K1).
      * destruct Y as [o [O ->]]; [lia|]. destruct Y' as [o' [O' ->]]; [lia|]. congruence.
  - rewrite (proj2 (nth_error_None c1 j)), (proj2 (nth_error_None c2 j)); [reflexivity|lia|lia].
Qed.

Lemma map_Some_inj : forall (a b : list nat), map Some a = map Some b -> a = b.
Proof. induction a; intros [|y b] H; cbn in H; try discriminate; [reflexivity|]. injection H as -> H. f_equal. auto. Qed.

Lemma run_unique : forall limit ps k cs old c1 a1, 1 <= k -> run F limit ps k cs old c1 a1 ->
  forall c2 a2, run F limit ps k cs old c2 a2 -> c1 = c2 /\ a1 = a2.
Proof.
  intros limit ps k cs old c1 a1 K H. induction H as [k cs old a N D|k cs old a cs' cs'' a'' N NE LT R RR IH]; intros c2 a2 G.
  - inversion G as [? ? ? ? N' D'|? ? ? b ? ? ? N' NE' LT' R' RR']; subst.
    + split; [reflexivity|]. eapply assignment_unique; eassumption.
    + exfalso. destruct D as [D|D]; [|lia]. apply NE'. rewrite <- D. f_equal. eapply assignment_unique; eassumption.
  - inversion G as [? ? ? ? N' D'|? ? ? b cb ? ? N' NE' LT' R' RR']; subst.
    + exfalso. destruct D' as [D|D]; [|lia]. apply NE. rewrite <- D. f_equal. eapply assignment_unique; eassumption.
    + pose proof (assignment_unique F _ _ _ _ N' N) as ->.
      pose proof (recentred_unique _ _ _ _ _ _ K R' R) as ->.
      apply IH; [lia|assumption].
Qed.

Lemma none_stays : forall limit ps k cs old cs' a' j, run F limit ps k cs old cs' a' ->
  nth_error cs j = Some None -> nth_error cs' j = Some None /\ ~ In j a'.
Proof.
  intros limit ps k cs old cs' a' j H.
  assert (NI : forall cs a, Forall2 (nearest F cs) ps a -> nth_error cs j = Some None -> ~ In j a).
  { intros c a N E I. destruct (nearest_member_center F _ _ _ _ N I) as [x X]. congruence. }
  induction H; intro E; [split; [exact E|now apply (NI cs)]|].
  apply IHrun. destruct H2 as [L G].
  assert (J : j < length cs) by (apply nth_error_Some; congruence).
  apply (G j J). destruct (members F j ps a) eqn:M; [reflexivity|].
  exfalso. apply (NI cs a H E). eapply (members_in F j ps). rewrite M. discriminate.
Qed.

Lemma empty_stays : forall limit ps k cs old cs' a a' j, run F limit ps k cs old cs' a' ->
  Forall2 (nearest F cs) ps a -> j < length cs -> ~ In j a -> ~ In j a'.
Proof.
  intros limit ps k cs old cs' a a' j H N J I. inversion H as [? ? ? ? N' D'|? ? ? b cb ? ? N' NE' LT' R' RR']; subst.
  - now rewrite (assignment_unique F _ _ _ _ N' N).
  - pose proof (assignment_unique F _ _ _ _ N' N) as ->.
    apply (none_stays _ _ _ _ _ _ _ j RR'). destruct R' as [L G]. apply (G j J).
    destruct (members F j ps a) eqn:M; [reflexivity|].
    exfalso. apply I. eapply (members_in F j ps). rewrite M. discriminate.
Qed.

(* ----- cost ----- *)

Definition gcost (o : option center) (l : list pt) : F :=
  fold_right (fun p s => ((match o with Some (Some c) => dist2 F p c | _ => 0 end) + s)%F) 0%F l.

Lemma cost_groups : forall K cs ps a, length ps = length a -> Forall (fun j => j < K) a ->
  cost F cs ps a = fsum K (fun j => gcost (nth_error cs j) (members F j ps a)).
Proof.
  intros K cs. induction ps as [|p ps IH]; intros [|i a] L B; cbn in L; try discriminate.
  - cbn [cost members gcost fold_right]. symmetry. apply fsum_0. reflexivity.
  - injection L as L. inversion B as [|? ? B1 B2]; subst. cbn [cost]. rewrite (IH a L B2).
    set (t := match nth_error cs i with Some (Some c) => dist2 F p c | _ => 0%F end).
    rewrite (fsum_ext F K (fun j => gcost (nth_error cs j) (members F j (p :: ps) (i :: a)))
              (fun j => ((if j =? i then t else 0) + gcost (nth_error cs j) (members F j ps a))%F)).
    + rewrite fsum_add. f_equal. rewrite (fsum_one F K i).
      * now rewrite Nat.eqb_refl.
      * exact B1.
      * intros j J N. destruct (Nat.eqb_spec j i); [congruence|reflexivity].
    + intros j J. cbn [members]. rewrite (Nat.eqb_sym j i). destruct (Nat.eqb_spec i j) as [->|N].
      * unfold gcost at 1. cbn [fold_right]. reflexivity.
      * ring.
Qed.

Lemma gcost_shift : forall l c m, (gcost (Some (Some c)) l =
  gcost (Some (Some m)) l + nat_f F (length l) * dist2 F m c +
  (1 + 1) * ((px F (total F l) - nat_f F (length l) * px F m) * (px F m - px F c)
   + (py F (total F l) - nat_f F (length l) * py F m) * (py F m - py F c)
   + (pz F (total F l) - nat_f F (length l) * pz F m) * (pz F m - pz F c)))%F.
Proof.
  intros l c m. unfold gcost, total. induction l as [|p l IH]; cbn [fold_right length nat_f].
  - cbn [px py pz origin]. ring.
  - rewrite IH. cbn [px py pz padd]. unfold dist2. ring.
Qed.

Lemma gcost_mean : forall l c m, mean F l m ->
  gcost (Some (Some c)) l = (gcost (Some (Some m)) l + nat_f F (length l) * dist2 F m c)%F.
Proof.
  intros l c m [_ E]. rewrite (gcost_shift l c m), <- E. cbn [px py pz pscale]. ring.
Qed.

Lemma dist2_nneg : forall a b, (dist2 F a b <? 0)%F = false.
Proof. intros. unfold dist2. repeat apply add_nneg; apply sq_nneg. Qed.

Lemma dist2_damp : forall m c, (dist2 F m c <? dist2 F m (padd F (pscale F (old_part F) c) (pscale F (new_part F) m)))%F = false.
Proof.
  intros m c. set (o := old_part F). set (n := new_part F).
  assert (H : nat_f F 100 <> 0%F) by (apply nat_f_neq; lia).
  assert (S1 : n = (1 - o)%F).
  { unfold n, o, old_part, new_part. change 100 with (15 + 85) in *. rewrite nat_f_add in *. field. exact H. }
  assert (O0 : (o <? 0)%F = false).
  { unfold o, old_part. replace (nat_f F 15 / nat_f F 100)%F with (nat_f F 15 * (1 / nat_f F 100))%F by (field; exact H).
    apply mul_nneg; [apply nat_f_nneg|]. apply flt_asym, inv_pos, nat_f_pos. lia. }
  assert (O1 : (n <? 0)%F = false).
  { unfold n, new_part. replace (nat_f F 85 / nat_f F 100)%F with (nat_f F 85 * (1 / nat_f F 100))%F by (field; exact H).
    apply mul_nneg; [apply nat_f_nneg|]. apply flt_asym, inv_pos, nat_f_pos. lia. }
  rewrite flt_shift.
  replace (dist2 F m c - dist2 F m (padd F (pscale F o c) (pscale F n m)))%F with ((n * (1 + o)) * dist2 F m c)%F.
  - apply mul_nneg; [|apply dist2_nneg]. apply mul_nneg; [exact O1|]. apply add_nneg; [|exact O0]. apply flt_asym, f1_pos.
  - rewrite S1. unfold dist2. cbn [px py pz padd pscale]. ring.
Qed.

Lemma recentre_cost : forall k cs ps a cs', 1 <= k -> Forall2 (nearest F cs) ps a -> recentred F k cs ps a cs' ->
  (cost F cs ps a <? cost F cs' ps a)%F = false.
Proof.
  intros k cs ps a cs' K N [L R].
  assert (LL : length ps = length a) by (now apply f2_len in N).
  pose proof (Forall2_lt F _ _ _ N) as B.
  rewrite (cost_groups (length cs) cs ps a LL B), (cost_groups (length cs) cs' ps a LL B).
  apply fsum_le. intros j J. destruct (R j J) as [R1 R2].
  destruct (members F j ps a) as [|p l] eqn:M; [apply flt_irr|]. rewrite <- M in *.
  destruct R2 as [m [c' [MM [E [X Y]]]]]; [rewrite M; discriminate|].
  destruct (nearest_member_center F _ _ _ j N) as [c C].
  { eapply (members_in F j ps). rewrite M. discriminate. }
  rewrite E, C, (gcost_mean _ c m MM), (gcost_mean _ c' m MM).
  apply le_add; [apply flt_irr|].
  set (n := nat_f F (length (members F j ps a))).
  assert (D : (dist2 F m c <? dist2 F m c')%F = false).
  { destruct (Nat.eq_dec k 1) as [K1|K1].
    - rewrite (X K1). replace (dist2 F m m) with (0 : F)%F by (unfold dist2; ring). apply dist2_nneg.
    - destruct Y as [o [O ->]]; [lia|]. rewrite C in O. injection O as <-. apply dist2_damp. }
  rewrite flt_shift. replace (n * dist2 F m c - n * dist2 F m c')%F with (n * (dist2 F m c - dist2 F m c'))%F by ring.
  apply mul_nneg; [apply nat_f_nneg|]. now rewrite <- flt_shift.
Qed.

Lemma nearest_cost : forall cs ps a b, Forall2 (nearest F cs) ps a -> length ps = length b ->
  Forall (fun j => exists c, nth_error cs j = Some (Some c)) b ->
  (cost F cs ps b <? cost F cs ps a)%F = false.
Proof.
  intros cs ps a b N. revert b. induction N as [|p j ps a N1 N2 IH]; intros [|i b] L B; cbn in L; try discriminate.
  - apply flt_irr.
  - inversion B as [|? ? [c E] B2]; subst. cbn [cost]. apply le_add; [|apply IH; [congruence|assumption]].
    destruct N1 as [c' [E' G]]. rewrite E, E'. now apply (G i c).
Qed.

Lemma run_cost : forall limit ps k cs old cs' a', 1 <= k -> run F limit ps k cs old cs' a' ->
  forall a, Forall2 (nearest F cs) ps a -> (cost F cs ps a <? cost F cs' ps a')%F = false.
Proof.
  intros limit ps k cs old cs' a' K H. induction H as [k cs old b N D|k cs old b c1 c2 a2 N NE LT R RR IH]; intros a A.
  - rewrite (assignment_unique F _ _ _ _ A N). apply flt_irr.
  - pose proof (assignment_unique F _ _ _ _ A N) as ->.
    assert (X : exists a1, Forall2 (nearest F c1) ps a1).
    { inversion RR; subst; eauto. }
    destruct X as [a1 X].
    eapply flt_ge_trans; [apply (recentre_cost k cs ps b c1 K N R)|].
    eapply flt_ge_trans; [|apply (IH ltac:(lia) a1 X)].
    apply nearest_cost; [exact X|now apply f2_len in N|].
    apply Forall_forall. intros j I. destruct R as [L R]. destruct (R j) as [_ R2].
    + exact (proj1 (Forall_forall _ b) (Forall2_lt F _ _ _ N) j I).
    + destruct R2 as [m [c' [_ [E _]]]]; [|now exists c'].
      apply in_members; [now apply f2_len in N|exact I].
Qed.

End Proofs.
