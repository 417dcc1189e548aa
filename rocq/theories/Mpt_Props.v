(** Properties of the maximum product transversal. *)
From Coq Require Import List Bool Arith Lia Reals Lra.
From Verif Require Import Util Heap_Model Mpt_Model Mpt_Spec Mpt_Proofs Mpt2_Proofs Mpt3_Proofs.
Import ListNotations.
Local Open Scope R_scope.

(** [r] chooses the columns [f] *)
Definition chooses (A : matrix) (r : result) (f : nat -> nat) : Prop :=
  forall i k, q r i = Some k <-> (k < rows A)%nat /\ i = f k.

(** * C112 *)
(** If some choice of one nonzero element per row with different columns exists, the function neither
    fails an assertion nor uses an undefined index, and it finds such a choice. *)
Theorem C112_transversal_found : forall A m g, well_formed A m -> no_zero_column A -> transversal_of A m g ->
  exists r f, transversal A m = Some r /\ chooses A r f /\ transversal_of A m f.
Proof.
  intros A m g W Z T. destruct (run_ok A m W Z g T) as (s & E1 & G & Full). exists (scalings A s), (fcol s). split; [exact E1|]. split; [|apply (fcol_trans A m W Z s G Full)].
  intros i k. cbn [scalings q]. split; [apply (perm_fcol A m s G)|]. intros (L & ->). apply (fcol_perm A m s G Full k L).
Qed.

(** The returned scaling makes every element at most one and the chosen elements exactly one. *)
Theorem C112_scaling : forall A m g r f, well_formed A m -> no_zero_column A -> transversal_of A m g ->
  transversal A m = Some r -> chooses A r f ->
  (forall k i, (k < rows A)%nat -> Rabs (left_ r k * el A k i * right_ r i) <= 1) /\
  (forall k, (k < rows A)%nat -> left_ r k * el A k (f k) * right_ r (f k) = 1) /\
  (forall i, 0 < right_ r i).
Proof.
  intros A m g r f W Z T E1 Cf. destruct (run_ok A m W Z g T) as (s & E2 & G & Full). rewrite E1 in E2. injection E2 as ->.
  split; [|split].
  - intros k i L. exact (scaled_le A m Z s G k i L).
  - intros k L. assert (X : f k = fcol s k).
    { pose proof (proj2 (Cf (f k) k) (conj L eq_refl)) as X. cbn [scalings q] in X. apply (perm_fcol A m s G _ _ X). }
    rewrite X. exact (scaled_one A m W Z s G Full k L).
  - intros i. apply right_pos.
Qed.

(** For a square matrix no choice of columns has a larger product. *)
Theorem C112_maximum_product : forall A g r f, well_formed A (rows A) -> transversal_of A (rows A) g ->
  transversal A (rows A) = Some r -> chooses A r f ->
  forall h, assignment (rows A) (rows A) h -> product A h <= product A f.
Proof.
  intros A g r f W T E1 Cf h Hh.
  assert (Z : no_zero_column A).
  { intros row e Hr He. destruct (W row Hr) as (_ & L). specialize (L e He). destruct T as (Ga & N). destruct (assign_nodup _ _ _ Ga) as (G1 & G2).
    assert (I : incl (seq 0 (rows A)) (map g (seq 0 (rows A)))) by (apply NoDup_length_incl; [exact G1|rewrite map_length, seq_length; lia|exact G2]).
    specialize (I (fst e) ltac:(apply in_seq; lia)). apply in_map_iff in I. destruct I as (k & <- & Hk). apply in_seq in Hk. exists k. apply N. lia. }
  destruct (run_ok A _ W Z g T) as (s & E2 & G & Full). rewrite E1 in E2. injection E2 as ->.
  replace (product A f) with (product A (fcol s)); [exact (product_square A _ W Z s G Full h eq_refl Hh)|].
  unfold product. apply prod_ext. intros k L. pose proof (proj2 (Cf (f k) k) (conj L eq_refl)) as X. cbn [scalings q] in X. destruct (perm_fcol A _ s G _ _ X) as (_ & <-). reflexivity.
Qed.

(** With more columns than rows the product of the elements relative to the largest ones of their columns is maximal. *)
Theorem C112_maximum_relative_product : forall A m g r f M, well_formed A m -> no_zero_column A -> transversal_of A m g ->
  transversal A m = Some r -> chooses A r f -> (forall i, (i < m)%nat -> column_max A i (M i)) ->
  forall h, assignment (rows A) m h ->
    prod (rows A) (fun k => Rabs (el A k (h k)) / M (h k)) <= prod (rows A) (fun k => Rabs (el A k (f k)) / M (f k)).
Proof.
  intros A m g r f M W Z T E1 Cf HM h Hh. destruct (run_ok A m W Z g T) as (s & E2 & G & Full). rewrite E1 in E2. injection E2 as ->.
  eapply Rle_trans; [exact (product_ratio A m W Z s G Full h M Hh HM)|]. right. apply prod_ext. intros k L.
  pose proof (proj2 (Cf (f k) k) (conj L eq_refl)) as X. cbn [scalings q] in X. destruct (perm_fcol A _ s G _ _ X) as (_ & <-). reflexivity.
Qed.

(** * Examples *)
Definition two : matrix := [[(0%nat, 1); (1%nat, 2)]; [(0%nat, 3); (1%nat, -4)]].
Definition swap (k : nat) : nat := match k with O => 1%nat | _ => O end.
Lemma two_wf : well_formed two 2.
Proof. intros row [<-|[<-|[]]]; (split; [repeat constructor; cbn; intuition discriminate|]; intros e [<-|[<-|[]]]; cbn; lia). Qed.
Lemma two_swap : transversal_of two 2 swap.
Proof.
  split; [split|].
  - intros [|[|k]] L; cbn in *; lia.
  - intros [|[|k]] [|[|l]] L1 L2 X; cbn in *; lia.
  - intros [|[|k]] L; cbn in *; try lra; lia.
Qed.
(** the elements 2 and 3 are chosen, not 1 and -4 *)
Example C112_nonvacuous : exists r f, transversal two 2 = Some r /\ chooses two r f /\ f 0%nat = 1%nat /\ f 1%nat = 0%nat /\ product two f = 6.
Proof.
  assert (Z : no_zero_column two).
  { intros row e [<-|[<-|[]]] [<-|[<-|[]]]; cbn [fst]; exists 1%nat; cbn; lra. }
  destruct (C112_transversal_found two 2 swap two_wf Z two_swap) as (r & f & E1 & Cf & (Fa & Fb) & Fn). exists r, f. split; [exact E1|]. split; [exact Cf|].
  pose proof (C112_maximum_product two swap r f two_wf two_swap E1 Cf swap (proj1 two_swap)) as H.
  assert (P6 : product two swap = 6) by (unfold product; cbn; rewrite !Rabs_pos_eq by lra; lra).
  assert (F0 : (f 0 < 2)%nat) by (apply Fa; cbn; lia). assert (F1 : (f 1 < 2)%nat) by (apply Fa; cbn; lia).
  assert (Nf : f 0%nat <> f 1%nat) by (intros X; apply Fb in X; cbn; lia).
  destruct (f 0%nat) as [|[|?]] eqn:X0, (f 1%nat) as [|[|?]] eqn:X1; try lia.
  - exfalso. rewrite P6 in H. unfold product in H. cbn in H. rewrite X0, X1 in H. cbn in H. rewrite Rabs_R1, (Rabs_left (-4)) in H by lra. lra.
  - split; [reflexivity|]. split; [reflexivity|]. unfold product. cbn. rewrite X0, X1. cbn. rewrite !Rabs_pos_eq by lra. lra.
Qed.

(** * C113: what the function does not guarantee *)
Ltac decide_reals := repeat match goal with
  | |- context [Req_EM_T ?a ?b] => destruct (Req_EM_T a b); [try (exfalso; lra)|try (exfalso; lra)]
  | |- context [Rlt_dec ?a ?b] => destruct (Rlt_dec a b); [try (exfalso; lra)|try (exfalso; lra)]
  end.
(** With more columns than rows the product itself need not be maximal: of 1 and 2 in one row the 1 is chosen. *)
Definition wide : matrix := [[(0%nat, 1); (1%nat, 2)]].
Theorem C113_plain_product_refuted : well_formed wide 2 /\ no_zero_column wide /\ transversal_of wide 2 swap /\
  exists r f, transversal wide 2 = Some r /\ chooses wide r f /\ product wide f < product wide swap.
Proof.
  assert (W : well_formed wide 2) by (intros row [<-|[]]; (split; [repeat constructor; cbn; intuition discriminate|]; intros e [<-|[<-|[]]]; cbn; lia)).
  assert (Z : no_zero_column wide) by (intros row e [<-|[]] [<-|[<-|[]]]; cbn [fst]; exists 0%nat; cbn; lra).
  split; [exact W|]. split; [exact Z|]. split.
  { split; [split|].
    - intros [|k] L; cbn in *; lia.
    - intros [|k] [|l] L1 L2 X; cbn in *; lia.
    - intros [|k] L; cbn in *; try lra; lia. }
  assert (C0 : cmax wide 0 = 1) by (cbn; rewrite Rabs_R1; apply Rmax_right; lra).
  assert (C1 : cmax wide 1 = 2) by (cbn; rewrite (Rabs_pos_eq 2) by lra; apply Rmax_right; lra).
  assert (K : costs wide = [[(0%nat, Some 0); (1%nat, Some 0)]]).
  { unfold costs. cbn [map wide fst]. unfold cost. cbn [fst snd]. rewrite C0, C1, Rabs_R1, (Rabs_pos_eq 2) by lra. unfold is_zero. decide_reals. cbn. rewrite !Rminus_diag_eq by reflexivity. reflexivity. }
  assert (U : forall i, (i < 2)%nat -> u0 wide i = Some 0).
  { intros i L. apply (u0_some wide Z 0 i (INR (S i))). destruct i as [|[|i]]; [|cbn|lia]; cbn; auto. }
  assert (V : v0 wide 0 = Some 0).
  { unfold v0. rewrite K. cbn [nth fold_left fst snd]. rewrite !U by lia. cbn [sub_ext]. rewrite Rminus_0_r. unfold min_ext. cbn [lt_ext]. destruct (Rlt_dec 0 0); reflexivity. }
  set (s1 := set_match (start wide 2) 0 0 (Some 0)).
  assert (T0 : tight (start wide 2) 0 (0%nat, Some 0) = true).
  { unfold tight. cbn [start dv du fst snd]. rewrite V, U by lia. cbn [absred is_zero_ext]. replace (0 + 0 - 0 - 0) with 0 by lra. rewrite Rabs_R0. apply is_zero_t. reflexivity. }
  assert (T1 : match_all (costs wide) (start wide 2) = s1).
  { unfold match_all. rewrite K. cbn [length seq fold_left]. unfold match_row. cbn [nth fold_left]. unfold match_entry at 2. rewrite T0. cbn [fst snd start perm iperm is_none andb].
    change (set_match _ 0 0 (Some 0)) with s1. unfold match_entry. cbn [s1 set_match iperm fst]. rewrite upd_eq. cbn [is_none]. rewrite andb_false_r. reflexivity. }
  assert (E1 : transversal wide 2 = Some (scalings wide s1)).
  { unfold transversal. replace (existsb _ wide) with false by reflexivity. cbv zeta. rewrite T1. change (length wide) with 1%nat. rewrite K. cbn [seq one_all nth one_row].
    assert (I : iperm s1 0%nat = Some 0%nat) by reflexivity. rewrite I. cbn [is_none negb augment_all]. unfold augment. rewrite I. reflexivity. }
  exists (scalings wide s1), (fun _ => 0%nat). split; [exact E1|].
  assert (Q : q (scalings wide s1) = upd (fun _ => None) 0%nat (Some 0%nat)) by reflexivity.
  split.
  - intros i k. rewrite Q. unfold upd. destruct (Nat.eqb_spec i 0) as [->|N].
    + split; [intros X; injection X as <-; cbn; lia|]. intros (L & _). cbn in L. f_equal. lia.
    + split; [discriminate|]. intros (_ & X). contradiction.
  - unfold product. cbn. rewrite Rabs_R1, (Rabs_pos_eq 2) by lra. lra.
Qed.

(** A column in which only zeros are stored may be chosen, although a choice of nonzero elements exists. *)
Definition zeros : matrix := [[(0%nat, 0); (1%nat, 1)]; [(1%nat, 1); (2%nat, 1)]].
Definition next (k : nat) : nat := S k.
Theorem C113_stored_zeros_refuted : well_formed zeros 3 /\ transversal_of zeros 3 next /\
  exists r, transversal zeros 3 = Some r /\ q r 0%nat = Some 0%nat /\ el zeros 0 0 = 0.
Proof.
  assert (W : well_formed zeros 3) by (intros row [<-|[<-|[]]]; (split; [repeat constructor; cbn; intuition discriminate|]; intros e [<-|[<-|[]]]; cbn; lia)).
  split; [exact W|]. split.
  { split; [split|].
    - intros [|[|k]] L; unfold next; cbn in *; lia.
    - unfold next. intros k l _ _ X. injection X as ->. reflexivity.
    - intros [|[|k]] L; cbn in *; try lra; lia. }
  assert (C0 : cmax zeros 0 = 0) by (cbn; rewrite Rabs_R0; apply Rmax_right; lra).
  assert (C1 : cmax zeros 1 = 1) by (cbn; rewrite Rabs_R1, (Rmax_right 0 1) by lra; apply Rmax_right; lra).
  assert (C2 : cmax zeros 2 = 1) by (cbn; rewrite Rabs_R1; apply Rmax_right; lra).
  assert (Z0 : is_zero 0 = true) by (apply is_zero_t; reflexivity). assert (Z1 : is_zero 1 = false) by (apply is_zero_f; lra).
  assert (K : costs zeros = [[(0%nat, None); (1%nat, Some 0)]; [(1%nat, Some 0); (2%nat, Some 0)]]).
  { unfold costs. cbn [map zeros fst]. unfold cost. cbn [fst snd]. rewrite C0, C1, C2, Rabs_R1, Z0, Z1. cbn [orb]. rewrite !Rminus_diag_eq by reflexivity. reflexivity. }
  assert (N0 : lt_ext (Some 0) (Some 0) = false) by (apply lt_some_false; lra).
  assert (U0 : u0 zeros 0 = None) by (unfold u0; rewrite K; reflexivity).
  assert (U1 : u0 zeros 1 = Some 0) by (unfold u0; rewrite K; cbn [concat app fold_left fst snd Nat.eqb]; unfold min_ext; cbn [lt_ext]; destruct (Rlt_dec 0 0); reflexivity).
  assert (U2 : u0 zeros 2 = Some 0) by (unfold u0; rewrite K; reflexivity).
  assert (V0 : v0 zeros 0 = Some 0).
  { unfold v0. rewrite K. cbn [nth fold_left fst snd]. rewrite U0, U1. cbn [sub_ext]. rewrite Rminus_0_r. unfold min_ext. cbn [lt_ext]. destruct (Rlt_dec 0 0); reflexivity. }
  assert (V1 : v0 zeros 1 = Some 0).
  { unfold v0. rewrite K. cbn [nth fold_left fst snd]. rewrite U2, U1. cbn [sub_ext]. rewrite Rminus_0_r. unfold min_ext. cbn [lt_ext]. destruct (Rlt_dec 0 0); reflexivity. }
  set (s1 := set_match (start zeros 3) 0 0 None). set (s2 := set_match s1 1 1 (Some 0)).
  assert (T0 : tight (start zeros 3) 0 (0%nat, None) = true).
  { unfold tight. cbn [start dv du fst snd]. rewrite V0, U0. cbn [absred is_zero_ext]. rewrite Rabs_R0. exact Z0. }
  assert (T1 : tight s1 1 (1%nat, Some 0) = true).
  { unfold tight. cbn [s1 set_match start dv du fst snd]. rewrite V1, U1. cbn [absred is_zero_ext]. replace (0 + 0 - 0 - 0) with 0 by lra. rewrite Rabs_R0. exact Z0. }
  assert (M : match_all (costs zeros) (start zeros 3) = s2).
  { unfold match_all. rewrite K. cbn [length seq fold_left]. unfold match_row. cbn [nth fold_left]. unfold match_entry at 4. rewrite T0. cbn [fst snd start perm iperm is_none andb].
    change (set_match _ 0 0 None) with s1. unfold match_entry at 3. cbn [s1 set_match iperm fst]. rewrite upd_eq. cbn [is_none]. rewrite andb_false_r. fold s1.
    unfold match_entry at 2. change (set_match (start zeros 3) 0 0 None) with s1. rewrite T1. cbn [fst snd]. change (perm s1 1%nat) with (@None nat). change (iperm s1 1%nat) with (@None nat). cbn [is_none andb]. fold s2.
    unfold match_entry. cbn [s2 set_match iperm fst]. rewrite upd_eq. cbn [is_none]. rewrite andb_false_r. reflexivity. }
  assert (I0 : iperm s2 0%nat = Some 0%nat) by reflexivity. assert (I1 : iperm s2 1%nat = Some 1%nat) by reflexivity.
  assert (E1 : transversal zeros 3 = Some (scalings zeros s2)).
  { unfold transversal. replace (existsb _ zeros) with false by reflexivity. cbv zeta. rewrite M. change (length zeros) with 2%nat. rewrite K. cbn [seq one_all nth one_row].
    rewrite I0. cbn [is_none negb]. rewrite I1. cbn [is_none negb augment_all]. unfold augment at 1. rewrite I0. cbn [is_none negb]. unfold augment. rewrite I1. reflexivity. }
  exists (scalings zeros s2). split; [exact E1|]. split; reflexivity.
Qed.

(** Without a choice of nonzero elements in all rows the scaled matrix may have elements larger than one:
    the columns reached by a search that fails stay marked, later changes of the scaling ignore them. *)
Definition singular : matrix := [[(0%nat, 1)]; [(0%nat, 1)]; [(0%nat, 1); (1%nat, /2)]; [(1%nat, 1); (2%nat, 1)]].
Lemma scan_marked li sp x i c : marked (sst x) i = true -> scan_entry li sp x (i, c) = Some x.
Proof. intros H. unfold scan_entry. cbn [fst]. rewrite H. reflexivity. Qed.
Lemma scan_push li sp x i c l r d h : marked (sst x) i = false -> absred sp c (dv (sst x) li) (du (sst x) i) = Some l -> lt_ext (Some l) (aug x) = true ->
  perm (sst x) i = Some r -> nth_error (keys (hp (sst x))) i = Some d -> lt_ext (Some l) d = true -> contains (hp (sst x)) i = Some false -> push le_ext (hp (sst x)) i (Some l) = Some h ->
  scan_entry li sp x (i, c) = Some (SR (MS (perm (sst x)) (iperm (sst x)) (cpos (sst x)) (upd (apos (sst x)) i c) (upd (parent (sst x)) r (Some li)) (du (sst x)) (dv (sst x)) (marked (sst x)) h) (pend x) (trace x) (aug x)).
Proof. intros H1 H2 H3 H4 H5 H6 H7 H8. unfold scan_entry. cbn [fst snd]. rewrite H1, H2, H3, H4, H5, H6, H7, H8. reflexivity. Qed.
Lemma scan_free li sp x i c l : marked (sst x) i = false -> absred sp c (dv (sst x) li) (du (sst x) i) = Some l -> lt_ext (Some l) (aug x) = true -> perm (sst x) i = None ->
  scan_entry li sp x (i, c) = Some (SR (MS (perm (sst x)) (iperm (sst x)) (cpos (sst x)) (upd (apos (sst x)) i c) (parent (sst x)) (du (sst x)) (dv (sst x)) (marked (sst x)) (hp (sst x))) (Some i) li (Some l)).
Proof. intros H1 H2 H3 H4. unfold scan_entry. cbn [fst snd]. rewrite H1, H2, H3, H4. reflexivity. Qed.

Lemma singular_run L U V : 0 < L -> U 0%nat = Some 0 -> U 1%nat = Some 0 -> U 2%nat = Some 0 -> (forall k, (k < 4)%nat -> V k = Some 0) ->
  let C : list crow := [[(0%nat, Some 0)]; [(0%nat, Some 0)]; [(0%nat, Some 0); (1%nat, Some L)]; [(1%nat, Some 0); (2%nat, Some 0)]] in
  let s0 := MS (fun _ => None) (fun _ => None) (fun _ => None) (fun _ => None) (fun _ => None) U V (fun _ => false) (make (repeat None 5) 4) in
  exists s s', one_all C [0; 1; 2; 3]%nat (match_all C s0) = Some s /\ augment_all C 4 [0; 1; 2; 3]%nat s = Some s' /\ dv s' 2%nat = Some L /\ du s' 0%nat = Some 0 /\ perm s' 0%nat = Some 0%nat.
Proof.
  intros PL U0 U1 U2 HV C s0.
  assert (V0 := HV 0%nat ltac:(lia)). assert (V1 := HV 1%nat ltac:(lia)). assert (V2 := HV 2%nat ltac:(lia)). assert (V3 := HV 3%nat ltac:(lia)). clear HV.
  assert (A0 : absred 0 (Some 0) (Some 0) (Some 0) = Some 0) by (cbn [absred]; replace (0 + 0 - 0 - 0) with 0 by lra; rewrite Rabs_R0; reflexivity).
  assert (AL : absred 0 (Some L) (Some 0) (Some 0) = Some L) by (cbn [absred]; replace (0 + L - 0 - 0) with L by lra; rewrite Rabs_pos_eq by lra; reflexivity).
  assert (AM : absred L (Some 0) (Some 0) (Some 0) = Some L) by (cbn [absred]; replace (L + 0 - 0 - 0) with L by lra; rewrite Rabs_pos_eq by lra; reflexivity).
  assert (Z0 : is_zero 0 = true) by (apply is_zero_t; reflexivity). assert (ZL : is_zero L = false) by (apply is_zero_f; lra).
  assert (T0 : forall s k i, dv s k = Some 0 -> du s i = Some 0 -> tight s k (i, Some 0) = true) by (intros s k i H1 H2; unfold tight; cbn [fst snd]; rewrite H1, H2, A0; exact Z0).
  assert (TL : forall s k i, dv s k = Some 0 -> du s i = Some 0 -> tight s k (i, Some L) = false) by (intros s k i H1 H2; unfold tight; cbn [fst snd]; rewrite H1, H2, AL; exact ZL).
  set (s1 := set_match s0 0 0 (Some 0)). set (s2 := set_match s1 3 1 (Some 0)).
  assert (M0 : match_row C s0 0 = s1) by (unfold match_row; cbn [nth C fold_left]; unfold match_entry; rewrite T0 by assumption; reflexivity).
  assert (M1 : match_row C s1 1 = s1) by (unfold match_row; cbn [nth C fold_left]; unfold match_entry; rewrite T0 by assumption; reflexivity).
  assert (M2 : match_row C s1 2 = s1).
  { unfold match_row; cbn [nth C fold_left]. assert (X : match_entry 2 s1 (0%nat, Some 0) = s1) by (unfold match_entry; rewrite T0 by assumption; reflexivity). rewrite X. unfold match_entry; rewrite TL by assumption; reflexivity. }
  assert (M3 : match_row C s1 3 = s2).
  { unfold match_row; cbn [nth C fold_left]. assert (X : match_entry 3 s1 (1%nat, Some 0) = s2) by (unfold match_entry; rewrite T0 by assumption; reflexivity). rewrite X. unfold match_entry; rewrite T0 by assumption; reflexivity. }
  assert (M : match_all C s0 = s2) by (unfold match_all; cbn [length C seq fold_left]; fold C; rewrite M0, M1, M2, M3; reflexivity).
  rewrite M.
  assert (F0 : find (fun e' => tight s2 0 e' && is_none (perm s2 (fst e'))) (nth 0 C []) = None) by (cbn [nth C find fst]; change (perm s2 0%nat) with (Some 0%nat); cbn [is_none]; rewrite andb_false_r; reflexivity).
  assert (R1 : one_row C 1 (nth 1 C []) s2 = Some s2).
  { change (nth 1 C []) with [(0%nat, Some 0)]. cbn [one_row fst]. change (iperm s2 1%nat) with (@None nat). cbn [is_none negb]. rewrite T0 by assumption. change (perm s2 0%nat) with (Some 0%nat). cbv match beta. rewrite F0. reflexivity. }
  assert (R2 : one_row C 2 (nth 2 C []) s2 = Some s2).
  { change (nth 2 C []) with [(0%nat, Some 0); (1%nat, Some L)]. cbn [one_row fst]. change (iperm s2 2%nat) with (@None nat). cbn [is_none negb]. rewrite T0 by assumption. change (perm s2 0%nat) with (Some 0%nat). cbv match beta. rewrite F0. rewrite TL by assumption. reflexivity. }
  assert (O1 : one_all C [0; 1; 2; 3]%nat s2 = Some s2).
  { cbn [one_all]. change (one_row C 0 (nth 0 C []) s2) with (Some s2). cbv match beta. rewrite R1, R2. reflexivity. }
  exists s2. rewrite O1. clear M0 M1 M2 M3 M O1 R1 R2 F0 T0 TL.
  (* row 1: the search fails *)
  set (h0 := make (repeat (None : ext) 5) 4).
  eassert (P1 : push le_ext h0 0 (Some 0) = Some _) by (cbv -[IZR lt_ext]; reflexivity).
  match type of P1 with _ = Some ?h => set (h1 := h) in P1 end.
  eassert (Q1 : pop le_ext h1 = Some (_, Some 0%nat)) by (cbv -[IZR lt_ext]; reflexivity).
  match type of Q1 with _ = Some (?h, _) => set (h2 := h) in Q1 end.
  assert (N2 : pop le_ext h2 = Some (h2, None)) by (cbv -[IZR lt_ext]; reflexivity).
  eassert (P2 : push le_ext h2 1 (Some L) = Some _) by (cbv -[IZR lt_ext]; reflexivity).
  match type of P2 with _ = Some ?h => set (h3 := h) in P2 end.
  eassert (Q3 : pop le_ext h3 = Some (_, Some 1%nat)) by (cbv -[IZR lt_ext]; reflexivity).
  match type of Q3 with _ = Some (?h, _) => set (h4 := h) in Q3 end.
  assert (N4 : pop le_ext h4 = Some (h4, None)) by (cbv -[IZR lt_ext]; reflexivity).
  set (p1 := MS (perm s2) (iperm s2) (cpos s2) (apos s2) (upd (parent s2) 1%nat None) U V (marked s2) h0).
  eassert (S1 : scan 1 0 (SR p1 None 1%nat None) (nth 1 C []) = Some _).
  { change (nth 1 C []) with [(0%nat, Some 0)]. cbn [scan]. erewrite scan_push; [reflexivity|reflexivity|cbn [sst p1 dv du]; rewrite V1, U0; exact A0|reflexivity|reflexivity|reflexivity|reflexivity|reflexivity|exact P1]. }
  match type of S1 with _ = Some ?y => set (y1 := y) in S1 end.
  set (m1 := SR (mark (sst (with_heap y1 h2)) 0) None 1%nat None).
  assert (S1b : scan 0 0 m1 (nth 0 C []) = Some m1) by (change (nth 0 C []) with [(0%nat, Some 0)]; cbn [scan]; rewrite scan_marked by reflexivity; reflexivity).
  assert (G1 : grow C 6 1 0 [] (SR p1 None 1%nat None) = Some (m1, [0%nat])).
  { cbn [grow]. rewrite S1. change (hp (sst y1)) with h1. rewrite Q1. change (nth_error (keys h2) 0) with (Some (Some 0)). change (le_ext (aug y1) (Some 0)) with false. cbv match beta. change (perm (sst y1) 0%nat) with (Some 0%nat). cbv match beta zeta.
    change (SR (mark (sst (with_heap y1 h2)) 0) (pend (with_heap y1 h2)) (trace (with_heap y1 h2)) (aug (with_heap y1 h2))) with m1. rewrite S1b. change (hp (sst m1)) with h2. rewrite N2. reflexivity. }
  set (s3 := sst m1).
  assert (B1 : augment C 4 s2 1 = Some s3) by (unfold augment; change (iperm s2 1%nat) with (@None nat); cbn [is_none negb]; change (MS _ _ _ _ _ _ _ _ _) with p1; change (4 + 2)%nat with 6%nat; rewrite G1; reflexivity).
  (* row 2: the path 2 - 1 - 3 - 2 is found, column 0 is skipped *)
  set (p2 := MS (perm s3) (iperm s3) (cpos s3) (apos s3) (upd (parent s3) 2%nat None) U V (marked s3) h2).
  eassert (S2 : scan 2 0 (SR p2 None 2%nat None) (nth 2 C []) = Some _).
  { change (nth 2 C []) with [(0%nat, Some 0); (1%nat, Some L)]. cbn [scan]. rewrite scan_marked by reflexivity. erewrite scan_push; [reflexivity|reflexivity|cbn [sst p2 dv du]; rewrite V2, U1; exact AL|reflexivity|reflexivity|reflexivity|reflexivity|reflexivity|exact P2]. }
  match type of S2 with _ = Some ?y => set (y2 := y) in S2 end.
  set (m2 := SR (mark (sst (with_heap y2 h4)) 1) None 2%nat None).
  eassert (S3 : scan 3 L m2 (nth 3 C []) = Some _).
  { change (nth 3 C []) with [(1%nat, Some 0); (2%nat, Some 0)]. cbn [scan]. rewrite scan_marked by reflexivity. erewrite scan_free; [reflexivity|reflexivity|change (dv (sst m2)) with V; change (du (sst m2)) with U; rewrite V3, U2; exact AM|reflexivity|reflexivity]. }
  match type of S3 with _ = Some ?y => set (y3 := y) in S3 end.
  assert (G2 : grow C 6 2 0 [] (SR p2 None 2%nat None) = Some (with_heap y3 h4, [1%nat])).
  { cbn [grow]. rewrite S2. change (hp (sst y2)) with h3. rewrite Q3. change (nth_error (keys h4) 1) with (Some (Some L)). change (le_ext (aug y2) (Some L)) with false. cbv match beta. change (perm (sst y2) 1%nat) with (Some 3%nat). cbv match beta zeta.
    change (SR (mark (sst (with_heap y2 h4)) 1) (pend (with_heap y2 h4)) (trace (with_heap y2 h4)) (aug (with_heap y2 h4))) with m2. rewrite S3. change (hp (sst y3)) with h4. rewrite N4. reflexivity. }
  eassert (B2 : augment C 4 s3 2 = Some _).
  { unfold augment; change (iperm s3 2%nat) with (@None nat); cbn [is_none negb]; change (MS _ _ _ _ _ _ _ _ _) with p2; change (4 + 2)%nat with 6%nat; rewrite G2. change (pend (with_heap y3 h4)) with (Some 2%nat). change (aug (with_heap y3 h4)) with (Some L). cbv match beta.
    cbn [update path]. reflexivity. }
  match type of B2 with _ = Some ?y => set (s4 := y) in B2 end.
  exists s4. split; [reflexivity|]. split.
  - cbn [augment_all]. assert (B0 : augment C 4 s2 0 = Some s2) by reflexivity. rewrite B0, B1, B2.
    assert (B3 : augment C 4 s4 3 = Some s4) by reflexivity. rewrite B3. reflexivity.
  - split; [|split; [exact U0|reflexivity]]. cbn [s4 set_heap dv]. unfold upd. cbn [Nat.eqb]. cbn. rewrite U1. cbn [sub_ext]. f_equal. lra.
Qed.

Theorem C113_singular_scaling_refuted : well_formed singular 4 /\ no_zero_column singular /\
  exists r, transversal singular 4 = Some r /\ Rabs (left_ r 2%nat * el singular 2 0 * right_ r 0%nat) = 2.
Proof.
  assert (W : well_formed singular 4) by (intros row [<-|[<-|[<-|[<-|[]]]]]; (split; [repeat constructor; cbn; intuition discriminate|]; intros e He; cbn in He; intuition subst; cbn; lia)).
  assert (Z : no_zero_column singular).
  { intros row e Hr He. assert (X : fst e = 0%nat \/ fst e = 1%nat \/ fst e = 2%nat) by (destruct Hr as [<-|[<-|[<-|[<-|[]]]]]; cbn in He; intuition subst; cbn; auto).
    destruct X as [-> | [-> | ->]]; [exists 0%nat|exists 3%nat|exists 3%nat]; cbn; lra. }
  split; [exact W|]. split; [exact Z|].
  assert (C0 : cmax singular 0 = 1) by (cbn; rewrite Rabs_R1, (Rmax_right 0 1), !(Rmax_right 1 1) by lra; reflexivity).
  assert (C1 : cmax singular 1 = 1) by (cbn; rewrite Rabs_R1, (Rabs_pos_eq (/2)), (Rmax_right 0), Rmax_right by lra; reflexivity).
  assert (C2 : cmax singular 2 = 1) by (cbn; rewrite Rabs_R1; apply Rmax_right; lra).
  assert (Z1 : is_zero 1 = false) by (apply is_zero_f; lra). assert (Z2 : is_zero (/2) = false) by (apply is_zero_f; lra).
  assert (L2 : 0 < ln 2) by (rewrite <- ln_1; apply ln_increasing; lra).
  assert (K : costs singular = [[(0%nat, Some 0)]; [(0%nat, Some 0)]; [(0%nat, Some 0); (1%nat, Some (ln 2))]; [(1%nat, Some 0); (2%nat, Some 0)]]).
  { unfold costs. cbn [map singular fst]. unfold cost. cbn [fst snd]. fold singular. rewrite C0, C1, C2, Rabs_R1, (Rabs_pos_eq (/2)), Z1, Z2 by lra. cbn [orb]. rewrite ln_Rinv, ln_1 by lra.
    replace (0 - 0) with 0 by lra. replace (0 - - ln 2) with (ln 2) by lra. reflexivity. }
  assert (U0 : u0 singular 0 = Some 0) by (apply (u0_some singular Z 0 0 1); cbn; auto).
  assert (U1 : u0 singular 1 = Some 0) by (apply (u0_some singular Z 3 1 1); cbn; auto).
  assert (U2 : u0 singular 2 = Some 0) by (apply (u0_some singular Z 3 2 1); cbn; auto).
  assert (V : forall k, (k < 4)%nat -> v0 singular k = Some 0).
  { assert (N : lt_ext (Some 0) (Some 0) = false) by (apply lt_some_false; lra). assert (N2 : lt_ext (Some (ln 2)) (Some 0) = false) by (apply lt_some_false; lra).
    intros [|[|[|[|k]]]] Lk; [| | | |lia]; unfold v0; rewrite K; cbn [nth fold_left fst snd]; rewrite ?U0, ?U1, ?U2; cbn [sub_ext]; rewrite ?Rminus_0_r; unfold min_ext; change (lt_ext (Some 0) None) with true; cbv match; rewrite ?N, ?N2; reflexivity. }
  destruct (singular_run (ln 2) (u0 singular) (v0 singular) L2 U0 U1 U2 V) as (s & s' & E1 & E2 & D2 & D0 & P0).
  exists (scalings singular s'). split.
  - unfold transversal. replace (existsb _ singular) with false by reflexivity. cbv zeta. change (length singular) with 4%nat. cbn [seq]. rewrite K. unfold start. cbn [repeat] in *. rewrite E1, E2. reflexivity.
  - cbn [scalings left_ right_]. rewrite D2, D0. assert (El : el singular 2 0 = 1) by reflexivity.
    rewrite El, C0, Z1, exp_ln, exp_0 by lra. destruct (existsb _ _); [rewrite Rabs_left by lra|rewrite Rabs_pos_eq by lra]; lra.
Qed.

Print Assumptions C112_transversal_found.
Print Assumptions C112_scaling.
Print Assumptions C112_maximum_product.
Print Assumptions C112_maximum_relative_product.
Print Assumptions C113_plain_product_refuted.
Print Assumptions C113_stored_zeros_refuted.
Print Assumptions C113_singular_scaling_refuted.
