From Coq Require Import List Bool Arith ZArith Lia Sorted Permutation Ring.
From Verif Require Import Util Algo Merger_Model Order_Model Order_Proofs.
Import ListNotations.

(** Intervals are described by their boundaries: processor p owns the indices
    from boundary p up to boundary p+1. *)
Definition owns (gtp : list nat) (p g : nat) : Prop :=
  S p < length gtp /\ nth p gtp 0 <= g < nth (S p) gtp 0.
Definition boundaries (gtp : list nat) : Prop :=
  2 <= length gtp /\ nth 0 gtp 0 = 0 /\
  forall i j, i <= j -> j < length gtp -> nth i gtp 0 <= nth j gtp 0.
(** no processor with an empty interval sits at index g *)
Definition no_empty_at (gtp : list nat) (g : nat) : Prop :=
  forall i, S i < length gtp -> nth i gtp 0 = g -> nth (S i) gtp 0 <> g.

(** * C31 *)
Theorem C31_criterion : forall gtp g, boundaries gtp -> g < last gtp 0 ->
  exists p, get_processor gtp g = Some p /\ (owns gtp p g <-> no_empty_at gtp g).
Proof.
  intros gtp g [Hl [H0 Hm]] Hg.
  assert (El : last gtp 0 = nth (length gtp - 1) gtp 0).
  { destruct (exists_last (l := gtp)) as [l [x ->]]; [intros ->; cbn in Hl; lia|].
    rewrite last_last, app_length, app_nth2; cbn; [|lia]. now replace (length l + 1 - 1 - length l) with 0 by lia. }
  rewrite El in Hg.
  destruct (get_processor_spec gtp g Hm H0 Hl Hg) as [p [E [P1 [P2 [P3 P4]]]]]. exists p. split; [exact E|].
  unfold bound in *. split.
  - intros [_ O] i Hi E1 E2. destruct (Nat.lt_trichotomy i p) as [L|[->|L]].
    + pose proof (P4 i L). lia.
    + lia.
    + pose proof (Hm (S p) i L ltac:(lia)). lia.
  - intros N. split; [exact P1|]. split; [lia|].
    destruct (Nat.eq_dec (nth (S p) gtp 0) g) as [E1|E1]; [|lia]. exfalso. exact (N p P1 (P3 E1) E1).
Qed.
Print Assumptions C31_criterion.

Theorem C31_owner : forall gtp g, boundaries gtp -> g < last gtp 0 ->
  (forall i, S i < length gtp -> nth i gtp 0 < nth (S i) gtp 0) ->
  exists p, get_processor gtp g = Some p /\ owns gtp p g /\ forall q, owns gtp q g -> q = p.
Proof.
  intros gtp g B Hg Hs. destruct (C31_criterion gtp g B Hg) as [p [E [_ O]]]. exists p. split; [exact E|].
  assert (Op : owns gtp p g) by (apply O; intros i Hi E1 E2; pose proof (Hs i Hi); lia).
  split; [exact Op|]. intros q [Q1 Q2]. destruct Op as [O1 O2]. destruct B as [_ [_ Hm]].
  exact (owner_unique gtp q p g Hm Q1 O1 Q2 O2).
Qed.
Print Assumptions C31_owner.
Example C31_nonvacuous : get_processor [0; 3; 4; 9] 4 = Some 2 /\ owns [0; 3; 4; 9] 2 4 /\
  get_processor [0; 3; 4; 9] 8 = Some 2 /\ get_processor [0; 3; 4; 9] 0 = Some 0.
Proof. unfold owns. cbn. repeat split; lia. Qed.

(** With an empty interval the reported processor need not own the index. *)
Theorem C31_empty_refuted :
  ~ (forall gtp g, boundaries gtp -> g < last gtp 0 ->
     exists p, get_processor gtp g = Some p /\ owns gtp p g).
Proof.
  intros H. destruct (H [0; 5; 5; 10] 5) as [p [E [_ O]]].
  - split; [cbn; lia|]. split; [reflexivity|]. intros i j Hij Hj. cbn in Hj.
    do 4 (destruct i as [|i]; [do 4 (destruct j as [|j]; [cbn; lia|]); lia|]). lia.
  - cbn. lia.
  - vm_compute in E. injection E as <-. cbn in O. lia.
Qed.
Print Assumptions C31_empty_refuted.
(** The first index after the last row is attributed to the last processor
    although nobody owns it (no assert fires). *)
Theorem C31_past_end_refuted :
  ~ (forall gtp g p, boundaries gtp -> get_processor gtp g = Some p -> exists q, owns gtp q g).
Proof.
  intros H. destruct (H [0; 5; 10] 10 1) as [q [Q1 Q2]].
  - split; [cbn; lia|]. split; [reflexivity|]. intros i j Hij Hj. cbn in Hj.
    do 3 (destruct i as [|i]; [do 3 (destruct j as [|j]; [cbn; lia|]); lia|]). lia.
  - vm_compute. reflexivity.
  - cbn in Q1. do 2 (destruct q as [|q]; [cbn in Q2; lia|]). lia.
Qed.
Print Assumptions C31_past_end_refuted.

(** * C32 *)
Theorem C32_round_trip : forall V mb me (rows : list (list (nat * V))),
  mb <= me -> length rows = me - mb ->
  exists rows' m ei ve, prepare mb mb me rows = Some (rows', m, ei, ve) /\
    restore me ei rows' = rows /\
    me <= ve /\
    exists ren : nat -> nat,
      rows' = map (map (fun e => (ren (fst e), snd e))) rows /\
      (forall c, mb <= c < me -> ren c = c) /\
      (forall c, In c (map fst (concat rows)) -> ~ mb <= c < me -> me <= ren c < ve) /\
      (forall c c', In c (map fst (concat rows)) -> In c' (map fst (concat rows)) -> ren c = ren c' -> c = c') /\
      (forall p, me <= p < ve -> exists c, In c (map fst (concat rows)) /\ ~ mb <= c < me /\ ren c = p /\
         nth_error ei (p - me) = Some c).
Proof.
  intros V mb me rows Hm Hl. destruct (prepare_ok mb me rows Hl Hm) as [m [ei [ext [I [-> E]]]]].
  eexists _, m, _, ext. split; [exact E|]. split; [eapply restore_ok; exact I|].
  split; [rewrite (n_ext _ _ _ _ _ I); lia|].
  exists (gname m). split; [reflexivity|].
  assert (Hloc : forall c, mb <= c < me -> gname m c = c).
  { intros c Hc. apply (gname_local _ _ _ _ _ _ I). unfold outside. apply orb_false_iff. split.
    - apply Nat.ltb_ge. lia. - apply Nat.leb_gt. lia. }
  assert (Hkey : forall c, In c (map fst (concat rows)) -> ~ mb <= c < me -> In c (map fst m)).
  { intros c Hc Ho. apply (n_keys _ _ _ _ _ I). split; auto. unfold outside. apply orb_true_iff.
    destruct (Nat.ltb_spec c mb); [now left|right]. apply Nat.leb_le. lia. }
  assert (Hext : forall c, In c (map fst (concat rows)) -> ~ mb <= c < me -> me <= gname m c < ext).
  { intros c Hc Ho. exact (num_val _ _ _ _ _ _ _ I (gname_key _ _ _ _ _ _ I (Hkey c Hc Ho))). }
  split; [exact Hloc|]. split; [exact Hext|]. split.
  - intros c c' Hc Hc' E1.
    assert (D : forall a, mb <= a < me \/ ~ mb <= a < me) by (intro; lia).
    destruct (D c) as [Dc|Dc], (D c') as [Dc'|Dc'].
    + now rewrite (Hloc c Dc), (Hloc c' Dc') in E1.
    + rewrite (Hloc c Dc) in E1. pose proof (Hext c' Hc' Dc'). lia.
    + rewrite (Hloc c' Dc') in E1. pose proof (Hext c Hc Dc). lia.
    + eapply gname_inj; eauto.
  - intros p Hp. assert (Hin : In p (map snd m)).
    { rewrite (n_vals _ _ _ _ _ I). apply in_seq. rewrite (n_ext _ _ _ _ _ I) in Hp. lia. }
    apply in_map_iff in Hin as [[c p'] [Ep Hin]]. cbn in Ep. subst p'. exists c.
    assert (Hk : In c (map fst m)) by (apply in_map_iff; exists (c, p); auto).
    apply (n_keys _ _ _ _ _ I) in Hk as [K1 K2]. split; [exact K1|]. split.
    + unfold outside in K2. apply orb_true_iff in K2 as [K2|K2]; [apply Nat.ltb_lt in K2; lia|apply Nat.leb_le in K2; lia].
    + split; [unfold gname; rewrite (proj2 (find_map_in m c p (ss_nodup _ (n_sorted _ _ _ _ _ I))) Hin); reflexivity|].
      now apply (extended_ok _ _ _ _ _ I).
Qed.
Print Assumptions C32_round_trip.
Example C32_nonvacuous :
  prepare 3 3 5 [[(9, true); (3, false); (0, true)]; [(0, false); (9, false); (7, true)]] =
  Some ([[(5, true); (3, false); (6, true)]; [(6, false); (5, false); (7, true)]],
        [(0, 6); (7, 7); (9, 5)], [9; 0; 7], 8).
Proof. reflexivity. Qed.

(** When the intervals of the input overlap, PrepareMatrix moves the local end
    but RestoreMatrix still uses the initial end: columns come back wrong. *)
Theorem C32_moved_interval_refuted :
  ~ (forall mb lb le me (rows : list (list (nat * bool))) rows' m ei ve,
       mb <= lb -> lb <= le -> le <= me -> length rows = me - mb ->
       prepare mb lb le rows = Some (rows', m, ei, ve) -> restore me ei rows' = rows).
Proof.
  intros H.
  specialize (H 0 0 2 3 [[(0, true)]; [(1, true); (5, true)]; [(2, true)]]
                [[(0, true)]; [(1, true); (2, true)]; [(2, true)]] [(5, 2)] [5] 3
                ltac:(lia) ltac:(lia) ltac:(lia) eq_refl eq_refl).
  vm_compute in H. discriminate.
Qed.
Print Assumptions C32_moved_interval_refuted.

(** * C33 *)
Open Scope Z_scope.
(** intervals sorted by both ends, without gaps, at most two over an index *)
Fixpoint sorted_cover (l : list (Z * Z)) : Prop :=
  match l with
  | [] => True
  | (b0, e0) :: l' =>
      b0 <= e0 /\
      match l' with
      | [] => True
      | (b1, e1) :: l'' =>
          b0 <= b1 /\ b1 <= e0 /\ e0 <= e1 /\ match l'' with [] => True | (b2, _) :: _ => e0 <= b2 end
      end /\ sorted_cover l'
  end.
Fixpoint is_partition (l : list (Z * Z)) : Prop :=
  match l with
  | [] => True
  | (b0, e0) :: l' => b0 <= e0 /\ match l' with [] => True | (b1, _) :: _ => b1 = e0 end /\ is_partition l'
  end.
Definition u32 (x : Z) : Prop := 0 <= x < 4294967296.

Lemma sorted_cover_chain : forall l b e, sorted_cover ((b, e) :: l) -> chain_cover b e l.
Proof.
  induction l as [|[b1 e1] l IH]; intros b e H.
  - cbn in *. tauto.
  - change (sorted_cover ((b, e) :: (b1, e1) :: l)) with
      (b <= e /\ (b <= b1 /\ b1 <= e /\ e <= e1 /\ match l with [] => True | (b2, _) :: _ => e <= b2 end) /\ sorted_cover ((b1, e1) :: l)) in H.
    destruct H as [H1 [[H2 [H3 [H4 H5]]] H6]].
    change (b <= e /\ (b <= b1 /\ b1 <= e /\ e <= e1 /\ match l with [] => True | (b2, _) :: _ => e <= b2 end /\ chain_cover b1 e1 l)).
    auto 10.
Qed.
Lemma consecutive_partition : forall l b e, consecutive b e l -> is_partition ((b, e) :: l).
Proof.
  induction l as [|[b1 e1] l IH]; intros b e H.
  - cbn in *. tauto.
  - change (b <= e /\ (b1 = e /\ consecutive b1 e1 l)) in H. destruct H as [H1 [H2 H3]].
    change (b <= e /\ b1 = e /\ is_partition ((b1, e1) :: l)). auto.
Qed.

Theorem C33_partition : forall l, sorted_cover l ->
  (forall b e, In (b, e) l -> u32 b /\ u32 e) ->
  exists fuel r, repair fuel l = Some r /\ is_partition r /\ length r = length l /\
    Forall2 (fun i j => fst i <= fst j /\ snd j <= snd i) l r /\
    map fst (firstn 1 r) = map fst (firstn 1 l) /\ last (map snd r) 0 = last (map snd l) 0.
Proof.
  intros [|[b e] l] C F.
  - exists O, []. cbn. repeat split; constructor.
  - exists (fold_right Nat.max O (map (fun i => Z.to_nat (snd i)) ((b, e) :: l))).
    set (fuel := fold_right Nat.max O (map (fun i => Z.to_nat (snd i)) ((b, e) :: l))).
    assert (Hf : forall i, In i ((b, e) :: l) -> (Z.to_nat (snd i) <= fuel)%nat).
    { unfold fuel. generalize ((b, e) :: l). induction l0 as [|a l0 IH]; intros i Hi; [destruct Hi|].
      cbn [map fold_right]. destruct Hi as [<-|Hi]; [lia|]. pose proof (IH i Hi). lia. }
    clearbody fuel.
    destruct (repair_from_ok l fuel b b e) as [e' [t [E [K1 [K2 [K3 K4]]]]]].
    + now apply sorted_cover_chain.
    + apply (F b e). now left.
    + intros [b' e''] Hi. apply (F b' e''). exact Hi.
    + exact Hf.
    + destruct l as [|[b1 e1] l]; cbn in C; lia.
    + destruct l as [|[b1 e1] l]; [auto|]. cbn in C. lia.
    + exists ((b, e') :: t). cbn [repair]. split; [exact E|]. split; [now apply consecutive_partition|].
      split; [cbn; now rewrite K2|]. split; [exact K3|]. split; [reflexivity|].
      assert (LC : forall (q : list Z) a d, last (a :: q) d = last q a).
      { induction q as [|c q IHq]; intros a d; [reflexivity|].
        change (last (a :: c :: q) d) with (last (c :: q) d). now rewrite !IHq. }
      cbn [map snd]. rewrite !LC. now symmetry.
Qed.
Print Assumptions C33_partition.
Example C33_nonvacuous : repair 100 [(0, 10); (7, 20); (18, 30)] = Some [(0, 7); (7, 20); (20, 30)] /\
  sorted_cover [(0, 10); (7, 20); (18, 30)].
Proof. split; [reflexivity|cbn; lia]. Qed.

(** Covering intervals that are merely sorted by their first index are not
    repaired: an interval inside another one ends up with its end before its
    beginning, and three intervals over one index give overlapping results. *)
Fixpoint begins_sorted (l : list (Z * Z)) : Prop :=
  match l with
  | [] => True
  | (b0, e0) :: l' => b0 <= e0 /\ match l' with [] => True | (b1, _) :: _ => b0 <= b1 <= e0 end /\ begins_sorted l'
  end.
Theorem C33_nested_refuted :
  begins_sorted [(0, 10); (2, 4)] /\ repair 100 [(0, 10); (2, 4)] = Some [(0, 5); (5, 4)] /\
  ~ is_partition [(0, 5); (5, 4)].
Proof. split; [cbn; lia|]. split; [vm_compute; reflexivity|]. cbn. lia. Qed.
Print Assumptions C33_nested_refuted.
Theorem C33_triple_refuted :
  begins_sorted [(0, 10); (1, 10); (2, 10)] /\
  repair 100 [(0, 10); (1, 10); (2, 10)] = Some [(0, 10); (10, 9); (9, 10)] /\
  ~ is_partition [(0, 10); (10, 9); (9, 10)].
Proof. split; [cbn; lia|]. split; [vm_compute; reflexivity|]. cbn. lia. Qed.
Print Assumptions C33_triple_refuted.
Close Scope Z_scope.

(** * Distributed matrices *)
Definition columns {V} (rows : list (list (nat * V))) : list nat := map fst (concat rows).
(** every processor holds the rows it owns; columns are rows of the matrix and
    do not point at a processor with an empty interval *)
Definition distributed {V} (gtp : list nat) (mats : list (list (list (nat * V)))) : Prop :=
  boundaries gtp /\ length gtp = S (length mats) /\
  forall p rows, nth_error mats p = Some rows ->
    length rows = nth (S p) gtp 0 - nth p gtp 0 /\
    forall c, In c (columns rows) -> c < last gtp 0 /\ no_empty_at gtp c.
(** the vectors of all processors restricted to owned indices form X *)
Definition represents {V} (gtp : list nat) (xs : list (list V)) (X : nat -> V) : Prop :=
  forall q x c, nth_error xs q = Some x -> owns gtp q c -> nth_error x (c - nth q gtp 0) = Some (X c).
(** extended vectors as made by PrepareVector *)
Definition extended_vectors {V} (gtp : list nat) (st : list pstate) (xs : list (list V)) : Prop :=
  length xs = length st /\
  forall p s x, nth_error st p = Some s -> nth_error xs p = Some x -> length x = p_ext s - nth p gtp 0.
(** requests are received in any order *)
Definition any_arrival (st : list pstate) (arr : nat -> list (nat * list nat)) : Prop :=
  forall p, p < length st -> Permutation (arr p) (requests_to p st).

Lemma last_bound : forall gtp, gtp <> [] -> last gtp 0 = nth (length gtp - 1) gtp 0.
Proof.
  intros gtp H. destruct (exists_last H) as [l [x ->]].
  rewrite last_last, app_length, app_nth2; cbn; [|lia]. now replace (length l + 1 - 1 - length l) with 0 by lia.
Qed.
Lemma distributed_good : forall V gtp (mats : list (list (list (nat * V)))), distributed gtp mats -> good_mats gtp mats.
Proof.
  intros V gtp mats [[B1 [B2 B3]] [L H]]. split; [exact B3|]. split; [exact B2|]. split; [exact L|].
  intros p rows Hp. destruct (H p rows Hp) as [H1 H2]. split; [exact H1|]. intros c Hc. destruct (H2 c Hc) as [C1 C2].
  rewrite last_bound in C1 by (intros ->; cbn in B1; lia). replace (length mats) with (length gtp - 1) by lia. auto.
Qed.
Lemma all_some_inv : forall A B (f : A -> option B) l r, all_some (map f l) = Some r -> Forall2 (fun x y => f x = Some y) l r.
Proof.
  induction l as [|a l IH]; intros r H; cbn in H; [injection H as <-; constructor|].
  destruct (f a) eqn:E; [|discriminate]. destruct (all_some (map f l)) eqn:E2; [|discriminate]. injection H as <-.
  constructor; auto.
Qed.
(** PrepareMatrix on one processor gives the same numbering *)
Lemma prepare_pstate : forall V gtp (mats : list (list (list (nat * V)))) st p s rows, distributed gtp mats ->
  prepare_all gtp mats = Some st -> nth_error st p = Some s -> nth_error mats p = Some rows ->
  prepare (nth p gtp 0) (nth p gtp 0) (nth (S p) gtp 0) rows =
  Some (map (map (fun e => (gname (p_map s) (fst e), snd e))) rows, p_map s,
        extended (nth (S p) gtp 0) (p_map s) (p_ext s), p_ext s).
Proof.
  intros V gtp mats st p s rows D E Hs Hr. pose proof (distributed_good _ _ _ D) as G.
  destruct D as [[_ [_ B]] [L H]]. destruct (H p rows Hr) as [Hl _].
  assert (Hp : p < length mats) by (apply nth_error_Some; congruence).
  unfold prepare_all in E. apply all_some_inv in E.
  destruct (F2_nth _ _ _ _ _ E p (p, rows) (nth_ix _ _ _ _ Hr)) as [s' [Es Ef]].
  rewrite Hs in Es. injection Es as <-. cbn [fst snd] in Ef. unfold make_pstate, bound in Ef.
  pose proof (B p (S p) ltac:(lia) ltac:(lia)) as Hle.
  destruct (prepare_ok _ _ rows Hl Hle) as [m [ei [ext [I [-> Ep]]]]].
  unfold prepare, local_rows in Ep |- *. rewrite Nat.sub_diag in *. cbn [skipn] in *. rewrite firstn_all2 in * by lia.
  destruct (number (nth p gtp 0) (nth (S p) gtp 0) rows) as [m0 ext0].
  destruct (renum_rows (nth p gtp 0) (nth (S p) gtp 0) m0 rows) as [loc|] eqn:Er; [|discriminate].
  injection Ep as E1 E2 E3 E4. subst m0 ext0.
  destruct (build_recv gtp (map fst m)) as [rq|]; [|discriminate].
  destruct (to_positions (nth (S p) gtp 0) m rq) as [rv|]; [|discriminate]. injection Ef as <-. cbn [p_map p_ext].
  rewrite <- E1. reflexivity.
Qed.

(** what the user sees after PrepareMatrix *)
Theorem C34_prepare_ok : forall V gtp (mats : list (list (list (nat * V)))), distributed gtp mats ->
  exists st, prepare_all gtp mats = Some st /\ length st = length mats.
Proof.
  intros V gtp mats D. destruct (prepare_all_good gtp mats (distributed_good _ _ _ D)) as [st [E [L _]]]. eauto.
Qed.
Print Assumptions C34_prepare_ok.

(** * C34 *)
Theorem C34_update : forall V gtp (mats : list (list (list (nat * V)))) st arr (xs : list (list V)) X,
  distributed gtp mats -> prepare_all gtp mats = Some st -> any_arrival st arr ->
  extended_vectors gtp st xs -> represents gtp xs X ->
  exists xs', update gtp arr st xs = Some xs' /\ length xs' = length xs /\
    forall p rows x x', nth_error mats p = Some rows -> nth_error xs p = Some x -> nth_error xs' p = Some x' ->
      length x' = length x /\
      (forall c, owns gtp p c -> nth_error x' (c - nth p gtp 0) = nth_error x (c - nth p gtp 0)) /\
      exists rows' m ei ve,
        prepare (nth p gtp 0) (nth p gtp 0) (nth (S p) gtp 0) rows = Some (rows', m, ei, ve) /\
        length x' = ve - nth p gtp 0 /\
        forall i g, nth_error ei i = Some g -> nth_error x' (nth (S p) gtp 0 + i - nth p gtp 0) = Some (X g).
Proof.
  intros V gtp mats st arr xs X D E Ha Hv Hx.
  pose proof (distributed_good _ _ _ D) as G.
  destruct (prepare_all_good gtp mats G) as [st' [E' AG]]. rewrite E in E'. injection E' as <-.
  destruct (list_eq_dec Nat.eq_dec (map (@length V) xs) (map (fun _ => O) xs)) as [Z|NZ].
  - (* all vectors are empty: no external columns *)
    assert (Hz : forall p x, nth_error xs p = Some x -> x = []).
    { intros p x Hp. assert (nth_error (map (@length V) xs) p = Some (length x)) by (now apply map_nth_error).
      rewrite Z in H. erewrite map_nth_error in H by exact Hp. injection H as H. now destruct x. }
    destruct Hv as [HvL Hv]. pose proof AG as [L A].
    assert (Hext : forall p s, nth_error st p = Some s -> p_map s = [] /\ p_recv s = pack [] /\ p_req s = pack [] /\
        p_ext s = nth (S p) gtp 0 /\ nth p gtp 0 = nth (S p) gtp 0).
    { intros p s Hs. destruct (A p s Hs) as [rows [bl [Er P]]].
      assert (Hxx : exists x, nth_error xs p = Some x).
      { destruct (nth_error xs p) eqn:Q; [eauto|]. apply nth_error_None in Q.
        assert (p < length st) by (apply nth_error_Some; congruence). lia. }
      destruct Hxx as [x Hxx]. pose proof (Hv p s x Hs Hxx) as Hlen. rewrite (Hz p x Hxx) in Hlen. cbn in Hlen.
      pose proof (ext_ge _ _ _ _ _ _ G Er P) as Hge. unfold bound in Hge.
      pose proof (n_ext _ _ _ _ _ (g_num _ _ _ _ _ P)) as Hn. unfold bound in Hn.
      assert (p_map s = []) by (destruct (p_map s); auto; cbn in Hn; lia).
      assert (bl = []).
      { destruct bl as [|[q l] bl]; auto. exfalso.
        destruct (G) as [_ [_ [_ GG]]]. destruct (GG p rows Er) as [GL _]. unfold bound in GL.
        assert (rows = []) by (destruct rows; auto; cbn in GL; lia). subst rows.
        (* requests of a processor without rows *)
        unfold prepare_all in E. apply all_some_inv in E.
        destruct (F2_nth _ _ _ _ _ E p (p, []) (nth_ix _ _ _ _ Er)) as [s' [Es Ef]].
        rewrite Hs in Es. injection Es as <-. cbn in Ef. injection Ef as Ef. subst s.
        pose proof (g_req _ _ _ _ _ P) as Q. cbn in Q. discriminate. }
      subst bl. split; auto. split; [rewrite (g_recv _ _ _ _ _ P); reflexivity|]. split; [apply P|]. lia. }
    assert (Hreq : forall q, requests_to q st = []).
    { intros q. destruct (requests_to q st) as [|[p idx] l] eqn:Er; auto. exfalso.
      assert (Hin : In (p, idx) (requests_to q st)) by (rewrite Er; now left).
      apply (in_requests _ _ _ _ _ _ AG) in Hin as [s [bl [H1 [H2 H3]]]].
      destruct (Hext p s H1) as [_ [_ [H4 _]]]. rewrite H4 in H2. apply (f_equal blocks_of) in H2.
      rewrite !read_pack in H2. injection H2 as <-. destruct H3. }
    assert (Harr : forall q, q < length st -> arr q = []).
    { intros q Hq. pose proof (Ha q Hq) as P. rewrite Hreq in P. now apply Permutation_nil, Permutation_sym. }
    exists xs. assert (Eu : update gtp arr st xs = Some xs).
    { unfold update, send_of.
      rewrite (all_some_map _ _ _ (fun _ => @nil (message V))).
      2:{ intros [q x] Hq. apply in_ix in Hq. cbn [fst snd].
          assert (q < length xs) by (apply nth_error_Some; congruence). rewrite Harr by lia. reflexivity. }
      rewrite (all_some_map _ _ _ (fun pxs => fst (snd pxs))).
      - f_equal. clear - HvL. revert st HvL. generalize 0. induction xs as [|x xs IH]; intros a [|s st] L; try discriminate; [reflexivity|].
        cbn [length seq combine map fst snd]. f_equal. apply IH. cbn in L. lia.
      - intros [p [x s]] Hp. cbn [fst snd]. apply In_nth_error in Hp as [i Hi]. rewrite !nth_combine in Hi.
        destruct (nth_error (seq 0 (length xs)) i) as [a|] eqn:Q1; [|discriminate].
        destruct (nth_error xs i) as [b|] eqn:Q2; [|discriminate]. destruct (nth_error st i) as [c|] eqn:Q3; [|discriminate].
        injection Hi as <- <- <-. rewrite nth_seq in Q1 by (apply nth_error_Some; congruence). injection Q1 as <-. cbn [Nat.add].
        destruct (Hext i c Q3) as [_ [R _]]. rewrite R. reflexivity. }
    split; [exact Eu|]. split; [reflexivity|]. intros p rows x x' Hr Hxx Hxx'. rewrite Hxx in Hxx'. injection Hxx' as <-.
    split; [reflexivity|]. split; [reflexivity|].
    assert (Hs : exists s, nth_error st p = Some s).
    { destruct (nth_error st p) eqn:Q; [eauto|]. apply nth_error_None in Q.
      assert (p < length xs) by (apply nth_error_Some; congruence). lia. }
    destruct Hs as [s Hs]. eexists _, _, _, _. split; [exact (prepare_pstate _ _ _ _ _ _ _ D E Hs Hr)|].
    split; [exact (Hv p s x Hs Hxx)|]. destruct (Hext p s Hs) as [M [_ [_ [R _]]]]. rewrite M, R. unfold extended.
    rewrite Nat.sub_diag. cbn. intros i g Hi. destruct i; discriminate.
  - assert (Hd : exists d : V, True).
    { destruct (concat xs) as [|d l] eqn:Ec; [|exists d; auto]. exfalso. apply NZ. apply map_ext_in. intros x Hin.
      destruct x as [|v x]; auto. exfalso.
      assert (In v (concat xs)) by (apply in_concat; exists (v :: x); split; auto; now left). rewrite Ec in H. destruct H. }
    destruct Hd as [d _].
    destruct (update_ok d gtp mats st arr xs G AG Ha Hv) as [xs' [Eu [Lu U]]].
    exists xs'. split; [exact Eu|]. split; [exact Lu|]. intros p rows x x' Hr Hxx Hxx'.
    destruct Hv as [HvL Hv].
    assert (Hs : exists s, nth_error st p = Some s).
    { destruct (nth_error st p) eqn:Q; [eauto|]. apply nth_error_None in Q.
      assert (p < length xs) by (apply nth_error_Some; congruence). lia. }
    destruct Hs as [s Hs]. destruct (U p s x Hs Hxx) as [y [Ey [Ly [U1 U2]]]]. rewrite Hxx' in Ey. injection Ey as <-.
    unfold bound in *. split; [exact Ly|]. split.
    { intros c [_ Hc]. apply U1. lia. }
    eexists _, _, _, _. split; [exact (prepare_pstate _ _ _ _ _ _ _ D E Hs Hr)|].
    split; [rewrite Ly; exact (Hv p s x Hs Hxx)|]. intros i g Hi.
    destruct AG as [L A]. destruct (A p s Hs) as [rows2 [bl [Er P]]]. rewrite Hr in Er. injection Er as <-.
    pose proof (g_num _ _ _ _ _ P) as I. unfold bound in I.
    destruct (extended_ok _ _ _ _ _ I) as [XL X1].
    assert (Hi' : i < p_ext s - nth (S p) gtp 0) by (rewrite <- XL; apply nth_error_Some; congruence).
    assert (Hin : In (nth (S p) gtp 0 + i) (map snd (p_map s))).
    { rewrite (n_vals _ _ _ _ _ I). apply in_seq. rewrite (n_ext _ _ _ _ _ I) in Hi'. lia. }
    apply in_map_iff in Hin as [[c v] [Ev Hin]]. cbn in Ev. subst v.
    pose proof (X1 _ _ Hin) as X2. replace (nth (S p) gtp 0 + i - nth (S p) gtp 0) with i in X2 by lia.
    rewrite Hi in X2. injection X2 as ->.
    assert (Hk : In c (map fst (p_map s))) by (apply in_map_iff; eexists; split; [|exact Hin]; reflexivity).
    destruct (U2 c Hk) as [q [Q1 [Q2 Q3]]].
    assert (Eg : gname (p_map s) c = nth (S p) gtp 0 + i).
    { unfold gname. now rewrite (proj2 (find_map_in _ _ _ (ss_nodup _ (n_sorted _ _ _ _ _ I))) Hin). }
    rewrite Eg in Q3. rewrite Q3. f_equal. unfold sval, bound.
    assert (Hq : exists y, nth_error xs q = Some y).
    { destruct (nth_error xs q) eqn:Q; [eauto|]. apply nth_error_None in Q. destruct D as [_ [DL _]]. lia. }
    destruct Hq as [y Hy]. rewrite (nth_error_nth xs q [] Hy). apply nth_error_nth. apply (Hx q y c Hy). split; auto.
Qed.
Print Assumptions C34_update.

(** two processors that need values from each other, and a third *)
Definition ex_gtp : list nat := [0; 2; 3; 5].
Definition ex_mats : list (list (list (nat * Z))) :=
  [[[(0, 1%Z); (4, 2%Z)]; [(1, 3%Z); (2, 4%Z)]];
   [[(2, 5%Z); (0, 6%Z); (4, 7%Z)]];
   [[(3, 1%Z); (1, 8%Z)]; [(4, 9%Z)]]].
Definition ex_xs : list (list Z) := [[10; 11; 0; 0]; [12; 0; 0]; [13; 14; 0]]%Z.
Definition ex_X (c : nat) : Z := (10 + Z.of_nat c)%Z.
Lemma ex_distributed : distributed ex_gtp ex_mats.
Proof.
  split; [|split; [reflexivity|]].
  - split; [cbn; lia|]. split; [reflexivity|]. intros i j Hij Hj. cbn in Hj.
    do 4 (destruct i as [|i]; [do 4 (destruct j as [|j]; [cbn; lia|]); lia|]). lia.
  - assert (N : forall c, no_empty_at ex_gtp c).
    { intros c i Hi E1 E2. cbn in Hi. do 3 (destruct i as [|i]; [cbn in *; lia|]). lia. }
    intros p rows Hp.
    do 3 (destruct p as [|p]; [injection Hp as <-; split; [reflexivity|]; intros c Hc; split; [cbn in *; lia|apply N]|]).
    destruct p; discriminate.
Qed.
Example C34_nonvacuous : exists st,
  prepare_all ex_gtp ex_mats = Some st /\ extended_vectors ex_gtp st ex_xs /\ represents ex_gtp ex_xs ex_X /\
  update ex_gtp (fun p => rev (requests_to p st)) st ex_xs = Some [[10; 11; 14; 12]; [12; 10; 14]; [13; 14; 11]]%Z.
Proof.
  eexists. split; [vm_compute; reflexivity|]. split; [|split].
  - split; [reflexivity|]. intros p s x Hs Hx.
    do 3 (destruct p as [|p]; [injection Hs as <-; injection Hx as <-; reflexivity|]). destruct p; discriminate.
  - intros q x c Hx [Hq Hc]. cbn in Hq.
    destruct q as [|[|[|q]]]; [| | |lia]; injection Hx as <-; cbn in Hc |- *; unfold ex_X.
    + assert (c = 0 \/ c = 1) as [->| ->] by lia; reflexivity.
    + assert (c = 2) as -> by lia; reflexivity.
    + assert (c = 3 \/ c = 4) as [->| ->] by lia; reflexivity.
  - vm_compute. reflexivity.
Qed.

(** With an empty interval in front of the owner the value is never requested:
    processor 0 uses column 2 owned by processor 2, processor 1 has no rows. *)
Definition bad_gtp : list nat := [0; 2; 2; 3].
Definition bad_mats : list (list (list (nat * Z))) := [[[(0, 1%Z)]; [(2, 1%Z)]]; []; [[(2, 1%Z)]]].
Theorem C34_empty_interval_refuted :
  boundaries bad_gtp /\
  exists st, prepare_all bad_gtp bad_mats = Some st /\
    (forall p, p < 3 -> requests_to p st = []) /\
    map p_ext st = [3; 2; 3] /\
    update bad_gtp (fun p => requests_to p st) st [[10; 11; 0]; []; [12]]%Z = Some [[10; 11; 0]; []; [12]]%Z.
Proof.
  split.
  - split; [cbn; lia|]. split; [reflexivity|]. intros i j Hij Hj. cbn in Hj.
    do 4 (destruct i as [|i]; [do 4 (destruct j as [|j]; [cbn; lia|]); lia|]). lia.
  - eexists. split; [vm_compute; reflexivity|]. split; [|split; [reflexivity|vm_compute; reflexivity]].
    intros p Hp. destruct p as [|[|[|p]]]; reflexivity.
Qed.
Print Assumptions C34_empty_interval_refuted.

(** * C53: Accumulate adds, at the owner, the values all processors keep. *)
(** the value processor p keeps for an index outside of its rows *)
Definition kept {V} (gtp : list nat) (rows : list (list (nat * V))) (p : nat) (x : list V) (g : nat) (v : V) : Prop :=
  exists rows' m ei ve i, prepare (nth p gtp 0) (nth p gtp 0) (nth (S p) gtp 0) rows = Some (rows', m, ei, ve) /\
    nth_error ei i = Some g /\ nth_error x (nth (S p) gtp 0 + i - nth p gtp 0) = Some v.

Theorem C53_accumulate : forall V (d v0 : V) vadd,
  (forall a b c, vadd a (vadd b c) = vadd (vadd a b) c) -> (forall a b, vadd a b = vadd b a) ->
  (forall a, vadd a v0 = a) ->
  forall gtp (mats : list (list (list (nat * V)))) st arr (xs : list (list V)),
  distributed gtp mats -> prepare_all gtp mats = Some st -> any_arrival st arr -> extended_vectors gtp st xs ->
  forall keep : nat -> nat -> V,
  (forall p rows x g, nth_error mats p = Some rows -> nth_error xs p = Some x ->
     (In g (columns rows) /\ ~ owns gtp p g -> kept gtp rows p x g (keep p g)) /\
     (~ (In g (columns rows) /\ ~ owns gtp p g) -> keep p g = v0)) ->
  exists xs', accumulate vadd gtp arr st xs = Some xs' /\ length xs' = length xs /\
    forall q x x', nth_error xs q = Some x -> nth_error xs' q = Some x' ->
      length x' = length x /\
      (forall i, nth (S q) gtp 0 - nth q gtp 0 <= i -> nth_error x' i = nth_error x i) /\
      (forall g, owns gtp q g ->
         nth_error x' (g - nth q gtp 0) =
         Some (vadd (nth (g - nth q gtp 0) x d) (fold_right vadd v0 (map (fun p => keep p g) (seq 0 (length mats)))))).
Proof.
  intros V d v0 vadd vA vC v0r gtp mats st arr xs D E Ha Hv keep HK.
  pose proof (distributed_good _ _ _ D) as G.
  destruct (prepare_all_good gtp mats G) as [st' [E' AG]]. rewrite E in E'. injection E' as <-.
  destruct (accumulate_ok d v0 vadd vA vC v0r gtp mats st arr xs G AG Ha Hv) as [xs' [Eu [Lu U]]].
  exists xs'. split; [exact Eu|]. split; [exact Lu|]. intros q x x' Hx Hx'.
  destruct (U q x Hx) as [y [Ey [Ly [U1 U2]]]]. rewrite Hx' in Ey. injection Ey as <-.
  unfold bound in *. split; [exact Ly|]. split; [exact U1|]. intros g [Hq Hg]. rewrite (U2 g Hg). f_equal. f_equal.
  destruct AG as [L A]. destruct Hv as [HvL Hv].
  unfold ghost_sum. rewrite <- L.
  assert (Hin : forall p s, In (p, s) (combine (seq 0 (length st)) st) -> nth_error st p = Some s) by (intros p s H; now apply in_ix).
  assert (Hmap : map fst (combine (seq 0 (length st)) st) = seq 0 (length st)).
  { clear. generalize 0. induction st as [|s st IH]; intros a; [reflexivity|]. cbn. now rewrite IH. }
  replace (map (fun p => keep p g) (seq 0 (length st)))
    with (map (fun ps => keep (fst ps) g) (combine (seq 0 (length st)) st)) by (rewrite <- Hmap at 2; now rewrite map_map).
  revert Hin. generalize (combine (seq 0 (length st)) st). clear Hmap.
  induction l as [|[p s] l IH]; intros Hin; [reflexivity|]. cbn [fold_right map fst snd].
  rewrite IH by (intros; apply Hin; now right). clear IH.
  pose proof (Hin p s (or_introl eq_refl)) as Hs. destruct (A p s Hs) as [rows [bl [Er P]]].
  pose proof (g_num _ _ _ _ _ P) as I. unfold bound in I.
  assert (Hxp : exists xp, nth_error xs p = Some xp).
  { destruct (nth_error xs p) eqn:Q; [eauto|]. apply nth_error_None in Q.
    assert (p < length st) by (apply nth_error_Some; congruence). lia. }
  destruct Hxp as [xp Hxp]. destruct (HK p rows xp g Er Hxp) as [K1 K2].
  assert (Hp : S p < length gtp).
  { assert (p < length mats) by (apply nth_error_Some; congruence). destruct D as [_ [DL _]]. lia. }
  destruct (find_map (p_map s) g) as [pos|] eqn:Ef.
  - f_equal. apply find_map_in in Ef; [|apply ss_nodup, I].
    assert (Hk : In g (map fst (p_map s))) by (apply in_map_iff; eexists; split; [|exact Ef]; reflexivity).
    apply (n_keys _ _ _ _ _ I) in Hk as [H1 H2].
    assert (NO : ~ owns gtp p g).
    { intros [_ O]. unfold outside in H2. apply orb_true_iff in H2 as [H2|H2]; [apply Nat.ltb_lt in H2; lia|apply Nat.leb_le in H2; lia]. }
    destruct (K1 (conj H1 NO)) as [rows' [m [ei [ve [i [Ep [Ei Ex]]]]]]].
    rewrite (prepare_pstate _ _ _ _ _ _ _ D E Hs Er) in Ep. injection Ep as <- <- <- <-.
    destruct (extended_ok _ _ _ _ _ I) as [XL X1].
    assert (Hi' : i < p_ext s - nth (S p) gtp 0) by (rewrite <- XL; apply nth_error_Some; congruence).
    assert (Hin2 : In (nth (S p) gtp 0 + i) (map snd (p_map s))).
    { rewrite (n_vals _ _ _ _ _ I). apply in_seq. rewrite (n_ext _ _ _ _ _ I) in Hi'. lia. }
    apply in_map_iff in Hin2 as [[c v] [Ev Hin2]]. cbn in Ev. subst v.
    pose proof (X1 _ _ Hin2) as X2. replace (nth (S p) gtp 0 + i - nth (S p) gtp 0) with i in X2 by lia.
    rewrite Ei in X2. injection X2 as ->.
    unfold gval, bound. rewrite Hs, Hxp. unfold gname.
    rewrite (proj2 (find_map_in _ _ _ (ss_nodup _ (n_sorted _ _ _ _ _ I))) Hin2). now apply nth_error_nth.
  - rewrite K2; [now rewrite vC, v0r|]. intros [H1 H2]. apply find_map_none in Ef. apply Ef.
    apply (n_keys _ _ _ _ _ I). split; [exact H1|]. unfold outside. apply orb_true_iff.
    destruct (Nat.ltb_spec g (nth p gtp 0)); [now left|]. right. apply Nat.leb_le.
    destruct (Nat.le_gt_cases (nth (S p) gtp 0) g); auto. exfalso. apply H2. split; [exact Hp|lia].
Qed.
Print Assumptions C53_accumulate.
Example C53_nonvacuous : exists st, prepare_all ex_gtp ex_mats = Some st /\
  accumulate Z.add ex_gtp (fun p => rev (requests_to p st)) st [[10; 11; 100; 200]; [12; 300; 400]; [13; 14; 500]]%Z =
  Some [[310; 511; 100; 200]; [212; 300; 400]; [13; 514; 500]]%Z.
Proof. eexists. split; vm_compute; reflexivity. Qed.

(** * C54: the distributed product is the serial product. *)
Definition serial_row {V} (v0 : V) (vadd vmul : V -> V -> V) (X : nat -> V) (r : list (nat * V)) : V :=
  fold_left (fun acc e => vadd acc (vmul (X (fst e)) (snd e))) r v0.

Theorem C54_matvec : forall V (v0 : V) vadd vmul gtp (mats : list (list (list (nat * V)))) st arr (xs : list (list V)) X,
  distributed gtp mats -> prepare_all gtp mats = Some st -> any_arrival st arr ->
  extended_vectors gtp st xs -> represents gtp xs X ->
  exists xs', update gtp arr st xs = Some xs' /\
    forall p rows x' alpha beta out, nth_error mats p = Some rows -> nth_error xs' p = Some x' ->
      length rows <= length out ->
      exists rows' m ei ve out',
        prepare (nth p gtp 0) (nth p gtp 0) (nth (S p) gtp 0) rows = Some (rows', m, ei, ve) /\
        mat_vec vadd v0 vmul (nth p gtp 0) alpha beta rows' x' out = Some out' /\ length out' = length out /\
        (forall i r o, nth_error rows i = Some r -> nth_error out i = Some o ->
           nth_error out' i = Some (vadd (vmul beta o) (vmul alpha (serial_row v0 vadd vmul X r)))) /\
        (forall i, length rows <= i -> nth_error out' i = nth_error out i).
Proof.
  intros V v0 vadd vmul gtp mats st arr xs X D E Ha Hv Hx.
  destruct (C34_update V gtp mats st arr xs X D E Ha Hv Hx) as [xs' [Eu [Lu U]]]. exists xs'. split; [exact Eu|].
  intros p rows x' alpha beta out Hr Hx' Ho.
  assert (Hxp : exists x, nth_error xs p = Some x).
  { destruct (nth_error xs p) eqn:Q; [eauto|]. apply nth_error_None in Q.
    assert (p < length xs') by (apply nth_error_Some; congruence). lia. }
  destruct Hxp as [x Hxp]. destruct (U p rows x x' Hr Hxp Hx') as [Lx [U1 [r2 [m2 [ei2 [ve2 [Ep [Lv U2]]]]]]]].
  pose proof D as [[_ [_ B]] [DL H]]. destruct (H p rows Hr) as [Hl Hcols].
  assert (Hp : p < length mats) by (apply nth_error_Some; congruence).
  destruct (C32_round_trip V (nth p gtp 0) (nth (S p) gtp 0) rows (B p (S p) ltac:(lia) ltac:(lia)) Hl)
    as [rows' [m [ei [ve [Ep' [_ [Hve [ren [Er [R1 [R2 [R3 R4]]]]]]]]]]]].
  rewrite Ep in Ep'. injection Ep' as -> -> -> ->.
  destruct (mat_vec_ok v0 vadd vmul (nth p gtp 0) x' X ren alpha beta rows out) as [out' [Eo [Lo [O1 O2]]]]; auto.
  - intros c Hc. destruct (Nat.lt_ge_cases c (nth p gtp 0)) as [C1|C1];
      [|destruct (Nat.lt_ge_cases c (nth (S p) gtp 0)) as [C2|C2]].
    + pose proof (R2 c Hc ltac:(lia)). split; [pose proof (B p (S p) ltac:(lia) ltac:(lia)); lia|].
      destruct (R4 (ren c) H0) as [c' [K1 [K2 [K3 K4]]]]. assert (c' = c) by (now apply R3). subst c'.
      pose proof (U2 _ _ K4) as Q. replace (nth (S p) gtp 0 + (ren c - nth (S p) gtp 0)) with (ren c) in Q by lia. exact Q.
    + rewrite (R1 c (conj C1 C2)). split; [exact C1|].
      assert (O : owns gtp p c) by (split; lia). rewrite (U1 c O). now apply (Hx p x c).
    + pose proof (R2 c Hc ltac:(lia)). split; [pose proof (B p (S p) ltac:(lia) ltac:(lia)); lia|].
      destruct (R4 (ren c) H0) as [c' [K1 [K2 [K3 K4]]]]. assert (c' = c) by (now apply R3). subst c'.
      pose proof (U2 _ _ K4) as Q. replace (nth (S p) gtp 0 + (ren c - nth (S p) gtp 0)) with (ren c) in Q by lia. exact Q.
  - exists rows', m, ei, ve, out'. split; [exact Ep|]. rewrite Er. split; [exact Eo|]. split; [exact Lo|]. split; [exact O1|exact O2].
Qed.
Print Assumptions C54_matvec.
Example C54_nonvacuous : exists st rows' m ei ve xs' x',
  prepare_all ex_gtp ex_mats = Some st /\
  update ex_gtp (fun p => requests_to p st) st ex_xs = Some xs' /\ nth_error xs' 1 = Some x' /\
  prepare 2 2 3 [[(2, 5%Z); (0, 6%Z); (4, 7%Z)]] = Some (rows', m, ei, ve) /\
  mat_vec Z.add 0%Z Z.mul 2 1%Z 0%Z rows' x' [0%Z] = Some [(12 * 5 + 10 * 6 + 14 * 7)%Z].
Proof. eexists _, _, _, _, _, _, _. repeat split; vm_compute; reflexivity. Qed.

(** * C55: transposed product followed by Accumulate. *)
Definition contribution {V} (v0 : V) (vadd vmul : V -> V -> V) (alpha : V) (X : nat -> V) (first c : nat)
  (rows : list (list (nat * V))) : V :=
  fold_right (fun ir acc =>
    fold_right (fun e acc => if fst e =? c then vadd (vmul (vmul alpha (X (fst ir))) (snd e)) acc else acc) acc (snd ir))
    v0 (combine (seq first (length rows)) rows).

Lemma tr_entries_sum : forall V (v0 : V) vadd vmul,
  (forall a b c, vadd a (vadd b c) = vadd (vadd a b) c) -> (forall a b, vadd a b = vadd b a) -> (forall a, vadd a v0 = a) ->
  forall alpha X c (rows : list (list (nat * V))) first x,
  length rows <= length x ->
  (forall i, i < length rows -> nth_error x i = Some (X (first + i))) ->
  ksum v0 vadd c (tr_entries vmul alpha rows x) = contribution v0 vadd vmul alpha X first c rows.
Proof.
  intros V v0 vadd vmul vA vC v0r alpha X c. induction rows as [|r rows IH]; intros first x L H; [reflexivity|].
  destruct x as [|xi x]; [cbn in L; lia|].
  unfold tr_entries, contribution. cbn [combine flat_map length seq fold_right fst snd].
  fold (tr_entries vmul alpha rows x) (contribution v0 vadd vmul alpha X (S first) c rows).
  rewrite <- (IH (S first) x); [|cbn in L; lia|].
  2:{ intros i Hi. replace (S first + i) with (first + S i) by lia. apply (H (S i)). cbn. lia. }
  pose proof (H 0 ltac:(cbn; lia)) as H0. cbn in H0. injection H0 as ->. rewrite Nat.add_0_r. clear.
  induction r as [|[a v] r IHr]; [reflexivity|]. cbn [map app fold_right fst snd ksum] in *.
  unfold ksum in *. rewrite IHr. reflexivity.
Qed.

Theorem C55_matvec_transpose : forall V (d v0 : V) vadd vmul (iszero : V -> bool),
  (forall a b c, vadd a (vadd b c) = vadd (vadd a b) c) -> (forall a b, vadd a b = vadd b a) -> (forall a, vadd a v0 = a) ->
  forall gtp (mats : list (list (list (nat * V)))) st arr alpha beta (xs outs : list (list V)) X,
  distributed gtp mats -> prepare_all gtp mats = Some st -> any_arrival st arr ->
  extended_vectors gtp st xs -> extended_vectors gtp st outs -> represents gtp xs X ->
  iszero beta = true ->
  exists outs1 outs2,
    (forall p rows x out, nth_error mats p = Some rows -> nth_error xs p = Some x -> nth_error outs p = Some out ->
       exists rows' m ei ve, prepare (nth p gtp 0) (nth p gtp 0) (nth (S p) gtp 0) rows = Some (rows', m, ei, ve) /\
         mat_vec_tr vadd v0 vmul iszero (nth p gtp 0) alpha beta rows' x out = nth_error outs1 p) /\
    length outs1 = length outs /\
    accumulate vadd gtp arr st outs1 = Some outs2 /\
    forall q c, owns gtp q c ->
      exists o, nth_error outs2 q = Some o /\
        nth_error o (c - nth q gtp 0) =
        Some (fold_right vadd v0 (map (fun pr => contribution v0 vadd vmul alpha X (nth (fst pr) gtp 0) c (snd pr))
                                      (combine (seq 0 (length mats)) mats))).
Proof.
  intros V d v0 vadd vmul iszero vA vC v0r gtp mats st arr alpha beta xs outs X D E Ha Hv Ho Hx Hb.
  pose proof (distributed_good _ _ _ D) as G.
  destruct (prepare_all_good gtp mats G) as [st' [E' AG]]. rewrite E in E'. injection E' as <-.
  pose proof AG as [L A]. destruct Hv as [HvL Hv]. destruct Ho as [HoL Ho]. pose proof D as [[_ [_ B]] [DL DH]].
  (* the local results *)
  set (F := fun po : nat * list V =>
    match nth_error mats (fst po), nth_error st (fst po), nth_error xs (fst po) with
    | Some rows, Some s, Some x =>
        adds d vadd (nth (fst po) gtp 0) (repeat v0 (length (snd po)))
          (map (fun e => (gname (p_map s) (fst e), snd e)) (tr_entries vmul alpha rows x))
    | _, _, _ => []
    end).
  set (outs1 := map F (combine (seq 0 (length outs)) outs)).
  assert (N1 : forall p out, nth_error outs p = Some out -> nth_error outs1 p = Some (F (p, out))).
  { intros p out Hp. unfold outs1. apply map_nth_error. now apply nth_ix. }
  assert (L1 : length outs1 = length outs) by (unfold outs1; rewrite map_length, combine_length, seq_length; lia).
  assert (EX : forall p, p < length mats -> exists rows s x out, nth_error mats p = Some rows /\ nth_error st p = Some s /\
      nth_error xs p = Some x /\ nth_error outs p = Some out).
  { intros p Hp.
    destruct (nth_error mats p) eqn:Q1; [|apply nth_error_None in Q1; lia].
    destruct (nth_error st p) eqn:Q2; [|apply nth_error_None in Q2; lia].
    destruct (nth_error xs p) eqn:Q3; [|apply nth_error_None in Q3; lia].
    destruct (nth_error outs p) eqn:Q4; [|apply nth_error_None in Q4; lia]. eauto 10. }
  assert (RNG : forall p rows s out c, nth_error mats p = Some rows -> nth_error st p = Some s -> nth_error outs p = Some out ->
      In c (cols_of rows) -> nth p gtp 0 <= gname (p_map s) c < nth p gtp 0 + length out).
  { intros p rows s out c Hr Hs Hout Hc. destruct (A p s Hs) as [rows2 [bl [Er P]]]. rewrite Hr in Er. injection Er as <-.
    pose proof (g_num _ _ _ _ _ P) as I. pose proof (ext_ge _ _ _ _ _ _ G Hr P) as Hge. unfold bound in *.
    rewrite (Ho p s out Hs Hout).
    destruct (outside (nth p gtp 0) (nth (S p) gtp 0) c) eqn:O.
    - assert (K : In c (map fst (p_map s))) by (apply (n_keys _ _ _ _ _ I); auto).
      pose proof (num_val _ _ _ _ _ _ _ I (gname_key _ _ _ _ _ _ I K)). lia.
    - rewrite (gname_local _ _ _ _ _ _ I O). unfold outside in O. apply orb_false_iff in O as [O1 O2].
      apply Nat.ltb_ge in O1. apply Nat.leb_gt in O2. lia. }
  assert (EV1 : extended_vectors gtp st outs1).
  { split; [lia|]. intros p s o Hs Hoo. assert (Hp : p < length mats) by (rewrite <- L; apply nth_error_Some; congruence).
    destruct (EX p Hp) as [rows [s' [x [out [Q1 [Q2 [Q3 Q4]]]]]]]. rewrite (N1 p out Q4) in Hoo. injection Hoo as <-.
    unfold F. cbn [fst snd]. rewrite Q1, Q2, Q3, adds_length, repeat_length. now apply (Ho p s). }
  destruct (accumulate_ok d v0 vadd vA vC v0r gtp mats st arr outs1 G AG Ha EV1) as [outs2 [Eu [Lu U]]].
  exists outs1, outs2. split; [|split; [exact L1|split; [exact Eu|]]].
  - intros p rows x out Hr Hxp Hop.
    assert (Hp : p < length mats) by (apply nth_error_Some; congruence).
    destruct (EX p Hp) as [rows0 [s [x0 [out0 [Q1 [Q2 [Q3 Q4]]]]]]].
    rewrite Hr in Q1. injection Q1 as <-. rewrite Hxp in Q3. injection Q3 as <-. rewrite Hop in Q4. injection Q4 as <-.
    eexists _, _, _, _. split; [exact (prepare_pstate _ _ _ _ _ _ _ D E Q2 Hr)|].
    rewrite (N1 p out Hop). unfold F. cbn [fst snd]. rewrite Hr, Q2, Hxp. unfold mat_vec_tr. rewrite Hb.
    assert (Em : map (fun _ : V => v0) out = repeat v0 (length out)) by (clear; induction out; cbn; congruence).
    rewrite Em. apply mat_vec_tr_ok.
    + intros c Hc. rewrite repeat_length. now apply (RNG p rows).
    + destruct (DH p rows Hr) as [-> _]. rewrite (Hv p s x Q2 Hxp). destruct (A p s Q2) as [r2 [bl [Er P]]].
      pose proof (ext_ge _ _ _ _ _ _ G Er P). unfold bound in *. lia.
  - intros q c [Hq Hc].
    destruct (EX q ltac:(lia)) as [rows [s [x [out [Q1 [Q2 [Q3 Q4]]]]]]].
    destruct (U q _ (N1 q out Q4)) as [o [Eo [Lo [_ U2]]]]. exists o. split; [exact Eo|].
    unfold bound in *. rewrite (U2 c Hc). f_equal.
    set (es := map (fun prx => match nth_error xs (fst prx) with Some x => tr_entries vmul alpha (snd prx) x | None => [] end)
                   (combine (seq 0 (length mats)) mats)).
    assert (Le : length es = length mats) by (unfold es; rewrite map_length, combine_length, seq_length; lia).
    assert (Nes : forall p rows x, nth_error mats p = Some rows -> nth_error xs p = Some x -> nth_error es p = Some (tr_entries vmul alpha rows x)).
    { intros p r y Hp Hy. unfold es. erewrite map_nth_error by (apply nth_ix; exact Hp). cbn [fst snd]. now rewrite Hy. }
    assert (LOC : forall p rows s x out g, nth_error mats p = Some rows -> nth_error st p = Some s -> nth_error xs p = Some x ->
        nth_error outs p = Some out ->
        In g (map fst (p_map s)) \/ nth p gtp 0 <= g < nth (S p) gtp 0 ->
        nth (gname (p_map s) g - nth p gtp 0) (F (p, out)) d = ksum v0 vadd g (tr_entries vmul alpha rows x)).
    { intros p r t y w g P1 P2 P3 P4 Hg. unfold F. cbn [fst snd]. rewrite P1, P2, P3.
      destruct (A p t P2) as [r2 [bl [Er P]]]. rewrite P1 in Er. injection Er as <-.
      pose proof (g_num _ _ _ _ _ P) as I. unfold bound in I. pose proof (ext_ge _ _ _ _ _ _ G P1 P) as Hge. unfold bound in Hge.
      assert (LI : forall a, nth p gtp 0 <= a < nth (S p) gtp 0 -> gname (p_map t) a = a).
      { intros a Haa. apply (gname_local _ _ _ _ _ _ I). unfold outside. apply orb_false_iff. split; [apply Nat.ltb_ge; lia|apply Nat.leb_gt; lia]. }
      assert (KE : forall a, In a (map fst (p_map t)) -> nth (S p) gtp 0 <= gname (p_map t) a < p_ext t).
      { intros a Haa. exact (num_val _ _ _ _ _ _ _ I (gname_key _ _ _ _ _ _ I Haa)). }
      assert (CL : forall a, In a (cols_of r) -> In a (map fst (p_map t)) \/ nth p gtp 0 <= a < nth (S p) gtp 0).
      { intros a Haa. destruct (Nat.lt_ge_cases a (nth p gtp 0)) as [C1|C1]; [|destruct (Nat.lt_ge_cases a (nth (S p) gtp 0)) as [C2|C2]].
        - left. apply (n_keys _ _ _ _ _ I). split; auto. unfold outside. apply orb_true_iff. left. now apply Nat.ltb_lt.
        - right. lia.
        - left. apply (n_keys _ _ _ _ _ I). split; auto. unfold outside. apply orb_true_iff. right. now apply Nat.leb_le. }
      rewrite adds_zero; auto.
      - apply ksum_rename. intros k v Hk Eg. apply tr_entries_cols in Hk.
        destruct (CL k Hk) as [Kk|Kk], Hg as [Gg|Gg].
        + eapply gname_inj; eauto.
        + rewrite (LI g Gg) in Eg. pose proof (KE k Kk). lia.
        + rewrite (LI k Kk) in Eg. pose proof (KE g Gg). lia.
        + now rewrite (LI k Kk), (LI g Gg) in Eg.
      - rewrite (Ho p t w P2 P4). destruct Hg as [Gg|Gg]; [pose proof (KE g Gg); lia|rewrite (LI g Gg); lia].
      - intros k v Hk. apply in_map_iff in Hk as [[a b] [[= <- <-] Hk]]. apply tr_entries_cols in Hk.
        cbn [fst]. exact (proj1 (RNG p r t w a P1 P2 P4 Hk)). }
    assert (Own : nth (c - nth q gtp 0) (F (q, out)) d = ksum v0 vadd c (nth q es [])).
    { rewrite (nth_error_nth es q [] (Nes q rows x Q1 Q3)).
      rewrite <- (LOC q rows s x out c Q1 Q2 Q3 Q4 (or_intror Hc)).
      destruct (A q s Q2) as [r2 [bl [Er P]]]. pose proof (g_num _ _ _ _ _ P) as I. unfold bound in I.
      rewrite (gname_local _ _ _ _ _ _ I); [reflexivity|]. unfold outside. apply orb_false_iff. split; [apply Nat.ltb_ge; lia|apply Nat.leb_gt; lia]. }
    rewrite Own. rewrite (total_split d v0 vadd vA vC v0r gtp mats st outs1 es q c G AG Le); auto.
    + unfold total_sum, es.
      assert (Hin : forall p r, In (p, r) (combine (seq 0 (length mats)) mats) -> nth_error mats p = Some r) by (intros p r H; now apply in_ix).
      revert Hin. generalize (combine (seq 0 (length mats)) mats). induction l as [|[p r] l IH]; intros Hin; [reflexivity|].
      cbn [map fold_right fst snd]. rewrite IH by (intros; apply Hin; now right). f_equal.
      pose proof (Hin p r (or_introl eq_refl)) as Hr.
      assert (Hp : p < length mats) by (apply nth_error_Some; congruence).
      destruct (EX p Hp) as [r0 [t [y [w [P1 [P2 [P3 P4]]]]]]]. rewrite Hr in P1. injection P1 as <-. rewrite P3.
      apply tr_entries_sum; auto.
      * destruct (DH p r Hr) as [-> _]. rewrite (Hv p t y P2 P3). destruct (A p t P2) as [r2 [bl [Er P]]].
        pose proof (ext_ge _ _ _ _ _ _ G Er P). unfold bound in *. lia.
      * intros i Hi. destruct (DH p r Hr) as [Hlr _].
        assert (O : owns gtp p (nth p gtp 0 + i)) by (split; lia).
        pose proof (Hx p y _ P3 O) as Q. replace (nth p gtp 0 + i - nth p gtp 0) with i in Q by lia. exact Q.
    + intros p r t e P1 P2 P4.
      assert (Hp : p < length mats) by (apply nth_error_Some; congruence).
      destruct (EX p Hp) as [r0 [t0 [y [w [P1' [P2' [P3 P5]]]]]]]. rewrite P1 in P1'. injection P1' as <-.
      rewrite P2 in P2'. injection P2' as <-. rewrite (Nes p r y P1 P3) in P4. injection P4 as <-. split.
      * intros k v Hk. eapply tr_entries_cols; eauto.
      * intros Hg. unfold gval, bound. rewrite P2, (N1 p w P5). now apply LOC; auto.
Qed.
Print Assumptions C55_matvec_transpose.
Example C55_nonvacuous : exists st rows' m ei ve,
  prepare_all ex_gtp ex_mats = Some st /\
  prepare 2 2 3 [[(2, 5%Z); (0, 6%Z); (4, 7%Z)]] = Some (rows', m, ei, ve) /\
  mat_vec_tr Z.add 0%Z Z.mul (Z.eqb 0) 2 1%Z 0%Z rows' [12%Z] [77; 77; 77]%Z = Some [60; 72; 84]%Z.
Proof. eexists _, _, _, _, _. repeat split; vm_compute; reflexivity. Qed.
