(** Proofs about the maximum product transversal: augmentation along the path that was found. *)
From Coq Require Import List Bool Arith Lia Reals Lra.
From Verif Require Import Util Heap_Model Heap_Proofs Mpt_Model Mpt_Proofs.
Import ListNotations.
Local Open Scope R_scope.

(** * The update of the duals *)
Lemma update_ok m a (d u0 c : nat -> R) (rho : nat -> nat) Q : forall t s,
  NoDup t -> inv le_e m (hp s) Q -> (forall i, In i t -> ~ In i Q /\ (i < m)%nat) ->
  (forall i, In i t -> key (hp s) i = Some (Some (d i)) /\ du s i = Some (u0 i) /\ perm s i = Some (rho i) /\ cpos s (rho i) = Some (c i)) ->
  (forall i j, In i t -> In j t -> rho i = rho j -> i = j) ->
  exists s', update a t s = Some s' /\ perm s' = perm s /\ iperm s' = iperm s /\ cpos s' = cpos s /\ apos s' = apos s /\ parent s' = parent s /\
    inv le_e m (hp s') Q /\
    (forall i, In i t -> du s' i = Some (u0 i + (d i - a)) /\ dv s' (rho i) = Some (c i - (u0 i + (d i - a))) /\ key (hp s') i = Some None /\ marked s' i = false) /\
    (forall i, ~ In i t -> du s' i = du s i /\ key (hp s') i = key (hp s) i /\ marked s' i = marked s i) /\
    (forall r, (forall i, In i t -> rho i <> r) -> dv s' r = dv s r).
Proof.
  induction t as [|i t IH]; intros s ND I HQ Ht Inj.
  - exists s. split; [reflexivity|]. do 5 (split; [reflexivity|]). split; [exact I|]. split; [intros i []|]. split; auto.
  - inversion ND as [|? ? Ni ND']; subst. destruct (Ht i (or_introl eq_refl)) as (K & Du & P & Cp). destruct (HQ i (or_introl eq_refl)) as (NQ & Li).
    cbn [update]. rewrite K. destruct (hout m (hp s) Q i None I Li NQ) as (h & Eh & Ih & Kh). rewrite Eh, Du, P, Cp. cbn [sub_ext].
    assert (Len : (i < length (keys (hp s)))%nat) by (apply nth_error_Some; rewrite K; discriminate).
    assert (Kn : forall j, j <> i -> key h j = key (hp s) j) by (intros j Nj; rewrite Kh; apply nth_error_lset_ne; congruence).
    assert (Ki : key h i = Some None) by (rewrite Kh; apply nth_error_lset_eq; exact Len).
    set (s1 := MS _ _ _ _ _ _ _ _ _).
    destruct (IH s1 ND' Ih) as (s' & E' & F1 & F2 & F3 & F4 & F5 & F6 & T1 & T2 & T3).
    + intros j Hj. apply HQ. right. exact Hj.
    + intros j Hj. assert (Nj : j <> i) by (intros ->; contradiction). destruct (Ht j (or_intror Hj)) as (K1 & K2 & K3 & K4).
      cbn [s1 hp du perm cpos]. rewrite Kn, upd_ne by exact Nj. auto.
    + intros j1 j2 H1 H2. apply Inj; right; assumption.
    + exists s'. split; [exact E'|]. rewrite F1, F2, F3, F4, F5. do 5 (split; [reflexivity|]). split; [exact F6|]. split; [|split].
      * intros j [<-|Hj]; [|apply T1; exact Hj]. destruct (T2 i Ni) as (X1 & X2 & X3). rewrite X1, X2, X3. cbn [s1 du hp marked]. rewrite !upd_eq.
        split; [reflexivity|]. split; [|split; [exact Ki|reflexivity]]. rewrite T3; [cbn [s1 dv]; apply upd_eq|].
        intros j Hj R. apply Ni. rewrite <- (Inj j i (or_intror Hj) (or_introl eq_refl) R). exact Hj.
      * intros j Nj. assert (j <> i /\ ~ In j t) as (N1 & N2) by (split; [intros ->; apply Nj; left; reflexivity|intros X; apply Nj; right; exact X]).
        destruct (T2 j N2) as (X1 & X2 & X3). rewrite X1, X2, X3. cbn [s1 du hp marked]. rewrite !upd_ne, Kn by exact N1. auto.
      * intros r Hr. rewrite T3 by (intros j Hj; apply Hr; right; exact Hj). cbn [s1 dv]. apply upd_ne. intros ->. exact (Hr i (or_introl eq_refl) eq_refl).
Qed.

(** * The path *)
Section Path.
Variable C : list crow.
Variable m : nat.
Variable perm0 : nat -> option nat.
Variable root : nat.
Variables u' v' : nat -> R.

(** how a column of the tree is matched anew *)
Definition step_to (s : mstate) (suf : list nat) (i r : nat) : Prop :=
  (r = root \/ exists c, In c suf /\ perm0 c = Some r) /\ apos s i = Some (v' r + u' i) /\ E C r i (v' r + u' i) /\ du s i = Some (u' i) /\ (i < m)%nat.
Definition chain (s : mstate) (tree : list nat) : Prop :=
  forall pre i suf, tree = pre ++ i :: suf -> exists r p, perm0 i = Some r /\ parent s r = Some p /\ step_to s suf i p.

Record PI (s : mstate) (i r : nat) (suf : list nat) : Prop := {
  p_inv : forall j k, j <> i -> (perm s j = Some k <-> iperm s k = Some j);
  p_hole : forall k, iperm s k <> Some i;
  p_root : iperm s root = None;
  p_par : parent s root = None;
  p_suf : forall c k, In c suf -> perm0 c = Some k -> iperm s k = Some c;
  p_tight : forall k j, iperm s k = Some j -> E C k j (v' k + u' j) /\ cpos s k = Some (v' k + u' j);
  p_dv : forall k, (k < length C)%nat -> k <> root -> dv s k = Some (v' k);
  p_dom : forall k j, iperm s k = Some j -> (j < m)%nat /\ (k < length C)%nat;
  p_step : step_to s suf i r;
  p_chain : chain s suf
}.
Record PF (s s' : mstate) : Prop := {
  q_inv : forall j k, perm s' j = Some k <-> iperm s' k = Some j;
  q_tight : forall k j, iperm s' k = Some j -> E C k j (v' k + u' j) /\ cpos s' k = Some (v' k + u' j);
  q_dv : forall k, (k < length C)%nat -> dv s' k = Some (v' k);
  q_dom : forall k j, iperm s' k = Some j -> (j < m)%nat /\ (k < length C)%nat;
  q_du : du s' = du s;
  q_mark : marked s' = marked s;
  q_hp : hp s' = hp s;
  q_free : forall j, perm s' j = None -> perm s j = None;
  q_root : iperm s' root <> None;
  q_keep : forall k, iperm s k <> None -> iperm s' k <> None
}.
Hypothesis inj0 : forall i j k, perm0 i = Some k -> perm0 j = Some k -> i = j.

Lemma path_ok : forall fuel s i r suf, PI s i r suf -> NoDup suf -> (length suf < fuel)%nat ->
  exists s', path fuel (Some i) (Some r) s = Some s' /\ PF s s'.
Proof.
  induction fuel as [|f IH]; intros s i r suf P ND F; [lia|]. cbn [path].
  pose proof (p_step _ _ _ _ P) as (Hr & Ap & He & Du & Li). rewrite Ap, Du. cbn [sub_ext].
  replace (v' r + u' i - u' i) with (v' r) by lra.
  assert (Lr : (r < length C)%nat) by (exact (E_lt _ _ _ _ He)).
  set (s1 := MS _ _ _ _ _ _ _ _ _).
  assert (Ti : forall k j, iperm s1 k = Some j -> E C k j (v' k + u' j) /\ cpos s1 k = Some (v' k + u' j)).
  { intros k j H. cbn [s1 iperm cpos] in *. unfold upd in *. destruct (Nat.eqb_spec k r) as [->|Nk]; [injection H as <-; auto|]. exact (p_tight _ _ _ _ P k j H). }
  assert (Do : forall k j, iperm s1 k = Some j -> (j < m)%nat /\ (k < length C)%nat).
  { intros k j H. cbn [s1 iperm] in *. unfold upd in *. destruct (Nat.eqb_spec k r) as [->|Nk]; [injection H as <-; auto|]. exact (p_dom _ _ _ _ P k j H). }
  assert (Dvr : dv s1 r = Some (v' r)) by (cbn [s1 dv]; apply upd_eq).
  assert (Dvn : forall k, k <> r -> dv s1 k = dv s k) by (intros k Nk; cbn [s1 dv]; apply upd_ne; exact Nk).
  destruct (Nat.eq_dec r root) as [Er|Nr].
  - rewrite Er, (p_par _ _ _ _ P). exists s1. split; [destruct f; reflexivity|]. constructor; auto.
    + intros j k. cbn [s1 perm iperm]. unfold upd. destruct (Nat.eqb_spec j i) as [->|Nj], (Nat.eqb_spec k r) as [->|Nk].
      * tauto.
      * split; [congruence|]. intros H. exfalso. exact (p_hole _ _ _ _ P k H).
      * split; [|congruence]. intros H. apply (p_inv _ _ _ _ P j r Nj) in H. rewrite Er, (p_root _ _ _ _ P) in H. discriminate.
      * apply (p_inv _ _ _ _ P j k Nj).
    + intros k Lk. destruct (Nat.eq_dec k r) as [->|Nk]; [exact Dvr|]. rewrite Dvn by exact Nk. apply (p_dv _ _ _ _ P); [exact Lk|congruence].
    + intros j H. cbn [s1 perm] in H. unfold upd in H. destruct (j =? i); [discriminate|exact H].
    + cbn [s1 iperm]. rewrite <- Er, upd_eq. discriminate.
    + intros k H. cbn [s1 iperm]. unfold upd. destruct (k =? r); [discriminate|exact H].
  - destruct Hr as [?|(c & Hc & Pc)]; [contradiction|]. pose proof (p_suf _ _ _ _ P c r Hc Pc) as Ir.
    destruct (in_split _ _ Hc) as (pre & suf' & Es). destruct (p_chain _ _ _ _ P pre c suf' Es) as (r' & p & Pr & Par & St).
    rewrite Pc in Pr. injection Pr as <-. rewrite Ir, Par.
    assert (Nic : i <> c) by (intros X; rewrite <- X in Ir; exact (p_hole _ _ _ _ P r Ir)).
    assert (NDs : NoDup suf' /\ ~ In c suf' ).
    { rewrite Es in ND. apply NoDup_remove in ND. destruct ND as (N1 & N2). split; [|intros X; apply N2, in_or_app; right; exact X].
      clear - N1. induction pre; [exact N1|]. inversion N1; auto. }
    destruct (IH s1 c p suf') as (s' & E' & Q).
    + assert (Sub : forall j, In j suf' -> In j suf) by (intros j Hj; rewrite Es; apply in_or_app; right; right; exact Hj).
      constructor; auto.
      * intros j k Nj. cbn [s1 perm iperm]. unfold upd. destruct (Nat.eqb_spec j i) as [->|Nj2], (Nat.eqb_spec k r) as [->|Nk].
        -- tauto.
        -- split; [congruence|]. intros H. exfalso. exact (p_hole _ _ _ _ P k H).
        -- split; [|congruence]. intros H. apply (p_inv _ _ _ _ P j r Nj2) in H. congruence.
        -- apply (p_inv _ _ _ _ P j k Nj2).
      * intros k. cbn [s1 iperm]. unfold upd. destruct (Nat.eqb_spec k r) as [->|Nk]; intros H; [congruence|].
        assert (Nci : c <> i) by congruence. apply (p_inv _ _ _ _ P c k Nci) in H. apply (p_inv _ _ _ _ P c r Nci) in Ir. congruence.
      * cbn [s1 iperm]. rewrite upd_ne by congruence. exact (p_root _ _ _ _ P).
      * exact (p_par _ _ _ _ P).
      * intros c1 k H1 P1. cbn [s1 iperm]. rewrite upd_ne; [exact (p_suf _ _ _ _ P c1 k (Sub _ H1) P1)|].
        intros ->. apply (proj2 NDs). rewrite (inj0 c c1 r Pc P1). exact H1.
      * intros k Lk Nk. destruct (Nat.eq_dec k r) as [->|Nk2]; [exact Dvr|]. rewrite Dvn by exact Nk2. apply (p_dv _ _ _ _ P); assumption.
      * intros pre2 j suf2 Es2. apply (p_chain _ _ _ _ P (pre ++ c :: pre2) j suf2). rewrite Es, Es2, <- app_assoc. reflexivity.
    + exact (proj1 NDs).
    + rewrite Es, app_length in F. cbn in F. lia.
    + exists s'. split; [exact E'|]. destruct Q. constructor; auto.
      * intros j H. apply q_free0 in H. cbn [s1 perm] in H. unfold upd in H. destruct (j =? i); [discriminate|exact H].
      * intros k H. apply q_keep0. cbn [s1 iperm]. unfold upd. destruct (k =? r); [discriminate|exact H].
Qed.
End Path.

(** * One row *)
Section Augment.
Variable C : list crow.
Variable m : nat.
Hypothesis Cols : forall k i c, In (i, c) (nth k C []) -> (i < m)%nat.
Variable g : nat -> nat.
Hypothesis g_ok : forall k, (k < length C)%nat -> exists c, E C k (g k) c.
Hypothesis g_inj : forall k l, (k < length C)%nat -> (l < length C)%nat -> g k = g l -> k = l.

Lemma augment_ok s k : good C m s -> (k < length C)%nat ->
  exists s', augment C m s k = Some s' /\ good C m s' /\ iperm s' k <> None /\ (forall l, iperm s l <> None -> iperm s' l <> None).
Proof.
  intros G Lk. unfold augment. destruct (iperm s k) as [i0|] eqn:Ik; cbn [is_none negb].
  { exists s. rewrite Ik. split; [reflexivity|]. split; [exact G|]. split; [discriminate|auto]. }
  set (s0 := MS (perm s) (iperm s) (cpos s) (apos s) (upd (parent s) k None) (du s) (dv s) (marked s) (hp s)).
  assert (G0 : good C m s0) by (destruct G; constructor; assumption).
  assert (Par0 : parent s0 k = None) by (cbn [s0 parent]; apply upd_eq).
  assert (I0 : iperm s0 k = None) by exact Ik.
  assert (SI0 : SI C m s0 k k [] (SR s0 None k None) [] [] 0).
  { constructor; cbn [sst aug pend trace]; auto.
    - exact (g_heap _ _ _ G0).
    - intros i. rewrite (g_mark _ _ _ G0 i). split; [discriminate|intros []].
    - constructor.
    - lra.
    - intros [|? ?] i suf X; discriminate.
    - intros i [].
    - intros i Li _ _. apply (g_keys _ _ _ G0 i Li).
    - left. auto.
    - intros r d i c [(-> & ->)|(? & [] & _)] _ HL _. destruct (HL eq_refl).
    - intros r d i c y _ _ []. }
  destruct (grow_ok C m Cols s0 k G0 Lk I0 Par0 (m + 2) k [] _ [] 0 SI0) as (x & tree & -> & F); [cbn [length]; lia|].
  pose proof (perm_inj C m s0 G0) as Pinj. pose proof (perm_root C m s0 k G0 I0 Par0) as Proot.
  (* rows of the tree *)
  set (h := hp (sst x)) in *.
  set (d := fun i => match key h i with Some (Some d) => d | _ => 0 end).
  set (rho := fun i => match perm s0 i with Some r => r | None => 0%nat end).
  assert (Tr : forall i, In i tree -> perm s0 i = Some (rho i) /\ key h i = Some (Some (d i)) /\ (i < m)%nat /\ (rho i < length C)%nat).
  { intros i Hi. destruct (in_split _ _ Hi) as (pre & suf & Et). destruct (e_tree _ _ _ _ _ _ F pre i suf Et) as (r & d1 & p & x0 & c & P & K & _).
    fold h in K. unfold rho, d. rewrite P, K. pose proof (g_dom _ _ _ G0 i r P). tauto. }
  assert (Rinj : forall i j, In i tree -> In j tree -> rho i = rho j -> i = j).
  { intros i j Hi Hj R. destruct (Tr i Hi) as (P1 & _). destruct (Tr j Hj) as (P2 & _). rewrite <- R in P2. exact (Pinj _ _ _ P1 P2). }
  pose proof (e_aug _ _ _ _ _ _ F) as Fa. destruct (aug x) as [a|].
  2: { (* the search cannot fail *)
    exfalso. destruct Fa as (_ & Hall). set (rs := k :: map rho tree).
    assert (Rlt : forall r, In r rs -> (r < length C)%nat) by (intros r [<-|H]; [exact Lk|apply in_map_iff in H; destruct H as (i & <- & Hi); apply (Tr i Hi)]).
    assert (NDr : NoDup rs).
    { constructor.
      - intros H. apply in_map_iff in H. destruct H as (i & Ei & Hi). destruct (Tr i Hi) as (P & _). rewrite Ei in P. exact (Proot _ P).
      - assert (forall t, NoDup t -> (forall i, In i t -> In i tree) -> NoDup (map rho t)) as X; [|apply X; [exact (e_nodup _ _ _ _ _ _ F)|auto]].
        induction t as [|i t IHt]; intros N H; [constructor|]. inversion N; subst. cbn [map]. constructor; [|apply IHt; [assumption|intros; apply H; right; assumption]].
        intros Y. apply in_map_iff in Y. destruct Y as (j & Ej & Hj). apply H2. rewrite <- (Rinj j i (H j (or_intror Hj)) (H i (or_introl eq_refl)) Ej). exact Hj. }
    assert (Ig : incl (map g rs) tree).
    { intros i H. apply in_map_iff in H. destruct H as (r & <- & Hr). destruct (g_ok r (Rlt r Hr)) as (c & Hc).
      destruct Hr as [<-|Hr].
      - apply (Hall k 0 (g k) c); [left; auto|exact Hc].
      - apply in_map_iff in Hr. destruct Hr as (i & Er & Hi). destruct (Tr i Hi) as (P & K & _). apply (Hall r (d i) (g r) c); [|exact Hc]. right. exists i. rewrite <- Er. auto. }
    apply NoDup_incl_length in Ig.
    - rewrite map_length in Ig. cbn [rs length] in Ig. rewrite map_length in Ig. lia.
    - assert (forall t, NoDup t -> (forall i, In i t -> In i rs) -> NoDup (map g t)) as X; [|apply X; auto].
      induction t as [|i t IHt]; intros N H; [constructor|]. inversion N; subst. cbn [map]. constructor; [|apply IHt; [assumption|intros; apply H; right; assumption]].
      intros Y. apply in_map_iff in Y. destruct Y as (j & Ej & Hj). apply H2. rewrite <- (g_inj j i (Rlt _ (H j (or_intror Hj))) (Rlt _ (H i (or_introl eq_refl))) Ej). exact Hj. }
  destruct Fa as (e & ce & de & -> & Pe & Le & De & Ee & Ae & Ea & Td & Apos & Cov).
  set (u := ru s0) in *. set (v := rv s0) in *.
  destruct (e_heap _ _ _ _ _ _ F) as (Q & IQ & DisQ & OutQ). fold h in IQ, OutQ.
  pose proof (e_nodup _ _ _ _ _ _ F) as NDt.
  destruct (update_ok m a d u (fun i => v (rho i) + u i) rho Q tree (sst x) NDt IQ) as (s1 & -> & U1 & U2 & U3 & U4 & U5 & U6 & UT & UN & UV).
  { intros i Hi. split; [exact (DisQ i Hi)|]. apply (Tr i Hi). }
  { intros i Hi. destruct (Tr i Hi) as (P & K & L1 & L2). destruct (g_tight _ _ _ G0 i (rho i) P) as (T1 & T2). fold u v in T1, T2.
    rewrite (e_du _ _ _ _ _ _ F), (e_perm _ _ _ _ _ _ F), (e_cpos _ _ _ _ _ _ F). split; [exact K|]. split; [exact (g_u _ _ _ G0 _ _ _ T1)|]. split; [exact P|exact T2]. }
  { exact Rinj. }
  (* the new duals *)
  set (u' := fun i => if in_dec Nat.eq_dec i tree then u i + (d i - a) else u i).
  set (v' := fun r => if r =? k then v r + a else match iperm s0 r with Some c => if in_dec Nat.eq_dec c tree then v r + (a - d c) else v r | None => v r end).
  assert (Ut : forall i, In i tree -> u' i = u i + (d i - a)) by (intros i Hi; unfold u'; destruct (in_dec _ _ _); [reflexivity|contradiction]).
  assert (Un : forall i, ~ In i tree -> u' i = u i) by (intros i Hi; unfold u'; destruct (in_dec _ _ _); [contradiction|reflexivity]).
  assert (Vk : v' k = v k + a) by (unfold v'; rewrite Nat.eqb_refl; reflexivity).
  assert (Nk : forall i, In i tree -> rho i <> k) by (intros i Hi X; destruct (Tr i Hi) as (P & _); rewrite X in P; exact (Proot _ P)).
  assert (Vt : forall i, In i tree -> v' (rho i) = v (rho i) + (a - d i)).
  { intros i Hi. unfold v'. destruct (Nat.eqb_spec (rho i) k) as [X|_]; [exfalso; exact (Nk i Hi X)|]. destruct (Tr i Hi) as (P & _). rewrite (proj1 (g_pi _ _ _ G0 i (rho i)) P).
    destruct (in_dec _ _ _); [reflexivity|contradiction]. }
  assert (Vd : forall r y, D s0 k h tree r y -> v' r = v r + (a - y)).
  { intros r y [(-> & ->)|(c & Hc & P & K)]; [rewrite Vk; lra|]. destruct (Tr c Hc) as (P' & K' & _). rewrite P in P'. injection P' as ->. rewrite Vt by exact Hc. rewrite K in K'. injection K' as ->. reflexivity. }
  assert (Vn : forall r, r <> k -> (forall i, In i tree -> rho i <> r) -> v' r = v r).
  { intros r N1 N2. unfold v'. destruct (Nat.eqb_spec r k); [contradiction|]. destruct (iperm s0 r) as [c|] eqn:Ec; [|reflexivity].
    destruct (in_dec _ _ _) as [Hc|]; [|reflexivity]. exfalso. apply (N2 c Hc). apply (g_pi _ _ _ G0) in Ec. destruct (Tr c Hc) as (P & _). congruence. }
  assert (Vcase : forall r, (exists y, D s0 k h tree r y) \/ (r <> k /\ (forall i, In i tree -> rho i <> r))).
  { intros r. destruct (Nat.eq_dec r k) as [->|N1]; [left; exists 0; left; auto|]. destruct (in_dec Nat.eq_dec r (map rho tree)) as [H|H].
    - left. apply in_map_iff in H. destruct H as (i & <- & Hi). exists (d i). right. exists i. destruct (Tr i Hi) as (P & K & _). auto.
    - right. split; [exact N1|]. intros i Hi X. apply H. rewrite <- X. apply in_map, Hi. }
  assert (Dle : forall i, In i tree -> d i <= a) by (intros i Hi; destruct (Td i Hi) as (y & K & L); destruct (Tr i Hi) as (_ & K' & _); fold h in K; congruence).
  assert (Feas : forall r i c, E C r i c -> v' r + u' i <= c).
  { intros r i c HE. pose proof (g_feas _ _ _ G0 r i c HE) as Fe. fold u v in Fe. destruct (Vcase r) as [(y & HD)|(N1 & N2)].
    - rewrite (Vd r y HD). destruct (in_dec Nat.eq_dec i tree) as [T|NT].
      + rewrite Ut by exact T. destruct (Tr i T) as (_ & K & _). pose proof (e_tt _ _ _ _ _ _ F r y i c (d i) HD HE T K) as X. fold u v in X. lra.
      + rewrite Un by exact NT. pose proof (Cov r y i c HD HE NT) as X. lra.
    - rewrite Vn by assumption. destruct (in_dec Nat.eq_dec i tree) as [T|NT]; [rewrite Ut by exact T; pose proof (Dle i T)|rewrite Un by exact NT]; lra. }
  assert (NTe : ~ In e tree) by (intros T; destruct (Tr e T) as (P & _); congruence).
  assert (Du1 : forall r i c, In (i, c) (nth r C []) -> du s1 i = Some (u' i)).
  { intros r i c H. destruct (in_dec Nat.eq_dec i tree) as [T|NT].
    - rewrite Ut by exact T. apply (UT i T).
    - rewrite Un by exact NT. rewrite (proj1 (UN i NT)), (e_du _ _ _ _ _ _ F). exact (g_u _ _ _ G0 r i c H). }
  assert (Dv1 : forall r, (r < length C)%nat -> r <> k -> dv s1 r = Some (v' r)).
  { intros r Lr N1. destruct (Vcase r) as [(y & HD)|(_ & N2)].
    - destruct HD as [(X & _)|(c & Hc & P & K)]; [contradiction|]. destruct (Tr c Hc) as (P' & _). rewrite P in P'. injection P' as ->.
      destruct (UT c Hc) as (_ & X & _). rewrite X, Vt by exact Hc. f_equal. lra.
    - rewrite UV by exact N2. rewrite Vn by assumption. rewrite (e_dv _ _ _ _ _ _ F). exact (g_v _ _ _ G0 r Lr). }
  assert (Stp : forall suf, (forall c, In c suf -> In c tree) -> forall i p y c, D s0 k h suf p y -> E C p i c -> apos (sst x) i = Some c ->
     (c = v' p + u' i) -> step_to C m (perm s0) k u' v' s1 suf i p).
  { intros suf Sub i p y c HD HE HA Hc. rewrite Hc in HE, HA. split; [|split; [rewrite U4; exact HA|split; [exact HE|split; [exact (Du1 p i _ HE)|exact (Cols p i _ HE)]]]].
    destruct HD as [(-> & _)|(c0 & H0 & P & _)]; [left; reflexivity|right; exists c0; auto]. }
  destruct (path_ok C m (perm s0) k u' v' Pinj (m + 2) s1 e (trace x) tree) as (s2 & -> & PF2).
  { constructor.
    - intros j r _. rewrite U1, U2, (e_perm _ _ _ _ _ _ F), (e_iperm _ _ _ _ _ _ F). apply (g_pi _ _ _ G0).
    - intros r X. rewrite U2, (e_iperm _ _ _ _ _ _ F) in X. apply (g_pi _ _ _ G0) in X. congruence.
    - rewrite U2, (e_iperm _ _ _ _ _ _ F). exact I0.
    - rewrite U5. exact (e_root _ _ _ _ _ _ F).
    - intros c r _ P. rewrite U2, (e_iperm _ _ _ _ _ _ F). apply (g_pi _ _ _ G0), P.
    - intros r j X. rewrite U2, (e_iperm _ _ _ _ _ _ F) in X. apply (g_pi _ _ _ G0) in X. destruct (g_tight _ _ _ G0 j r X) as (T1 & T2). fold u v in T1, T2.
      assert (Eq : v' r + u' j = v r + u j).
      { destruct (in_dec Nat.eq_dec j tree) as [T|NT].
        - destruct (Tr j T) as (P & _). rewrite X in P. injection P as ->. rewrite Vt, Ut by exact T. lra.
        - rewrite Un by exact NT. rewrite Vn; [reflexivity| |].
          + intros ->. exact (Proot _ X).
          + intros i Hi Y. destruct (Tr i Hi) as (P & _). rewrite Y in P. apply NT. rewrite (Pinj _ _ _ X P). exact Hi. }
      rewrite Eq, U3, (e_cpos _ _ _ _ _ _ F). auto.
    - exact Dv1.
    - intros r j X. rewrite U2, (e_iperm _ _ _ _ _ _ F) in X. apply (g_pi _ _ _ G0) in X. apply (g_dom _ _ _ G0 j r X).
    - apply (Stp tree (fun c H => H) e (trace x) de ce De Ee Ae). rewrite (Vd _ _ De), Un by exact NTe. rewrite Ea. lra.
    - intros pre i suf Et. destruct (e_tree _ _ _ _ _ _ F pre i suf Et) as (r & d1 & p & x0 & c & P & K & Pa & HD & HE & HA & Ed). fold h in K, HD. fold u v in Ed.
      exists r, p. split; [exact P|]. split; [rewrite U5; exact Pa|].
      assert (Sub : forall c0, In c0 suf -> In c0 tree) by (intros c0 H; rewrite Et; apply in_or_app; right; right; exact H).
      assert (Hi : In i tree) by (rewrite Et; apply in_or_app; right; left; reflexivity).
      apply (Stp suf Sub i p x0 c HD HE HA).
      assert (HD' : D s0 k h tree p x0) by (destruct HD as [HD|(c0 & H0 & X)]; [left; exact HD|right; exists c0; split; [apply Sub; exact H0|exact X]]).
      rewrite (Vd p x0 HD'), Ut by exact Hi. destruct (Tr i Hi) as (_ & K' & _). rewrite K in K'. injection K' as <-. rewrite Ed. lra. }
  { exact NDt. }
  { assert (length tree <= m)%nat; [|lia]. rewrite <- (seq_length m 0). apply NoDup_incl_length; [exact NDt|]. intros i Hi. apply in_seq. destruct (Tr i Hi) as (_ & _ & L & _). lia. }
  rewrite (q_hp _ _ _ _ _ _ _ PF2). destruct (hclear m (Some None) (hp s1) Q U6) as (h2 & -> & Ih2 & Kh2).
  eexists. split; [reflexivity|].
  assert (Ru : forall r i c, In (i, c) (nth r C []) -> ru (set_heap s2 h2) i = u' i) by (intros r i c H; unfold ru; cbn [set_heap du]; rewrite (q_du _ _ _ _ _ _ _ PF2), (Du1 r i c H); reflexivity).
  assert (Rv : forall r, (r < length C)%nat -> rv (set_heap s2 h2) r = v' r) by (intros r L; unfold rv; cbn [set_heap dv]; rewrite (q_dv _ _ _ _ _ _ _ PF2 r L); reflexivity).
  assert (Ru2 : forall i, ru (set_heap s2 h2) i = u' i).
  { intros i. destruct (in_dec Nat.eq_dec i tree) as [T|NT].
    - unfold ru; cbn [set_heap du]; rewrite (q_du _ _ _ _ _ _ _ PF2), (proj1 (UT i T)). rewrite Ut by exact T. reflexivity.
    - unfold ru at 1; cbn [set_heap du]; rewrite (q_du _ _ _ _ _ _ _ PF2), (proj1 (UN i NT)), (e_du _ _ _ _ _ _ F). rewrite Un by exact NT. reflexivity. }
  split; [constructor|split].
  - intros r i c H. rewrite Ru2. cbn [set_heap du]. rewrite (q_du _ _ _ _ _ _ _ PF2). exact (Du1 r i c H).
  - intros r L. rewrite (Rv r L). cbn [set_heap dv]. exact (q_dv _ _ _ _ _ _ _ PF2 r L).
  - intros r i c H. rewrite Ru2, (Rv r (E_lt _ _ _ _ H)). exact (Feas r i c H).
  - intros i. rewrite Ru2. pose proof (g_neg _ _ _ G0 i) as N. fold u in N. destruct (in_dec Nat.eq_dec i tree) as [T|NT]; [rewrite Ut by exact T; pose proof (Dle i T)|rewrite Un by exact NT]; lra.
  - intros i H. cbn [set_heap perm] in H. apply (q_free _ _ _ _ _ _ _ PF2) in H. rewrite U1, (e_perm _ _ _ _ _ _ F) in H. rewrite Ru2, Un; [exact (g_free _ _ _ G0 i H)|].
    intros T. destruct (Tr i T) as (P & _). congruence.
  - intros i r. cbn [set_heap perm iperm]. exact (q_inv _ _ _ _ _ _ _ PF2 i r).
  - intros i r H. cbn [set_heap perm] in H. apply (q_inv _ _ _ _ _ _ _ PF2) in H. exact (q_dom _ _ _ _ _ _ _ PF2 r i H).
  - intros i r H. cbn [set_heap perm] in H. apply (q_inv _ _ _ _ _ _ _ PF2) in H. rewrite Ru2, Rv by apply (q_dom _ _ _ _ _ _ _ PF2 r i H). cbn [set_heap cpos]. exact (q_tight _ _ _ _ _ _ _ PF2 r i H).
  - intros i. cbn [set_heap marked]. rewrite (q_mark _ _ _ _ _ _ _ PF2). destruct (in_dec Nat.eq_dec i tree) as [T|NT]; [apply (UT i T)|].
    rewrite (proj2 (proj2 (UN i NT))). destruct (marked (sst x) i) eqn:X; [|reflexivity]. apply (e_mark _ _ _ _ _ _ F) in X. contradiction.
  - cbn [set_heap hp]. exact Ih2.
  - intros i L. cbn [set_heap hp]. rewrite Kh2. destruct (existsb (Nat.eqb i) Q) eqn:X; [reflexivity|].
    destruct (in_dec Nat.eq_dec i tree) as [T|NT]; [apply (UT i T)|]. rewrite (proj1 (proj2 (UN i NT))). apply OutQ; auto. intros Y.
    assert (existsb (Nat.eqb i) Q = true) by (apply existsb_exists; exists i; rewrite Nat.eqb_refl; auto). congruence.
  - cbn [set_heap iperm]. exact (q_root _ _ _ _ _ _ _ PF2).
  - intros l H. cbn [set_heap iperm]. apply (q_keep _ _ _ _ _ _ _ PF2). rewrite U2, (e_iperm _ _ _ _ _ _ F). exact H.
Qed.

Lemma augment_all_ok : forall ks s, good C m s -> (forall k, In k ks -> (k < length C)%nat) ->
  exists s', augment_all C m ks s = Some s' /\ good C m s' /\ (forall k, In k ks -> iperm s' k <> None) /\ (forall l, iperm s l <> None -> iperm s' l <> None).
Proof.
  induction ks as [|k ks IH]; intros s G L; cbn [augment_all].
  - exists s. split; [reflexivity|]. split; [exact G|]. split; [intros k []|auto].
  - destruct (augment_ok s k G (L k (or_introl eq_refl))) as (s1 & -> & G1 & K1 & P1).
    destruct (IH s1 G1 (fun j H => L j (or_intror H))) as (s2 & -> & G2 & K2 & P2). exists s2. split; [reflexivity|]. split; [exact G2|].
    split; [intros j [<-|H]; [apply P2, K1|apply K2, H]|auto].
Qed.

End Augment.

(** * The first two loops *)
Section Loops.
Variable C : list crow.
Variable m : nat.
Hypothesis Cols : forall k i c, In (i, c) (nth k C []) -> (i < m)%nat.
(** while no search has been made *)
Definition matchable (s : mstate) (k i : nat) (c : ext) : Prop := tight s k (i, c) = true /\ perm s i = None /\ iperm s k = None.
Lemma tight_val s k i c : good C m s -> In (i, c) (nth k C []) -> tight s k (i, c) = true -> c = Some (rv s k + ru s i).
Proof.
  intros G H T. assert (Lk : (k < length C)%nat) by (destruct (Nat.lt_ge_cases k (length C)); [assumption|rewrite nth_overflow in H by assumption; destruct H]).
  unfold tight in T. cbn [fst snd] in T. rewrite (g_v _ _ _ G k Lk), (g_u _ _ _ G k i c H) in T. destruct c as [c|]; [|discriminate]. cbn [absred is_zero_ext is_zero] in T. unfold is_zero in T.
  destruct (Req_EM_T _ 0) as [Z|]; [|discriminate]. pose proof (g_feas _ _ _ G k i c H). rewrite Rabs_pos_eq in Z by lra. f_equal. lra.
Qed.

(** matching a free column with a free row along a tight element *)
Lemma set_match_good s k i c : good C m s -> In (i, c) (nth k C []) -> tight s k (i, c) = true -> perm s i = None -> iperm s k = None -> good C m (set_match s k i c).
Proof.
  intros G H T P I. pose proof (tight_val s k i c G H T) as Ec. subst c. pose proof (E_lt _ _ _ _ H) as Lk. pose proof (Cols _ _ _ H) as Li.
  pose proof G as G'. destruct G. constructor; auto.
  - intros j X. cbn [set_match perm] in X. unfold upd in X. destruct (j =? i); [discriminate|]. exact (g_free j X).
  - intros j r. cbn [set_match perm iperm]. unfold upd. destruct (Nat.eqb_spec j i) as [->|Nj], (Nat.eqb_spec r k) as [->|Nr].
    + tauto.
    + split; [congruence|]. intros X. apply g_pi in X. congruence.
    + split; [|congruence]. intros X. apply g_pi in X. congruence.
    + apply g_pi.
  - intros j r X. cbn [set_match perm] in X. unfold upd in X. destruct (Nat.eqb_spec j i) as [->|]; [injection X as <-; auto|]. exact (g_dom j r X).
  - intros j r X. cbn [set_match perm cpos] in *. change (ru (set_match s k i (Some (rv s k + ru s i)))) with (ru s). change (rv (set_match s k i (Some (rv s k + ru s i)))) with (rv s).
    unfold upd in *. destruct (Nat.eqb_spec j i) as [->|Nj].
    + injection X as <-. rewrite Nat.eqb_refl. auto.
    + destruct (Nat.eqb_spec r k) as [->|Nr]; [apply g_pi in X; congruence|]. exact (g_tight j r X).
Qed.

(** the first loop: rows below [k] that are free have no tight element in a free column *)
Definition settled (s : mstate) (k : nat) (row : crow) : Prop := forall i c, In (i, c) row -> tight s k (i, c) = true -> iperm s k = None -> perm s i <> None.
Definition grows (s s' : mstate) : Prop :=
  du s' = du s /\ dv s' = dv s /\ (forall i, perm s i <> None -> perm s' i <> None) /\ (forall k, iperm s k <> None -> iperm s' k <> None).
Lemma grows_refl s : grows s s.
Proof. repeat split; auto. Qed.
Lemma grows_trans s1 s2 s3 : grows s1 s2 -> grows s2 s3 -> grows s1 s3.
Proof. intros (A1 & A2 & A3 & A4) (B1 & B2 & B3 & B4). split; [congruence|]. split; [congruence|]. split; auto. Qed.
Lemma grows_tight s s' k e : grows s s' -> tight s' k e = tight s k e.
Proof. intros (A1 & A2 & _). unfold tight. rewrite A1, A2. reflexivity. Qed.
Lemma settled_grows s s' k row : grows s s' -> settled s k row -> settled s' k row.
Proof.
  intros Gr S i c H T I. rewrite (grows_tight s s' k _ Gr) in T. destruct Gr as (_ & _ & A3 & A4). apply A3. apply (S i c H T).
  destruct (iperm s k) eqn:X; [|reflexivity]. exfalso. exact (A4 k ltac:(rewrite X; discriminate) I).
Qed.
Lemma set_match_grows s k i c : grows s (set_match s k i c).
Proof. split; [reflexivity|]. split; [reflexivity|]. split; intros j H; cbn [set_match perm iperm]; unfold upd; destruct (_ =? _); auto; discriminate. Qed.

Lemma match_row_ok k : forall row s, (forall e, In e row -> In e (nth k C [])) -> good C m s ->
  let s' := fold_left (match_entry k) row s in good C m s' /\ grows s s' /\ settled s' k row.
Proof.
  induction row as [|(i, c) row IH]; intros s Hr G; cbn [fold_left].
  - split; [exact G|]. split; [apply grows_refl|]. intros i c [].
  - set (s1 := match_entry k s (i, c)).
    assert (H1 : good C m s1 /\ grows s s1 /\ settled s1 k [(i, c)]).
    { unfold s1, match_entry. cbn [fst snd]. destruct (tight s k (i, c)) eqn:T; cbn [andb].
      - destruct (perm s i) eqn:P; cbn [is_none andb].
        + split; [exact G|]. split; [apply grows_refl|]. intros j c' [X|[]] _ _. injection X as <- <-. congruence.
        + destruct (iperm s k) eqn:I; cbn [is_none].
          * split; [exact G|]. split; [apply grows_refl|]. intros j c' [X|[]] _ Y. congruence.
          * split; [apply set_match_good; auto; apply Hr; left; reflexivity|]. split; [apply set_match_grows|].
            intros j c' [X|[]] _ Y. injection X as <- <-. cbn [set_match iperm] in Y. rewrite upd_eq in Y. discriminate.
      - split; [exact G|]. split; [apply grows_refl|]. intros j c' [X|[]] Y _. injection X as <- <-. congruence. }
    destruct H1 as (G1 & Gr1 & S1). destruct (IH s1 (fun e H => Hr e (or_intror H)) G1) as (G2 & Gr2 & S2). split; [exact G2|]. split; [exact (grows_trans _ _ _ Gr1 Gr2)|].
    intros j c' [X|X]; [|apply S2, X]. apply (settled_grows _ _ _ _ Gr2 S1). left. exact X.
Qed.
Lemma match_all_ok s : good C m s -> good C m (match_all C s) /\ forall k, (k < length C)%nat -> settled (match_all C s) k (nth k C []).
Proof.
  unfold match_all. assert (X : forall ks s, good C m s -> let s' := fold_left (match_row C) ks s in good C m s' /\ grows s s' /\ forall k, In k ks -> settled s' k (nth k C [])).
  { induction ks as [|k ks IH]; intros s1 G; cbn [fold_left].
    - split; [exact G|]. split; [apply grows_refl|intros k []].
    - destruct (match_row_ok k (nth k C []) s1 (fun e H => H) G) as (G1 & Gr1 & S1). fold (match_row C s1 k) in G1, Gr1, S1.
      destruct (IH _ G1) as (G2 & Gr2 & S2). split; [exact G2|]. split; [exact (grows_trans _ _ _ Gr1 Gr2)|].
      intros j [<-|H]; [exact (settled_grows _ _ _ _ Gr2 S1)|exact (S2 j H)]. }
  intros G. destruct (X (seq 0 (length C)) s G) as (G' & _ & S). split; [exact G'|]. intros k L. apply S. apply in_seq. lia.
Qed.

(** the second loop: a row takes the column of another row that moves to a free column *)
Lemma two_matches_good s k i c l j c' : good C m s -> In (i, c) (nth k C []) -> tight s k (i, c) = true -> iperm s k = None -> perm s i = Some l ->
  In (j, c') (nth l C []) -> tight s l (j, c') = true -> perm s j = None -> good C m (set_match (set_match s k i c) l j c').
Proof.
  intros G H T I P H' T' Pj. pose proof (tight_val s k i c G H T) as Ec. pose proof (tight_val s l j c' G H' T') as Ec'. subst c c'.
  pose proof (E_lt _ _ _ _ H) as Lk. pose proof (Cols _ _ _ H) as Li. pose proof (E_lt _ _ _ _ H') as Ll. pose proof (Cols _ _ _ H') as Lj.
  assert (Nkl : k <> l) by (intros <-; apply (g_pi _ _ _ G) in P; congruence). assert (Nij : i <> j) by congruence.
  destruct G. constructor; auto.
  - intros a X. cbn [set_match perm] in X. unfold upd in X. destruct (a =? j); [discriminate|]. destruct (a =? i); [discriminate|]. exact (g_free a X).
  - intros a r. cbn [set_match perm iperm]. unfold upd.
    destruct (Nat.eqb_spec a j) as [->|Na], (Nat.eqb_spec r l) as [->|Nr].
    + tauto.
    + destruct (Nat.eqb_spec r k) as [->|Nk]; [split; congruence|]. split; [congruence|]. intros X. apply g_pi in X. congruence.
    + destruct (Nat.eqb_spec a i) as [->|Nai]; [split; congruence|]. split; [|congruence]. intros X. exfalso. apply g_pi in X. apply g_pi in P. congruence.
    + destruct (Nat.eqb_spec a i) as [->|Nai], (Nat.eqb_spec r k) as [->|Nk].
      * tauto.
      * split; [congruence|]. intros X. apply g_pi in X. congruence.
      * split; [|congruence]. intros X. apply g_pi in X. congruence.
      * apply g_pi.
  - intros a r X. cbn [set_match perm] in X. unfold upd in X. destruct (Nat.eqb_spec a j) as [->|]; [injection X as <-; auto|]. destruct (Nat.eqb_spec a i) as [->|]; [injection X as <-; auto|]. exact (g_dom a r X).
  - intros a r X. cbn [set_match perm cpos] in *. change (E C r a (rv s r + ru s a) /\ upd (upd (cpos s) k (Some (rv s k + ru s i))) l (Some (rv s l + ru s j)) r = Some (rv s r + ru s a)).
    unfold upd in *. destruct (Nat.eqb_spec a j) as [->|Na].
    + injection X as <-. rewrite Nat.eqb_refl. auto.
    + destruct (Nat.eqb_spec a i) as [->|Nai].
      * injection X as <-. destruct (Nat.eqb_spec k l); [contradiction|]. rewrite Nat.eqb_refl. auto.
      * destruct (Nat.eqb_spec r l) as [->|Nr]; [apply g_pi in X; apply g_pi in P; congruence|].
        destruct (Nat.eqb_spec r k) as [->|Nr2]; [apply g_pi in X; congruence|]. exact (g_tight a r X).
Qed.

Lemma one_row_ok k : forall row s, (forall e, In e row -> In e (nth k C [])) -> good C m s -> settled s k row ->
  exists s', one_row C k row s = Some s' /\ good C m s' /\ grows s s'.
Proof.
  induction row as [|(i, c) row IH]; intros s Hr G S; cbn [one_row fst snd].
  - exists s. auto using grows_refl.
  - destruct (iperm s k) as [i0|] eqn:I; cbn [is_none negb]; [exists s; auto using grows_refl|].
    assert (S' : settled s k row) by (intros j c' Hj; apply (S j c'); right; exact Hj).
    destruct (tight s k (i, c)) eqn:T; [|apply IH; auto; intros e H; apply Hr; right; exact H].
    destruct (perm s i) as [l|] eqn:P; [|exfalso; apply (S i c (or_introl eq_refl) T I P)].
    destruct (find _ (nth l C [])) as [(j, c')|] eqn:Fd; [|apply IH; auto; intros e H; apply Hr; right; exact H].
    apply find_some in Fd. cbn [fst snd] in Fd. destruct Fd as (H' & X). apply andb_true_iff in X. destruct X as (T' & Pj). destruct (perm s j) eqn:Pj'; [discriminate|].
    pose proof (two_matches_good s k i c l j c' G (Hr _ (or_introl eq_refl)) T I P H' T' Pj') as G2.
    assert (Gr : grows s (set_match (set_match s k i c) l j c')) by (eapply grows_trans; apply set_match_grows).
    destruct (IH _ (fun e H => Hr e (or_intror H)) G2 (settled_grows _ _ _ _ Gr S')) as (s' & E' & G' & Gr'). cbn [fst snd]. exists s'. split; [exact E'|]. split; [exact G'|]. exact (grows_trans _ _ _ Gr Gr').
Qed.
Lemma one_all_ok : forall ks s, good C m s -> (forall k, In k ks -> settled s k (nth k C [])) ->
  exists s', one_all C ks s = Some s' /\ good C m s' /\ grows s s'.
Proof.
  induction ks as [|k ks IH]; intros s G S; cbn [one_all].
  - exists s. auto using grows_refl.
  - destruct (one_row_ok k (nth k C []) s (fun e H => H) G (S k (or_introl eq_refl))) as (s1 & -> & G1 & Gr1).
    destruct (IH s1 G1) as (s2 & -> & G2 & Gr2); [intros j Hj; apply (settled_grows _ _ _ _ Gr1), S; right; exact Hj|]. exists s2. split; [reflexivity|]. split; [exact G2|]. exact (grows_trans _ _ _ Gr1 Gr2).
Qed.
End Loops.
