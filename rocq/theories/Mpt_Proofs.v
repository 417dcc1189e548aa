(** Proofs about the maximum product transversal: one search for an augmenting path. *)
From Coq Require Import List Bool Arith Lia Reals Lra.
From Verif Require Import Util Heap_Model Heap_Proofs Mpt_Model.
Import ListNotations.
Local Open Scope R_scope.

Lemma upd_eq {A} (f : nat -> A) i x : upd f i x i = x.
Proof. unfold upd. rewrite Nat.eqb_refl. reflexivity. Qed.
Lemma upd_ne {A} (f : nat -> A) i j x : j <> i -> upd f i x j = f j.
Proof. unfold upd. intros H. destruct (Nat.eqb_spec j i); [contradiction|reflexivity]. Qed.

Definition le_e (a b : ext) : Prop := le_ext a b = true.
Lemma lt_some x y : lt_ext (Some x) (Some y) = true <-> x < y.
Proof. cbn. destruct (Rlt_dec x y); split; intros; auto; try discriminate; contradiction. Qed.
Lemma lt_some_false x y : lt_ext (Some x) (Some y) = false <-> y <= x.
Proof. cbn. destruct (Rlt_dec x y); split; intros; auto; try discriminate; lra. Qed.
Lemma le_some x y : le_e (Some x) (Some y) <-> x <= y.
Proof. unfold le_e, le_ext. rewrite negb_true_iff. apply lt_some_false. Qed.
Lemma le_none x : le_e x None.
Proof. reflexivity. Qed.
Lemma le_none_some y : ~ le_e None (Some y).
Proof. discriminate. Qed.
Lemma lee_refl a : le_e a a.
Proof. destruct a; [apply le_some; lra|reflexivity]. Qed.
Lemma lee_trans a b c : le_e a b -> le_e b c -> le_e a c.
Proof.
  destruct a, b, c; intros H K; try reflexivity; try discriminate.
  rewrite le_some in *. lra.
Qed.
Lemma lee_false a b : le_ext a b = false -> le_e b a.
Proof.
  unfold le_e, le_ext. rewrite negb_false_iff, negb_true_iff. destruct a, b; cbn; intros H; try discriminate; auto.
  destruct (Rlt_dec _ _); [|discriminate]. destruct (Rlt_dec _ _); [lra|reflexivity].
Qed.

Definition hpush := inv_push le_ext le_e lee_refl lee_trans (fun a b H => H) lee_false.
Definition hpop := inv_pop le_ext le_e lee_refl lee_trans (fun a b H => H) lee_false.
Definition hdec := inv_decrease le_ext le_e lee_refl lee_trans (fun a b H => H) lee_false.
Definition hclear := inv_clear le_ext le_e lee_refl lee_trans (fun a b H => H) lee_false.
Definition hout := inv_set_key_out le_ext le_e lee_refl lee_trans (fun a b H => H) lee_false.
Definition hempty := inv_pop_empty le_ext le_e.

Notation key h i := (nth_error (keys h) i).

Section S.
Variable C : list crow.
Variable m : nat.
Definition E (k i : nat) (c : R) : Prop := In (i, Some c) (nth k C []).
Hypothesis Cols : forall k i c, In (i, c) (nth k C []) -> (i < m)%nat.

Definition ru (s : mstate) (i : nat) : R := match du s i with Some u => u | None => 0 end.
Definition rv (s : mstate) (k : nat) : R := match dv s k with Some v => v | None => 0 end.

Lemma E_lt k i c : E k i c -> (k < length C)%nat.
Proof. unfold E. intros H. destruct (Nat.lt_ge_cases k (length C)); [assumption|]. rewrite nth_overflow in H by assumption. destruct H. Qed.

(** what holds between the searches *)
Record good (s : mstate) : Prop := {
  g_u : forall k i c, In (i, c) (nth k C []) -> du s i = Some (ru s i);
  g_v : forall k, (k < length C)%nat -> dv s k = Some (rv s k);
  g_feas : forall k i c, E k i c -> rv s k + ru s i <= c;
  g_neg : forall i, ru s i <= 0;
  g_free : forall i, perm s i = None -> ru s i = 0;
  g_pi : forall i k, perm s i = Some k <-> iperm s k = Some i;
  g_dom : forall i k, perm s i = Some k -> (i < m)%nat /\ (k < length C)%nat;
  g_tight : forall i k, perm s i = Some k -> E k i (rv s k + ru s i) /\ cpos s k = Some (rv s k + ru s i);
  g_mark : forall i, marked s i = false;
  g_heap : inv le_e m (hp s) [];
  g_keys : forall i, (i < m)%nat -> key (hp s) i = Some None
}.

Section Search.
Variable s0 : mstate.
Variable root : nat.
Hypothesis G : good s0.
Hypothesis Hroot : (root < length C)%nat.
Hypothesis Hfree : iperm s0 root = None.
Hypothesis Hpar : parent s0 root = None.
Let u := ru s0.
Let v := rv s0.

(** distance of a row *)
Definition D (h : hstate ext) (tree : list nat) (r : nat) (x : R) : Prop :=
  (r = root /\ x = 0) \/ exists c, In c tree /\ perm s0 c = Some r /\ key h c = Some (Some x).
Lemma perm_inj i j k : perm s0 i = Some k -> perm s0 j = Some k -> i = j.
Proof. intros A B. apply (g_pi _ G) in A. apply (g_pi _ G) in B. congruence. Qed.
Lemma perm_root i : perm s0 i <> Some root.
Proof. intros A. apply (g_pi _ G) in A. congruence. Qed.
Lemma D_uniq h tree r x y : D h tree r x -> D h tree r y -> x = y.
Proof.
  intros [(-> & ->)|(c & _ & P & K)] [(E2 & ->)|(c' & _ & P' & K')]; auto.
  - exfalso. exact (perm_root _ P').
  - exfalso. subst r. exact (perm_root _ P).
  - pose proof (perm_inj _ _ _ P P') as X. rewrite X in K. congruence.
Qed.
Lemma D_lt h tree r x : D h tree r x -> (r < length C)%nat.
Proof. intros [(-> & _)|(c & _ & P & _)]; [exact Hroot|]. apply (g_dom _ G c r P). Qed.

(** how a column with a distance was reached *)
Definition link (s : mstate) (tree : list nat) (i : nat) : Prop :=
  exists r d p x c, perm s0 i = Some r /\ key (hp s) i = Some (Some d) /\ parent s r = Some p /\ D (hp s) tree p x /\
    E p i c /\ apos s i = Some c /\ d = x + c - v p - u i.
Definition covered (x : search) (Q : list nat) (i : nat) (l : R) : Prop :=
  (exists a, aug x = Some a /\ a <= l) \/ (exists y, In i Q /\ key (hp (sst x)) i = Some (Some y) /\ y <= l).

Record SI (li : nat) (done : crow) (x : search) (tree Q : list nat) (sp : R) : Prop := {
  f_perm : perm (sst x) = perm s0;
  f_iperm : iperm (sst x) = iperm s0;
  f_cpos : cpos (sst x) = cpos s0;
  f_du : du (sst x) = du s0;
  f_dv : dv (sst x) = dv s0;
  i_root : parent (sst x) root = None;
  i_heap : inv le_e m (hp (sst x)) Q;
  i_mark : forall i, marked (sst x) i = true <-> In i tree;
  i_nodup : NoDup tree;
  i_dis : forall i, In i tree -> ~ In i Q;
  i_sp : 0 <= sp;
  i_tree : forall pre i suf, tree = pre ++ i :: suf -> link (sst x) suf i /\ exists d, key (hp (sst x)) i = Some (Some d) /\ d <= sp;
  i_q : forall i, In i Q -> link (sst x) tree i /\ exists d, key (hp (sst x)) i = Some (Some d) /\ sp <= d;
  i_out : forall i, (i < m)%nat -> ~ In i tree -> ~ In i Q -> key (hp (sst x)) i = Some None;
  i_li : D (hp (sst x)) tree li sp;
  i_cov : forall r d i c, D (hp (sst x)) tree r d -> E r i c -> (r = li -> In (i, Some c) done) -> ~ In i tree ->
            covered x Q i (d + c - v r - u i);
  i_tt : forall r d i c y, D (hp (sst x)) tree r d -> E r i c -> In i tree -> key (hp (sst x)) i = Some (Some y) -> y <= d + c - v r - u i;
  i_aug : match aug x with
          | None => pend x = None
          | Some a => exists i c d, pend x = Some i /\ perm s0 i = None /\ (i < m)%nat /\ D (hp (sst x)) tree (trace x) d /\
                        E (trace x) i c /\ apos (sst x) i = Some c /\ a = d + c - v (trace x) - u i /\ sp <= a
          end
}.

Lemma red_nonneg k i c : E k i c -> 0 <= c - v k - u i.
Proof. intros H. pose proof (g_feas _ G k i c H). unfold u, v. lra. Qed.

Lemma absred_val sp k i c : 0 <= sp -> In (i, c) (nth k C []) ->
  absred sp c (dv s0 k) (du s0 i) = match c with Some c => Some (sp + c - v k - u i) | None => None end.
Proof.
  intros Hs H. assert (Lk : (k < length C)%nat) by (destruct (Nat.lt_ge_cases k (length C)); [assumption|rewrite nth_overflow in H by assumption; destruct H]).
  rewrite (g_v _ G k Lk), (g_u _ G k i c H). destruct c as [c|]; [|reflexivity]. cbn. f_equal. apply Rabs_pos_eq.
  pose proof (red_nonneg k i c H). fold u v. lra.
Qed.

(** changing keys of columns outside of the tree *)
Lemma D_keys h h' tree r d : (forall c, In c tree -> key h' c = key h c) -> D h tree r d <-> D h' tree r d.
Proof.
  intros K. unfold D. split; (intros [H|(c & A & B & X)]; [left; exact H|right; exists c; split; [exact A|split; [exact B|]]]); [rewrite K|rewrite <- K]; assumption.
Qed.

Lemma link_keep s s' tree i : (forall c, In c tree -> key (hp s') c = key (hp s) c) ->
  key (hp s') i = key (hp s) i -> apos s' i = apos s i -> (forall r, perm s0 i = Some r -> parent s' r = parent s r) ->
  link s tree i -> link s' tree i.
Proof.
  intros K Ki Ai Pi (r & d & p & x & c & H1 & H2 & H3 & H4 & H5 & H6 & H7). exists r, d, p, x, c. rewrite Ki, Ai, (Pi r H1).
  repeat (split; [first [assumption | apply (D_keys (hp s) (hp s') tree p x K); assumption]|]). assumption.
Qed.
Lemma in_split_tree (tree : list nat) i : In i tree -> exists pre suf, tree = pre ++ i :: suf.
Proof. apply in_split. Qed.

Lemma scan_entry_ok li done x tree Q sp i c : SI li done x tree Q sp -> In (i, c) (nth li C []) ->
  exists x' Q', scan_entry li sp x (i, c) = Some x' /\ SI li (done ++ [(i, c)]) x' tree Q' sp.
Proof.
  intros I He. pose proof (Cols _ _ _ He) as Hi. unfold scan_entry. cbn [fst snd].
  destruct (marked (sst x) i) eqn:Mk.
  { exists x, Q. split; [reflexivity|]. destruct I. constructor; auto. intros r d j c0 HD HE HL NT. apply i_cov0; auto. intros ->. specialize (HL eq_refl). apply in_app_or in HL.
    destruct HL as [HL|[HL|[]]]; [exact HL|]. injection HL as -> _. exfalso. apply NT, i_mark0, Mk. }
  assert (NT : ~ In i tree) by (intros T; apply (i_mark _ _ _ _ _ _ I) in T; congruence).
  rewrite (f_dv _ _ _ _ _ _ I), (f_du _ _ _ _ _ _ I), (f_perm _ _ _ _ _ _ I), (absred_val sp li i c (i_sp _ _ _ _ _ _ I) He).
  destruct c as [c|].
  2: { cbn [lt_ext]. exists x, Q. split; [reflexivity|]. destruct I. constructor; auto. intros r d j c0 HD HE HL N2. apply i_cov0; auto. intros ->. specialize (HL eq_refl). apply in_app_or in HL.
       destruct HL as [HL|[HL|[]]]; [exact HL|discriminate]. }
  set (l := sp + c - v li - u i).
  assert (Hl : sp <= l) by (pose proof (red_nonneg li i c He); unfold l; lra).
  (* the entry is covered in a state with smaller keys and path *)
  assert (Keep : forall x' Q', (forall j l', covered x Q j l' -> covered x' Q' j l') -> covered x' Q' i l ->
    (forall d r, D (hp (sst x')) tree r d <-> D (hp (sst x)) tree r d) ->
    forall r d j c0, D (hp (sst x')) tree r d -> E r j c0 -> (r = li -> In (j, Some c0) (done ++ [(i, Some c)])) -> ~ In j tree -> covered x' Q' j (d + c0 - v r - u j)).
  { intros x' Q' Mono Ci Dk r d j c0 HD HE HL N2. apply Dk in HD. destruct (Nat.eq_dec r li) as [->|Nr].
    - specialize (HL eq_refl). apply in_app_or in HL. destruct HL as [HL|[HL|[]]].
      + apply Mono. apply (i_cov _ _ _ _ _ _ I); auto.
      + injection HL as <- <-. rewrite (D_uniq _ _ _ _ _ HD (i_li _ _ _ _ _ _ I)). exact Ci.
    - apply Mono. apply (i_cov _ _ _ _ _ _ I); auto. intros; contradiction. }
  destruct (lt_ext (Some l) (aug x)) eqn:La.
  2: { exists x, Q. split; [reflexivity|]. pose proof (Keep x Q (fun _ _ H => H)) as K. destruct I. constructor; auto. apply K; [|tauto].
       left. destruct (aug x) as [a|]; [|discriminate]. exists a. split; [reflexivity|]. apply lt_some_false in La. exact La. }
  destruct (perm s0 i) as [r|] eqn:Pi.
  - pose proof (i_heap _ _ _ _ _ _ I) as IH.
    assert (Kx : exists d, key (hp (sst x)) i = Some d /\ (In i Q -> exists y, d = Some y) /\ (~ In i Q -> d = None)).
    { destruct (in_dec Nat.eq_dec i Q) as [q|q].
      - destruct (i_q _ _ _ _ _ _ I i q) as (_ & d & K & _). exists (Some d). split; [exact K|]. split; [eauto|contradiction].
      - exists None. split; [apply (i_out _ _ _ _ _ _ I); assumption|]. split; [contradiction|reflexivity]. }
    destruct Kx as (d & Kd & Kin & Kout). rewrite Kd.
    destruct (lt_ext (Some l) d) eqn:Ld.
    2: { exists x, Q. split; [reflexivity|]. pose proof (Keep x Q (fun _ _ H => H)) as K. destruct I. constructor; auto. apply K; [|tauto].
         right. destruct d as [d|]; [|discriminate]. apply lt_some_false in Ld. exists d. split; [|split; [exact Kd|exact Ld]].
         destruct (in_dec Nat.eq_dec i Q) as [q|q]; [exact q|]. discriminate (Kout q). }
    destruct (inv_contains le_e m _ Q i IH) as (b & Eb & Bb); [lia|]. rewrite Eb.
    (* in both cases the heap has i with key l *)
    assert (H : exists h Q', (if b then decrease_key le_ext (hp (sst x)) i (Some l) else push le_ext (hp (sst x)) i (Some l)) = Some h /\
                inv le_e m h Q' /\ keys h = lset (keys (hp (sst x))) i (Some l) /\ (forall j, In j Q' <-> j = i \/ In j Q)).
    { destruct b.
      - assert (q : In i Q) by (apply Bb; reflexivity). destruct (hdec m _ Q i (Some l) IH q) as (h & Eh & Ih & Kh).
        { exists d. split; [exact Kd|]. destruct (Kin q) as (y & ->). apply le_some. apply lt_some in Ld. lra. }
        exists h, Q. split; [exact Eh|]. split; [exact Ih|]. split; [exact Kh|]. intros j. split; [tauto|]. intros [->|X]; assumption.
      - assert (q : ~ In i Q) by (intros X; apply Bb in X; discriminate). destruct (hpush m _ Q i (Some l) IH Hi q) as (h & Eh & Ih & Kh).
        exists h, (i :: Q). split; [exact Eh|]. split; [exact Ih|]. split; [exact Kh|]. intros j. split; [intros [X|X]; [left; congruence|right; exact X]|intros [->|X]; [left; reflexivity|right; exact X]]. }
    destruct H as (h & Q' & Eh & Ih & Kh & Qh). rewrite Eh. eexists. exists Q'. split; [reflexivity|].
    assert (Len : (i < length (keys (hp (sst x))))%nat) by (apply nth_error_Some; rewrite Kd; discriminate).
    assert (Ki : key h i = Some (Some l)) by (rewrite Kh; apply nth_error_lset_eq; exact Len).
    assert (Kn : forall j, j <> i -> key h j = key (hp (sst x)) j) by (intros j Nj; rewrite Kh; apply nth_error_lset_ne; congruence).
    assert (Kt : forall j, In j tree -> key h j = key (hp (sst x)) j) by (intros j T; apply Kn; intros ->; contradiction).
    set (s' := MS _ _ _ _ _ _ _ _ _).
    assert (LK : forall j t, j <> i -> (forall c0, In c0 t -> In c0 tree) -> link (sst x) t j -> link s' t j).
    { intros j t Nj T. apply link_keep.
      - intros c0 Hc. apply Kt, T, Hc.
      - apply Kn, Nj.
      - cbn [s' apos]. apply upd_ne, Nj.
      - intros r' P'. cbn [s' parent]. apply upd_ne. intros ->. apply Nj. exact (perm_inj _ _ _ P' Pi). }
    assert (Dk : forall d0 r0, D h tree r0 d0 <-> D (hp (sst x)) tree r0 d0) by (intros; symmetry; apply D_keys; exact Kt).
    pose proof (Keep (SR s' (pend x) (trace x) (aug x)) Q') as K. cbn [sst hp s'] in K.
    destruct I. constructor; cbn [sst pend trace aug s' perm iperm cpos du dv parent marked hp]; auto.
    + rewrite upd_ne; [assumption|]. intros X. rewrite <- X in Pi. exact (perm_root _ Pi).
    + intros j T X. apply Qh in X. destruct X as [->|X]; [contradiction|]. exact (i_dis0 j T X).
    + intros pre j suf Et. assert (Tj : In j tree) by (rewrite Et; apply in_or_app; right; left; reflexivity).
      destruct (i_tree0 pre j suf Et) as (L1 & d1 & K1 & L2). split.
      * apply LK; [intros ->; contradiction| |exact L1]. intros c0 Hc. rewrite Et. apply in_or_app. right. right. exact Hc.
      * exists d1. split; [rewrite Kt by exact Tj; exact K1|exact L2].
    + intros j Hj. apply Qh in Hj. destruct (Nat.eq_dec j i) as [->|Nj].
      * split; [|exists l; split; [exact Ki|exact Hl]]. exists r, l, li, sp, c. cbn [s' hp parent apos]. rewrite !upd_eq.
        split; [exact Pi|]. split; [exact Ki|]. split; [reflexivity|]. split; [apply Dk; exact i_li0|]. split; [exact He|]. split; [reflexivity|reflexivity].
      * destruct Hj as [?|Hj]; [contradiction|]. destruct (i_q0 j Hj) as (L1 & d1 & K1 & L2). split; [apply LK; [exact Nj|auto|exact L1]|].
        exists d1. split; [rewrite Kn by exact Nj; exact K1|exact L2].
    + intros j Hj T NQ. rewrite Kn; [apply i_out0; auto|]; [intros X; apply NQ, Qh; right; exact X|]. intros ->. apply NQ, Qh. left. reflexivity.
    + apply Dk. exact i_li0.
    + apply K; [| |exact Dk].
      * intros j l' [H|(y & A1 & A2 & A3)]; [left; exact H|right]. cbn [sst hp]. destruct (Nat.eq_dec j i) as [->|Nj].
        -- exists l. split; [apply Qh; right; exact A1|]. split; [exact Ki|]. rewrite Kd in A2. injection A2 as ->. apply lt_some in Ld. lra.
        -- exists y. split; [apply Qh; right; exact A1|]. split; [rewrite Kn by exact Nj; exact A2|exact A3].
      * right. cbn [sst hp]. exists l. split; [apply Qh; left; reflexivity|]. split; [exact Ki|lra].
    + intros r1 d1 j c1 y HD HE T Ky. rewrite Kt in Ky by exact T. apply Dk in HD. exact (i_tt0 r1 d1 j c1 y HD HE T Ky).
    + destruct (aug x) as [a|]; [|exact i_aug0]. destruct i_aug0 as (i1 & c1 & d1 & B1 & B2 & B3 & B4 & B5 & B6 & B7 & B8).
      exists i1, c1, d1. cbn [s' apos]. rewrite upd_ne by (intros ->; congruence). repeat (split; [first [assumption|apply Dk; assumption]|]). assumption.
  - eexists. exists Q. split; [reflexivity|]. set (s' := MS _ _ _ _ _ _ _ _ _).
    assert (LK : forall j t, j <> i -> link (sst x) t j -> link s' t j).
    { intros j t Nj. apply link_keep; [reflexivity|reflexivity| |reflexivity]. cbn [s' apos]. apply upd_ne, Nj. }
    assert (Lf : forall j t, link (sst x) t j -> j <> i) by (intros j t (r & d & p & x0 & c0 & P & _) ->; congruence).
    pose proof (Keep (SR s' (Some i) li (Some l)) Q) as K. cbn [sst hp s'] in K.
    destruct I. constructor; cbn [sst pend trace aug s' perm iperm cpos du dv parent marked hp]; auto.
    + intros pre j suf Et. destruct (i_tree0 pre j suf Et) as (L1 & L2). split; [apply LK; [exact (Lf _ _ L1)|exact L1]|exact L2].
    + intros j Hj. destruct (i_q0 j Hj) as (L1 & L2). split; [apply LK; [exact (Lf _ _ L1)|exact L1]|exact L2].
    + apply K; [| |tauto].
      * intros j l' [(a & Ea & La')|H]; [left; cbn [aug]; exists l; split; [reflexivity|]; rewrite Ea in La; apply lt_some in La; lra|right; exact H].
      * left. exists l. split; [reflexivity|lra].
    + exists i, c, sp. cbn [s' apos]. rewrite upd_eq. repeat (split; [first [assumption|reflexivity]|]). exact Hl.
Qed.

Lemma scan_ok li tree sp : forall row done x Q, (forall e, In e row -> In e (nth li C [])) -> SI li done x tree Q sp ->
  exists x' Q', scan li sp x row = Some x' /\ SI li (done ++ row) x' tree Q' sp.
Proof.
  induction row as [|(i, c) row IH]; intros done x Q Hr I; cbn [scan].
  - exists x, Q. rewrite app_nil_r. auto.
  - destruct (scan_entry_ok li done x tree Q sp i c I (Hr _ (or_introl eq_refl))) as (x1 & Q1 & -> & I1).
    destruct (IH _ x1 Q1 (fun e H => Hr e (or_intror H)) I1) as (x2 & Q2 & -> & I2). exists x2, Q2. rewrite <- app_assoc in I2. auto.
Qed.

(** the state when the search stops *)
Record SF (x : search) (tree : list nat) : Prop := {
  e_perm : perm (sst x) = perm s0;
  e_iperm : iperm (sst x) = iperm s0;
  e_cpos : cpos (sst x) = cpos s0;
  e_du : du (sst x) = du s0;
  e_dv : dv (sst x) = dv s0;
  e_root : parent (sst x) root = None;
  e_heap : exists Q, inv le_e m (hp (sst x)) Q /\ (forall i, In i tree -> ~ In i Q) /\ forall i, (i < m)%nat -> ~ In i tree -> ~ In i Q -> key (hp (sst x)) i = Some None;
  e_mark : forall i, marked (sst x) i = true <-> In i tree;
  e_nodup : NoDup tree;
  e_tree : forall pre i suf, tree = pre ++ i :: suf -> link (sst x) suf i;
  e_tt : forall r d i c y, D (hp (sst x)) tree r d -> E r i c -> In i tree -> key (hp (sst x)) i = Some (Some y) -> y <= d + c - v r - u i;
  e_aug : match aug x with
          | None => pend x = None /\ forall r d i c, D (hp (sst x)) tree r d -> E r i c -> In i tree
          | Some a => exists i c d, pend x = Some i /\ perm s0 i = None /\ (i < m)%nat /\ D (hp (sst x)) tree (trace x) d /\
                        E (trace x) i c /\ apos (sst x) i = Some c /\ a = d + c - v (trace x) - u i /\
                        (forall j, In j tree -> exists d, key (hp (sst x)) j = Some (Some d) /\ d <= a) /\
                        0 <= a /\
                        (forall r d i c, D (hp (sst x)) tree r d -> E r i c -> ~ In i tree -> a <= d + c - v r - u i)
          end
}.

Lemma tree_bound li done x tree Q sp : SI li done x tree Q sp -> (length tree <= m)%nat.
Proof.
  intros I. rewrite <- (seq_length m 0). apply NoDup_incl_length; [apply (i_nodup _ _ _ _ _ _ I)|]. intros i Hi. destruct (in_split _ _ Hi) as (pre & suf & Et).
  destruct (i_tree _ _ _ _ _ _ I pre i suf Et) as ((r & d & p & x0 & c & P & _) & _). apply in_seq. pose proof (g_dom _ G i r P). lia.
Qed.

Lemma grow_ok : forall fuel li tree x Q sp, SI li [] x tree Q sp -> (m - length tree < fuel)%nat ->
  exists x' tree', grow C fuel li sp tree x = Some (x', tree') /\ SF x' tree'.
Proof.
  induction fuel as [|f IH]; intros li tree x Q sp I F; [lia|]. cbn [grow].
  destruct (scan_ok li tree sp (nth li C []) [] x Q (fun e H => H) I) as (x1 & Q1 & -> & I1). cbn [app] in I1. clear I x Q.
  assert (Cov : forall r d i c, D (hp (sst x1)) tree r d -> E r i c -> ~ In i tree -> covered x1 Q1 i (d + c - v r - u i)).
  { intros r d i c HD HE. apply (i_cov _ _ _ _ _ _ I1); auto. intros ->. exact HE. }
  pose proof (i_heap _ _ _ _ _ _ I1) as IH1.
  assert (Fin : forall h, (forall j, In j tree -> key h j = key (hp (sst x1)) j) ->
     (exists Q, inv le_e m h Q /\ (forall i, In i tree -> ~ In i Q) /\ forall i, (i < m)%nat -> ~ In i tree -> ~ In i Q -> key h i = Some None) ->
     (forall r d i c, D (hp (sst x1)) tree r d -> E r i c -> ~ In i tree -> exists a, aug x1 = Some a /\ a <= d + c - v r - u i) ->
     SF (with_heap x1 h) tree).
  { intros h Kt Hh Hc. assert (Dk : forall r d, D h tree r d <-> D (hp (sst x1)) tree r d) by (intros; symmetry; apply D_keys; exact Kt).
    destruct I1. constructor; cbn [with_heap set_heap sst perm iperm cpos du dv parent hp marked aug pend trace apos]; auto.
    - intros pre j suf Et. destruct (i_tree0 pre j suf Et) as (L & _). revert L. apply link_keep; auto.
      + intros c Hc'. apply Kt. rewrite Et. apply in_or_app. right. right. exact Hc'.
      + apply Kt. rewrite Et. apply in_or_app. right. left. reflexivity.
    - intros r1 d1 j c1 y HD HE T Ky. rewrite Kt in Ky by exact T. apply Dk in HD. exact (i_tt0 r1 d1 j c1 y HD HE T Ky).
    - destruct (aug x1) as [a|] eqn:Ea.
      + destruct i_aug0 as (i1 & c1 & d1 & B1 & B2 & B3 & B4 & B5 & B6 & B7 & B8). exists i1, c1, d1.
        repeat (split; [first [assumption|apply Dk; assumption]|]).
        split; [|split; [lra|]].
        * intros j Hj. destruct (in_split _ _ Hj) as (pre & suf & Et). destruct (i_tree0 pre j suf Et) as (_ & d & K & L). exists d. rewrite (Kt j Hj). split; [exact K|lra].
        * intros r d i c HD HE NT. apply Dk in HD. destruct (Hc r d i c HD HE NT) as (a' & E' & L'). injection E' as <-. exact L'.
      + split; [exact i_aug0|]. intros r d i c HD HE. apply Dk in HD. destruct (in_dec Nat.eq_dec i tree) as [T|NT]; [exact T|].
        destruct (Hc r d i c HD HE NT) as (a' & E' & _). discriminate. }
  destruct Q1 as [|q1 Q1'].
  - rewrite (proj1 (hempty m _ IH1)). eexists _, tree. split; [reflexivity|]. apply Fin.
    + reflexivity.
    + exists []. split; [exact IH1|]. split; [auto|]. apply (i_out _ _ _ _ _ _ I1).
    + intros r d i c HD HE NT. destruct (Cov r d i c HD HE NT) as [H|(y & [] & _)]. exact H.
  - set (Q := q1 :: Q1') in *. destruct (hpop m _ Q IH1 ltac:(discriminate)) as (i & h & -> & _ & Hi & Min & Ih & Kh). rewrite Kh.
    destruct (i_q _ _ _ _ _ _ I1 i Hi) as (Li & d & Kd & Ld). rewrite Kd.
    assert (NTi : ~ In i tree) by (intros T; exact (i_dis _ _ _ _ _ _ I1 i T Hi)).
    assert (Li0 : (i < m)%nat) by (exact (inv_lt le_e m _ Q i IH1 Hi)).
    assert (MinK : forall j y, In j Q -> key (hp (sst x1)) j = Some (Some y) -> d <= y).
    { intros j y Hj Ky. destruct (Min j Hj) as (a1 & b1 & K1 & K2 & L). rewrite Kd in K1. rewrite Ky in K2. injection K1 as <-. injection K2 as <-. apply le_some in L. exact L. }
    destruct (le_ext (aug x1) (Some d)) eqn:La.
    + destruct (hout m h (remove1 i Q) i None Ih Li0) as (h' & Eh & Ih' & Kh'); [rewrite remove1_in; tauto|]. rewrite Eh.
      eexists _, tree. split; [reflexivity|].
      assert (Len : (i < length (keys h))%nat) by (rewrite Kh; apply nth_error_Some; rewrite Kd; discriminate).
      apply Fin.
      * intros j T. rewrite Kh', nth_error_lset_ne, Kh by (intros ->; contradiction). reflexivity.
      * exists (remove1 i Q). split; [exact Ih'|]. split.
        -- intros j T X. apply remove1_in in X. exact (i_dis _ _ _ _ _ _ I1 j T (proj1 X)).
        -- intros j Hj T X. rewrite Kh'. destruct (Nat.eq_dec j i) as [->|Nj]; [apply nth_error_lset_eq; exact Len|].
           rewrite nth_error_lset_ne, Kh by congruence. apply (i_out _ _ _ _ _ _ I1); auto. intros Y. apply X, remove1_in. auto.
      * intros r d' j c HD HE NT. destruct (Cov r d' j c HD HE NT) as [H|(y & A1 & A2 & A3)]; [exact H|].
        pose proof (MinK j y A1 A2). destruct (aug x1) as [a|]; [|discriminate La]. exists a. split; [reflexivity|]. change (le_e (Some a) (Some d)) in La. apply le_some in La. lra.
    + destruct Li as (r & d' & p & x0 & c & P & K' & Par & Dp & Ep & Ap & Ed). rewrite (f_perm _ _ _ _ _ _ I1), P.
      rewrite Kd in K'. injection K' as <-.
      assert (Kk : forall j, key h j = key (hp (sst x1)) j) by (intros; rewrite Kh; reflexivity).
      apply (IH r (i :: tree) _ (remove1 i Q) d).
      * assert (Dk : forall r' d', D h tree r' d' <-> D (hp (sst x1)) tree r' d') by (intros; symmetry; apply D_keys; auto).
        destruct I1. constructor; cbn [with_heap set_heap mark sst perm iperm cpos du dv parent hp marked aug pend trace apos]; auto.
        -- intros j. unfold upd. destruct (Nat.eqb_spec j i) as [->|Nj]; [split; [left; reflexivity|reflexivity]|]. rewrite i_mark0. split; [intros T; right; exact T|intros [->|T]; [contradiction|exact T]].
        -- constructor; assumption.
        -- intros j [<-|T] X; apply remove1_in in X; [tauto|]. exact (i_dis0 j T (proj1 X)).
        -- lra.
        -- intros pre j suf Et. destruct pre as [|j0 pre].
           ++ injection Et as <- <-. split.
              ** exists r, d, p, x0, c. cbn [hp parent apos]. rewrite Kk. repeat (split; [first [assumption|apply Dk; assumption]|]). exact Ed.
              ** exists d. rewrite Kk. split; [exact Kd|lra].
           ++ injection Et as <- Et. destruct (i_tree0 pre j suf Et) as (L1 & d1 & K1 & L2). split.
              ** revert L1. apply link_keep; cbn [hp apos parent]; auto.
              ** exists d1. rewrite Kk. split; [exact K1|lra].
        -- intros j Hj. apply remove1_in in Hj. destruct Hj as (Hj & Nj). destruct (i_q0 j Hj) as (L1 & d1 & K1 & L2). split.
           ++ destruct L1 as (r1 & e1 & p1 & x1' & c1 & B1 & B2 & B3 & B4 & B5). exists r1, e1, p1, x1', c1. cbn [hp parent apos]. rewrite Kk. split; [exact B1|]. split; [exact B2|]. split; [exact B3|]. split; [|exact B5].
              apply Dk in B4. destruct B4 as [B4|(cc & T & B4)]; [left; exact B4|right; exists cc; split; [right; exact T|exact B4]].
           ++ exists d1. rewrite Kk. split; [exact K1|]. exact (MinK j d1 Hj K1).
        -- intros j Hj T X. rewrite Kk. apply i_out0; auto; [intros Y; apply T; right; exact Y|]. intros Y. apply X, remove1_in. split; [exact Y|]. intros ->. apply T. left. reflexivity.
        -- right. exists i. split; [left; reflexivity|]. split; [exact P|]. rewrite Kk. exact Kd.
        -- intros r' d' j c' HD HE HL NT.
           assert (Nr : r' <> r) by (intros ->; specialize (HL eq_refl); destruct HL).
           assert (HD' : D (hp (sst x1)) tree r' d').
           { destruct HD as [HD|(cc & [<-|T] & Pc & Kc)]; [left; exact HD|congruence|]. right. exists cc. rewrite <- Kk. auto. }
           destruct (Cov r' d' j c' HD' HE) as [H|(y & A1 & A2 & A3)]; [intros T; apply NT; right; exact T|left; exact H|].
           right. cbn [sst hp]. exists y. split; [apply remove1_in; split; [exact A1|]; intros ->; apply NT; left; reflexivity|]. rewrite Kk. auto.
        -- intros r' d' j c' y HD HE T Ky. rewrite Kk in Ky. destruct (Nat.eq_dec r' r) as [->|Nr].
           ++ assert (Ed' : d' = d).
              { destruct HD as [(X & _)|(cc & _ & Pc & Kc)]; [exfalso; rewrite X in P; exact (perm_root _ P)|]. rewrite (perm_inj _ _ _ Pc P), Kk, Kd in Kc. congruence. }
              pose proof (red_nonneg r j c' HE). rewrite Ed'. destruct T as [<-|T]; [rewrite Kd in Ky; injection Ky as <-; lra|].
              destruct (in_split _ _ T) as (pre & suf & Et). destruct (i_tree0 pre j suf Et) as (_ & d1 & K1 & L2). rewrite K1 in Ky. injection Ky as <-. lra.
           ++ assert (HD' : D (hp (sst x1)) tree r' d').
              { destruct HD as [HD|(cc & [<-|T'] & Pc & Kc)]; [left; exact HD|congruence|]. right. exists cc. rewrite <- Kk. auto. }
              destruct T as [<-|T]; [|exact (i_tt0 r' d' j c' y HD' HE T Ky)]. rewrite Kd in Ky. injection Ky as <-.
              destruct (Cov r' d' i c' HD' HE NTi) as [(a & Ea & La2)|(y & A1 & A2 & A3)].
              ** rewrite Ea in La. pose proof (lee_false _ _ La) as X. apply le_some in X. lra.
              ** rewrite Kd in A2. injection A2 as <-. exact A3.
        -- destruct (aug x1) as [a|]; [|exact i_aug0]. destruct i_aug0 as (i1 & c1 & d1 & B1 & B2 & B3 & B4 & B5 & B6 & B7 & B8). exists i1, c1, d1.
           split; [exact B1|]. split; [exact B2|]. split; [exact B3|]. split.
           ++ apply Dk in B4. destruct B4 as [B4|(cc & T & B4)]; [left; exact B4|right; exists cc; split; [right; exact T|exact B4]].
           ++ repeat (split; [assumption|]). pose proof (lee_false _ _ La) as X. apply le_some in X. exact X.
      * cbn [length]. pose proof (tree_bound _ _ _ _ _ _ I1). assert (~ (length tree = m)%nat); [|lia].
        intros Em. assert (Inc : incl (i :: tree) (seq 0 m)).
        { intros j [<-|T]; [apply in_seq; lia|]. destruct (in_split _ _ T) as (pre & suf & Et). destruct (i_tree _ _ _ _ _ _ I1 pre j suf Et) as ((r1 & d1 & p1 & x2 & c2 & P1 & _) & _). apply in_seq. pose proof (g_dom _ G j r1 P1). lia. }
        apply NoDup_incl_length in Inc; [rewrite seq_length in Inc; cbn in Inc; lia|]. constructor; [exact NTi|apply (i_nodup _ _ _ _ _ _ I1)].
Qed.
End Search.
End S.
