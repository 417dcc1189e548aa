(** Proofs about the search for loops. *)
From Coq Require Import List Bool Arith ZArith QArith Qabs Lia Lqa.
From Verif Require Import Util Incid_Model Incid_Spec.
Import ListNotations.
Local Close Scope Q_scope.
Local Open Scope nat_scope.

Lemma nth_tab A n (f : nat -> A) i d : nth i (tab n f) d = if i <? n then f i else d.
Proof.
  unfold tab. destruct (Nat.ltb_spec i n).
  - rewrite (nth_indep _ d (f 0)) by (rewrite map_length, seq_length; lia). now rewrite map_nth, seq_nth.
  - apply nth_overflow. rewrite map_length, seq_length. lia.
Qed.
Lemma tab_ext A n (f g : nat -> A) : (forall i, i < n -> f i = g i) -> tab n f = tab n g.
Proof. intros H. apply map_ext_in. intros i Hi. apply in_seq in Hi. apply H. lia. Qed.
Lemma tab_length A n (f : nat -> A) : length (tab n f) = n.
Proof. unfold tab. now rewrite map_length, seq_length. Qed.
Lemma tab_nth A (l : list A) d : tab (length l) (fun i => nth i l d) = l.
Proof. apply (nth_ext _ _ d d); rewrite tab_length; [easy |]. intros i Hi. rewrite nth_tab. now destruct (Nat.ltb_spec i (length l)); [| lia]. Qed.
Lemma has_in l h : has l h = true <-> In h l.
Proof. unfold has. rewrite existsb_exists. split; [intros (y & Y1 & Y2); apply Nat.eqb_eq in Y2; congruence | intros Y; exists h; split; [easy | apply Nat.eqb_refl]]. Qed.
Lemma has_not l h : has l h = false <-> ~ In h l.
Proof. rewrite <- has_in. now destruct (has l h). Qed.
Lemma has_snoc l k h : has (l ++ [k]) h = (h =? k) || has l h.
Proof. unfold has. rewrite existsb_app. cbn [existsb]. rewrite orb_false_r. apply orb_comm. Qed.

Lemma nodup_snoc (l : list nat) k : NoDup l -> ~ In k l -> NoDup (l ++ [k]).
Proof. intros N H. apply NoDup_rev in N. rewrite <- (rev_involutive (l ++ [k])). apply NoDup_rev. rewrite rev_app_distr. cbn [rev app]. constructor; [now rewrite <- in_rev | easy]. Qed.
Lemma nodup_snoc_inv (l : list nat) k : NoDup (l ++ [k]) -> NoDup l /\ ~ In k l.
Proof. intros N. apply NoDup_remove in N. rewrite app_nil_r in N. exact N. Qed.

Lemma forallb_same A (f g : A -> bool) l : (forall x, In x l -> f x = g x) -> forallb f l = forallb g l.
Proof. induction l as [| x l IH]; intros H; [easy |]. cbn [forallb]. rewrite H by now left. f_equal. apply IH. intros y Y. apply H. now right. Qed.

Section Matrix.
Variable head : list nat.
Variable low : list (list nat).
Variable meas : list Q.
Notation columns := (columns head).
Notation rows := (rows low).
Notation matrix := (matrix low).
Notation cm := (compute_measure meas).

Definition occ (l : list nat) (i : nat) : nat := length (filter (fun q => matrix q i) l).
Lemma occ_app l k i : occ (l ++ k) i = occ l i + occ k i.
Proof. unfold occ. now rewrite filter_app, app_length. Qed.
Lemma occ_snoc l k i : occ (l ++ [k]) i = if matrix k i then S (occ l i) else occ l i.
Proof. rewrite occ_app. unfold occ at 2. cbn [filter]. destruct (matrix k i); cbn [length]; lia. Qed.
Lemma occ_incl l S i : NoDup l -> incl l S -> occ l i <= occ S i.
Proof.
  intros N I. unfold occ. apply NoDup_incl_length; [now apply NoDup_filter |]. intros q Q. apply filter_In in Q. apply filter_In. split; [apply I |]; tauto.
Qed.
Lemma occ_one l i : occ l i = 1 -> exists q, In q l /\ matrix q i = true.
Proof.
  unfold occ. intros H. destruct (filter (fun q => matrix q i) l) as [| q r] eqn:E; [discriminate |]. exists q. apply (filter_In (fun q => matrix q i)). rewrite E. now left.
Qed.
Lemma occ_more l S i : NoDup S -> occ l i < occ S i -> exists q, In q S /\ ~ In q l /\ matrix q i = true.
Proof.
  intros N H. destruct (existsb (fun q => matrix q i && negb (has l q)) S) eqn:X.
  - apply existsb_exists in X. destruct X as (q & X1 & X2). apply andb_true_iff in X2. destruct X2 as (X2 & X3). apply negb_true_iff, has_not in X3. now exists q.
  - exfalso. assert (length (filter (fun q => matrix q i) S) <= length (filter (fun q => matrix q i) l)); [| unfold occ in H; lia].
    apply NoDup_incl_length; [now apply NoDup_filter |]. intros q Q. apply filter_In in Q. apply filter_In. split; [| tauto]. apply has_in. destruct (has l q) eqn:Y; [easy |].
    assert (existsb (fun q => matrix q i && negb (has l q)) S = true); [| congruence]. apply existsb_exists. exists q. rewrite Y. split; [tauto |]. now rewrite (proj2 Q).
Qed.

(** States in terms of the elements that are shown. *)
Definition canon (st : list bool) (o b : list nat) (m : Q) : state :=
  State (tab rows (occ o)) (tab columns (fun q => negb (has o q))) st o b m.
Definition fits (o : list nat) (k : nat) : bool := forallb (fun i => negb (matrix k i && (2 <? occ (o ++ [k]) i))) (seq 0 rows).
Definition clear (o : list nat) (k : nat) (st : list bool) : list bool :=
  tab rows (fun i => if matrix k i && (occ o i =? 0) then false else nth i st false).

Lemma hide_canon st o b m k : k < columns -> ~ In k o -> do_hide low k (canon st (o ++ [k]) b m) = canon (clear o k st) o b m.
Proof.
  intros Hk N. unfold do_hide, canon at 1. cbn [hidden count]. rewrite nth_tab. destruct (Nat.ltb_spec k columns) as [_ | ]; [| lia]. rewrite has_snoc, Nat.eqb_refl. cbn [orb negb].
  assert (C : tab rows (fun i => if matrix k i then nth i (tab rows (occ (o ++ [k]))) 0 - 1 else nth i (tab rows (occ (o ++ [k]))) 0) = tab rows (occ o)).
  { apply tab_ext. intros i Hi. rewrite nth_tab. destruct (Nat.ltb_spec i rows); [| lia]. rewrite occ_snoc. destruct (matrix k i); lia. }
  cbv zeta. unfold canon. f_equal; cbn [stub order best best_measure count hidden].
  - exact C.
  - unfold put. rewrite tab_length. apply tab_ext. intros q Hq. rewrite nth_tab. destruct (Nat.ltb_spec q columns); [| lia]. rewrite has_snoc. destruct (Nat.eqb_spec q k) as [-> | ]; [| easy].
    apply has_not in N. now rewrite N.
  - unfold clear. apply tab_ext. intros i Hi. rewrite C, nth_tab. destruct (Nat.ltb_spec i rows); [easy | lia].
  - apply removelast_last.
Qed.
Lemma show_canon st o b m k : k < columns -> ~ In k o ->
  do_show low k (canon st o b m) = (fits o k, if fits o k then canon st (o ++ [k]) b m else canon (clear o k st) o b m).
Proof.
  intros Hk N. rewrite <- (hide_canon st o b m k Hk N). unfold do_show, canon at 1. cbn [hidden count stub order best best_measure]. rewrite nth_tab. destruct (Nat.ltb_spec k columns) as [_ | ]; [| lia].
  assert (F : has o k = false) by now apply has_not. rewrite F. cbn [negb]. cbv zeta.
  assert (C : tab rows (fun i => if matrix k i then S (nth i (count (canon st o b m)) 0) else nth i (count (canon st o b m)) 0) = tab rows (occ (o ++ [k]))).
  { apply tab_ext. intros i Hi. cbn [canon count]. rewrite nth_tab. destruct (Nat.ltb_spec i rows); [| lia]. now rewrite occ_snoc. }
  assert (H : put (hidden (canon st o b m)) k false true = tab columns (fun q => negb (has (o ++ [k]) q))).
  { unfold put. cbn [canon hidden]. rewrite tab_length. apply tab_ext. intros q Hq. rewrite nth_tab. destruct (Nat.ltb_spec q columns); [| lia]. rewrite has_snoc. destruct (q =? k); easy. }
  rewrite C, H.
  assert (E : forallb (fun i => negb (matrix k i && (2 <? nth i (tab rows (occ (o ++ [k]))) 0))) (seq 0 rows) = fits o k).
  { unfold fits. apply forallb_same. intros i Hi. apply in_seq in Hi. rewrite nth_tab. destruct (Nat.ltb_spec i rows); [easy | lia]. }
  rewrite E. reflexivity.
Qed.
Lemma test_canon st o b m : test_success low (canon st o b m) = true <-> forall i, i < rows -> occ o i <> 1.
Proof.
  unfold test_success. rewrite forallb_forall. cbn [canon count]. split.
  - intros H i Hi. specialize (H i). rewrite nth_tab in H. destruct (Nat.ltb_spec i rows); [| lia]. intros E. rewrite E in H. discriminate H. apply in_seq. lia.
  - intros H i Hi. apply in_seq in Hi. rewrite nth_tab. destruct (Nat.ltb_spec i rows); [| lia]. apply negb_true_iff, Nat.eqb_neq. apply H. lia.
Qed.
Lemma fits_le o k : fits o k = true -> (forall i, i < rows -> occ o i <= 2) -> forall i, i < rows -> occ (o ++ [k]) i <= 2.
Proof.
  unfold fits. rewrite forallb_forall. intros F H i Hi. specialize (F i). destruct (matrix k i) eqn:E; [| rewrite occ_snoc, E; now apply H].
  assert (In i (seq 0 rows)) as I by (apply in_seq; lia). apply F in I. cbn [andb] in I. apply negb_true_iff, Nat.ltb_ge in I. exact I.
Qed.
Lemma fits_intro o k : (forall i, i < rows -> occ (o ++ [k]) i <= 2) -> fits o k = true.
Proof. intros H. apply forallb_forall. intros i Hi. apply in_seq in Hi. apply negb_true_iff, andb_false_iff. right. apply Nat.ltb_ge. apply H. lia. Qed.

(** ** One search *)
Section Find.
Variable visits : list Z.
Definition free (q : nat) : Prop := q < columns /\ (0 < nth q visits 0)%Z.
(** every element after the first one touches an earlier one *)
Definition grown (l : list nat) : Prop := forall l1 q l2, l = l1 ++ q :: l2 -> l1 <> [] -> exists p j, In p l1 /\ j < rows /\ matrix p j = true /\ matrix q j = true.
Definition closed (l : list nat) : Prop := forall i, i < rows -> occ l i = 0 \/ occ l i = 2.
Definition sound (l : list nat) : Prop := l <> [] /\ NoDup l /\ (forall q, In q l -> free q) /\ closed l /\ grown l.
Variable le : Q -> Q -> Prop.
Hypothesis le_refl : forall a, le a a.
Hypothesis le_trans : forall a b c, le a b -> le b c -> le a c.
Hypothesis le_of : forall a b, (a <= b)%Q -> le a b.
Hypothesis le_eps : forall l1 l2, sound l1 -> sound l2 -> (cm l2 <= cm l1 + eps)%Q -> le (cm l2) (cm l1).
Hypothesis le_sub : forall l1 l2, NoDup l1 -> NoDup l2 -> incl l1 l2 -> (forall q, In q l2 -> free q) -> le (cm l1) (cm l2).
Hypothesis small : forall l, sound l -> (cm l + eps <= huge)%Q.

Definition bok (b : list nat) (m : Q) : Prop := (b = [] /\ m = huge) \/ (sound b /\ m = cm b).
Definition evolve (o b : list nat) (m : Q) (b' : list nat) (m' : Q) : Prop :=
  (b' = b /\ m' = m) \/ (sound b' /\ (exists r, b' = o ++ r) /\ m' = cm b' /\ (b <> [] -> length b' <= length b /\ le m' m)).
Definition reach (S b : list nat) (m : Q) : Prop := b <> [] /\ (length S <= length b -> le m (cm S)).

Lemma evolve_bok o b m b' m' : bok b m -> evolve o b m b' m' -> bok b' m'.
Proof. intros B [(-> & ->) | (E1 & _ & E2 & _)]; [easy | now right]. Qed.
Lemma evolve_refl o b m : evolve o b m b m.
Proof. now left. Qed.
Lemma evolve_trans o b m b1 m1 b2 m2 : evolve o b m b1 m1 -> evolve o b1 m1 b2 m2 -> evolve o b m b2 m2.
Proof.
  intros [(-> & ->) | (A1 & A2 & A3 & A4)] [(-> & ->) | (B1 & B2 & B3 & B4)]; [now left | now right; auto | now right; auto |].
  right. split; [easy |]. split; [easy |]. split; [easy |]. intros Nb. destruct (A4 Nb) as (A5 & A6). destruct B4 as (B5 & B6); [apply A1 |]. split; [lia | eauto].
Qed.
Lemma evolve_weak o k b m b' m' : evolve (o ++ [k]) b m b' m' -> evolve o b m b' m'.
Proof. intros [E | (A1 & (r & ->) & A3)]; [now left |]. right. split; [easy |]. split; [exists (k :: r); now rewrite <- app_assoc | easy]. Qed.
Lemma reach_evolve S o b m b' m' : reach S b m -> evolve o b m b' m' -> reach S b' m'.
Proof.
  intros (R1 & R2) [(-> & ->) | (A1 & A2 & A3 & A4)]; [now split |]. destruct (A4 R1) as (A5 & A6). split; [apply A1 |]. intros L. apply (le_trans _ m); [easy |]. apply R2. lia.
Qed.

(** Columns with exactly two rows: edges. *)
Definition edges : Prop := forall q, q < columns -> exists x y, x <> y /\ x < rows /\ y < rows /\ forall i, matrix q i = true <-> i = x \/ i = y.
Definition target (S : list nat) : Prop := NoDup S /\ (forall q, In q S -> free q) /\ closed S.
Definition path (o : list nat) (a j : nat) : Prop := forall i, i < rows -> occ o i = 1 -> i = a \/ i = j.
Definition toward (S o : list nat) (node : nat) : Prop :=
  target S /\ incl (o ++ [node]) S /\ (o = [] \/ exists a j, j < rows /\ path o a j /\ matrix node j = true /\ occ o j = 1).
Definition zs (o : list nat) (st : list bool) : Prop := length st = rows /\ forall i, occ o i = 0 -> nth i st false = false.

Lemma own_open S o node st : edges -> toward S o node -> NoDup (o ++ [node]) -> zs o st -> (exists i, i < rows /\ occ (o ++ [node]) i = 1) ->
  (exists j, j < rows /\ matrix node j = true /\ occ (o ++ [node]) j = 1 /\ nth j st false = false) /\
  (forall j, j < rows -> matrix node j = true -> occ (o ++ [node]) j = 1 -> exists q, In q S /\ ~ In q (o ++ [node]) /\ matrix q j = true /\ toward S (o ++ [node]) q).
Proof.
  intros E ((T1 & T2 & T3) & I & P) N (Z0 & Z) (i0 & Hi0 & O0).
  assert (Hn : node < columns) by (apply T2, I, in_or_app; right; now left).
  destruct (E node Hn) as (x & y & Nxy & Hx & Hy & M).
  assert (Q : (exists j, j < rows /\ matrix node j = true /\ occ (o ++ [node]) j = 1 /\ nth j st false = false) /\
     (forall j, j < rows -> matrix node j = true -> occ (o ++ [node]) j = 1 -> exists a, path (o ++ [node]) a j)).
  { destruct P as [-> | (a & j & Hj & P & Mj & Oj)].
    - cbn [app]. assert (O : forall i, occ [node] i = if matrix node i then 1 else 0) by (intros i; unfold occ; cbn [filter]; now destruct (matrix node i)). split.
      + exists x. rewrite O. assert (matrix node x = true) as -> by (apply M; now left). repeat split; auto.
      + intros j Hj Mj _. apply M in Mj. destruct Mj as [-> | ->]; [exists y | exists x]; intros i Hi Oi; rewrite O in Oi; destruct (matrix node i) eqn:F; try discriminate; apply M in F; tauto.
    - assert (exists z, z <> j /\ z < rows /\ forall i, matrix node i = true <-> i = j \/ i = z) as (z & Nz & Hz & Mz).
      { apply M in Mj. destruct Mj as [-> | ->]; [exists y | exists x]; split; auto; split; auto. intros i. rewrite M. tauto. }
      assert (matrix node z = true) as Mzz by (apply Mz; now right).
      assert (Oz : occ o z = 0).
      { destruct (occ o z) as [| [| c]] eqn:Oz; [easy | |].
        - exfalso. assert (z = a) by (destruct (P z Hz Oz); [easy | contradiction]). subst a. rewrite occ_snoc in O0. destruct (matrix node i0) eqn:F.
          + apply Mz in F. destruct F as [-> | ->]; congruence.
          + destruct (P i0 Hi0 O0) as [-> | ->]; congruence.
        - exfalso. pose proof (occ_incl _ S z N I) as L. rewrite occ_snoc, Mzz, Oz in L. destruct (T3 z Hz); lia. }
      split.
      + exists z. split; [easy |]. split; [easy |]. split; [rewrite occ_snoc, Mzz; congruence | now apply Z].
      + intros k Hk Mk Ok. exists a. intros i Hi Oi. rewrite occ_snoc in Ok, Oi. rewrite Mk in Ok. assert (k = z) as -> by (apply Mz in Mk; destruct Mk as [-> |]; [lia | easy]).
        destruct (matrix node i) eqn:F.
        * apply Mz in F. destruct F as [-> | ->]; [lia | now right].
        * destruct (P i Hi Oi) as [-> | ->]; [now left |]. exfalso. assert (matrix node j = true) by (apply Mz; now left). congruence. }
  destruct Q as (Q1 & Q2). split; [exact Q1 |]. intros j Hj Mj Oj. destruct (Q2 j Hj Mj Oj) as (a & Pa).
  assert (OS : occ S j = 2). { pose proof (occ_incl _ S j N I). destruct (T3 j Hj); lia. }
  destruct (occ_more (o ++ [node]) S j T1) as (q & Q3 & Q4 & Q5); [lia |]. exists q. split; [easy |]. split; [easy |]. split; [easy |].
  split; [easy |]. split; [intros w W; apply in_app_or in W; destruct W as [W | [<- | []]]; auto |]. right. exists a, j. auto.
Qed.

(** What a call for [node] does after the elements [o]. *)
Definition spec (o : list nat) (node : nat) (st : list bool) (b : list nat) (m : Q) (r : option state) : Prop :=
  exists st' b' m', r = Some (canon st' o b' m') /\ zs o st' /\ evolve (o ++ [node]) b m b' m' /\ (edges -> forall S, toward S o node -> reach S b' m').
Definition ready (o : list nat) (node : nat) : Prop :=
  NoDup (o ++ [node]) /\ (forall q, In q (o ++ [node]) -> free q) /\ grown (o ++ [node]) /\ forall i, i < rows -> occ o i <= 2.

Lemma explore_ok go o j : j < rows -> occ o j = 1 -> NoDup o -> (forall q, In q o -> free q) -> grown o -> (forall i, i < rows -> occ o i <= 2) ->
  (forall q st b m, ready o q -> zs o st -> bok b m -> spec o q st b m (go q (canon st o b m))) ->
  forall qs st b m, (forall q, In q qs -> q < columns) -> zs o st -> bok b m ->
  exists st' b' m', explore low visits go j qs (canon st o b m) = Some (canon st' o b' m') /\ zs o st' /\ evolve o b m b' m' /\
    (edges -> forall S q, In q qs -> (0 < nth q visits 0)%Z -> matrix q j = true -> ~ In q o -> toward S o q -> reach S b' m').
Proof.
  intros Hj Oj N F G L2 Go. induction qs as [| q qs IH]; intros st b m Hq Z B; cbn [explore].
  - exists st, b, m. split; [easy |]. split; [easy |]. split; [now left |]. now intros _ S q [].
  - cbn [canon hidden]. rewrite nth_tab. assert (q < columns) as Hc by (apply Hq; now left). destruct (Nat.ltb_spec q columns) as [_ |]; [| lia].
    destruct ((0 <? nth q visits 0)%Z && matrix q j && negb (has o q)) eqn:C.
    + apply andb_true_iff in C. destruct C as (C & C3). apply andb_true_iff in C. destruct C as (C1 & C2). apply Z.ltb_lt in C1. apply negb_true_iff, has_not in C3.
      assert (R : ready o q).
      { split; [now apply nodup_snoc |]. split; [intros w W; apply in_app_or in W; destruct W as [W | [<- | []]]; [auto | now split] |]. split; [| easy].
        intros l1 w l2 E N1. destruct l2 as [| z l2 _] using rev_ind.
        - apply app_inj_tail in E. destruct E as (<- & <-). destruct (occ_one o j Oj) as (p & P1 & P2). exists p, j. auto.
        - change (l1 ++ w :: l2 ++ [z]) with (l1 ++ (w :: l2) ++ [z]) in E. rewrite app_assoc in E. apply app_inj_tail in E. destruct E as (E & _). now apply (G l1 w l2). }
      destruct (Go q st b m R Z B) as (st1 & b1 & m1 & E & Z1 & V1 & T1). change (State (tab rows (occ o)) (tab columns (fun q0 => negb (has o q0))) st o b m) with (canon st o b m). rewrite E.
      destruct (IH st1 b1 m1) as (st2 & b2 & m2 & E2 & Z2 & V2 & T2); [intros w W; apply Hq; now right | easy | eapply evolve_bok; eauto |].
      exists st2, b2, m2. split; [easy |]. split; [easy |]. split; [eapply evolve_trans; [eapply evolve_weak; eauto | easy] |].
      intros Ed S w [<- | W] Vw Mw Nw Tw; [| now apply (T2 Ed S w)]. eapply reach_evolve; [| eauto]. now apply T1.
    + destruct (IH st b m) as (st2 & b2 & m2 & E2 & Z2 & V2 & T2); [intros w W; apply Hq; now right | easy | easy |].
      exists st2, b2, m2. split; [easy |]. split; [easy |]. split; [easy |]. intros Ed S w [<- | W] Vw Mw Nw Tw; [| now apply (T2 Ed S w)].
      exfalso. apply Z.ltb_lt in Vw. apply has_not in Nw. rewrite Vw, Mw, Nw in C. discriminate.
Qed.
Lemma scan_ok go o own node : NoDup o -> (forall q, In q o -> free q) -> grown o -> (forall i, i < rows -> occ o i <= 2) ->
  (forall q st b m, ready o q -> zs o st -> bok b m -> spec o q st b m (go q (canon st o b m))) ->
  forall js st b m, (forall j, In j js -> j < rows) -> zs o st -> bok b m ->
  exists bl st' b' m', scan head low visits go own node js (canon st o b m) = Some (bl, canon st' o b' m') /\ zs o st' /\ evolve o b m b' m' /\
    (edges -> own = true -> forall S, (exists j, In j js /\ matrix node j = true /\ occ o j = 1 /\ nth j st false = false) ->
      (forall j, j < rows -> matrix node j = true -> occ o j = 1 -> exists q, In q S /\ ~ In q o /\ matrix q j = true /\ toward S o q) -> bl = true /\ reach S b' m').
Proof.
  intros N F G L2 Go. induction js as [| j js IH]; intros st b m Hj Z B; cbn [scan].
  - exists false, st, b, m. split; [easy |]. split; [easy |]. split; [now left |]. now intros _ _ S (j & [] & _).
  - assert (Hr : j < rows) by (apply Hj; now left). cbn [canon stub count]. rewrite nth_tab. destruct (Nat.ltb_spec j rows) as [_ |]; [| lia].
    destruct (negb (nth j st false) && eqb (matrix node j) own && (occ o j =? 1)) eqn:C.
    + apply andb_true_iff in C. destruct C as (C & C3). apply andb_true_iff in C. destruct C as (C1 & C2). apply Nat.eqb_eq in C3. apply eqb_prop in C2.
      change (State (tab rows (occ o)) (tab columns (fun q0 => negb (has o q0))) st o b m) with (canon st o b m).
      destruct (explore_ok go o j Hr C3 N F G L2 Go (seq 0 columns) st b m) as (st1 & b1 & m1 & E & Z1 & V1 & T1); [intros q Q; apply in_seq in Q; lia | easy | easy |]. rewrite E.
      cbn [canon count]. rewrite nth_tab. destruct (Nat.ltb_spec j rows) as [_ |]; [| lia]. rewrite C3. cbn [Nat.eqb].
      exists true, (put st1 j true false), b1, m1. split; [reflexivity |]. split; [| split; [easy |]].
      * destruct Z1 as (Z1 & Z2). split; [unfold put; now rewrite tab_length |]. intros i Oi. unfold put. rewrite nth_tab. destruct (i <? length st1); [| easy]. destruct (Nat.eqb_spec i j) as [-> |]; [congruence | now apply Z2].
      * intros Ed -> S _ Q. split; [easy |]. destruct (Q j Hr C2 C3) as (q & Q1 & Q2 & Q3 & Q4). assert (free q) as (Fq & Fv) by (destruct Q4 as ((_ & Q4 & _) & _); now apply Q4).
        apply (T1 Ed S q); auto. apply in_seq. lia.
    + change (State (tab rows (occ o)) (tab columns (fun q0 => negb (has o q0))) st o b m) with (canon st o b m).
      destruct (IH st b m) as (bl & st2 & b2 & m2 & E2 & Z2 & V2 & T2); [intros w W; apply Hj; now right | easy | easy |].
      exists bl, st2, b2, m2. split; [easy |]. split; [easy |]. split; [easy |]. intros Ed Ow S (w & [<- | W] & Mw & Ow1 & Sw) Q.
      * exfalso. rewrite Ow, Mw, Ow1, Sw in C. discriminate.
      * apply T2; auto. exists w. auto.
Qed.

Lemma record_ok len st o b m : length o = len -> sound o -> bok b m -> (b = [] \/ len <= length b) ->
  exists b' m', record_loop meas len (canon st o b m) = Some (canon st o b' m') /\ evolve o b m b' m' /\ forall S, target S -> incl o S -> reach S b' m'.
Proof.
  intros Hl So B P. unfold record_loop. cbn [canon order best best_measure count hidden stub]. rewrite <- Hl in *. rewrite Nat.eqb_refl. cbv zeta.
  assert (LS : forall S, target S -> incl o S -> le (cm o) (cm S)) by (intros S (T1 & T2 & _) I; apply le_sub; auto; apply So).
  assert (New : evolve o [] huge o (cm o)) by (right; split; [easy |]; split; [exists []; now rewrite app_nil_r | split; [easy | now intros []]]).
  destruct B as [(-> & ->) | (Sb & ->)].
  - cbn [length Nat.eqb orb]. pose proof (small o So) as Sm.
    assert (Qle_bool eps (Qabs (huge - cm o)) = true) as ->.
    { apply Qle_bool_iff. rewrite Qabs_pos; [lra |]. assert (0 <= eps)%Q by (unfold eps; lra). lra. }
    cbn [negb andb]. exists o, (cm o). split; [reflexivity |]. split; [easy |]. intros S T I. split; [apply So |]. intros _. now apply LS.
  - destruct P as [-> | P]; [now destruct Sb |].
    destruct (Nat.ltb_spec (length b) (length o)) as [Q | Q]; [lia |]. rewrite andb_false_r. cbn [negb].
    assert ((length b =? 0) = false) as -> by (destruct b; [now destruct Sb | easy]). cbn [orb]. destruct (Qle_bool (cm o) (cm b + eps)) eqn:K.
    + apply Qle_bool_iff in K. exists o, (cm o). split; [reflexivity |]. split.
      * right. split; [easy |]. split; [exists []; now rewrite app_nil_r |]. split; [easy |]. intros _. split; [easy |]. now apply le_eps.
      * intros S T I. split; [apply So |]. intros _. now apply LS.
    + exists b, (cm b). split; [reflexivity |]. split; [now left |]. intros S T I. split; [apply Sb |]. intros _. apply (le_trans _ (cm o)); [| now apply LS]. apply le_of.
      assert (~ (cm o <= cm b + eps)%Q) as K1 by (intros W; apply Qle_bool_iff in W; congruence). apply Qnot_le_lt in K1. assert (0 <= eps)%Q by (unfold eps; lra). lra.
Qed.

Lemma zs_clear o node st : zs (o ++ [node]) st -> zs o (clear o node st).
Proof.
  intros (Z1 & Z2). split; [apply tab_length |]. intros i Oi. unfold clear. rewrite nth_tab. destruct (i <? rows); [| easy]. rewrite Oi. cbn [Nat.eqb]. destruct (matrix node i) eqn:M; [easy |]. cbn [andb]. apply Z2. now rewrite occ_snoc, M.
Qed.
Lemma zs_weak o node st : zs o st -> zs (o ++ [node]) st.
Proof. intros (Z1 & Z2). split; [easy |]. intros i Oi. apply Z2. rewrite occ_snoc in Oi. destruct (matrix node i); [discriminate | easy]. Qed.
Lemma zs_clear_same o node st : zs o st -> zs o (clear o node st).
Proof. intros Z. apply zs_clear. now apply zs_weak. Qed.

Lemma find_ok : forall f o node st b m, ready o node -> zs o st -> bok b m -> columns - length o < f ->
  spec o node st b m (recursive_find head low meas visits f node (S (length o)) (canon st o b m)).
Proof.
  induction f as [| f IH]; intros o node st b m R Z B Hf; [lia |]. cbn [recursive_find canon best].
  pose proof R as (N & F & G & L2). assert (Nn : ~ In node o) by (apply nodup_snoc_inv in N; tauto). assert (free node) as (Hn & Vn) by (apply F, in_or_app; right; now left).
  destruct (negb (length b =? 0) && (length b <? S (length o))) eqn:Pr.
  { exists st, b, m. split; [reflexivity |]. split; [easy |]. split; [now left |]. intros _ S (T & I & _). apply andb_true_iff in Pr. destruct Pr as (P1 & P2). apply Nat.ltb_lt in P2.
    split; [intros ->; discriminate |]. intros L. exfalso. assert (length (o ++ [node]) <= length S) as Q by (now apply NoDup_incl_length). rewrite app_length in Q. cbn [length] in Q. lia. }
  assert (P : b = [] \/ S (length o) <= length b). { destruct b; [now left |]. right. cbn [length Nat.eqb negb andb] in *. apply Nat.ltb_ge in Pr. exact Pr. } clear Pr.
  change (State (tab rows (occ o)) (tab columns (fun q => negb (has o q))) st o b m) with (canon st o b m). rewrite (show_canon st o b m node Hn Nn).
  set (reset := fun s : state => if S (length o) =? 1 then State (count s) (hidden s) (tab rows (fun _ => false)) (order s) (best s) (best_measure s) else s).
  assert (Rs : forall st1 b1 m1, zs o st1 -> exists st2, reset (canon st1 o b1 m1) = canon st2 o b1 m1 /\ zs o st2).
  { intros st1 b1 m1 Z1. unfold reset. destruct (S (length o) =? 1); [| now exists st1]. exists (tab rows (fun _ => false)). split; [reflexivity |]. split; [apply tab_length |]. intros i _. rewrite nth_tab. now destruct (i <? rows). }
  change (S (length o) =? 1) with (length o =? 0) in *.
  destruct (fits o node) eqn:Ft.
  2: { destruct (Rs (clear o node st) b m (zs_clear_same o node st Z)) as (st2 & E2 & Z2). exists st2, b, m. split; [exact (f_equal Some E2) |]. split; [easy |]. split; [now left |].
    intros _ S ((T1 & T2 & T3) & I & _). exfalso. rewrite fits_intro in Ft; [discriminate |]. intros i Hi. pose proof (occ_incl _ S i N I). destruct (T3 i Hi); lia. }
  assert (L3 := fits_le o node Ft L2). set (o1 := o ++ [node]) in *.
  assert (Hl : length o1 = S (length o)) by (unfold o1; rewrite app_length; cbn [length]; lia).
  assert (Hd : forall st b m, do_hide low node (canon st o1 b m) = canon (clear o node st) o b m) by (intros; now apply hide_canon).
  destruct (test_success low (canon st o1 b m)) eqn:Ts.
  - assert (So : sound o1).
    { split; [unfold o1; now destruct o |]. split; [easy |]. split; [easy |]. split; [| easy]. intros i Hi. pose proof (proj1 (test_canon st o1 b m) Ts i Hi). specialize (L3 i Hi). lia. }
    destruct (record_ok (S (length o)) st o1 b m Hl So B P) as (b1 & m1 & E1 & V1 & T1). rewrite E1. rewrite Hd.
    destruct (Rs (clear o node st) b1 m1 (zs_clear_same o node st Z)) as (st2 & E2 & Z2). exists st2, b1, m1. split; [exact (f_equal Some E2) |]. split; [easy |]. split; [easy |].
    intros _ S (T & I & _). now apply T1.
  - assert (Op : exists i, i < rows /\ occ o1 i = 1).
    { destruct (existsb (fun i => occ o1 i =? 1) (seq 0 rows)) eqn:X.
      - apply existsb_exists in X. destruct X as (i & X1 & X2). apply in_seq in X1. apply Nat.eqb_eq in X2. exists i. split; [lia | easy].
      - exfalso. assert (test_success low (canon st o1 b m) = true); [| congruence]. apply test_canon. intros i Hi Oi. assert (existsb (fun i => occ o1 i =? 1) (seq 0 rows) = true); [| congruence].
        apply existsb_exists. exists i. split; [apply in_seq; lia | now apply Nat.eqb_eq]. }
    assert (Hcol : length o1 <= columns).
    { rewrite <- (seq_length columns 0). apply NoDup_incl_length; [easy |]. intros q Q. apply in_seq. apply F in Q. destruct Q. lia. }
    assert (Go : forall q st b m, ready o1 q -> zs o1 st -> bok b m -> spec o1 q st b m (recursive_find head low meas visits f q (S (S (length o))) (canon st o1 b m))).
    { intros q st1 b1 m1 R1 Z1 B1. rewrite <- Hl. apply IH; auto.
      assert (length (o1 ++ [q]) <= columns) as Q. { rewrite <- (seq_length columns 0). destruct R1 as (R1 & R2 & _). apply NoDup_incl_length; [easy |]. intros w W. apply in_seq. apply R2 in W. destruct W. lia. }
      rewrite app_length in Q. cbn [length] in Q. lia. }
    assert (Hrow : forall j, In j (seq 0 rows) -> j < rows) by (intros j J; apply in_seq in J; lia).
    destruct (scan_ok (fun q => recursive_find head low meas visits f q (S (S (length o)))) o1 true node N F G L3 Go (seq 0 rows) st b m Hrow (zs_weak o node st Z) B) as (bl & st1 & b1 & m1 & E1 & Z1 & V1 & T1).
    rewrite E1. assert (T : edges -> forall S, toward S o node -> bl = true /\ reach S b1 m1).
    { intros Ed S Tw. destruct (own_open S o node st Ed Tw N Z Op) as ((j & J1 & J2) & Q). apply T1; auto. exists j. split; [apply in_seq; lia | easy]. }
    destruct bl.
    + rewrite Hd. destruct (Rs (clear o node st1) b1 m1 (zs_clear o node st1 Z1)) as (st2 & E2 & Z2). exists st2, b1, m1.
      split; [exact (f_equal Some E2) |]. split; [easy |]. split; [easy |]. intros Ed S Tw. now apply T.
    + destruct (scan_ok (fun q => recursive_find head low meas visits f q (S (S (length o)))) o1 false node N F G L3 Go (seq 0 rows) st1 b1 m1 Hrow Z1 (evolve_bok _ _ _ _ _ B V1)) as (bl & st2 & b2 & m2 & E2 & Z2 & V2 & _).
      rewrite E2. rewrite Hd. destruct (Rs (clear o node st2) b2 m2 (zs_clear o node st2 Z2)) as (st3 & E3 & Z3). exists st3, b2, m2.
      split; [exact (f_equal Some E3) |]. split; [easy |]. split; [eapply evolve_trans; eauto |]. intros Ed S Tw. now destruct (T Ed S Tw).
Qed.
End Find.

(** ** Rows and lower elements *)
Lemma add_new_in rs h x : In x (add_new rs h) <-> In x rs \/ x = h.
Proof.
  unfold add_new. destruct (has rs h) eqn:E; [apply has_in in E; split; [now left | intros [H | ->]; easy] |]. rewrite in_app_iff. cbn [In]. split; [intros [H | [H | []]]; auto | intros [H | H]; auto].
Qed.
Lemma add_new_nodup rs h : NoDup rs -> NoDup (add_new rs h).
Proof. unfold add_new. destruct (has rs h) eqn:E; [easy |]. intros N. apply nodup_snoc; [easy | now apply has_not]. Qed.
Lemma add_all_in l : forall rs x, In x (fold_left add_new l rs) <-> In x rs \/ In x l.
Proof. induction l as [| h l IH]; intros rs x; cbn [fold_left In]; [tauto |]. rewrite IH, add_new_in. split; intros [[H | H] | H] || intros [H | [H | H]]; auto. Qed.
Lemma add_all_nodup l : forall rs, NoDup rs -> NoDup (fold_left add_new l rs).
Proof. induction l as [| h l IH]; intros rs N; cbn [fold_left]; [easy |]. apply IH. now apply add_new_nodup. Qed.
Lemma heads_in ll : forall rs x, In x (fold_left (fun rs l => fold_left add_new l rs) ll rs) <-> In x rs \/ exists l, In l ll /\ In x l.
Proof.
  induction ll as [| l ll IH]; intros rs x; cbn [fold_left].
  - split; [now left | intros [H | (l & [] & _)]; easy].
  - rewrite IH, add_all_in. split.
    + intros [[H | H] | (k & K1 & K2)]; [| | right; exists k; split; [now right | easy]]; solve [now left | right; exists l; split; [now left | easy]].
    + intros [H | (k & [<- | K1] & K2)]; [left; tauto | left; tauto | right; now exists k].
Qed.
Lemma heads_nodup ll : forall rs, NoDup rs -> NoDup (fold_left (fun rs l => fold_left add_new l rs) ll rs).
Proof. induction ll as [| l ll IH]; intros rs N; cbn [fold_left]; [easy |]. apply IH. now apply add_all_nodup. Qed.
Lemma row_of_ok rs : forall h, In h rs -> row_of rs h < length rs /\ nth (row_of rs h) rs 0 = h.
Proof.
  induction rs as [| r rs IH]; intros h H; [easy |]. cbn [row_of]. destruct (Nat.eqb_spec r h) as [-> | Nr]; [cbn [length nth]; split; [lia | easy] |]. destruct H as [H | H]; [contradiction |]. apply IH in H. cbn [length nth]. destruct H. split; [lia | easy].
Qed.
Lemma in_heads q h : In h (nth q low []) -> In h (row_heads low).
Proof.
  intros H. unfold row_heads. apply heads_in. right. exists (nth q low []). split; [| easy]. destruct (Nat.lt_ge_cases q (length low)) as [L | L]; [now apply nth_In |]. rewrite nth_overflow in H by lia. easy.
Qed.
Lemma matrix_iff q i : i < rows -> matrix q i = true <-> In (nth i (row_heads low) 0) (nth q low []).
Proof.
  intros Hi. unfold Incid_Model.matrix. rewrite existsb_exists. split.
  - intros (h & H1 & H2). apply Nat.eqb_eq in H2. subst i. pose proof (row_of_ok _ h (in_heads q h H1)) as (_ & ->). easy.
  - intros H. eexists. split; [exact H |]. apply Nat.eqb_eq. pose proof (row_of_ok _ _ (in_heads q _ H)) as (A & B).
    assert (ND : NoDup (row_heads low)) by (apply heads_nodup; constructor). rewrite NoDup_nth in ND. apply (ND _ _ A Hi B).
Qed.
Lemma occ_uses l i : i < rows -> occ l i = uses low l (nth i (row_heads low) 0).
Proof.
  intros Hi. unfold occ, uses. f_equal. apply filter_ext. intros q. apply eq_iff_eq_true. rewrite matrix_iff by easy. rewrite <- has_in. reflexivity.
Qed.
Lemma uses_none l h : ~ In h (row_heads low) -> uses low l h = 0.
Proof.
  intros N. unfold uses. induction l as [| q l IH]; [easy |]. cbn [filter]. destruct (existsb (Nat.eqb h) (nth q low [])) eqn:E; [| easy]. exfalso. apply N. apply (in_heads q). now apply has_in.
Qed.
Lemma closed_iff l : closed l <-> closes low l.
Proof.
  split.
  - intros C h. destruct (in_dec Nat.eq_dec h (row_heads low)) as [I | I]; [| left; now apply uses_none]. destruct (row_of_ok _ h I) as (A & B). rewrite <- B, <- occ_uses by easy. now apply C.
  - intros C i Hi. rewrite occ_uses by easy. apply C.
Qed.
Lemma grown_joined l : grown l -> joined low l.
Proof.
  intros G l1 q l2 E N. destruct (G l1 q l2 E N) as (p & j & A & B & C & D). exists p, (nth j (row_heads low) 0). apply matrix_iff in C; [| easy]. apply matrix_iff in D; easy.
Qed.
Lemma edges_of : all_edges columns low -> edges.
Proof.
  intros A q Hq. destruct (A q Hq) as (a & b & Nab & M). assert (Ia : In a (row_heads low)) by (apply (in_heads q), M; now left). assert (Ib : In b (row_heads low)) by (apply (in_heads q), M; now right).
  destruct (row_of_ok _ a Ia) as (A1 & A2). destruct (row_of_ok _ b Ib) as (B1 & B2).
  exists (row_of (row_heads low) a), (row_of (row_heads low) b). split; [congruence |]. split; [easy |]. split; [easy |]. intros i.
  assert (Z : matrix q i = true -> i < rows).
  { unfold Incid_Model.matrix. rewrite existsb_exists. intros (h & H1 & H2). apply Nat.eqb_eq in H2. subst i. now apply row_of_ok, (in_heads q). }
  assert (ND : NoDup (row_heads low)) by (apply heads_nodup; constructor). pose proof (proj1 (NoDup_nth (row_heads low) 0) ND) as NI. split.
  - intros H. pose proof (Z H) as Hi. apply matrix_iff in H; [| easy]. apply M in H. destruct H as [H | H]; [left | right]; apply (NI _ _ Hi); [easy | congruence | easy | congruence].
  - intros [-> | ->]; (apply matrix_iff; [easy |]); apply M; [left | right]; congruence.
Qed.

(** ** Searches *)
Definition loop (l : list nat) : Prop := l <> [] /\ NoDup l /\ (forall q, In q l -> q < columns) /\ closed l.
Variable le : Q -> Q -> Prop.
Hypothesis le_refl : forall a, le a a.
Hypothesis le_trans : forall a b c, le a b -> le b c -> le a c.
Hypothesis le_of : forall a b, (a <= b)%Q -> le a b.
Hypothesis le_eps : forall l1 l2, loop l1 -> loop l2 -> (cm l2 <= cm l1 + eps)%Q -> le (cm l2) (cm l1).
Hypothesis le_sub : forall l1 l2, NoDup l1 -> NoDup l2 -> incl l1 l2 -> (forall q, In q l2 -> q < columns) -> le (cm l1) (cm l2).
Hypothesis small : forall l, loop l -> (cm l + eps <= huge)%Q.

Lemma sound_loop v l : sound v l -> loop l.
Proof. intros (A & B & C & D & _). split; [easy |]. split; [easy |]. split; [| easy]. intros q Q. now apply C. Qed.
Lemma start_ok v q st m : q < columns -> nth q v 0%Z = 1%Z -> zs [] st ->
  spec v le [] q st [] huge (recursive_find head low meas v (S columns) q 1 (State (count (canon st [] [] m)) (hidden (canon st [] [] m)) (stub (canon st [] [] m)) (order (canon st [] [] m)) (best (canon st [] [] m)) huge)).
Proof.
  intros Hq V Z. change (State _ _ _ _ _ _) with (canon st [] [] huge). apply (find_ok v le); auto.
  - intros l1 l2 S1 S2. apply le_eps; eapply sound_loop; eauto.
  - intros l1 l2 N1 N2 I F. apply le_sub; auto. intros w W. now apply F.
  - intros l S. apply small. eapply sound_loop; eauto.
  - split; [repeat constructor; easy |]. split; [intros w [<- | []]; split; [easy | lia] |]. split; [| intros i _; cbn; lia].
    intros l1 w l2 E N. destruct l1 as [| a l1]; [easy |]. cbn [app] in E. injection E as -> E. now destruct l1.
  - now left.
  - cbn [length]. lia.
Qed.
Definition ones (v : list Z) : nat := length (filter (fun q => (nth q v 0 =? 1)%Z) (seq 0 columns)).
Lemma ones_put v q : q < columns -> nth q v 0%Z = 1%Z -> ones (put v q (nth q v 0 - 1)%Z 0%Z) < ones v.
Proof.
  intros Hq V. assert (Hl : q < length v) by (destruct (Nat.lt_ge_cases q (length v)); [easy | rewrite nth_overflow in V by lia; discriminate]).
  assert (P : forall k, nth k (put v q (nth q v 0 - 1)%Z 0%Z) 0%Z = if k =? q then 0%Z else nth k v 0%Z).
  { intros k. unfold put. rewrite nth_tab, V. destruct (Nat.ltb_spec k (length v)); [destruct (k =? q); easy |]. rewrite (nth_overflow v) by lia. now destruct (k =? q). }
  revert P. generalize (put v q (nth q v 0 - 1)%Z 0%Z). intros w P.
  unfold ones. assert (G : forall l, (length (filter (fun k => (nth k w 0 =? 1)%Z) l) <= length (filter (fun k => (nth k v 0 =? 1)%Z) l)) /\
    (In q l -> length (filter (fun k => (nth k w 0 =? 1)%Z) l) < length (filter (fun k => (nth k v 0 =? 1)%Z) l))).
  { induction l as [| k l IH]; [easy |]. cbn [filter In]. rewrite P. destruct IH as (I1 & I2). destruct (Nat.eqb_spec k q) as [-> | Nk].
    - rewrite V. cbn [Z.eqb Pos.eqb length]. split; [lia |]. intros _. lia.
    - destruct (nth k v 0 =? 1)%Z; cbn [length]; split; try lia; intros [H | H]; try contradiction; apply I2 in H; lia. }
  apply G. apply in_seq. lia.
Qed.
Lemma put_visits v q : nth q v 0%Z = 1%Z -> forall k, nth k (put v q (nth q v 0 - 1)%Z 0%Z) 0%Z = if k =? q then 0%Z else nth k v 0%Z.
Proof. intros V k. unfold put. rewrite nth_tab, V. destruct (Nat.ltb_spec k (length v)); [destruct (k =? q); easy |]. rewrite (nth_overflow v) by lia. now destruct (k =? q). Qed.

Definition given_up (v v' : list Z) (q : nat) : Prop := nth q v 0%Z = 1%Z /\ nth q v' 0%Z = 0%Z /\ (edges -> forall S, target v S -> ~ In q S).
Definition found (v' : list Z) (b : list nat) (m : Q) : Prop :=
  sound v' b /\ m = cm b /\ nth (hd 0 b) v' 0%Z = 1%Z /\ (edges -> forall S, target v' S -> In (hd 0 b) S -> length S <= length b -> le m (cm S)).
Lemma search_ok : forall f v st m0, ones v < f -> zs [] st ->
  exists v' st' b m, search head low meas f v (canon st [] [] m0) = Some (v', canon st' [] b m) /\ zs [] st' /\
    (forall q, nth q v' 0%Z = nth q v 0%Z \/ given_up v v' q) /\
    ((b = [] /\ forall q, q < columns -> nth q v' 0%Z <> 1%Z) \/ found v' b m).
Proof.
  induction f as [| f IH]; intros v st m0 Hf Z; [lia |]. cbn [search]. destruct (find (fun q => (nth q v 0 =? 1)%Z) (seq 0 columns)) as [q |] eqn:E.
  - apply find_some in E. destruct E as (E1 & E2). apply in_seq in E1. apply Z.eqb_eq in E2. assert (Hq : q < columns) by lia.
    destruct (start_ok v q st m0 Hq E2 Z) as (st1 & b1 & m1 & R & Z1 & V1 & T1). rewrite R. cbn [canon best].
    destruct V1 as [(-> & ->) | (S1 & (r & ->) & -> & _)].
    + cbn [length Nat.eqb]. destruct (IH (put v q (nth q v 0 - 1)%Z 0%Z) st1 huge) as (v' & st' & b & m & A1 & A2 & A3 & A4); [pose proof (ones_put v q Hq E2); lia | easy |].
      exists v', st', b, m. split; [exact A1 |]. split; [easy |]. split; [| exact A4]. pose proof (put_visits v q E2) as P.
      assert (NS : edges -> forall S, target v S -> ~ In q S).
      { intros Ed S T I. destruct (T1 Ed S) as (W & _); [| now apply W]. split; [easy |]. split; [| now left]. cbn [app]. intros w [<- | []]. easy. }
      intros k. destruct (A3 k) as [B | (B1 & B2 & B3)].
      * rewrite P in B. destruct (Nat.eqb_spec k q) as [Ek | _]; [| now left]. right. rewrite Ek in *. now split.
      * right. rewrite P in B1. destruct (k =? q); [discriminate |]. split; [easy |]. split; [easy |]. intros Ed S T I.
        apply (B3 Ed S); [| easy]. destruct T as (T1' & T2 & T3). split; [easy |]. split; [| easy]. intros w W. destruct (T2 w W) as (F1 & F2). split; [easy |]. rewrite P. destruct (Nat.eqb_spec w q) as [-> |]; [| easy].
        exfalso. apply (NS Ed S); [now split |]. easy.
    + cbn [app length Nat.eqb]. exists v, st1, ([q] ++ r), (cm ([q] ++ r)). split; [reflexivity |]. split; [easy |]. split; [now left |]. right.
      split; [easy |]. split; [easy |]. split; [easy |]. intros Ed S T I L. destruct (T1 Ed S) as (_ & W); [| now apply W]. split; [easy |]. split; [| now left]. cbn [app]. intros w [<- | []]. easy.
  - exists v, st, [], m0. split; [reflexivity |]. split; [easy |]. split; [now left |]. left. split; [easy |]. intros q Hq Q.
    assert (In q (seq 0 columns)) as I by (apply in_seq; lia). apply (find_none _ _ E) in I. cbv beta in I. rewrite Q in I. discriminate.
Qed.
Lemma ones_le v : ones v <= columns.
Proof. unfold ones. assert (forall l, length (filter (fun q => (nth q v 0 =? 1)%Z) l) <= length l) as G; [| specialize (G (seq 0 columns)); now rewrite seq_length in G]. induction l as [| k l IH]; [easy |]. cbn [filter]. destruct (_ =? _)%Z; cbn [length]; lia. Qed.

Lemma search_length f : forall v s v1 s1, length v = columns -> search head low meas f v s = Some (v1, s1) -> length v1 = columns.
Proof.
  induction f as [| f IH]; intros v s v1 s1 L E; [discriminate |]. cbn [search] in E. destruct (find _ _) as [k |]; [| injection E as <- _; easy].
  destruct (recursive_find _ _ _ _ _ _ _ _) as [s2 |]; [| discriminate]. destruct (length (best s2) =? 0); [| injection E as <- _; easy].
  eapply IH; [| exact E]. unfold put. now rewrite tab_length.
Qed.
Lemma find_loop_ok v st m0 : zs [] st -> length v = columns -> NoDup head ->
  exists v1 v' st' b m, find_shortest_loop head low meas v (canon st [] [] m0) = Some (v', canon st' [] [] m, map (fun q => nth q head 0) b) /\ zs [] st' /\
    (forall q, nth q v1 0%Z = nth q v 0%Z \/ given_up v v1 q) /\
    (forall q, q < columns -> nth q v' 0%Z = (nth q v1 0 - if has b q then 1 else 0)%Z) /\ length v' = columns /\
    ((b = [] /\ forall q, q < columns -> nth q v1 0%Z <> 1%Z) \/ found v1 b m).
Proof.
  intros Z Lv N. unfold find_shortest_loop. pose proof (ones_le v). destruct (search_ok (S columns) v st m0) as (v1 & st' & b & m & A1 & A2 & A3 & A4); [lia | easy |]. rewrite A1. cbn [canon best].
  rewrite map_length. exists v1.
  assert (Lv1 : forall q, columns <= q -> nth q v1 0%Z = 0%Z). { intros q Hq. destruct (A3 q) as [B | (B1 & B2 & _)]; [| easy]. rewrite B. apply nth_overflow. lia. }
  destruct (Nat.eqb_spec (length b) 0) as [E | E].
  - apply length_zero_iff_nil in E. subst b.
    assert (L1 : length v1 = columns) by (eapply search_length; eauto).
    exists v1, st', [], m. split; [reflexivity |]. split; [easy |]. split; [easy |]. split; [intros q Hq; cbn [has existsb]; lia |]. split; [easy |]. exact A4.
  - eexists. exists st', b, m. split; [reflexivity |]. split; [easy |]. split; [easy |]. split; [| split; [apply tab_length | easy]].
    intros q Hq. rewrite nth_tab. destruct (Nat.ltb_spec q columns) as [_ |]; [| lia].
    assert (H1 : has (map (fun q => nth q head 0) b) (nth q head 0) = has b q).
    { apply eq_iff_eq_true. rewrite !has_in, in_map_iff. split; [| intros I; now exists q]. intros (k & K1 & K2). destruct A4 as [(-> & _) | ((_ & _ & F & _) & _)]; [easy |].
      pose proof (proj1 (NoDup_nth head 0) N) as N'. destruct (F k K2) as (F1 & _). unfold Incid_Model.columns in F1, Hq. assert (k = q) by (apply (N' k q); easy). congruence. }
    rewrite H1. destruct (has b q); lia.
Qed.

(** ** All loops *)
Definition used (L : list (list nat)) (h : nat) : nat := length (filter (fun l => has l h) L).
Definition sum_visits (v : list Z) : nat := list_sum (map (fun q => Z.to_nat (nth q v 0%Z)) (seq 0 columns)).
Lemma sum_less v w : (forall q, q < columns -> (0 <= nth q w 0 <= nth q v 0)%Z) -> sum_visits w <= sum_visits v.
Proof.
  intros H. unfold sum_visits. assert (G : forall l, (forall q, In q l -> q < columns) -> list_sum (map (fun q => Z.to_nat (nth q w 0%Z)) l) <= list_sum (map (fun q => Z.to_nat (nth q v 0%Z)) l)).
  { induction l as [| k l IH]; intros Hl; [easy |]. cbn [map list_sum fold_right]. assert (k < columns) as Hk by (apply Hl; now left). apply H in Hk. specialize (IH (fun q Q => Hl q (or_intror Q))). unfold list_sum in IH. lia. }
  apply G. intros q Q. apply in_seq in Q. lia.
Qed.
Lemma sum_lt v w k : (forall q, q < columns -> (0 <= nth q w 0 <= nth q v 0)%Z) -> k < columns -> (nth k w 0 < nth k v 0)%Z -> sum_visits w < sum_visits v.
Proof.
  intros H Hk K. unfold sum_visits. assert (G : forall l, (forall q, In q l -> q < columns) ->
    list_sum (map (fun q => Z.to_nat (nth q w 0%Z)) l) <= list_sum (map (fun q => Z.to_nat (nth q v 0%Z)) l) /\ (In k l -> list_sum (map (fun q => Z.to_nat (nth q w 0%Z)) l) < list_sum (map (fun q => Z.to_nat (nth q v 0%Z)) l))).
  { induction l as [| p l IH]; intros Hl; [easy |]. cbn [map list_sum fold_right In]. assert (p < columns) as Hp by (apply Hl; now left). pose proof (H p Hp). specialize (IH (fun q Q => Hl q (or_intror Q))). unfold list_sum in IH. destruct IH as (I1 & I2).
    split; [lia |]. intros [-> | I]; [lia |]. apply I2 in I. lia. }
  apply G; [intros q Q; apply in_seq in Q; lia | apply in_seq; lia].
Qed.
Lemma all_loops_ok : NoDup head -> forall f v st m0, zs [] st -> length v = columns -> (forall q, q < columns -> (0 <= nth q v 0)%Z) -> sum_visits v < f ->
  exists L v', all_loops head low meas f v (canon st [] [] m0) = Some (L, v') /\
    (forall r, In r L -> exists l, r = map (fun q => nth q head 0) l /\ loop l /\ grown l /\ forall q, In q l -> (0 < nth q v 0)%Z) /\
    (forall q, q < columns -> (0 <= nth q v' 0)%Z /\ nth q v' 0%Z <> 1%Z /\
      (nth q v' 0 = nth q v 0 - Z.of_nat (used L (nth q head 0%nat)) \/ (nth q v' 0 = 0 /\ nth q v 0 = Z.of_nat (used L (nth q head 0%nat)) + 1))%Z) /\
    (edges -> forall l, loop l -> (forall w, In w l -> (Z.of_nat (used L (nth w head 0%nat)) < nth w v 0)%Z) -> forall w, In w l -> (nth w v 0 - Z.of_nat (used L (nth w head 0%nat)) <> 1)%Z).
Proof.
  intros N. induction f as [| f IH]; intros v st m0 Z Lv P Hf; [lia |]. cbn [all_loops].
  destruct (find_loop_ok v st m0 Z Lv N) as (v1 & v' & st' & b & m & E & Z' & G & V & L' & A). rewrite E, map_length.
  assert (G1 : forall q, nth q v1 0%Z = nth q v 0%Z \/ (nth q v 0%Z = 1%Z /\ nth q v1 0%Z = 0%Z)). { intros q. destruct (G q) as [W | (W1 & W2 & _)]; auto. }
  destruct A as [(-> & A) | A].
  - cbn [length Nat.eqb]. exists [], v'. split; [easy |]. split; [easy |]. split.
    + intros q Hq. specialize (V q Hq). cbn [has existsb] in V. specialize (A q Hq). specialize (P q Hq). cbn [used filter length Z.of_nat]. destruct (G1 q); lia.
    + intros Ed l (L1 & L2 & L3 & L4) F w W. cbn [used filter length Z.of_nat] in *. intros Q. specialize (A w (L3 w W)). destruct (G w) as [K | (_ & _ & K)]; [lia |].
      apply (K Ed l); [| easy]. split; [easy |]. split; [| easy]. intros x X. split; [now apply L3 | now apply F].
  - destruct A as (S1 & S2 & S3 & S4). destruct (Nat.eqb_spec (length b) 0) as [E0 | E0]; [destruct S1 as (S1 & _); apply length_zero_iff_nil in E0; contradiction |].
    pose proof S1 as (NE & ND & F & C & Gr).
    assert (V0 : forall q, q < columns -> (0 <= nth q v' 0 <= nth q v 0)%Z).
    { intros q Hq. rewrite V by easy. specialize (P q Hq). destruct (has b q) eqn:H; [apply has_in, F in H; destruct H as (_ & H) |]; destruct (G1 q); lia. }
    assert (Hh : In (hd 0 b) b) by (destruct b; [easy | now left]).
    assert (Lt : sum_visits v' < sum_visits v).
    { destruct (F _ Hh) as (F1 & F2). apply (sum_lt v v' (hd 0 b) V0 F1). rewrite V by easy. apply has_in in Hh. rewrite Hh. destruct (G1 (hd 0 b)); lia. }
    destruct (IH v' st' m Z' L') as (L & v2 & E2 & B1 & B2 & B6); [intros q Hq; now apply V0 | lia |]. rewrite E2. exists (map (fun q => nth q head 0) b :: L), v2. split; [easy |].
    assert (H0 : forall q, q < columns -> has (map (fun q => nth q head 0) b) (nth q head 0) = has b q).
    { intros q Hq. apply eq_iff_eq_true. rewrite !has_in, in_map_iff. split; [| intros I; now exists q]. intros (k & K1 & K2). pose proof (proj1 (NoDup_nth head 0) N) as N'. destruct (F k K2) as (F1 & _). unfold Incid_Model.columns in F1, Hq. assert (k = q) by (apply (N' k q); easy). congruence. }
    split; [| split].
    + intros r [<- | R].
      * exists b. split; [easy |]. split; [now apply (sound_loop v1) |]. split; [easy |]. intros q Q. destruct (F q Q) as (F1 & F2). destruct (G1 q); lia.
      * destruct (B1 r R) as (l & R1 & R2 & R3 & R4). exists l. split; [easy |]. split; [easy |]. split; [easy |]. intros q Q. specialize (R4 q Q). assert (q < columns) as Hq by now apply R2. specialize (V0 q Hq). lia.
    + intros q Hq. destruct (B2 q Hq) as (B3 & B4 & B5). split; [easy |]. split; [easy |]. unfold used in *. cbn [filter].
      rewrite H0 by easy. specialize (V q Hq). specialize (V0 q Hq). destruct (has b q) eqn:H; cbn [length]; [| destruct (G1 q); lia].
      apply has_in, F in H. destruct H as (_ & H). destruct (G1 q); lia.
    + intros Ed l Ll Fl w W. pose proof Ll as (L1 & L2 & L3 & L4).
      assert (T : target v l) by (split; [easy |]; split; [| easy]; intros x X; split; [now apply L3 | specialize (Fl x X); lia]).
      assert (Q : forall x, In x l -> (nth x v' 0 - Z.of_nat (used L (nth x head 0%nat)) = nth x v 0 - Z.of_nat (used (map (fun q => nth q head 0%nat) b :: L) (nth x head 0%nat)))%Z).
      { intros x X. rewrite V by now apply L3. unfold used. cbn [filter]. rewrite H0 by now apply L3. destruct (G x) as [K | (_ & _ & K)]; [| exfalso; now apply (K Ed l)]. rewrite K. destruct (has b x); cbn [length]; lia. }
      rewrite <- (Q w W). apply (B6 Ed l Ll); [| easy]. intros x X. specialize (Q x X). specialize (Fl x X). lia.
Qed.
End Matrix.
