From Coq Require Import List Arith Bool Lia Relations Permutation.
From Verif Require Import Geom_Model Geom_Spec Orient_Model Orient_Spec.
Import ListNotations.

Section S.
Variable s : surf.

Lemma other_joins e a b : joins s e a b -> other s e a = b.
Proof.
  unfold other. intros [E|E]; rewrite E; cbn [fst snd]; [rewrite Nat.eqb_refl; reflexivity|].
  destruct (Nat.eqb_spec a b); auto.
Qed.
Lemma trace_path : forall es e a b l x, length es = length l ->
  (forall e' p, In (e', p) (combine es (pairs (b :: l))) -> joins s e' (fst p) (snd p)) ->
  trace_from s a b (e :: es) (es ++ [x]) = combine (e :: es) (pairs (a :: b :: l)).
Proof.
  induction es as [|e' es IH]; intros e a b l x L J.
  - destruct l; [reflexivity|discriminate].
  - destruct l as [|c l]; [discriminate|]. cbn [app trace_from combine pairs]. f_equal.
    change (pairs (b :: c :: l)) with ((b, c) :: pairs (c :: l)) in J. cbn [combine] in J.
    rewrite (other_joins e' b c) by (apply (J e' (b, c)); left; reflexivity).
    apply (IH e' b c l x); [cbn in L; lia|]. intros e2 p I. apply J. right. exact I.
Qed.
Lemma trace_loop es ns : loop s es ns -> trace s es = Some (combine es (loop_edges ns)).
Proof.
  intros (L & L3 & Nn & _ & J). destruct ns as [|n0 [|n1 [|n2 ns]]]; cbn in L3; try lia.
  destruct es as [|e0 [|e1 es]]; cbn in L; try lia. unfold trace.
  assert (J0 : joins s e0 n0 n1) by (apply (J e0 (n0, n1)); left; reflexivity).
  assert (J1 : joins s e1 n1 n2) by (apply (J e1 (n1, n2)); right; left; reflexivity).
  inversion Nn as [|? ? A0 Nn1]; subst. inversion Nn1 as [|? ? A1 _]; subst. cbn [In] in *.
  assert (St : start_nodes s e0 e1 = (n0, n1)).
  { assert (E1 : fst (ends s e1) = n1 /\ snd (ends s e1) = n2 \/ fst (ends s e1) = n2 /\ snd (ends s e1) = n1)
      by (destruct J1 as [E|E]; rewrite E; cbn; auto).
    unfold start_nodes. destruct J0 as [E|E]; rewrite E; destruct E1 as [(-> & ->)|(-> & ->)]; cbn [fst snd].
    - destruct (Nat.eqb_spec n0 n1); [exfalso; auto|]. destruct (Nat.eqb_spec n0 n2); [exfalso; auto|]. reflexivity.
    - destruct (Nat.eqb_spec n0 n2); [exfalso; auto|]. destruct (Nat.eqb_spec n0 n1); [exfalso; auto|]. reflexivity.
    - rewrite Nat.eqb_refl. reflexivity.
    - rewrite Nat.eqb_refl, orb_true_r. reflexivity. }
  rewrite St. f_equal. unfold loop_edges.
  replace (e1 :: es ++ [e0]) with ((e1 :: es) ++ [e0]) by reflexivity.
  change ((n0 :: n1 :: n2 :: ns) ++ [n0]) with (n0 :: n1 :: (n2 :: ns ++ [n0])).
  apply trace_path.
  - cbn [length] in *. rewrite app_length. cbn [length]. lia.
  - intros e' p I. apply J. unfold loop_edges.
    change ((n0 :: n1 :: n2 :: ns) ++ [n0]) with (n0 :: n1 :: (n2 :: ns ++ [n0])).
    change (pairs (n0 :: n1 :: n2 :: ns ++ [n0])) with ((n0, n1) :: pairs (n1 :: n2 :: ns ++ [n0])). right. exact I.
Qed.

Definition mu (faces : list nat) (m : nat -> bool) : nat := length (filter m faces).
Lemma mu_set faces m g : mu faces (set m g false) <= mu faces m.
Proof.
  unfold mu. induction faces as [|f l IH]; [reflexivity|]. cbn [filter]. unfold set at 1. destruct (f =? g); [destruct (m f); cbn; lia|].
  destruct (m f); cbn; lia.
Qed.
Lemma mu_set_lt faces m g : In g faces -> m g = true -> S (mu faces (set m g false)) <= mu faces m.
Proof.
  unfold mu. induction faces as [|f l IH]; intros I M; [contradiction|]. cbn [filter]. unfold set at 1.
  destruct (Nat.eqb_spec f g) as [->|N].
  - rewrite M. cbn [length]. pose proof (mu_set l m g) as X. unfold mu in X. lia.
  - destruct I as [->|I]; [contradiction|]. specialize (IH I M). destruct (m f); cbn; lia.
Qed.
Definition sched_ok (faces : list nat) (src : entry -> Prop) (seen : nat -> Prop) (st st' : (nat -> bool) * list entry) : Prop :=
  (forall g, fst st' g = true -> fst st g = true) /\
  (forall g, fst st g = true -> fst st' g = true \/ In g (map snd (snd st'))) /\
  (forall g, seen g -> fst st' g = false) /\
  (forall r, In r (snd st') -> In r (snd st) \/ src r /\ fst st (snd r) = true) /\
  (forall r, In r (snd st) -> In r (snd st')) /\
  ((forall g, fst st g = true -> In g faces) -> mu faces (fst st') + length (snd st') <= mu faces (fst st) + length (snd st)).
Lemma sched_refl faces src st : sched_ok faces src (fun _ => False) st st.
Proof. repeat split; auto; contradiction. Qed.
Lemma sched_trans faces src s1 s2 a b c : sched_ok faces src s1 a b -> sched_ok faces src s2 b c ->
  sched_ok faces src (fun g => s1 g \/ s2 g) a c.
Proof.
  intros (A1 & A2 & A3 & A4 & A5 & A6) (B1 & B2 & B3 & B4 & B5 & B6). repeat split.
  - auto.
  - intros g H. destruct (A2 g H) as [X|X]; [apply B2, X|]. right. apply in_map_iff in X. destruct X as (r & <- & I). apply in_map, B5, I.
  - intros g [H|H]; [|apply B3, H]. specialize (A3 g H). destruct (fst c g) eqn:E; [apply B1 in E; congruence|reflexivity].
  - intros r I. destruct (B4 r I) as [X|(X & Y)]; [apply A4, X|]. right. split; [assumption|apply A1, Y].
  - auto.
  - intros H. specialize (A6 H). assert (X : forall g, fst b g = true -> In g faces) by auto. specialize (B6 X). lia.
Qed.
Lemma sched_weaken faces src (s1 s2 : nat -> Prop) a b : (forall g, s2 g -> s1 g) -> sched_ok faces src s1 a b -> sched_ok faces src s2 a b.
Proof. intros W (A1 & A2 & A3 & A4 & A5 & A6). repeat split; auto. Qed.
Lemma sched_src faces (src1 src2 : entry -> Prop) seen a b : (forall r, src1 r -> src2 r) -> sched_ok faces src1 seen a b -> sched_ok faces src2 seen a b.
Proof. intros W (A1 & A2 & A3 & A4 & A5 & A6). repeat split; auto. intros r I. destruct (A4 r I) as [X|(X & Y)]; auto. Qed.
Lemma sched_one faces st (e n g : nat) :
  sched_ok faces (fun r => r = (e, n, g)) (fun x => x = g) st
    (if fst st g then (set (fst st) g false, snd st ++ [(e, n, g)]) else st).
Proof.
  destruct (fst st g) eqn:M.
  - repeat split; cbn [fst snd].
    + intros x. unfold set. destruct (x =? g); [discriminate|auto].
    + intros x H. unfold set. destruct (Nat.eqb_spec x g) as [->|N]; [|auto]. right. rewrite map_app, in_app_iff. right. left. reflexivity.
    + intros x ->. unfold set. rewrite Nat.eqb_refl. reflexivity.
    + intros r I. apply in_app_iff in I. destruct I as [I|[<-|[]]]; auto.
    + intros r I. apply in_app_iff. auto.
    + intros H. rewrite app_length. cbn [length]. pose proof (mu_set_lt faces (fst st) g (H g M) M). lia.
  - repeat split; auto. intros x ->. assumption.
Qed.
Definition src_of (reverse : bool) (t : nat * (nat * nat)) (r : entry) : Prop :=
  fst (fst r) = fst t /\ snd (fst r) = fst (side reverse (snd t)) /\ In (snd r) (efaces s (fst t)).
Lemma side_fst (reverse : bool) (p : nat * nat) : (if reverse then snd p else fst p) = fst (side reverse p).
Proof. destruct reverse; reflexivity. Qed.
Lemma schedule_ok faces reverse t st :
  sched_ok faces (src_of reverse t) (fun g => In g (efaces s (fst t))) st (schedule s reverse st t).
Proof.
  unfold schedule. rewrite side_fst. set (n := fst (side reverse (snd t))).
  assert (G : forall l st, (forall g, In g l -> In g (efaces s (fst t))) ->
    sched_ok faces (src_of reverse t) (fun g => In g l) st
     (fold_left (fun (st : (nat -> bool) * list entry) g => if fst st g then (set (fst st) g false, snd st ++ [(fst t, n, g)]) else st) l st)).
  { clear st. induction l as [|g l IH]; intros st W; [apply sched_refl|]. cbn [fold_left].
    eapply sched_weaken; [|eapply sched_trans; [|apply IH; intros x I; apply W; right; exact I]].
    2:{ eapply sched_src; [|apply sched_one]. intros r ->. split; [reflexivity|]. split; [reflexivity|]. apply W. left. reflexivity. }
    intros x [->|I]; auto. }
  apply G. auto.
Qed.
Lemma schedule_all faces reverse : forall tr st,
  sched_ok faces (fun r => exists t, In t tr /\ src_of reverse t r) (fun g => exists t, In t tr /\ In g (efaces s (fst t))) st
    (fold_left (schedule s reverse) tr st).
Proof.
  induction tr as [|t tr IH]; intros st; cbn [fold_left].
  - eapply sched_weaken; [|apply sched_refl]. intros g (t & [] & _).
  - apply (sched_weaken _ _ (fun g => In g (efaces s (fst t)) \/ exists t', In t' tr /\ In g (efaces s (fst t')))); [|eapply sched_trans].
    + intros g (t' & [<-|I] & J); [left; exact J|right; exists t'; auto].
    + eapply sched_src; [|apply schedule_ok]. intros r H. exists t. split; [left; reflexivity|exact H].
    + eapply sched_src; [|apply IH]. intros r (t' & I & H). exists t'. split; [right; exact I|exact H].
Qed.
Lemma schedule_none reverse : forall tr st, (forall t g, In t tr -> In g (efaces s (fst t)) -> fst st g = false) ->
  fold_left (schedule s reverse) tr st = st.
Proof.
  induction tr as [|t tr IH]; intros st H; [reflexivity|]. cbn [fold_left].
  assert (E : schedule s reverse st t = st).
  { unfold schedule. assert (G : forall g, In g (efaces s (fst t)) -> fst st g = false) by (intros; apply (H t); [left; reflexivity|assumption]).
    induction (efaces s (fst t)) as [|g l IHl]; [reflexivity|]. cbn [fold_left]. rewrite (G g) by (left; reflexivity). apply IHl. intros x I. apply G. right. exact I. }
  rewrite E. apply IH. intros t' g I. apply H. right. exact I.
Qed.

Variable nodes : nat -> list nat.
Variable faces : list nat.
Variable o : nat -> bool.
Variable f0 : nat.
Hypothesis SH : shell s nodes faces.
Hypothesis CO : consistent s nodes faces o.
Hypothesis F0 : In f0 faces.
Hypothesis O0 : o f0 = false.

Definition dir f := combine (fedges s f) (loop_edges (nodes f)).
Lemma trace_face f : In f faces -> trace s (fedges s f) = Some (dir f).
Proof. intros I. apply trace_loop, (proj2 SH f I). Qed.
Lemma pairs_len {A} (l : list A) : length (pairs l) = length l - 1.
Proof.
  induction l as [|a l IH]; [reflexivity|]. destruct l as [|b l]; [reflexivity|].
  change (pairs (a :: b :: l)) with ((a, b) :: pairs (b :: l)). cbn [length] in *. lia.
Qed.
Lemma loop_len {A} (l : list A) : length (loop_edges l) = length l.
Proof. destruct l as [|a l]; [reflexivity|]. unfold loop_edges. rewrite pairs_len, app_length. cbn. lia. Qed.
Lemma combine_fst_in {A B} (a : list A) (b : list B) x : length a = length b -> In x a -> exists y, In (x, y) (combine a b).
Proof.
  revert b. induction a as [|y a IH]; intros [|z b] L I; try discriminate; [contradiction|]. cbn in *.
  destruct I as [->|I]; [exists z; auto|]. destruct (IH b) as (w & J); [lia|assumption|]. exists w. auto.
Qed.
Lemma dir_edge f e : In f faces -> (In e (fedges s f) <-> exists p, In (e, p) (dir f)).
Proof.
  intros I. split.
  - intros J. apply combine_fst_in; [|exact J]. rewrite loop_len. apply (proj2 SH f I).
  - intros (p & J). apply in_combine_l in J. exact J.
Qed.
Lemma dir_unique f e p q : In f faces -> In (e, p) (dir f) -> In (e, q) (dir f) -> p = q.
Proof.
  intros I. destruct (proj2 SH f I) as (_ & _ & _ & ND & _). unfold dir. revert ND. generalize (fedges s f), (loop_edges (nodes f)).
  induction l as [|a l IH]; intros [|b m] ND H1 H2; try contradiction. cbn in *. inversion ND as [|? ? X Y]; subst.
  destruct H1 as [E1|H1], H2 as [E2|H2].
  - congruence.
  - exfalso. injection E1 as -> ->. apply X. apply in_combine_l in H2. exact H2.
  - exfalso. injection E2 as -> ->. apply X. apply in_combine_l in H1. exact H1.
  - apply (IH m Y H1 H2).
Qed.
Lemma dir_distinct f e p : In f faces -> In (e, p) (dir f) -> fst p <> snd p.
Proof.
  intros I J. destruct (proj2 SH f I) as (_ & L3 & ND & _ & _). apply in_combine_r in J. unfold loop_edges in J.
  destruct (nodes f) as [|a l]; [contradiction|]. clear -ND J L3.
  assert (G : forall l : list nat, NoDup l -> forall p, In p (pairs l) -> fst p <> snd p).
  { clear. induction l as [|a l IH]; intros N p; [intros []|]. destruct l as [|b l]; [intros []|].
    inversion N as [|? ? X Y]; subst. intros [<-|I]; [cbn; intros ->; apply X; left; reflexivity|apply (IH Y p I)]. }
  destruct (@exists_last _ (a :: l)) as (m & z & E); [discriminate|]. rewrite E, <- app_assoc in J. cbn [app] in J.
  assert (PS : forall (l : list nat) a b, pairs (l ++ [a; b]) = pairs (l ++ [a]) ++ [(a, b)]).
  { clear. induction l as [|x l IH]; intros a b; [reflexivity|]. destruct l as [|y l]; [reflexivity|].
    change ((x :: y :: l) ++ [a; b]) with (x :: y :: (l ++ [a; b])). change ((x :: y :: l) ++ [a]) with (x :: y :: (l ++ [a])).
    change (pairs (x :: y :: l ++ [a; b])) with ((x, y) :: pairs ((y :: l) ++ [a; b])).
    change (pairs (x :: y :: l ++ [a])) with ((x, y) :: pairs ((y :: l) ++ [a])). rewrite IH. reflexivity. }
  rewrite PS in J. apply in_app_iff in J. rewrite E in ND. destruct J as [J|[<-|[]]]; [apply (G _ ND p J)|].
  cbn. intros ->. destruct m as [|y m]; [destruct l; [cbn in L3; lia|discriminate]|]. cbn in E. injection E as <- _.
  cbn in ND. inversion ND as [|? ? X Y]; subst. apply X, in_app_iff. right. left. reflexivity.
Qed.
Lemma find_dir f e p : In f faces -> In (e, p) (dir f) -> find (fun t => fst t =? e) (dir f) = Some (e, p).
Proof.
  intros I J. destruct (find (fun t => fst t =? e) (dir f)) as [(e' & q)|] eqn:E.
  - apply find_some in E. destruct E as (K & Q). cbn in Q. apply Nat.eqb_eq in Q. subst e'. rewrite (dir_unique f e p q I J K). reflexivity.
  - exfalso. apply (find_none _ _ E) in J. cbn in J. rewrite Nat.eqb_refl in J. discriminate.
Qed.
(** an entry of the queue made from a face with the right direction *)
Definition good (r : entry) : Prop :=
  In (snd r) faces /\ In (fst (fst r)) (fedges s (snd r)) /\
  exists f p, In f faces /\ f <> snd r /\ In (fst (fst r), p) (dir f) /\ snd (fst r) = fst (side (o f) p).
Lemma reversed_good e n g : good (e, n, g) -> reversed (dir g) e n = o g.
Proof.
  intros (Ig & Ie & f & p & If & N & J & En). cbn [fst snd] in *. apply dir_edge in Ie; [|assumption]. destruct Ie as (q & Iq).
  unfold reversed. rewrite (find_dir g e q Ig Iq). cbn [fst snd].
  assert (C : side (o g) q = flip (side (o f) p)).
  { apply (CO f g e); auto; apply in_map_iff; [exists (e, p)|exists (e, q)]; split; auto. }
  pose proof (dir_distinct g e q Ig Iq) as D. destruct (o g); cbn [side] in C.
  - apply Nat.eqb_eq. rewrite En. apply (f_equal snd) in C. cbn in C. symmetry. exact C.
  - apply Nat.eqb_neq. rewrite En. apply (f_equal snd) in C. cbn in C. rewrite <- C. auto.
Qed.
Definition inv (done : nat -> Prop) (cur : nat) (reverse : bool) (marks : nat -> bool) (queue : list entry) (rev : nat -> bool) : Prop :=
  (forall g, marks g = true -> In g faces) /\
  (forall g, In g faces -> marks g = true \/ done g \/ g = cur \/ In g (map snd queue)) /\
  (forall r, In r queue -> good r /\ marks (snd r) = false) /\
  (reverse = o cur /\ In cur faces /\ marks cur = false) /\
  (forall g, rev g = true -> o g = true /\ In g faces) /\
  (forall g, done g \/ g = cur -> rev g = o g) /\
  (forall f, done f -> forall g, share s faces f g -> marks g = false) /\
  (done f0 \/ cur = f0).
Lemma run_ok fuel : forall done cur reverse marks queue rev,
  inv done cur reverse marks queue rev -> mu faces marks + length queue <= fuel ->
  exists rev', run s false fuel f0 cur reverse marks queue rev = Some rev' /\
    (forall g, rev' g = true -> o g = true /\ In g faces) /\
    forall g, clos_refl_trans nat (share s faces) f0 g -> rev' g = o g.
Proof.
  induction fuel as [|fuel IH]; intros done cur reverse marks queue rev (I1 & I2 & I3 & (I4 & I4' & I4'') & I5 & I6 & I7 & I8) L.
  - cbn [run]. rewrite (trace_face cur I4'). cbv zeta.
    destruct (schedule_all faces reverse (dir cur) (marks, queue)) as (S1 & S2 & S3 & S4 & S5 & S6).
    set (st := fold_left (schedule s reverse) (dir cur) (marks, queue)) in *. cbn [fst snd] in *. specialize (S6 I1).
    destruct (snd st) as [|r q] eqn:Q; [|cbn in S6; lia].
    exists rev. split; [reflexivity|]. split; [assumption|].
    assert (V : forall g, In g faces -> done g \/ g = cur).
    { intros g Ig. destruct (I2 g Ig) as [M|[X|[X|X]]]; auto.
      - exfalso. assert (mu faces marks = 0) by lia. unfold mu in H. apply length_zero_iff_nil in H.
        assert (X : In g (filter marks faces)) by (apply filter_In; auto). rewrite H in X. contradiction.
      - apply in_map_iff in X. destruct X as (r & <- & X). apply S5 in X. contradiction. }
    intros g Rg. apply clos_rt_rtn1 in Rg. destruct Rg as [|y z Syz Rg]; apply I6.
    + destruct I8 as [|<-]; auto.
    + apply V. apply Syz.
  - cbn [run]. rewrite (trace_face cur I4'). cbv zeta.
    destruct (schedule_all faces reverse (dir cur) (marks, queue)) as (S1 & S2 & S3 & S4 & S5 & S6).
    set (st := fold_left (schedule s reverse) (dir cur) (marks, queue)) in *. cbn [fst snd] in *. specialize (S6 I1).
    assert (Near : forall g, share s faces cur g -> fst st g = false).
    { intros g (_ & Ig & e & E1 & E2). apply S3. apply dir_edge in E1; [|assumption]. destruct E1 as (p & E1).
      exists (e, p). split; [assumption|]. apply (proj1 SH e g Ig). exact E2. }
    assert (Old : forall f, done f -> forall g, share s faces f g -> fst st g = false).
    { intros f D g H. specialize (I7 f D g H). destruct (fst st g) eqn:E; [apply S1 in E; congruence|reflexivity]. }
    assert (Q' : forall r, In r (snd st) -> good r /\ fst st (snd r) = false).
    { intros r Ir. destruct (S4 r Ir) as [X|((t & It & T1 & T2 & T3) & M)].
      - destruct (I3 r X) as (A & B). split; [assumption|]. destruct (fst st (snd r)) eqn:E; [apply S1 in E; congruence|reflexivity].
      - split; [|apply S3; exists t; auto]. destruct t as (e & p). cbn [fst snd] in *.
        assert (Ir' : In (snd r) faces) by (apply I1, M). split; [assumption|]. rewrite T1. split; [apply (proj1 SH e (snd r) Ir'), T3|].
        exists cur, p. split; [assumption|]. split; [intros E; rewrite <- E in M; congruence|]. split; [assumption|]. rewrite T2, I4. reflexivity. }
    destruct (snd st) as [|((e & n) & g) q] eqn:Q.
    + exists rev. split; [reflexivity|]. split; [assumption|].
      intros g Rg. apply clos_rt_rtn1 in Rg. apply I6.
      induction Rg as [|y z Syz Rg IHR]; [destruct I8 as [|<-]; auto|].
      assert (M : fst st z = false) by (destruct IHR as [D|D]; [apply (Old y D z Syz)|apply Near; rewrite <- D; exact Syz]).
      destruct (I2 z) as [X|[X|[X|X]]]; auto; [apply Syz| |].
      * exfalso. destruct (S2 z X) as [Y|[]]. congruence.
      * exfalso. apply in_map_iff in X. destruct X as (r & <- & X). apply S5 in X. contradiction.
    + destruct (Q' (e, n, g) (or_introl eq_refl)) as (G & Mg). cbn [snd] in Mg. assert (Ig : In g faces) by apply G.
      rewrite (trace_face g Ig). cbv zeta. rewrite (reversed_good e n g G).
      apply (IH (fun x => done x \/ x = cur) g (o g) (fst st) q).
      * split; [intros x H; apply I1, S1, H|]. split.
        { intros x Hx. destruct (I2 x Hx) as [X|[X|[X|X]]]; auto.
          - destruct (S2 x X) as [Y|Y]; auto. cbn in Y. destruct Y as [<-|Y]; auto.
          - apply in_map_iff in X. destruct X as (r & <- & X). apply S5 in X. destruct X as [<-|X]; [auto|]. right; right; right. apply in_map, X. }
        split; [intros r Ir; apply Q'; right; exact Ir|]. split; [auto|].
        split.
        { intros x H. destruct (o g) eqn:Og; [|auto]. unfold set in H. destruct (Nat.eqb_spec x g) as [->|]; auto. }
        split.
        { intros x [[D| ->]| ->].
          - destruct (o g) eqn:Og; [|apply I6; auto]. unfold set. destruct (Nat.eqb_spec x g) as [->|]; [auto|apply I6; auto].
          - destruct (o g) eqn:Og; [|apply I6; auto]. unfold set. destruct (Nat.eqb_spec cur g) as [->|]; [auto|apply I6; auto].
          - destruct (o g) eqn:Og; [unfold set; rewrite Nat.eqb_refl; reflexivity|].
            destruct (rev g) eqn:E; [apply I5 in E; destruct E; congruence|reflexivity]. }
        split; [|left; destruct I8 as [|<-]; auto].
        intros f [D| ->] x H; [apply (Old f D x H)|apply Near, H].
      * cbn [length] in *. lia.
Qed.
Lemma init_marks g : set (fun g => existsb (Nat.eqb g) faces) f0 false g = true <-> In g faces /\ g <> f0.
Proof.
  unfold set. destruct (Nat.eqb_spec g f0) as [->|N]; [split; [discriminate|intros (_ & H); contradiction]|].
  rewrite existsb_exists. split.
  - intros (x & I & E). apply Nat.eqb_eq in E. subst x. auto.
  - intros (I & _). exists g. rewrite Nat.eqb_refl. auto.
Qed.
Lemma init_mu : mu faces (set (fun g => existsb (Nat.eqb g) faces) f0 false) <= length faces.
Proof.
  unfold mu. generalize (set (fun g => existsb (Nat.eqb g) faces) f0 false). intros m. clear.
  induction faces as [|f l IH]; [cbn; lia|]. cbn [filter]. destruct (m f); cbn [length]; lia.
Qed.
Lemma init_f0 : set (fun g => existsb (Nat.eqb g) faces) f0 false f0 = false.
Proof. unfold set. rewrite Nat.eqb_refl. reflexivity. Qed.
Lemma orientation_ok : exists rev, orientation s false faces f0 = Some rev /\
  (forall g, rev g = true -> o g = true /\ In g faces) /\
  forall g, clos_refl_trans nat (share s faces) f0 g -> rev g = o g.
Proof.
  unfold orientation. apply (run_ok (length faces) (fun _ => False)).
  - split; [intros g H; apply init_marks, H|]. split.
    { intros g Ig. destruct (Nat.eq_dec g f0) as [->|N]; auto. left. apply init_marks. auto. }
    split; [intros r []|]. split; [rewrite O0; auto using init_f0|]. split; [discriminate|].
    split; [intros g [[]| ->]; rewrite O0; reflexivity|]. split; [contradiction|auto].
  - cbn [length]. pose proof init_mu. lia.
Qed.
(** the version that stays on the first face *)
Definition inv' (done : nat -> Prop) (marks : nat -> bool) (queue : list entry) (rev : nat -> bool) : Prop :=
  (forall g, In g faces -> marks g = true -> ~ share s faces f0 g) /\
  (forall r, In r queue -> good r /\ share s faces f0 (snd r)) /\
  (forall g, share s faces f0 g -> done g \/ In g (map snd queue)) /\
  (forall g, rev g = true -> o g = true /\ share s faces f0 g) /\
  (forall g, done g -> rev g = o g).
Lemma run_stale fuel : forall done cur reverse marks queue rev, (forall g, marks g = true -> In g faces) ->
  inv' done marks queue rev -> length queue <= fuel ->
  exists rev', run s true fuel f0 cur reverse marks queue rev = Some rev' /\
    (forall g, rev' g = true -> o g = true /\ share s faces f0 g) /\ forall g, share s faces f0 g -> rev' g = o g.
Proof.
  induction fuel as [|fuel IH]; intros done cur reverse marks queue rev MF (J1 & J2 & J3 & J4 & J5) L;
    (assert (N : fold_left (schedule s reverse) (dir f0) (marks, queue) = (marks, queue));
     [apply schedule_none; intros (e & p) g It Ig; cbn [fst] in *; destruct (marks g) eqn:M; [|reflexivity];
      exfalso; apply (J1 g (MF g M) M); split; [assumption|]; split; [apply MF, M|]; exists e;
      split; [apply (dir_edge f0 e F0); exists p; exact It|apply (proj1 SH e g (MF g M)), Ig]|]).
  - cbn [run]. rewrite (trace_face f0 F0). cbv zeta. rewrite N. cbn [snd]. destruct queue; [|cbn in L; lia].
    exists rev. split; [reflexivity|]. split; [assumption|]. intros g H. apply J5. destruct (J3 g H) as [D|[]]. exact D.
  - cbn [run]. rewrite (trace_face f0 F0). cbv zeta. rewrite N. cbn [fst snd]. destruct queue as [|((e & n) & g) q].
    + exists rev. split; [reflexivity|]. split; [assumption|]. intros g H. apply J5. destruct (J3 g H) as [D|[]]. exact D.
    + destruct (J2 (e, n, g) (or_introl eq_refl)) as (G & Sg). cbn [snd] in Sg. assert (Ig : In g faces) by apply G.
      rewrite (trace_face g Ig). cbv zeta. rewrite (reversed_good e n g G).
      apply (IH (fun x => done x \/ x = g)); [assumption| |cbn in L; lia].
      split; [assumption|]. split; [intros r Ir; apply J2; right; exact Ir|]. split.
      { intros x H. destruct (J3 x H) as [D|[<-|D]]; auto. }
      split.
      { intros x H. destruct (o g) eqn:Og; [|auto]. unfold set in H. destruct (Nat.eqb_spec x g) as [->|]; auto. }
      intros x [D| ->].
      * destruct (o g) eqn:Og; [|auto]. unfold set. destruct (Nat.eqb_spec x g) as [->|]; auto.
      * destruct (o g) eqn:Og; [unfold set; rewrite Nat.eqb_refl; reflexivity|].
        destruct (rev g) eqn:E; [apply J4 in E; destruct E; congruence|reflexivity].
Qed.
Lemma stale_ok : exists rev, orientation s true faces f0 = Some rev /\
  (forall g, rev g = true -> o g = true /\ share s faces f0 g) /\ forall g, share s faces f0 g -> rev g = o g.
Proof.
  unfold orientation. set (m0 := set (fun g => existsb (Nat.eqb g) faces) f0 false).
  assert (MF : forall g, m0 g = true -> In g faces) by (intros g H; apply init_marks, H).
  destruct (schedule_all faces false (dir f0) (m0, [])) as (S1 & S2 & S3 & S4 & S5 & S6).
  set (st := fold_left (schedule s false) (dir f0) (m0, [])) in *. cbn [fst snd] in *. specialize (S6 MF).
  assert (Near : forall g, In g faces -> share s faces f0 g -> fst st g = false).
  { intros g Ig (_ & _ & e & E1 & E2). apply S3. apply dir_edge in E1; [|assumption]. destruct E1 as (p & E1).
    exists (e, p). split; [assumption|]. apply (proj1 SH e g Ig). exact E2. }
  assert (N : fold_left (schedule s false) (dir f0) st = st).
  { apply schedule_none. intros (e & p) g It Ig. apply S3. exists (e, p). auto. }
  assert (E : run s true (length faces) f0 f0 false m0 [] (fun _ => false) =
              run s true (length faces) f0 f0 false (fst st) (snd st) (fun _ => false)).
  { destruct (length faces); cbn [run]; rewrite (trace_face f0 F0); cbv zeta; fold st; rewrite <- (surjective_pairing st), N; reflexivity. }
  rewrite E. apply (run_stale (length faces) (fun x => x = f0)).
  - intros g H. apply MF, S1, H.
  - split.
    { intros g Ig M H. rewrite (Near g Ig H) in M. discriminate. }
    split.
    { intros r Ir. destruct (S4 r Ir) as [[]|((t & It & T1 & T2 & T3) & M)]. destruct t as (e & p). cbn [fst snd] in *.
      assert (Ir' : In (snd r) faces) by (apply MF, M). split.
      - split; [assumption|]. rewrite T1. split; [apply (proj1 SH e (snd r) Ir'), T3|].
        exists f0, p. split; [assumption|]. split; [intros X; apply init_marks in M; destruct M; congruence|]. split; [assumption|]. rewrite T2, O0. reflexivity.
      - split; [assumption|]. split; [assumption|]. exists e. split; [apply (dir_edge f0 e F0); exists p; exact It|apply (proj1 SH e (snd r) Ir'), T3]. }
    split.
    { intros g H. destruct (Nat.eq_dec g f0) as [->|X]; [auto|]. right. assert (M : m0 g = true) by (apply init_marks; split; [apply H|assumption]).
      destruct (S2 g M) as [Y|Y]; [|exact Y]. rewrite (Near g) in Y; [discriminate|apply H|assumption]. }
    split; [discriminate|]. intros g ->. rewrite O0. reflexivity.
  - pose proof init_mu. unfold m0 in S6. cbn [length] in S6. lia.
Qed.
End S.

(** the orientation relative to the first face *)
Lemma consistent_xor s nodes faces o b : consistent s nodes faces o -> consistent s nodes faces (fun f => xorb (o f) b).
Proof.
  intros C f g e p q If Ig N Hp Hq. destruct b; [|rewrite !xorb_false_r in *; apply (C f g e p q); assumption].
  rewrite !xorb_true_r in *. unfold directed in *. apply in_map_iff in Hp, Hq. destruct Hp as ((e1 & p1) & Ep & Hp), Hq as ((e2 & q1) & Eq & Hq).
  cbn [fst snd] in *. injection Ep as -> <-. injection Eq as -> <-.
  assert (X : side (o g) q1 = flip (side (o f) p1)).
  { apply (C f g e); auto; apply in_map_iff; [exists (e, p1)|exists (e, q1)]; auto. }
  destruct p1, q1, (o f), (o g); unfold side, flip, negb in *; cbn in *; congruence.
Qed.
Lemma side_side a b p : side a (side b p) = side (xorb a b) p.
Proof. destruct p, a, b; reflexivity. Qed.

(** marks that agree with a consistent orientation close the surface *)
Lemma flat_nodup {A B} (f : A -> list B) l : NoDup l -> (forall x, In x l -> NoDup (f x)) ->
  (forall x y z, In x l -> In y l -> In z (f x) -> In z (f y) -> x = y) -> NoDup (flat_map f l).
Proof.
  induction l as [|a l IH]; intros N H D; [constructor|]. inversion N as [|? ? Na Nl]; subst. cbn [flat_map].
  assert (App : forall (u v : list B), NoDup u -> NoDup v -> (forall x, In x u -> ~ In x v) -> NoDup (u ++ v)).
  { clear. induction u as [|x u IH]; intros v Nu Nv D; [exact Nv|]. inversion Nu; subst. cbn. constructor.
    - rewrite in_app_iff. intros [I|I]; [contradiction|]. apply (D x (or_introl eq_refl) I).
    - apply IH; auto. intros y I. apply D. right. exact I. }
  apply App; [apply H; left; reflexivity|apply IH; auto|].
  - intros x Ix. apply H. right. exact Ix.
  - intros x y z Ix Iy. apply D; right; assumption.
  - intros z I J. apply in_flat_map in J. destruct J as (x & Ix & J). apply Na. rewrite (D a x z); auto; [left; reflexivity|right; assumption].
Qed.
Lemma closed_of s nodes faces o : shell s nodes faces -> NoDup faces -> no_boundary s faces -> consistent s nodes faces o ->
  closed (map (fun f => (o f, nodes f)) faces).
Proof.
  intros SH ND NB C. unfold closed.
  assert (E : flat_map face_edges (map (fun f => (o f, nodes f)) faces) = map snd (flat_map (fun f => directed s nodes (o f) f) faces)).
  { clear ND NB C. destruct SH as (_ & SH). induction faces as [|f l IH]; [reflexivity|]. cbn [map flat_map]. rewrite map_app, IH by (intros; apply SH; right; assumption). f_equal.
    unfold face_edges, directed. cbn [fst snd]. rewrite map_map. cbn [snd].
    assert (X : map snd (combine (fedges s f) (loop_edges (nodes f))) = loop_edges (nodes f)).
    { destruct (SH f (or_introl eq_refl)) as (L & _). rewrite <- (loop_len (nodes f)) in L. revert L. generalize (loop_edges (nodes f)), (fedges s f).
      intros l0 l1. revert l0. induction l1 as [|a l1 IHl]; intros [|b l0] L; try discriminate; [reflexivity|]. cbn in *. rewrite IHl by lia. reflexivity. }
    set (c := combine (fedges s f) (loop_edges (nodes f))) in *. rewrite <- X. destruct (o f); [rewrite map_map; reflexivity|].
    apply map_ext. intros (a & b). reflexivity. }
  rewrite E, map_map. set (D := flat_map (fun f => directed s nodes (o f) f) faces).
  assert (P : Permutation D (map (fun t => (fst t, flip (snd t))) D)).
  { symmetry. apply NoDup_Permutation_bis.
    - apply FinFun.Injective_map_NoDup.
      + intros (a & (b & c)) (a' & (b' & c')) H. unfold flip in H; cbn in H; congruence.
      + unfold D. apply flat_nodup; [assumption| |].
        * intros f If. destruct (proj2 SH f If) as (_ & _ & _ & Ne & _). unfold directed.
          apply (NoDup_map_inv fst). rewrite map_map. cbn [fst].
          clear -Ne. revert Ne. generalize (fedges s f), (loop_edges (nodes f)). induction l as [|a l IH]; intros [|b m] N; try constructor.
          -- inversion N; subst. intros I. apply in_map_iff in I. destruct I as ((x & y) & E & I). cbn in E. subst x. apply in_combine_l in I. contradiction.
          -- inversion N; subst. apply (IH m). assumption.
        * intros f g (e & p) If Ig Hf Hg. destruct (Nat.eq_dec f g) as [|N]; [assumption|]. exfalso.
          pose proof (C f g e p p If Ig N Hf Hg) as X.
          unfold directed in Hf. apply in_map_iff in Hf. destruct Hf as ((e1 & p1) & Y & Z). cbn in Y. injection Y as -> <-.
          pose proof (dir_distinct s nodes faces SH f e p1 If Z) as W. destruct p1 as (a & b), (o f); unfold side, flip in *; cbn in *; congruence.
    - rewrite map_length. reflexivity.
    - intros t It. apply in_map_iff in It. destruct It as ((e & p) & <- & It). cbn [fst snd]. unfold D in It. apply in_flat_map in It.
      destruct It as (f & If & It). assert (Ie : In e (fedges s f)).
      { unfold directed in It. apply in_map_iff in It. destruct It as ((e1 & p1) & Y & Z). cbn in Y. injection Y as -> <-. apply in_combine_l in Z. exact Z. }
      destruct (NB f e If Ie) as (g & Ig & N & Je). apply (dir_edge s nodes faces SH g e Ig) in Je. destruct Je as (q & Jq).
      assert (Dg : In (e, side (o g) q) (directed s nodes (o g) g)) by (apply in_map_iff; exists (e, q); auto).
      rewrite <- (C f g e p (side (o g) q) If Ig (fun X => N (eq_sym X)) It Dg). unfold D. apply in_flat_map. exists g. auto. }
  apply (Permutation_map snd) in P. rewrite map_map in P. cbn [snd] in P. exact P.
Qed.
