From Coq Require Import List Arith Bool Lia Permutation.
From Verif Require Import Util Adj_Model Adj_Proofs Loop_Model Loop_Spec Loop_Proofs Query_Model Query_Spec.
Import ListNotations.

Lemma nodup_app (a b : list elem) : NoDup a -> NoDup b -> (forall x, In x a -> In x b -> False) -> NoDup (a ++ b).
Proof.
  intros Ha Hb. induction Ha as [|x a N Ha IH]; intros H; cbn [app]; [assumption|]. constructor.
  - rewrite in_app_iff. intros [J|J]; [contradiction|]. apply (H x); [left; reflexivity|assumption].
  - apply IH. intros y A B. apply (H y); [right; assumption|assumption].
Qed.

(** * What a collecting loop does *)
Definition ext (st st' : list elem * marks) (P : elem -> Prop) : Prop :=
  (forall y, snd st' y = true <-> snd st y = true \/ P y) /\
  exists new, fst st' = fst st ++ new /\ NoDup new /\ forall y, In y new <-> snd st y = false /\ P y.

Lemma ext_refl st : ext st st (fun _ => False).
Proof.
  split; [tauto|]. exists []. rewrite app_nil_r. split; [reflexivity|]. split; [constructor|]. cbn. tauto.
Qed.
Lemma ext_weak st st' P Q : ext st st' P -> (forall y, P y <-> Q y) -> ext st st' Q.
Proof.
  intros (A & new & B & C & D) E. split.
  - intros y. rewrite A, E. tauto.
  - exists new. split; [assumption|]. split; [assumption|]. intros y. rewrite D, E. tauto.
Qed.
Lemma ext_trans a b c P Q : ext a b P -> ext b c Q -> ext a c (fun y => P y \/ Q y).
Proof.
  intros (A & new & B & C & D) (A' & new' & B' & C' & D'). split.
  - intros y. rewrite A', A. tauto.
  - exists (new ++ new'). rewrite B', B, app_assoc. split; [reflexivity|]. split.
    + apply nodup_app; try assumption. intros y I J. apply D in I. apply D' in J.
      destruct J as (J & _). assert (X : snd b y = true) by (apply A; tauto). congruence.
    + intros y. rewrite in_app_iff, D, D'. split.
      * intros [(X & Y)|(X & Y)]; [tauto|]. split; [|tauto].
        destruct (snd a y) eqn:E; [|reflexivity]. assert (snd b y = true) by (apply A; tauto). congruence.
      * intros (X & [Y|Y]); [tauto|]. destruct (snd b y) eqn:E; [|tauto].
        apply A in E. destruct E as [E|E]; [congruence|tauto].
Qed.
Lemma ext_push st y (b : bool) :
  ext st (if b && negb (snd st y) then (fst st ++ [y], upd (snd st) y true) else st) (fun z => z = y /\ b = true).
Proof.
  destruct b; cbn [andb].
  2:{ eapply ext_weak; [apply ext_refl|]. intros z. split; [tauto|]. intros (_ & X). discriminate. }
  destruct (snd st y) eqn:E; cbn [negb].
  - split.
    + intros z. split; [tauto|]. intros [X|(-> & _)]; assumption.
    + exists []. rewrite app_nil_r. split; [reflexivity|]. split; [constructor|]. intros z. split; [contradiction|].
      intros (X & -> & _). congruence.
  - unfold ext. cbn [fst snd]. split.
    + intros z. destruct (elem_dec z y) as [->|N].
      * rewrite upd_same. tauto.
      * rewrite upd_other by assumption. split; [tauto|]. intros [X|(X & _)]; [assumption|contradiction].
    + exists [y]. split; [reflexivity|]. split; [constructor; [intros []|constructor]|].
      intros z. cbn [In]. split; [intros [<-|[]]; auto|intros (_ & -> & _); auto].
Qed.
Lemma ext_fold (f : list elem * marks -> elem -> list elem * marks) (P : elem -> elem -> Prop) :
  (forall st e, ext st (f st e) (P e)) -> forall l st, ext st (fold_left f l st) (fun y => exists e, In e l /\ P e y).
Proof.
  intros F. induction l as [|e l IH]; intros st; cbn [fold_left].
  - eapply ext_weak; [apply ext_refl|]. intros y. split; [tauto|]. intros (e & [] & _).
  - eapply ext_weak; [eapply ext_trans; [apply F|apply IH]|]. intros y. split.
    + intros [X|(z & I & X)]; [exists e; split; [left; reflexivity|assumption]|exists z; split; [right|]; assumption].
    + intros (z & [<-|I] & X); [left; assumption|right; exists z; auto].
Qed.
Lemma gather_ext m ok st l : ext st (gather m ok st l) (fun y => In y l /\ visible m y = true /\ ok y = true).
Proof.
  unfold gather. eapply ext_weak.
  - apply (ext_fold _ (fun e y => y = e /\ visible m e && ok e = true)). intros s e. apply ext_push.
  - intros y. split.
    + intros (e & I & -> & B). apply andb_true_iff in B. tauto.
    + intros (I & V & O). exists y. rewrite V, O. auto.
Qed.
Lemma away_ext m ok c n : forall st x, ext st (away m ok c n st x) (fun y => steps m c (S n) x y /\ ok y = true).
Proof.
  induction n as [|n IH]; intros st x; cbn [away].
  - eapply ext_weak; [apply gather_ext|]. intros y. split.
    + intros (I & V & O). split; [constructor; assumption|assumption].
    + intros (H & O). inversion H; subst; [tauto|]. match goal with H : steps _ _ 0 _ _ |- _ => inversion H end.
  - eapply ext_weak.
    + apply (ext_fold _ (fun e y => visible m e = true /\ steps m c (S n) e y /\ ok y = true)). intros s e.
      destruct (visible m e) eqn:V; [eapply ext_weak; [apply IH|]; intros y; tauto|].
      eapply ext_weak; [apply ext_refl|]. intros y. split; [tauto|]. intros (X & _). discriminate.
    + intros y. split.
      * intros (e & I & V & H & O). split; [econstructor; eassumption|assumption].
      * intros (H & O). inversion H; subst. exists z. auto.
Qed.
Lemma unmark_in l : forall mk y, unmark l mk y = true <-> mk y = true /\ ~ In y l.
Proof.
  induction l as [|e l IH]; intros mk y; cbn [unmark fold_left In]; [tauto|].
  fold (unmark l (upd mk e false)). rewrite IH. destruct (elem_dec y e) as [->|N].
  - rewrite upd_same. split; [intros (X & _); discriminate|tauto].
  - rewrite upd_other by assumption. split; intros (X & Y); split; auto. intros [Z|Z]; [congruence|tauto].
Qed.
Lemma ext_clear st st' P y : ext st st' P -> (forall y, snd st y = false) -> unmark (fst st') (snd st') y = false.
Proof.
  intros (A & new & B & C & D) F. destruct (unmark (fst st') (snd st') y) eqn:E; [|reflexivity].
  apply unmark_in in E. destruct E as (X & Y). apply A in X. rewrite F in X. destruct X as [X|X]; [discriminate|].
  exfalso. apply Y. rewrite B, in_app_iff. right. apply D. auto.
Qed.

(** * One type *)
Definition adj_spec (m : mesh) (x : elem) (i : nat) (y : elem) : Prop :=
  if Nat.eqb i (fst x) then y = x /\ visible m x = true
  else if cn m && Nat.eqb (fst x) 0 && Nat.eqb i 3 then In y (low m x) /\ visible m y = true
  else if cn m && Nat.eqb (fst x) 3 && Nat.eqb i 0 then In y (high m x) /\ visible m y = true
  else if Nat.ltb (fst x) i then steps m (high m) (i - fst x) x y
  else steps m (low m) (fst x - i) x y.

Lemma steps1 m c x y : steps m c 1 x y <-> In y (c x) /\ visible m y = true.
Proof.
  split; [|intros (A & B); constructor; assumption]. intros H. inversion H; subst; [auto|].
  match goal with H : steps _ _ 0 _ _ |- _ => inversion H end.
Qed.
Lemma select_in m ok l y : In y (select m ok l) <-> In y l /\ visible m y = true /\ ok y = true.
Proof. unfold select. rewrite filter_In, andb_true_iff. reflexivity. Qed.
Lemma fresh_false : forall y, snd ([] : list elem, fresh) y = false.
Proof. reflexivity. Qed.

(** the answer for one type: what is added to the result *)
Lemma adj_type_spec m ok x i res : i < 4 -> fst x < 4 ->
  exists new, fst (adj_type m ok x res i) = res ++ new /\
    (forall y, In y new <-> adj_spec m x i y /\ ok y = true) /\
    (NoDup (low m x) -> NoDup (high m x) -> NoDup new) /\
    Forall (fun mk : marks => forall y, mk y = false) (snd (adj_type m ok x res i)).
Proof.
  intros I X.
  assert (SEL : forall l, (forall y, In y (select m ok l) <-> (In y l /\ visible m y = true) /\ ok y = true) /\
                          (NoDup l -> NoDup (select m ok l))).
  { intros l. split; [intros y; rewrite select_in; tauto|]. intros N. apply NoDup_filter. assumption. }
  assert (AWAY : forall c n, exists new, fst (away m ok c n (res, fresh) x) = res ++ new /\
     (forall y, In y new <-> steps m c (S n) x y /\ ok y = true) /\ NoDup new /\
     forall y, unmark (fst (away m ok c n (res, fresh) x)) (snd (away m ok c n (res, fresh) x)) y = false).
  { intros c n. pose proof (away_ext m ok c n (res, fresh) x) as E. pose proof E as (A & new & B & C & D).
    exists new. split; [exact B|]. split.
    - intros y. rewrite D. cbn [snd]. unfold fresh. tauto.
    - split; [assumption|]. intros y. eapply ext_clear; [exact E|]. reflexivity. }
  unfold adj_type, adj_spec.
  destruct (Nat.eqb_spec i (fst x)) as [E0|E0].
  { cbn [fst snd]. destruct (visible m x && ok x) eqn:V.
    - apply andb_true_iff in V. exists [x]. split; [reflexivity|]. split.
      + intros y. cbn [In]. split; [intros [<-|[]]; tauto|]. intros ((-> & _) & _). auto.
      + split; [intros; constructor; [intros []|constructor]|constructor].
    - exists []. rewrite app_nil_r. split; [reflexivity|]. split.
      + intros y. split; [intros []|]. intros ((-> & A) & B). rewrite A, B in V. discriminate.
      + split; [constructor|constructor]. }
  destruct (Nat.eqb_spec i (fst x + 1)) as [E1|E1].
  { replace (cn m && Nat.eqb (fst x) 0 && Nat.eqb i 3) with false
      by (destruct (cn m); cbn; [|reflexivity]; destruct (Nat.eqb_spec (fst x) 0), (Nat.eqb_spec i 3); cbn; try reflexivity; lia).
    replace (cn m && Nat.eqb (fst x) 3 && Nat.eqb i 0) with false
      by (destruct (cn m); cbn; [|reflexivity]; destruct (Nat.eqb_spec (fst x) 3), (Nat.eqb_spec i 0); cbn; try reflexivity; lia).
    replace (Nat.ltb (fst x) i) with true by (symmetry; apply Nat.ltb_lt; lia). replace (i - fst x) with 1 by lia.
    exists (select m ok (high m x)). cbn [fst snd]. destruct (SEL (high m x)) as (S1 & S2).
    split; [reflexivity|]. split; [intros y; rewrite S1, steps1; reflexivity|]. split; [auto|constructor]. }
  destruct (Nat.eqb_spec (i + 1) (fst x)) as [E2|E2].
  { replace (cn m && Nat.eqb (fst x) 0 && Nat.eqb i 3) with false
      by (destruct (cn m); cbn; [|reflexivity]; destruct (Nat.eqb_spec (fst x) 0), (Nat.eqb_spec i 3); cbn; try reflexivity; lia).
    replace (cn m && Nat.eqb (fst x) 3 && Nat.eqb i 0) with false
      by (destruct (cn m); cbn; [|reflexivity]; destruct (Nat.eqb_spec (fst x) 3), (Nat.eqb_spec i 0); cbn; try reflexivity; lia).
    replace (Nat.ltb (fst x) i) with false by (symmetry; apply Nat.ltb_ge; lia). replace (fst x - i) with 1 by lia.
    exists (select m ok (low m x)). cbn [fst snd]. destruct (SEL (low m x)) as (S1 & S2).
    split; [reflexivity|]. split; [intros y; rewrite S1, steps1; reflexivity|]. split; [auto|constructor]. }
  destruct (Nat.eqb_spec i (fst x + 2)) as [E3|E3].
  { replace (cn m && Nat.eqb (fst x) 0 && Nat.eqb i 3) with false
      by (destruct (cn m); cbn; [|reflexivity]; destruct (Nat.eqb_spec (fst x) 0), (Nat.eqb_spec i 3); cbn; try reflexivity; lia).
    replace (cn m && Nat.eqb (fst x) 3 && Nat.eqb i 0) with false
      by (destruct (cn m); cbn; [|reflexivity]; destruct (Nat.eqb_spec (fst x) 3), (Nat.eqb_spec i 0); cbn; try reflexivity; lia).
    replace (Nat.ltb (fst x) i) with true by (symmetry; apply Nat.ltb_lt; lia). replace (i - fst x) with 2 by lia.
    destruct (AWAY (high m) 1) as (new & A & B & C & D). exists new. cbn [fst snd]. repeat split; auto; try apply B; try apply H.
    all: try (apply B in H; tauto). }
  destruct (Nat.eqb_spec (i + 2) (fst x)) as [E4|E4].
  { replace (cn m && Nat.eqb (fst x) 0 && Nat.eqb i 3) with false
      by (destruct (cn m); cbn; [|reflexivity]; destruct (Nat.eqb_spec (fst x) 0), (Nat.eqb_spec i 3); cbn; try reflexivity; lia).
    replace (cn m && Nat.eqb (fst x) 3 && Nat.eqb i 0) with false
      by (destruct (cn m); cbn; [|reflexivity]; destruct (Nat.eqb_spec (fst x) 3), (Nat.eqb_spec i 0); cbn; try reflexivity; lia).
    replace (Nat.ltb (fst x) i) with false by (symmetry; apply Nat.ltb_ge; lia). replace (fst x - i) with 2 by lia.
    destruct (AWAY (low m) 1) as (new & A & B & C & D). exists new. cbn [fst snd]. repeat split; auto; try apply B; try apply H.
    all: try (apply B in H; tauto). }
  destruct (Nat.eqb_spec i (fst x + 3)) as [E5|E5].
  { assert (Z : fst x = 0) by lia. assert (Z3 : i = 3) by lia. rewrite Z, Z3 in *. cbn [Nat.eqb]. rewrite !andb_true_r.
    destruct (cn m).
    - exists (select m ok (low m x)). cbn [fst snd]. destruct (SEL (low m x)) as (S1 & S2).
      split; [reflexivity|]. split; [exact S1|]. split; [auto|constructor].
    - cbn [andb Nat.ltb Nat.leb Nat.sub]. destruct (AWAY (high m) 2) as (new & A & B & C & D). exists new. cbn [fst snd].
      repeat split; auto; try apply B; try apply H; try (apply B in H; tauto). }
  destruct (Nat.eqb_spec (i + 3) (fst x)) as [E6|E6]; [|lia].
  assert (Z : fst x = 3) by lia. assert (Z3 : i = 0) by lia. rewrite Z, Z3 in *. cbn [Nat.eqb]. rewrite !andb_true_r, andb_false_r.
  cbn [andb]. destruct (cn m).
  - exists (select m ok (high m x)). cbn [fst snd]. destruct (SEL (high m x)) as (S1 & S2).
    split; [reflexivity|]. split; [exact S1|]. split; [auto|constructor].
  - cbn [andb Nat.ltb Nat.leb Nat.sub]. destruct (AWAY (low m) 2) as (new & A & B & C & D). exists new. cbn [fst snd].
    repeat split; auto; try apply B; try apply H; try (apply B in H; tauto).
Qed.

(** * All types *)
Lemma lev_up E m x y : links E m -> ~ In x E -> In y (high m x) -> fst x < 3 -> fst y = S (fst x).
Proof. intros L N I T. destruct (links_high E m x y L N I) as (_ & _ & [V|(V & _)]); lia. Qed.
Lemma lev_down E m x y : links E m -> In y (low m x) -> 0 < fst x -> fst x = S (fst y).
Proof. intros L I T. destruct (l_ok _ _ L _ _ I) as (_ & _ & [V|(V & W & _)]); lia. Qed.
Lemma steps_up_lev m n : forall x y, links [] m -> steps m (high m) n x y -> fst x + n < 4 -> fst y = fst x + n.
Proof.
  intros x y L H. induction H; intros T.
  - rewrite (lev_up [] m x y L (fun F => F) H) by lia. lia.
  - assert (n <> 0) by (intros ->; inversion H1). pose proof (lev_up [] m x z L (fun F => F) H ltac:(lia)). rewrite IHsteps; lia.
Qed.
Lemma steps_down_lev m n : forall x y, links [] m -> steps m (low m) n x y -> n <= fst x -> fst x = fst y + n.
Proof.
  intros x y L H. induction H; intros T.
  - rewrite (lev_down [] m x y L H) by lia. lia.
  - assert (n <> 0) by (intros ->; inversion H1). pose proof (lev_down [] m x z L H ltac:(lia)). lia.
Qed.
Lemma adj_spec_type m x i y : links [] m -> slots m -> i < 4 -> fst x < 4 -> adj_spec m x i y -> fst y = i.
Proof.
  intros L SL I X. unfold adj_spec. destruct (Nat.eqb_spec i (fst x)) as [E|E]; [intros (-> & _); auto|].
  destruct (cn m && Nat.eqb (fst x) 0 && Nat.eqb i 3) eqn:C1.
  { apply andb_true_iff in C1. destruct C1 as (C1 & C3). apply andb_true_iff in C1. destruct C1 as (C1 & C2).
    apply Nat.eqb_eq in C2, C3. intros (H & _). destruct (l_ok _ _ L _ _ H) as (_ & _ & [V|(V & W & _)]); lia. }
  destruct (cn m && Nat.eqb (fst x) 3 && Nat.eqb i 0) eqn:C2.
  { apply andb_true_iff in C2. destruct C2 as (C2 & C3). apply andb_true_iff in C2. destruct C2 as (C2 & C4).
    apply Nat.eqb_eq in C4, C3. intros (H & _). pose proof (links_high [] m x y L (fun F => F) H) as (A & B & [V|(V & W & _)]); [|lia].
    pose proof (s_rng _ SL _ B). lia. }
  destruct (Nat.ltb_spec (fst x) i) as [T|T]; intros H.
  - apply steps_up_lev in H; [lia|assumption|lia].
  - apply steps_down_lev in H; [lia|assumption|lia].
Qed.

Lemma types_fold m ok (types : nat -> bool) x : links [] m -> slots m -> fst x < 4 -> forall l res mks,
  (forall i, In i l -> i < 4) -> NoDup l ->
  let r := fold_left (fun (s : list elem * list marks) i => if types i then let p := adj_type m ok x (fst s) i in (fst p, snd s ++ snd p) else s) l (res, mks) in
  exists new : list elem, fst r = res ++ new /\ (forall y, In y new <-> (exists i, In i l /\ types i = true /\ adj_spec m x i y) /\ ok y = true) /\
    (NoDup (low m x) -> NoDup (high m x) -> NoDup new) /\
    (Forall (fun mk : marks => forall y, mk y = false) mks -> Forall (fun mk : marks => forall y, mk y = false) (snd r)).
Proof.
  intros L SL X. induction l as [|i l IH]; intros res mks I ND; cbn [fold_left].
  - exists []. rewrite app_nil_r. split; [reflexivity|]. split; [|split; [constructor|auto]].
    intros y. split; [intros []|]. intros ((i & [] & _) & _).
  - inversion ND as [|? ? NI ND']; subst. assert (I4 : i < 4) by (apply I; left; reflexivity).
    assert (IL : forall j, In j l -> j < 4) by (intros j J; apply I; right; assumption).
    destruct (types i) eqn:T.
    + destruct (adj_type_spec m ok x i res I4 X) as (n1 & A & B & C & D).
      destruct (IH (fst (adj_type m ok x res i)) (mks ++ snd (adj_type m ok x res i)) IL ND') as (n2 & A2 & B2 & C2 & D2).
      exists (n1 ++ n2). split; [eapply eq_trans; [exact A2|]; rewrite A, app_assoc; reflexivity|]. split; [|split].
      * intros y. rewrite in_app_iff, B, B2. split.
        -- intros [(H & O)|((j & J & TJ & H) & O)]; (split; [|assumption]).
           ++ exists i. split; [left; reflexivity|auto].
           ++ exists j. split; [right; assumption|auto].
        -- intros ((j & [<-|J] & TJ & H) & O); [left; auto|right; split; [exists j; auto|assumption]].
      * intros N1 N2. apply nodup_app; auto. intros y Y1 Y2. apply B in Y1. apply B2 in Y2.
        destruct Y1 as (Y1 & _). destruct Y2 as ((j & J & _ & Y2) & _). apply adj_spec_type in Y1; auto. apply adj_spec_type in Y2; auto.
        apply NI. replace i with j by congruence. assumption.
      * intros F. refine (D2 _). apply Forall_app. split; assumption.
    + destruct (IH res mks IL ND') as (n2 & A2 & B2 & C2 & D2). exists n2. split; [exact A2|]. split; [|auto].
      intros y. rewrite B2. split; intros ((j & J & TJ & H) & O); (split; [|assumption]); exists j.
      * split; [right; assumption|auto].
      * destruct J as [<-|J]; [congruence|auto].
Qed.
Lemma adj_spec_adjacent m x y : fst x < 4 -> fst y < 4 -> adj_spec m x (fst y) y <-> adjacent m x y.
Proof.
  intros X Y. unfold adj_spec, adjacent. destruct (Nat.eqb_spec (fst y) (fst x)) as [E|E].
  - split; [intros H; left; exact H|]. intros [H|[(_ & A & B & _)|[(_ & A & B & _)|[(_ & A & _)|(_ & A & _)]]]]; try lia. assumption.
  - assert (NE : y <> x) by congruence.
    destruct (cn m) eqn:C, (Nat.eqb_spec (fst x) 0) as [X0|X0], (Nat.eqb_spec (fst y) 3) as [Y3|Y3],
      (Nat.eqb_spec (fst x) 3) as [X3|X3], (Nat.eqb_spec (fst y) 0) as [Y0|Y0], (Nat.ltb_spec (fst x) (fst y)) as [T|T];
      cbn [andb]; try lia; intuition (try congruence; try lia).
Qed.
Lemma get_adj_spec m ok types x : links [] m -> slots m -> fst x < 4 ->
  (forall y, In y (fst (get_adj m ok types x)) <-> types (fst y) = true /\ ok y = true /\ adjacent m x y /\ fst y < 4) /\
  (NoDup (low m x) -> NoDup (high m x) -> NoDup (fst (get_adj m ok types x))) /\
  Forall (fun mk : marks => forall y, mk y = false) (snd (get_adj m ok types x)).
Proof.
  intros L SL X.
  assert (I4 : forall i, In i [0; 1; 2; 3] -> i < 4) by (cbn; intros; lia).
  assert (N4 : NoDup [0; 1; 2; 3]) by (repeat constructor; cbn; intros; lia).
  destruct (types_fold m ok types x L SL X [0; 1; 2; 3] [] [] I4 N4) as (new & A & B & C & D).
  change (fst (get_adj m ok types x) = new) in A. rewrite A. split; [|split; [exact C|apply D; constructor]].
  intros y. rewrite B. split.
  - intros ((i & I & T & H) & O). pose proof (adj_spec_type m x i y L SL (I4 i I) X H) as E. subst i.
    pose proof (I4 _ I) as Y4. split; [assumption|]. split; [assumption|]. split; [|assumption]. apply adj_spec_adjacent; assumption.
  - intros (T & O & H & Y4). split; [|assumption]. exists (fst y). split; [cbn; lia|]. split; [assumption|].
    apply adj_spec_adjacent; assumption.
Qed.
Lemma steps_last m c n x y : steps m c n x y -> visible m y = true.
Proof. intros H. induction H; auto. Qed.
Lemma steps_alive m n x y : links [] m -> steps m (high m) n x y \/ steps m (low m) n x y -> alive m y = true.
Proof.
  intros L [H|H]; induction H; auto.
  - apply (links_high [] m x y L (fun F => F) H).
  - apply (l_ok _ _ L _ _ H).
Qed.
Lemma adjacent_lt4 m x y : links [] m -> slots m -> fst x < 4 -> adjacent m x y -> fst y < 4.
Proof.
  intros L SL X [(-> & _)|[(_ & _ & H & _)|[(_ & _ & H & _)|[(_ & _ & H)|(_ & _ & H)]]]]; try lia;
    apply (s_rng _ SL); eapply steps_alive; eauto.
Qed.
Lemma adjacent_visible m x y : adjacent m x y -> visible m y = true.
Proof.
  intros [(-> & H)|[(_ & _ & _ & _ & H)|[(_ & _ & _ & _ & H)|[(_ & _ & H)|(_ & _ & H)]]]]; auto; eapply steps_last; eauto.
Qed.

(** * Order under a mask, count *)
Lemma gather_mask m ok : forall l a b, fst b = filter ok (fst a) -> (forall y, snd b y = snd a y && ok y) ->
  let a' := gather m all_ok a l in let b' := gather m ok b l in
  fst b' = filter ok (fst a') /\ forall y, snd b' y = snd a' y && ok y.
Proof.
  unfold gather. induction l as [|e l IH]; intros a b F G; cbn [fold_left]; [auto|].
  apply IH; rewrite G; unfold all_ok; rewrite andb_true_r.
  - destruct (visible m e), (ok e) eqn:O, (snd a e); cbn [andb negb fst]; rewrite ?filter_app; cbn [filter]; rewrite ?O, ?app_nil_r, ?F; reflexivity.
  - intros y. destruct (visible m e), (ok e) eqn:O, (snd a e) eqn:A; cbn [andb negb snd]; rewrite ?G; try reflexivity;
      destruct (elem_dec y e) as [->|N]; rewrite ?upd_same, ?(upd_other _ _ _ _ N), ?G, ?O, ?A; try reflexivity.
Qed.
Lemma away_mask m ok c n : forall x a b, fst b = filter ok (fst a) -> (forall y, snd b y = snd a y && ok y) ->
  let a' := away m all_ok c n a x in let b' := away m ok c n b x in
  fst b' = filter ok (fst a') /\ forall y, snd b' y = snd a' y && ok y.
Proof.
  induction n as [|n IH]; intros x; cbn [away]; [apply gather_mask|].
  induction (c x) as [|e l IHl]; intros a b F G; cbn [fold_left]; [auto|].
  destruct (visible m e); [|apply IHl; assumption]. destruct (IH e a b F G) as (F' & G'). apply IHl; assumption.
Qed.
Lemma select_mask m ok l : select m ok l = filter ok (select m all_ok l).
Proof.
  unfold select, all_ok. induction l as [|e l IH]; cbn [filter]; [reflexivity|].
  destruct (visible m e); cbn [andb filter]; [|assumption]. destruct (ok e); rewrite IH; reflexivity.
Qed.
Lemma adj_type_mask m ok x i a b : b = filter ok a -> fst (adj_type m ok x b i) = filter ok (fst (adj_type m all_ok x a i)).
Proof.
  intros ->. unfold adj_type.
  assert (AW : forall c n, fst (away m ok c n (filter ok a, fresh) x) = filter ok (fst (away m all_ok c n (a, fresh) x))).
  { intros c n. apply away_mask; [reflexivity|]. intros y. reflexivity. }
  destruct (Nat.eqb i (fst x)).
  { cbn [fst]. unfold all_ok. rewrite andb_true_r. destruct (visible m x); cbn [andb]; [|reflexivity].
    rewrite filter_app. cbn [filter]. destruct (ok x); [reflexivity|rewrite app_nil_r; reflexivity]. }
  destruct (Nat.eqb i (fst x + 1)); [cbn [fst]; rewrite filter_app, <- select_mask; reflexivity|].
  destruct (Nat.eqb (i + 1) (fst x)); [cbn [fst]; rewrite filter_app, <- select_mask; reflexivity|].
  destruct (Nat.eqb i (fst x + 2)); [apply (AW (high m) 1)|].
  destruct (Nat.eqb (i + 2) (fst x)); [apply (AW (low m) 1)|].
  destruct (Nat.eqb i (fst x + 3)).
  { destruct (cn m); [cbn [fst]; rewrite filter_app, <- select_mask; reflexivity|]. apply (AW (high m) 2). }
  destruct (Nat.eqb (i + 3) (fst x)); [|reflexivity].
  destruct (cn m); [cbn [fst]; rewrite filter_app, <- select_mask; reflexivity|]. apply (AW (low m) 2).
Qed.
Lemma get_adj_mask m ok types x : fst (get_adj m ok types x) = filter ok (fst (get_adj m all_ok types x)).
Proof.
  unfold get_adj.
  assert (G : forall l (a b : list elem * list marks), fst b = filter ok (fst a) ->
    fst (fold_left (fun s i => if types i then let p := adj_type m ok x (fst s) i in (fst p, snd s ++ snd p) else s) l b) =
    filter ok (fst (fold_left (fun s i => if types i then let p := adj_type m all_ok x (fst s) i in (fst p, snd s ++ snd p) else s) l a))).
  { induction l as [|i l IH]; intros a b E; [exact E|]. cbn [fold_left]. apply IH. destruct (types i); [|exact E].
    apply (adj_type_mask m ok x i _ _ E). }
  apply G. reflexivity.
Qed.

Lemma gather_prefix m ok : forall l r k, gather m ok (r, k) l = (r ++ fst (gather m ok ([], k) l), snd (gather m ok ([], k) l)).
Proof.
  unfold gather. induction l as [|e l IH]; intros r k; cbn [fold_left].
  - cbn [fst snd]. rewrite app_nil_r. reflexivity.
  - cbn [fst snd]. destruct (visible m e && ok e && negb (k e)); [|apply IH].
    rewrite IH. cbn [app]. rewrite (IH [e]). cbn [fst snd]. rewrite <- app_assoc. reflexivity.
Qed.
Lemma away_prefix m ok c n : forall x r k,
  away m ok c n (r, k) x = (r ++ fst (away m ok c n ([], k) x), snd (away m ok c n ([], k) x)).
Proof.
  induction n as [|n IH]; intros x; cbn [away]; [apply gather_prefix|].
  induction (c x) as [|e l IHl]; intros r k; cbn [fold_left].
  - cbn [fst snd]. rewrite app_nil_r. reflexivity.
  - destruct (visible m e); [|apply IHl]. rewrite IH, IHl. destruct (away m ok c n ([], k) e) as (r1 & k1).
    cbn [fst snd]. rewrite (IHl r1). cbn [fst snd]. rewrite app_assoc. reflexivity.
Qed.
Lemma unmark_app a b mk : unmark (a ++ b) mk = unmark b (unmark a mk).
Proof. unfold unmark. apply fold_left_app. Qed.
Lemma nb_type_len m ok x i res : length (fst (adj_type m ok x res i)) = length res + fst (nb_type m ok x i).
Proof.
  unfold adj_type, nb_type.
  assert (AW : forall c n, length (fst (away m ok c n (res, fresh) x)) = length res + length (fst (away m ok c n ([], fresh) x))).
  { intros c n. rewrite away_prefix. cbn [fst]. apply app_length. }
  destruct (Nat.eqb i (fst x)).
  { cbn [fst]. destruct (visible m x && ok x); [rewrite app_length|]; cbn [length]; lia. }
  destruct (Nat.eqb i (fst x + 1)); [apply app_length|].
  destruct (Nat.eqb (i + 1) (fst x)); [apply app_length|].
  destruct (Nat.eqb i (fst x + 2)); [apply (AW (high m) 1)|].
  destruct (Nat.eqb (i + 2) (fst x)); [apply (AW (low m) 1)|].
  destruct (Nat.eqb i (fst x + 3)); [destruct (cn m); [apply app_length|apply (AW (high m) 2)]|].
  destruct (Nat.eqb (i + 3) (fst x)); [destruct (cn m); [apply app_length|apply (AW (low m) 2)]|]. cbn [fst]. lia.
Qed.
Lemma nb_type_clear m ok x i : Forall (fun mk : marks => forall y, mk y = false) (snd (nb_type m ok x i)).
Proof.
  unfold nb_type.
  assert (AW : forall c n, Forall (fun mk : marks => forall y, mk y = false)
     [unmark (fst (away m ok c n ([], fresh) x)) (snd (away m ok c n ([], fresh) x))]).
  { intros c n. constructor; [|constructor]. intros y. eapply ext_clear; [apply away_ext|]. reflexivity. }
  destruct (Nat.eqb i (fst x)); [constructor|]. destruct (Nat.eqb i (fst x + 1)); [constructor|].
  destruct (Nat.eqb (i + 1) (fst x)); [constructor|].
  destruct (Nat.eqb i (fst x + 2)); [apply (AW (high m) 1)|].
  destruct (Nat.eqb (i + 2) (fst x)); [apply (AW (low m) 1)|].
  destruct (Nat.eqb i (fst x + 3)); [destruct (cn m); [constructor|apply (AW (high m) 2)]|].
  destruct (Nat.eqb (i + 3) (fst x)); [destruct (cn m); [constructor|apply (AW (low m) 2)]|]. constructor.
Qed.
Lemma nb_adj_len m ok types x : fst (nb_adj m ok types x) = length (fst (get_adj m ok types x)) /\
  Forall (fun mk : marks => forall y, mk y = false) (snd (nb_adj m ok types x)).
Proof.
  unfold nb_adj, get_adj.
  assert (G : forall l (a : list elem * list marks) (b : nat * list marks), fst b = length (fst a) ->
    Forall (fun mk : marks => forall y, mk y = false) (snd b) ->
    let r := fold_left (fun s i => if types i then let p := nb_type m ok x i in (fst s + fst p, snd s ++ snd p) else s) l b in
    fst r = length (fst (fold_left (fun s i => if types i then let p := adj_type m ok x (fst s) i in (fst p, snd s ++ snd p) else s) l a)) /\
    Forall (fun mk : marks => forall y, mk y = false) (snd r)).
  { induction l as [|i l IH]; intros a b E F; [split; assumption|]. cbn [fold_left]. apply IH; destruct (types i); try assumption.
    - change (fst b + fst (nb_type m ok x i) = length (fst (adj_type m ok x (fst a) i))). rewrite nb_type_len. lia.
    - refine (proj2 (Forall_app _ _ _) (conj F (nb_type_clear m ok x i))). }
  apply G; [reflexivity|constructor].
Qed.

(** * Symmetry *)
Lemma steps_snoc m c n x z y : steps m c n x z -> In y (c z) -> visible m y = true -> steps m c (S n) x y.
Proof.
  intros H I V. induction H.
  - eapply steps_more; eauto. constructor; assumption.
  - eapply steps_more; eauto.
Qed.
Lemma steps_rev m c d n x y : (forall a b, In b (c a) -> In a (d b)) -> visible m x = true -> steps m c n x y -> steps m d n y x.
Proof.
  intros S V H. induction H.
  - constructor; auto.
  - eapply steps_snoc; [apply IHsteps; assumption|auto|assumption].
Qed.
Lemma adjacent_sym m x y : links [] m -> visible m x = true -> adjacent m x y -> adjacent m y x.
Proof.
  intros L V H. pose proof (adjacent_visible m x y H) as VY.
  assert (LI : forall a b, In a (low m b) <-> In b (high m a)) by (intros a b; apply (links_in [] m a b L (fun F => F))).
  unfold adjacent in *. destruct H as [(-> & H)|[(C & A & B & I & _)|[(C & A & B & I & _)|[(N & T & H)|(N & T & H)]]]].
  - left. auto.
  - right. right. left. repeat split; try assumption. apply LI. assumption.
  - right. left. repeat split; try assumption. apply LI. assumption.
  - right. right. right. right. split; [tauto|]. split; [assumption|]. eapply steps_rev; [|eassumption|exact H]. intros a b. apply LI.
  - right. right. right. left. split; [tauto|]. split; [assumption|]. eapply steps_rev; [|eassumption|exact H]. intros a b. apply LI.
Qed.

(** * Bridge *)
Lemma mark_all l : forall mk y, fold_left (fun s z => upd s z true) l mk y = true <-> mk y = true \/ In y l.
Proof.
  induction l as [|e l IH]; intros mk y; cbn [fold_left In]; [tauto|]. rewrite IH. destruct (elem_dec y e) as [->|N].
  - rewrite upd_same. tauto.
  - rewrite upd_other by assumption. split; [tauto|]. intros [X|[X|X]]; [tauto|congruence|tauto].
Qed.
Lemma bridge_ext m bt dt (bok tok : elem -> bool) x st :
  ext st (fold_left (fun s b => if bok b then
              fold_left (fun s y => if negb (snd s y) && tok y then (fst s ++ [y], upd (snd s) y true) else s)
                        (fst (get_adj m all_ok dt b)) s else s) (fst (get_adj m all_ok bt x)) st)
     (fun y => exists b, In b (fst (get_adj m all_ok bt x)) /\ bok b = true /\ In y (fst (get_adj m all_ok dt b)) /\ tok y = true).
Proof.
  apply (ext_fold _ (fun b y => bok b = true /\ In y (fst (get_adj m all_ok dt b)) /\ tok y = true)). intros s b.
  destruct (bok b) eqn:B.
  2:{ eapply ext_weak; [apply ext_refl|]. intros y. split; [tauto|]. intros (X & _). discriminate. }
  eapply ext_weak; [apply (ext_fold _ (fun e y => y = e /\ tok e = true))|].
  - intros s' e. rewrite andb_comm. apply ext_push.
  - intros y. split.
    + intros (e & I & -> & T). auto.
    + intros (_ & I & T). exists y. auto.
Qed.
Lemma bridge_spec m bt dt bok tok x : links [] m -> slots m -> fst x < 4 ->
  (forall y, In y (fst (bridge m bt dt bok tok x)) <->
     dt (fst y) = true /\ tok y = true /\ through m bt bok x y /\ (bt (fst x) = false -> ~ adjacent m x y)) /\
  NoDup (fst (bridge m bt dt bok tok x)) /\ forall y, snd (bridge m bt dt bok tok x) y = false.
Proof.
  intros L SL X.
  set (my := if bt (fst x) then [] else fst (get_adj m all_ok dt x)).
  set (mk0 := fold_left (fun s y => upd s y true) my fresh).
  pose proof (bridge_ext m bt dt bok tok x ([], mk0)) as E.
  change (bridge m bt dt bok tok x) with (let st := fold_left (fun s b => if bok b then
              fold_left (fun s y => if negb (snd s y) && tok y then (fst s ++ [y], upd (snd s) y true) else s)
                        (fst (get_adj m all_ok dt b)) s else s) (fst (get_adj m all_ok bt x)) ([], mk0) in
     (fst st, unmark my (unmark (fst st) (snd st)))).
  match type of E with ext _ ?s _ => set (st := s) in * end. cbv zeta. cbn [fst snd].
  destruct E as (A & new & B & C & D). cbn [fst snd app] in A, B, D.
  change (@fst (list elem) (elem -> bool) st = new) in B. rewrite B.
  assert (MK : forall y, mk0 y = true <-> In y my).
  { intros y. unfold mk0. rewrite mark_all. unfold fresh. split; [intros [Z|Z]; [discriminate|assumption]|auto]. }
  assert (GA : forall t z, fst z < 4 -> forall y, In y (fst (get_adj m all_ok t z)) <-> t (fst y) = true /\ adjacent m z y).
  { intros t z Z y. destruct (get_adj_spec m all_ok t z L SL Z) as (G & _). rewrite G. unfold all_ok. split; [tauto|].
    intros (P & Q). repeat split; auto. eapply adjacent_lt4; eauto. }
  split; [|split; [assumption|]].
  - intros y. rewrite D. unfold through. split.
    + intros (M & b & I & BB & J & T). apply GA in I; [|assumption]. destruct I as (I1 & I2).
      pose proof (adjacent_lt4 m x b L SL X I2) as B4. apply GA in J; [|assumption]. destruct J as (J1 & J2).
      split; [assumption|]. split; [assumption|]. split; [exists b; auto|].
      intros O AD. assert (MY : In y my) by (unfold my; rewrite O; apply GA; auto). apply MK in MY. congruence.
    + intros (T1 & T2 & (b & I1 & BB & I2 & J2) & N). pose proof (adjacent_lt4 m x b L SL X I2) as B4. split.
      * destruct (mk0 y) eqn:M; [|reflexivity]. apply MK in M. unfold my in M. destruct (bt (fst x)); [contradiction|].
        apply GA in M; [|assumption]. exfalso. apply N; tauto.
      * exists b. split; [apply GA; auto|]. split; [assumption|]. split; [apply GA; auto|assumption].
  - intros y. destruct (unmark my (unmark new (snd st)) y) eqn:U; [|reflexivity]. apply unmark_in in U. destruct U as (U & V).
    apply unmark_in in U. destruct U as (U & W). apply A in U. destruct U as [U|U].
    + apply MK in U. contradiction.
    + exfalso. apply W. apply D. split; [|exact U]. destruct (mk0 y) eqn:M; [|reflexivity]. apply MK in M. contradiction.
Qed.

(** * Requests that walk round a loop *)
Lemma path_ends low : forall es ns, path low es ns -> es <> [] -> forall n, In n ns <-> exists e, In e es /\ In n (low e).
Proof.
  intros es ns P. induction P as [x|e x y es ns J P IH]; intros NE n; [contradiction|].
  assert (LE : forall k, In k (low e) <-> k = x \/ k = y).
  { intros k. destruct J as [->| ->]; cbn; intuition auto. }
  destruct es as [|e' es'].
  - inversion P; subst. split.
    + intros I. exists e. split; [left; reflexivity|]. apply LE. cbn in I. intuition auto.
    + intros (k & [<-|[]] & I). apply LE in I. cbn. intuition auto.
  - assert (X : e' :: es' <> []) by discriminate. specialize (IH X). split.
    + intros [<-|I]; [exists e; split; [left; reflexivity|apply LE; auto]|]. apply IH in I. destruct I as (k & A & B).
      exists k. split; [right; assumption|assumption].
    + intros (k & [<-|A] & B).
      * apply LE in B. destruct B as [->| ->]; [left; reflexivity|right; left; reflexivity].
      * right. apply IH. exists k. auto.
Qed.
Lemma polygon_ends low es ns : polygon low es ns -> forall n, In n ns <-> exists e, In e es /\ In n (low e).
Proof.
  intros ((L & P) & _) n. destruct ns as [|k ns]; [contradiction|].
  assert (E : es <> []) by (intros ->; inversion P; subst; destruct ns; discriminate).
  rewrite <- (path_ends _ _ _ P E n), in_app_iff. cbn [In]. tauto.
Qed.
Lemma shown_visible m l y : In y (shown (hidden m) l) <-> In y l /\ visible m y = true.
Proof. unfold shown. apply filter_In. Qed.
Lemma steps2 m c x y : steps m c 2 x y <-> exists z, In z (c x) /\ visible m z = true /\ In y (c z) /\ visible m y = true.
Proof.
  split.
  - intros H. inversion H; subst. apply steps1 in H3. exists z. tauto.
  - intros (z & A & B & C & D). apply (steps_more m c 1 x z y A B). constructor; assumption.
Qed.
Lemma polygon_steps m c ns : polygon (fun e => shown (hidden m) (low m e)) (shown (hidden m) (low m c)) ns ->
  forall n, In n ns <-> steps m (low m) 2 c n.
Proof.
  intros P n. rewrite (polygon_ends _ _ _ P), steps2. split.
  - intros (e & A & B). apply shown_visible in A. apply shown_visible in B. exists e. tauto.
  - intros (e & A & B & C & D). exists e. rewrite !shown_visible. auto.
Qed.
Lemma first_nodes_shown low h es ns : Forall2 (fun e n => shown h (low e) = [n]) es ns -> first_nodes low h es = Some ns.
Proof.
  intros F. induction F as [|e n es ns E F IH]; [reflexivity|]. cbn [first_nodes]. rewrite IH.
  assert (X : nth_error (low e) (get_next h (low e) 0) = Some n).
  { unfold get_next. cbn [skipn Nat.add]. clear IH F. induction (low e) as [|k l IHl]; [discriminate|].
    cbn [shown filter] in E. cbn [lead]. destruct (h k); cbn [negb] in E; [exact (IHl E)|]. injection E as E _. subst. reflexivity. }
  rewrite X. reflexivity.
Qed.

Lemma walk_mask_true pair : forall es last, walk_mask pair (fun _ => true) last es = walk pair last es.
Proof.
  induction es as [|e es IH]; intros last; [reflexivity|]. cbn [walk_mask walk]. destruct (pair e) as [(a & b)|]; [|reflexivity].
  cbn [bind]. rewrite IH. reflexivity.
Qed.
Lemma cell2_edges_mask low h lc : cell2_edges low h true lc = face_nodes_mask low h true true (fun _ => true) lc.
Proof.
  unfold cell2_edges, face_nodes_mask, ring_mask_hidden. destruct (nth_error lc (get_next h lc 0)) as [q|]; [|reflexivity].
  cbn [bind]. destruct (visible_two h (low q)) as [(a & b)|]; [|reflexivity]. cbn [bind].
  destruct (nth_error lc _) as [r|]; [|reflexivity]. cbn [bind]. destruct (visible_two h (low r)) as [(a' & b')|]; [|reflexivity].
  cbn [bind]. unfold orient, first_edge. cbn [fst snd filter]. replace (length lc - 1 - 1) with (length lc - 2) by lia.
  destruct (touches a (a', b')); rewrite walk_mask_true; destruct (walk _ _ _); reflexivity.
Qed.
Lemma filter_true (l : list elem) : filter (fun _ => true) l = l.
Proof. induction l as [|e l IH]; cbn [filter]; [reflexivity|]. rewrite IH. reflexivity. Qed.
