(** Proofs about the model of EquilibrateGhost. *)
From Coq Require Import List Bool Arith Lia Permutation.
From Verif Require Import Util Equil_Spec Equil_Model.
Import ListNotations.

(** * Distances on one process *)
Set Default Proof Using "Type".
Section Local.
Context (cells : list nat) (near : nat -> list nat) (st : nat -> status) (ow : nat -> nat) (own : nat -> Prop) (r : nat).
Context (ND : NoDup cells).
Context (Hnear : forall c x, In c cells -> In x (near c) -> In x cells).
Context (Hown : forall l, In l cells -> (is_owned (st l) = true <-> own l)).
Context (How : forall l, In l cells -> own l -> ow l = r).
Let adj (c x : nat) : Prop := In c cells /\ In x (near c).
Notation walk := (walk own adj).

Definition first (c : nat) : bool := negb (is_owned (st c)) && existsb (fun l => is_owned (st l)) (near c).
Lemma collect_fold l : incl l cells -> snd (collect l near st ow) = filter first l /\
  forall x, fst (collect l near st ow) x = if existsb (Nat.eqb x) l && first x then Some (r, 1) else None.
Proof using All.
  induction l as [| c l IH] using rev_ind; intros I; [easy |].
  destruct IH as (H1 & H2). { intros x X. apply I. apply in_or_app. now left. }
  assert (Ic : In c cells) by (apply I; apply in_or_app; right; now left).
  unfold collect in *. rewrite fold_left_app. cbn [fold_left]. set (s := fold_left _ _ _) in *. unfold collect_cell. rewrite filter_app. cbn [filter].
  assert (F : forall x, first x = true -> x <> c -> existsb (Nat.eqb x) (l ++ [c]) = existsb (Nat.eqb x) l).
  { intros x _ N. rewrite existsb_app. cbn [existsb]. apply Nat.eqb_neq in N. rewrite N. now rewrite !orb_false_r. }
  assert (Fc : existsb (Nat.eqb c) (l ++ [c]) = true). { rewrite existsb_app. cbn [existsb]. rewrite Nat.eqb_refl. now rewrite orb_true_r. }
  destruct (is_owned (st c)) eqn:O.
  - assert (E : first c = false) by (unfold first; now rewrite O). rewrite E, app_nil_r. split; [easy |]. intros x. rewrite H2. destruct (first x) eqn:X; [| now rewrite !andb_false_r].
    rewrite (F x X); [easy |]. intros ->. congruence.
  - destruct (find _ (near c)) as [l0 |] eqn:FI.
    + apply find_some in FI as (FI1 & FI2). assert (E : first c = true). { unfold first. rewrite O. cbn [negb andb]. apply existsb_exists. now exists l0. }
      rewrite E. cbn [fst snd]. rewrite H1. split; [easy |]. intros x. unfold put. destruct (Nat.eqb_spec x c) as [-> | N].
      * rewrite Fc, E. cbn [andb]. do 2 f_equal. assert (In l0 cells) by now apply (Hnear c). apply How; [easy |]. now apply Hown.
      * rewrite H2. destruct (first x) eqn:X; [now rewrite (F x X N) | now rewrite !andb_false_r].
    + assert (E : first c = false). { unfold first. rewrite O. cbn [negb andb]. apply not_true_is_false. intros T. apply existsb_exists in T as (y & Y1 & Y2). pose proof (find_none _ _ FI y Y1) as Q. cbn beta in Q. congruence. }
      rewrite E, app_nil_r. cbn [fst snd]. split; [easy |]. intros x. unfold put. destruct (Nat.eqb_spec x c) as [-> | N].
      * rewrite E. now rewrite andb_false_r.
      * rewrite H2. destruct (first x) eqn:X; [now rewrite (F x X N) | now rewrite !andb_false_r].
Qed.

Record inv (k : nat) (done q1 q2 : list nat) (t : tag) : Prop := Inv {
  i_nodup : NoDup (done ++ q1 ++ q2);
  i_known : forall c, In c (done ++ q1 ++ q2) <-> t c <> None;
  i_walk : forall c o d, t c = Some (o, d) -> o = r /\ walk d c /\ In c cells /\ is_owned (st c) = false;
  i_done : forall c o d, In c done -> t c = Some (o, d) -> d <= k;
  i_q1 : forall c o d, In c q1 -> t c = Some (o, d) -> d = k;
  i_q2 : forall c o d, In c q2 -> t c = Some (o, d) -> d = S k;
  i_first : forall c, In c cells -> first c = true -> t c = Some (r, 1)
}.
Definition expanded (l : list nat) (t : tag) : Prop :=
  forall c o d x, In c l -> t c = Some (o, d) -> In x (near c) -> is_owned (st x) = false -> exists e, t x = Some (r, e) /\ e <= S d.

Lemma visit_fold k done q1 c : In c done -> In c cells -> forall l q2 t, incl l (near c) -> inv k done q1 q2 t -> t c = Some (r, k) ->
  let s := fold_left (visit st r k) l (t, q1 ++ q2) in
  exists q2', snd s = q1 ++ q2' /\ inv k done q1 q2' (fst s) /\ (forall y v, t y = Some v -> fst s y = Some v) /\
    (forall x, In x l -> is_owned (st x) = false -> exists e, fst s x = Some (r, e) /\ e <= S k).
Proof using All.
  intros Id Ic. induction l as [| x l IH]; intros q2 t IL I Tc; cbn [fold_left].
  - exists q2. cbv zeta. cbn [fst snd]. split; [easy |]. split; [exact I |]. split; [intros y v Y; exact Y |]. intros x [].
  - assert (IL' : incl l (near c)) by (intros y Y; apply IL; now right).
    assert (Ix : In x cells) by (apply (Hnear c); [easy | apply IL; now left]).
    assert (VX : visit st r k (t, q1 ++ q2) x = visit st r k (t, q1 ++ q2) x) by easy. unfold visit at 2 in VX. cbn [fst snd] in VX. cbv zeta. rewrite VX. clear VX. destruct (is_owned (st x)) eqn:O.
    + destruct (IH q2 t IL' I Tc) as (q2' & A & B & D & E). exists q2'. split; [easy |]. split; [easy |]. split; [easy |].
      intros y [<- | Y] OY; [congruence | now apply E].
    + destruct (t x) as [(o, e) |] eqn:TX.
      * assert (e <= S k /\ o = r) as (LE & ->).
        { destruct (i_walk _ _ _ _ _ I x o e TX) as (-> & _). split; [| easy]. assert (J : In x (done ++ q1 ++ q2)) by (apply (i_known _ _ _ _ _ I); congruence).
          apply in_app_iff in J as [J | J]; [pose proof (i_done _ _ _ _ _ I x r e J TX); lia |]. apply in_app_iff in J as [J | J]; [pose proof (i_q1 _ _ _ _ _ I x r e J TX); lia | pose proof (i_q2 _ _ _ _ _ I x r e J TX); lia]. }
        destruct (Nat.ltb_spec (k + 1) e) as [L | _]; [lia |].
        destruct (IH q2 t IL' I Tc) as (q2' & A & B & D & E). exists q2'. split; [easy |]. split; [easy |]. split; [easy |].
        intros y [<- | Y] OY; [exists e; split; [now apply D | easy] | now apply E].
      * assert (NX : ~ In x (done ++ q1 ++ q2)) by (intros J; apply (i_known _ _ _ _ _ I) in J; congruence).
        assert (NC : c <> x) by (intros ->; congruence).
        set (t' := put t x (Some (r, k + 1))). assert (P : forall y, y <> x -> t' y = t y) by (intros y Y; unfold t', put; destruct (Nat.eqb_spec y x); [congruence | easy]).
        assert (PX : t' x = Some (r, k + 1)) by (unfold t', put; now rewrite Nat.eqb_refl).
        assert (NE : forall y, In y (done ++ q1 ++ q2) -> y <> x) by (intros y Y ->; easy).
        assert (I' : inv k done q1 (q2 ++ [x]) t').
        { constructor.
          - replace (done ++ q1 ++ q2 ++ [x]) with ((done ++ q1 ++ q2) ++ [x]) by now rewrite <- !app_assoc. apply Permutation_NoDup with (l := x :: (done ++ q1 ++ q2)); [apply Permutation_cons_append |]. constructor; [easy | apply (i_nodup _ _ _ _ _ I)].
          - intros y. replace (done ++ q1 ++ q2 ++ [x]) with ((done ++ q1 ++ q2) ++ [x]) by now rewrite <- !app_assoc. rewrite in_app_iff, (i_known _ _ _ _ _ I y). cbn [In].
            destruct (Nat.eq_dec y x) as [-> | N]; [rewrite PX; split; [easy | auto] |]. rewrite (P y N). intuition congruence.
          - intros y o d E. destruct (Nat.eq_dec y x) as [-> | N]; [| rewrite (P y N) in E; now apply (i_walk _ _ _ _ _ I)].
            rewrite PX in E. injection E as <- <-. split; [easy |]. split; [| easy]. rewrite Nat.add_1_r. apply walk_next with (c := c).
            + now destruct (i_walk _ _ _ _ _ I c r k Tc).
            + split; [easy |]. apply IL. now left.
            + intros W. apply Hown in W; [congruence | easy].
          - intros y o d Y E. rewrite P in E; [now apply (i_done _ _ _ _ _ I y o) |]. apply NE. apply in_app_iff. now left.
          - intros y o d Y E. rewrite P in E; [now apply (i_q1 _ _ _ _ _ I y o) |]. apply NE. apply in_app_iff. right. apply in_app_iff. now left.
          - intros y o d Y E. apply in_app_iff in Y as [Y | [<- | []]].
            + rewrite P in E; [now apply (i_q2 _ _ _ _ _ I y o) |]. apply NE. apply in_app_iff. right. apply in_app_iff. now right.
            + rewrite PX in E. injection E as <- <-. lia.
          - intros y Y F. rewrite P; [now apply (i_first _ _ _ _ _ I) |]. intros ->. pose proof (i_first _ _ _ _ _ I x Y F). congruence. }
        destruct (IH (q2 ++ [x]) t' IL' I') as (q2' & A & B & D & E). { rewrite P; easy. }
        rewrite app_assoc in A, B, D, E. exists q2'. split; [easy |]. split; [easy |]. split.
        -- intros y v Y. apply D. rewrite P; [easy |]. intros ->. congruence.
        -- intros y [<- | Y] OY; [exists (k + 1); split; [now apply D | lia] | now apply E].
Qed.

Lemma distances_inv fuel : forall k cur done q1 q2 t, inv k done q1 q2 t -> expanded done t -> cur <= k -> length cells <= length done + fuel ->
  exists t' done', distances fuel near st cur t (q1 ++ q2) = Some t' /\ (exists k', inv k' done' [] [] t') /\ expanded done' t'.
Proof using All.
  induction fuel as [| fuel IH]; intros k cur done q1 q2 t I X CU LE.
  - assert (q1 ++ q2 = []) as ->.
    { assert (INC : incl (done ++ q1 ++ q2) cells). { intros c J. apply (i_known _ _ _ _ _ I) in J. destruct (t c) as [(o, d) |] eqn:E; [| easy]. now destruct (i_walk _ _ _ _ _ I c o d E) as (_ & _ & ? & _). }
      pose proof (NoDup_incl_length (i_nodup _ _ _ _ _ I) INC) as L. rewrite app_length in L. destruct (q1 ++ q2); [easy |]. cbn [length] in L. lia. }
    exists t, (done ++ q1 ++ q2). cbn [distances]. split; [easy |]. split.
    + exists (S k). destruct I as [A1 A2 A3 A4 A5 A6 A7]. constructor; try (intros ? ? ? XX; now destruct XX); rewrite ?app_nil_r; try easy.
      intros c o d J E. apply in_app_iff in J as [J | J]; [specialize (A4 _ _ _ J E); lia |]. apply in_app_iff in J as [J | J]; [specialize (A5 _ _ _ J E); lia | specialize (A6 _ _ _ J E); lia].
    + assert (Q : q1 ++ q2 = []).
      { assert (INC : incl (done ++ q1 ++ q2) cells). { intros c J. apply (i_known _ _ _ _ _ I) in J. destruct (t c) as [(o, d) |] eqn:E; [| easy]. now destruct (i_walk _ _ _ _ _ I c o d E) as (_ & _ & ? & _). }
        pose proof (NoDup_incl_length (i_nodup _ _ _ _ _ I) INC) as L. rewrite app_length in L. destruct (q1 ++ q2); [easy |]. cbn [length] in L. lia. }
      now rewrite Q, app_nil_r.
  - assert (STEP : forall k c q1 q2, inv k done (c :: q1) q2 t -> cur <= k ->
      exists t' done', distances (S fuel) near st cur t ((c :: q1) ++ q2) = Some t' /\ (exists k', inv k' done' [] [] t') /\ expanded done' t').
    { clear k q1 q2 I CU. intros k c q1 q2 I CU. cbn [app distances].
      assert (KN : t c <> None). { apply (i_known _ _ _ _ _ I). apply in_app_iff. right. now left. }
      destruct (t c) as [(o, d) |] eqn:Tc; [| easy]. assert (d = k) as -> by (apply (i_q1 _ _ _ _ _ I c o d); [now left | easy]).
      destruct (i_walk _ _ _ _ _ I c o k Tc) as (-> & Wc & Ic & Oc). destruct (Nat.ltb_spec k cur) as [L | _]; [lia |]. cbv zeta.
      assert (I' : inv k (done ++ [c]) q1 q2 t).
      { destruct I as [A1 A2 A3 A4 A5 A6 A7]. constructor; try easy.
        - now rewrite <- app_assoc.
        - intros y. rewrite <- app_assoc. apply A2.
        - intros y o d J E. apply in_app_iff in J as [J | [<- | []]]; [now apply (A4 y o) |]. rewrite (A5 c o d); [lia | now left | easy].
        - intros y o d J E. apply (A5 y o d); [now right | easy]. }
      destruct (visit_fold k (done ++ [c]) q1 c) with (l := near c) (q2 := q2) (t := t) as (q2' & A & B & D & E); auto. { apply in_app_iff. right. now left. } { apply incl_refl. }
      rewrite A. apply (IH k _ (done ++ [c])); [exact B | | |].
      - intros y o d x J EY NX OX. apply in_app_iff in J as [J | [<- | []]].
        + assert (TY : t y <> None). { apply (i_known _ _ _ _ _ I). apply in_app_iff. now left. }
          destruct (t y) as [v |] eqn:TV; [| easy]. pose proof (D _ _ TV) as DV. rewrite DV in EY. injection EY as ->. destruct (X y o d x J TV NX OX) as (e & E1 & E2). exists e. split; [now apply D | easy].
        + rewrite (D _ _ Tc) in EY. injection EY as <- <-. now apply E.
      - destruct (Nat.ltb_spec cur k); lia.
      - rewrite app_length. cbn [length]. lia. }
    destruct q1 as [| c q1].
    + destruct q2 as [| c q2].
      * exists t, done. cbn [app distances]. split; [easy |]. split; [now exists k | easy].
      * destruct (STEP (S k) c q2 []) as (t' & done' & H); [| lia |].
        { destruct I as [A1 A2 A3 A4 A5 A6 A7]. cbn [app] in A1, A2. constructor; try (intros ? ? ? XX; now destruct XX); rewrite ?app_nil_r; try easy. intros y o d J E. specialize (A4 y o d J E). lia. }
        rewrite app_nil_r in H. now exists t', done'.
    + now apply (STEP k).
Qed.

Lemma local_tag_spec : exists t, local_tag cells near st ow = Some t /\
  forall c, (forall o d, t c = Some (o, d) -> o = r /\ distance own adj d c) /\ (t c = None -> forall d, ~ walk d c).
Proof using All.
  destruct (collect_fold cells (incl_refl cells)) as (C1 & C2). unfold local_tag. cbv zeta.
  assert (I : inv 1 [] (snd (collect cells near st ow)) [] (fst (collect cells near st ow))).
  { rewrite C1. assert (EX : forall c, In c cells -> existsb (Nat.eqb c) cells = true) by (intros c J; apply existsb_exists; exists c; split; [easy | apply Nat.eqb_refl]).
    assert (TS : forall c v, fst (collect cells near st ow) c = Some v -> v = (r, 1) /\ In c cells /\ first c = true).
    { intros c v E. rewrite C2 in E. destruct (existsb (Nat.eqb c) cells) eqn:Z; [| easy]. destruct (first c) eqn:F; [| easy]. cbn [andb] in E. injection E as <-. apply existsb_exists in Z as (y & Y & Q). apply Nat.eqb_eq in Q. now subst. }
    constructor.
    - cbn [app]. rewrite app_nil_r. now apply NoDup_filter.
    - intros c. cbn [app]. rewrite app_nil_r, filter_In, C2. split; [intros (J & F); now rewrite (EX c J), F |].
      destruct (existsb (Nat.eqb c) cells) eqn:Z; [| easy]. destruct (first c) eqn:F; [| easy]. intros _. apply existsb_exists in Z as (y & Y & Q). apply Nat.eqb_eq in Q. now subst.
    - intros c o d E. destruct (TS c _ E) as (Q & J & F). injection Q as -> ->. split; [easy |]. unfold first in F. apply andb_true_iff in F as (F1 & F2). apply negb_true_iff in F1.
      split; [| easy]. apply existsb_exists in F2 as (l & L1 & L2). apply walk_first with (l := l); [| easy |].
      + intros W. apply Hown in W; [congruence | easy].
      + apply Hown; [now apply (Hnear c) | easy].
    - intros c o d [].
    - intros c o d _ E. destruct (TS c _ E) as (Q & _). now injection Q.
    - intros c o d [].
    - intros c J F. rewrite C2, (EX c J), F. easy. }
  destruct (distances_inv (length cells) 1 1 [] _ [] _ I) as (t & done & E & (k & J) & X); [intros c o d x [] | lia | cbn [length]; lia |].
  rewrite app_nil_r in E. exists t. split; [easy |].
  assert (MIN : forall d c, walk d c -> exists e, t c = Some (r, e) /\ e <= d).
  { intros d c W. induction W as [c l N (A1 & A2) O | d c x W (e & E1 & E2) (A1 & A2) N].
    - exists 1. split; [| lia]. apply (i_first _ _ _ _ _ J c A1). unfold first. apply andb_true_iff. split.
      + apply negb_true_iff. apply not_true_is_false. intros Q. apply N. now apply Hown.
      + apply existsb_exists. exists l. split; [easy |]. apply Hown; [now apply (Hnear c) | easy].
    - destruct (X c r e x) as (e' & F1 & F2); [| easy | easy | |].
      + assert (K : In c (done ++ [] ++ [])) by (apply (i_known _ _ _ _ _ J); congruence). cbn [app] in K. now rewrite app_nil_r in K.
      + apply not_true_is_false. intros Q. apply N. apply Hown; [now apply (Hnear c) | easy].
      + exists e'. split; [easy | lia]. }
  intros c. split.
  - intros o d T. destruct (i_walk _ _ _ _ _ J c o d T) as (-> & W & _). split; [easy |]. split; [easy |]. intros d' W'. destruct (MIN d' c W') as (e & E1 & E2). rewrite T in E1. injection E1 as <-. easy.
  - intros T d W. destruct (MIN d c W) as (e & E1 & _). congruence.
Qed.
End Local.

(** * Reductions *)
Definition le_pair (a b : nat * nat) : Prop := snd a < snd b \/ snd a = snd b /\ fst a <= fst b.
Lemma min_distance_fold (v : nat -> option (nat * nat)) l : forall i,
  match fold_left (fun r q => min_distance r (v q)) l i with
  | Some a => (i = Some a \/ exists q, In q l /\ v q = Some a) /\ (forall b, i = Some b \/ (exists q, In q l /\ v q = Some b) -> le_pair a b)
  | None => i = None /\ forall q, In q l -> v q = None
  end.
Proof.
  induction l as [| q l IH]; intros i; cbn [fold_left].
  - destruct i as [a |]; [| now split]. split; [now left |]. intros b [E | (q & [] & _)]. injection E as ->. right. lia.
  - specialize (IH (min_distance i (v q))). destruct (fold_left _ l _) as [a |].
    + destruct IH as (H1 & H2). split.
      * destruct H1 as [H1 | (p & P & E)]; [| right; exists p; split; [now right | easy]].
        unfold min_distance in H1. destruct (v q) as [(io, id) |] eqn:Q; [| now left]. destruct i as [(ro, rd) |]; [| right; exists q; split; [now left | congruence]].
        destruct (id <? rd); [right; exists q; split; [now left | congruence] |]. destruct (_ && _); [right; exists q; split; [now left | congruence] | now left].
      * assert (M : forall b, i = Some b \/ v q = Some b -> exists b', min_distance i (v q) = Some b' /\ le_pair b' b).
        { intros b B. unfold min_distance, le_pair. destruct (v q) as [(io, id) |], i as [(ro, rd) |].
          - destruct (Nat.ltb_spec id rd) as [L | L].
            + exists (io, id). split; [easy |]. destruct B as [B | B]; injection B as <-; cbn [fst snd]; lia.
            + destruct (Nat.eqb_spec id rd) as [-> | NE]; cbn [andb]; [destruct (Nat.ltb_spec io ro) |]; eexists; (split; [reflexivity |]); destruct B as [B | B]; injection B as <-; cbn [fst snd]; lia.
          - destruct B as [B | B]; [easy |]. injection B as <-. exists (io, id). split; [easy |]. lia.
          - destruct B as [B | B]; [| easy]. injection B as <-. exists (ro, rd). split; [easy |]. lia.
          - now destruct B. }
        intros b B. assert (TR : forall b', le_pair a b' -> le_pair b' b -> le_pair a b) by (unfold le_pair; intros; lia).
        destruct B as [B | (p & [<- | P] & E)].
        -- destruct (M b) as (b' & M1 & M2); [now left |]. apply (TR b'); [apply H2; now left | easy].
        -- destruct (M b) as (b' & M1 & M2); [now right |]. apply (TR b'); [apply H2; now left | easy].
        -- apply H2. right. now exists p.
    + destruct IH as (H1 & H2). unfold min_distance in H1. destruct (v q) as [(io, id) |] eqn:Q.
      * destruct i as [(ro, rd) |]; [| easy]. destruct (id <? rd); [easy |]. now destruct (_ && _).
      * split; [easy |]. intros p [<- | P]; [easy | now apply H2].
Qed.
Lemma min_owner_fold {A} (v : A -> option nat) l : forall i,
  match fold_left (fun r q => min_owner r (v q)) l i with
  | Some a => (i = Some a \/ exists q, In q l /\ v q = Some a) /\ (forall b, i = Some b \/ (exists q, In q l /\ v q = Some b) -> a <= b)
  | None => i = None /\ forall q, In q l -> v q = None
  end.
Proof.
  induction l as [| q l IH]; intros i; cbn [fold_left].
  - destruct i as [a |]; [| now split]. split; [now left |]. intros b [E | (q & [] & _)]. injection E as ->. lia.
  - specialize (IH (min_owner i (v q))). destruct (fold_left _ l _) as [a |].
    + destruct IH as (H1 & H2). split.
      * destruct H1 as [H1 | (p & P & E)]; [| right; exists p; split; [now right | easy]].
        unfold min_owner in H1. destruct (v q) as [x |] eqn:Q; [| now left]. destruct i as [y |]; [| right; exists q; split; [now left | congruence]].
        injection H1 as <-. destruct (Nat.min_dec y x) as [E | E]; rewrite E; [now left | right; exists q; split; [now left | easy]].
      * assert (M : forall b, i = Some b \/ v q = Some b -> exists b', min_owner i (v q) = Some b' /\ b' <= b).
        { intros b B. unfold min_owner. destruct (v q) as [x |], i as [y |]; destruct B as [B | B]; try easy; injection B as <-; eexists; (split; [reflexivity |]); lia. }
        intros b [B | (p & [<- | P] & E)].
        -- destruct (M b) as (b' & M1 & M2); [now left |]. specialize (H2 b' (or_introl M1)). lia.
        -- destruct (M b) as (b' & M1 & M2); [now right |]. specialize (H2 b' (or_introl M1)). lia.
        -- apply H2. right. now exists p.
    + destruct IH as (H1 & H2). unfold min_owner in H1. destruct (v q) as [x |] eqn:Q; [now destruct i |]. split; [easy |]. intros p [<- | P]; [easy | now apply H2].
Qed.

(** * Roles *)
Lemma right_owned h o q : In q h -> (right_status h o q = Owned <-> h = [q]).
Proof.
  intros I. unfold right_status. destruct h as [| a [| b h]]; [easy | |].
  - destruct I as [-> | []]. easy.
  - split; [destruct (q =? o); easy | easy].
Qed.
Lemma right_several h o q : 2 <= length h -> right_status h o q = role q o.
Proof. unfold right_status, role. destruct h as [| a [| b h]]; cbn [length]; [lia | lia | easy]. Qed.
Lemma exchanged_value {A} (op : A -> A -> A) arrivals T (value : nat -> nat -> A) h o q e :
  2 <= length h -> t_owner T q e = o -> t_status T q e = right_status h o q -> exchanged op arrivals T value q e = reduced op arrivals value o e.
Proof.
  intros L EO ES. unfold exchanged. rewrite ES, right_several by easy. unfold role. destruct (Nat.eqb_spec q o) as [-> | N]; [easy |]. now rewrite EO.
Qed.
