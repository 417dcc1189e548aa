From Coq Require Import List Arith Bool ZArith Lia.
From Verif Require Import Hess_Spec Hess_Model.
Import ListNotations.

Lemma make_index_ordered a b : make_index a b = ordered (a, b).
Proof. unfold make_index, ordered. cbn [fst snd]. destruct (Nat.ltb_spec b a), (Nat.ltb_spec a b); f_equal; lia. Qed.
Lemma ordered_same a b : ordered a = ordered b -> same_cols a b.
Proof. destruct a as (a1, a2), b as (b1, b2). unfold ordered, same_cols. cbn. intros E. injection E as E1 E2. destruct (Nat.eq_dec a1 b1); [left | right]; f_equal; lia. Qed.
Lemma idx_eqb_iff a b : idx_eqb a b = true <-> a = b.
Proof. destruct a, b. unfold idx_eqb. cbn. rewrite andb_true_iff, !Nat.eqb_eq. split; [intros (-> & ->); easy | now injection 1]. Qed.
Lemma assign_new r i v : ~ In i (map fst r) -> assign r i v = r ++ [(i, v)].
Proof. induction r as [| e r IH]; intros NI; cbn; [easy |]. destruct (idx_eqb (fst e) i) eqn:E; [apply idx_eqb_iff in E; exfalso; apply NI; now left |]. rewrite IH; [easy |]. intros I. apply NI. now right. Qed.
(** what is read from the lines of a row *)
Definition readrow (rnd : Z -> Z) (r : row) : row := map (fun e => (ordered (fst e), rnd (snd e))) r.
Definition put (r : row) (e : entry) : row := assign r (ordered (fst e)) (snd e).
Lemma puts_simple rnd : forall r acc, simple_row r -> (forall a b, In a acc -> In b r -> fst a <> ordered (fst b)) ->
  fold_left (fun x e => put x (fst e, rnd (snd e))) r acc = acc ++ readrow rnd r.
Proof.
  induction r as [| e r IH]; intros acc SR D; cbn; [now rewrite app_nil_r |]. inversion SR as [| ? ? A B]; subst. unfold put at 2. cbn [fst snd]. rewrite assign_new.
  - rewrite IH; [rewrite <- app_assoc; easy | easy |]. intros a b I J. apply in_app_iff in I as [I | [<- | []]]; [apply D; [easy | now right] |]. cbn. intros E. rewrite Forall_forall in A. apply (A b J). now apply ordered_same.
  - intros I. apply in_map_iff in I as (a & E & I). apply (D a e I); [now left | easy].
Qed.
Definition line_of (rnd : Z -> Z) (n : nat) (e : entry) : line := mkLine n (fst (fst e) + 1) (snd (fst e) + 1) (rnd (snd e)).
Lemma take_line rnd mbeg mend rows n e : take mbeg mend rows (line_of rnd (S n) e) = if (mbeg <=? n) && (n <? mend) then at_row (n - mbeg) (fun x => put x (fst e, rnd (snd e))) rows else rows.
Proof.
  unfold take, target, line_of. cbn [l_row l_i l_j l_val Nat.eqb]. replace (S n - 1) with n by lia. destruct ((mbeg <=? n) && (n <? mend)); [| easy]. rewrite !Nat.add_sub, make_index_ordered. now destruct e as ((a, b), v).
Qed.
Lemma at_row_compose k f g : forall rows, at_row k g (at_row k f rows) = at_row k (fun x => g (f x)) rows.
Proof. induction k as [| k IH]; intros [| r rows]; cbn; try easy. now rewrite IH. Qed.
Lemma at_row_ext k f g : (forall x, f x = g x) -> forall rows, at_row k f rows = at_row k g rows.
Proof. intros E. induction k as [| k IH]; intros [| r rows]; cbn; try easy; [now rewrite E | now rewrite IH]. Qed.
Lemma at_row_id k : forall rows, at_row k (fun x => x) rows = rows.
Proof. induction k as [| k IH]; intros [| r rows]; cbn; try easy. now rewrite IH. Qed.
Lemma take_row rnd mbeg mend n : forall (r : row) rows, fold_left (take mbeg mend) (map (line_of rnd (S n)) r) rows =
  if (mbeg <=? n) && (n <? mend) then at_row (n - mbeg) (fun x => fold_left (fun x e => put x (fst e, rnd (snd e))) r x) rows else rows.
Proof.
  induction r as [| e r IH]; intros rows; cbn [map fold_left].
  - destruct ((mbeg <=? n) && (n <? mend)); [| easy]. symmetry. apply at_row_id.
  - rewrite take_line. rewrite IH. destruct ((mbeg <=? n) && (n <? mend)); [| easy]. rewrite at_row_compose. now apply at_row_ext.
Qed.
(** rows of all processes one after another *)
Lemma take_lines rnd mbeg mend : forall all n rows, fold_left (take mbeg mend) (lines rnd (S n) all) rows =
  fold_left (fun rs (p : nat * row) => if (mbeg <=? fst p) && (fst p <? mend) then at_row (fst p - mbeg) (fun x => fold_left (fun x e => put x (fst e, rnd (snd e))) (snd p) x) rs else rs) (combine (seq n (length all)) all) rows.
Proof.
  induction all as [| r all IH]; intros n rows; cbn [lines length seq combine fold_left]; [easy |]. rewrite fold_left_app. change (map (fun e => mkLine (S n) (fst (fst e) + 1) (snd (fst e) + 1) (rnd (snd e))) r) with (map (line_of rnd (S n)) r). rewrite take_row. cbn [fst snd]. apply IH.
Qed.
Lemma at_row_nth k f d : forall rows j, nth j (at_row k f rows) d = if Nat.eqb j k then (if k <? length rows then f (nth j rows d) else d) else nth j rows d.
Proof.
  induction k as [| k IH]; intros [| r rows] j; cbn [at_row].
  - destruct j; easy.
  - destruct j; easy.
  - destruct j; cbn; [easy |]. now destruct (Nat.eqb j k).
  - destruct j as [| j]; [easy |]. cbn [nth]. rewrite IH. easy.
Qed.
Lemma at_row_length k f : forall rows, length (at_row k f rows) = length rows.
Proof. induction k as [| k IH]; intros [| r rows]; cbn; try easy. now rewrite IH. Qed.
Lemma rows_read rnd mbeg mend : forall all n rows, length rows = mend - mbeg -> Forall simple_row all -> (forall j, n <= mbeg + j -> nth j rows [] = []) ->
  length (fold_left (take mbeg mend) (lines rnd (S n) all) rows) = mend - mbeg /\
  forall j, j < mend - mbeg -> nth j (fold_left (take mbeg mend) (lines rnd (S n) all) rows) [] =
    if (n <=? mbeg + j) && (mbeg + j <? n + length all) then readrow rnd (nth (mbeg + j - n) all []) else nth j rows [].
Proof.
  induction all as [| r all IH]; intros n rows L S Z.
  - cbn [lines fold_left length]. split; [easy |]. intros j LJ. destruct (Nat.leb_spec n (mbeg + j)), (Nat.ltb_spec (mbeg + j) (n + 0)); cbn [andb]; try easy. lia.
  - inversion S as [| ? ? S1 S2]; subst. cbn [lines]. rewrite fold_left_app. change (map (fun e => mkLine (Datatypes.S n) (fst (fst e) + 1) (snd (fst e) + 1) (rnd (snd e))) r) with (map (line_of rnd (Datatypes.S n)) r). rewrite take_row.
    set (rows' := if (mbeg <=? n) && (n <? mend) then at_row (n - mbeg) (fun x => fold_left (fun x e => put x (fst e, rnd (snd e))) r x) rows else rows).
    assert (NR : forall j, j < mend - mbeg -> nth j rows' [] = if Nat.eqb (mbeg + j) n then readrow rnd r else nth j rows []).
    { intros j LJ. unfold rows'. destruct (Nat.leb_spec mbeg n), (Nat.ltb_spec n mend); cbn [andb]; destruct (Nat.eqb_spec (mbeg + j) n); try lia; try easy.
      - rewrite at_row_nth. destruct (Nat.eqb_spec j (n - mbeg)); [| lia]. rewrite Z by lia. rewrite puts_simple; [| easy | intros a b []]. rewrite (proj2 (Nat.ltb_lt _ _)); [easy |]. change (n - mbeg < length rows). lia.
      - rewrite at_row_nth. destruct (Nat.eqb_spec j (n - mbeg)); [lia | easy]. }
    assert (L' : length rows' = mend - mbeg) by (unfold rows'; destruct ((mbeg <=? n) && (n <? mend)); [now rewrite at_row_length | easy]).
    destruct (IH (Datatypes.S n) rows' L' S2) as (LF & NF).
    { intros j LE. destruct (Nat.lt_ge_cases j (mend - mbeg)); [| assert (length rows' <= j) by lia; now apply nth_overflow]. rewrite NR by easy. destruct (Nat.eqb_spec (mbeg + j) n); [lia |]. apply Z. lia. }
    split; [easy |]. intros j LJ. rewrite NF by easy. cbn [length]. destruct (Nat.leb_spec (Datatypes.S n) (mbeg + j)), (Nat.ltb_spec (mbeg + j) (Datatypes.S n + length all)), (Nat.leb_spec n (mbeg + j)), (Nat.ltb_spec (mbeg + j) (n + Datatypes.S (length all))); cbn [andb]; try lia.
    + replace (mbeg + j - n) with (Datatypes.S (mbeg + j - Datatypes.S n)) by lia. easy.
    + rewrite NR by easy. destruct (Nat.eqb_spec (mbeg + j) n); [lia | easy].
    + rewrite NR by easy. destruct (Nat.eqb_spec (mbeg + j) n); [| lia]. now replace (mbeg + j - n) with 0 by lia.
    + rewrite NR by easy. destruct (Nat.eqb_spec (mbeg + j) n); [lia | easy].
Qed.
(** contiguous processes *)
Fixpoint contiguous (n : nat) (procs : list matrix) : Prop := match procs with [] => True | m :: r => m_beg m = n /\ contiguous (n + length (m_rows m)) r end.
Lemma lines_app rnd : forall a n b, lines rnd n (a ++ b) = lines rnd n a ++ lines rnd (n + length a) b.
Proof. induction a as [| r a IH]; intros n b; cbn [app lines length]; [now rewrite Nat.add_0_r |]. rewrite IH, app_assoc. now replace (S n + length a) with (n + S (length a)) by lia. Qed.
Lemma save_lines rnd : forall procs n, contiguous n procs -> flat_map (fun m => lines rnd (m_beg m + 1) (m_rows m)) procs = lines rnd (S n) (flat_map m_rows procs).
Proof.
  induction procs as [| m procs IH]; intros n C; [easy |]. destruct C as (C1 & C2). cbn [flat_map]. rewrite lines_app, (IH _ C2), C1. now rewrite Nat.add_1_r.
Qed.
Lemma sum_rows : forall procs, list_sum (map (fun m => length (m_rows m)) procs) = length (flat_map m_rows procs).
Proof. induction procs as [| m procs IH]; [easy |]. cbn [map list_sum fold_right flat_map]. rewrite app_length. unfold list_sum in IH. cbn. now rewrite <- IH. Qed.
