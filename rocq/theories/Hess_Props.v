(** Properties of saved and loaded matrices of second derivatives. *)
From Coq Require Import List Arith Bool ZArith Lia.
From Verif Require Import Hess_Spec Hess_Model Hess_Proofs.
Import ListNotations.

(** * C182: a saved hessian matrix is loaded back *)
(** Rows of all processes in the order of processes. *)
Definition all_rows (procs : list matrix) : list row := flat_map m_rows procs.
(** A row after printing and reading: same entries in the same order, smaller column first. *)
Definition reread (rnd : Z -> Z) (r : row) : row := map (fun e => (ordered (fst e), rnd (snd e))) r.

Lemma loaded_rows rnd procs mbeg mend : contiguous 0 procs -> Forall simple_row (all_rows procs) -> mend <= length (all_rows procs) ->
  m_rows (load_interval (save rnd procs) mbeg mend) = map (reread rnd) (firstn (mend - mbeg) (skipn mbeg (all_rows procs))).
Proof.
  intros C S LE. unfold load_interval, save. cbn [m_rows f_lines]. rewrite (save_lines rnd procs 0 C). fold (all_rows procs).
  destruct (rows_read rnd mbeg mend (all_rows procs) 0 (repeat [] (mend - mbeg))) as (L & N); [apply repeat_length | easy | intros j _; apply nth_repeat |].
  assert (LL : length (firstn (mend - mbeg) (skipn mbeg (all_rows procs))) = mend - mbeg) by (rewrite firstn_length, skipn_length; lia).
  apply (nth_ext _ _ [] []); [now rewrite L, map_length, LL |]. intros j LJ. rewrite L in LJ. rewrite N by easy. cbn [Nat.leb]. destruct (Nat.ltb_spec (mbeg + j) (0 + length (all_rows procs))); [| lia]. cbn [andb].
  change (@nil entry) with (reread rnd []) at 2. rewrite map_nth, Nat.sub_0_r. change (readrow rnd) with (reread rnd). f_equal. rewrite <- (firstn_skipn mbeg (all_rows procs)) at 1. rewrite app_nth2; rewrite firstn_length, Nat.min_l by lia; [| lia]. replace (mbeg + j - mbeg) with j by lia.
  rewrite <- (firstn_skipn (mend - mbeg) (skipn mbeg (all_rows procs))) at 1. rewrite app_nth1; [easy | now rewrite LL].
Qed.

(** Any interval of rows, loaded by any process, is the interval of rows of the saved matrix. *)
Theorem C182_interval : forall rnd procs mbeg mend,
  contiguous 0 procs -> Forall simple_row (all_rows procs) -> mend <= length (all_rows procs) ->
  m_beg (load_interval (save rnd procs) mbeg mend) = mbeg /\
  m_rows (load_interval (save rnd procs) mbeg mend) = map (reread rnd) (firstn (mend - mbeg) (skipn mbeg (all_rows procs))).
Proof. intros rnd procs mbeg mend C S LE. split; [easy | now apply loaded_rows]. Qed.
Print Assumptions C182_interval.

Lemma skipn_skipn {A} (a b : nat) : forall l : list A, skipn b (skipn a l) = skipn (a + b) l.
Proof. induction a as [| a IH]; intros [| x l]; cbn; [easy | easy | now rewrite skipn_nil | apply IH]. Qed.

(** Saved by any number of processes and loaded by any other number: processes hold consecutive
    intervals and together all rows, each once. *)
Theorem C182_all_processes : forall rnd procs size,
  contiguous 0 procs -> Forall simple_row (all_rows procs) -> 0 < size ->
  contiguous 0 (map (fun rank => load (save rnd procs) rank size) (seq 0 size)) /\
  all_rows (map (fun rank => load (save rnd procs) rank size) (seq 0 size)) = map (reread rnd) (all_rows procs).
Proof.
  intros rnd procs size C S P. set (f := save rnd procs). set (R := map (reread rnd) (all_rows procs)). assert (N : f_size f = length (all_rows procs)) by apply sum_rows. set (b := f_size f / size).
  assert (B : size * b <= f_size f) by (apply Nat.mul_div_le; lia).
  assert (K : forall rank, rank < size -> m_rows (load f rank size) = firstn (default_end f rank size (rank * b) - rank * b) (skipn (rank * b) R)).
  { intros rank LR. unfold load. fold b. change (default_beg f rank size) with (rank * b). unfold f at 1. rewrite loaded_rows; [now rewrite <- firstn_map, <- skipn_map | easy | easy |]. unfold default_end. fold b. destruct (Nat.eqb rank (size - 1)); [lia |]. rewrite <- N. nia. }
  assert (LR : length R = f_size f) by (unfold R; rewrite map_length; now symmetry).
  assert (Q : forall k, k < size -> contiguous ((size - 1 - k) * b) (map (fun rank => load f rank size) (seq (size - 1 - k) (Datatypes.S k))) /\ all_rows (map (fun rank => load f rank size) (seq (size - 1 - k) (Datatypes.S k))) = skipn ((size - 1 - k) * b) R).
  { induction k as [| k IH]; intros LK.
    - cbn [seq map]. unfold all_rows. cbn [flat_map contiguous]. rewrite app_nil_r, K by lia. split; [easy |]. unfold default_end. replace (size - 1 - 0) with (size - 1) by lia. rewrite Nat.eqb_refl. apply firstn_all2. rewrite skipn_length. lia.
    - destruct IH as (I1 & I2); [lia |]. set (q := size - 1 - Datatypes.S k). replace (size - 1 - k) with (Datatypes.S q) in * by lia. change (seq q (Datatypes.S (Datatypes.S k))) with (q :: seq (Datatypes.S q) (Datatypes.S k)). rewrite map_cons. unfold all_rows in *. cbn [flat_map contiguous].
      assert (E : m_rows (load f q size) = firstn b (skipn (q * b) R)). { rewrite K by lia. unfold default_end. fold b. destruct (Nat.eqb_spec q (size - 1)); [lia |]. f_equal. lia. }
      assert (EL : length (m_rows (load f q size)) = b) by (rewrite E, firstn_length, skipn_length, LR; nia).
      rewrite EL, I2, E. split; [split; [easy |]; replace (q * b + b) with (Datatypes.S q * b) by lia; exact I1 |].
      rewrite <- (firstn_skipn b (skipn (q * b) R)) at 2. f_equal. rewrite skipn_skipn. f_equal. lia. }
  destruct (Q (size - 1)) as (Q1 & Q2); [lia |]. replace (size - 1 - (size - 1)) with 0 in * by lia. replace (Datatypes.S (size - 1)) with size in * by lia. easy.
Qed.
Print Assumptions C182_all_processes.

Lemma same_ordered a b : same_cols (ordered a) (ordered b) -> same_cols a b.
Proof. intros H. apply ordered_same. destruct a as (a1, a2), b as (b1, b2). unfold same_cols, ordered in *. cbn [fst snd] in *. destruct H as [H | H]; injection H as H1 H2; f_equal; lia. Qed.
Lemma simple_reread rnd : forall r, simple_row r -> simple_row (reread rnd r).
Proof.
  unfold simple_row. induction 1 as [| a r F S IH]; [constructor |]. cbn [reread map]. constructor; [| exact IH]. rewrite Forall_forall in *. intros x I. apply in_map_iff in I as (b & <- & I). cbn [fst]. intros H. apply (F b I). now apply same_ordered.
Qed.
Lemma reread_twice rnd : (forall v, rnd (rnd v) = rnd v) -> forall r, reread rnd (reread rnd r) = reread rnd r.
Proof. intros R r. unfold reread. rewrite map_map. apply map_ext. intros ((a, b), v). unfold ordered. cbn [fst snd]. rewrite R. f_equal. f_equal; lia. Qed.

(** If a value that was printed and read is printed and read again without a change, saving and loading
    for the second time changes nothing, with any numbers of processes. *)
Theorem C182_second_time : forall rnd procs size1 size2,
  (forall v, rnd (rnd v) = rnd v) -> contiguous 0 procs -> Forall simple_row (all_rows procs) -> 0 < size1 -> 0 < size2 ->
  let once := map (fun rank => load (save rnd procs) rank size1) (seq 0 size1) in
  all_rows (map (fun rank => load (save rnd once) rank size2) (seq 0 size2)) = all_rows once.
Proof.
  intros rnd procs size1 size2 R C S P1 P2 once. destruct (C182_all_processes rnd procs size1 C S P1) as (C1 & A1). fold once in C1, A1.
  assert (S1 : Forall simple_row (all_rows once)). { rewrite A1. rewrite Forall_forall in *. intros x I. apply in_map_iff in I as (r & <- & I). now apply simple_reread, S. }
  destruct (C182_all_processes rnd once size2 C1 S1 P2) as (_ & A2). rewrite A2, A1, map_map. apply map_ext. now apply reread_twice.
Qed.
Print Assumptions C182_second_time.

(** The header has the number of rows and the number of lines that follow. *)
Theorem C182_header : forall rnd procs,
  f_size (save rnd procs) = length (all_rows procs) /\ f_nonzero (save rnd procs) = length (f_lines (save rnd procs)).
Proof.
  intros rnd procs. split; [apply sum_rows |]. cbn [save f_nonzero f_lines]. assert (L : forall rows n, length (lines rnd n rows) = list_sum (map (@length _) rows)). { induction rows as [| r rows IH]; intros n; [easy |]. cbn [lines map list_sum fold_right]. now rewrite app_length, map_length, IH. }
  induction procs as [| m procs IH]; [easy |]. cbn [map list_sum fold_right flat_map]. rewrite app_length, L, <- IH. easy.
Qed.
Print Assumptions C182_header.

(** Whatever the file has, no line is stored outside of the rows that were allocated. *)
Theorem C182_bounds : forall f mbeg mend l k, target mbeg mend l = Some k ->
  k < length (m_rows (load_interval f mbeg mend)).
Proof.
  intros f mbeg mend l k T. assert (LL : forall ls rows, length (fold_left (take mbeg mend) ls rows) = length rows).
  { induction ls as [| x ls IH]; intros rows; [easy |]. cbn [fold_left]. rewrite IH. unfold take. destruct (target mbeg mend x); [apply at_row_length | easy]. }
  unfold load_interval. cbn [m_rows]. rewrite LL, repeat_length. unfold target in T. destruct (Nat.eqb (l_row l) 0); [easy |]. cbv zeta in T. destruct (Nat.leb_spec mbeg (l_row l - 1)), (Nat.ltb_spec (l_row l - 1) mend); cbn [andb] in T; try easy. injection T as <-. lia.
Qed.
Print Assumptions C182_bounds.

(** Refuted: every row is restored.  Entries of both orders of two columns become one entry with the last
    value; the other value is neither kept nor added. *)
Theorem C182_both_orders_refuted : forall rnd i j v w, i <> j ->
  m_rows (load (save rnd [mkMatrix 0 [[((i, j), v); ((j, i), w)]]]) 0 1) = [[(ordered (i, j), rnd w)]].
Proof.
  intros rnd i j v w NE. unfold load, load_interval, save, default_beg, default_end. cbn -[make_index idx_eqb Nat.div]. rewrite !Nat.add_sub, !make_index_ordered.
  assert (E : ordered (j, i) = ordered (i, j)) by (unfold ordered; cbn [fst snd]; f_equal; lia). rewrite E. destruct (idx_eqb (ordered (i, j)) (ordered (i, j))) eqn:Q; [easy |]. rewrite (proj2 (idx_eqb_iff _ _) eq_refl) in Q. easy.
Qed.
Print Assumptions C182_both_orders_refuted.

(** Refuted: a matrix whose first row is not zero is restored.  The header has the number of rows and
    not the last index; with a first index not less than the number of rows nothing is loaded. *)
Theorem C182_offset_refuted : forall rnd beg rows, length rows <= beg ->
  m_beg (load (save rnd [mkMatrix beg rows]) 0 1) = 0 /\ m_rows (load (save rnd [mkMatrix beg rows]) 0 1) = repeat [] (length rows).
Proof.
  intros rnd beg rows LE. unfold load, load_interval, default_beg, default_end. cbn [m_beg m_rows Nat.eqb Nat.sub]. split; [easy |]. cbn [save f_size f_lines map list_sum fold_right flat_map m_rows m_beg Nat.mul]. rewrite app_nil_r, Nat.add_0_r, Nat.sub_0_r, Nat.add_1_r.
  assert (H : forall rs n acc, length rows <= n -> fold_left (take 0 (length rows)) (lines rnd (S n) rs) acc = acc).
  { induction rs as [| r rs IH]; intros n acc LN; [easy |]. cbn [lines]. rewrite fold_left_app. change (map (fun e => mkLine (S n) (fst (fst e) + 1) (snd (fst e) + 1) (rnd (snd e))) r) with (map (line_of rnd (S n)) r). rewrite take_row. destruct (Nat.ltb_spec n (length rows)); [lia |]. rewrite andb_false_r. apply IH. lia. }
  now apply H.
Qed.
Print Assumptions C182_offset_refuted.

(** Two processes save three rows, two processes load them. *)
Definition example_procs : list matrix := [mkMatrix 0 [[((0, 0), 5%Z); ((2, 1), 7%Z)]; []]; mkMatrix 2 [[((1, 1), 3%Z)]]].
Example C182_nonvacuous : contiguous 0 example_procs /\ Forall simple_row (all_rows example_procs) /\
  map (fun rank => load (save (fun v => v) example_procs) rank 2) [0; 1] = [mkMatrix 0 [[((0, 0), 5%Z); ((1, 2), 7%Z)]]; mkMatrix 1 [[]; [((1, 1), 3%Z)]]] /\
  f_lines (save (fun v => v) example_procs) = [mkLine 1 1 1 5; mkLine 1 3 2 7; mkLine 3 2 2 3].
Proof.
  repeat split; try (vm_compute; reflexivity).
  unfold all_rows, example_procs. cbn. unfold simple_row. repeat first [apply Forall_cons | apply Forall_nil | apply FOP_cons | apply FOP_nil]. cbn. unfold same_cols. cbn. intros [E | E]; discriminate E.
Qed.
