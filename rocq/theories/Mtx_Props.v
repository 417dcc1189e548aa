(** Properties of matrix and vector files (C108-C111). *)
From Coq Require Import Ascii String.
From Coq Require Import List Arith NArith ZArith Bool Lia Reals Lra.
From Flocq Require Import Core.Core.
From Verif Require Import Row_Model Mtx_Model Mtx_Spec Mtx_Proofs Mtx2_Proofs Mtx3_Proofs.
Import ListNotations.
Open Scope nat_scope.

Lemma by_seq : good_by (str "% by sequential write ").
Proof. split; [reflexivity|]. split; [intros I; cbn in I; repeat (destruct I as [I|I]; [discriminate|]); exact I|unfold short; cbn; lia]. Qed.
Lemma by_mpi : good_by (str "% by MPI_File_* api").
Proof. split; [reflexivity|]. split; [intros I; cbn in I; repeat (destruct I as [I|I]; [discriminate|]); exact I|unfold short; cbn; lia]. Qed.
Lemma ren_id b rs : good_ren None (fun k => k) b rs.
Proof. split; [reflexivity|]. apply Forall_forall. intros rw _. apply Forall_forall. reflexivity. Qed.
Lemma nil_short : (buffer <? length (@nil nat)) = false.
Proof. apply Nat.ltb_ge. cbn. lia. Qed.
Lemma small_n m : small m -> (N.of_nat (length (rows m)) < 2 ^ 32)%N.
Proof. intros (A & _). lia. Qed.
Lemma one_line_nil : one_line []. Proof. intros I. exact I. Qed.
(** what Load gives for a saved matrix with distinct columns, for an empty matrix *)
Lemma load_saved mbeg mend rank size name annot m : small m -> good_name name -> good_annot annot m -> distinct_columns (rows m) ->
  load mbeg mend rank size None empty_matrix (save name annot m) =
  Done (let '(b, e) := interval mbeg mend rank size (length (rows m)) in
    Mat b (map (fun r => if first m <=? r then reread_row (nth (r - first m) (rows m) []) else []) (seq b (e - b)))).
Proof.
  intros S G A D. unfold save. rewrite <- (app_nil_r (save_rows _ _ _)). rewrite load_general with (ren := fun k => k); auto using by_seq, ren_id, small_n, one_line_nil.
  rewrite nil_short. f_equal. apply load_exact, D.
Qed.
Lemma map_rows f (rs : list (row value)) : map (fun r => if f <=? r then reread_row (nth (r - f) rs []) else []) (seq f (length rs)) = map reread_row rs.
Proof.
  apply (list_ext []); [rewrite !map_length; apply seq_length|]. rewrite map_length, seq_length. intros k L. rewrite nth_map_seq by exact L.
  destruct (Nat.leb_spec f (f + k)); [|lia]. replace (f + k - f) with k by lia. change (@nil (nat * value)) with (reread_row []) at 2. rewrite map_nth. reflexivity.
Qed.

(** * C108 *)
(** A matrix that is saved and loaded has the same rows and columns in the same order, every value
    rounded to 16 decimal digits *)
Theorem C108_roundtrip name annot m : first m = 0 -> small m -> good_name name -> good_annot annot m -> distinct_columns (rows m) ->
  load None None 0 1 None empty_matrix (save name annot m) = Done (Mat 0 (map reread_row (rows m))).
Proof.
  intros F S G A D. rewrite load_saved by assumption. rewrite F. unfold interval. cbn [Nat.mul]. change (0 =? 1 - 1) with true. cbv iota. rewrite Nat.sub_0_r. f_equal. f_equal. apply (map_rows 0).
Qed.
(** values of at most 16 digits are kept *)
Theorem C108_value_exact x : is_double x -> digits16 x -> reread (Fin x) = Fin x.
Proof. apply reread_exact. Qed.
(** other values change by at most 1e-15 of their size *)
Theorem C108_value_error x : (bpow radix2 (-1021) <= Rabs x)%R -> exists y, reread (Fin x) = Fin y /\ (Rabs (y - x) <= / 10 ^ 15 * Rabs x)%R.
Proof. apply reread_error. Qed.
(** 16 digits are not enough for all doubles *)
Theorem C108_value_refuted : exists x, is_double x /\ reread (Fin x) = Fin 1 /\ x <> 1%R.
Proof. exists (1 + bpow radix2 (-52))%R. destruct near_one as (A & B). split; [exact A|]. split; [exact B|]. pose proof (bpow_gt_0 radix2 (-52)). lra. Qed.
(** infinite and undefined values are loaded as zero *)
Theorem C108_not_finite_refuted s : reread (Inf s) = Fin 0 /\ reread (NaN s) = Fin 0.
Proof. split; reflexivity. Qed.
(** With an explicit interval a matrix that does not start at row zero is restored *)
Theorem C108_offset name annot m : small m -> good_name name -> good_annot annot m -> distinct_columns (rows m) ->
  load (Some (first m)) (Some (first m + length (rows m))) 0 1 None empty_matrix (save name annot m) = Done (Mat (first m) (map reread_row (rows m))).
Proof.
  intros S G A D. rewrite load_saved by assumption. unfold interval. replace (first m + length (rows m) - first m) with (length (rows m)) by lia. f_equal. f_equal. apply map_rows.
Qed.
(** Without it the header lies about the number of rows: the rows after the first Size() are lost *)
Theorem C108_offset_refuted name annot m : small m -> good_name name -> good_annot annot m -> distinct_columns (rows m) ->
  load None None 0 1 None empty_matrix (save name annot m) =
  Done (Mat 0 (firstn (length (rows m)) (repeat [] (first m) ++ map reread_row (rows m)))).
Proof.
  intros S G A D. rewrite load_saved by assumption. unfold interval. cbn [Nat.mul]. change (0 =? 1 - 1) with true. cbv iota. rewrite Nat.sub_0_r. f_equal. f_equal.
  set (f := first m). set (rs := rows m). apply (list_ext []).
  - rewrite map_length, seq_length, firstn_length, app_length, repeat_length, map_length. lia.
  - rewrite map_length, seq_length. intros k L. rewrite nth_map_seq by exact L. cbn [Nat.add].
    assert (X : nth k (firstn (length rs) (repeat [] f ++ map reread_row rs)) [] = nth k (repeat [] f ++ map reread_row rs) []).
    { rewrite <- (firstn_skipn (length rs) (repeat [] f ++ map reread_row rs)) at 2. rewrite app_nth1; [reflexivity|]. rewrite firstn_length, app_length, repeat_length, map_length. lia. }
    rewrite X. destruct (Nat.leb_spec f k).
    + rewrite app_nth2; rewrite repeat_length; [|exact H]. change (@nil (nat * value)) with (reread_row []) at 2. rewrite map_nth. reflexivity.
    + rewrite app_nth1 by (rewrite repeat_length; exact H). rewrite nth_repeat. reflexivity.
Qed.

(** * C109 *)
(** Loading any saved matrix into any matrix: a place has the last value given in the file, other
    places keep what the row had before *)
Theorem C109_overlay name annot m old b e : small m -> good_name name -> good_annot annot m ->
  exists m', load (Some b) (Some e) 0 1 None old (save name annot m) = Done m' /\ first m' = b /\ length (rows m') = e - b /\
    forall r c, b <= r < e -> cell (nth (r - b) (rows m') []) c =
      match last_at (elements (first m) (rows m)) r c with
      | Some v => Some (reread v)
      | None => cell (nth (r - b) (rows old) []) c
      end.
Proof.
  intros S G A. unfold save. rewrite <- (app_nil_r (save_rows _ _ _)). rewrite load_general with (ren := fun k => k); auto using by_seq, ren_id, small_n, one_line_nil.
  rewrite nil_short. eexists. split; [reflexivity|].
  destruct (fold_rows (fun k => k) (elements (first m) (rows m)) _ (start_good (Some b) (Some e) 0 1 (length (rows m)) old)) as ((G1 & G2) & Eb & Ee & H).
  change (lbeg (start_state (Some b) (Some e) 0 1 (length (rows m)) old)) with b in *. change (lend (start_state (Some b) (Some e) 0 1 (length (rows m)) old)) with e in *.
  split; [rewrite G1; exact Eb|]. split; [rewrite G2, Eb, Ee; reflexivity|]. intros r c Hr. rewrite H by exact Hr. pose proof (cell_fold (fun k => k) r c (elements (first m) (rows m))) as X. cbv beta in X. rewrite X. clear X.
  assert (L : forall es, last_at (map (fun e : entry => (fst (fst e), snd (fst e), reread (snd e))) es) r c = option_map reread (last_at es r c)).
  { induction es as [|x es IH]; [reflexivity|]. cbn [map]. rewrite !last_cons, IH. cbn [fst snd]. destruct (last_at es r c); [reflexivity|]. destruct (_ && _); reflexivity. }
  rewrite L. destruct (last_at (elements (first m) (rows m)) r c); [reflexivity|]. cbn [option_map]. cbn [start_state interval lmat rows]. unfold set_interval.
  destruct (Nat.lt_ge_cases (r - b) (length (rows old))) as [Lt|Ge].
  - rewrite app_nth1 by (rewrite firstn_length; lia). rewrite <- (firstn_skipn (e - b) (rows old)) at 2. rewrite app_nth1 by (rewrite firstn_length; lia). reflexivity.
  - rewrite (nth_overflow (rows old)) by exact Ge. rewrite app_nth2 by (rewrite firstn_length; lia).
    destruct (Nat.lt_ge_cases (r - b - length (firstn (e - b) (rows old))) (e - b - length (rows old))); [rewrite nth_repeat; reflexivity|rewrite nth_overflow by (rewrite repeat_length; assumption); reflexivity].
Qed.
(** what follows the last line end is not read *)
Theorem C109_last_line_refuted name annot m tl : first m = 0 -> small m -> good_name name -> good_annot annot m -> distinct_columns (rows m) -> one_line tl -> short tl 0 ->
  load None None 0 1 None empty_matrix (save name annot m ++ tl) = Done (Mat 0 (map reread_row (rows m))).
Proof.
  intros F S G A D O Sh. pose proof (C108_roundtrip name annot m F S G A D) as R. rewrite <- R. unfold save. rewrite <- !app_assoc. rewrite load_general with (ren := fun k => k); auto using by_seq, ren_id, small_n.
  rewrite (proj1 (short_len tl 0 Sh)). rewrite <- (app_nil_r (save_rows _ _ _)). rewrite load_general with (ren := fun k => k); auto using by_seq, ren_id, small_n, one_line_nil.
Qed.
(** a line of more than 16383 characters is never left: Load does not return *)
Theorem C109_long_annotation_refuted name annot m mbeg mend rank size old : small m -> good_name name ->
  (forall r, first m <= r < first m + length (rows m) -> one_line (annot r)) ->
  (exists r, first m <= r < first m + length (rows m) /\ (16381 < N.of_nat (length (annot r)))%N) ->
  load mbeg mend rank size None old (save name annot m) = Hang.
Proof.
  intros S G A (r & Hr & L). unfold save. rewrite <- (app_nil_r (save_rows _ _ _)). apply load_long_general with (ren := fun k => k); auto using by_seq, ren_id, small_n, one_line_nil.
  exists r. split; [exact Hr|]. unfold short. lia.
Qed.
(** an annotation with a line end becomes an element of the matrix *)
Theorem C109_line_end_refuted : exists annot m m', small m /\ first m = 0 /\ distinct_columns (rows m) /\
  load None None 0 1 None empty_matrix (save [] annot m) = Done m' /\ cell (nth 0 (rows m) []) 1 = None /\ cell (nth 0 (rows m') []) 1 <> None.
Proof.
  exists (fun _ => str "x" ++ nl :: str "1 2 5"), (Mat 0 [[]]). eexists. split; [split; [reflexivity|repeat constructor]|]. split; [reflexivity|]. split; [repeat constructor|].
  split; [lazy -[read_value]; reflexivity|]. split; [reflexivity|]. cbn. discriminate.
Qed.

(** * C110 *)
(** The intervals of the processes have every row once *)
Theorem C110_partition name annot m size : size <> 0 -> first m = 0 -> small m -> good_name name -> good_annot annot m -> distinct_columns (rows m) ->
  exists ms, length ms = size /\
    (forall rank, rank < size -> load None None rank size None empty_matrix (save name annot m) = Done (nth rank ms empty_matrix)) /\
    concat (map rows ms) = map reread_row (rows m).
Proof.
  intros Sz F S G A D. set (n := length (rows m)). set (g := fun r => if 0 <=? r then reread_row (nth (r - 0) (rows m) []) else []).
  set (it := fun rank => interval None None rank size n). set (ms := map (fun rank => Mat (fst (it rank)) (map g (seq (fst (it rank)) (snd (it rank) - fst (it rank))))) (seq 0 size)).
  exists ms. split; [unfold ms; rewrite map_length; apply seq_length|]. split.
  - intros rank L. rewrite load_saved by assumption. rewrite F. fold n. f_equal. unfold ms. rewrite nth_map_seq by exact L. cbn [Nat.add]. unfold it. destruct (interval None None rank size n) as (b, e). reflexivity.
  - unfold ms. rewrite map_map. cbn [rows].
    assert (Eq : concat (map (fun rank => map g (seq (fst (it rank)) (snd (it rank) - fst (it rank)))) (seq 0 size)) = map g (concat (map (fun rank => seq (fst (it rank)) (snd (it rank) - fst (it rank))) (seq 0 size)))).
    { rewrite concat_map, map_map. reflexivity. }
    rewrite Eq. clear Eq.
    assert (Pre : forall k, k <= size - 1 -> concat (map (fun rank => seq (fst (it rank)) (snd (it rank) - fst (it rank))) (seq 0 k)) = seq 0 (k * (n / size))).
    { induction k as [|k IH]; intros L; [reflexivity|]. rewrite seq_S, map_app, concat_app, IH by lia. cbn [map concat Nat.add]. rewrite app_nil_r.
      unfold it, interval. destruct (Nat.eqb_spec k (size - 1)); [lia|]. cbn [fst snd]. rewrite (Nat.add_comm (k * (n / size))), Nat.add_sub.
      cbn [Nat.mul]. rewrite (Nat.add_comm (n / size)), seq_app. reflexivity. }
    replace (seq 0 size) with (seq 0 (size - 1) ++ [size - 1]) by (change [size - 1] with [0 + (size - 1)]; rewrite <- seq_S; f_equal; lia). rewrite map_app, concat_app, Pre by lia. cbn [map concat]. rewrite app_nil_r.
    unfold it, interval. rewrite Nat.eqb_refl. cbn [fst snd].
    assert (Le : (size - 1) * (n / size) <= n) by (eapply Nat.le_trans; [apply Nat.mul_le_mono_r; instantiate (1 := size); lia|apply Nat.mul_div_le, Sz]).
    replace (seq 0 ((size - 1) * (n / size)) ++ seq ((size - 1) * (n / size)) (n - (size - 1) * (n / size))) with (seq 0 n).
    + apply (map_rows 0).
    + rewrite <- seq_app. f_equal. lia.
Qed.
(** A file written by several processes with consecutive rows is loaded as if one process had
    written the whole matrix *)
Fixpoint consecutive (f : nat) (ms : list matrix) : Prop :=
  match ms with [] => True | m :: ms' => first m = f /\ consecutive (f + length (rows m)) ms' end.
Lemma save_concat annot : forall ms f, consecutive f ms -> concat (map (fun m => save_rows (first m) annot (rows m)) ms) = save_rows f annot (concat (map rows ms)).
Proof.
  assert (App : forall a b f, save_rows f annot (a ++ b) = save_rows f annot a ++ save_rows (f + length a) annot b).
  { induction a as [|rw a IH]; intros b f; cbn [app save_rows length]; [rewrite Nat.add_0_r; reflexivity|]. rewrite IH, <- !app_assoc. do 3 f_equal. f_equal. lia. }
  induction ms as [|m ms IH]; intros f C; [reflexivity|]. destruct C as (<- & C). cbn [map concat]. rewrite (IH _ C), App. reflexivity.
Qed.
Theorem C110_parallel name annot ms f mbeg mend rank size : consecutive f ms -> let m := Mat f (concat (map rows ms)) in
  small m -> good_name name -> good_annot annot m -> distinct_columns (rows m) ->
  load mbeg mend rank size None empty_matrix (save_parallel name annot ms) = load mbeg mend rank size None empty_matrix (save name annot m).
Proof.
  intros C m S G A D. unfold save_parallel, save. rewrite save_concat with (f := f) by exact C.
  assert (Ln : fold_right (fun m s => length (rows m) + s) 0 ms = length (rows m)).
  { unfold m. cbn [rows]. clear. induction ms as [|m ms IH]; [reflexivity|]. cbn [fold_right map concat]. rewrite IH, app_length. reflexivity. }
  rewrite Ln. change (concat (map rows ms)) with (rows m). change (first m) with f. rewrite <- (app_nil_r (save_rows _ _ _)).
  rewrite !load_general with (ren := fun k => k); auto using by_seq, by_mpi, ren_id, small_n, one_line_nil.
Qed.
(** Without MPI files the texts of the other processes are received past the end of a string,
    unless they are all empty *)
Theorem C110_gather_refuted own others : gather own others <> None <-> concat others = [].
Proof.
  unfold gather. assert (H : receive own (length own) others = if forallb (fun t => match t with [] => true | _ => false end) others then Some own else None).
  { induction others as [|t ts IH]; [reflexivity|]. cbn [receive forallb]. destruct t as [|c t]; [exact IH|]. unfold write_at. cbn [length].
    destruct (Nat.leb_spec (length own + S (length t)) (length own)); [lia|reflexivity]. }
  rewrite H. clear H. induction others as [|t ts IH]; [split; [reflexivity|discriminate]|]. cbn [forallb concat]. destruct t as [|c t]; cbn [andb app]; [exact IH|].
  split; [intros X; contradiction|discriminate].
Qed.
(** An order file renumbers rows and columns *)
Theorem C110_order name annot m o : first m = 0 -> small m -> good_name name -> good_annot annot m -> distinct_columns (rows m) ->
  length o = length (rows m) -> NoDup o -> (forall k, In k o -> k < length o) -> Forall (Forall (fun e => fst e < length (rows m))) (rows m) ->
  exists m', load None None 0 1 (Some o) empty_matrix (save name annot m) = Done m' /\ first m' = 0 /\ length (rows m') = length (rows m) /\
    forall r c, r < length (rows m) -> c < length (rows m) ->
      cell (nth (nth r o 0) (rows m') []) (nth c o 0) = option_map reread (cell (nth r (rows m) []) c).
Proof.
  intros F S G A D Lo Nd Bo Sq. set (n := length (rows m)) in *. set (ren := fun k => nth k o 0).
  assert (Ro : forall k, k < n -> ren_ok (Some o) ren k) by (intros k L; unfold ren_ok, ren; apply nth_error_nth'; lia).
  unfold save. rewrite <- (app_nil_r (save_rows _ _ _)).
  rewrite load_general with (ren := ren); auto using by_seq, small_n, one_line_nil.
  2: { split; [rewrite F; intros k Hk; apply Ro; fold n in Hk; lia|]. eapply Forall_impl; [|exact Sq]. intros rw H. eapply Forall_impl; [|exact H]. intros e L. apply Ro, L. }
  rewrite nil_short. eexists. split; [reflexivity|]. rewrite F.
  destruct (fold_rows ren (elements 0 (rows m)) _ (start_good None None 0 1 n empty_matrix)) as ((G1 & G2) & Eb & Ee & H). fold n.
  change (lbeg (start_state None None 0 1 n empty_matrix)) with 0 in *. change (lend (start_state None None 0 1 n empty_matrix)) with n in *.
  split; [rewrite G1; exact Eb|]. split; [rewrite G2, Eb, Ee; lia|]. intros r c Lr Lc.
  assert (Hr : 0 <= nth r o 0 < n) by (split; [lia|]; rewrite <- Lo; apply Bo, nth_In; lia). specialize (H _ Hr). rewrite Nat.sub_0_r in H. rewrite H, cell_fold, start_rows_empty.
  assert (Inj : forall i j, i < n -> j < n -> (ren i =? nth j o 0) = (i =? j)).
  { intros i j Hi Hj. unfold ren. destruct (Nat.eqb_spec i j) as [->|N]; [apply Nat.eqb_refl|]. apply Nat.eqb_neq. intros X. apply N. apply (proj1 (NoDup_nth o 0) Nd); [lia|lia|exact X]. }
  assert (L : forall es : list entry, Forall (fun e => fst (fst e) < n /\ snd (fst e) < n) es ->
    last_at (map (fun e : entry => (ren (fst (fst e)), ren (snd (fst e)), reread (snd e))) es) (nth r o 0) (nth c o 0) = option_map reread (last_at es r c)).
  { induction es as [|x es IH]; intros Fa; [reflexivity|]. inversion Fa as [|? ? (X1 & X2) Fa']; subst. cbn [map]. rewrite !last_cons, IH by exact Fa'. cbn [fst snd]. rewrite !Inj by assumption.
    destruct (last_at es r c); [reflexivity|]. destruct (_ && _); reflexivity. }
  rewrite L.
  - assert (C : last_at (elements 0 (rows m)) r c = cell (nth r (rows m) []) c).
    { pose proof (cell_fold (fun k => k) r c (elements 0 (rows m)) []) as X. rewrite filter_elements in X. cbn [Nat.leb] in X. rewrite Nat.sub_0_r in X.
      assert (Ndr : NoDup (map fst (nth r (rows m) []))) by (unfold distinct_columns in D; rewrite Forall_forall in D; apply D, nth_In; exact Lr).
      clear - Ndr Lr. assert (Gen : forall rs b, last_at (elements b rs) r c = if b <=? r then last_at (map (fun e => (r, fst e, snd e)) (nth (r - b) rs [])) r c else None).
      { induction rs as [|rw rs IH]; intros b; cbn [elements]; [destruct (b <=? r), (r - b); reflexivity|].
        assert (App : forall a d, last_at (a ++ d) r c = match last_at d r c with Some v => Some v | None => last_at a r c end).
        { induction a as [|x a IHa]; intros d; cbn [app]; [destruct (last_at d r c); reflexivity|]. rewrite !last_cons, IHa. destruct (last_at d r c); reflexivity. }
        rewrite App, IH. destruct (Nat.leb_spec (S b) r), (Nat.leb_spec b r); try lia.
        - replace (r - b) with (S (r - S b)) by lia. cbn [nth]. destruct (last_at _ r c); [reflexivity|].
          induction rw as [|x rw IHw]; [reflexivity|]. cbn [map]. rewrite last_cons, IHw. cbn [fst snd]. destruct (Nat.eqb_spec b r); [lia|reflexivity].
        - replace b with r by lia. rewrite Nat.sub_diag. reflexivity.
        - induction rw as [|x rw IHw]; [reflexivity|]. cbn [map]. rewrite last_cons, IHw. cbn [fst snd]. destruct (Nat.eqb_spec b r); [lia|reflexivity]. }
      rewrite Gen. cbn [Nat.leb]. rewrite Nat.sub_0_r. induction (nth r (rows m) []) as [|[k v] rw IHw]; [reflexivity|]. cbn [map fst snd]. inversion Ndr as [|? ? Ni Nd']; subst. rewrite last_cons, IHw by exact Nd'.
      cbn [fst snd]. rewrite Nat.eqb_refl. unfold cell. cbn [find fst andb]. destruct (Nat.eqb_spec k c) as [->|Nk].
      - assert (Z : find (fun e : nat * value => fst e =? c) rw = None). { destruct (find _ rw) as [p|] eqn:E; [|reflexivity]. apply find_some in E as (I & E). apply Nat.eqb_eq in E. exfalso. apply Ni. rewrite <- E. apply in_map, I. }
        rewrite Z. reflexivity.
      - destruct (option_map snd _); reflexivity. }
    rewrite C. destruct (cell _ c); reflexivity.
  - apply Forall_forall. intros e I. clear - I Sq. assert (Gen : forall rs b, Forall (Forall (fun e => fst e < n)) rs -> b + length rs <= n -> Forall (fun e : entry => fst (fst e) < n /\ snd (fst e) < n) (elements b rs)).
    { induction rs as [|rw rs IH]; intros b Fa L; cbn [elements]; [constructor|]. inversion Fa; subst. cbn [length] in L. apply Forall_app. split; [|apply IH; auto; lia].
      apply Forall_forall. intros x Ix. apply in_map_iff in Ix as (y & <- & Iy). cbn. rewrite Forall_forall in H1. split; [lia|apply H1, Iy]. }
    specialize (Gen (rows m) 0 Sq (le_n _)). rewrite Forall_forall in Gen. apply Gen, I.
Qed.

(** * C111 *)
Theorem C111_roundtrip vs old : (N.of_nat (length vs) < 2 ^ 32)%N -> Forall is_value vs ->
  load_vector None None 0 1 None old (save_vector vs) = Done (0, map reread vs).
Proof.
  intros B F. rewrite load_vector_general with (ren := fun k => k) by (auto; reflexivity).
  destruct (vfold (fun k => k) vs (vstart None None 0 1 (length vs) old) (vstart_length _ _ _ _ _ _)) as (A1 & A2 & A3 & A4); [auto|].
  change (vbeg (vstart None None 0 1 (length vs) old)) with 0 in *. change (vend (vstart None None 0 1 (length vs) old)) with (length vs) in *. change (vind (vstart None None 0 1 (length vs) old)) with 0 in *.
  f_equal. f_equal; [exact A1|]. apply (list_ext (reread (Fin 0))); [rewrite A3, map_length; lia|]. intros k L. rewrite A3 in L. rewrite map_nth.
  destruct (A4 k (Fin 0) ltac:(lia)) as (H & _). specialize (H k ltac:(lia) eq_refl). rewrite Nat.sub_0_r in H. rewrite <- H. apply nth_indep. lia.
Qed.
(** an interval, possibly renumbered; places that are not in the file keep their value *)
Theorem C111_interval vs old b e o : (N.of_nat (length vs) < 2 ^ 32)%N -> Forall is_value vs -> length o = length vs -> NoDup o ->
  exists l, load_vector (Some b) (Some e) 0 1 (Some o) old (save_vector vs) = Done (b, l) /\ length l = e - b /\
    forall k, b <= k < e -> (forall j, j < length vs -> nth j o 0 = k -> nth (k - b) l (Fin 0) = reread (nth j vs (Fin 0))) /\
      (~ In k o -> nth (k - b) l (Fin 0) = nth (k - b) old (Fin 0)).
Proof.
  intros B F Lo Nd. set (ren := fun k => nth k o 0). rewrite load_vector_general with (ren := ren); auto; [|intros k L; unfold ren_ok, ren; apply nth_error_nth'; lia].
  destruct (vfold ren vs (vstart (Some b) (Some e) 0 1 (length vs) old) (vstart_length _ _ _ _ _ _)) as (A1 & A2 & A3 & A4).
  { intros i j Hi Hj E. apply (proj1 (NoDup_nth o 0) Nd); [cbn in Hi; lia|cbn in Hj; lia|exact E]. }
  change (vbeg (vstart (Some b) (Some e) 0 1 (length vs) old)) with b in *. change (vend (vstart (Some b) (Some e) 0 1 (length vs) old)) with e in *. change (vind (vstart (Some b) (Some e) 0 1 (length vs) old)) with 0 in *.
  rewrite A1. eexists. split; [reflexivity|]. split; [exact A3|]. intros k Hk. destruct (A4 k (Fin 0) Hk) as (H1 & H2). split.
  - intros j Lj E. apply H1; [exact Lj|exact E].
  - intros Ni. rewrite H2; [|intros j Lj E; apply Ni; rewrite <- E; apply nth_In; cbn; lia]. cbn [vstart interval vdat]. unfold set_interval.
    destruct (Nat.lt_ge_cases (k - b) (length old)) as [Lt|Ge].
    + rewrite app_nth1 by (rewrite firstn_length; lia). rewrite <- (firstn_skipn (e - b) old) at 2. rewrite app_nth1 by (rewrite firstn_length; lia). reflexivity.
    + rewrite (nth_overflow old) by exact Ge. rewrite app_nth2 by (rewrite firstn_length; lia).
      destruct (Nat.lt_ge_cases (k - b - length (firstn (e - b) old)) (e - b - length old)); [apply nth_repeat|apply nth_overflow; rewrite repeat_length; assumption].
Qed.

(** * Examples *)
Lemma int_double z : (Z.abs z < 1000)%Z -> is_double (IZR z) /\ digits16 (IZR z).
Proof.
  intros B. split; [split|].
  - apply generic_format_FLT. exists (Float radix2 z 0); [unfold F2R; cbn; ring|cbn; lia|cbn; lia].
  - rewrite <- abs_IZR. apply Rlt_le_trans with (bpow radix2 10); [change (bpow radix2 10) with (IZR 1024); apply IZR_lt; lia|apply bpow_le; lia].
  - exists z, 0%Z. split; [lia|]. cbn. ring.
Qed.
Lemma int_entry c z : (N.of_nat (S c) < 2 ^ 32)%N -> (Z.abs z < 1000)%Z -> (N.of_nat (S (fst (c, Fin (IZR z)))) < 2 ^ 32)%N /\ is_value (snd (c, Fin (IZR z))).
Proof. intros A B. split; [exact A|]. apply (int_double z B). Qed.
Lemma int_reread z : (Z.abs z < 1000)%Z -> reread (Fin (IZR z)) = Fin (IZR z).
Proof. intros B. destruct (int_double z B). apply reread_exact; assumption. Qed.
Definition two_rows : matrix := Mat 0 [[(1, Fin 5); (0, Fin (-7))]; [(1, Fin 3)]].
Lemma two_rows_ok : small two_rows /\ distinct_columns (rows two_rows).
Proof.
  split; [split; [reflexivity|]|].
  - constructor; [constructor; [apply (int_entry 1 5); reflexivity|constructor; [apply (int_entry 0 (-7)); reflexivity|constructor]]|].
    constructor; [constructor; [apply (int_entry 1 3); reflexivity|constructor]|constructor].
  - repeat constructor; cbn; intuition discriminate.
Qed.
Lemma annot_ok m : good_annot (fun _ => str "first") m.
Proof. intros r _. split; [intros I; cbn in I; repeat (destruct I as [I|I]; [discriminate|]); exact I|unfold short; cbn; lia]. Qed.
Lemma name_ok : good_name (str "A").
Proof. split; [intros I; cbn in I; repeat (destruct I as [I|I]; [discriminate|]); exact I|unfold short; cbn; lia]. Qed.
Example C108_nonvacuous : load None None 0 1 None empty_matrix (save (str "A") (fun _ => str "first") two_rows) = Done two_rows.
Proof.
  destruct two_rows_ok as (A & B). rewrite C108_roundtrip; auto using name_ok, annot_ok. unfold two_rows, reread_row. cbn [rows map fst snd].
  rewrite (int_reread 5), (int_reread (-7)), (int_reread 3) by (cbn; lia). reflexivity.
Qed.
Example C108_offset_nonvacuous : load None None 0 1 None empty_matrix (save (str "A") (fun _ => str "first") (Mat 1 [[(0, Fin 5)]])) = Done (Mat 0 [[]]).
Proof.
  rewrite C108_offset_refuted; auto using name_ok, annot_ok.
  - split; [reflexivity|]. constructor; [constructor; [apply (int_entry 0 5); reflexivity|constructor]|constructor].
  - repeat constructor. intros [].
Qed.
(** of two values for a place the last one is loaded, an element of the old matrix stays *)
Example C109_nonvacuous : exists m', load (Some 0) (Some 1) 0 1 None (Mat 0 [[(1, Fin 9)]]) (save (str "A") (fun _ => str "first") (Mat 0 [[(0, Fin 5); (0, Fin 3)]])) = Done m' /\
  cell (nth 0 (rows m') []) 0 = Some (Fin 3) /\ cell (nth 0 (rows m') []) 1 = Some (Fin 9).
Proof.
  destruct (C109_overlay (str "A") (fun _ => str "first") (Mat 0 [[(0, Fin 5); (0, Fin 3)]]) (Mat 0 [[(1, Fin 9)]]) 0 1) as (m' & E & _ & _ & H); auto using name_ok, annot_ok.
  - split; [reflexivity|]. constructor; [constructor; [apply (int_entry 0 5); reflexivity|constructor; [apply (int_entry 0 3); reflexivity|constructor]]|constructor].
  - exists m'. split; [exact E|]. split.
    + pose proof (H 0 0 ltac:(lia)) as X. cbn -[reread] in X |- *. rewrite X. f_equal. apply (int_reread 3). cbn. lia.
    + apply (H 0 1). lia.
Qed.
Example C110_nonvacuous : exists m', load None None 0 1 (Some [1; 0]) empty_matrix (save (str "A") (fun _ => str "first") two_rows) = Done m' /\
  cell (nth 1 (rows m') []) 0 = Some (Fin 5) /\ cell (nth 0 (rows m') []) 1 = None.
Proof.
  destruct two_rows_ok as (A & B).
  destruct (C110_order (str "A") (fun _ => str "first") two_rows [1; 0]) as (m' & E & _ & _ & H); auto using name_ok, annot_ok.
  - repeat constructor; cbn; intuition discriminate.
  - cbn. intros k [<-|[<-|[]]]; lia.
  - repeat constructor.
  - exists m'. split; [exact E|]. split.
    + pose proof (H 0 1 ltac:(cbn; lia) ltac:(cbn; lia)) as X. cbn -[reread] in X |- *. rewrite X. f_equal. apply (int_reread 5). cbn. lia.
    + apply (H 1 0); cbn; lia.
Qed.
Example C110_gather_nonvacuous : gather (str "1 1 2") [str "2 2 3"] = None.
Proof. reflexivity. Qed.
Example C111_nonvacuous : load_vector None None 0 1 None [] (save_vector [Fin 5; Fin (-7)]) = Done (0, [Fin 5; Fin (-7)]).
Proof.
  rewrite C111_roundtrip.
  - cbn [map]. rewrite (int_reread 5), (int_reread (-7)) by (cbn; lia). reflexivity.
  - reflexivity.
  - repeat constructor; apply (int_double 5) || apply (int_double (-7)); cbn; lia.
Qed.

Print Assumptions C108_roundtrip.
Print Assumptions C108_value_exact.
Print Assumptions C108_value_error.
Print Assumptions C108_value_refuted.
Print Assumptions C108_not_finite_refuted.
Print Assumptions C108_offset.
Print Assumptions C108_offset_refuted.
Print Assumptions C109_overlay.
Print Assumptions C109_last_line_refuted.
Print Assumptions C109_long_annotation_refuted.
Print Assumptions C109_line_end_refuted.
Print Assumptions C110_partition.
Print Assumptions C110_parallel.
Print Assumptions C110_gather_refuted.
Print Assumptions C110_order.
Print Assumptions C111_roundtrip.
Print Assumptions C111_interval.
