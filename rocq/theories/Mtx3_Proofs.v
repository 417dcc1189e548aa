(** Lemmas about matrix files: values, long lines, vectors. *)
From Coq Require Import Ascii String.
From Coq Require Import List Arith NArith ZArith Bool Lia Reals Lra.
From Flocq Require Import Core.Core Relative.
From Verif Require Import Row_Model Mtx_Model Mtx_Spec Mtx_Proofs Mtx2_Proofs.
Import ListNotations.
Open Scope nat_scope.

(** * Values *)
Lemma digits16_format x : digits16 x -> generic_format radix10 (FLX_exp 16) x.
Proof. intros (m & e & B & E). apply generic_format_FLX. exists (Float radix10 m e); [exact E|exact B]. Qed.
Lemma reread_exact x : is_double x -> digits16 x -> reread (Fin x) = Fin x.
Proof.
  intros (D & _) F. apply digits16_format in F. cbn [reread]. f_equal. rewrite (round_generic radix10 (FLX_exp 16)) by (try apply valid_rnd_N; exact F).
  apply round_generic; [apply valid_rnd_N|exact D].
Qed.
Lemma reread_error x : (bpow radix2 (-1021) <= Rabs x)%R -> exists y, reread (Fin x) = Fin y /\ (Rabs (y - x) <= / 10 ^ 15 * Rabs x)%R.
Proof.
  intros B. eexists. split; [reflexivity|]. set (y := round (Build_radix 10 eq_refl) (FLX_exp 16) ZnearestE x).
  assert (V10 : Valid_exp (FLX_exp 16)) by (apply FLX_exp_valid; reflexivity).
  assert (E10 : (Rabs (y - x) <= / 2 * / 10 ^ 15 * Rabs x)%R).
  { pose proof (relative_error_N_FLX (Build_radix 10 eq_refl) 16 eq_refl (fun n => negb (Z.even n)) x) as H. change (bpow (Build_radix 10 eq_refl) (-16 + 1)) with (/ IZR (Z.pow_pos 10 15))%R in H.
    rewrite pow_IZR. exact H. }
  assert (P : (0 < Rabs x)%R) by (eapply Rlt_le_trans; [apply bpow_gt_0|exact B]).
  assert (T : (/ 10 ^ 15 < / 4)%R) by (apply Rinv_lt_contravar; [cbn; lra|cbn; lra]). assert (T0 : (0 < / 10 ^ 15)%R) by (apply Rinv_0_lt_compat; cbn; lra).
  assert (Hy : (Rabs x - Rabs (y - x) <= Rabs y /\ Rabs y <= Rabs x + Rabs (y - x))%R) by (split; (unfold Rabs; repeat destruct Rcase_abs; lra)).
  set (q := (/ 10 ^ 15)%R) in *. set (ax := Rabs x) in *. assert (Q : (/ 2 * q * ax <= / 2 * ax)%R) by (assert (q * ax <= 1 * ax)%R by (apply Rmult_le_compat_r; lra); lra).
  assert (By : (bpow radix2 (-1022) <= Rabs y)%R).
  { assert (bpow radix2 (-1021) = 2 * bpow radix2 (-1022))%R by (change (-1021)%Z with (1 + -1022)%Z; rewrite bpow_plus; reflexivity). lra. }
  pose proof (relative_error_N_FLT radix2 (-1074) 53 eq_refl (fun n => negb (Z.even n)) y) as H2. change (-1074 + 53 - 1)%Z with (-1022)%Z in H2. specialize (H2 By).
  change (bpow radix2 (- (53) + 1)) with (/ IZR (Z.pow_pos 2 52))%R in H2.
  assert (T2 : (/ 2 * / IZR (Z.pow_pos 2 52) <= / 4 * q)%R).
  { unfold q. replace (/ 2 * / IZR (Z.pow_pos 2 52))%R with (/ 4 * / (IZR (Z.pow_pos 2 52) / 2))%R by (cbn; field). apply Rmult_le_compat_l; [lra|]. apply Rinv_le_contravar; cbn; lra. }
  assert (U0 : (0 <= / 2 * / IZR (Z.pow_pos 2 52))%R) by (apply Rmult_le_pos; [lra|left; apply Rinv_0_lt_compat, IZR_lt; reflexivity]).
  assert (Rabs y <= 2 * ax)%R by lra. set (u := (/ 2 * / IZR (Z.pow_pos 2 52))%R) in *.
  assert (u * Rabs y <= / 4 * q * (2 * ax))%R by (apply Rmult_le_compat; [exact U0|apply Rabs_pos|exact T2|assumption]).
  change (round radix2 (FLT_exp (-1074) 53) ZnearestE y) with (round radix2 (FLT_exp (-1074) 53) (Znearest (fun n => negb (Z.even n))) y).
  set (z := round _ _ _ y) in *. replace (z - x)%R with ((z - y) + (y - x))%R by ring. eapply Rle_trans; [apply Rabs_triang|]. fold u in H2. lra.
Qed.
Lemma near_one : is_double (1 + bpow radix2 (-52))%R /\ reread (Fin (1 + bpow radix2 (-52))) = Fin 1.
Proof.
  assert (U : (bpow radix2 (-52) = / IZR (2 ^ 52))%R) by reflexivity. assert (U1 : (0 < bpow radix2 (-52) < / 10 ^ 15 * / 4)%R).
  { rewrite U. split; [apply Rinv_0_lt_compat, IZR_lt; reflexivity|]. rewrite <- Rinv_mult. apply Rinv_lt_contravar; [|cbn; lra]. cbn. lra. }
  assert (T0 : (0 < / 10 ^ 15 < 1)%R) by (split; [apply Rinv_0_lt_compat; cbn; lra|rewrite <- Rinv_1; apply Rinv_lt_contravar; cbn; lra]).
  split; [split|].
  - apply generic_format_FLT. exists (Float radix2 (2 ^ 52 + 1) (-52)); [|reflexivity|cbn; lia]. unfold F2R. cbn [Fnum Fexp]. rewrite plus_IZR, Rmult_plus_distr_r, U. field. apply not_0_IZR. discriminate.
  - rewrite Rabs_right by lra. apply Rlt_le_trans with (bpow radix2 1); [cbn; lra|apply bpow_le; lia].
  - assert (E : round (Build_radix 10 eq_refl) (FLX_exp 16) ZnearestE (1 + bpow radix2 (-52)) = 1%R).
    { unfold round. assert (M : cexp (Build_radix 10 eq_refl) (FLX_exp 16) (1 + bpow radix2 (-52)) = (-15)%Z).
      { unfold cexp. rewrite (mag_unique (Build_radix 10 eq_refl) _ 1); [reflexivity|]. rewrite Rabs_right by lra. cbn. lra. }
      unfold scaled_mantissa. rewrite M. change (bpow (Build_radix 10 eq_refl) (- -15)) with (IZR (10 ^ 15)).
      rewrite (Znearest_imp _ _ (10 ^ 15)).
      - unfold F2R. cbn [Fnum Fexp]. change (bpow (Build_radix 10 eq_refl) (-15)) with (/ IZR (10 ^ 15))%R. apply Rinv_r. apply not_0_IZR. discriminate.
      - replace ((1 + bpow radix2 (-52)) * IZR (10 ^ 15) - IZR (10 ^ 15))%R with (bpow radix2 (-52) * 10 ^ 15)%R by (cbn [pow]; change (10 ^ 15)%Z with 1000000000000000%Z; ring).
        destruct U1 as (Ua & Ub). apply (Rmult_lt_compat_r (10 ^ 15)) in Ub; [|cbn; lra]. replace (/ 10 ^ 15 * / 4 * 10 ^ 15)%R with (/ 4)%R in Ub by (field; cbn; lra).
        rewrite Rabs_right; [lra|]. apply Rle_ge, Rmult_le_pos; [lra|cbn; lra]. }
    cbn [reread]. rewrite E. f_equal. apply round_generic; [apply valid_rnd_N|]. change 1%R with (bpow radix2 0). apply generic_format_bpow. unfold FLT_exp. lia.
Qed.

(** * Lines that do not fit *)
Lemma load_long {St} (process : St -> text -> result St) s l ls tl : comment l -> ~ short l 0 -> load_lines process s (l :: ls) tl = Hang.
Proof.
  intros C L. destruct l as [|c l]; [contradiction|]. cbn in C. subst c. unfold short in L. cbn [load_lines].
  assert (B : buffer = S (N.to_nat 16382)) by (unfold buffer; lia). rewrite B at 1. cbn [firstn]. rewrite line_comment.
  assert (H : (buffer <? length (percent :: l)) = true) by (apply Nat.ltb_lt; unfold buffer; cbn [length] in *; lia). rewrite H. reflexivity.
Qed.
Lemma load_rows_long mbeg mend rank size ord ren annot rs tl : forall r s, headed s = true -> goodst s -> (N.of_nat (r + length rs) < 2 ^ 32)%N -> Forall ok_row rs ->
  (forall k, r <= k < r + length rs -> ren_ok ord ren k) -> Forall (Forall (fun e => ren_ok ord ren (fst e))) rs ->
  (exists k, r <= k < r + length rs /\ ~ short (annot k) 2) ->
  load_lines (process_matrix mbeg mend rank size ord) s (slines r annot rs) tl = Hang.
Proof.
  induction rs as [|rw rs IH]; intros r s H Gs B O Rr Rc (k & Hk & L); [cbn in Hk; lia|]. inversion O; subst. inversion Rc; subst. cbn [slines length] in *.
  assert (IH' : ~ short (annot r) 2 \/ load_lines (process_matrix mbeg mend rank size ord) (fold_left (step1 ren) (map (fun e => (r, fst e, snd e)) rw) s) (slines (S r) annot rs) tl = Hang).
  { destruct (Nat.eq_dec k r) as [->|Nk]; [left; exact L|right]. apply IH; auto; [apply fold_headed, H|apply fold_goodst, Gs|lia|intros; apply Rr; lia|exists k; split; [lia|exact L]]. }
  destruct (annot r) as [|a l] eqn:E.
  - destruct IH' as [X|X]; [exfalso; apply X; unfold short; cbn; lia|]. cbn [app]. rewrite load_entries with (ren := ren); auto; [lia|apply Rr; lia].
  - cbn [app]. destruct (N.leb_spec (N.of_nat (2 + length (a :: l))) 16383) as [Sh|Sh].
    + destruct IH' as [X|X]; [exfalso; apply X; exact Sh|]. rewrite (load_cons _ _ _ _ _ s); [|unfold short; cbn [length] in *; lia|apply line_comment].
      rewrite load_entries with (ren := ren); auto; [lia|apply Rr; lia].
    + apply load_long; [reflexivity|]. unfold short. cbn [length] in *. lia.
Qed.
Lemma load_long_general mbeg mend rank size ord ren name by_ annot f n nnz rs old tl :
  good_name name -> good_by by_ -> (N.of_nat n < 2 ^ 32)%N -> small (Mat f rs) -> good_ren ord ren f rs -> one_line tl ->
  (forall k, f <= k < f + length rs -> one_line (annot k)) -> (exists k, f <= k < f + length rs /\ ~ short (annot k) 2) ->
  load mbeg mend rank size ord old (header name by_ n nnz ++ save_rows f annot rs ++ tl) = Hang.
Proof.
  intros G1 G2 Nn (S1 & S2) (R1 & R2) O An Lg. cbn [first rows] in *. unfold load, load_text. rewrite header_lines, save_rows_lines, app_assoc, <- unlines_app.
  rewrite split_unlines; [|apply Forall_app; split; [apply hlines_one; assumption|apply slines_one; assumption]|exact O].
  rewrite load_header by assumption. rewrite (load_rows_long mbeg mend rank size ord ren); auto using start_good.
Qed.

(** * Vectors *)
Definition vstep (ren : nat -> nat) (s : vstate) (v : value) : vstate :=
  let k := ren (vind s) in
  VS true (vbeg s) (vend s) (S (vind s)) (if (vbeg s <=? k) && (k <? vend s) then set_nth (k - vbeg s) (reread v) (vdat s) else vdat s).
Lemma set_nth_length {A} (a : A) l : forall k, length (set_nth k a l) = length l.
Proof. induction l as [|x l IH]; intros [|k]; cbn; auto. Qed.
Lemma vstep_length ren s v : length (vdat s) = vend s - vbeg s -> length (vdat (vstep ren s v)) = vend (vstep ren s v) - vbeg (vstep ren s v).
Proof. intros G. unfold vstep. cbn. destruct (_ && _); [rewrite set_nth_length|]; exact G. Qed.
Lemma load_values mbeg mend rank size ord ren vs : forall s, vheaded s = true -> length (vdat s) = vend s - vbeg s -> Forall is_value vs ->
  (forall k, vind s <= k < vind s + length vs -> ren_ok ord ren k) ->
  load_lines (process_vector mbeg mend rank size ord) s (map show_value vs) [] = Done (fold_left (vstep ren) vs s).
Proof.
  induction vs as [|v vs IH]; intros s H G F R; [reflexivity|]. inversion F; subst. cbn [map fold_left length] in *.
  rewrite (load_cons _ _ _ _ _ (vstep ren s v)).
  - apply IH; auto; [apply vstep_length, G|]. intros k Hk. apply R. cbn in Hk. lia.
  - unfold short. pose proof (show_value_length v H2). lia.
  - pose proof (read_show v) as E. pose proof (show_value_plain v) as P. destruct (show_value_head v) as (c & t & Es & Sc & Nc). rewrite Es in *. rewrite line_data by assumption.
    unfold process_vector. rewrite H. cbn [negb]. pose proof (R (vind s) ltac:(lia)) as Rk. unfold ren_ok in Rk. unfold vstep. rewrite E.
    assert (K : match ord with None => Some (vind s) | Some o => nth_error o (vind s) end = Some (ren (vind s))) by (destruct ord; [exact Rk|rewrite Rk; reflexivity]). rewrite K.
    destruct (Nat.leb_spec (vbeg s) (ren (vind s))); [|reflexivity]. destruct (Nat.ltb_spec (ren (vind s)) (vend s)); [|reflexivity]. cbn [andb].
    destruct (Nat.ltb_spec (ren (vind s) - vbeg s) (length (vdat s))); [reflexivity|exfalso; lia].
Qed.
Definition vstart (mbeg mend : option nat) (rank size n : nat) (old : list value) : vstate :=
  let '(b, e) := interval mbeg mend rank size n in VS true b e 0 (set_interval (Fin 0) old b e).
Lemma vstart_length mbeg mend rank size n old : length (vdat (vstart mbeg mend rank size n old)) = vend (vstart mbeg mend rank size n old) - vbeg (vstart mbeg mend rank size n old).
Proof. unfold vstart. destruct (interval mbeg mend rank size n) as (b, e). cbn. unfold set_interval. rewrite app_length, firstn_length, repeat_length. lia. Qed.
Lemma load_vector_general mbeg mend rank size ord ren vs old : (N.of_nat (length vs) < 2 ^ 32)%N -> Forall is_value vs -> (forall k, k < length vs -> ren_ok ord ren k) ->
  let s := fold_left (vstep ren) vs (vstart mbeg mend rank size (length vs) old) in
  load_vector mbeg mend rank size ord old (save_vector vs) = Done (vbeg s, vdat s).
Proof.
  intros B F R s. unfold load_vector, load_text.
  assert (E : save_vector vs = unlines (show_uint (N.of_nat (length vs)) :: map show_value vs) ++ []).
  { unfold save_vector, unlines. cbn [map concat]. rewrite map_map, app_nil_r, <- app_assoc. reflexivity. }
  rewrite E. rewrite split_unlines.
  - rewrite (load_cons _ _ _ _ _ (vstart mbeg mend rank size (length vs) old)).
    + rewrite load_values with (ren := ren); auto using vstart_length.
      unfold vstart. destruct (interval mbeg mend rank size (length vs)). cbn. intros; apply R; lia.
    + unfold short. pose proof (show_uint_length _ _ B). lia.
    + rewrite <- (app_nil_r (show_uint _)), line_number by constructor. unfold process_vector. cbn [vheaded negb]. rewrite read_uint_show by (auto; exact I). rewrite Nat2N.id.
      unfold vstart. destruct (interval mbeg mend rank size (length vs)). reflexivity.
  - constructor; [apply plain_one_line, show_uint_plain|]. apply Forall_forall. intros l I. apply in_map_iff in I as (v & <- & _). apply plain_one_line, show_value_plain.
  - intros I. exact I.
Qed.
Lemma nth_set_nth {A} (a d : A) l : forall k j, k < length l -> nth j (set_nth k a l) d = if j =? k then a else nth j l d.
Proof.
  induction l as [|x l IH]; intros k j L; [cbn in L; lia|]. destruct k as [|k], j as [|j]; cbn [set_nth nth Nat.eqb]; try reflexivity. apply IH. cbn in L. lia.
Qed.
Lemma vfold ren vs : forall s, length (vdat s) = vend s - vbeg s -> (forall i j, vind s <= i < vind s + length vs -> vind s <= j < vind s + length vs -> ren i = ren j -> i = j) ->
  let s' := fold_left (vstep ren) vs s in vbeg s' = vbeg s /\ vend s' = vend s /\ length (vdat s') = vend s - vbeg s /\
  forall k d, vbeg s <= k < vend s ->
    (forall j, j < length vs -> ren (vind s + j) = k -> nth (k - vbeg s) (vdat s') d = reread (nth j vs d)) /\
    ((forall j, j < length vs -> ren (vind s + j) <> k) -> nth (k - vbeg s) (vdat s') d = nth (k - vbeg s) (vdat s) d).
Proof.
  induction vs as [|v vs IH]; intros s G Inj; cbn [fold_left].
  - cbv zeta. split; [auto|]. split; [auto|]. split; [exact G|]. intros k d Hk. split; [intros j Hj; cbn in Hj; lia|reflexivity].
  - set (s1 := vstep ren s v). assert (G1 : length (vdat s1) = vend s1 - vbeg s1) by (unfold s1, vstep; cbn; destruct (_ && _); [rewrite set_nth_length|]; exact G).
    destruct (IH s1 G1) as (A1 & A2 & A3 & A4). { intros i j Hi Hj. apply Inj; cbn [length]; cbn in Hi, Hj; lia. }
    cbv zeta. assert (N1 : vind s1 = S (vind s)) by reflexivity. change (vbeg s1) with (vbeg s) in *. change (vend s1) with (vend s) in *. split; [exact A1|]. split; [exact A2|]. split; [exact A3|].
    intros k d Hk. destruct (A4 k d Hk) as (B1 & B2). rewrite N1 in *.
    assert (V : nth (k - vbeg s) (vdat s1) d = if k =? ren (vind s) then reread v else nth (k - vbeg s) (vdat s) d).
    { unfold s1, vstep. cbn [vdat]. destruct (Nat.leb_spec (vbeg s) (ren (vind s))), (Nat.ltb_spec (ren (vind s)) (vend s)); cbn [andb]; try (destruct (Nat.eqb_spec k (ren (vind s))); [lia|reflexivity]).
      rewrite nth_set_nth by lia. destruct (Nat.eqb_spec (k - vbeg s) (ren (vind s) - vbeg s)), (Nat.eqb_spec k (ren (vind s))); try reflexivity; lia. }
    split.
    + intros [|j] Hj E; cbn [length nth] in *.
      * rewrite B2, V; [|intros j Hj' E']. { rewrite Nat.add_0_r in E. rewrite <- E, Nat.eqb_refl. reflexivity. }
        assert (S (vind s) + j = vind s + 0) by (apply Inj; [lia|lia|congruence]). lia.
      * apply B1; [lia|]. rewrite <- E. f_equal. lia.
    + intros Nn. rewrite B2, V.
      * destruct (Nat.eqb_spec k (ren (vind s))) as [E|E]; [|reflexivity]. exfalso. apply (Nn 0); [cbn; lia|]. rewrite Nat.add_0_r. auto.
      * intros j Hj E. apply (Nn (S j)); [cbn; lia|]. rewrite <- E. f_equal. lia.
Qed.
