(** Words and data sets of the XML mesh format: the theorems. *)
From Coq Require Import Ascii String.
From Coq Require Import List Arith NArith ZArith Bool Lia Reals Lra.
From Flocq Require Import Core.Core Relative.
From Verif Require Import Util Mtx_Model Mtx_Spec Mtx_Proofs Expr_Model Handle_Model Word_Model Word_Spec Word_Proofs.
Import ListNotations.
Open Scope nat_scope.

(** * C120: words *)
(** any list of values with spaces between them is read as these values; the reader stops at the > of
    the end mark *)
Theorem C120_words l ws r : spaces ws -> items_ok l ->
  words (ws ++ items_text l ++ text_of "]]>" ++ r) = Some (map (fun p => item_word (fst p)) l, ch ">" :: r).
Proof. exact (words_ok l ws r). Qed.
(** contents that are cut off: the loop of the reader does not end *)
Theorem C120_cut_off inp : ~ In (ch ">") inp -> words inp = None.
Proof. intros H. apply words_no_gt. exact H. Qed.
(** a value directly before the end mark is lost *)
Theorem C120_last_word_refuted : words (str "1 2 3]]>") = Some ([str "1"; str "2"], str ">").
Proof. reflexivity. Qed.
(** one more bracket before the end mark hides it *)
Theorem C120_brackets_refuted : words (str "1 ]]]> </DataSet>") = None.
Proof. reflexivity. Qed.
(** parentheses inside of the number of repetitions cut it in two *)
Theorem C120_nested_refuted : words (str "7*((1+1)*2) 8 ]]>") = Some ([str "7*((1+1)"; str "*2)"; str "8"], str ">").
Proof. reflexivity. Qed.
(** quoted text that ends with a backslash takes everything that follows *)
Theorem C120_backslash_refuted : words (str """a\"" 1 ]]> </DataSet>") = None.
Proof. reflexivity. Qed.
Example C120_nonvacuous :
  let l := [((Plain (str "1.5"), Once), str "  "); ((Braces (str "1, 2 ,3"), TimesPar [32] (str "SetSize / 2")), []); ((Quoted (str "a ""b]]>"""), Times [] (str "2")), [10])] in
  items_ok l /\ items_text l = str "1.5  {1, 2 ,3}* (SetSize / 2)""a \""b]]>\""""*2" ++ [10] /\ map (fun p => item_word (fst p)) l = [str "1.5"; str "{1,2,3}*(SetSize/2)"; str """a ""b]]>""""*2"].
Proof.
  cbv zeta. split; [|split; reflexivity]. unfold items_ok, item_ok, gap_ok, base_ok, times_ok, spaces, no_space, without, space, ch.
  repeat (apply Forall_cons || apply Forall_nil || split || intros); cbn in *; try discriminate; try tauto; try (intuition (subst; cbn in *; lia)). eexists _, _. reflexivity.
Qed.

(** * C121: values with repetitions *)
Section Values.
  Context {A : Type} (single : list nat -> option (list A)) (elem : list nat -> option A) (convert : list nat -> Z -> option Z).
  (** one value, or values in braces; parts that are blank are skipped *)
Theorem C121_one_value v m size : ~ In (ch "*") v -> hd 0 v <> ch "{" ->
    parse single elem convert (v ++ ch "*" :: m) size = match single v, convert m size with Some l, Some k => Some (l, k) | _, _ => None end.
  Proof. exact (parse_single single elem convert v m size). Qed.
Theorem C121_braces ts vs m size : ts <> [] -> Forall (without [","; "}"; "*"]%char) ts ->
    Forall2 (fun t a => elem t = Some a) (filter (fun t => negb (forallb is_space t)) ts) vs ->
    parse single elem convert (ch "{" :: commas ts ++ text_of "}*" ++ m) size = match convert m size with Some k => Some (vs, k) | None => None end.
  Proof.
    intros N F V. apply parse_vector; try assumption.
    - eapply Forall_impl; [|exact F]. intros t W. split; [apply (W ","%char)|apply (W "}"%char)]; cbn; tauto.
    - eapply Forall_impl; [|exact F]. intros t W. apply (W "*"%char). cbn. tauto.
  Qed.
  (** dense data of fixed size: if every word has whole records and there are not too many of them, the
      values go one after another to the elements; the rest keeps its values *)
Theorem C121_fixed sz l ws vrs D0 r : 0 < sz -> spaces ws -> items_ok l -> Forall (fun d => length d = sz) D0 ->
    Forall2 (fun p vr => parse single elem convert (item_word (fst p)) (Z.of_nat (length D0)) = Some vr) l vrs ->
    Forall (fun vr => exists j, length (times_list (Z.to_nat (snd vr)) (fst vr)) = S j * sz) vrs ->
    let vs := concat (map (fun vr => times_list (Z.to_nat (snd vr)) (fst vr)) vrs) in
    length vs <= length D0 * sz ->
    exists D, read_dense single elem convert (Some sz) D0 (ws ++ items_text l ++ text_of "]]>" ++ r) = Some (D, ch ">" :: r) /\
      length D = length D0 /\ Forall (fun d => length d = sz) D /\ concat D = vs ++ skipn (length vs) (concat D0).
  Proof.
    intros P S O F0 W J vs L. unfold read_dense. rewrite words_ok by assumption.
    assert (Ef : forall vrs : list (list A * Z), concat (map (fun p => flat (fst p) (snd p)) vrs) = concat (map (fun vr => times_list (Z.to_nat (snd vr)) (fst vr)) vrs)).
    { clear. intros vrs. f_equal. apply map_ext. intros. apply flat_eq. }
    destruct (put_fixed single elem convert sz (map (fun p => item_word (fst p)) l) (Z.of_nat (length D0)) vrs [] D0) as (recs & R1 & R2 & R3 & R4); try assumption.
    - clear - W. induction W; cbn [map]; constructor; assumption.
    - eapply Forall_impl; [|exact J]. intros p (j & Hj). rewrite flat_eq. split; [intros E; rewrite E in Hj; cbn in Hj; lia|exists (Datatypes.S j); exact Hj].
    - rewrite Ef. exact L.
    - cbn [app length] in R4. rewrite R4. rewrite Ef in R2. fold vs in R2. exists (recs ++ skipn (length recs) D0). split; [reflexivity|]. split; [rewrite app_length, skipn_length; lia|]. split.
      + apply Forall_app. split; [exact R1|]. rewrite <- (firstn_skipn (length recs) D0) in F0. apply Forall_app in F0. tauto.
      + rewrite concat_app, R2. f_equal. rewrite <- R2. assert (Lc : forall E : list (list A), Forall (fun d => length d = sz) E -> length (concat E) = length E * sz) by (clear; induction 1 as [|d E Hd HE IH]; [reflexivity|]; cbn [concat length]; rewrite app_length, IH, Hd; lia).
        rewrite (Lc recs R1). rewrite <- (firstn_skipn (length recs) D0) at 2. rewrite concat_app, skipn_app, Lc by (rewrite <- (firstn_skipn (length recs) D0) in F0; apply Forall_app in F0; tauto).
        rewrite firstn_length, Nat.min_l, Nat.sub_diag by lia. rewrite (skipn_all2 (concat (firstn (length recs) D0))); [reflexivity|]. rewrite Lc by (rewrite <- (firstn_skipn (length recs) D0) in F0; apply Forall_app in F0; tauto). rewrite firstn_length. nia.
  Qed.
  (** dense data of variable size: every word is the data of one element *)
Theorem C121_variable l ws vrs D0 r : spaces ws -> items_ok l -> length l <= length D0 ->
    Forall2 (fun p vr => parse single elem convert (item_word (fst p)) (Z.of_nat (length D0)) = Some vr) l vrs -> Forall (fun vr => (0 <= snd vr)%Z) vrs ->
    read_dense single elem convert None D0 (ws ++ items_text l ++ text_of "]]>" ++ r) = Some (map (fun vr => times_list (Z.to_nat (snd vr)) (fst vr)) vrs ++ skipn (length l) D0, ch ">" :: r).
  Proof.
    intros S O L W J. unfold read_dense. rewrite words_ok by assumption. assert (Ll : length vrs = length l) by (clear - W; induction W; cbn; lia).
    pose proof (put_variable single elem convert (map (fun p => item_word (fst p)) l) (Z.of_nat (length D0)) vrs [] D0) as X. cbn [app length] in X. rewrite X; [|clear - W; induction W; cbn [map]; constructor; assumption|exact J|lia].
    rewrite Ll. do 3 f_equal. apply map_ext. intros. apply flat_eq.
  Qed.
End Values.
Notation conv := (convert Z.add Z.sub Z.mul Z.div Z.opp atoi (fun z => z)).
(** values of records of size two without braces: all go to the first place of the first element *)
Theorem C121_no_braces_refuted : read_dense int_single int_elem conv (Some 2) [[0; 0]; [0; 0]]%Z (str "1 2 3 4 ]]>") = Some ([[4; 0]; [0; 0]]%Z, str ">").
Proof. reflexivity. Qed.
(** too many values: the last element is written again, without an error *)
Theorem C121_too_many_refuted : read_dense int_single int_elem conv (Some 1) [[0]; [0]]%Z (str "{1,2,3} ]]>") = Some ([[1]; [3]]%Z, str ">").
Proof. reflexivity. Qed.
(** a star in quoted text is taken for a number of repetitions, the text is lost *)
Theorem C121_star_in_quotes_refuted : words (str """a*b"" ]]>") = Some ([str """a*b"""], str ">") /\ parse bulk_single bulk_elem conv (str """a*b""") 5 = Some ([], 0%Z).
Proof. split; reflexivity. Qed.
(** braces that are not closed: access outside of the text *)
Theorem C121_open_brace_refuted : parse int_single int_elem conv (str "{1,2") 5 = None.
Proof. reflexivity. Qed.
Example C121_nonvacuous :
  read_dense int_single int_elem conv (Some 2) (repeat [0; 0]%Z 6) (str "{1,2, 3,4} {7,8}* (SetSize / 2) ]]>") = Some ([[1; 2]; [3; 4]; [7; 8]; [7; 8]; [7; 8]; [0; 0]]%Z, str ">") /\
  parse int_single int_elem conv (str "{7,8}*(SetSize/2)") 6 = Some ([7; 8]%Z, 3%Z).
Proof. split; reflexivity. Qed.

(** * C122: data sets are read as they were written *)
Section Roundtrip.
  Context {A : Type} (show : A -> list nat) (single : list nat -> option (list A)) (elem : list nat -> option A) (convert : list nat -> Z -> option Z).
  (** a value whose text has no special characters and is read back *)
  Definition kept (a : A) : Prop := clean (show a) /\ single (show a) = Some [a] /\ elem (show a) = Some a.
  Hypothesis once : forall size, convert [] size = Some 1%Z.
Theorem C122_variable D D0 r : Forall (Forall kept) D -> length D0 = length D ->
    read_dense single elem convert None D0 (contents (write_dense show 0 D) ++ r) = Some (D, ch ">" :: r).
  Proof. exact (read_variable show single elem convert once D D0 r). Qed.
Theorem C122_fixed sz D D0 r : 0 < sz -> Forall (Forall kept) D -> Forall (fun d => length d = sz) D -> Forall (fun d => length d = sz) D0 -> length D0 = length D ->
    read_dense single elem convert (Some sz) D0 (contents (write_dense show 0 D) ++ r) = Some (D, ch ">" :: r).
  Proof. exact (read_fixed show single elem convert once sz D D0 r). Qed.
  (** sparse data: elements without data stay without; so do elements with an array of no values *)
Theorem C122_sparse sz D r : Forall (fun d => forall l, d = Some l -> Forall kept l) D ->
    (forall s, sz = Some s -> Forall (fun d => forall l, d = Some l -> length l = s \/ l = []) D) ->
    read_sparse single elem convert number_index sz (repeat None (length D)) (contents (write_sparse show 0 0 D) ++ r) =
      Some (map (fun d => match d with Some [] => None | _ => d end) D, ch ">" :: r).
  Proof.
    intros F Z. apply (read_sparse_ok show single elem convert once number_index sz D r).
    - intros n. unfold number_index. rewrite atoi_uint, nat_N_Z. reflexivity.
    - eapply Forall_impl; [|exact F]. intros [l|] H; [exact (H l eq_refl)|constructor].
    - intros s Hs. eapply Forall_impl; [|exact (Z s Hs)]. intros [[|a l]|] H; [exact I| |exact I]. destruct (H (a :: l) eq_refl) as [E|E]; [exact E|discriminate].
  Qed.
End Roundtrip.
Section Kinds.
  Context (convert : list nat -> Z -> option Z) (once : forall size, convert [] size = Some 1%Z).
Theorem C122_integers (D D0 : list (list Z)) r : length D0 = length D -> read_dense int_single int_elem convert None D0 (contents (write_dense show_int 0 D) ++ r) = Some (D, ch ">" :: r).
  Proof. apply C122_variable; [exact once|]. apply Forall_forall. intros d _. apply Forall_forall. intros z _. apply int_readable. Qed.
Theorem C122_bytes (D D0 : list (list nat)) r : Forall (Forall (fun c => c < 256)) D -> length D0 = length D -> read_dense bulk_single bulk_elem convert None D0 (contents (write_dense char_to_hex 0 D) ++ r) = Some (D, ch ">" :: r).
  Proof. intros F. apply C122_variable; [exact once|]. eapply Forall_impl; [|exact F]. intros d Fd. eapply Forall_impl; [|exact Fd]. intros c. apply byte_readable. Qed.
  (** types and numbers of the elements referred to; an invalid reference is (NONE,0) *)
Theorem C122_references (D D0 : list (list (Z * Z))) r : Forall (Forall (fun x => In (fst x) [NODE; EDGE; FACE; CELL; ESET; MESH] \/ x = (NONE, 0%Z))) D -> length D0 = length D ->
    read_dense ref_single ref_elem convert None D0 (contents (write_dense show_reference 0 D) ++ r) = Some (D, ch ">" :: r).
  Proof. intros F. apply C122_variable; [exact once|]. eapply Forall_impl; [|exact F]. intros d Fd. eapply Forall_impl; [|exact Fd]. intros c. apply ref_readable. Qed.
End Kinds.
Example C122_nonvacuous :
  contents (write_sparse show_int 0 0 [Some [1; 2]; None; Some [-3]; Some []]%Z) = newline ++ str "0 {1,2} 2 -3 " ++ newline ++ str "]]>" /\
  read_sparse int_single int_elem conv number_index None (repeat None 4) (contents (write_sparse show_int 0 0 [Some [1; 2]; None; Some [-3]; Some []]%Z)) = Some ([Some [1; 2]; None; Some [-3]; None]%Z, str ">") /\
  Forall (fun c => c < 256) [0; 10; 171; 255] /\ contents (write_dense char_to_hex 0 [[0; 10]; [171]; []; [255]]) = newline ++ str "{00,0A} AB  { } FF " ++ newline ++ str "]]>".
Proof. split; [reflexivity|]. split; [reflexivity|]. split; [repeat constructor|reflexivity]. Qed.

(** * C123: references *)
(** the reference to element number k of some type is read as the k-th element of this type *)
Theorem C123_reference {H : Type} (links : list (list H)) ty k l h : In (ty, l) (combine [NODE; EDGE; FACE; CELL; ESET] links) -> nth_error l k = Some h ->
  resolve links 0 (atoh (show_reference (ty, Z.of_nat k))) = Some h.
Proof.
  intros I E. assert (In ty [NODE; EDGE; FACE; CELL; ESET; MESH]) as J.
  { apply in_combine_l in I. cbn in *. tauto. }
  rewrite atoh_show by exact J. unfold resolve. cbn [fst snd]. rewrite Z.sub_0_r. replace (Z.of_nat k <? 0)%Z with false by (symmetry; apply Z.ltb_ge; lia). rewrite Nat2Z.id.
  assert (G : nth_error links (Z.to_nat (ElementNum ty)) = Some l).
  { clear E J. do 5 (destruct links as [|? links]; [cbn in I; repeat (destruct I as [I|I]; [injection I as <- <-; reflexivity|]); destruct I|]). cbn in I. repeat (destruct I as [I|I]; [injection I as <- <-; reflexivity|]). destruct I. }
  rewrite G. exact E.
Qed.
(** an invalid reference is read as a reference to the first node *)
Theorem C123_invalid_refuted {H : Type} (links : list (list H)) h nodes : resolve ((h :: nodes) :: links) 0 (atoh (show_reference (NONE, 0%Z))) = Some h.
Proof. reflexivity. Qed.
(** ... and without nodes, or for a reference to the mesh, there is no such element: access outside *)
Theorem C123_mesh_refuted {H : Type} (a b c d e : list H) : resolve [a; b; c; d; e] 0 (atoh (show_reference (MESH, 0%Z))) = None.
Proof. reflexivity. Qed.
(** data of sets by name: names in apostrophes work, names in quotes are taken for set number zero *)
Lemma find_name_ok w : forall names k j, nth_error names j = Some w -> (forall i, i < j -> nth_error names i <> Some w) -> find_name k names w = Some (Z.of_nat (k + j)).
Proof.
  induction names as [|n names IH]; intros k [|j] E U; try discriminate; cbn [nth_error] in E; cbn [find_name]; unfold text_eqb.
  - injection E as ->. destruct (list_eq_dec Nat.eq_dec w w); [|congruence]. rewrite Nat.add_0_r. reflexivity.
  - destruct (list_eq_dec Nat.eq_dec n w) as [X|X]; [exfalso; apply (U 0); [lia|cbn; congruence]|]. rewrite (IH (S k) j E); [f_equal; lia|]. intros i Hi. apply (U (S i)). lia.
Qed.
Theorem C123_set_name names name k : nth_error names k = Some name -> (forall i, i < k -> nth_error names i <> Some name) ->
  set_index names (ch "'" :: name ++ [ch "'"]) = Some (Z.of_nat k).
Proof.
  intros E U. unfold set_index. cbn [hd tl]. rewrite removelast_last. change (ch "'" =? apos) with true. replace (last (ch "'" :: name ++ [ch "'"]) 0) with (ch "'") by (rewrite app_comm_cons, last_last; reflexivity).
  change (ch "'" =? apos) with true. cbn [andb orb]. rewrite (find_name_ok name names 0 k E U). reflexivity.
Qed.
Theorem C123_quoted_set_name_refuted : set_index [str "wells"; str "faults"] (str """faults""") = Some 0%Z.
Proof. reflexivity. Qed.
Example C123_nonvacuous : show_reference (CELL, 12%Z) = str "Cell:12" /\ resolve [[10; 11]; []; [30]; [40; 41; 42]; [50]] 0 (atoh (str "Cell:2")) = Some 42 /\ set_index [str "wells"; str "faults"] (str "'faults'") = Some 1%Z.
Proof. repeat split; reflexivity. Qed.

(** * C124: variables and remote references *)
(** the value and the number of derivatives are kept; the derivatives are not: only places 2, 4, ... are
    set, from the derivatives 0, 1, ... *)
Theorem C124_variable {num : Type} (atof : list nat -> num) (show : num -> list nat) fresh x l :
  (forall y, atof (show y) = y /\ ~ In (ch ";") (show y) /\ no_space (show y)) ->
  exists es, atov atof fresh (show_variable show (x, l)) = Some (x, es) /\ length es = length l /\
    forall j, j < length l -> nth_error es j = if (2 <=? j) && Nat.even j then match nth_error l ((j - 2) / 2) with Some p => Some (fst p, Z.of_N (snd p)) | None => None end else Some fresh.
Proof. intros G. exact (atov_ok atof show G fresh x l). Qed.
(** two variables with the same value and number of derivatives, up to two, can not be told apart *)
Theorem C124_derivatives_refuted {num : Type} (atof : list nat -> num) (show : num -> list nat) fresh x l l' :
  (forall y, atof (show y) = y /\ ~ In (ch ";") (show y) /\ no_space (show y)) -> length l = length l' -> length l <= 2 ->
  atov atof fresh (show_variable show (x, l)) = atov atof fresh (show_variable show (x, l')).
Proof.
  intros G E L. destruct (C124_variable atof show fresh x l G) as (es & E1 & E2 & E3). destruct (C124_variable atof show fresh x l' G) as (es' & E1' & E2' & E3'). rewrite E1, E1'. do 2 f_equal.
  apply nth_error_ext. intros j. destruct (Nat.lt_ge_cases j (length l)) as [H|H].
  - rewrite E3, E3' by lia. replace (2 <=? j) with false by (symmetry; apply Nat.leb_gt; lia). reflexivity.
  - assert (X : nth_error es j = None) by (apply nth_error_None; lia). assert (Y : nth_error es' j = None) by (apply nth_error_None; lia). rewrite X, Y. reflexivity.
Qed.
(** every valid remote reference loses its type *)
Theorem C124_remote_refuted mesh ty p : ~ In (ch ":") mesh -> In ty [NODE; EDGE; FACE; CELL; ESET; MESH] -> atorh (show_remote mesh (ty, p)) = (mesh, (NONE, p)).
Proof. exact (atorh_show mesh ty p). Qed.
Example C124_nonvacuous : show_variable show_int (5, [(7, 3%N); (-8, 12%N); (9, 14%N)])%Z = str "(5;3;7;3;-8;12;9;14)" /\ atov atoi (0, 0)%Z (str "(5;3;7;3;-8;12;9;14)") = Some (5, [(0, 0); (0, 0); (7, 3)])%Z /\ show_remote (str "M") (CELL, 4%Z) = str "M:Cell:4".
Proof. repeat split; reflexivity. Qed.

(** * C125: real data and coordinates *)
Definition digits6 (x : R) : Prop := exists m e : Z, (Z.abs m < 10 ^ 6)%Z /\ x = (IZR m * bpow (Build_radix 10 eq_refl) e)%R.
(** numbers of at most six digits are kept *)
Theorem C125_six_digits x : is_double x -> digits6 x -> reread6 x = x.
Proof.
  intros (D & _) (m & e & B & E). unfold reread6, text_value. rewrite (round_generic radix10 (FLX_exp 6)).
  - apply round_generic; [apply valid_rnd_N|exact D].
  - apply valid_rnd_N.
  - apply generic_format_FLX. exists (Float radix10 m e); [exact E|exact B].
Qed.
(** the number in the file is off by at most five units of the seventh digit *)
Theorem C125_error x : (Rabs (text_value x - x) <= 5 / 1000000 * Rabs x)%R.
Proof.
  pose proof (relative_error_N_FLX (Build_radix 10 eq_refl) 6 eq_refl (fun n => negb (Z.even n)) x) as H. change (bpow (Build_radix 10 eq_refl) (-6 + 1)) with (/ IZR (Z.pow_pos 10 5))%R in H.
  unfold text_value, radix10. eapply Rle_trans; [exact H|]. apply Rmult_le_compat_r; [apply Rabs_pos|]. cbn. lra.
Qed.
Lemma near_million z : (1000000 <= z <= 1000004)%Z -> text_value (IZR z) = 1000000%R.
Proof.
  intros H. assert (Hr : (1000000 <= IZR z <= 1000004)%R) by (split; apply IZR_le; lia). unfold text_value, round.
  assert (M : mag radix10 (IZR z) = 7%Z :> Z). { apply mag_unique. rewrite Rabs_pos_eq by lra. change (bpow radix10 (7 - 1)) with 1000000%R. change (bpow radix10 7) with 10000000%R. lra. }
  assert (C : cexp radix10 (FLX_exp 6) (IZR z) = 1%Z) by (unfold cexp; rewrite M; reflexivity).
  unfold scaled_mantissa. rewrite C. change (bpow radix10 (- (1))) with (/ 10)%R.
  replace (ZnearestE (IZR z * / 10)) with 100000%Z; [unfold F2R; cbn; lra|]. symmetry. apply Znearest_imp. apply Rabs_def1; lra.
Qed.
Lemma million_double : is_double 1000000.
Proof.
  split.
  - apply generic_format_FLT. exists (Float radix2 1000000 0); [unfold F2R; cbn; lra|cbn; lia|cbn; lia].
  - rewrite Rabs_pos_eq by lra. apply Rlt_trans with (bpow radix2 20); [cbn; lra|apply bpow_lt; lia].
Qed.
(** coordinates in meters far from the origin: points four meters apart become the same point *)
Theorem C125_coordinates_refuted : exists x y, (y - x = 4)%R /\ is_double x /\ is_double y /\ reread6 x = reread6 y.
Proof.
  exists 1000000%R, 1000004%R. split; [lra|]. split; [exact million_double|]. split.
  - split.
    + apply generic_format_FLT. exists (Float radix2 1000004 0); [unfold F2R; cbn; lra|cbn; lia|cbn; lia].
    + rewrite Rabs_pos_eq by lra. apply Rlt_trans with (bpow radix2 20); [cbn; lra|apply bpow_lt; lia].
  - unfold reread6. rewrite !near_million by lia. reflexivity.
Qed.
Example C125_nonvacuous : digits6 123.25 /\ digits6 (-0.000875).
Proof.
  split; [exists 12325%Z, (-2)%Z|exists (-875)%Z, (-6)%Z]; (split; [cbn; lia|]); cbn; lra.
Qed.

Print Assumptions C120_words.
Print Assumptions C120_cut_off.
Print Assumptions C120_last_word_refuted.
Print Assumptions C120_brackets_refuted.
Print Assumptions C120_nested_refuted.
Print Assumptions C120_backslash_refuted.
Print Assumptions C121_one_value.
Print Assumptions C121_braces.
Print Assumptions C121_fixed.
Print Assumptions C121_variable.
Print Assumptions C121_no_braces_refuted.
Print Assumptions C121_too_many_refuted.
Print Assumptions C121_star_in_quotes_refuted.
Print Assumptions C121_open_brace_refuted.
Print Assumptions C122_variable.
Print Assumptions C122_fixed.
Print Assumptions C122_sparse.
Print Assumptions C122_integers.
Print Assumptions C122_bytes.
Print Assumptions C122_references.
Print Assumptions C123_reference.
Print Assumptions C123_invalid_refuted.
Print Assumptions C123_mesh_refuted.
Print Assumptions C123_set_name.
Print Assumptions C123_quoted_set_name_refuted.
Print Assumptions C124_variable.
Print Assumptions C124_derivatives_refuted.
Print Assumptions C124_remote_refuted.
Print Assumptions C125_six_digits.
Print Assumptions C125_error.
Print Assumptions C125_coordinates_refuted.
