(** Proofs about packing and unpacking tag data. *)
From Coq Require Import List Bool Arith ZArith NArith Lia.
From Verif Require Import Util Handle_Model Handle_Proofs Pack_Model Pack_Spec.
Import ListNotations.
Open Scope nat_scope.

Lemma enc_len : forall w x, length (enc w x) = w.
Proof. induction w; intros; simpl; auto. Qed.
Lemma enc_bytes : forall w x, bytes_ok (enc w x).
Proof.
  induction w; intros; simpl; constructor; auto.
  - apply N.mod_lt; lia.
  - apply IHw.
Qed.
Lemma dec_enc : forall w x, fits w x -> dec (enc w x) = x.
Proof.
  unfold fits. induction w; intros x H.
  - simpl in *. change (256 ^ 0)%N with 1%N in H. unfold dec; simpl. lia.
  - rewrite Nat2N.inj_succ, N.pow_succ_r' in H. cbn [enc].
    unfold dec. cbn [fold_right]. fold (dec (enc w (x / 256))).
    rewrite IHw.
    + pose proof (N.div_mod x 256). lia.
    + apply N.div_lt_upper_bound; lia.
Qed.
Lemma dec_app_len : forall w x r, fits w x -> dec (firstn w (enc w x ++ r)) = x.
Proof.
  intros. rewrite firstn_app, enc_len, Nat.sub_diag, firstn_O, app_nil_r.
  rewrite firstn_all2 by (rewrite enc_len; lia). now apply dec_enc.
Qed.
Lemma skipn_enc : forall w x r, skipn w (enc w x ++ r) = r.
Proof.
  intros. rewrite skipn_app, enc_len, Nat.sub_diag.
  rewrite skipn_all2 by (rewrite enc_len; lia). reflexivity.
Qed.
Lemma encs_len : forall w l, length (flat_map (enc w) l) = w * length l.
Proof. induction l; simpl; [lia|]. rewrite app_length, enc_len, IHl. lia. Qed.

Lemma get_encs : forall w xs rest, Forall (fits w) xs ->
  get w (length xs) (flat_map (enc w) xs ++ rest) = Some xs.
Proof.
  induction xs; intros rest H; [reflexivity|]. inversion H; subst.
  cbn [length get flat_map]. rewrite <- app_assoc.
  rewrite app_length, enc_len.
  destruct (Nat.ltb_spec (w + length (flat_map (enc w) xs ++ rest)) w); [lia|].
  rewrite skipn_enc, IHxs, dec_app_len by assumption. reflexivity.
Qed.
Lemma get_one : forall w x rest, fits w x -> get w 1 (enc w x ++ rest) = Some [x].
Proof.
  intros. pose proof (get_encs w [x] rest) as G. cbn [flat_map length] in G.
  rewrite app_nil_r in G. apply G. auto.
Qed.

Lemma fits1 : forall x, (x < 256)%N -> fits 1 x.
Proof. intros. unfold fits. exact H. Qed.
Lemma fits_le : forall w x y, fits w y -> (x <= y)%N -> fits w x.
Proof. unfold fits; intros; lia. Qed.

Lemma seq6 : forall i, In i (seq 0 6) -> i < 6.
Proof. intros i H. apply in_seq in H. lia. Qed.

Section S.
Variables we pad limit : nat.

Lemma chunk_pos : forall w n, 0 < w <= limit -> 0 < n -> 0 < chunk_len limit w n.
Proof.
  intros. unfold chunk_len. apply Nat.div_str_pos. split; [lia|].
  apply Nat.min_glb; [nia|lia].
Qed.

Lemma pack_loop_spec : forall fuel w c offset data, 0 < c -> offset <= length data ->
  length data - offset < fuel ->
  pack_loop fuel w c offset data = flat_map (enc w) (skipn offset data).
Proof.
  induction fuel; intros w c offset data Hc Ho Hf; [lia|]. cbn [pack_loop].
  destruct (Nat.eqb_spec offset (length data)) as [->|N].
  - rewrite skipn_all. reflexivity.
  - rewrite IHfuel by lia. rewrite <- flat_map_app. f_equal.
    set (k := Nat.min c (length data - offset)).
    rewrite <- (firstn_skipn k (skipn offset data)) at 2. f_equal.
    rewrite (Nat.add_comm offset k).
    clearbody k. clear. revert data. induction offset; intros; simpl.
    + rewrite Nat.add_0_r. reflexivity.
    + rewrite Nat.add_succ_r. destruct data; [now rewrite !skipn_nil|]. simpl. apply IHoffset.
Qed.
Lemma pack_array_spec : forall w data, 0 < w <= limit ->
  pack_array limit w data = flat_map (enc w) data.
Proof.
  intros w data H. unfold pack_array. destruct data as [|x r]; [reflexivity|].
  cbn [length Nat.eqb]. rewrite pack_loop_spec; [reflexivity| |lia|simpl; lia].
  apply chunk_pos; lia.
Qed.
Lemma pack_vector_spec : forall w data, 0 < w <= limit ->
  pack_vector limit w data = enc 8 (N.of_nat (length data)) ++ flat_map (enc w) data.
Proof.
  intros w data H. unfold pack_vector. destruct (Nat.eqb_spec (length data) 0) as [E|E].
  - apply length_zero_iff_nil in E. subst. reflexivity.
  - now rewrite pack_array_spec.
Qed.

Lemma skipn_pre : forall A (p l : list A) k, k = length p -> skipn k (p ++ l) = l.
Proof. intros; subst. rewrite skipn_app, skipn_all, Nat.sub_diag. reflexivity. Qed.
Lemma firstn_pre : forall A (p l : list A) k, k = length p -> firstn k (p ++ l) = p.
Proof. intros; subst. rewrite firstn_app, firstn_all, Nat.sub_diag, firstn_O, app_nil_r. reflexivity. Qed.

Lemma unpack_loop_spec : forall fuel w c offset xs pre rest n, 0 < c ->
  n = offset + length xs -> length xs < fuel -> Forall (fits w) xs ->
  unpack_loop fuel w c offset n (pre ++ flat_map (enc w) xs ++ rest) (length pre) =
  Some (xs, length pre + w * length xs).
Proof.
  induction fuel; intros w c offset xs pre rest n Hc Hn Hf Hx; [lia|]. cbn [unpack_loop].
  destruct (Nat.eqb_spec offset n) as [E|N].
  - destruct xs; [|simpl in Hn; lia]. simpl. f_equal. f_equal. lia.
  - set (k := Nat.min c (n - offset)). rewrite skipn_pre by reflexivity.
    assert (k <= length xs) as Hk by (unfold k; lia).
    rewrite <- (firstn_skipn k xs) at 1.
    rewrite <- (firstn_skipn k xs), Forall_app in Hx. destruct Hx as [H1 H2].
    rewrite flat_map_app, <- app_assoc.
    assert (length (firstn k xs) = k) as Lk by (rewrite firstn_length; lia).
    rewrite <- Lk at 1. rewrite get_encs by assumption.
    replace (pre ++ flat_map (enc w) xs ++ rest)
      with ((pre ++ flat_map (enc w) (firstn k xs)) ++ flat_map (enc w) (skipn k xs) ++ rest)
      by (rewrite <- app_assoc; f_equal; rewrite app_assoc, <- flat_map_app, firstn_skipn; reflexivity).
    replace (length pre + k * w) with (length (pre ++ flat_map (enc w) (firstn k xs)))
      by (rewrite app_length, encs_len, Lk; lia).
    rewrite IHfuel; auto.
    + rewrite firstn_skipn. f_equal. f_equal. rewrite app_length, encs_len, Lk, skipn_length. nia.
    + rewrite skipn_length. lia.
    + rewrite skipn_length. unfold k. lia.
Qed.
Lemma unpack_array_spec : forall w xs pre rest n pos, 0 < w <= limit -> Forall (fits w) xs ->
  n = length xs -> pos = length pre ->
  unpack_array limit w n (pre ++ flat_map (enc w) xs ++ rest) pos = Some (xs, pos + w * length xs).
Proof.
  intros; subst. unfold unpack_array. destruct xs as [|x r].
  - cbn. f_equal. f_equal. lia.
  - cbn [length Nat.eqb]. apply unpack_loop_spec; auto; simpl; try lia.
    apply chunk_pos; lia.
Qed.
Lemma unpack_vector_spec : forall w xs pre rest pos, 0 < w <= limit -> Forall (fits w) xs ->
  fits 8 (N.of_nat (length xs)) -> pos = length pre ->
  unpack_vector limit w (pre ++ pack_vector limit w xs ++ rest) pos =
  Some (xs, pos + length (pack_vector limit w xs)).
Proof.
  intros w xs pre rest pos Hw Hx Hf ->. unfold unpack_vector. rewrite skipn_pre by reflexivity.
  rewrite pack_vector_spec, <- app_assoc, get_one by assumption.
  rewrite Nat2N.id.
  replace (pre ++ enc 8 (N.of_nat (length xs)) ++ flat_map (enc w) xs ++ rest)
    with ((pre ++ enc 8 (N.of_nat (length xs))) ++ flat_map (enc w) xs ++ rest)
    by (now rewrite <- app_assoc).
  rewrite unpack_array_spec; auto.
  - f_equal. f_equal. rewrite app_length, enc_len, encs_len. lia.
  - rewrite app_length, enc_len. reflexivity.
Qed.

Lemma size_loop_spec : forall fuel w c offset n, 0 < c -> offset <= n -> n - offset < fuel ->
  size_loop fuel w c offset n = w * (n - offset).
Proof.
  induction fuel; intros; [lia|]. cbn [size_loop].
  destruct (Nat.eqb_spec offset n); [subst; nia|]. rewrite IHfuel by lia. nia.
Qed.
Lemma array_size_spec : forall w n, 0 < w <= limit -> pack_array_size limit w n = w * n.
Proof.
  intros. unfold pack_array_size. destruct (Nat.eqb_spec n 0); [subst; lia|].
  rewrite size_loop_spec; try lia. apply chunk_pos; lia.
Qed.
Lemma vector_size_spec : forall w n, 0 < w <= limit -> pack_vector_size limit w n = 8 + w * n.
Proof.
  intros. unfold pack_vector_size. destruct (Nat.eqb_spec n 0); [subst; lia|].
  rewrite array_size_spec; lia.
Qed.

(** ** Entries *)
Hypothesis Hwe : layout (hbits we).
Hypothesis Hlim : 8 <= limit.

Lemma we_cases : we = 4 \/ we = 8.
Proof. unfold layout, hbits in Hwe. lia. Qed.
Lemma we_lim : 0 < we <= limit.
Proof. destruct we_cases; lia. Qed.
Lemma fits_hbits : forall z, (0 <= z < 2 ^ hbits we)%Z -> fits we (Z.to_N z).
Proof.
  intros z H. unfold fits. unfold hbits in H.
  destruct we_cases as [E|E]; rewrite E in *.
  - change (2 ^ (8 * Z.of_nat 4))%Z with (Z.of_N (256 ^ N.of_nat 4)) in H. lia.
  - change (2 ^ (8 * Z.of_nat 8))%Z with (Z.of_N (256 ^ N.of_nat 8)) in H. lia.
Qed.

Lemma entry_len : forall i v, length v = 8 -> length (entry we pad i v) = ew we pad.
Proof. intros. unfold entry, ew. rewrite !app_length, enc_len, repeat_length. lia. Qed.
Lemma row_len : forall row, Forall (fun e : N * list N => length (snd e) = 8) row ->
  length (flat_map (fun e => entry we pad (fst e) (snd e)) row) = length row * ew we pad.
Proof.
  induction row; intros H; [reflexivity|]. inversion H; subst. cbn [flat_map length].
  rewrite app_length, IHrow, entry_len by assumption. lia.
Qed.
Definition vlen (t : tagd) (v : value) : nat :=
  match tkind t with Var => record_size v * ew we pad | _ => tbytes t end.
Lemma mem_val_len : forall t v, wf_val we t v -> length (mem_val we pad v) = vlen t v.
Proof.
  intros t v H. unfold wf_val, vlen in *. destruct (tkind t), v; try contradiction.
  - tauto.
  - cbn. rewrite enc_len. auto.
  - destruct H as (A & B & C & D). cbn [mem_val record_size].
    rewrite app_length, entry_len, row_len by (assumption || (eapply Forall_impl; [|exact D]; simpl; tauto)).
    lia.
Qed.

Section Both.
Variable valid : Z -> bool.
Variable ppos : Z -> option Z.
Variable unpacked : list (list Z).
Hypothesis Hrefs : refs_ok we valid ppos unpacked.
Let trh := tr we valid ppos unpacked.
Let trv := tr_val we valid ppos unpacked.

(** what is written *)
Definition pk_val (v : value) : value := match v with VR h => VR (pack_ref we valid ppos h) | _ => v end.
Definition pk (vs : list value) : list N := mem we pad (map pk_val vs).
Definition rk (vs : list value) : list N := mem we pad (map trv vs).

Lemma pk_wf : forall t v, wf_val we t v -> wf_val we t (pk_val v).
Proof. intros t v H. unfold wf_val in *. destruct (tkind t), v; cbn; tauto. Qed.
Lemma tr_wf : forall t v, wf_val we t v -> wf_val we t (trv v).
Proof. intros t v H. unfold wf_val in *. destruct (tkind t), v; cbn; tauto. Qed.
Lemma pk_vlen : forall t v, vlen t (pk_val v) = vlen t v.
Proof. intros. unfold vlen. destruct (tkind t), v; reflexivity. Qed.
Lemma tr_vlen : forall t v, vlen t (trv v) = vlen t v.
Proof. intros. unfold vlen. destruct (tkind t), v; reflexivity. Qed.

Lemma capacity_sum : forall t vs,
  capacity we pad t vs = fold_right (fun v a => vlen t v + a) 0 vs.
Proof.
  intros t vs. unfold capacity, vlen. destruct (tkind t); induction vs; cbn [fold_right length]; lia.
Qed.
Lemma mem_len : forall t vs, Forall (wf_val we t) vs -> length (mem we pad vs) = capacity we pad t vs.
Proof.
  intros t vs H. rewrite capacity_sum. induction H; [reflexivity|].
  cbn [mem flat_map fold_right]. rewrite app_length, (mem_val_len t) by assumption.
  unfold mem in IHForall. lia.
Qed.
Lemma pk_len : forall t vs, Forall (wf_val we t) vs -> length (pk vs) = capacity we pad t vs.
Proof.
  intros t vs H. unfold pk. rewrite (mem_len t).
  - rewrite !capacity_sum. clear H. induction vs; [reflexivity|]. cbn [map fold_right].
    rewrite pk_vlen. lia.
  - apply Forall_map. eapply Forall_impl; [|exact H]. intros; now apply pk_wf.
Qed.
Lemma rk_len : forall t vs, Forall (wf_val we t) vs -> length (rk vs) = capacity we pad t vs.
Proof.
  intros t vs H. unfold rk. rewrite (mem_len t).
  - rewrite !capacity_sum. clear H. induction vs; [reflexivity|]. cbn [map fold_right].
    rewrite tr_vlen. lia.
  - apply Forall_map. eapply Forall_impl; [|exact H]. intros; now apply tr_wf.
Qed.

Lemma pk_cons : forall v r, pk (v :: r) = mem_val we pad (pk_val v) ++ pk r.
Proof. reflexivity. Qed.
Lemma rk_cons : forall v r, rk (v :: r) = mem_val we pad (trv v) ++ rk r.
Proof. reflexivity. Qed.
Lemma put_values_spec : forall t vs, Forall (wf_val we t) vs ->
  put_values we pad valid ppos t vs = Some (pk vs).
Proof.
  intros t vs H. induction H as [|v r Hv Hr IH]; [reflexivity|].
  cbn [put_values]. rewrite IH. unfold put_value, wf_val in *.
  unfold pk. cbn [map mem flat_map].
  destruct (tkind t), v; try contradiction; reflexivity.
Qed.
Lemma append_data_spec : forall t vs out, Forall (wf_val we t) vs ->
  append_data we pad valid ppos t vs out = Some (out ++ pk vs).
Proof.
  intros t vs out H. unfold append_data. destruct vs as [|v r].
  - cbn. rewrite app_nil_r. reflexivity.
  - cbn [length Nat.eqb]. rewrite put_values_spec, (pk_len t) by assumption.
    rewrite Nat.eqb_refl. reflexivity.
Qed.

(** ** The packed lists *)
Variable sel : Z -> bool.
Variable data : Z -> option (list value).

Definition szs (t : tagd) (vs : list value) : list N :=
  match tsize t with None => [N.of_nat (length vs)] | Some _ => [] end.
Fixpoint chosen (j : nat) (es : list Z) : list (nat * list value) :=
  match es with
  | [] => []
  | e :: r =>
      match (if sel e then data e else None) with
      | Some vs => (j, vs) :: chosen (S j) r
      | None => chosen (S j) r
      end
  end.
Definition idx (t : tagd) (l : list (nat * list value)) : list N :=
  flat_map (fun p => N.of_nat (fst p) :: szs t (snd p)) l.
Definition dsz (t : tagd) (l : list (nat * list value)) : list N :=
  flat_map (fun p => szs t (snd p)) l.
Definition dpk (l : list (nat * list value)) : list N := flat_map (fun p => pk (snd p)) l.

Lemma push_size_spec : forall t vs sizes, push_size t (length vs) sizes = sizes ++ szs t vs.
Proof. intros. unfold push_size, szs. destruct (tsize t); [now rewrite app_nil_r|reflexivity]. Qed.

Definition data_ok (t : tagd) (es : list Z) : Prop :=
  forall e, In e es -> sel e = true -> forall vs, data e = Some vs -> wf_vals we t vs.

Lemma pack_sparse_spec : forall t es pre c mid out j, data_ok t es ->
  pack_sparse we pad valid ppos sel data t (length pre) j es (pre ++ c :: mid) out =
  Some (pre ++ (c + N.of_nat (length (chosen j es)))%N :: mid ++ idx t (chosen j es), out ++ dpk (chosen j es)).
Proof.
  intros t. induction es as [|e r IH]; intros pre c mid out j H.
  - cbn. rewrite N.add_0_r, !app_nil_r. reflexivity.
  - assert (data_ok t r) as Hr by (intros x Hx; apply H; now right).
    cbn [pack_sparse chosen]. destruct (sel e) eqn:Es; [|apply IH; auto].
    destruct (data e) as [vs|] eqn:Ed; [|apply IH; auto].
    assert (wf_vals we t vs) as [W _] by (apply (H e); auto; now left).
    cbv zeta. rewrite append_data_spec by assumption. rewrite push_size_spec.
    rewrite <- app_assoc. cbn [app].
    rewrite app_nth2, Nat.sub_diag by lia. cbn [nth].
    rewrite lset_app_r by lia. rewrite Nat.sub_diag. cbn [lset].
    rewrite <- app_assoc. cbn [app].
    rewrite IH by assumption. cbn [length idx dpk flat_map fst snd]. f_equal. f_equal.
    + f_equal. f_equal; [lia|]. unfold idx. rewrite <- !app_assoc. cbn [app]. reflexivity.
    + rewrite <- app_assoc. reflexivity.
Qed.
Lemma pack_dense_spec : forall t es sizes out j, data_ok t es ->
  (forall e, In e es -> sel e = true -> data e <> None) ->
  pack_dense we pad valid ppos sel data t es sizes out =
  Some (sizes ++ dsz t (chosen j es), out ++ dpk (chosen j es)).
Proof.
  intros t. induction es as [|e r IH]; intros sizes out j H Hd.
  - cbn. rewrite !app_nil_r. reflexivity.
  - assert (data_ok t r) as Hr by (intros x Hx; apply H; now right).
    assert (forall e, In e r -> sel e = true -> data e <> None) as Hdr by (intros; apply Hd; auto; now right).
    cbn [pack_dense chosen]. destruct (sel e) eqn:Es; [|apply IH; auto].
    destruct (data e) as [vs|] eqn:Ed.
    + assert (wf_vals we t vs) as [W _] by (apply (H e); auto; now left).
      rewrite append_data_spec by assumption. rewrite push_size_spec.
      rewrite (IH _ _ (S j)) by assumption. cbn [dsz dpk flat_map fst snd]. rewrite <- !app_assoc. reflexivity.
    + exfalso. apply (Hd e); auto. now left.
Qed.

(** ** Reading *)
Variable St : Type.
Variable rsel : Z -> bool.
Variable op : nat -> St -> Z -> list N -> nat -> option St.
Variable create : nat -> nat -> bool -> St -> St.
Let runE := run we pad St op create.

Lemma run_app : forall a b s, runE (a ++ b) s = match runE a s with Some s' => runE b s' | None => None end.
Proof.
  induction a as [|ev r IH]; intros; [reflexivity|]. cbn [app]. unfold runE in *. cbn [run].
  destruct ev; [apply IH|]. destruct (op _ _ _ _ _); [apply IH|reflexivity].
Qed.

Lemma pack_ref_spec : forall h,
  fits we (Z.to_N (pack_ref we valid ppos h)) /\
  unpack_ref we unpacked (Z.of_N (Z.to_N (pack_ref we valid ppos h))) = Some (trh h) /\
  (0 <= trh h < 2 ^ hbits we)%Z.
Proof.
  intros h. unfold pack_ref, trh, tr.
  assert (0 < 2 ^ hbits we)%Z as P by (apply Z.pow_pos_nonneg; [lia|]; unfold hbits; lia).
  destruct (valid h) eqn:Ev.
  2:{ split; [|split; [|lia]].
      - apply fits_hbits. unfold InvalidHandle. lia.
      - reflexivity. }
  destruct (ppos h) as [p|] eqn:Ep.
  2:{ split; [|split; [|lia]].
      - apply fits_hbits. unfold InvalidHandle. lia.
      - reflexivity. }
  destruct (Hrefs h p Ev Ep) as (A & B & C & D & F).
  unfold tr in F. rewrite Ev, Ep in F.
  rewrite compose_type_num.
  change (GetHandleElementType (hbits we) h) with (ElementTypeFromDim (GetHandleElementNum (hbits we) h)).
  destruct (num_type _ A) as [_ En]. rewrite En.
  destruct (compose_roundtrip_num (hbits we) _ p Hwe A B C) as (X & Y & W).
  pose proof (compose_range (hbits we) (GetHandleElementNum (hbits we) h) p Hwe) as R.
  split; [|split; [|exact F]].
  - now apply fits_hbits.
  - rewrite Z2N.id by lia. unfold unpack_ref.
    destruct (Z.eqb_spec (ComposeHandleNum (hbits we) (GetHandleElementNum (hbits we) h) p) InvalidHandle); [contradiction|].
    rewrite X, Y.
    destruct (nth_error unpacked (Z.to_nat (GetHandleElementNum (hbits we) h))) as [l|] eqn:El.
    + rewrite (nth_error_nth _ _ [] El) in *.
      rewrite (nth_error_nth' l 0%Z D). reflexivity.
    + apply nth_error_None in El. rewrite nth_overflow in D by assumption. simpl in D. lia.
Qed.

Lemma convert_spec : forall t vs rest, tkind t = Ref -> Forall (wf_val we t) vs ->
  convert_refs we unpacked t (length vs) (pk vs ++ rest) = Some (rk vs ++ rest).
Proof.
  intros t vs rest K H. induction H as [|v r Hv Hr IH]; [reflexivity|].
  unfold wf_val in Hv. rewrite K in Hv. destruct v as [|h|]; try contradiction.
  cbn [length convert_refs]. rewrite pk_cons, rk_cons, <- !app_assoc. cbn [pk_val mem_val].
  destruct (pack_ref_spec h) as (A & B & C).
  rewrite get_one by assumption. rewrite B, Hv, skipn_enc, IH.
  change (mem_val we pad (trv (VR h))) with (enc we (Z.to_N (trh h))).
  f_equal. f_equal.
  rewrite firstn_pre by (now rewrite enc_len). rewrite skipn_all2 by (rewrite enc_len; lia). reflexivity.
Qed.

Lemma var_entries_spec : forall t vs pre rest ret, tkind t = Var -> Forall (wf_val we t) vs ->
  ret * ew we pad = length pre ->
  var_entries we pad (length vs) ret (pre ++ pk vs ++ rest) =
  Some (ret + fold_right (fun v a => record_size v + a) 0 vs).
Proof.
  intros t vs pre rest ret K H. revert pre ret. induction H as [|v r Hv Hr IH]; intros pre ret E.
  - cbn. f_equal. lia.
  - pose proof (mem_val_len t v Hv) as L. unfold vlen in L. rewrite K in L.
    unfold wf_val in Hv. rewrite K in Hv. destruct v as [| |x row]; try contradiction.
    destruct Hv as (A & B & C & D).
    cbn [length var_entries]. rewrite skipn_pre by assumption.
    rewrite pk_cons. cbn [pk_val].
    rewrite <- app_assoc. cbn [record_size] in L.
    assert (exists tl, mem_val we pad (VV x row) ++ pk r ++ rest = enc we (N.of_nat (length row)) ++ tl) as [tl T].
    { cbn [mem_val]. unfold entry. rewrite <- !app_assoc. eexists; reflexivity. }
    rewrite T at 1. rewrite get_one by assumption. rewrite Nat2N.id.
    replace (pre ++ mem_val we pad (VV x row) ++ pk r ++ rest)
      with ((pre ++ mem_val we pad (VV x row)) ++ pk r ++ rest) by (now rewrite <- app_assoc).
    rewrite IH.
    + cbn [fold_right record_size]. f_equal. lia.
    + rewrite app_length, L. lia.
Qed.

Lemma no_ref_same : forall t vs, tkind t <> Ref -> Forall (wf_val we t) vs -> rk vs = pk vs.
Proof.
  intros t vs K H. unfold rk, pk. f_equal. induction H as [|v r Hv Hr IH]; [reflexivity|].
  cbn [map]. rewrite IH. f_equal. unfold wf_val in Hv. destruct (tkind t), v; try contradiction; reflexivity.
Qed.

Lemma capacity_spec : forall t vs rest, Forall (wf_val we t) vs ->
  data_capacity we pad t (length vs) (rk vs ++ rest) = Some (capacity we pad t vs).
Proof.
  intros t vs rest H. unfold data_capacity, capacity. destruct (tkind t) eqn:K; try reflexivity.
  rewrite (no_ref_same t vs) by (assumption || congruence).
  pose proof (var_entries_spec t vs [] rest 0 K H eq_refl) as V. cbn [app] in V. rewrite V. reflexivity.
Qed.

Definition deliv (name : nat) (f : Z) (vs : list value) : list event :=
  match vs with [] => [] | _ => [EDeliver name f (map trv vs)] end.

Lemma unpack_one_spec : forall t f vs kpre krest dpre drest s,
  wf_vals we t vs ->
  unpack_one we pad St unpacked op t f (kpre ++ szs t vs ++ krest) (dpre ++ pk vs ++ drest)
     (length kpre) (length dpre) s =
  match runE (deliv (tname t) f vs) s with
  | Some s' => Some (length kpre + length (szs t vs), length dpre + length (pk vs),
                     dpre ++ rk vs ++ drest, s')
  | None => None
  end.
Proof.
  intros t f vs kpre krest dpre drest s [W Z0]. unfold unpack_one.
  assert ((match tsize t with
         | Some n => Some (n, length kpre)
         | None => match nth_error (kpre ++ szs t vs ++ krest) (length kpre) with
                   | Some n => Some (N.to_nat n, S (length kpre)) | None => None end
         end) = Some (length vs, length kpre + length (szs t vs))) as ->.
  { unfold szs. destruct (tsize t) as [n|].
    - rewrite Z0. simpl. f_equal. f_equal. lia.
    - rewrite nth_error_app2, Nat.sub_diag by lia. cbn. rewrite Nat2N.id. f_equal. f_equal. lia. }
  assert ((match tkind t with
             | Ref => match convert_refs we unpacked t (length vs) (skipn (length dpre) (dpre ++ pk vs ++ drest)) with
                      | Some l => Some (firstn (length dpre) (dpre ++ pk vs ++ drest) ++ l)
                      | None => None
                      end
             | _ => Some (dpre ++ pk vs ++ drest)
             end) = Some (dpre ++ rk vs ++ drest)) as ->.
  { destruct (tkind t) eqn:K; try (rewrite (no_ref_same t vs) by (assumption || congruence); reflexivity).
    rewrite skipn_pre, firstn_pre by reflexivity. rewrite convert_spec by assumption. reflexivity. }
  destruct vs as [|v r].
  { unfold runE, pk, rk, deliv. simpl. repeat f_equal; lia. }
  cbn [length Nat.eqb]. change (S (length r)) with (length (v :: r)).
  rewrite skipn_pre by reflexivity. rewrite capacity_spec by assumption.
  rewrite <- (rk_len t (v :: r)) by assumption.
  assert (length dpre + length (rk (v :: r)) <=? length (dpre ++ rk (v :: r) ++ drest) = true) as ->.
  { apply Nat.leb_le. rewrite !app_length. lia. }
  rewrite firstn_pre by reflexivity.
  unfold runE, deliv. cbn [run]. rewrite map_length. fold (rk (v :: r)).
  destruct (op _ _ _ _ _); [|reflexivity].
  rewrite (rk_len t (v :: r)), (pk_len t (v :: r)) by assumption. reflexivity.
Qed.

Lemma quad_eq : forall A B C D (a a' : A) (b b' : B) (c c' : C) (d : D),
  a = a' -> b = b' -> c = c' -> Some (a, b, c, d) = Some (a', b', c', d).
Proof. intros; subst; reflexivity. Qed.
Lemma deliver_cons : forall name e f es fs,
  deliver trv sel data name (e :: es) (f :: fs) =
  match (if sel e then data e else None) with
  | Some vs => deliv name f vs
  | None => []
  end ++ deliver trv sel data name es fs.
Proof.
  intros. cbn [deliver]. destruct (sel e); [|reflexivity]. destruct (data e) as [[|]|]; reflexivity.
Qed.

Lemma unpack_sparse_spec : forall t es fs fpre kpre krest dpre drest s,
  Forall2 (fun e f => sel e = rsel f) es fs -> data_ok t es ->
  unpack_sparse we pad St rsel unpacked op t (length (chosen (length fpre) es)) (fpre ++ fs)
    (kpre ++ idx t (chosen (length fpre) es) ++ krest) (dpre ++ dpk (chosen (length fpre) es) ++ drest)
    (length kpre) (length dpre) s =
  match runE (deliver trv sel data (tname t) es fs) s with
  | Some s' => Some (length kpre + length (idx t (chosen (length fpre) es)),
                     length dpre + length (dpk (chosen (length fpre) es)),
                     dpre ++ flat_map (fun p => rk (snd p)) (chosen (length fpre) es) ++ drest, s')
  | None => None
  end.
Proof.
  intros t es fs fpre kpre krest dpre drest s HF. revert fpre kpre dpre s.
  induction HF as [|e f es fs Hef HF IH]; intros fpre kpre dpre s HD.
  - unfold runE. cbn. apply quad_eq; auto.
  - assert (data_ok t es) as HDr by (intros x Hx; apply HD; now right).
    rewrite deliver_cons. cbn [chosen].
    specialize (IH (fpre ++ [f])). rewrite app_length in IH. cbn [length] in IH.
    replace (length fpre + 1) with (S (length fpre)) in IH by lia.
    rewrite <- app_assoc in IH. cbn [app] in IH.
    destruct (sel e) eqn:Es; [|apply IH; assumption].
    destruct (data e) as [vs|] eqn:Ed; [|apply IH; assumption].
    assert (wf_vals we t vs) as W by (apply (HD e); auto; now left).
    cbn [length unpack_sparse idx dpk flat_map fst snd].
    fold (idx t (chosen (S (length fpre)) es)). fold (dpk (chosen (S (length fpre)) es)).
    rewrite nth_error_app2, Nat.sub_diag by lia. cbn [nth_error app].
    rewrite Nat2N.id. rewrite nth_error_app2, Nat.sub_diag by lia. cbn [nth_error].
    rewrite <- Hef.
    replace (kpre ++ N.of_nat (length fpre) :: (szs t vs ++ idx t (chosen (S (length fpre)) es)) ++ krest)
      with ((kpre ++ [N.of_nat (length fpre)]) ++ szs t vs ++ (idx t (chosen (S (length fpre)) es) ++ krest))
      by (rewrite <- !app_assoc; reflexivity).
    replace (S (length kpre)) with (length (kpre ++ [N.of_nat (length fpre)]))
      by (rewrite app_length; cbn [length]; lia).
    rewrite <- (app_assoc (pk vs)). rewrite unpack_one_spec by assumption. rewrite run_app.
    destruct (runE (deliv (tname t) f vs) s) as [s1|]; [|reflexivity].
    replace ((kpre ++ [N.of_nat (length fpre)]) ++ szs t vs ++ idx t (chosen (S (length fpre)) es) ++ krest)
      with ((kpre ++ N.of_nat (length fpre) :: szs t vs) ++ idx t (chosen (S (length fpre)) es) ++ krest)
      by (rewrite <- !app_assoc; reflexivity).
    rewrite (app_assoc dpre (rk vs)).
    replace (length dpre + length (pk vs)) with (length (dpre ++ rk vs))
      by (rewrite app_length, (rk_len t), (pk_len t) by apply W; lia).
    replace (length (kpre ++ [N.of_nat (length fpre)]) + length (szs t vs))
      with (length (kpre ++ N.of_nat (length fpre) :: szs t vs))
      by (rewrite !app_length; cbn [length]; lia).
    rewrite IH by assumption.
    destruct (runE (deliver trv sel data (tname t) es fs) s1) as [s2|]; [|reflexivity].
    apply quad_eq.
    + rewrite !app_length. cbn [length]. rewrite app_length. lia.
    + rewrite !app_length, (rk_len t), (pk_len t) by apply W. lia.
    + rewrite <- !app_assoc. reflexivity.
Qed.

Lemma unpack_dense_spec : forall t es fs j kpre krest dpre drest s,
  Forall2 (fun e f => sel e = rsel f) es fs -> data_ok t es ->
  (forall e, In e es -> sel e = true -> data e <> None) ->
  unpack_dense we pad St rsel unpacked op t fs
    (kpre ++ dsz t (chosen j es) ++ krest) (dpre ++ dpk (chosen j es) ++ drest)
    (length kpre) (length dpre) s =
  match runE (deliver trv sel data (tname t) es fs) s with
  | Some s' => Some (length kpre + length (dsz t (chosen j es)),
                     length dpre + length (dpk (chosen j es)),
                     dpre ++ flat_map (fun p => rk (snd p)) (chosen j es) ++ drest, s')
  | None => None
  end.
Proof.
  intros t es fs j kpre krest dpre drest s HF. revert j kpre dpre s.
  induction HF as [|e f es fs Hef HF IH]; intros j kpre dpre s HD HN.
  - unfold runE. cbn. apply quad_eq; auto.
  - assert (data_ok t es) as HDr by (intros x Hx; apply HD; now right).
    assert (forall e, In e es -> sel e = true -> data e <> None) as HNr by (intros; apply HN; auto; now right).
    rewrite deliver_cons. cbn [chosen unpack_dense]. rewrite <- Hef.
    destruct (sel e) eqn:Es; [|apply IH; assumption].
    destruct (data e) as [vs|] eqn:Ed; [|exfalso; apply (HN e); auto; now left].
    assert (wf_vals we t vs) as W by (apply (HD e); auto; now left).
    cbn [dsz dpk flat_map fst snd].
    fold (dsz t (chosen (S j) es)). fold (dpk (chosen (S j) es)).
    rewrite <- (app_assoc (szs t vs)), <- (app_assoc (pk vs)).
    rewrite unpack_one_spec by assumption. rewrite run_app.
    destruct (runE (deliv (tname t) f vs) s) as [s1|]; [|reflexivity].
    rewrite (app_assoc kpre (szs t vs)), (app_assoc dpre (rk vs)).
    replace (length dpre + length (pk vs)) with (length (dpre ++ rk vs))
      by (rewrite app_length, (rk_len t), (pk_len t) by apply W; lia).
    rewrite <- (app_length kpre (szs t vs)).
    rewrite IH by assumption.
    destruct (runE (deliver trv sel data (tname t) es fs) s1) as [s2|]; [|reflexivity].
    apply quad_eq.
    + rewrite !app_length. lia.
    + rewrite !app_length, (rk_len t), (pk_len t) by apply W. lia.
    + rewrite <- !app_assoc. reflexivity.
Qed.

(** ** All types *)
Variable mask : Z.
Variable E F : list (list Z).
Definition tsz (t : tagd) (i : nat) : list N :=
  if came t mask i then
    if sparse t i then N.of_nat (length (chosen 0 (nth i E []))) :: idx t (chosen 0 (nth i E []))
    else dsz t (chosen 0 (nth i E []))
  else [].
Definition tpk (t : tagd) (i : nat) : list N :=
  if came t mask i then dpk (chosen 0 (nth i E [])) else [].

Lemma etype_bit : forall i j, i < 6 -> j < 6 ->
  Z.testbit (ElementTypeFromDim (Z.of_nat i)) (Z.of_nat j) = (i =? j).
Proof.
  intros i j Hi Hj. do 6 (destruct i as [|i]; [do 6 (destruct j as [|j]; [reflexivity|]); lia|]). lia.
Qed.
Lemma etype_range : forall i, i < 6 -> (0 <= ElementTypeFromDim (Z.of_nat i) < 64)%Z.
Proof. intros i Hi. do 6 (destruct i as [|i]; [now vm_compute|]). lia. Qed.
Lemma lor_range : forall a b, (0 <= a < 64 -> 0 <= b < 64 -> 0 <= Z.lor a b < 64)%Z.
Proof.
  intros a b Ha Hb. assert (0 <= Z.lor a b)%Z by (apply Z.lor_nonneg; lia). split; [assumption|].
  assert (Z.shiftr (Z.lor a b) 6 = 0)%Z as S6.
  { rewrite Z.shiftr_lor, !Z.shiftr_div_pow2 by lia. change (2 ^ 6)%Z with 64%Z.
    rewrite !Z.div_small by lia. reflexivity. }
  rewrite Z.shiftr_div_pow2 in S6 by lia. change (2 ^ 6)%Z with 64%Z in S6.
  apply Z.div_small_iff in S6; lia.
Qed.

Lemma sender_data_ok : forall t i, sender_ok we data sel t mask E -> i < 6 -> came t mask i = true ->
  data_ok t (nth i E []) /\
  (sparse t i = false -> forall e, In e (nth i E []) -> sel e = true -> data e <> None).
Proof.
  intros t i (_ & A & _) Hi Hc. split.
  - intros e He Hs vs Hv. specialize (A i e Hi Hc He Hs). now rewrite Hv in A.
  - intros Hsp e He Hs Hn. specialize (A i e Hi Hc He Hs). rewrite Hn in A. congruence.
Qed.

Lemma pack_types_spec : forall t is t0 t1 sizes out, sender_ok we data sel t mask E ->
  (forall i, In i is -> i < 6) -> (0 <= t0 < 64)%Z -> (0 <= t1 < 64)%Z ->
  exists m0 m1,
    pack_types we pad valid ppos sel data t mask E is t0 t1 sizes out =
      Some (m0, m1, sizes ++ flat_map (tsz t) is, out ++ flat_map (tpk t) is) /\
    (0 <= m0 < 64)%Z /\ (0 <= m1 < 64)%Z /\
    forall j, j < 6 ->
      Z.testbit m0 (Z.of_nat j) = Z.testbit t0 (Z.of_nat j) || (existsb (Nat.eqb j) is && came t mask j) /\
      Z.testbit m1 (Z.of_nat j) = Z.testbit t1 (Z.of_nat j) || (existsb (Nat.eqb j) is && (came t mask j && sparse t j)).
Proof.
  intros t is. induction is as [|i r IH]; intros t0 t1 sizes out Hs Hi H0 H1.
  - exists t0, t1. cbn. rewrite !app_nil_r. split; [reflexivity|]. do 2 (split; [assumption|]).
    intros. rewrite !orb_false_r. auto.
  - assert (i < 6) as Li by (apply Hi; now left).
    assert (forall i, In i r -> i < 6) as Hr by (intros; apply Hi; now right).
    cbn [pack_types flat_map existsb]. fold (came t mask i).
    unfold tsz at 1, tpk at 1. destruct (came t mask i) eqn:Ec.
    2:{ destruct (IH t0 t1 sizes out Hs Hr H0 H1) as (m0 & m1 & A & B & C & D).
        exists m0, m1. split; [exact A|]. do 2 (split; [assumption|]).
        intros j Hj. destruct (D j Hj) as [D0 D1]. rewrite D0, D1.
        destruct (Nat.eqb_spec j i) as [->|]; [|auto]. rewrite Ec. cbn. rewrite !andb_false_r. auto. }
    destruct (sender_data_ok t i Hs Li Ec) as [Dk Dn].
    pose proof (etype_range i Li) as Rg.
    cbv zeta. destruct (sparse t i) eqn:Esp.
    + rewrite pack_sparse_spec by assumption. cbn [app]. rewrite N.add_0_l.
      destruct (IH (Z.lor t0 (ElementTypeFromDim (Z.of_nat i))) (Z.lor t1 (ElementTypeFromDim (Z.of_nat i)))
        (sizes ++ N.of_nat (length (chosen 0 (nth i E []))) :: idx t (chosen 0 (nth i E [])))
        (out ++ dpk (chosen 0 (nth i E []))) Hs Hr (lor_range _ _ H0 Rg) (lor_range _ _ H1 Rg))
        as (m0 & m1 & A & B & C & D).
      exists m0, m1. rewrite A, <- !app_assoc. split; [reflexivity|]. do 2 (split; [assumption|]).
      intros j Hj. destruct (D j Hj) as [D0 D1]. rewrite D0, D1, !Z.lor_spec, !etype_bit by assumption.
      rewrite (Nat.eqb_sym i j). destruct (Nat.eqb_spec j i) as [->|].
      * rewrite Ec, Esp. cbn. rewrite !orb_true_r. auto.
      * rewrite !orb_false_r. auto.
    + rewrite (pack_dense_spec t _ _ _ 0) by auto.
      destruct (IH (Z.lor t0 (ElementTypeFromDim (Z.of_nat i))) t1
        (sizes ++ dsz t (chosen 0 (nth i E [])))
        (out ++ dpk (chosen 0 (nth i E []))) Hs Hr (lor_range _ _ H0 Rg) H1)
        as (m0 & m1 & A & B & C & D).
      exists m0, m1. rewrite A, <- !app_assoc. split; [reflexivity|]. do 2 (split; [assumption|]).
      intros j Hj. destruct (D j Hj) as [D0 D1]. rewrite D0, D1, !Z.lor_spec, !etype_bit by assumption.
      rewrite (Nat.eqb_sym i j). destruct (Nat.eqb_spec j i) as [->|].
      * rewrite Ec, Esp. cbn. rewrite !orb_true_r, !andb_false_r. auto.
      * rewrite !orb_false_r. auto.
Qed.

(** the tag of the receiver afterwards *)
Definition after (t : tagd) (rt : tagd) (is : list nat) : tagd :=
  fold_left (fun r i => if came t mask i && negb (defined r i) then define r i (sparse t i) else r) is rt.

Lemma defined_define : forall t i sp j, i < length (tdef t) ->
  defined (define t i sp) j = (i =? j) || defined t j.
Proof.
  intros. unfold defined, define. cbn [tdef]. rewrite nth_lset.
  destruct (Nat.eqb_spec i j) as [<-|]; [|reflexivity].
  assert (i <? length (tdef t) = true) as -> by (now apply Nat.ltb_lt). reflexivity.
Qed.
Lemma sparse_define : forall t i sp j, i < length (tspa t) ->
  sparse (define t i sp) j = if i =? j then sp else sparse t j.
Proof.
  intros. unfold sparse, define. cbn [tspa]. rewrite nth_lset.
  destruct (Nat.eqb_spec i j) as [<-|]; [|reflexivity].
  assert (i <? length (tspa t) = true) as -> by (now apply Nat.ltb_lt). reflexivity.
Qed.

Definition like (t rt : tagd) : Prop :=
  tkind rt = tkind t /\ tsize rt = tsize t /\ tbytes rt = tbytes t /\
  length (tdef rt) = 6 /\ length (tspa rt) = 6.
Lemma like_wf : forall t rt vs, like t rt -> wf_vals we t vs -> wf_vals we rt vs.
Proof.
  intros t rt vs (A & B & C & _) H. unfold wf_vals, wf_val in *. rewrite A, B, C. exact H.
Qed.
Lemma like_szs : forall t rt vs, like t rt -> szs t vs = szs rt vs.
Proof. intros t rt vs (_ & B & _). unfold szs. now rewrite B. Qed.
Lemma like_idx : forall t rt l, like t rt -> idx t l = idx rt l.
Proof.
  intros t rt l H. unfold idx. apply flat_map_ext. intros [j vs]. cbn [fst snd]. f_equal. now apply like_szs.
Qed.
Lemma like_dsz : forall t rt l, like t rt -> dsz t l = dsz rt l.
Proof. intros t rt l H. unfold dsz. apply flat_map_ext. intros [j vs]. now apply like_szs. Qed.
Lemma like_define : forall t rt i sp, like t rt -> like t (define rt i sp).
Proof.
  intros t rt i sp (A & B & C & D & G). unfold like, define. cbn.
  rewrite !lset_length. auto.
Qed.

Lemma type_events_define : forall t rt i j sp, i <> j -> i < 6 -> like t rt ->
  type_events trv sel data t (define rt i sp) mask E F j = type_events trv sel data t rt mask E F j.
Proof.
  intros t rt i j sp N Li (_ & _ & _ & L & _). unfold type_events.
  rewrite defined_define by lia. destruct (Nat.eqb_spec i j); [contradiction|]. reflexivity.
Qed.

Lemma tsz_eq : forall t i, tsz t i =
  if came t mask i then
    if sparse t i then N.of_nat (length (chosen 0 (nth i E []))) :: idx t (chosen 0 (nth i E []))
    else dsz t (chosen 0 (nth i E []))
  else [].
Proof. reflexivity. Qed.
Lemma tpk_eq : forall t i, tpk t i = if came t mask i then dpk (chosen 0 (nth i E [])) else [].
Proof. reflexivity. Qed.
Lemma te_eq : forall t rt i, type_events trv sel data t rt mask E F i =
  if came t mask i then
    (if defined rt i then [] else [EDefine (tname rt) i (sparse t i)]) ++
    deliver trv sel data (tname rt) (nth i E []) (nth i F [])
  else [].
Proof. reflexivity. Qed.
Lemma chosen_len : forall t es j, data_ok t es ->
  length (flat_map (fun p => rk (snd p)) (chosen j es)) = length (dpk (chosen j es)).
Proof.
  intros t. induction es as [|e es IHe]; intros j Dk; [reflexivity|]. cbn [chosen].
  assert (data_ok t es) as Dr by (intros y Hy; apply Dk; now right).
  destruct (sel e) eqn:Es; [|now apply IHe].
  destruct (data e) as [vs|] eqn:Ed; [|now apply IHe].
  unfold dpk in *. cbn [flat_map snd]. rewrite !app_length, IHe by assumption.
  assert (wf_vals we t vs) as [W _] by (apply (Dk e); auto; now left).
  rewrite (rk_len t), (pk_len t) by assumption. reflexivity.
Qed.
Lemma unpack_types_spec : forall t is m0 m1 rt kpre krest dpre drest s,
  sender_ok we data sel t mask E -> same_lists sel rsel E F -> like t rt ->
  (forall i, In i is -> i < 6) -> NoDup is ->
  (forall i, In i is -> came t mask i = true -> defined rt i = true -> sparse rt i = sparse t i) ->
  (forall i, In i is -> Z.testbit m0 (Z.of_nat i) = came t mask i) ->
  (forall i, In i is -> Z.testbit m1 (Z.of_nat i) = came t mask i && sparse t i) ->
  unpack_types we pad St rsel unpacked op create rt F is m0 m1
    (kpre ++ flat_map (tsz t) is ++ krest) (dpre ++ flat_map (tpk t) is ++ drest)
    (length kpre) (length dpre) s =
  match runE (flat_map (type_events trv sel data t rt mask E F) is) s with
  | Some s' => Some (after t rt is, s')
  | None => None
  end.
Proof.
  intros t is m0 m1. induction is as [|i r IH]; intros rt kpre krest dpre drest s Hs Hl Lk Hi ND Hsp M0 M1.
  - reflexivity.
  - assert (i < 6) as Li by (apply Hi; now left).
    assert (forall i, In i r -> i < 6) as Hr by (intros; apply Hi; now right).
    inversion ND as [|? ? Ni NDr]; subst.
    cbn [unpack_types flat_map after fold_left].
    fold (after t (if came t mask i && negb (defined rt i) then define rt i (sparse t i) else rt) r).
    rewrite M0, M1 by (now left).
    rewrite (tsz_eq t i), (tpk_eq t i), (te_eq t rt i).
    destruct (came t mask i) eqn:Ec.
    2:{ cbn [app andb]. apply IH; auto.
        - intros; apply Hsp; auto; now right.
        - intros; apply M0; now right.
        - intros; apply M1; now right. }
    destruct (sender_data_ok t i Hs Li Ec) as [Dk Dn].
    cbn [andb].
    set (rt' := if negb (defined rt i) then define rt i (sparse t i) else rt).
    assert ((if defined rt i then rt else define rt i (sparse t i)) = rt') as ->
      by (unfold rt'; destruct (defined rt i); reflexivity).
    assert (like t rt') as Lk' by (unfold rt'; destruct (defined rt i); cbn; auto using like_define).
    assert (sparse rt' i = sparse t i) as Esp.
    { unfold rt'. destruct (defined rt i) eqn:Ed; cbn [negb].
      - apply Hsp; auto. now left.
      - destruct Lk as (_ & _ & _ & _ & G). rewrite sparse_define, Nat.eqb_refl by lia. reflexivity. }
    assert (tname rt' = tname rt) as En by (unfold rt'; destruct (defined rt i); reflexivity).
    assert (data_ok rt' (nth i E [])) as Dk'
      by (intros e He Hse vs Hv; apply (like_wf t rt'); auto; eapply Dk; eauto).
    assert (flat_map (type_events trv sel data t rt mask E F) r =
            flat_map (type_events trv sel data t rt' mask E F) r) as Ev.
    { unfold rt'. destruct (defined rt i); [reflexivity|]. cbn [negb].
      clear IH NDr Hr ND Hi Hsp M0 M1. induction r as [|j r IHr]; [reflexivity|]. cbn [flat_map].
      rewrite type_events_define by (auto; intro; apply Ni; now left).
      rewrite IHr by (intro; apply Ni; now right). reflexivity. }
    assert (runE ((if defined rt i then [] else [EDefine (tname rt) i (sparse t i)]) ++
                  deliver trv sel data (tname rt) (nth i E []) (nth i F [])) s =
            runE (deliver trv sel data (tname rt') (nth i E []) (nth i F []))
               (if defined rt i then s else create (tname rt) i (sparse t i) s)) as Er.
    { rewrite En. destruct (defined rt i); reflexivity. }
    rewrite <- (app_assoc (if defined rt i then [] else _)).
    rewrite (app_assoc (if defined rt i then [] else _)), run_app, Er, Ev. clear Er.
    set (s0 := if defined rt i then s else create (tname rt) i (sparse t i) s).
    assert (forall k2 d2 s1,
      unpack_types we pad St rsel unpacked op create rt' F r m0 m1
        (k2 ++ flat_map (tsz t) r ++ krest) (d2 ++ flat_map (tpk t) r ++ drest)
        (length k2) (length d2) s1 =
      match runE (flat_map (type_events trv sel data t rt' mask E F) r) s1 with
      | Some s' => Some (after t rt' r, s')
      | None => None
      end) as IH'.
    { intros. apply IH; auto.
      - intros j Hj Hc Hd. unfold rt' in *. destruct (defined rt i) eqn:Ed; cbn [negb] in *.
        + apply Hsp; auto. now right.
        + destruct Lk as (_ & _ & _ & G1 & G2).
          assert (i <> j) as Nij by (intros ->; contradiction).
          rewrite sparse_define by lia. rewrite defined_define in Hd by lia.
          destruct (Nat.eqb_spec i j); [contradiction|]. cbn in Hd. apply Hsp; auto. now right.
      - intros; apply M0; now right.
      - intros; apply M1; now right. }
    rewrite Esp. destruct (sparse t i) eqn:Et.
    + rewrite nth_error_app2, Nat.sub_diag by lia. cbn [app nth_error]. rewrite Nat2N.id.
      rewrite (like_idx t rt') by assumption.
      replace (kpre ++ N.of_nat (length (chosen 0 (nth i E []))) ::
               (idx rt' (chosen 0 (nth i E [])) ++ flat_map (tsz t) r) ++ krest)
        with ((kpre ++ [N.of_nat (length (chosen 0 (nth i E [])))]) ++
               idx rt' (chosen 0 (nth i E [])) ++ (flat_map (tsz t) r ++ krest))
        by (rewrite <- !app_assoc; reflexivity).
      rewrite <- (app_assoc (dpk (chosen 0 (nth i E [])))).
      replace (S (length kpre)) with (length (kpre ++ [N.of_nat (length (chosen 0 (nth i E [])))]))
        by (rewrite app_length; cbn [length]; lia).
      pose proof (unpack_sparse_spec rt' (nth i E []) (nth i F []) []
        (kpre ++ [N.of_nat (length (chosen 0 (nth i E [])))]) (flat_map (tsz t) r ++ krest)
        dpre (flat_map (tpk t) r ++ drest) s0 (Hl i Li) Dk') as U.
      cbn [length] in U. cbn [app] in U. rewrite U. clear U.
      destruct (runE (deliver trv sel data (tname rt') (nth i E []) (nth i F [])) s0) as [s1|]; [|reflexivity].
      rewrite <- app_length.
      replace (length dpre + length (dpk (chosen 0 (nth i E []))))
        with (length (dpre ++ flat_map (fun p => rk (snd p)) (chosen 0 (nth i E [])))).
      2:{ rewrite app_length. f_equal. now apply (chosen_len rt'). }
      rewrite (app_assoc dpre), (app_assoc (kpre ++ [_])). apply IH'.
    + rewrite (like_dsz t rt') by assumption.
      rewrite <- (app_assoc (dsz rt' (chosen 0 (nth i E [])))), <- (app_assoc (dpk (chosen 0 (nth i E [])))).
      pose proof (unpack_dense_spec rt' (nth i E []) (nth i F []) 0
        kpre (flat_map (tsz t) r ++ krest)
        dpre (flat_map (tpk t) r ++ drest) s0 (Hl i Li) Dk' (Dn eq_refl)) as U.
      rewrite U. clear U.
      destruct (runE (deliver trv sel data (tname rt') (nth i E []) (nth i F [])) s0) as [s1|]; [|reflexivity].
      rewrite <- app_length.
      replace (length dpre + length (dpk (chosen 0 (nth i E []))))
        with (length (dpre ++ flat_map (fun p => rk (snd p)) (chosen 0 (nth i E [])))).
      2:{ rewrite app_length. f_equal. now apply (chosen_len rt'). }
      rewrite (app_assoc dpre), (app_assoc kpre). apply IH'.
Qed.


Lemma chosen_in : forall es j x, In x (chosen j es) ->
  j <= fst x < j + length es /\ exists e, In e es /\ sel e = true /\ data e = Some (snd x).
Proof.
  induction es as [|e es IH]; intros j x H; [contradiction|]. cbn [chosen] in H.
  assert (In x (chosen (S j) es) -> j <= fst x < j + length (e :: es) /\
    exists e', In e' (e :: es) /\ sel e' = true /\ data e' = Some (snd x)) as K.
  { intros H'. destruct (IH _ _ H') as (A & e' & B & C). cbn [length].
    split; [lia|]. exists e'. split; [now right|assumption]. }
  destruct (sel e) eqn:Es; [|auto]. destruct (data e) as [vs|] eqn:Ed; [|auto].
  destruct H as [<-|H]; [|auto]. cbn [fst snd length]. split; [lia|].
  exists e. split; [now left|auto].
Qed.
Lemma chosen_count : forall es j, length (chosen j es) <= length es.
Proof.
  induction es as [|e es IH]; intros j; [auto|]. cbn [chosen].
  destruct (if sel e then data e else None); cbn [length]; specialize (IH (S j)); lia.
Qed.

Lemma bytes_app : forall a b, bytes_ok a -> bytes_ok b -> bytes_ok (a ++ b).
Proof. intros. unfold bytes_ok. apply Forall_app; auto. Qed.
Lemma entry_bytes : forall i v, bytes_ok v -> bytes_ok (entry we pad i v).
Proof.
  intros. unfold entry. apply bytes_app; [apply enc_bytes|]. apply bytes_app; [|assumption].
  unfold bytes_ok. clear. induction pad; cbn; constructor; auto. lia.
Qed.
Lemma mem_val_bytes : forall t v, wf_val we t v -> bytes_ok (mem_val we pad v).
Proof.
  intros t v H. unfold wf_val in H. destruct (tkind t), v; try contradiction.
  - tauto.
  - apply enc_bytes.
  - destruct H as (A & B & C & D). cbn [mem_val]. apply bytes_app; [now apply entry_bytes|].
    clear - D. induction D as [|e r He Hr IH]; [constructor|]. cbn [flat_map].
    apply bytes_app; auto. apply entry_bytes. tauto.
Qed.
Lemma pk_bytes : forall t vs, Forall (wf_val we t) vs -> bytes_ok (pk vs).
Proof.
  intros t vs H. induction H; [constructor|]. rewrite pk_cons. apply bytes_app; auto.
  apply (mem_val_bytes t). now apply pk_wf.
Qed.

Lemma tsz_fits : forall t i, sender_ok we data sel t mask E -> i < 6 -> Forall (fits we) (tsz t i).
Proof.
  intros t i Hs Li. unfold tsz. destruct (came t mask i) eqn:Ec; [|constructor].
  destruct (sender_data_ok t i Hs Li Ec) as [Dk _].
  destruct Hs as (_ & _ & Hf). specialize (Hf i Li).
  assert (forall x, In x (chosen 0 (nth i E [])) -> Forall (fits we) (szs t (snd x))) as Hz.
  { intros x Hx. destruct (chosen_in _ _ _ Hx) as (_ & e & A & B & C).
    destruct (Dk e A B _ C) as [_ W]. unfold szs. destruct (tsize t); auto. }
  destruct (sparse t i).
  - constructor.
    + apply (fits_le _ _ _ Hf). pose proof (chosen_count (nth i E []) 0). lia.
    + apply Forall_flat_map. apply Forall_forall. intros x Hx. constructor; [|now apply Hz].
      apply (fits_le _ _ _ Hf). destruct (chosen_in _ _ _ Hx) as (A & _). lia.
  - apply Forall_flat_map. apply Forall_forall. exact Hz.
Qed.
Lemma tpk_fits : forall t i, sender_ok we data sel t mask E -> i < 6 -> Forall (fits 1) (tpk t i).
Proof.
  intros t i Hs Li. unfold tpk. destruct (came t mask i) eqn:Ec; [|constructor].
  destruct (sender_data_ok t i Hs Li Ec) as [Dk _].
  apply Forall_flat_map. apply Forall_forall. intros x Hx.
  destruct (chosen_in _ _ _ Hx) as (_ & e & A & B & C). destruct (Dk e A B _ C) as [W _].
  eapply Forall_impl; [|apply (pk_bytes t); exact W]. apply fits1.
Qed.


Definition message (t : tagd) (m0 m1 : Z) : list N :=
  flat_map (enc 1) [Z.to_N m0; Z.to_N m1] ++
  pack_vector limit we (flat_map (tsz t) (seq 0 6)) ++
  pack_vector limit 1 (flat_map (tpk t) (seq 0 6)).

Lemma pack_tag_spec : forall t, sender_ok we data sel t mask E ->
  exists m0 m1,
    pack_tag we pad limit valid ppos sel data t mask E = Some (message t m0 m1) /\
    (0 <= m0 < 64)%Z /\ (0 <= m1 < 64)%Z /\
    forall i, i < 6 -> Z.testbit m0 (Z.of_nat i) = came t mask i /\
                       Z.testbit m1 (Z.of_nat i) = came t mask i && sparse t i.
Proof.
  intros t Hs.
  destruct (pack_types_spec t (seq 0 6) NONE NONE [] [] Hs seq6 ltac:(unfold NONE; lia) ltac:(unfold NONE; lia))
    as (m0 & m1 & A & B & C & D).
  exists m0, m1. split; [|split; [exact B|split; [exact C|]]].
  - unfold pack_tag. rewrite A. cbn [app]. rewrite pack_array_spec by lia.
    destruct Hs as [K _]. destruct (tkind t); try reflexivity. contradiction.
  - intros i Hi. destruct (D i Hi) as [D0 D1]. rewrite D0, D1. unfold NONE. rewrite Z.testbit_0_l.
    assert (existsb (Nat.eqb i) (seq 0 6) = true) as ->.
    { apply existsb_exists. exists i. split; [apply in_seq; lia|apply Nat.eqb_refl]. }
    auto.
Qed.

Lemma unpack_tag_spec : forall t rt m pre post s,
  sender_ok we data sel t mask E -> same_lists sel rsel E F -> same_tag t rt mask ->
  pack_tag we pad limit valid ppos sel data t mask E = Some m ->
  fits 8 (N.of_nat (length m)) ->
  unpack_tag we pad limit St rsel unpacked op create rt F (pre ++ m ++ post) (length pre) s =
  match runE (tag_events trv sel data t rt mask E F) s with
  | Some s' => Some (after t rt (seq 0 6), s', length pre + length m)
  | None => None
  end.
Proof.
  intros t rt m pre post s Hs Hl Ht Hp Hf.
  destruct (pack_tag_spec t Hs) as (m0 & m1 & A & B & C & D). rewrite A in Hp. injection Hp as <-.
  pose proof we_lim as Hw.
  assert (Forall (fits we) (flat_map (tsz t) (seq 0 6))) as FS.
  { apply Forall_flat_map, Forall_forall. intros i Hi. apply tsz_fits; auto. now apply seq6. }
  assert (Forall (fits 1) (flat_map (tpk t) (seq 0 6))) as FD.
  { apply Forall_flat_map, Forall_forall. intros i Hi. apply tpk_fits; auto. now apply seq6. }
  assert (fits 8 (N.of_nat (length (flat_map (tsz t) (seq 0 6)))) /\
          fits 8 (N.of_nat (length (flat_map (tpk t) (seq 0 6))))) as [LS LD].
  { unfold message in Hf. rewrite !app_length, !pack_vector_spec, !app_length, !encs_len in Hf by lia.
    split; apply (fits_le _ _ _ Hf); nia. }
  unfold unpack_tag.
  assert (length (pre ++ message t m0 m1 ++ post) =? 0 = false) as ->.
  { apply Nat.eqb_neq. rewrite !app_length. unfold message. rewrite app_length. cbn [flat_map length app enc]. lia. }
  set (V1 := pack_vector limit we (flat_map (tsz t) (seq 0 6))).
  set (V2 := pack_vector limit 1 (flat_map (tpk t) (seq 0 6))).
  assert (pre ++ message t m0 m1 ++ post =
          pre ++ flat_map (enc 1) [Z.to_N m0; Z.to_N m1] ++ (V1 ++ V2 ++ post)) as E1.
  { unfold message. rewrite <- !app_assoc. reflexivity. }
  assert (unpack_array limit 1 2 (pre ++ message t m0 m1 ++ post) (length pre) =
          Some ([Z.to_N m0; Z.to_N m1], length pre + 2)) as ->.
  { rewrite E1, (unpack_array_spec 1 [Z.to_N m0; Z.to_N m1]); auto; [lia|].
    repeat constructor; apply fits1; lia. }
  set (pre1 := pre ++ flat_map (enc 1) [Z.to_N m0; Z.to_N m1]).
  assert (length pre + 2 = length pre1) as -> by (unfold pre1; rewrite app_length, encs_len; reflexivity).
  assert (pre ++ message t m0 m1 ++ post = pre1 ++ V1 ++ (V2 ++ post)) as E2.
  { rewrite E1. unfold pre1. rewrite <- app_assoc. reflexivity. }
  assert (unpack_vector limit we (pre ++ message t m0 m1 ++ post) (length pre1) =
          Some (flat_map (tsz t) (seq 0 6), length pre1 + length V1)) as ->.
  { rewrite E2. unfold V1. rewrite unpack_vector_spec; auto. }
  rewrite <- app_length.
  assert (unpack_vector limit 1 (pre ++ message t m0 m1 ++ post) (length (pre1 ++ V1)) =
          Some (flat_map (tpk t) (seq 0 6), length (pre1 ++ V1) + length V2)) as ->.
  { rewrite E2, (app_assoc pre1). unfold V2. rewrite unpack_vector_spec; auto. lia. }
  destruct Ht as (T1 & T2 & T3 & T4 & T5 & T6).
  rewrite !Z2N.id by lia.
  pose proof (unpack_types_spec t (seq 0 6) m0 m1 rt [] [] [] [] s Hs Hl) as U.
  cbn [length app] in U. rewrite !app_nil_r in U. rewrite U; clear U.
  - unfold tag_events. destruct (runE _ s) as [s'|]; [|reflexivity].
    f_equal. f_equal. unfold message. fold V1 V2. unfold pre1. rewrite !app_length. lia.
  - unfold like; auto.
  - apply seq6.
  - apply seq_NoDup.
  - intros i Hi. apply T6. now apply seq6.
  - intros i Hi. apply D. now apply seq6.
  - intros i Hi. apply D. now apply seq6.
Qed.

(** whatever the tag of the receiver, reading one part ends where the part ends *)
Lemma unpack_tag_position : forall unp t rt m0 m1 s,
  sender_ok we data sel t mask E -> (0 <= m0 < 64)%Z -> (0 <= m1 < 64)%Z ->
  fits 8 (N.of_nat (length (message t m0 m1))) ->
  exists r, unpack_tag we pad limit St rsel unp op create rt F (message t m0 m1) 0 s =
    match r with Some (x, y) => Some (x, y, length (message t m0 m1)) | None => None end.
Proof.
  intros unp t rt m0 m1 s Hs B C Hf.
  pose proof we_lim as Hw.
  assert (Forall (fits we) (flat_map (tsz t) (seq 0 6))) as FS.
  { apply Forall_flat_map, Forall_forall. intros i Hi. apply tsz_fits; auto. now apply seq6. }
  assert (Forall (fits 1) (flat_map (tpk t) (seq 0 6))) as FD.
  { apply Forall_flat_map, Forall_forall. intros i Hi. apply tpk_fits; auto. now apply seq6. }
  assert (fits 8 (N.of_nat (length (flat_map (tsz t) (seq 0 6)))) /\
          fits 8 (N.of_nat (length (flat_map (tpk t) (seq 0 6))))) as [LS LD].
  { unfold message in Hf. rewrite !app_length, !pack_vector_spec, !app_length, !encs_len in Hf by lia.
    split; apply (fits_le _ _ _ Hf); nia. }
  unfold unpack_tag.
  assert (length (message t m0 m1) =? 0 = false) as ->.
  { apply Nat.eqb_neq. unfold message. rewrite app_length. cbn [flat_map length app enc]. lia. }
  set (V1 := pack_vector limit we (flat_map (tsz t) (seq 0 6))).
  set (V2 := pack_vector limit 1 (flat_map (tpk t) (seq 0 6))).
  set (pre1 := flat_map (enc 1) [Z.to_N m0; Z.to_N m1]).
  assert (message t m0 m1 = pre1 ++ V1 ++ V2) as E1 by reflexivity.
  rewrite E1.
  assert (unpack_array limit 1 2 (pre1 ++ V1 ++ V2) 0 = Some ([Z.to_N m0; Z.to_N m1], 2)) as ->.
  { unfold pre1. apply (unpack_array_spec 1 [Z.to_N m0; Z.to_N m1] [] (V1 ++ V2)); auto; [lia|].
    repeat constructor; apply fits1; lia. }
  assert (unpack_vector limit we (pre1 ++ V1 ++ V2) 2 =
          Some (flat_map (tsz t) (seq 0 6), 2 + length V1)) as ->.
  { unfold V1. rewrite unpack_vector_spec; auto. }
  assert (2 + length V1 = length (pre1 ++ V1)) as -> by (rewrite app_length; reflexivity).
  assert (unpack_vector limit 1 (pre1 ++ V1 ++ V2) (length (pre1 ++ V1)) =
          Some (flat_map (tpk t) (seq 0 6), length (pre1 ++ V1) + length V2)) as ->.
  { rewrite (app_assoc pre1), <- (app_nil_r V2) at 1. unfold V2. rewrite unpack_vector_spec; auto. lia. }
  destruct (unpack_types _ _ _ _ _ _ _ _ _ _ _ _ _ _ _ _ _) as [[t' s']|].
  - exists (Some (t', s')). rewrite !app_length, Nat.add_assoc. reflexivity.
  - now exists None.
Qed.

Lemma after_spec : forall t rt is, like t rt -> NoDup is -> (forall i, In i is -> i < 6) ->
  like t (after t rt is) /\ tname (after t rt is) = tname rt /\
  forall i, defined (after t rt is) i = defined rt i || (existsb (Nat.eqb i) is && came t mask i) /\
            sparse (after t rt is) i =
              if existsb (Nat.eqb i) is && (came t mask i && negb (defined rt i)) then sparse t i else sparse rt i.
Proof.
  intros t rt is. revert rt. induction is as [|j r IH]; intros rt Lk ND H6.
  - cbn. split; [assumption|]. split; [reflexivity|]. intros. rewrite orb_false_r. auto.
  - inversion ND as [|? ? Nj NDr]; subst.
    assert (j < 6) as Lj by (apply H6; now left).
    unfold after. cbn [fold_left].
    set (rt' := if came t mask j && negb (defined rt j) then define rt j (sparse t j) else rt).
    fold (after t rt' r).
    assert (like t rt') as Lk'
      by (unfold rt'; destruct (came t mask j && negb (defined rt j)); auto using like_define).
    destruct (IH rt' Lk' NDr (fun i Hi => H6 i (or_intror Hi))) as (A & B & C).
    split; [exact A|]. split.
    { rewrite B. unfold rt'. destruct (came t mask j && negb (defined rt j)); reflexivity. }
    intros i. destruct (C i) as [C0 C1]. rewrite C0, C1. clear C0 C1. cbn [existsb].
    destruct Lk as (_ & _ & _ & G1 & G2).
    assert (existsb (Nat.eqb j) r = false) as Nx.
    { destruct (existsb (Nat.eqb j) r) eqn:X; [|reflexivity]. apply existsb_exists in X.
      destruct X as (x & X1 & X2). apply Nat.eqb_eq in X2. subst. contradiction. }
    unfold rt'. destruct (came t mask j) eqn:Ec; cbn [andb].
    + destruct (defined rt j) eqn:Ed; cbn [negb].
      * destruct (Nat.eqb_spec i j) as [->|]; [|auto]. rewrite Nx, Ed. cbn. rewrite ?andb_false_r. auto.
      * rewrite defined_define, sparse_define by lia. rewrite (Nat.eqb_sym j i).
        destruct (Nat.eqb_spec i j) as [->|]; [|auto]. rewrite Nx, Ed, Ec. cbn. auto.
    + destruct (Nat.eqb_spec i j) as [->|]; [|auto]. rewrite Nx, Ec. cbn. rewrite ?andb_false_r. auto.
Qed.

(** ** Size of a message *)
Lemma chosen_filter : forall es j, length (chosen j es) <= length (filter sel es).
Proof.
  induction es as [|e es IH]; intros j; [auto|]. cbn [chosen filter].
  specialize (IH (S j)). destruct (sel e); [|assumption]. destruct (data e); cbn [length]; lia.
Qed.

Lemma idx_len : forall t l, tsize t <> None -> length (idx t l) = length l /\ dsz t l = [].
Proof.
  intros t l H. unfold idx, dsz, szs. destruct (tsize t); [|congruence].
  induction l; cbn; [auto|]. destruct IHl as [A B]. split; [now rewrite A|exact B].
Qed.
Lemma dpk_len : forall t n es j, tkind t = Plain -> tsize t = Some n -> data_ok t es ->
  length (dpk (chosen j es)) = length (chosen j es) * (n * tbytes t).
Proof.
  intros t n es j K Sz Dk. unfold dpk.
  assert (forall x, In x (chosen j es) -> length (pk (snd x)) = n * tbytes t) as W.
  { intros x Hx. destruct (chosen_in _ _ _ Hx) as (_ & e & A & B & C). destruct (Dk e A B _ C) as [W1 W2].
    rewrite (pk_len t) by assumption. unfold capacity. rewrite K. rewrite Sz in W2. now rewrite W2. }
  induction (chosen j es) as [|x l IHl]; [reflexivity|]. cbn [flat_map length].
  rewrite app_length, IHl by (intros; apply W; now right). rewrite W by (now left). lia.
Qed.

Definition cnt (is : list nat) : nat :=
  fold_right (fun i a => (if Z.testbit mask (Z.of_nat i) then length (filter sel (nth i E [])) else 0) + a) 0 is.

Lemma types_len : forall t n is, sender_ok we data sel t mask E -> tkind t = Plain -> tsize t = Some n ->
  (forall i, In i is -> i < 6) ->
  length (flat_map (tsz t) is) <= length is + cnt is /\
  length (flat_map (tpk t) is) <= cnt is * (n * tbytes t).
Proof.
  intros t n is Hs K Sz. induction is as [|i r IH]; intros H6; [cbn; lia|].
  destruct (IH (fun j Hj => H6 j (or_intror Hj))) as [A B].
  assert (i < 6) as Li by (apply H6; now left).
  cbn [flat_map length cnt fold_right]. fold (cnt r). rewrite !app_length.
  assert (length (tsz t i) <= 1 + (if Z.testbit mask (Z.of_nat i) then length (filter sel (nth i E [])) else 0) /\
          length (tpk t i) <= (if Z.testbit mask (Z.of_nat i) then length (filter sel (nth i E [])) else 0) * (n * tbytes t)) as [X Y].
  { unfold tsz, tpk. destruct (came t mask i) eqn:Ec; [|cbn; lia].
    destruct (sender_data_ok t i Hs Li Ec) as [Dk _].
    unfold came in Ec. apply andb_true_iff in Ec. destruct Ec as [-> _].
    pose proof (chosen_filter (nth i E []) 0) as Q.
    destruct (idx_len t (chosen 0 (nth i E []))) as [I1 I2]; [congruence|].
    split.
    - destruct (sparse t i); [cbn [length]; lia|]. rewrite I2. cbn [length]. lia.
    - rewrite (dpk_len t n) by assumption. now apply Nat.mul_le_mono_r. }
  split; [lia|]. rewrite Nat.mul_add_distr_r. lia.
Qed.
Lemma message_len : forall t n m, sender_ok we data sel t mask E -> tkind t = Plain -> tsize t = Some n ->
  nth 5 E [] = [] -> pack_tag we pad limit valid ppos sel data t mask E = Some m ->
  length m <= recv_size we limit [t] (count_elems sel mask E).
Proof.
  intros t n m Hs K Sz E5 Hp.
  destruct (pack_tag_spec t Hs) as (m0 & m1 & A & _). rewrite A in Hp. injection Hp as <-.
  pose proof we_lim as Hw.
  destruct (types_len t n (seq 0 6) Hs K Sz seq6) as [X Y].
  assert (cnt (seq 0 6) = count_elems sel mask E) as Ec.
  { unfold cnt, count_elems. cbn [seq fold_right]. rewrite E5. cbn [filter length].
    destruct (Z.testbit mask (Z.of_nat 5)); reflexivity. }
  rewrite Ec in *. cbn [seq length] in X.
  unfold message, recv_size. cbn [fold_right]. rewrite Sz.
  rewrite !app_length, !pack_vector_spec, !app_length, !encs_len, !enc_len by lia.
  rewrite array_size_spec, !vector_size_spec by lia. cbn [length].
  set (N0 := count_elems sel mask E) in *.
  assert (we * length (flat_map (tsz t) (seq 0 6)) <= we * (6 + 2 * N0)) by (apply Nat.mul_le_mono_l; cbn [seq]; lia).
  rewrite Nat.mul_assoc in Y. cbn [seq] in *. lia.
Qed.
End Both.

Lemma recv_size_app : forall a b n, recv_size we limit (a ++ b) n = recv_size we limit a n + recv_size we limit b n.
Proof. intros. unfold recv_size. induction a; cbn [app fold_right]; [reflexivity|]. rewrite IHa. lia. Qed.

(** ** Several tags in one message *)
Section Tags.
Variable valid : Z -> bool.
Variable ppos : Z -> option Z.
Variable unpacked : list (list Z).
Hypothesis Hrefs : refs_ok we valid ppos unpacked.
Variables sel rsel : Z -> bool.
Variable mask : Z.
Variables E F : list (list Z).
Variable St : Type.
Variable op : nat -> St -> Z -> list N -> nat -> option St.
Variable create : nat -> nat -> bool -> St -> St.

Definition all_events (l : list (tagd * (Z -> option (list value)) * tagd)) : list event :=
  flat_map (fun p => tag_events (tr_val we valid ppos unpacked) sel (snd (fst p)) (fst (fst p)) (snd p) mask E F) l.

Lemma unpack_tags_spec : forall l m pre post s,
  Forall (fun p => sender_ok we (snd (fst p)) sel (fst (fst p)) mask E /\ same_tag (fst (fst p)) (snd p) mask) l ->
  same_lists sel rsel E F ->
  pack_tags we pad limit valid ppos sel (map fst l) mask E = Some m ->
  fits 8 (N.of_nat (length m)) ->
  unpack_tags we pad limit St rsel unpacked op create (map snd l) F (pre ++ m ++ post) (length pre) s =
  match run we pad St op create (all_events l) s with
  | Some s' => Some (map (fun p => after mask (fst (fst p)) (snd p) (seq 0 6)) l, s', length pre + length m)
  | None => None
  end.
Proof.
  induction l as [|[[t d] rt] r IH]; intros m pre post s Hok Hl Hp Hf.
  - cbn in *. injection Hp as <-. cbn. now rewrite Nat.add_0_r.
  - inversion Hok as [|? ? [H1 H2] Hr]; subst. cbn [fst snd] in *.
    cbn [map fst snd pack_tags] in Hp.
    destruct (pack_tag we pad limit valid ppos sel d t mask E) as [a|] eqn:Pa; [|discriminate].
    destruct (pack_tags we pad limit valid ppos sel (map fst r) mask E) as [b|] eqn:Pb; [|discriminate].
    injection Hp as <-. rewrite app_length in Hf.
    cbn [map fst snd unpack_tags all_events flat_map]. rewrite <- app_assoc.
    rewrite (unpack_tag_spec valid ppos unpacked Hrefs sel d St rsel op create mask E F t rt a pre (b ++ post) s)
      by (auto; apply (fits_le _ _ _ Hf); lia).
    rewrite (run_app St op create).
    destruct (run we pad St op create (tag_events _ sel d t rt mask E F) s) as [s1|]; [|reflexivity].
    rewrite (app_assoc pre), <- app_length.
    rewrite (IH b (pre ++ a) post s1) by (auto; apply (fits_le _ _ _ Hf); lia).
    fold (all_events r).
    destruct (run we pad St op create (all_events r) s1) as [s2|]; [|reflexivity].
    rewrite !app_length, Nat.add_assoc. reflexivity.
Qed.

Lemma pack_tags_ok : forall ts, Forall (fun p => sender_ok we (snd p) sel (fst p) mask E) ts ->
  exists m, pack_tags we pad limit valid ppos sel ts mask E = Some m.
Proof.
  induction ts as [|[t d] r IH]; intros H; [now exists []|]. inversion H as [|? ? H1 Hr]; subst.
  destruct (IH Hr) as [b Pb]. cbn [fst snd] in H1.
  destruct (pack_tag_spec valid ppos unpacked sel d rsel mask E t H1) as (m0 & m1 & Pa & _).
  cbn [pack_tags]. rewrite Pa, Pb. eauto.
Qed.
Lemma messages_len : forall ts m, Forall (fun p => sender_ok we (snd p) sel (fst p) mask E) ts ->
  Forall (fun p : tagd * (Z -> option (list value)) => tkind (fst p) = Plain /\ tsize (fst p) <> None) ts ->
  nth 5 E [] = [] -> pack_tags we pad limit valid ppos sel ts mask E = Some m ->
  length m <= recv_size we limit (map fst ts) (count_elems sel mask E).
Proof.
  induction ts as [|[t d] r IH]; intros m H HK E5 Hp.
  - cbn in Hp. injection Hp as <-. cbn. lia.
  - inversion H as [|? ? H1 Hr]; subst. inversion HK as [|? ? [K1 K2] Kr]; subst. cbn [fst snd] in *.
    cbn [pack_tags] in Hp.
    destruct (pack_tag we pad limit valid ppos sel d t mask E) as [a|] eqn:Pa; [|discriminate].
    destruct (pack_tags we pad limit valid ppos sel r mask E) as [b|] eqn:Pb; [|discriminate].
    injection Hp as <-. rewrite app_length. cbn [map fst].
    destruct (tsize t) as [n|] eqn:Sz; [|congruence].
    pose proof (message_len valid ppos unpacked sel d rsel mask E t n a H1 K1 Sz E5 Pa).
    specialize (IH b Hr Kr E5 eq_refl).
    change (t :: map fst r) with ([t] ++ map fst r). rewrite recv_size_app. lia.
Qed.
End Tags.

(** ** DefaultUnpack *)
Definition stored (v : value) : Prop := match v with VR h => (0 <= h < 2 ^ hbits we)%Z | _ => True end.

Lemma get_row_spec : forall row rest,
  Forall (fun e => fits we (fst e) /\ length (snd e) = 8 /\ bytes_ok (snd e)) row ->
  get_row we pad (length row) (flat_map (fun e => entry we pad (fst e) (snd e)) row ++ rest) = row.
Proof.
  intros row rest H. induction H as [|[i v] r (A & B & C) Hr IH]; [reflexivity|].
  cbn [fst snd] in *. cbn [length get_row flat_map fst snd].
  rewrite <- app_assoc. rewrite (skipn_pre _ (entry we pad i v) _ (ew we pad)) by (now rewrite entry_len).
  rewrite IH. f_equal. f_equal.
  - unfold entry. rewrite <- app_assoc. now apply dec_app_len.
  - unfold entry. rewrite <- !app_assoc. rewrite (app_assoc (enc we i)).
    rewrite skipn_pre by (rewrite app_length, enc_len, repeat_length; lia).
    now apply firstn_pre.
Qed.

Lemma get_values_spec : forall t vs rest, Forall (wf_val we t) vs -> Forall stored vs ->
  get_values we pad t (length vs) (mem we pad vs ++ rest) = vs.
Proof.
  intros t vs rest H. induction H as [|v r Hv Hr IH]; intros Hst; [reflexivity|].
  inversion Hst as [|? ? Sv Sr]; subst. specialize (IH Sr).
  cbn [length get_values mem flat_map]. fold (mem we pad r).
  pose proof (mem_val_len t v Hv) as L. unfold vlen in L.
  unfold wf_val in Hv. destruct (tkind t), v as [bs|h|x row]; try contradiction; cbn [mem_val] in *.
  - rewrite <- app_assoc. rewrite firstn_pre, skipn_pre by auto. now rewrite IH.
  - rewrite <- app_assoc. rewrite <- L, enc_len, skipn_enc, IH.
    rewrite dec_app_len by (now apply fits_hbits). rewrite Z2N.id by (cbn in Sv; lia). reflexivity.
  - destruct Hv as (A & B & C & D). cbv zeta.
    assert (dec (firstn we (((entry we pad (N.of_nat (length row)) x ++
        flat_map (fun e => entry we pad (fst e) (snd e)) row) ++ mem we pad r) ++ rest)) = N.of_nat (length row)) as ->.
    { unfold entry at 1. rewrite <- !app_assoc. now apply dec_app_len. }
    rewrite Nat2N.id.
    rewrite <- (app_assoc _ (mem we pad r) rest).
    rewrite (skipn_pre _ (entry we pad (N.of_nat (length row)) x ++
        flat_map (fun e => entry we pad (fst e) (snd e)) row) _ ((1 + length row) * ew we pad)) by (rewrite L; reflexivity).
    rewrite IH. f_equal. f_equal.
    + unfold entry at 1. rewrite <- !app_assoc. rewrite (app_assoc (enc we _)).
      rewrite skipn_pre by (rewrite app_length, enc_len, repeat_length; lia).
      now apply firstn_pre.
    + rewrite <- app_assoc. rewrite skipn_pre by (now rewrite entry_len). now apply get_row_spec.
Qed.

Definition upd_ev (d : nat -> Z -> option (list value)) (ev : event) : nat -> Z -> option (list value) :=
  match ev with
  | EDeliver n e vs => fun m x => if (m =? n) && (x =? e)%Z then Some vs else d m x
  | EDefine _ _ _ => d
  end.

Lemma run_default : forall tag dim create l d,
  Forall (fun ev => match ev with
    | EDeliver n e vs => vs <> [] /\ wf_vals we (tag n) vs /\ Forall stored vs
    | EDefine _ _ _ => False end) l ->
  run we pad _ (default_unpack we pad tag dim) create l d = Some (fold_left upd_ev l d).
Proof.
  intros tag dim create. induction l as [|ev r IH]; intros d H; [reflexivity|].
  inversion H as [|? ? H1 Hr]; subst. destruct ev as [n i sp|n e vs]; [contradiction|].
  destruct H1 as (Ne & [W1 W2] & St). cbn [run fold_left upd_ev]. unfold default_unpack.
  destruct (Nat.eqb_spec (length vs) 0) as [Z0|_]; [apply length_zero_iff_nil in Z0; contradiction|].
  pose proof (get_values_spec (tag n) vs [] W1 St) as G. rewrite app_nil_r in G.
  destruct (tsize (tag n)) as [k|].
  - rewrite <- W2, Nat.eqb_refl, G. apply IH; assumption.
  - rewrite G. apply IH; assumption.
Qed.

Section Default.
Variable trv : value -> value.
Variable sel : Z -> bool.
Variable data : Z -> option (list value).

(** what element [f] should hold when its counterpart is [e] *)
Definition expected (e : Z) (old : option (list value)) : option (list value) :=
  if sel e then match data e with Some (v :: vs) => Some (map trv (v :: vs)) | _ => old end else old.

Lemma fold_deliver_other : forall name es fs d m x, (m <> name \/ ~ In x fs) ->
  fold_left upd_ev (deliver trv sel data name es fs) d m x = d m x.
Proof.
  intros name. induction es as [|e es IH]; intros fs d m x H; [reflexivity|].
  destruct fs as [|f fs]; [reflexivity|]. cbn [deliver]. rewrite fold_left_app.
  rewrite IH by (destruct H; [now left|right; intro; apply H; now right]).
  destruct (sel e); [|reflexivity]. destruct (data e) as [[|v vs]|]; try reflexivity.
  cbn [fold_left upd_ev].
  destruct (Nat.eqb_spec m name); [|reflexivity]. destruct (Z.eqb_spec x f); [|reflexivity].
  subst. destruct H as [H|H]; [congruence|]. exfalso; apply H; now left.
Qed.
Lemma fold_deliver_at : forall name es fs d j e f, NoDup fs ->
  nth_error es j = Some e -> nth_error fs j = Some f ->
  fold_left upd_ev (deliver trv sel data name es fs) d name f = expected e (d name f).
Proof.
  intros name. induction es as [|e0 es IH]; intros fs d j e f ND He Hf; [destruct j; discriminate|].
  destruct fs as [|f0 fs]; [destruct j; discriminate|]. inversion ND as [|? ? Nf NDf]; subst.
  cbn [deliver]. rewrite fold_left_app. destruct j as [|j]; cbn [nth_error] in *.
  - injection He as ->. injection Hf as ->.
    rewrite fold_deliver_other by (now right). unfold expected.
    destruct (sel e); [|reflexivity]. destruct (data e) as [[|v vs]|]; try reflexivity.
    cbn [fold_left upd_ev]. rewrite Nat.eqb_refl, Z.eqb_refl. reflexivity.
  - rewrite (IH fs _ j e f) by assumption.
    assert (f <> f0) as Nff by (intros ->; apply Nf; eapply nth_error_In; eauto).
    unfold expected. f_equal.
    assert (fold_left upd_ev
      (if sel e0 then match data e0 with Some (v :: vs) => [EDeliver name f0 (map trv (v :: vs))] | _ => [] end
       else []) d name f = d name f) as ->; [|reflexivity].
    destruct (sel e0); [|reflexivity]. destruct (data e0) as [[|v vs]|]; try reflexivity.
    cbn [fold_left upd_ev]. destruct (Z.eqb_spec f f0); [contradiction|]. rewrite andb_false_r. reflexivity.
Qed.
End Default.

Lemma fold_blocks_other : forall A (g : A -> list event) l d m x,
  (forall b d, In b l -> fold_left upd_ev (g b) d m x = d m x) ->
  fold_left upd_ev (flat_map g l) d m x = d m x.
Proof.
  intros A g. induction l as [|a r IH]; intros d m x H; [reflexivity|].
  cbn [flat_map]. rewrite fold_left_app, IH by (intros; apply H; now right). apply H. now left.
Qed.
Lemma fold_blocks : forall A (g : A -> list event) l a d m x h, NoDup l -> In a l ->
  (forall b d, In b l -> b <> a -> fold_left upd_ev (g b) d m x = d m x) ->
  (forall d, fold_left upd_ev (g a) d m x = h (d m x)) ->
  fold_left upd_ev (flat_map g l) d m x = h (d m x).
Proof.
  intros A g. induction l as [|b r IH]; intros a d m x h ND Ha Ho Hh; [contradiction|].
  inversion ND as [|? ? Nb NDr]; subst. cbn [flat_map]. rewrite fold_left_app.
  destruct Ha as [->|Ha].
  - rewrite fold_blocks_other; [apply Hh|]. intros b d' Hb. apply Ho; [now right|]. intros ->. contradiction.
  - rewrite (IH a _ m x h) by (auto; intros; apply Ho; auto; now right).
    rewrite Ho; [reflexivity|now left|]. intros ->. contradiction.
Qed.

Lemma deliver_wf : forall valid ppos unpacked (tag : nat -> tagd) sel data t name es fs,
  refs_ok we valid ppos unpacked ->
  (forall vs, wf_vals we t vs -> wf_vals we (tag name) vs) ->
  (forall e, In e es -> sel e = true -> forall vs, data e = Some vs -> wf_vals we t vs) ->
  Forall (fun ev => match ev with
    | EDeliver n e vs => vs <> [] /\ wf_vals we (tag n) vs /\ Forall stored vs
    | EDefine _ _ _ => False end) (deliver (tr_val we valid ppos unpacked) sel data name es fs).
Proof.
  intros valid ppos unpacked tag sel data t name es fs Hr Ht. revert fs.
  induction es as [|e es IH]; intros fs Hd; [constructor|]. destruct fs as [|f fs]; [constructor|].
  cbn [deliver]. apply Forall_app. split; [|apply IH; intros x Hx; apply Hd; now right].
  destruct (sel e) eqn:Es; [|constructor]. destruct (data e) as [[|v vs]|] eqn:Ed; try constructor; [|constructor].
  split; [discriminate|]. destruct (Hd e (or_introl eq_refl) Es _ Ed) as [W1 W2]. split.
  - apply Ht. split.
    + apply Forall_map. eapply Forall_impl; [|exact W1]. intros a Ha.
      unfold wf_val in *. destruct (tkind t), a; cbn; auto.
    + rewrite map_length. exact W2.
  - apply Forall_map. apply Forall_forall. intros a _. destruct a as [|h|]; cbn; auto.
    apply (pack_ref_spec valid ppos unpacked Hr sel data sel).
Qed.

(** ** One message with DefaultUnpack *)
Section Exchange.
Variable valid : Z -> bool.
Variable ppos : Z -> option Z.
Variable unpacked : list (list Z).
Hypothesis Hrefs : refs_ok we valid ppos unpacked.
Variables sel rsel : Z -> bool.
Variable mask : Z.
Variables E F : list (list Z).
Variable tag : nat -> tagd.
Variable dim : Z -> nat.
Variable create : nat -> nat -> bool -> (nat -> Z -> option (list value)) -> nat -> Z -> option (list value).
Hypothesis Hl : same_lists sel rsel E F.
Hypothesis HF : forall i, i < 6 -> NoDup (nth i F []).
Hypothesis HD : forall i j x, i < 6 -> j < 6 -> i <> j -> In x (nth i F []) -> ~ In x (nth j F []).

Definition pair_ok (p : tagd * (Z -> option (list value)) * tagd) : Prop :=
  sender_ok we (snd (fst p)) sel (fst (fst p)) mask E /\ same_tag (fst (fst p)) (snd p) mask /\
  (forall i, i < 6 -> came (fst (fst p)) mask i = true -> defined (snd p) i = true) /\
  tag (tname (snd p)) = snd p.

Let trv := tr_val we valid ppos unpacked.

Lemma type_other : forall t d0 rt i d m x,
  (m <> tname rt \/ came t mask i = false \/ ~ In x (nth i F [])) ->
  fold_left upd_ev (type_events trv sel d0 t rt mask E F i) d m x = d m x.
Proof.
  intros t d0 rt i d m x H. unfold type_events.
  destruct (came t mask i); [|reflexivity]. rewrite fold_left_app.
  rewrite fold_deliver_other by (destruct H as [?|[?|?]]; [now left|discriminate|now right]).
  destruct (defined rt i); reflexivity.
Qed.
Lemma tag_at : forall t d0 rt i j e f d, i < 6 -> came t mask i = true ->
  nth_error (nth i E []) j = Some e -> nth_error (nth i F []) j = Some f ->
  fold_left upd_ev (tag_events trv sel d0 t rt mask E F) d (tname rt) f =
  expected trv sel d0 e (d (tname rt) f).
Proof.
  intros t d0 rt i j e f d Hi Hc He Hf. unfold tag_events.
  apply (fold_blocks _ _ (seq 0 6) i d (tname rt) f (expected trv sel d0 e)).
  - apply seq_NoDup.
  - apply in_seq. lia.
  - intros b d' Hb Nb. apply type_other. right. right.
    apply (HD i b); auto; [now apply seq6|]. eapply nth_error_In; eauto.
  - intros d'. unfold type_events. rewrite Hc, fold_left_app.
    rewrite (fold_deliver_at trv sel d0 _ _ _ _ j e f) by auto.
    destruct (defined rt i); reflexivity.
Qed.
Lemma tag_other : forall t d0 rt d m x,
  (m <> tname rt \/ forall i, i < 6 -> came t mask i = true -> ~ In x (nth i F [])) ->
  fold_left upd_ev (tag_events trv sel d0 t rt mask E F) d m x = d m x.
Proof.
  intros t d0 rt d m x H. unfold tag_events. apply fold_blocks_other. intros i d' Hi.
  apply type_other. destruct H as [H|H]; [now left|]. right.
  destruct (came t mask i) eqn:Ec; [right|now left]. apply H; auto. now apply seq6.
Qed.

Lemma events_wf : forall p, pair_ok p ->
  Forall (fun ev => match ev with
    | EDeliver n e vs => vs <> [] /\ wf_vals we (tag n) vs /\ Forall stored vs
    | EDefine _ _ _ => False end)
   (tag_events trv sel (snd (fst p)) (fst (fst p)) (snd p) mask E F).
Proof.
  intros [[t d0] rt] (Hs & Ht & Hdef & Hn). cbn [fst snd] in *. unfold tag_events.
  apply Forall_flat_map, Forall_forall. intros i Hi. apply seq6 in Hi.
  unfold type_events. destruct (came t mask i) eqn:Ec; [|constructor].
  rewrite (Hdef i Hi Ec). cbn [app].
  apply (deliver_wf valid ppos unpacked tag sel d0 t); auto.
  - intros vs W. rewrite Hn. destruct Ht as (A & B & C & D & G & _).
    apply (like_wf t rt); auto. unfold like; auto.
  - destruct Hs as (_ & A & _). intros e He Hse vs Hv. specialize (A i e Hi Ec He Hse).
    now rewrite Hv in A.
Qed.

Lemma exchange_spec : forall l m d pre post,
  Forall pair_ok l -> NoDup (map (fun p => tname (snd p)) l) ->
  pack_tags we pad limit valid ppos sel (map fst l) mask E = Some m -> fits 8 (N.of_nat (length m)) ->
  exists d' ts', unpack_tags we pad limit _ rsel unpacked (default_unpack we pad tag dim) create
              (map snd l) F (pre ++ m ++ post) (length pre) d = Some (ts', d', length pre + length m) /\
    (forall p i j e f, In p l -> i < 6 -> came (fst (fst p)) mask i = true ->
       nth_error (nth i E []) j = Some e -> nth_error (nth i F []) j = Some f ->
       d' (tname (snd p)) f = expected trv sel (snd (fst p)) e (d (tname (snd p)) f)) /\
    (forall n x, (forall p i, In p l -> tname (snd p) = n -> i < 6 -> came (fst (fst p)) mask i = true ->
                     ~ In x (nth i F [])) -> d' n x = d n x).
Proof.
  intros l m d pre post Hok ND Hp Hf.
  assert (Forall (fun p => sender_ok we (snd (fst p)) sel (fst (fst p)) mask E /\ same_tag (fst (fst p)) (snd p) mask) l) as Hok2.
  { eapply Forall_impl; [|exact Hok]. intros p (A & B & _). auto. }
  pose proof (unpack_tags_spec valid ppos unpacked Hrefs sel rsel mask E F _ (default_unpack we pad tag dim) create
    l m pre post d Hok2 Hl Hp Hf) as U.
  rewrite run_default in U.
  2:{ unfold all_events. apply Forall_flat_map. eapply Forall_impl; [|exact Hok]. intros p Hpk. now apply events_wf. }
  eexists _, _. split; [exact U|]. clear U. unfold all_events. fold trv. split.
  - intros p i j e f Hin Hi Hc He Hf2.
    rewrite Forall_forall in Hok. specialize (Hok p Hin).
    apply (fold_blocks _ _ l p d (tname (snd p)) f (expected trv sel (snd (fst p)) e)); auto.
    + now apply NoDup_map_inv in ND.
    + intros b d' Hb Nb. apply tag_other. left. intros Eq. apply Nb.
      clear - ND Hb Hin Eq. induction l as [|a r IH]; [contradiction|].
      cbn [map] in ND. inversion ND as [|? ? Na NDr]; subst.
      destruct Hb as [->|Hb], Hin as [->|Hin]; auto.
      * exfalso. apply Na. rewrite <- Eq. apply (in_map (fun p => tname (snd p))). assumption.
      * exfalso. apply Na. rewrite Eq. apply (in_map (fun p => tname (snd p))). assumption.
    + intros d'. now apply (tag_at _ _ _ i j).
  - intros n x H. apply fold_blocks_other. intros p d' Hin. apply tag_other.
    destruct (Nat.eq_dec n (tname (snd p))) as [->|]; [right|now left].
    intros i Hi Hc. now apply (H p).
Qed.
End Exchange.
End S.
