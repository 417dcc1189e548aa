(** Proofs about the integer part of io_converter. *)
From Coq Require Import ZArith List Bool Lia Arith.
From Verif Require Import Util IoConv_Model IoConv_Spec.
Import ListNotations.
Open Scope Z_scope.

Lemma swap_at_length : forall t i j, length (swap_at t i j) = length t.
Proof. intros. unfold swap_at. now rewrite !lset_length. Qed.

Lemma nth_swap_at : forall t i j k,
  (i < length t)%nat -> (j < length t)%nat -> i <> j ->
  nth k (swap_at t i j) 0 =
  if (k =? i)%nat then nth j t 0 else if (k =? j)%nat then nth i t 0 else nth k t 0.
Proof.
  intros t i j k Hi Hj Hij. unfold swap_at.
  rewrite !nth_lset, !lset_length.
  repeat match goal with |- context [Nat.eqb ?a ?b] => destruct (Nat.eqb_spec a b) end;
  repeat match goal with |- context [Nat.ltb ?a ?b] => destruct (Nat.ltb_spec a b) end;
  simpl; subst; try lia; auto.
Qed.

Definition flip_step (n : nat) := fun (t : list Z) (i : nat) => swap_at t i (n - 1 - i).
Definition pair_step := fun (t : list Z) (k : nat) => swap_at t (2 * k) (2 * k + 1).

Lemma flip_inv : forall n t k, (n <= length t)%nat -> (k <= n / 2)%nat ->
  let r := fold_left (flip_step n) (seq 0 k) t in
  length r = length t /\
  forall i, nth i r 0 =
    if ((i <? k) || ((n - 1 - k <? i) && (i <? n)))%nat
    then nth (n - 1 - i) t 0 else nth i t 0.
Proof.
  intros n t k Hn. induction k as [|k IH]; intros Hk.
  - cbn [seq fold_left]. split; auto. intros i.
    destruct (Nat.ltb_spec i 0); [lia|]. cbn [orb].
    destruct (Nat.ltb_spec (n - 1 - 0) i), (Nat.ltb_spec i n); simpl; auto; lia.
  - rewrite seq_S, fold_left_app. cbn [fold_left]. rewrite Nat.add_0_l.
    destruct IH as [Hl IH]; [lia|].
    set (r := fold_left (flip_step n) (seq 0 k) t) in *. clearbody r.
    assert (n / 2 * 2 <= n)%nat by (rewrite Nat.mul_comm; apply Nat.mul_div_le; lia).
    change (flip_step n r k) with (swap_at r k (n - 1 - k)). split; [now rewrite swap_at_length|].
    intros i. rewrite nth_swap_at by (rewrite ?Hl; lia).
    rewrite !IH.
    repeat match goal with |- context [Nat.eqb ?a ?b] => destruct (Nat.eqb_spec a b) end;
    repeat match goal with |- context [Nat.ltb ?a ?b] => destruct (Nat.ltb_spec a b) end;
    cbn [orb andb]; subst; try lia; auto; f_equal; lia.
Qed.

Lemma flip_bytes_length : forall t n, (n <= length t)%nat ->
  length (flip_bytes t n) = length t.
Proof. intros. apply (flip_inv n t (n/2)); auto. Qed.

Lemma nth_flip_bytes : forall t n i, (n <= length t)%nat ->
  nth i (flip_bytes t n) 0 = if (i <? n)%nat then nth (n - 1 - i) t 0 else nth i t 0.
Proof.
  intros t n i Hn.
  destruct (flip_inv n t (n/2) Hn) as [_ H]; [lia|].
  change (flip_bytes t n) with (fold_left (flip_step n) (seq 0 (n/2)) t).
  rewrite H. clear H.
  assert (n / 2 * 2 <= n)%nat by (rewrite Nat.mul_comm; apply Nat.mul_div_le; lia).
  assert (n < S (n / 2) * 2)%nat.
  { rewrite Nat.mul_comm. apply Nat.mul_succ_div_gt. lia. }
  set (h := (n/2)%nat) in *. clearbody h.
  repeat match goal with |- context [Nat.ltb ?a ?b] => destruct (Nat.ltb_spec a b) end;
  cbn [orb andb]; try lia; auto; f_equal; lia.
Qed.

(** neighbour of a position *)
Definition twin (i : nat) : nat := if Nat.even i then i + 1 else i - 1.

Lemma twin_2k : forall k, twin (2 * k) = (2 * k + 1)%nat.
Proof. intros. unfold twin. now rewrite Nat.even_mul. Qed.
Lemma twin_2k1 : forall k, twin (2 * k + 1) = (2 * k)%nat.
Proof.
  intros. unfold twin. rewrite Nat.even_add, Nat.even_mul. simpl. lia.
Qed.

Lemma half_cases : forall i : nat, exists k, i = (2 * k)%nat \/ i = (2 * k + 1)%nat.
Proof. intros i. exists (i / 2)%nat. lia. Qed.

Lemma pair_inv : forall t k, (2 * k <= length t)%nat ->
  let r := fold_left pair_step (seq 0 k) t in
  length r = length t /\
  forall i, nth i r 0 = if (i <? 2 * k)%nat then nth (twin i) t 0 else nth i t 0.
Proof.
  intros t k. induction k as [|k IH]; intros Hk.
  - cbn [seq fold_left]. split; auto.
  - rewrite seq_S, fold_left_app. cbn [fold_left]. rewrite Nat.add_0_l.
    destruct IH as [Hl IH]; [lia|].
    set (r := fold_left pair_step (seq 0 k) t) in *. clearbody r.
    change (pair_step r k) with (swap_at r (2 * k) (2 * k + 1)). split; [now rewrite swap_at_length|].
    intros i. rewrite nth_swap_at by (rewrite ?Hl; lia). rewrite !IH.
    destruct (half_cases i) as [j [-> | ->]]; rewrite ?twin_2k, ?twin_2k1;
    repeat match goal with |- context [Nat.eqb ?a ?b] => destruct (Nat.eqb_spec a b) end;
    repeat match goal with |- context [Nat.ltb ?a ?b] => destruct (Nat.ltb_spec a b) end;
    subst; try lia; auto; f_equal; lia.
Qed.

Lemma even_half : forall n, Nat.even n = true -> (2 * ((n + 1) / 2) = n)%nat.
Proof. intros n H. apply Nat.even_spec in H. destruct H as [k ->]. lia. Qed.

Lemma pair_swap_length : forall t n, (n <= length t)%nat -> Nat.even n = true ->
  length (pair_swap t n) = length t.
Proof. intros. apply (pair_inv t ((n+1)/2)). rewrite even_half; auto. Qed.

Lemma nth_pair_swap : forall t n i, (n <= length t)%nat -> Nat.even n = true ->
  nth i (pair_swap t n) 0 = if (i <? n)%nat then nth (twin i) t 0 else nth i t 0.
Proof.
  intros t n i Hn He.
  destruct (pair_inv t ((n+1)/2)) as [_ H]; [rewrite even_half; auto|].
  rewrite even_half in H by auto. apply H.
Qed.

Lemma twin_lt : forall i n, Nat.even n = true -> (i < n)%nat -> (twin i < n)%nat.
Proof.
  intros i n He H. apply Nat.even_spec in He. destruct He as [m ->].
  destruct (half_cases i) as [k [-> | ->]]; rewrite ?twin_2k, ?twin_2k1; lia.
Qed.

Lemma twin_twin : forall i, twin (twin i) = i.
Proof.
  intros i. destruct (half_cases i) as [k [-> | ->]];
  rewrite ?twin_2k, ?twin_2k1, ?twin_2k, ?twin_2k1; lia.
Qed.

Lemma twin_flip : forall i n, Nat.even n = true -> (i < n)%nat ->
  twin (n - 1 - i) = (n - 1 - twin i)%nat.
Proof.
  intros i n He H. apply Nat.even_spec in He. destruct He as [m ->].
  destruct (half_cases i) as [k [-> | ->]]; rewrite ?twin_2k, ?twin_2k1.
  - replace (2 * m - 1 - 2 * k)%nat with (2 * (m - 1 - k) + 1)%nat by lia.
    rewrite twin_2k1. lia.
  - replace (2 * m - 1 - (2 * k + 1))%nat with (2 * (m - 1 - k))%nat by lia.
    rewrite twin_2k. lia.
Qed.

Lemma mem_length : forall o n v, length (mem o n v) = n.
Proof. intros. unfold mem. now rewrite map_length, seq_length. Qed.

Lemma nth_mem : forall o n v i, (i < n)%nat ->
  nth i (mem o n v) 0 = v / 256 ^ Z.of_nat (place o n i) mod 256.
Proof.
  intros o n v i H. unfold mem.
  set (f := fun i => v / 256 ^ Z.of_nat (place o n i) mod 256).
  rewrite (nth_indep (map f (seq 0 n)) 0 (f 0%nat))
    by now rewrite map_length, seq_length.
  rewrite (map_nth f). now rewrite seq_nth.
Qed.

Lemma place_middle : forall n i, place MiddleEndian n i = (n - 1 - twin i)%nat.
Proof. reflexivity. Qed.

(** the buffer starts with the memory of [v] *)
Definition holds (t : list Z) (o : iorder) (n : nat) (v : Z) : Prop :=
  forall i, (i < n)%nat -> nth i t 0 = v / 256 ^ Z.of_nat (place o n i) mod 256.

Lemma flip_length_any : forall t n, length (flip_bytes t n) = length t.
Proof.
  intros t n. unfold flip_bytes.
  generalize (seq 0 (n/2)) as l. intros l. revert t.
  induction l as [|a l IH]; intros t; [reflexivity|].
  cbn [fold_left]. rewrite IH. apply swap_at_length.
Qed.
Lemma pair_length_any : forall t n, length (pair_swap t n) = length t.
Proof.
  intros t n. unfold pair_swap.
  generalize (seq 0 ((n+1)/2)) as l. intros l. revert t.
  induction l as [|a l IH]; intros t; [reflexivity|].
  cbn [fold_left]. rewrite IH. apply swap_at_length.
Qed.

Lemma convert_length : forall t n a b,
  length (convert_endianess t n a b) = length t.
Proof.
  intros t n a b. unfold convert_endianess.
  destruct a, b; cbn [iorder_eqb big_or_little andb];
  rewrite ?flip_length_any, ?pair_length_any, ?flip_length_any; reflexivity.
Qed.

Lemma convert_holds : forall t n a b v,
  machine a n -> machine b n -> (n <= length t)%nat ->
  holds t a n v -> holds (convert_endianess t n a b) b n v.
Proof.
  intros t n a b v Ha Hb Hn H i Hi. unfold holds in H.
  unfold convert_endianess.
  destruct a, b; cbn [iorder_eqb big_or_little andb]; try contradiction;
  try (apply H; auto; fail).
  - rewrite nth_flip_bytes by auto. destruct (Nat.ltb_spec i n); [|lia].
    rewrite H by lia. reflexivity.
  - destruct Hb as [_ He].
    rewrite nth_pair_swap by (rewrite ?flip_length_any; auto).
    destruct (Nat.ltb_spec i n); [|lia]. rewrite nth_flip_bytes by auto.
    pose proof (twin_lt i n He Hi). destruct (Nat.ltb_spec (twin i) n); [|lia].
    rewrite H by lia. reflexivity.
  - rewrite nth_flip_bytes by auto. destruct (Nat.ltb_spec i n); [|lia].
    rewrite H by lia. cbn [place]. do 3 f_equal. lia.
  - destruct Hb as [_ He].
    rewrite nth_pair_swap by auto.
    destruct (Nat.ltb_spec i n); [|lia].
    pose proof (twin_lt i n He Hi).
    rewrite H by lia. reflexivity.
  - destruct Ha as [_ He].
    rewrite nth_flip_bytes by (rewrite pair_length_any; auto).
    destruct (Nat.ltb_spec i n); [|lia].
    rewrite nth_pair_swap by auto. destruct (Nat.ltb_spec (n - 1 - i) n); [|lia].
    rewrite twin_flip by auto. pose proof (twin_lt i n He Hi).
    rewrite H by lia. rewrite place_middle.
    rewrite twin_flip, twin_twin by auto. cbn [place]. do 3 f_equal. lia.
  - destruct Ha as [_ He].
    rewrite nth_pair_swap by auto. destruct (Nat.ltb_spec i n); [|lia].
    pose proof (twin_lt i n He Hi).
    rewrite H by lia. rewrite place_middle, twin_twin. reflexivity.
Qed.

(** reading from the stream *)
Lemma read_temp_length : forall t n s, (n <= length t)%nat ->
  length (read_temp t n s) = length t.
Proof.
  intros. unfold read_temp. rewrite app_length, skipn_length, firstn_length. lia.
Qed.

Lemma read_temp_holds : forall t o n v rest, (n <= length t)%nat ->
  holds (read_temp t n (mem o n v ++ rest)) o n v.
Proof.
  intros t o n v rest Hn i Hi. unfold read_temp.
  assert (E : firstn n (mem o n v ++ rest) = mem o n v).
  { rewrite firstn_app, mem_length, Nat.sub_diag, firstn_O, app_nil_r.
    apply firstn_all2. rewrite mem_length. lia. }
  rewrite E, app_nth1 by (now rewrite mem_length). now apply nth_mem.
Qed.

Lemma skipn_mem : forall o n v rest, skipn n (mem o n v ++ rest) = rest.
Proof.
  intros. rewrite skipn_app, mem_length, Nat.sub_diag. cbn [skipn].
  rewrite skipn_all2; [reflexivity|]. rewrite mem_length. lia.
Qed.

(** the copies *)
Lemma copy_up_ok : forall t m b, (m <= length b)%nat ->
  length (copy_up b t m) = length b /\
  forall i, nth i (copy_up b t m) 0 = if (i <? m)%nat then nth i t 0 else nth i b 0.
Proof.
  intros t m b. unfold copy_up. induction m as [|m IH]; intros Hm.
  - split; auto.
  - rewrite seq_S, fold_left_app. cbn [fold_left]. rewrite Nat.add_0_l.
    destruct IH as [Hl IH]; [lia|]. split; [now rewrite lset_length|].
    intros i. rewrite nth_lset, Hl, IH.
    repeat match goal with |- context [Nat.eqb ?a ?b] => destruct (Nat.eqb_spec a b) end;
    repeat match goal with |- context [Nat.ltb ?a ?b] => destruct (Nat.ltb_spec a b) end;
    cbn [andb]; subst; try lia; auto.
Qed.

Lemma copy_down_wide : forall (src loc : nat) t k fuel b,
  (loc < src)%nat -> (src <= 255)%nat -> (k <= loc)%nat -> (k < fuel)%nat ->
  length b = loc ->
  exists r,
    copy_down fuel (Z.of_nat (src - loc + k) - 1) (Z.of_nat src) (Z.of_nat loc)
      (Z.of_nat loc) b t = Some r /\ length r = loc /\
    forall i, nth i r 0 = if (i <? k)%nat then nth (i + (src - loc)) t 0 else nth i b 0.
Proof.
  intros src loc t k. induction k as [|k IH]; intros fuel b Hl Hs Hk Hf Hb.
  - destruct fuel as [|fuel]; [lia|]. cbn [copy_down].
    destruct (Z.leb_spec (Z.of_nat src - Z.of_nat loc) (Z.of_nat (src - loc + 0) - 1));
      [lia|]. exists b. auto.
  - destruct fuel as [|fuel]; [lia|]. cbn [copy_down].
    destruct (Z.leb_spec (Z.of_nat src - Z.of_nat loc) (Z.of_nat (src - loc + S k) - 1));
      [|lia].
    replace ((Z.of_nat (src - loc + S k) - 1 <? 255)) with true
      by (symmetry; apply Z.ltb_lt; lia).
    replace (0 <=? Z.of_nat (src - loc + S k) - 1 + Z.of_nat loc - Z.of_nat src) with true
      by (symmetry; apply Z.leb_le; lia).
    replace (Z.of_nat (src - loc + S k) - 1 + Z.of_nat loc - Z.of_nat src <? Z.of_nat loc)
      with true by (symmetry; apply Z.ltb_lt; lia).
    cbn [andb].
    rewrite Z.mod_small by lia.
    replace (Z.of_nat (src - loc + S k) - 1 - 1)
      with (Z.of_nat (src - loc + k) - 1) by lia.
    replace (Z.to_nat (Z.of_nat (src - loc + S k) - 1 + Z.of_nat loc - Z.of_nat src))
      with k by lia.
    replace (Z.to_nat (Z.of_nat (src - loc + S k) - 1)) with (k + (src - loc))%nat by lia.
    destruct (IH fuel (lset b k (nth (k + (src - loc)) t 0))) as [r [Hr [Hlr Hn]]];
      try lia; [now rewrite lset_length|].
    exists r. split; [exact Hr|]. split; [exact Hlr|].
    intros i. rewrite Hn, nth_lset, Hb.
    repeat match goal with |- context [Nat.eqb ?a ?b] => destruct (Nat.eqb_spec a b) end;
    repeat match goal with |- context [Nat.ltb ?a ?b] => destruct (Nat.ltb_spec a b) end;
    cbn [andb]; subst; try lia; auto.
Qed.

(** the descending copy of a value that is not wider never ends *)
Lemma copy_down_narrow : forall (src loc : nat) t fuel k b,
  (src <= loc)%nat -> (1 <= src <= 255)%nat -> (k <= src)%nat ->
  copy_down fuel ((Z.of_nat k - 1) mod 256) (Z.of_nat src) (Z.of_nat src)
    (Z.of_nat loc) b t = None.
Proof.
  intros src loc t fuel. induction fuel as [|fuel IH]; intros k b Hl Hs Hk;
    [reflexivity|].
  cbn [copy_down].
  destruct (Z.leb_spec (Z.of_nat src - Z.of_nat src) ((Z.of_nat k - 1) mod 256)).
  2:{ pose proof (Z.mod_pos_bound (Z.of_nat k - 1) 256). lia. }
  destruct k as [|k].
  - change ((Z.of_nat 0 - 1) mod 256) with 255. reflexivity.
  - rewrite (Z.mod_small (Z.of_nat (S k) - 1)) by lia.
    replace (Z.of_nat (S k) - 1 - 1) with (Z.of_nat k - 1) by lia.
    destruct ((Z.of_nat (S k) - 1 <? 255) &&
      (0 <=? Z.of_nat (S k) - 1 + Z.of_nat loc - Z.of_nat src) &&
      (Z.of_nat (S k) - 1 + Z.of_nat loc - Z.of_nat src <? Z.of_nat loc)); auto.
    apply IH; lia.
Qed.

Lemma byte_of_mod : forall v s i, (i < s)%nat ->
  v mod 256 ^ Z.of_nat s / 256 ^ Z.of_nat i mod 256 = v / 256 ^ Z.of_nat i mod 256.
Proof.
  intros v s i H.
  replace (Z.of_nat s) with (Z.of_nat i + (1 + Z.of_nat (s - i - 1))) by lia.
  rewrite Z.pow_add_r, Z.pow_add_r by lia.
  set (p := 256 ^ Z.of_nat i). set (q := 256 ^ Z.of_nat (s - i - 1)).
  assert (0 < p) by (apply Z.pow_pos_nonneg; lia).
  assert (0 < q) by (apply Z.pow_pos_nonneg; lia).
  rewrite Z.rem_mul_r by lia.
  rewrite (Z.mul_comm p (v / p mod _)), Z.div_add by lia.
  rewrite (Z.div_small (v mod p)) by (apply Z.mod_pos_bound; lia).
  rewrite Z.add_0_l. change (256 ^ 1) with 256.
  rewrite Z.rem_mul_r by lia.
  rewrite Z.mul_comm, Z.mod_add by lia. now rewrite Z.mod_mod by lia.
Qed.

Lemma high_byte_zero : forall v s i, (s <= i)%nat ->
  v mod 256 ^ Z.of_nat s / 256 ^ Z.of_nat i mod 256 = 0.
Proof.
  intros v s i H.
  assert (0 < 256 ^ Z.of_nat s) by (apply Z.pow_pos_nonneg; lia).
  pose proof (Z.mod_pos_bound v (256 ^ Z.of_nat s) ltac:(lia)).
  rewrite Z.div_small; [reflexivity|].
  split; [lia|]. eapply Z.lt_le_trans; [apply H1|].
  apply Z.pow_le_mono_r; lia.
Qed.

Lemma list_nth_ext : forall (a b : list Z), length a = length b ->
  (forall i, (i < length a)%nat -> nth i a 0 = nth i b 0) -> a = b.
Proof. intros. now apply nth_ext with (d := 0) (d' := 0). Qed.

Lemma nth_zeros : forall n i, nth i (repeat 0 n) 0 = 0.
Proof. induction n; intros [|i]; simpl; auto. Qed.

(** little-endian reader *)
Lemma read_int_little : forall loc c o v rest,
  local_iorder c = LittleEndian -> source_iorder c = o ->
  machine o (source_ibytes c) -> length (temp c) = 255%nat ->
  exists c',
    read_int loc c (mem o (source_ibytes c) v ++ rest) =
      Some (mem LittleEndian loc (v mod 256 ^ Z.of_nat (source_ibytes c)), c', rest) /\
    (exists t, c' = set_temp c t /\ length t = 255%nat).
Proof.
  intros loc c o v rest Hlo Hso Hm Ht. unfold read_int. rewrite Hlo, Hso.
  set (s := source_ibytes c) in *.
  assert (Hs : (1 <= s <= 254)%nat) by (destruct o; cbn [machine] in Hm; intuition lia).
  set (t1 := read_temp (temp c) s (mem o s v ++ rest)).
  assert (Hl1 : length t1 = 255%nat) by (unfold t1; rewrite read_temp_length; lia).
  assert (H2 : holds (convert_endianess t1 s o LittleEndian) LittleEndian s v).
  { apply convert_holds; [exact Hm|cbn [machine]; lia|lia|].
    apply read_temp_holds. lia. }
  assert (Hl2 : length (convert_endianess t1 s o LittleEndian) = 255%nat)
    by now rewrite convert_length.
  set (t2 := convert_endianess t1 s o LittleEndian) in *.
  exists (set_temp c t2). split; [|exists t2; auto].
  rewrite skipn_mem. do 3 f_equal.
  destruct (copy_up_ok t2 (Nat.min loc s) (repeat 0 loc)) as [Hlc Hc];
    [rewrite repeat_length; lia|].
  rewrite repeat_length in Hlc.
  apply list_nth_ext; [now rewrite mem_length|].
  rewrite Hlc. intros i Hi. rewrite Hc, nth_mem by auto. cbn [place].
  destruct (Nat.ltb_spec i (Nat.min loc s)).
  - rewrite H2 by lia. cbn [place]. rewrite byte_of_mod by lia. reflexivity.
  - rewrite nth_zeros. rewrite high_byte_zero by lia. reflexivity.
Qed.

Lemma place_shift : forall o s l i, o <> LittleEndian -> machine o s -> machine o l ->
  (l <= s)%nat -> (i < l)%nat -> place o s (i + (s - l)) = place o l i.
Proof.
  intros o s l i Ho Hs Hl Hsl Hi. destruct o; try contradiction.
  - cbn [place]. lia.
  - rewrite !place_middle.
    destruct Hs as [_ Hs], Hl as [_ Hl].
    pose proof (twin_lt i l Hl Hi) as Ht.
    apply Nat.even_spec in Hs, Hl. destruct Hs as [a ->], Hl as [b ->].
    destruct (half_cases i) as [k [-> | ->]].
    + replace (2 * k + (2 * a - 2 * b))%nat with (2 * (k + (a - b)))%nat by lia.
      rewrite !twin_2k in *. lia.
    + replace (2 * k + 1 + (2 * a - 2 * b))%nat with (2 * (k + (a - b)) + 1)%nat by lia.
      rewrite !twin_2k1 in *. lia.
Qed.

(** big- or middle-endian reader, wider source *)
Lemma read_int_wide : forall loc c o v rest,
  local_iorder c <> LittleEndian -> source_iorder c = o ->
  machine o (source_ibytes c) ->
  machine (local_iorder c) (source_ibytes c) -> machine (local_iorder c) loc ->
  (loc < source_ibytes c)%nat -> length (temp c) = 255%nat ->
  exists c',
    read_int loc c (mem o (source_ibytes c) v ++ rest) =
      Some (mem (local_iorder c) loc v, c', rest) /\
    (exists t, c' = set_temp c t /\ length t = 255%nat).
Proof.
  intros loc c o v rest Hlo Hso Hm Hms Hml Hw Ht. unfold read_int. rewrite Hso.
  set (s := source_ibytes c) in *.
  assert (Hs : (1 <= s <= 254)%nat) by (destruct o; cbn [machine] in Hm; intuition lia).
  set (t1 := read_temp (temp c) s (mem o s v ++ rest)).
  assert (Hl1 : length t1 = 255%nat) by (unfold t1; rewrite read_temp_length; lia).
  set (b := local_iorder c) in *.
  assert (H2 : holds (convert_endianess t1 s o b) b s v).
  { apply convert_holds; [exact Hm|exact Hms|lia|]. apply read_temp_holds. lia. }
  assert (Hl2 : length (convert_endianess t1 s o b) = 255%nat)
    by now rewrite convert_length.
  set (t2 := convert_endianess t1 s o b) in *.
  rewrite skipn_mem. rewrite Nat.min_l by lia.
  destruct (copy_down_wide s loc t2 loc 300 (repeat 0 loc)) as [r [Hr [Hlr Hn]]];
    try lia; [now rewrite repeat_length|].
  replace (Z.of_nat (s - loc + loc) - 1) with ((Z.of_nat s - 1) mod 256) in Hr
    by (rewrite Z.mod_small; lia).
  assert (Er : r = mem b loc v).
  { apply list_nth_ext; [now rewrite mem_length|].
    rewrite Hlr. intros i Hi. rewrite Hn, nth_mem by auto.
    destruct (Nat.ltb_spec i loc); [|lia].
    rewrite H2 by lia. rewrite place_shift by auto with zarith. reflexivity. }
  subst r. exists (set_temp c t2). split; [|exists t2; auto].
  destruct b; try contradiction; rewrite Hr; reflexivity.
Qed.

(** big- or middle-endian reader, source not wider: out of bounds *)
Lemma read_int_narrow : forall loc c s,
  local_iorder c <> LittleEndian ->
  (1 <= source_ibytes c <= loc)%nat -> (source_ibytes c <= 255)%nat ->
  read_int loc c s = None.
Proof.
  intros loc c s Hlo H1 H2. unfold read_int. rewrite Nat.min_r by lia.
  destruct (local_iorder c); try contradiction;
  rewrite copy_down_narrow; auto; lia.
Qed.

(** ** Loads *)
Lemma le_value_digits : forall n v f,
  (forall i, f i = v / 256 ^ Z.of_nat i mod 256) ->
  le_value (map f (seq 0 n)) = v mod 256 ^ Z.of_nat n.
Proof.
  induction n as [|n IH]; intros v f Hf.
  - cbn. now rewrite Z.mod_1_r.
  - cbn [seq map le_value]. rewrite <- seq_shift, map_map.
    rewrite (IH (v / 256) (fun i => f (S i))).
    + rewrite Hf. change (256 ^ Z.of_nat 0) with 1. rewrite Z.div_1_r.
      rewrite Nat2Z.inj_succ, Z.pow_succ_r by lia.
      rewrite (Z.rem_mul_r v 256); [reflexivity|lia|].
      apply Z.pow_pos_nonneg; lia.
    + intros i. rewrite Hf, Nat2Z.inj_succ, Z.pow_succ_r by lia.
      rewrite Z.div_div; [reflexivity|lia|]. apply Z.pow_pos_nonneg; lia.
Qed.

Lemma rev_mem_big : forall n v, rev (mem BigEndian n v) = mem LittleEndian n v.
Proof.
  intros n v. apply list_nth_ext; [now rewrite rev_length, !mem_length|].
  rewrite rev_length, mem_length. intros i Hi.
  rewrite rev_nth by now rewrite mem_length.
  rewrite mem_length, !nth_mem by lia. cbn [place]. do 3 f_equal. lia.
Qed.


Lemma swap_pairs_spec : forall m b, length b = (2 * m)%nat ->
  length (swap_pairs b) = length b /\
  forall i, (i < 2 * m)%nat -> nth i (swap_pairs b) 0 = nth (twin i) b 0.
Proof.
  induction m as [|m IH]; intros b Hb.
  - destruct b; [|discriminate]. split; [reflexivity|]. intros i Hi; lia.
  - destruct b as [|x [|y t]]; cbn [length] in Hb; try lia.
    destruct (IH t) as [Hl H]; [lia|].
    split; [cbn [swap_pairs length]; lia|].
    intros i Hi. destruct i as [|[|i]]; try reflexivity.
    cbn [swap_pairs]. change (nth (S (S i)) (y :: x :: swap_pairs t) 0)
      with (nth i (swap_pairs t) 0). rewrite H by lia.
    replace (twin (S (S i))) with (S (S (twin i))); [reflexivity|].
    destruct (half_cases i) as [k [-> | ->]].
    + rewrite twin_2k. replace (S (S (2 * k))) with (2 * (S k))%nat by lia.
      rewrite twin_2k. lia.
    + rewrite twin_2k1. replace (S (S (2 * k + 1))) with (2 * (S k) + 1)%nat by lia.
      rewrite twin_2k1. lia.
Qed.

Lemma load_mem : forall o n v, machine o n ->
  load o (mem o n v) = v mod 256 ^ Z.of_nat n.
Proof.
  intros o n v Hm. destruct o; try contradiction; cbn [load].
  - apply le_value_digits. reflexivity.
  - rewrite rev_mem_big. apply le_value_digits. reflexivity.
  - destruct Hm as [Hn He].
    assert (E : swap_pairs (mem MiddleEndian n v) = mem BigEndian n v).
    { assert (Hh : n = (2 * (n / 2))%nat).
      { apply Nat.even_spec in He. destruct He as [k ->]. lia. }
      destruct (swap_pairs_spec (n / 2) (mem MiddleEndian n v)) as [Hl H];
        [rewrite mem_length; exact Hh|].
      rewrite <- Hh in H.
      apply list_nth_ext; [now rewrite Hl, !mem_length|].
      rewrite Hl, mem_length. intros i Hi.
      rewrite H by auto. pose proof (twin_lt i n He Hi).
      rewrite !nth_mem by auto. rewrite place_middle, twin_twin. reflexivity. }
    rewrite E, rev_mem_big. apply le_value_digits. reflexivity.
Qed.
