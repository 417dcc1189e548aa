(** Properties C35, C36, C57: numbers in files survive differences between
    the machine that wrote them and the one that reads them. *)
From Coq Require Import ZArith List Bool Lia Reals Lra.
From Flocq Require Import Core.Core IEEE754.Binary IEEE754.Bits.
From Verif Require Import Util IoConv_Model IoConv_Spec IoConv_Proofs IoConvF_Proofs.
Import ListNotations.
Open Scope Z_scope.

(** A converter of a real machine: its sizes fit a byte, its buffer has 255 bytes. *)
Definition converter (c : conv) : Prop :=
  machine (local_iorder c) (local_ibytes c) /\ (local_fbytes c <= 255)%nat /\
  length (temp c) = 255%nat.

(** The file a machine [w] writes: header and then the integers [vs]. *)
Definition file (w : conv) (vs : list Z) : list Z :=
  write_header w ++
  flat_map (fun v => write_iValue (mem (local_iorder w) (local_ibytes w) v)) vs.

(** Memory determines the number: a load gives back what is represented. *)
Theorem C35_memory_is_faithful : forall o n v, machine o n -> 0 <= v < 256 ^ Z.of_nat n ->
  load o (mem o n v) = v.
Proof. intros o n v Hm Hv. rewrite load_mem by auto. now apply Z.mod_small. Qed.
Print Assumptions C35_memory_is_faithful.

Lemma header_ok : forall w c s, converter w ->
  exists c1, read_header c (write_header w ++ s) = Some (c1, s) /\
    source_iorder c1 = local_iorder w /\ source_ibytes c1 = local_ibytes w /\
    source_forder c1 = local_forder w /\ source_fbytes c1 = local_fbytes w /\
    local_iorder c1 = local_iorder c /\ local_ibytes c1 = local_ibytes c /\
    local_forder c1 = local_forder c /\ local_fbytes c1 = local_fbytes c /\
    temp c1 = temp c.
Proof.
  intros w c s [Hm [Hf Ht]]. eexists. split; [reflexivity|].
  cbn [source_iorder source_ibytes source_forder source_fbytes
       local_iorder local_ibytes local_forder local_fbytes temp].
  assert (Hi : (local_ibytes w <= 254)%nat)
    by (destruct (local_iorder w); cbn [machine] in Hm; intuition lia).
  rewrite !Z.mod_small, !Nat2Z.id by lia.
  split; [destruct (local_iorder w); reflexivity|]. split; [reflexivity|].
  split; [destruct (local_forder w); reflexivity|]. auto 8.
Qed.

(** The header tells the reader how the file was written. *)
Theorem C35_header : forall w c s, converter w ->
  exists c1, read_header c (write_header w ++ s) = Some (c1, s) /\
    source_iorder c1 = local_iorder w /\ source_ibytes c1 = local_ibytes w /\
    source_forder c1 = local_forder w /\ source_fbytes c1 = local_fbytes w /\
    local_iorder c1 = local_iorder c /\ local_ibytes c1 = local_ibytes c.
Proof.
  intros w c s Hw. destruct (header_ok w c s Hw) as [c1 H]. exists c1. tauto.
Qed.
Print Assumptions C35_header.

Lemma read_many : forall (P : Z -> Prop) (f : Z -> list Z) vs c rest,
  (forall c1 v r, P v -> length (temp c1) = 255%nat ->
     local_iorder c1 = local_iorder c -> local_ibytes c1 = local_ibytes c ->
     source_iorder c1 = source_iorder c -> source_ibytes c1 = source_ibytes c ->
     exists c2, read_iValue c1 (mem (source_iorder c) (source_ibytes c) v ++ r) =
       Some (f v, c2, r) /\ exists t, c2 = set_temp c1 t /\ length t = 255%nat) ->
  Forall P vs ->
  forall c1, length (temp c1) = 255%nat ->
  local_iorder c1 = local_iorder c -> local_ibytes c1 = local_ibytes c ->
  source_iorder c1 = source_iorder c -> source_ibytes c1 = source_ibytes c ->
  read_iValues (length vs) c1
    (flat_map (fun v => write_iValue (mem (source_iorder c) (source_ibytes c) v)) vs ++ rest)
  = Some (map f vs, rest).
Proof.
  intros P f vs c rest Hstep HP. induction HP as [|v vs Hv HP IH];
    intros c1 Ht H1 H2 H3 H4; [reflexivity|].
  cbn [length read_iValues flat_map map]. rewrite <- app_assoc. unfold write_iValue at 1.
  destruct (Hstep c1 v
    (flat_map (fun v => write_iValue (mem (source_iorder c) (source_ibytes c) v)) vs ++ rest)
    Hv Ht H1 H2 H3 H4) as [c2 [Hr [t [-> Htt]]]].
  rewrite Hr. rewrite IH; auto.
Qed.

(** A little-endian machine reads back every non-negative integer that fits
    both machines, written by a machine of any byte order and width. *)
Theorem C35_little_endian_reader : forall w c vs rest,
  converter w -> converter c -> local_iorder c = LittleEndian ->
  Forall (fun v => 0 <= v < 256 ^ Z.of_nat (local_ibytes w) /\
                   v < 256 ^ Z.of_nat (local_ibytes c)) vs ->
  exists c1 s1,
    read_header c (file w vs ++ rest) = Some (c1, s1) /\
    read_iValues (length vs) c1 s1 =
      Some (map (mem (local_iorder c) (local_ibytes c)) vs, rest).
Proof.
  intros w c vs rest Hw Hc Hlo Hvs. unfold file. rewrite <- app_assoc.
  match goal with |- context [write_header w ++ ?s] =>
    destruct (header_ok w c s Hw) as [c1 [Hr [E1 [E2 [_ [_ [E3 [E4 [_ [_ E5]]]]]]]]]] end.
  exists c1. eexists. split; [exact Hr|]. rewrite <- E1, <- E2.
  apply (read_many (fun v => 0 <= v < 256 ^ Z.of_nat (local_ibytes w) /\
                   v < 256 ^ Z.of_nat (local_ibytes c)) _ vs c1); auto.
  2:{ rewrite E5. apply Hc. }
  intros c2 v r Hv Ht K1 K2 K3 K4.
  destruct (read_int_little (local_ibytes c2) c2 (source_iorder c1) v r)
    as [c3 [Hr3 Hc3]]; try congruence.
  { rewrite K4, E1, E2. apply Hw. }
  exists c3. split; [|exact Hc3]. unfold read_iValue. rewrite K4 in Hr3.
  rewrite Hr3. rewrite Z.mod_small by (rewrite E2; lia).
  rewrite Hlo, K2, E4. reflexivity.
Qed.
Print Assumptions C35_little_endian_reader.

(** A big- or middle-endian machine reads back every integer that fits it when
    the writing machine has wider integers. *)
Theorem C35_wider_source : forall w c vs rest,
  converter w -> converter c -> (local_ibytes c < local_ibytes w)%nat ->
  machine (local_iorder c) (local_ibytes w) -> local_iorder c <> LittleEndian ->
  exists c1 s1,
    read_header c (file w vs ++ rest) = Some (c1, s1) /\
    read_iValues (length vs) c1 s1 =
      Some (map (mem (local_iorder c) (local_ibytes c)) vs, rest).
Proof.
  intros w c vs rest Hw Hc Hlt Hm Hlo. unfold file. rewrite <- app_assoc.
  match goal with |- context [write_header w ++ ?s] =>
    destruct (header_ok w c s Hw) as [c1 [Hr [E1 [E2 [_ [_ [E3 [E4 [_ [_ E5]]]]]]]]]] end.
  exists c1. eexists. split; [exact Hr|]. rewrite <- E1, <- E2.
  apply (read_many (fun v => True) _ vs c1); auto.
  3:{ rewrite E5. apply Hc. }
  2:{ apply Forall_forall. auto. }
  intros c2 v r _ Ht K1 K2 K3 K4.
  destruct (read_int_wide (local_ibytes c2) c2 (source_iorder c1) v r)
    as [c3 [Hr3 Hc3]]; try congruence.
  { rewrite K4, E1, E2. apply Hw. }
  { rewrite K1, K2, E3, E4. apply Hc. }
  exists c3. split; [|exact Hc3]. unfold read_iValue. rewrite K4 in Hr3.
  rewrite Hr3. rewrite K1, K2, E3, E4. reflexivity.
Qed.
Print Assumptions C35_wider_source.

(** It reads nothing in the remaining cases, among them files written by the
    same machine: the loop variable never becomes negative. *)
Theorem C35_big_endian_refuted : forall w c vs rest c1 s1,
  converter w -> converter c -> (local_ibytes w <= local_ibytes c)%nat ->
  local_iorder c <> LittleEndian -> vs <> [] ->
  read_header c (file w vs ++ rest) = Some (c1, s1) ->
  read_iValues (length vs) c1 s1 = None.
Proof.
  intros w c vs rest c1 s1 Hw Hc Hle Hlo Hvs H. unfold file in H.
  rewrite <- app_assoc in H.
  match type of H with context [write_header w ++ ?s] =>
    destruct (header_ok w c s Hw) as [c2 [Hr [E1 [E2 [_ [_ [E3 [E4 [_ [_ E5]]]]]]]]]] end.
  rewrite Hr in H. injection H as -> <-.
  destruct vs as [|v vs]; [contradiction|]. cbn [length read_iValues].
  assert (Hi : (1 <= local_ibytes w <= 254)%nat).
  { destruct Hw as [Hm _]. destruct (local_iorder w); cbn [machine] in Hm; intuition lia. }
  unfold read_iValue. rewrite read_int_narrow; auto.
  - congruence.
  - rewrite E2, E4. lia.
  - rewrite E2. lia.
Qed.
Print Assumptions C35_big_endian_refuted.

(** Reading into a 64 bit counter (read_iValue_uint64_t). *)
Theorem C35_read_uint64 : forall w c v rest,
  converter w -> local_iorder c = LittleEndian -> length (temp c) = 255%nat ->
  source_iorder c = local_iorder w -> source_ibytes c = local_ibytes w ->
  0 <= v < 256 ^ Z.of_nat (local_ibytes w) ->
  exists c', read_iValue_uint64_t c (mem (local_iorder w) (local_ibytes w) v ++ rest) =
    Some (mem LittleEndian 8 v, c', rest).
Proof.
  intros w c v rest Hw Hlo Ht H1 H2 Hv.
  destruct (read_int_little 8 c (local_iorder w) v rest) as [c3 [Hr3 _]]; auto.
  { rewrite H2. apply Hw. }
  exists c3. unfold read_iValue_uint64_t. rewrite H2 in Hr3. rewrite Hr3.
  rewrite Z.mod_small by lia. reflexivity.
Qed.
Print Assumptions C35_read_uint64.

(** Two machines: a big-endian one with 8 byte and a little-endian one with
    4 byte integers. *)
Definition bgp : conv :=
  MkConv BigEndian iUnknown IEEE fUnknown 8 8 255 255 (repeat 7 255).
Definition pc : conv :=
  MkConv LittleEndian iUnknown IEEE fUnknown 4 8 255 255 (repeat 9 255).

Example C35_nonvacuous :
  converter bgp /\ converter pc /\ local_iorder pc = LittleEndian /\
  Forall (fun v => 0 <= v < 256 ^ Z.of_nat (local_ibytes bgp) /\
                   v < 256 ^ Z.of_nat (local_ibytes pc)) [0; 5; 70000; 4000000000] /\
  file bgp [70000] = [2; 8; 1; 8; 0; 0; 0; 0; 0; 1; 17; 112] /\
  (local_ibytes pc <= local_ibytes bgp)%nat.
Proof.
  split; [|split; [|split; [|split; [|split]]]].
  - unfold converter. cbn; lia.
  - unfold converter. cbn; lia.
  - reflexivity.
  - repeat constructor; cbn; lia.
  - reflexivity.
  - cbn; lia.
Qed.

(** ** C36: negative integers *)

(** Two's complement survives when the reader's integers are not wider. *)
Theorem C36_not_wider : forall c v rest,
  local_iorder c = LittleEndian -> length (temp c) = 255%nat ->
  machine (source_iorder c) (source_ibytes c) ->
  (local_ibytes c <= source_ibytes c)%nat ->
  exists c', read_iValue c (mem (source_iorder c) (source_ibytes c) v ++ rest) =
    Some (mem LittleEndian (local_ibytes c) v, c', rest).
Proof.
  intros c v rest Hlo Ht Hm Hle.
  destruct (read_int_little (local_ibytes c) c (source_iorder c) v rest)
    as [c' [Hr _]]; auto.
  exists c'. unfold read_iValue. rewrite Hr. do 3 f_equal.
  apply list_nth_ext; [now rewrite !mem_length|].
  rewrite mem_length. intros i Hi. rewrite !nth_mem by auto. cbn [place].
  apply byte_of_mod. lia.
Qed.
Print Assumptions C36_not_wider.

(** A reader with wider integers gets the number increased by the range of the
    writer's integers, never the negative number itself. *)
Theorem C36_wider_refuted : forall c v rest,
  local_iorder c = LittleEndian -> length (temp c) = 255%nat ->
  machine (source_iorder c) (source_ibytes c) ->
  (source_ibytes c < local_ibytes c)%nat -> (local_ibytes c <= 254)%nat ->
  - 256 ^ Z.of_nat (source_ibytes c) <= v < 0 ->
  exists c' b,
    read_iValue c (mem (source_iorder c) (source_ibytes c) v ++ rest) = Some (b, c', rest) /\
    b = mem LittleEndian (local_ibytes c) (v + 256 ^ Z.of_nat (source_ibytes c)) /\
    b <> mem LittleEndian (local_ibytes c) v.
Proof.
  intros c v rest Hlo Ht Hm Hlt Hmax Hv.
  destruct (read_int_little (local_ibytes c) c (source_iorder c) v rest)
    as [c' [Hr _]]; auto.
  set (s := source_ibytes c) in *. set (l := local_ibytes c) in *.
  assert (Hp : 0 < 256 ^ Z.of_nat s) by (apply Z.pow_pos_nonneg; lia).
  assert (Hlt2 : 256 ^ Z.of_nat s < 256 ^ Z.of_nat l) by (apply Z.pow_lt_mono_r; lia).
  assert (Hlt3 : 256 * 256 ^ Z.of_nat s <= 256 ^ Z.of_nat l).
  { change 256 with (256 ^ 1) at 1. rewrite <- Z.pow_add_r by lia.
    apply Z.pow_le_mono_r; lia. }
  assert (Em : v mod 256 ^ Z.of_nat s = v + 256 ^ Z.of_nat s).
  { symmetry. apply Z.mod_unique_pos with (-1); lia. }
  exists c'. eexists. split; [unfold read_iValue; exact Hr|]. rewrite Em.
  split; [reflexivity|]. intros E.
  assert (M : machine LittleEndian l) by (cbn [machine]; lia).
  pose proof (f_equal (load LittleEndian) E) as F.
  rewrite !load_mem in F by auto. clear E.
  rewrite (Z.mod_small (v + _)) in F by lia.
  assert (Em2 : v mod 256 ^ Z.of_nat l = v + 256 ^ Z.of_nat l).
  { symmetry. apply Z.mod_unique_pos with (-1); lia. }
  lia.
Qed.
Print Assumptions C36_wider_refuted.

Definition wide_pc : conv :=
  MkConv LittleEndian LittleEndian IEEE IEEE 8 8 4 8 (repeat 9 255).

Example C36_nonvacuous :
  local_iorder wide_pc = LittleEndian /\ length (temp wide_pc) = 255%nat /\
  machine (source_iorder wide_pc) (source_ibytes wide_pc) /\
  (source_ibytes wide_pc < local_ibytes wide_pc)%nat /\
  (local_ibytes wide_pc <= 254)%nat /\
  - 256 ^ Z.of_nat (source_ibytes wide_pc) <= -1 < 0 /\
  (exists c', read_iValue wide_pc (mem LittleEndian 4 (-1)) =
     Some (mem LittleEndian 8 4294967295, c', [])).
Proof.
  split; [reflexivity|]. split; [reflexivity|]. split; [cbn; lia|].
  split; [cbn; lia|]. split; [cbn; lia|]. split; [cbn; lia|].
  eexists. vm_compute. reflexivity.
Qed.

(** ** C57: floating point numbers *)

(** IEEE single precision numbers, from a machine of any byte order, have their
    value when read by a program with wider real numbers
    (infinities and NaN become 0). *)
Theorem C57_single_precision : forall ulong c x rest,
  source_fbytes c = 4%nat -> machine (source_iorder c) 4 ->
  length (temp c) = 255%nat -> 0 <= x < 2 ^ 32 ->
  read_f_ieee ulong c (mem (source_iorder c) 4 x ++ rest) = Some (ieee_single x, rest).
Proof.
  intros ulong c x rest Hs Hm Ht Hx. unfold read_f_ieee. rewrite Hs.
  cbn [Nat.eqb]. rewrite skipn_mem. do 2 f_equal.
  apply ieee4_ok; auto. intros i Hi.
  apply (convert_holds (read_temp (temp c) 4 (mem (source_iorder c) 4 x ++ rest)) 4
    (source_iorder c) LittleEndian x); auto.
  - cbn [machine]; lia.
  - rewrite read_temp_length; rewrite Ht; lia.
  - apply read_temp_holds. rewrite Ht; lia.
Qed.
Print Assumptions C57_single_precision.

Lemma read_f_ieee8 : forall ulong c x rest,
  source_fbytes c = 8%nat -> machine (source_iorder c) 8 -> length (temp c) = 255%nat ->
  exists fb, (forall i, (i < 8)%nat -> fb i = x / 256 ^ Z.of_nat i mod 256) /\
    read_f_ieee ulong c (mem (source_iorder c) 8 x ++ rest) = Some (ieee8 ulong fb, rest).
Proof.
  intros ulong c x rest Hs Hm Ht. unfold read_f_ieee. rewrite Hs.
  cbn [Nat.eqb]. rewrite skipn_mem. eexists. split; [|reflexivity].
  intros i Hi.
  apply (convert_holds (read_temp (temp c) 8 (mem (source_iorder c) 8 x ++ rest)) 8
    (source_iorder c) LittleEndian x); auto.
  - cbn [machine]; lia.
  - rewrite read_temp_length; rewrite Ht; lia.
  - apply read_temp_holds. rewrite Ht; lia.
Qed.

(** IEEE double precision numbers read by a program with real numbers of another
    width: right for zero, normal numbers, infinities and NaN (read as 0) if
    [unsigned long] has 32 bits, or if bit 31 of the number is clear. *)
Theorem C57_double_precision : forall ulong c x rest,
  source_fbytes c = 8%nat -> machine (source_iorder c) 8 ->
  length (temp c) = 255%nat -> 0 <= x < 2 ^ 64 ->
  ulong = 32 \/ (ulong = 64 /\ Z.testbit x 31 = false) ->
  exponent64 x <> 0 \/ mantissa64 x = 0 ->
  read_f_ieee ulong c (mem (source_iorder c) 8 x ++ rest) = Some (ieee_double x, rest).
Proof.
  intros ulong c x rest Hs Hm Ht Hx Hu Hn.
  destruct (read_f_ieee8 ulong c x rest Hs Hm Ht) as [fb [Hfb ->]].
  do 2 f_equal. now apply ieee8_good.
Qed.
Print Assumptions C57_double_precision.

(** Where [unsigned long] has 64 bits, every normal number with bit 31 set is
    misread: the lower half of the mantissa is sign-extended. *)
Theorem C57_double_bit31_refuted : forall c x rest,
  source_fbytes c = 8%nat -> machine (source_iorder c) 8 ->
  length (temp c) = 255%nat -> 0 <= x < 2 ^ 64 ->
  Z.testbit x 31 = true -> 0 < exponent64 x < 2047 ->
  exists r, read_f_ieee 64 c (mem (source_iorder c) 8 x ++ rest) = Some (r, rest) /\
    r <> ieee_double x.
Proof.
  intros c x rest Hs Hm Ht Hx Hb He.
  destruct (read_f_ieee8 64 c x rest Hs Hm Ht) as [fb [Hfb ->]].
  eexists. split; [reflexivity|]. now apply ieee8_bit31.
Qed.
Print Assumptions C57_double_bit31_refuted.

(** Subnormal numbers are misread on every machine. *)
Theorem C57_double_subnormal_refuted : forall ulong c x rest,
  source_fbytes c = 8%nat -> machine (source_iorder c) 8 ->
  length (temp c) = 255%nat -> 0 <= x < 2 ^ 64 -> ulong = 32 \/ ulong = 64 ->
  exponent64 x = 0 -> mantissa64 x <> 0 ->
  exists r, read_f_ieee ulong c (mem (source_iorder c) 8 x ++ rest) = Some (r, rest) /\
    r <> ieee_double x.
Proof.
  intros ulong c x rest Hs Hm Ht Hx Hu He Hn.
  destruct (read_f_ieee8 ulong c x rest Hs Hm Ht) as [fb [Hfb ->]].
  eexists. split; [reflexivity|]. now apply ieee8_subnormal.
Qed.
Print Assumptions C57_double_subnormal_refuted.

(** Machines of unknown format write IEEE numbers, little-endian: for a number
    with 53 (24) significant bits in the normal range the bytes are those of the
    number, and every machine that reads them gets its value. *)
Definition value53 (v : fnum) : R :=
  ((if fneg v then -1 else 1) * IZR (fmant v) * bpow radix2 (fexp v - 53))%R.
Definition value24 (v : fnum) : R :=
  ((if fneg v then -1 else 1) * IZR (fmant v) * bpow radix2 (fexp v - 24))%R.

Lemma join_range : forall mw ew s m e, 0 <= mw -> 0 <= ew ->
  0 <= m < 2 ^ mw -> 0 <= e < 2 ^ ew -> 0 <= join_bits mw ew s m e < 2 ^ (mw + ew + 1).
Proof.
  intros mw ew s m e Hmw Hew Hm He. unfold join_bits.
  rewrite Z.shiftl_mul_pow2, !Z.pow_add_r by lia. change (2 ^ 1) with 2.
  assert (0 < 2 ^ mw) by (apply Z.pow_pos_nonneg; lia).
  assert (0 < 2 ^ ew) by (apply Z.pow_pos_nonneg; lia).
  destruct s; nia.
Qed.

Lemma join_fields : forall mw ew s m e, 0 <= mw -> 0 <= ew ->
  0 <= m < 2 ^ mw -> 0 <= e < 2 ^ ew ->
  join_bits mw ew s m e mod 2 ^ mw = m /\ join_bits mw ew s m e / 2 ^ mw mod 2 ^ ew = e.
Proof.
  intros mw ew s m e Hmw Hew Hm He.
  pose proof (split_join_bits mw ew s m e Hm He) as H. unfold split_bits in H.
  injection H as _ H1 H2. auto.
Qed.

Theorem C57_unknown_format_double : forall v c rest,
  (2 ^ 52 <= fmant v < 2 ^ 53 /\ 1 <= fexp v + 1022 <= 2046) \/ (fmant v = 0 /\ fneg v = false) ->
  machine (local_iorder c) 8 -> (8 <= source_fbytes c)%nat -> length (temp c) = 255%nat ->
  (exists x, write_f8 v = mem LittleEndian 8 x /\ 0 <= x < 2 ^ 64 /\
             ieee_double x = value53 v) /\
  read_f_unknown c (write_f8 v ++ rest) = Some (value53 v, rest).
Proof.
  intros v c rest Hv Hm Hs Ht.
  assert (X : exists x, write_f8 v = mem LittleEndian 8 x /\ 0 <= x < 2 ^ 64 /\
    ieee_double x = value53 v /\ (0 < exponent64 x < 2047 \/ x mod 2 ^ 63 = 0)).
  { destruct Hv as [Hv|[Hz Hn]].
    - pose proof (write_f8_mem v Hv) as Hw. destruct Hv as [H1 H2].
      eexists. split; [exact Hw|].
      split; [apply (join_range 52 11); lia|].
      destruct (join_fields 52 11 (fneg v) (fmant v - 2 ^ 52) (fexp v + 1022))
        as [F1 F2]; try lia.
      split.
      + unfold ieee_double, b64_of_bits. rewrite (float_fields 52 11) by lia.
        destruct (Z.eqb_spec (fexp v + 1022) 0); [lia|].
        destruct (Z.eqb_spec (fexp v + 1022) (2 ^ 11 - 1)); [lia|].
        unfold value53. replace (fmant v - 2 ^ 52 + 2 ^ 52) with (fmant v) by lia.
        replace (fexp v + 1022 + (3 - 2 ^ (11 - 1) - (52 + 1)) - 1)
          with (fexp v - 53) by (change (2 ^ (11 - 1)) with 1024; lia).
        unfold rsign. destruct (fneg v); ring.
      + left. unfold exponent64. rewrite F2. lia.
    - exists 0. destruct v as [neg m e]. cbn [fmant fneg] in Hz, Hn. subst.
      split; [reflexivity|]. split; [lia|]. split; [|right; reflexivity].
      unfold value53. cbn [fneg fmant]. rewrite double_fields by lia.
      cbv zeta. change (exponent64 0 =? 0) with true. change (mantissa64 0) with 0.
      cbv iota. ring. }
  destruct X as [x [Hw [Hx [Hval Hn]]]].
  split; [exists x; auto|].
  unfold read_f_unknown. rewrite Nat.min_l by lia. cbn [Nat.eqb].
  rewrite Hw, skipn_mem. rewrite <- Hval. do 2 f_equal.
  rewrite <- extract_double_ok by auto. f_equal.
  set (t := convert_endianess (read_temp (temp c) 8 (mem LittleEndian 8 x ++ rest)) 8
             LittleEndian (local_iorder c)).
  assert (Hh : holds t (local_iorder c) 8 x).
  { apply convert_holds; auto.
    - cbn [machine]; lia.
    - rewrite read_temp_length; rewrite Ht; lia.
    - apply read_temp_holds. rewrite Ht; lia. }
  assert (Hlt : length t = 255%nat).
  { unfold t. rewrite convert_length, read_temp_length; lia. }
  assert (E : firstn 8 t = mem (local_iorder c) 8 x).
  { assert (Hlf : length (firstn 8 t) = 8%nat) by (rewrite firstn_length; lia).
    apply list_nth_ext; [rewrite mem_length; exact Hlf|].
    rewrite Hlf. intros i Hi. rewrite nth_mem by auto.
    rewrite <- Hh by auto. rewrite <- (firstn_skipn 8 t) at 2.
    rewrite app_nth1 by lia. reflexivity. }
  rewrite E, load_mem by auto. apply Z.mod_small. exact Hx.
Qed.
Print Assumptions C57_unknown_format_double.

Theorem C57_unknown_format_single : forall v c rest,
  (2 ^ 23 <= fmant v < 2 ^ 24 /\ 1 <= fexp v + 126 <= 254) \/ (fmant v = 0 /\ fneg v = false) ->
  machine (local_iorder c) 4 -> source_fbytes c = 4%nat -> length (temp c) = 255%nat ->
  (exists x, write_f4 v = mem LittleEndian 4 x /\ 0 <= x < 2 ^ 32 /\
             ieee_single x = value24 v) /\
  read_f_unknown c (write_f4 v ++ rest) = Some (value24 v, rest).
Proof.
  intros v c rest Hv Hm Hs Ht.
  assert (X : exists x, write_f4 v = mem LittleEndian 4 x /\ 0 <= x < 2 ^ 32 /\
    ieee_single x = value24 v /\ (0 < x / 2 ^ 23 mod 2 ^ 8 < 255 \/ x mod 2 ^ 31 = 0)).
  { destruct Hv as [Hv|[Hz Hn]].
    - pose proof (write_f4_mem v Hv) as Hw. destruct Hv as [H1 H2].
      eexists. split; [exact Hw|].
      split; [apply (join_range 23 8); lia|].
      destruct (join_fields 23 8 (fneg v) (fmant v - 2 ^ 23) (fexp v + 126))
        as [F1 F2]; try lia.
      split.
      + unfold ieee_single, b32_of_bits. rewrite (float_fields 23 8) by lia.
        destruct (Z.eqb_spec (fexp v + 126) 0); [lia|].
        destruct (Z.eqb_spec (fexp v + 126) (2 ^ 8 - 1)); [lia|].
        unfold value24. replace (fmant v - 2 ^ 23 + 2 ^ 23) with (fmant v) by lia.
        replace (fexp v + 126 + (3 - 2 ^ (8 - 1) - (23 + 1)) - 1)
          with (fexp v - 24) by (change (2 ^ (8 - 1)) with 128; lia).
        unfold rsign. destruct (fneg v); ring.
      + left. rewrite F2. lia.
    - exists 0. destruct v as [neg m e]. cbn [fmant fneg] in Hz, Hn. subst.
      split; [reflexivity|]. split; [lia|]. split; [|right; reflexivity].
      unfold value24. cbn [fneg fmant]. rewrite single_fields by lia.
      cbv zeta. change (0 / 2 ^ 23 mod 2 ^ 8 =? 0) with true. change (0 mod 2 ^ 23) with 0.
      cbv iota. ring. }
  destruct X as [x [Hw [Hx [Hval Hn]]]].
  split; [exists x; auto|].
  unfold read_f_unknown. rewrite Hs. change (Nat.min 8 4) with 4%nat. cbn [Nat.eqb].
  rewrite Hw, skipn_mem. rewrite <- Hval. do 2 f_equal.
  rewrite <- extract_float_ok by auto. f_equal.
  set (t := convert_endianess (read_temp (temp c) 4 (mem LittleEndian 4 x ++ rest)) 4
             LittleEndian (local_iorder c)).
  assert (Hh : holds t (local_iorder c) 4 x).
  { apply convert_holds; auto.
    - cbn [machine]; lia.
    - rewrite read_temp_length; rewrite Ht; lia.
    - apply read_temp_holds. rewrite Ht; lia. }
  assert (Hlt : length t = 255%nat).
  { unfold t. rewrite convert_length, read_temp_length; lia. }
  assert (E : firstn 4 t = mem (local_iorder c) 4 x).
  { assert (Hlf : length (firstn 4 t) = 4%nat) by (rewrite firstn_length; lia).
    apply list_nth_ext; [rewrite mem_length; exact Hlf|].
    rewrite Hlf. intros i Hi. rewrite nth_mem by auto.
    rewrite <- Hh by auto. rewrite <- (firstn_skipn 4 t) at 2.
    rewrite app_nth1 by lia. reflexivity. }
  rewrite E, load_mem by auto. apply Z.mod_small. exact Hx.
Qed.
Print Assumptions C57_unknown_format_single.

(** 1.1 as a double has bit 31 set; 1.0 has not. *)
Definition float_pc : conv :=
  MkConv LittleEndian BigEndian IEEE IEEE 4 4 4 8 (repeat 9 255).

Example C57_nonvacuous :
  source_fbytes float_pc = 8%nat /\ machine (source_iorder float_pc) 8 /\
  length (temp float_pc) = 255%nat /\
  (Z.testbit 0x3FF199999999999A 31 = true /\ 0 < exponent64 0x3FF199999999999A < 2047) /\
  (Z.testbit 0x3FF0000000000000 31 = false /\ exponent64 0x3FF0000000000000 <> 0) /\
  (exponent64 5 = 0 /\ mantissa64 5 <> 0) /\
  ieee_double 0x3FF0000000000000 = 1%R /\
  ieee_single 0xC1200000 = (-10)%R /\
  (let v := FNum true (5 * 2 ^ 50) 4 in
   2 ^ 52 <= fmant v < 2 ^ 53 /\ 1 <= fexp v + 1022 <= 2046 /\
   write_f8 v = [0; 0; 0; 0; 0; 0; 0x24; 0xC0] /\ value53 v = (-10)%R).
Proof.
  split; [reflexivity|]. split; [cbn; lia|]. split; [reflexivity|].
  split; [split; [reflexivity|vm_compute; split; reflexivity]|].
  split; [split; [reflexivity|vm_compute; discriminate]|].
  split; [split; [reflexivity|vm_compute; discriminate]|].
  split; [|split].
  - rewrite double_fields by lia. cbv zeta.
    change (exponent64 0x3FF0000000000000) with 1023.
    change (mantissa64 0x3FF0000000000000) with 0.
    cbn [Z.eqb Pos.eqb]. change (2 ^ 63 <=? 0x3FF0000000000000) with false.
    change (1023 - 1075) with (-52).
    unfold rsign. change (bpow radix2 (-52)) with (/ 4503599627370496)%R.
    change (IZR (0 + 2 ^ 52)) with 4503599627370496%R. field.
  - rewrite single_fields by lia. cbv zeta.
    change (0xC1200000 / 2 ^ 23 mod 2 ^ 8) with 130.
    change (0xC1200000 mod 2 ^ 23) with 2097152.
    cbn [Z.eqb Pos.eqb]. change (2 ^ 31 <=? 0xC1200000) with true.
    change (130 - 150) with (-20). unfold rsign.
    change (bpow radix2 (-20)) with (/ 1048576)%R.
    change (IZR (2097152 + 2 ^ 23)) with 10485760%R. field.
  - cbn [fmant fexp fneg]. split; [lia|]. split; [lia|].
    split; [reflexivity|]. unfold value53. cbn [fmant fexp fneg].
    change (4 - 53) with (-49). change (bpow radix2 (-49)) with (/ 562949953421312)%R.
    change (IZR (5 * 2 ^ 50)) with 5629499534213120%R. field.
Qed.
