(** Proofs about the floating point part of io_converter. *)
From Coq Require Import ZArith List Bool Lia Reals Lra.
From Flocq Require Import Core.Core IEEE754.Binary IEEE754.Bits.
From Verif Require Import Util IoConv_Model IoConv_Spec IoConv_Proofs.
Import ListNotations.
Open Scope Z_scope.

Lemma powerRZ_bpow : forall z, powerRZ 2 z = bpow radix2 z.
Proof. intros z. symmetry. apply bpow_powerRZ. Qed.

Definition rsign (s : bool) : R := if s then (-1)%R else 1%R.

Lemma F2R_signed : forall s m e,
  F2R (Float radix2 (cond_Zopp s m) e) = (rsign s * IZR m * bpow radix2 e)%R.
Proof.
  intros s m e. unfold F2R, rsign. cbn [Fnum Fexp].
  destruct s; cbn [cond_Zopp]; [rewrite opp_IZR|]; ring.
Qed.

Lemma float_fields : forall mw ew Hmw Hew Hmax s m e,
  0 <= m < 2 ^ mw -> 0 <= e < 2 ^ ew ->
  B2R _ _ (binary_float_of_bits mw ew Hmw Hew Hmax (join_bits mw ew s m e)) =
  if e =? 0 then (rsign s * IZR m * bpow radix2 (3 - 2 ^ (ew - 1) - (mw + 1)))%R
  else if e =? 2 ^ ew - 1 then 0%R
  else (rsign s * IZR (m + 2 ^ mw) *
        bpow radix2 (e + (3 - 2 ^ (ew - 1) - (mw + 1)) - 1))%R.
Proof.
  intros mw ew Hmw Hew Hmax s m e Hm He. unfold binary_float_of_bits.
  rewrite B2R_FF2B. unfold binary_float_of_bits_aux.
  rewrite split_join_bits by auto.
  assert (Hp : 0 < 2 ^ mw) by (apply Z.pow_pos_nonneg; lia).
  change (SpecFloat.emin (mw + 1) (2 ^ (ew - 1))) with (3 - 2 ^ (ew - 1) - (mw + 1)).
  destruct (Zeq_bool_spec e 0), (Z.eqb_spec e 0); try contradiction.
  - destruct m as [|p|p]; [|apply F2R_signed|lia]. cbn [FF2R]. ring.
  - destruct (Zeq_bool_spec e (2 ^ ew - 1)), (Z.eqb_spec e (2 ^ ew - 1));
      try contradiction.
    + destruct m as [|p|p]; [reflexivity|reflexivity|lia].
    + destruct (m + 2 ^ mw) as [|p|p] eqn:E; [lia|apply F2R_signed|lia].
Qed.

Lemma single_fields : forall x, 0 <= x < 2 ^ 32 ->
  ieee_single x =
  let s := 2 ^ 31 <=? x in let e := x / 2 ^ 23 mod 2 ^ 8 in let m := x mod 2 ^ 23 in
  if e =? 0 then (rsign s * IZR m * bpow radix2 (-149))%R
  else if e =? 255 then 0%R
  else (rsign s * IZR (m + 2 ^ 23) * bpow radix2 (e - 150))%R.
Proof.
  intros x Hx. cbv zeta. unfold ieee_single, b32_of_bits.
  set (s := 2 ^ 31 <=? x). set (e := x / 2 ^ 23 mod 2 ^ 8). set (m := x mod 2 ^ 23).
  assert (Hm : 0 <= m < 2 ^ 23) by (apply Z.mod_pos_bound; lia).
  assert (He : 0 <= e < 2 ^ 8) by (apply Z.mod_pos_bound; lia).
  assert (Ex : x = join_bits 23 8 s m e).
  { unfold join_bits. rewrite Z.shiftl_mul_pow2 by lia.
    unfold s, m, e. clear s m e Hm He.
    destruct (Z.leb_spec (2 ^ 31) x); lia. }
  rewrite Ex. rewrite (float_fields 23 8) by assumption.
  change (3 - 2 ^ (8 - 1) - (23 + 1)) with (-149). change (2 ^ 8 - 1) with 255.
  replace (e + -149 - 1) with (e - 150) by lia. reflexivity.
Qed.

Lemma double_fields : forall x, 0 <= x < 2 ^ 64 ->
  ieee_double x =
  let s := 2 ^ 63 <=? x in let e := exponent64 x in let m := mantissa64 x in
  if e =? 0 then (rsign s * IZR m * bpow radix2 (-1074))%R
  else if e =? 2047 then 0%R
  else (rsign s * IZR (m + 2 ^ 52) * bpow radix2 (e - 1075))%R.
Proof.
  intros x Hx. cbv zeta. unfold ieee_double, b64_of_bits.
  set (s := 2 ^ 63 <=? x). set (e := exponent64 x). set (m := mantissa64 x).
  assert (Hm : 0 <= m < 2 ^ 52) by (apply Z.mod_pos_bound; lia).
  assert (He : 0 <= e < 2 ^ 11) by (apply Z.mod_pos_bound; lia).
  assert (Ex : x = join_bits 52 11 s m e).
  { unfold join_bits. rewrite Z.shiftl_mul_pow2 by lia.
    unfold s, m, e, exponent64, mantissa64. clear s m e Hm He.
    destruct (Z.leb_spec (2 ^ 63) x); lia. }
  rewrite Ex. rewrite (float_fields 52 11) by assumption.
  change (3 - 2 ^ (11 - 1) - (52 + 1)) with (-1074). change (2 ^ 11 - 1) with 2047.
  replace (e + -1074 - 1) with (e - 1075) by lia. reflexivity.
Qed.

(** masks of a byte *)
Definition bytes_ok (P : Z -> bool) : bool := forallb (fun n => P (Z.of_N n)) (upto 256).
Lemma byte_cases : forall P b, bytes_ok P = true -> 0 <= b < 256 -> P b = true.
Proof.
  intros P b H Hb. unfold bytes_ok in H.
  pose proof (forallb_upto 256 _ H (Z.to_N b) ltac:(lia)) as G. cbv beta in G.
  rewrite Z2N.id in G by lia. exact G.
Qed.

Lemma masks : forall b, 0 <= b < 256 ->
  Z.shiftr (Z.land b 0x80) 7 = b / 128 /\ Z.land b 0x7f = b mod 128 /\
  Z.shiftr (Z.land b 0xf0) 4 = b / 16 /\ Z.land b 0x0f = b mod 16.
Proof.
  intros b Hb.
  pose proof (byte_cases (fun b => (Z.shiftr (Z.land b 0x80) 7 =? b / 128) &&
    (Z.land b 0x7f =? b mod 128) && (Z.shiftr (Z.land b 0xf0) 4 =? b / 16) &&
    (Z.land b 0x0f =? b mod 16)) b eq_refl Hb) as H. cbv beta in H.
  rewrite !andb_true_iff, !Z.eqb_eq in H. tauto.
Qed.

Lemma digits_bound : forall x k, 0 <= x / 256 ^ k mod 256 < 256.
Proof. intros. apply Z.mod_pos_bound. lia. Qed.

(** the value of four and eight bytes *)
Lemma digits4 : forall x, 0 <= x < 2 ^ 32 ->
  x = x / 256 ^ 0 mod 256 + 256 * (x / 256 ^ 1 mod 256) + 65536 * (x / 256 ^ 2 mod 256)
      + 16777216 * (x / 256 ^ 3 mod 256).
Proof.
  intros x Hx. pose proof (le_value_digits 4 x _ (fun i => eq_refl)) as H.
  rewrite Z.mod_small in H by (change (256 ^ Z.of_nat 4) with (2 ^ 32); exact Hx).
  rewrite <- H at 1. cbn [seq map le_value Z.of_nat Pos.of_succ_nat Pos.succ]. ring.
Qed.

Lemma digits8 : forall x, 0 <= x < 2 ^ 64 ->
  x = x / 256 ^ 0 mod 256 + 256 * (x / 256 ^ 1 mod 256) + 65536 * (x / 256 ^ 2 mod 256)
      + 16777216 * (x / 256 ^ 3 mod 256) + 4294967296 *
      (x / 256 ^ 4 mod 256 + 256 * (x / 256 ^ 5 mod 256) + 65536 * (x / 256 ^ 6 mod 256)
      + 16777216 * (x / 256 ^ 7 mod 256)).
Proof.
  intros x Hx. pose proof (le_value_digits 8 x _ (fun i => eq_refl)) as H.
  rewrite Z.mod_small in H by (change (256 ^ Z.of_nat 8) with (2 ^ 64); exact Hx).
  rewrite <- H at 1. cbn [seq map le_value Z.of_nat Pos.of_succ_nat Pos.succ]. ring.
Qed.

Lemma sgn_rsign : forall S b, 0 <= S <= 1 -> b = (1 <=? S) -> sgn S = rsign b.
Proof.
  intros S b H ->. unfold sgn, rsign. assert (E : S = 0 \/ S = 1) by lia.
  destruct E as [-> | ->]; reflexivity.
Qed.

Lemma ieee4_ok : forall x fb, 0 <= x < 2 ^ 32 ->
  (forall i, (i < 4)%nat -> fb i = x / 256 ^ Z.of_nat i mod 256) ->
  ieee4 fb = ieee_single x.
Proof.
  intros x fb Hx Hfb. unfold ieee4.
  rewrite (Hfb 0%nat), (Hfb 1%nat), (Hfb 2%nat), (Hfb 3%nat) by lia.
  cbn [Z.of_nat Pos.of_succ_nat Pos.succ].
  pose proof (digits4 x Hx) as Ex.
  pose proof (digits_bound x 0) as B4. pose proof (digits_bound x 1) as B3.
  pose proof (digits_bound x 2) as B2. pose proof (digits_bound x 3) as B1.
  set (b4 := x / 256 ^ 0 mod 256) in *. set (b3 := x / 256 ^ 1 mod 256) in *.
  set (b2 := x / 256 ^ 2 mod 256) in *. set (b1 := x / 256 ^ 3 mod 256) in *.
  clearbody b1 b2 b3 b4. clear Hfb.
  destruct (masks b1 B1) as [M1 [M1' _]]. destruct (masks b2 B2) as [M2 [M2' _]].
  rewrite M1, M1', M2, M2'. clear M1 M1' M2 M2'.
  rewrite !Z.shiftl_mul_pow2 by lia.
  rewrite single_fields by auto. cbv zeta.
  assert (EE : x / 2 ^ 23 mod 2 ^ 8 = b1 mod 128 * 2 ^ 1 + b2 / 128) by lia.
  assert (EM : x mod 2 ^ 23 = b2 mod 128 * 2 ^ 16 + b3 * 2 ^ 8 + b4) by lia.
  assert (ES : (2 ^ 31 <=? x) = (1 <=? b1 / 128)) by lia.
  assert (BE : 0 <= b1 mod 128 * 2 ^ 1 + b2 / 128 < 256) by lia.
  assert (BS : 0 <= b1 / 128 <= 1) by lia.
  rewrite EE, EM.
  rewrite (sgn_rsign (b1 / 128) (2 ^ 31 <=? x) BS ES).
  set (E := b1 mod 128 * 2 ^ 1 + b2 / 128) in *.
  set (m := b2 mod 128 * 2 ^ 16 + b3 * 2 ^ 8 + b4) in *.
  set (s := rsign _). clearbody E m s. clear - BE.
  rewrite !powerRZ_bpow.
  destruct (Z.ltb_spec 0 E), (Z.ltb_spec E 255), (Z.eqb_spec E 0), (Z.eqb_spec E 255);
    cbn [andb]; try lia.
  - rewrite plus_IZR. change (IZR (2 ^ 23)) with 8388608%R.
    replace (E - 127) with (E - 150 + 23) by lia. rewrite bpow_plus.
    change (bpow radix2 23) with 8388608%R. field.
  - reflexivity.
  - destruct (Z.eqb_spec m 0) as [->|Hm]; cbn [negb]; [ring|].
    replace (-126) with (-149 + 23) by lia. rewrite bpow_plus.
    change (bpow radix2 23) with 8388608%R. field.
Qed.

(** the real number the conversion of a double computes *)
Definition L2_of (ulong x : Z) : Z :=
  low_word ulong (x / 256 ^ 3 mod 256) (x / 256 ^ 2 mod 256)
    (x / 256 ^ 1 mod 256) (x / 256 ^ 0 mod 256).

Lemma ieee8_fields : forall ulong x fb, 0 <= x < 2 ^ 64 ->
  (forall i, (i < 8)%nat -> fb i = x / 256 ^ Z.of_nat i mod 256) ->
  ieee8 ulong fb =
  let s := rsign (2 ^ 63 <=? x) in
  let e := exponent64 x in
  let h := mantissa64 x / 2 ^ 32 in let l := L2_of ulong x in
  let M := (IZR h / 1048576 + IZR l / 4503599627370496)%R in
  if (0 <? e) && (e <? 2047) then (s * (1 + M) * bpow radix2 (e - 1023))%R
  else if (e =? 0) && negb ((h =? 0) && (l =? 0)) then (s * M * bpow radix2 1022)%R
  else 0%R.
Proof.
  intros ulong x fb Hx Hfb. unfold ieee8, L2_of.
  rewrite (Hfb 0%nat), (Hfb 1%nat), (Hfb 2%nat), (Hfb 3%nat),
    (Hfb 4%nat), (Hfb 5%nat), (Hfb 6%nat), (Hfb 7%nat) by lia.
  cbn [Z.of_nat Pos.of_succ_nat Pos.succ].
  pose proof (digits8 x Hx) as Ex.
  pose proof (digits_bound x 0) as B8. pose proof (digits_bound x 1) as B7.
  pose proof (digits_bound x 2) as B6. pose proof (digits_bound x 3) as B5.
  pose proof (digits_bound x 4) as B4. pose proof (digits_bound x 5) as B3.
  pose proof (digits_bound x 6) as B2. pose proof (digits_bound x 7) as B1.
  set (b8 := x / 256 ^ 0 mod 256) in *. set (b7 := x / 256 ^ 1 mod 256) in *.
  set (b6 := x / 256 ^ 2 mod 256) in *. set (b5 := x / 256 ^ 3 mod 256) in *.
  set (b4 := x / 256 ^ 4 mod 256) in *. set (b3 := x / 256 ^ 5 mod 256) in *.
  set (b2 := x / 256 ^ 6 mod 256) in *. set (b1 := x / 256 ^ 7 mod 256) in *.
  clearbody b1 b2 b3 b4 b5 b6 b7 b8. clear Hfb.
  destruct (masks b1 B1) as [M1 [M1' _]]. destruct (masks b2 B2) as [_ [_ [M2 M2']]].
  rewrite M1, M1', M2, M2'. clear M1 M1' M2 M2'.
  set (l := low_word ulong b5 b6 b7 b8). clearbody l.
  rewrite !Z.shiftl_mul_pow2 by lia.
  unfold exponent64, mantissa64. cbv zeta.
  set (lo := b8 + 256 * b7 + 65536 * b6 + 16777216 * b5) in *.
  assert (Blo : 0 <= lo < 2 ^ 32) by (unfold lo; lia). clearbody lo.
  set (hi := b4 + 256 * b3 + 65536 * b2 + 16777216 * b1) in *.
  assert (Ehi : hi = b4 + 256 * b3 + 65536 * b2 + 16777216 * b1) by reflexivity.
  clearbody hi.
  assert (Xh : x / 2 ^ 32 = hi) by lia.
  assert (X52 : x / 2 ^ 52 = hi / 2 ^ 20).
  { rewrite <- Xh, Z.div_div by lia. reflexivity. }
  assert (EE : x / 2 ^ 52 mod 2 ^ 11 = b1 mod 128 * 2 ^ 4 + b2 / 16).
  { rewrite X52. clear - Ehi B1 B2 B3 B4. lia. }
  assert (EH : x mod 2 ^ 52 / 2 ^ 32 = b2 mod 16 * 2 ^ 16 + b3 * 2 ^ 8 + b4).
  { assert (x mod 2 ^ 52 / 2 ^ 32 = hi mod 2 ^ 20) by (clear - Ex Blo; lia).
    rewrite H. clear - Ehi B1 B2 B3 B4. lia. }
  assert (ES : (2 ^ 63 <=? x) = (1 <=? b1 / 128)).
  { assert ((2 ^ 63 <=? x) = (2 ^ 31 <=? hi)) by (clear - Ex Blo; lia).
    rewrite H. clear - Ehi B1 B2 B3 B4. lia. }
  assert (BS : 0 <= b1 / 128 <= 1) by (clear - B1; lia).
  rewrite EE, EH, (sgn_rsign (b1 / 128) (2 ^ 63 <=? x) BS ES), !powerRZ_bpow.
  reflexivity.
Qed.

Lemma L2_good : forall ulong x, 0 <= x < 2 ^ 64 ->
  ulong = 32 \/ (ulong = 64 /\ Z.testbit x 31 = false) ->
  L2_of ulong x = x mod 2 ^ 32.
Proof.
  intros ulong x Hx Hu. unfold L2_of, low_word.
  pose proof (digits8 x Hx) as Ex.
  pose proof (digits_bound x 0) as B8. pose proof (digits_bound x 1) as B7.
  pose proof (digits_bound x 2) as B6. pose proof (digits_bound x 3) as B5.
  rewrite !Z.shiftl_mul_pow2 by lia.
  assert (T : Z.testbit x 31 = negb (x / 256 ^ 3 mod 256 <? 128)).
  {
    pose proof (Z.testbit_spec' x 31 ltac:(lia)) as H.
    destruct (Z.testbit x 31); cbn [Z.b2z] in H;
    destruct (Z.ltb_spec (x / 256 ^ 3 mod 256) 128); auto; exfalso; clear - H H0; lia. }
  rewrite T in Hu. clear T.
  set (b8 := x / 256 ^ 0 mod 256) in *. set (b7 := x / 256 ^ 1 mod 256) in *.
  set (b6 := x / 256 ^ 2 mod 256) in *. set (b5 := x / 256 ^ 3 mod 256) in *.
  set (hi := x / 256 ^ 4 mod 256 + _ + _ + _) in Ex. clearbody b5 b6 b7 b8 hi.
  assert (Em : x mod 2 ^ 32 = b8 + 256 * b7 + 65536 * b6 + 16777216 * b5) by lia.
  rewrite Em. unfold int32.
  destruct Hu as [-> | [-> Hb]].
  - clear - B8 B7 B6 B5. lia.
  - destruct (Z.ltb_spec b5 128); [|discriminate].
    clear - B8 B7 B6 B5 H. lia.
Qed.

Lemma L2_bad : forall x, 0 <= x < 2 ^ 64 -> Z.testbit x 31 = true ->
  L2_of 64 x = x mod 2 ^ 32 + (2 ^ 64 - 2 ^ 32).
Proof.
  intros x Hx Hu. unfold L2_of, low_word.
  pose proof (digits8 x Hx) as Ex.
  pose proof (digits_bound x 0) as B8. pose proof (digits_bound x 1) as B7.
  pose proof (digits_bound x 2) as B6. pose proof (digits_bound x 3) as B5.
  rewrite !Z.shiftl_mul_pow2 by lia.
  assert (T : 128 <= x / 256 ^ 3 mod 256).
  { pose proof (Z.testbit_spec' x 31 ltac:(lia)) as H. rewrite Hu in H.
    cbn [Z.b2z] in H. clear - H. lia. }
  set (b8 := x / 256 ^ 0 mod 256) in *. set (b7 := x / 256 ^ 1 mod 256) in *.
  set (b6 := x / 256 ^ 2 mod 256) in *. set (b5 := x / 256 ^ 3 mod 256) in *.
  set (hi := x / 256 ^ 4 mod 256 + _ + _ + _) in Ex. clearbody b5 b6 b7 b8 hi.
  assert (Em : x mod 2 ^ 32 = b8 + 256 * b7 + 65536 * b6 + 16777216 * b5) by lia.
  rewrite Em. unfold int32. clear - B8 B7 B6 B5 T. lia.
Qed.

Lemma IZR_div_sum : forall h l,
  (IZR h / 1048576 + IZR l / 4503599627370496)%R =
  (IZR (h * 2 ^ 32 + l) / 4503599627370496)%R.
Proof.
  intros. rewrite plus_IZR, mult_IZR. change (IZR (2 ^ 32)) with 4294967296%R. field.
Qed.

Lemma mantissa_parts : forall x, 0 <= x ->
  mantissa64 x = mantissa64 x / 2 ^ 32 * 2 ^ 32 + x mod 2 ^ 32.
Proof.
  intros x Hx. unfold mantissa64.
  assert (E : (x mod 2 ^ 52) mod 2 ^ 32 = x mod 2 ^ 32).
  { change (2 ^ 52) with (2 ^ 32 * 2 ^ 20). rewrite Z.rem_mul_r by lia.
    rewrite Z.mul_comm, Z.mod_add by lia. now rewrite Z.mod_mod by lia. }
  rewrite <- E, Z.mul_comm. apply Z.div_mod. lia.
Qed.

Lemma ieee8_good : forall ulong x fb, 0 <= x < 2 ^ 64 ->
  (forall i, (i < 8)%nat -> fb i = x / 256 ^ Z.of_nat i mod 256) ->
  ulong = 32 \/ (ulong = 64 /\ Z.testbit x 31 = false) ->
  exponent64 x <> 0 \/ mantissa64 x = 0 ->
  ieee8 ulong fb = ieee_double x.
Proof.
  intros ulong x fb Hx Hfb Hu Hn.
  rewrite (ieee8_fields ulong x fb Hx Hfb), double_fields by auto. cbv zeta.
  rewrite (L2_good ulong x Hx Hu), IZR_div_sum, <- mantissa_parts by lia.
  assert (He : 0 <= exponent64 x < 2048) by (apply Z.mod_pos_bound; lia).
  assert (Ez : (mantissa64 x / 2 ^ 32 =? 0) && (x mod 2 ^ 32 =? 0) = (mantissa64 x =? 0)).
  { pose proof (mantissa_parts x ltac:(lia)) as E.
    assert (0 <= mantissa64 x < 2 ^ 52) by (apply Z.mod_pos_bound; lia).
    set (m := mantissa64 x) in *. set (l := x mod 2 ^ 32) in *.
    assert (0 <= l < 2 ^ 32) by (apply Z.mod_pos_bound; lia). clearbody m l.
    clear - E H H0.
    destruct (Z.eqb_spec (m / 2 ^ 32) 0), (Z.eqb_spec l 0), (Z.eqb_spec m 0);
      cbn [andb]; auto; lia. }
  rewrite Ez.
  set (m := mantissa64 x) in *. set (e := exponent64 x) in *.
  set (s := rsign _). clearbody m e s. clear - He Hn.
  destruct (Z.ltb_spec 0 e), (Z.ltb_spec e 2047), (Z.eqb_spec e 0), (Z.eqb_spec e 2047);
    cbn [andb]; try lia.
  - rewrite plus_IZR. change (IZR (2 ^ 52)) with 4503599627370496%R.
    replace (e - 1023) with (e - 1075 + 52) by lia. rewrite bpow_plus.
    change (bpow radix2 52) with 4503599627370496%R. field.
  - reflexivity.
  - destruct Hn as [Hn| ->]; [lia|]. cbn [Z.eqb negb]. ring.
Qed.

Lemma rsign_neq0 : forall b, rsign b <> 0%R.
Proof. intros []; unfold rsign; lra. Qed.

(** a double with bit 31 set is misread where unsigned long has 64 bits *)
Lemma ieee8_bit31 : forall x fb, 0 <= x < 2 ^ 64 ->
  (forall i, (i < 8)%nat -> fb i = x / 256 ^ Z.of_nat i mod 256) ->
  Z.testbit x 31 = true -> 0 < exponent64 x < 2047 ->
  ieee8 64 fb <> ieee_double x.
Proof.
  intros x fb Hx Hfb Hb He.
  rewrite (ieee8_fields 64 x fb Hx Hfb), double_fields by auto. cbv zeta.
  rewrite (L2_bad x Hx Hb), IZR_div_sum.
  replace (mantissa64 x / 2 ^ 32 * 2 ^ 32 + (x mod 2 ^ 32 + (2 ^ 64 - 2 ^ 32)))
    with (mantissa64 x + (2 ^ 64 - 2 ^ 32)) by (pose proof (mantissa_parts x); lia).
  set (m := mantissa64 x) in *. set (e := exponent64 x) in *.
  pose proof (rsign_neq0 (2 ^ 63 <=? x)) as Hs.
  set (s := rsign _) in *. clearbody m e s. clear - He Hs.
  destruct (Z.ltb_spec 0 e), (Z.ltb_spec e 2047), (Z.eqb_spec e 0), (Z.eqb_spec e 2047);
    cbn [andb]; try lia.
  replace (e - 1023) with (e - 1075 + 52) by lia. rewrite bpow_plus.
  rewrite !plus_IZR. change (bpow radix2 52) with 4503599627370496%R.
  change (IZR (2 ^ 52)) with 4503599627370496%R.
  change (IZR (2 ^ 64 - 2 ^ 32)) with 18446744069414584320%R.
  pose proof (bpow_gt_0 radix2 (e - 1075)) as Hp.
  set (p := bpow radix2 (e - 1075)) in *. clearbody p.
  intros Q. assert (G : (s * p * 18446744069414584320 = 0)%R).
  { apply Rplus_eq_reg_l with (s * (IZR m + 4503599627370496) * p)%R.
    rewrite Rplus_0_r. transitivity (s * (1 + (IZR m + 18446744069414584320) / 4503599627370496) * (p * 4503599627370496))%R; [field|exact Q]. }
  apply Rmult_integral in G. destruct G as [G|G]; [|lra].
  apply Rmult_integral in G. destruct G as [G|G]; lra.
Qed.

(** a subnormal double is misread *)
Lemma ieee8_subnormal : forall ulong x fb, 0 <= x < 2 ^ 64 ->
  (forall i, (i < 8)%nat -> fb i = x / 256 ^ Z.of_nat i mod 256) ->
  ulong = 32 \/ ulong = 64 -> exponent64 x = 0 -> mantissa64 x <> 0 ->
  ieee8 ulong fb <> ieee_double x.
Proof.
  intros ulong x fb Hx Hfb Hu He Hm.
  rewrite (ieee8_fields ulong x fb Hx Hfb), double_fields by auto. cbv zeta.
  rewrite He, IZR_div_sum. cbn [Z.ltb Z.eqb Z.compare andb].
  assert (Bm : 0 <= mantissa64 x < 2 ^ 52) by (apply Z.mod_pos_bound; lia).
  assert (HL : L2_of ulong x >= x mod 2 ^ 32).
  { destruct Hu as [-> | ->].
    - rewrite (L2_good 32 x Hx); auto. lia.
    - destruct (Z.testbit x 31) eqn:T.
      + rewrite (L2_bad x Hx T). lia.
      + rewrite (L2_good 64 x Hx); auto. lia. }
  pose proof (mantissa_parts x ltac:(lia)) as E.
  set (h := mantissa64 x / 2 ^ 32) in *. set (l := L2_of ulong x) in *.
  assert (Hh : 0 <= h) by (apply Z.div_pos; lia).
  assert (Hl : 0 <= x mod 2 ^ 32) by (apply Z.mod_pos_bound; lia).
  assert (HM : mantissa64 x <= h * 2 ^ 32 + l) by (clear - E HL; lia).
  set (m := mantissa64 x) in *. set (M := h * 2 ^ 32 + l) in *.
  assert (Hz : (h =? 0) && (l =? 0) = false).
  { destruct (Z.eqb_spec h 0), (Z.eqb_spec l 0); cbn [andb]; auto.
    exfalso. unfold M in HM. clear - HM e e0 Bm Hm. lia. }
  rewrite Hz. cbn [negb].
  pose proof (rsign_neq0 (2 ^ 63 <=? x)) as Hs. set (s := rsign _) in *.
  clearbody m M s. clear - HM Bm Hm Hs.
  assert (R1 : (1 <= IZR m)%R) by (apply IZR_le; lia).
  assert (R2 : (IZR m <= IZR M)%R) by (apply IZR_le; lia).
  assert (P : bpow radix2 1022 = (bpow radix2 (-1074) * bpow radix2 2096)%R)
    by (rewrite <- bpow_plus; reflexivity).
  assert (P52 : bpow radix2 2096 = (4503599627370496 * bpow radix2 2044)%R).
  { change 4503599627370496%R with (bpow radix2 52). rewrite <- bpow_plus. reflexivity. }
  rewrite P, P52. pose proof (bpow_gt_0 radix2 (-1074)) as Hp.
  assert (H1 : (1 < bpow radix2 2044)%R).
  { change 1%R with (bpow radix2 0). apply bpow_lt. lia. }
  set (p := bpow radix2 (-1074)) in *. set (q := bpow radix2 2044) in *.
  clearbody p q. intros H.
  assert (G : (s * (p * (IZR M * q - IZR m)) = 0)%R).
  { apply Rplus_eq_reg_l with (s * IZR m * p)%R. rewrite Rplus_0_r.
    transitivity (s * (IZR M / 4503599627370496) * (p * (4503599627370496 * q)))%R; [field|exact H]. }
  apply Rmult_integral in G. destruct G as [G|G]; [lra|].
  apply Rmult_integral in G. destruct G as [G|G]; [lra|].
  assert (IZR M * 1 < IZR M * q)%R by (apply Rmult_lt_compat_l; lra). lra.
Qed.

(** ** The path for unknown local formats *)
Lemma land_shift : forall x k n, 0 <= n ->
  Z.land x (Z.shiftl k n) = Z.shiftl (Z.land (Z.shiftr x n) k) n.
Proof.
  intros x k n Hn. apply Z.bits_inj'. intros i Hi.
  rewrite Z.land_spec, !Z.shiftl_spec, Z.land_spec by lia.
  destruct (Z.ltb_spec (i - n) 0).
  - rewrite (Z.testbit_neg_r k) by lia. rewrite !andb_false_r. reflexivity.
  - rewrite Z.shiftr_spec by lia. replace (i - n + n) with i by lia. reflexivity.
Qed.

Lemma lor_high : forall a n, 0 <= n -> 0 <= a < 2 ^ n -> Z.lor a (2 ^ n) = a + 2 ^ n.
Proof.
  intros a n Hn Ha.
  assert (E : Z.land a (2 ^ n) = 0).
  { apply Z.bits_inj'. intros i Hi. rewrite Z.land_spec, Z.bits_0.
    rewrite Z.pow2_bits_eqb by lia. destruct (Z.eqb_spec n i); [|apply andb_false_r].
    subst i. rewrite <- (Z.mod_small a (2 ^ n)) by auto.
    rewrite Z.mod_pow2_bits_high; auto. lia. }
  rewrite <- Z.lxor_lor by auto. symmetry. apply Z.add_nocarry_lxor. exact E.
Qed.

Lemma land_top : forall x n, 0 <= n -> 0 <= x < 2 ^ (n + 1) ->
  (Z.land x (2 ^ n) =? 0) = negb (2 ^ n <=? x).
Proof.
  intros x n Hn Hx. rewrite Z.pow_add_r in Hx by lia. change (2 ^ 1) with 2 in Hx.
  assert (Hp : 0 < 2 ^ n) by (apply Z.pow_pos_nonneg; lia).
  replace (2 ^ n) with (Z.shiftl 1 n) at 1
    by (rewrite Z.shiftl_mul_pow2 by lia; lia).
  rewrite land_shift by auto. rewrite Z.shiftr_div_pow2 by auto.
  change 1 with (Z.ones 1). rewrite Z.land_ones by lia. change (2 ^ 1) with 2.
  rewrite Z.shiftl_mul_pow2 by auto.
  destruct (Z.leb_spec (2 ^ n) x); cbn [negb].
  - replace (x / 2 ^ n) with 1. { apply Z.eqb_neq. change (1 mod 2) with 1. lia. }
    apply Z.div_unique with (x - 2 ^ n); lia.
  - rewrite (Z.div_small x) by lia. reflexivity.
Qed.

Lemma extract_double_fields : forall x, 0 <= x < 2 ^ 64 ->
  extract_double x =
  if x mod 2 ^ 63 =? 0 then 0%R
  else (rsign (2 ^ 63 <=? x)
        * (IZR (mantissa64 x + 2 ^ 52) * bpow radix2 (exponent64 x - 1075)))%R.
Proof.
  intros x Hx. unfold extract_double, mantissa64, exponent64.
  change 0x7FFFFFFFFFFFFFFF with (Z.ones 63). change 0x000FFFFFFFFFFFFF with (Z.ones 52).
  change 0x0010000000000000 with (2 ^ 52). change 0x8000000000000000 with (2 ^ 63).
  change 0x7FF0000000000000 with (Z.shiftl (Z.ones 11) 52).
  rewrite land_shift, !Z.land_ones by lia.
  rewrite Z.shiftr_shiftl_l by lia. rewrite Z.sub_diag, Z.shiftl_0_r.
  rewrite Z.shiftr_div_pow2 by lia.
  rewrite lor_high by (try apply Z.mod_pos_bound; lia).
  rewrite land_top by (auto; lia).
  replace (x / 2 ^ 52 mod 2 ^ 11 - 1022 - 53) with (x / 2 ^ 52 mod 2 ^ 11 - 1075) by lia.
  rewrite powerRZ_bpow. unfold rsign.
  destruct (x mod 2 ^ 63 =? 0), (2 ^ 63 <=? x); cbn [negb]; ring.
Qed.

Lemma extract_double_ok : forall x, 0 <= x < 2 ^ 64 ->
  0 < exponent64 x < 2047 \/ x mod 2 ^ 63 = 0 ->
  extract_double x = ieee_double x.
Proof.
  intros x Hx H. rewrite extract_double_fields, double_fields by auto. cbv zeta.
  destruct H as [H|H].
  - replace (x mod 2 ^ 63 =? 0) with false.
    2:{ symmetry. apply Z.eqb_neq. unfold exponent64 in H. clear - H Hx.
        intros E. assert (x / 2 ^ 52 mod 2 ^ 11 = 0) by lia. lia. }
    destruct (Z.eqb_spec (exponent64 x) 0), (Z.eqb_spec (exponent64 x) 2047); try lia.
    ring.
  - rewrite H, Z.eqb_refl.
    assert (E : exponent64 x = 0) by (unfold exponent64; clear - H Hx; lia).
    assert (M : mantissa64 x = 0) by (unfold mantissa64; clear - H Hx; lia).
    rewrite E, M, Z.eqb_refl. ring.
Qed.

Lemma extract_float_fields : forall x, 0 <= x < 2 ^ 32 ->
  extract_float x =
  if x mod 2 ^ 31 =? 0 then 0%R
  else (rsign (2 ^ 31 <=? x)
        * (IZR (x mod 2 ^ 23 + 2 ^ 23) * bpow radix2 (x / 2 ^ 23 mod 2 ^ 8 - 150)))%R.
Proof.
  intros x Hx. unfold extract_float.
  change 0x7FFFFFFF with (Z.ones 31). change 0x007FFFFF with (Z.ones 23).
  change 0x00800000 with (2 ^ 23). change 0x80000000 with (2 ^ 31).
  change 0x7F800000 with (Z.shiftl (Z.ones 8) 23).
  rewrite land_shift, !Z.land_ones by lia.
  rewrite Z.shiftr_shiftl_l by lia. rewrite Z.sub_diag, Z.shiftl_0_r.
  rewrite Z.shiftr_div_pow2 by lia.
  rewrite lor_high by (try apply Z.mod_pos_bound; lia).
  rewrite land_top by (auto; lia).
  replace (x / 2 ^ 23 mod 2 ^ 8 - 126 - 24) with (x / 2 ^ 23 mod 2 ^ 8 - 150) by lia.
  rewrite powerRZ_bpow. unfold rsign.
  destruct (x mod 2 ^ 31 =? 0), (2 ^ 31 <=? x); cbn [negb]; ring.
Qed.

Lemma extract_float_ok : forall x, 0 <= x < 2 ^ 32 ->
  0 < x / 2 ^ 23 mod 2 ^ 8 < 255 \/ x mod 2 ^ 31 = 0 ->
  extract_float x = ieee_single x.
Proof.
  intros x Hx H. rewrite extract_float_fields, single_fields by auto. cbv zeta.
  destruct H as [H|H].
  - replace (x mod 2 ^ 31 =? 0) with false.
    2:{ symmetry. apply Z.eqb_neq. clear - H Hx.
        intros E. assert (x / 2 ^ 23 mod 2 ^ 8 = 0) by lia. lia. }
    destruct (Z.eqb_spec (x / 2 ^ 23 mod 2 ^ 8) 0),
      (Z.eqb_spec (x / 2 ^ 23 mod 2 ^ 8) 255); try lia. ring.
  - rewrite H, Z.eqb_refl.
    assert (E : x / 2 ^ 23 mod 2 ^ 8 = 0) by (clear - H Hx; lia).
    assert (M : x mod 2 ^ 23 = 0) by (clear - H Hx; lia).
    rewrite E, M, Z.eqb_refl. ring.
Qed.

Lemma nibbles : forall a b, 0 <= a < 16 -> 0 <= b < 16 -> Z.lor (a * 16) b = a * 16 + b.
Proof.
  intros a b Ha Hb.
  pose proof (byte_cases (fun c => Z.lor (c / 16 * 16) (c mod 16) =? c) (a * 16 + b)
    eq_refl ltac:(lia)) as H. cbv beta in H. apply Z.eqb_eq in H.
  replace ((a * 16 + b) / 16) with a in H by lia.
  replace ((a * 16 + b) mod 16) with b in H by lia. exact H.
Qed.

Lemma top_bit : forall a b, 0 <= a < 2 -> 0 <= b < 128 -> Z.lor (a * 128) b = a * 128 + b.
Proof.
  intros a b Ha Hb.
  pose proof (byte_cases (fun c => Z.lor (c / 128 * 128) (c mod 128) =? c) (a * 128 + b)
    eq_refl ltac:(lia)) as H. cbv beta in H. apply Z.eqb_eq in H.
  replace ((a * 128 + b) / 128) with a in H by lia.
  replace ((a * 128 + b) mod 128) with b in H by lia. exact H.
Qed.

(** representable numbers: normal doubles, or zero *)
Lemma write_f8_mem : forall v,
  (2 ^ 52 <= fmant v < 2 ^ 53 /\ 1 <= fexp v + 1022 <= 2046) ->
  write_f8 v = mem LittleEndian 8
    (join_bits 52 11 (fneg v) (fmant v - 2 ^ 52) (fexp v + 1022)).
Proof.
  intros [neg m e] [Hm He]. cbn [fneg fmant fexp] in *.
  unfold write_f8, join_bits, mem, byteZ. cbn [fneg fmant fexp].
  destruct (Z.eqb_spec m 0); [lia|].
  set (E := e + 1022) in *. clearbody E. clear e.
  cbn [seq map place]. cbn [Z.of_nat Pos.of_succ_nat Pos.succ].
  rewrite (Z.shiftl_mul_pow2 _ 52) by lia.
  replace (if neg then 2 ^ 11 else 0) with (Z.b2z neg * 2 ^ 11)
    by (destruct neg; reflexivity).
  replace (if neg then 128 else 0) with (Z.b2z neg * 128)
    by (destruct neg; reflexivity).
  assert (Hs : 0 <= Z.b2z neg < 2) by (destruct neg; cbn; lia).
  set (s := Z.b2z neg) in *. clearbody s. clear neg.
  rewrite !Z.shiftr_div_pow2 by lia.
  rewrite top_bit by lia.
  replace (Z.land (Z.shiftl E 4) 240) with (E mod 16 * 16).
  2:{ change 240 with (Z.shiftl (Z.ones 4) 4).
      rewrite <- Z.shiftl_land, Z.land_ones, Z.shiftl_mul_pow2 by lia. reflexivity. }
  change 15 with (Z.ones 4). rewrite Z.land_ones by lia. change (2 ^ 4) with 16.
  rewrite nibbles by lia.
  assert (Hx : (s * 2 ^ 11 + E) * 2 ^ 52 + (m - 2 ^ 52) = (s * 2 ^ 11 + E - 1) * 2 ^ 52 + m) by lia.
  rewrite Hx. clear Hx.
  set (h := s * 2 ^ 11 + E - 1).
  assert (K : forall p q, 0 < p -> 2 ^ 52 = q * 256 * p ->
    ((h * 2 ^ 52 + m) / p) mod 256 = (m / p) mod 256).
  { intros p q Hp Hq. replace (h * 2 ^ 52 + m) with (m + (h * q * 256) * p) by (rewrite Hq; ring).
    rewrite Z.div_add by lia. now rewrite Z.mod_add by lia. }
  rewrite (K (256 ^ 0) (2 ^ 44)), (K (256 ^ 1) (2 ^ 36)), (K (256 ^ 2) (2 ^ 28)),
    (K (256 ^ 3) (2 ^ 20)), (K (256 ^ 4) (2 ^ 12)), (K (256 ^ 5) (2 ^ 4)) by lia.
  clear K. change (256 ^ 0) with 1. rewrite Z.div_1_r.
  change (256 ^ 1) with (2 ^ 8). change (256 ^ 2) with (2 ^ 16).
  change (256 ^ 3) with (2 ^ 24). change (256 ^ 4) with (2 ^ 32).
  change (256 ^ 5) with (2 ^ 40). change (256 ^ 6) with (2 ^ 48).
  change (256 ^ 7) with (2 ^ 56).
  assert (K : (h * 2 ^ 52 + m) / 2 ^ 48 = h * 16 + m / 2 ^ 48).
  { replace (h * 2 ^ 52 + m) with (m + (h * 16) * 2 ^ 48) by lia.
    rewrite Z.div_add by lia. lia. }
  assert (K7 : (h * 2 ^ 52 + m) / 2 ^ 56 = (h * 16 + m / 2 ^ 48) / 256).
  { rewrite <- K, Z.div_div by lia. reflexivity. }
  rewrite K, K7. clear K K7.
  assert (Hq : 16 <= m / 2 ^ 48 < 32) by lia.
  set (q := m / 2 ^ 48) in *. clearbody q.
  replace ((h * 16 + q) mod 256) with ((E mod 16 * 16 + q mod 16) mod 256)
    by (unfold h; clear - Hs He Hq; lia).
  replace ((h * 16 + q) / 256 mod 256) with ((s * 128 + E / 2 ^ 4) mod 256)
    by (unfold h; clear - Hs He Hq; lia).
  reflexivity.
Qed.

Lemma write_f4_mem : forall v,
  (2 ^ 23 <= fmant v < 2 ^ 24 /\ 1 <= fexp v + 126 <= 254) ->
  write_f4 v = mem LittleEndian 4
    (join_bits 23 8 (fneg v) (fmant v - 2 ^ 23) (fexp v + 126)).
Proof.
  intros [neg m e] [Hm He]. cbn [fneg fmant fexp] in *.
  unfold write_f4, join_bits, mem, byteZ. cbn [fneg fmant fexp].
  destruct (Z.eqb_spec m 0); [lia|].
  set (E := e + 126) in *. clearbody E. clear e.
  cbn [seq map place]. cbn [Z.of_nat Pos.of_succ_nat Pos.succ].
  rewrite (Z.shiftl_mul_pow2 _ 23) by lia.
  replace (if neg then 2 ^ 8 else 0) with (Z.b2z neg * 2 ^ 8)
    by (destruct neg; reflexivity).
  replace (if neg then 128 else 0) with (Z.b2z neg * 128)
    by (destruct neg; reflexivity).
  assert (Hs : 0 <= Z.b2z neg < 2) by (destruct neg; cbn; lia).
  set (s := Z.b2z neg) in *. clearbody s. clear neg.
  rewrite !Z.shiftr_div_pow2 by lia.
  rewrite (top_bit s) by lia.
  replace (Z.land (Z.shiftl E 7) 128) with (E mod 2 * 128).
  2:{ change 128 with (Z.shiftl (Z.ones 1) 7) at 2.
      rewrite <- Z.shiftl_land, Z.land_ones, Z.shiftl_mul_pow2 by lia. reflexivity. }
  change 127 with (Z.ones 7). rewrite Z.land_ones by lia. change (2 ^ 7) with 128.
  rewrite top_bit by lia.
  assert (Hx : (s * 2 ^ 8 + E) * 2 ^ 23 + (m - 2 ^ 23) = (s * 2 ^ 8 + E - 1) * 2 ^ 23 + m) by lia.
  rewrite Hx. clear Hx.
  set (h := s * 2 ^ 8 + E - 1).
  assert (K : forall p q, 0 < p -> 2 ^ 23 = q * 256 * p ->
    ((h * 2 ^ 23 + m) / p) mod 256 = (m / p) mod 256).
  { intros p q Hp Hq. replace (h * 2 ^ 23 + m) with (m + (h * q * 256) * p) by (rewrite Hq; ring).
    rewrite Z.div_add by lia. now rewrite Z.mod_add by lia. }
  rewrite (K (256 ^ 0) (2 ^ 15)), (K (256 ^ 1) (2 ^ 7)) by lia.
  clear K. change (256 ^ 0) with 1. rewrite Z.div_1_r.
  change (256 ^ 1) with (2 ^ 8). change (256 ^ 2) with (2 ^ 16).
  change (256 ^ 3) with (2 ^ 24).
  assert (K : (h * 2 ^ 23 + m) / 2 ^ 16 = h * 128 + m / 2 ^ 16).
  { replace (h * 2 ^ 23 + m) with (m + (h * 128) * 2 ^ 16) by lia.
    rewrite Z.div_add by lia. lia. }
  assert (K7 : (h * 2 ^ 23 + m) / 2 ^ 24 = (h * 128 + m / 2 ^ 16) / 256).
  { rewrite <- K, Z.div_div by lia. reflexivity. }
  rewrite K, K7. clear K K7.
  assert (Hq : 128 <= m / 2 ^ 16 < 256) by lia.
  set (q := m / 2 ^ 16) in *. clearbody q.
  replace ((h * 128 + q) mod 256) with ((E mod 2 * 128 + q mod 128) mod 256)
    by (unfold h; clear - Hs He Hq; lia).
  replace ((h * 128 + q) / 256 mod 256) with ((s * 128 + E / 2 ^ 1) mod 256)
    by (unfold h; clear - Hs He Hq; lia).
  reflexivity.
Qed.
