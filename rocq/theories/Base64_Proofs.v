(** Proofs about the base64 model. *)
From Coq Require Import List NArith ZArith Lia Bool Arith.
From Coq Require Import ZifyBool ZifyNat ZifyN.
From Verif Require Import Util Base64_Model.
Import ListNotations.
Open Scope N_scope.

(** ** Specification, independent of the model: a group of three bytes is the
    24-bit big-endian number whose four base-64 digits are printed. *)
Definition alphabet_digit (d : N) : N :=
  if d <? 26 then 65 + d          (* A..Z *)
  else if d <? 52 then 97 + (d - 26)  (* a..z *)
  else if d <? 62 then 48 + (d - 52)  (* 0..9 *)
  else if d =? 62 then 43 else 47.    (* + / *)

Definition digit64 (v k : N) : N := alphabet_digit ((v / 64 ^ k) mod 64).

Fixpoint rfc_encode (b : list N) : list N :=
  match b with
  | [] => []
  | [x] => let v := x * 65536 in [digit64 v 3; digit64 v 2; 61; 61]
  | [x; y] => let v := x * 65536 + y * 256 in
              [digit64 v 3; digit64 v 2; digit64 v 1; 61]
  | x :: y :: z :: r => let v := x * 65536 + y * 256 + z in
              [digit64 v 3; digit64 v 2; digit64 v 1; digit64 v 0] ++ rfc_encode r
  end.

Definition is_byte (x : N) := x < 256.

(** ** Single byte facts, by computation *)
Lemma b_fc : forall a, a < 256 -> N.shiftr (N.land a 0xfc) 2 = a / 4.
Proof.
  intros a H. apply N.eqb_eq.
  apply (forallb_upto 256 (fun a => N.shiftr (N.land a 0xfc) 2 =? a/4)); [|exact H].
  vm_compute. reflexivity.
Qed.
Lemma b_03 : forall a, a < 256 -> N.shiftl (N.land a 0x03) 4 = (a mod 4) * 16.
Proof.
  intros a H. apply N.eqb_eq.
  apply (forallb_upto 256 (fun a => N.shiftl (N.land a 0x03) 4 =? (a mod 4) * 16)); [|exact H].
  vm_compute. reflexivity.
Qed.
Lemma b_f0 : forall a, a < 256 -> N.shiftr (N.land a 0xf0) 4 = a / 16.
Proof.
  intros a H. apply N.eqb_eq.
  apply (forallb_upto 256 (fun a => N.shiftr (N.land a 0xf0) 4 =? a / 16)); [|exact H].
  vm_compute. reflexivity.
Qed.
Lemma b_0f : forall a, a < 256 -> N.shiftl (N.land a 0x0f) 2 = (a mod 16) * 4.
Proof.
  intros a H. apply N.eqb_eq.
  apply (forallb_upto 256 (fun a => N.shiftl (N.land a 0x0f) 2 =? (a mod 16) * 4)); [|exact H].
  vm_compute. reflexivity.
Qed.
Lemma b_c0 : forall a, a < 256 -> N.shiftr (N.land a 0xc0) 6 = a / 64.
Proof.
  intros a H. apply N.eqb_eq.
  apply (forallb_upto 256 (fun a => N.shiftr (N.land a 0xc0) 6 =? a / 64)); [|exact H].
  vm_compute. reflexivity.
Qed.
Lemma b_3f : forall a, a < 256 -> N.land a 0x3f = a mod 64.
Proof.
  intros a H. apply N.eqb_eq.
  apply (forallb_upto 256 (fun a => N.land a 0x3f =? a mod 64)); [|exact H].
  vm_compute. reflexivity.
Qed.
Lemma s_30 : forall a, a < 256 -> N.shiftr (N.land a 0x30) 4 = (a / 16) mod 4.
Proof.
  intros a H. apply N.eqb_eq.
  apply (forallb_upto 256 (fun a => N.shiftr (N.land a 0x30) 4 =? (a / 16) mod 4)); [|exact H].
  vm_compute. reflexivity.
Qed.
Lemma s_f : forall a, a < 256 -> N.shiftl (N.land a 0xf) 4 = (a mod 16) * 16.
Proof.
  intros a H. apply N.eqb_eq.
  apply (forallb_upto 256 (fun a => N.shiftl (N.land a 0xf) 4 =? (a mod 16) * 16)); [|exact H].
  vm_compute. reflexivity.
Qed.
Lemma s_3c : forall a, a < 256 -> N.shiftr (N.land a 0x3c) 2 = (a / 4) mod 16.
Proof.
  intros a H. apply N.eqb_eq.
  apply (forallb_upto 256 (fun a => N.shiftr (N.land a 0x3c) 2 =? (a / 4) mod 16)); [|exact H].
  vm_compute. reflexivity.
Qed.
Lemma s_3 : forall a, a < 256 -> N.shiftl (N.land a 0x3) 6 = (a mod 4) * 64.
Proof.
  intros a H. apply N.eqb_eq.
  apply (forallb_upto 256 (fun a => N.shiftl (N.land a 0x3) 6 =? (a mod 4) * 64)); [|exact H].
  vm_compute. reflexivity.
Qed.
Lemma s_l2 : forall a, a < 64 -> N.shiftl a 2 = a * 4.
Proof. intros. rewrite N.shiftl_mul_pow2. reflexivity. Qed.

Lemma find_char_at : forall k, k < 64 -> find_char (char_at k) = k.
Proof.
  intros k H. apply N.eqb_eq.
  apply (forallb_upto 64 (fun k => find_char (char_at k) =? k)); [|exact H].
  vm_compute. reflexivity.
Qed.
Lemma char_at_base64 : forall k, k < 64 ->
  negb (char_at k =? pad) && is_base64 (char_at k) = true.
Proof.
  intros k H.
  apply (forallb_upto 64 (fun k => negb (char_at k =? pad) && is_base64 (char_at k))); [|exact H].
  vm_compute. reflexivity.
Qed.
Lemma char_at_alphabet : forall k, k < 64 -> char_at k = alphabet_digit k.
Proof.
  intros k H. apply N.eqb_eq.
  apply (forallb_upto 64 (fun k => char_at k =? alphabet_digit k)); [|exact H].
  vm_compute. reflexivity.
Qed.
Lemma find_char_small : forall c, find_char c < 256.
Proof.
  intro c. unfold find_char.
  assert (forall l p, find_from c l p < 256) as G.
  { induction l as [|h t IH]; intro p; simpl; [lia|].
    destruct (h =? c); [unfold byte; lia | apply IH]. }
  apply G.
Qed.

Definition sx0 (a : N) := a / 4.
Definition sx1 (a b : N) := (a mod 4) * 16 + b / 16.
Definition sx2 (b c : N) := (b mod 16) * 4 + c / 64.
Definition sx3 (c : N) := c mod 64.

Lemma sextets_eq : forall a b c, a < 256 -> b < 256 -> c < 256 ->
  sextets a b c = [sx0 a; sx1 a b; sx2 b c; sx3 c].
Proof.
  intros. unfold sextets, sx0, sx1, sx2, sx3, byte.
  rewrite b_fc, b_03, b_f0, b_0f, b_c0, b_3f by assumption.
  repeat (f_equal; try lia).
Qed.
Lemma sx_bounds : forall a b c, a < 256 -> b < 256 -> c < 256 ->
  sx0 a < 64 /\ sx1 a b < 64 /\ sx2 b c < 64 /\ sx3 c < 64.
Proof. intros. unfold sx0, sx1, sx2, sx3. lia. Qed.

Lemma octets_eq : forall a b c x, a < 256 -> b < 256 -> c < 256 -> x < 256 ->
  octets (sx0 a) (sx1 a b) (sx2 b c) x =
  [a; b; ((sx2 b c mod 4) * 64 + x) mod 256].
Proof.
  intros a b c x Ha Hb Hc Hx.
  destruct (sx_bounds a b c Ha Hb Hc) as (H0 & H1 & H2 & H3).
  unfold octets, byte.
  rewrite s_l2, s_30, s_f, s_3c, s_3 by lia.
  unfold sx0, sx1, sx2 in *. repeat f_equal; lia.
Qed.

Lemma decode_quad : forall a b c r, a < 256 -> b < 256 -> c < 256 ->
  dec_loop [] (map char_at [sx0 a; sx1 a b; sx2 b c; sx3 c] ++ r) =
  [a; b; c] ++ dec_loop [] r.
Proof.
  intros a b c r Ha Hb Hc.
  destruct (sx_bounds a b c Ha Hb Hc) as (H0 & H1 & H2 & H3).
  cbn [map app dec_loop List.length Nat.eqb nth].
  rewrite !char_at_base64 by assumption.
  cbn [map app dec_loop List.length Nat.eqb nth].
  rewrite !find_char_at by assumption.
  rewrite octets_eq by (auto; unfold sx3; lia).
  cbn [app]. repeat f_equal. unfold sx2, sx3. lia.
Qed.

Lemma decode_tail2 : forall a b, a < 256 -> b < 256 ->
  dec_loop [] (map char_at [sx0 a; sx1 a b; sx2 b 0] ++ [pad]) = [a; b].
Proof.
  intros a b Ha Hb.
  destruct (sx_bounds a b 0 Ha Hb ltac:(lia)) as (H0 & H1 & H2 & H3).
  cbn [map app dec_loop List.length Nat.eqb nth].
  rewrite !char_at_base64 by assumption.
  cbn [map app dec_loop List.length Nat.eqb nth].
  rewrite N.eqb_refl. cbn [negb andb].
  unfold dec_tail. cbn [List.length Nat.sub nth firstn].
  rewrite !find_char_at by assumption.
  rewrite octets_eq by (auto; try lia; apply find_char_small).
  reflexivity.
Qed.

Lemma decode_tail1 : forall a, a < 256 ->
  dec_loop [] (map char_at [sx0 a; sx1 a 0] ++ [pad; pad]) = [a].
Proof.
  intros a Ha.
  destruct (sx_bounds a 0 0 Ha ltac:(lia) ltac:(lia)) as (H0 & H1 & _ & _).
  cbn [map app dec_loop List.length Nat.eqb nth].
  rewrite !char_at_base64 by assumption.
  cbn [map app dec_loop List.length Nat.eqb nth].
  rewrite N.eqb_refl. cbn [negb andb].
  unfold dec_tail. cbn [List.length Nat.sub nth firstn].
  rewrite !find_char_at by assumption.
  unfold octets, firstn. f_equal. unfold byte.
  rewrite s_l2, s_30 by lia. unfold sx0, sx1. lia.
Qed.

(** Induction by groups of three. *)
Lemma list3_ind : forall (A : Type) (P : list A -> Prop),
  P [] -> (forall x, P [x]) -> (forall x y, P [x; y]) ->
  (forall x y z r, P r -> P (x :: y :: z :: r)) -> forall l, P l.
Proof.
  intros A P H0 H1 H2 H3.
  enough (forall n l, (List.length l <= n)%nat -> P l) as G by (intro l; eapply G; eauto).
  induction n as [|n IH]; intros [|x [|y [|z r]]] Hl; simpl in *; auto; try lia.
  apply H3. apply IH. lia.
Qed.

Lemma encode_step : forall x y z r, x < 256 -> y < 256 -> z < 256 ->
  base64_encode (x :: y :: z :: r) =
  map char_at [sx0 x; sx1 x y; sx2 y z; sx3 z] ++ base64_encode r.
Proof.
  intros. unfold base64_encode.
  cbn [enc_loop app List.length Nat.eqb nth]. rewrite sextets_eq by assumption.
  reflexivity.
Qed.
Lemma encode_2 : forall x y, x < 256 -> y < 256 ->
  base64_encode [x; y] = map char_at [sx0 x; sx1 x y; sx2 y 0] ++ [pad].
Proof.
  intros. unfold base64_encode. cbn [enc_loop app List.length Nat.eqb].
  unfold enc_tail. cbn [List.length nth Nat.add Nat.sub repeat].
  rewrite sextets_eq by lia. reflexivity.
Qed.
Lemma encode_1 : forall x, x < 256 ->
  base64_encode [x] = map char_at [sx0 x; sx1 x 0] ++ [pad; pad].
Proof.
  intros. unfold base64_encode. cbn [enc_loop app List.length Nat.eqb].
  unfold enc_tail. cbn [List.length nth Nat.add Nat.sub repeat].
  rewrite sextets_eq by lia. reflexivity.
Qed.

Lemma roundtrip : forall b, Forall is_byte b -> base64_decode (base64_encode b) = b.
Proof.
  unfold base64_decode. induction b as [|x|x y|x y z r IH] using list3_ind; intro H.
  - reflexivity.
  - inversion H; subst. rewrite encode_1 by assumption. now apply decode_tail1.
  - inversion H as [|? ? Hx Hr]; inversion Hr; subst.
    rewrite encode_2 by assumption. now apply decode_tail2.
  - inversion H as [|? ? Hx Hr]; inversion Hr as [|? ? Hy Hr']; inversion Hr'; subst.
    rewrite encode_step by assumption. rewrite decode_quad by assumption.
    rewrite IH by assumption. reflexivity.
Qed.

Lemma digits_spec : forall x y z, x < 256 -> y < 256 -> z < 256 ->
  let v := x * 65536 + y * 256 + z in
  (v / 64^3) mod 64 = sx0 x /\ (v / 64^2) mod 64 = sx1 x y /\
  (v / 64^1) mod 64 = sx2 y z /\ (v / 64^0) mod 64 = sx3 z.
Proof.
  intros. unfold sx0, sx1, sx2, sx3. subst v.
  change (64^3) with 262144. change (64^2) with 4096.
  change (64^1) with 64. change (64^0) with 1. repeat split; lia.
Qed.

Lemma encode_rfc : forall b, Forall is_byte b -> base64_encode b = rfc_encode b.
Proof.
  induction b as [|x|x y|x y z r IH] using list3_ind; intro H.
  - reflexivity.
  - inversion H; subst. rewrite encode_1 by assumption.
    destruct (sx_bounds x 0 0) as (B0 & B1 & _); try lia; auto.
    destruct (digits_spec x 0 0) as (D3 & D2 & _); try lia; auto.
    cbn [rfc_encode map app]. unfold digit64.
    replace (x * 65536) with (x * 65536 + 0 * 256 + 0) by lia.
    rewrite D3, D2. now rewrite !char_at_alphabet by assumption.
  - inversion H as [|? ? Hx Hr]; inversion Hr; subst.
    rewrite encode_2 by assumption.
    destruct (sx_bounds x y 0) as (B0 & B1 & B2 & _); try lia; auto.
    destruct (digits_spec x y 0) as (D3 & D2 & D1 & _); try lia; auto.
    cbn [rfc_encode map app]. unfold digit64.
    replace (x * 65536 + y * 256) with (x * 65536 + y * 256 + 0) by lia.
    rewrite D3, D2, D1. now rewrite !char_at_alphabet by assumption.
  - inversion H as [|? ? Hx Hr]; inversion Hr as [|? ? Hy Hr']; inversion Hr'; subst.
    rewrite encode_step by assumption. rewrite IH by assumption.
    destruct (sx_bounds x y z) as (B0 & B1 & B2 & B3); auto.
    destruct (digits_spec x y z) as (D3 & D2 & D1 & D0); auto.
    cbn [rfc_encode map app]. unfold digit64.
    rewrite D3, D2, D1, D0. now rewrite !char_at_alphabet by assumption.
Qed.

(** Alphabet letter, written independently of the table. *)
Definition is_letter (c : N) : Prop :=
  (65 <= c <= 90) \/ (97 <= c <= 122) \/ (48 <= c <= 57) \/ c = 43 \/ c = 47.

Lemma alphabet_is_letter : forall d, d < 64 -> is_letter (alphabet_digit d).
Proof.
  intros d H. unfold alphabet_digit, is_letter.
  destruct (N.ltb_spec d 26); [lia|]. destruct (N.ltb_spec d 52); [lia|].
  destruct (N.ltb_spec d 62); [lia|]. destruct (N.eqb_spec d 62); lia.
Qed.
Lemma digit64_letter : forall v k, is_letter (digit64 v k).
Proof. intros. apply alphabet_is_letter. lia. Qed.

Lemma rfc_shape : forall b,
  exists body p, rfc_encode b = body ++ repeat 61 p /\ (p <= 2)%nat /\
    Forall is_letter body /\
    N.of_nat (List.length (rfc_encode b)) = 4 * ((N.of_nat (List.length b) + 2) / 3).
Proof.
  induction b as [|x|x y|x y z r IH] using list3_ind.
  - exists [], 0%nat. repeat split; auto.
  - exists [digit64 (x*65536) 3; digit64 (x*65536) 2], 2%nat.
    repeat split; auto. repeat (apply Forall_cons; [apply digit64_letter|]); apply Forall_nil.
  - eexists [_;_;_], 1%nat. repeat split; auto.
    repeat (apply Forall_cons; [apply digit64_letter|]); apply Forall_nil.
  - destruct IH as (body & p & E & Hp & HF & HL).
    exists ([digit64 (x * 65536 + y * 256 + z) 3; digit64 (x * 65536 + y * 256 + z) 2;
             digit64 (x * 65536 + y * 256 + z) 1; digit64 (x * 65536 + y * 256 + z) 0] ++ body), p.
    split; [|split; [exact Hp|split]].
    + cbn [rfc_encode app]. now rewrite E.
    + apply Forall_app. split; [repeat (apply Forall_cons; [apply digit64_letter|]); apply Forall_nil|exact HF].
    + cbn [rfc_encode app List.length]. rewrite !Nat2N.inj_succ, HL. lia.
Qed.

(** The decoder ignores everything from the first foreign character on. *)
Lemma decode_stops : forall s acc x t,
  is_base64 x = false \/ x = pad ->
  dec_loop acc (s ++ x :: t) = dec_loop acc s.
Proof.
  induction s as [|c s IH]; intros acc x t Hx; cbn [app dec_loop].
  - destruct Hx as [Hx | ->]; [rewrite Hx, andb_false_r|]; reflexivity.
  - destruct (negb (c =? pad) && is_base64 c); auto.
    destruct (Nat.eqb _ _); rewrite IH; auto.
Qed.

Lemma decode_bytes : forall s acc, Forall is_byte (dec_loop acc s).
Proof.
  assert (O : forall a b c d, Forall is_byte (octets a b c d)).
  { intros. unfold octets, byte, is_byte. repeat constructor; lia. }
  assert (T : forall acc, Forall is_byte (dec_tail acc)).
  { intro acc. unfold dec_tail. destruct acc as [|h t]; [constructor|].
    assert (F : forall n (l : list N), Forall is_byte l -> Forall is_byte (firstn n l)).
    { induction n; intros [|y l] Hl; simpl; auto. inversion Hl; subst. constructor; auto. }
    apply F, O. }
  induction s as [|c s IH]; intro acc; cbn [dec_loop]; auto.
  destruct (negb (c =? pad) && is_base64 c); auto.
  destruct (Nat.eqb _ _); auto. apply Forall_app; auto.
Qed.
