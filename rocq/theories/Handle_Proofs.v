(** Proofs about handles and element type masks. *)
From Coq Require Import ZArith List Bool Lia Sorted.
From Verif Require Import Util Handle_Model.
Import ListNotations.
Open Scope Z_scope.

(** The two layouts of inmost_common.h. *)
Definition layout (w : Z) : Prop := w = 32 \/ w = 64.

(** The six element types. *)
Definition single_types : list Z := [1; 2; 4; 8; 16; 32].

Lemma land_mask : forall h k, 0 <= k -> Z.land h (2 ^ k - 1) = h mod 2 ^ k.
Proof.
  intros h k Hk. replace (2 ^ k - 1) with (Z.ones k).
  - now apply Z.land_ones.
  - rewrite Z.ones_equiv. lia.
Qed.

Lemma mask_eq : forall w, layout w -> handle_id_mask w = 2 ^ (w - 3) - 1.
Proof. intros w [->| ->]; vm_compute; reflexivity. Qed.

(** Arithmetic reading of the three functions. *)
Lemma compose_arith : forall w num id, layout w -> 0 <= num < 8 -> 0 <= id ->
  id + 1 < 2 ^ (w - 3) ->
  ComposeHandleNum w num id = num * 2 ^ (w - 3) + (id + 1).
Proof.
  intros w num id Hw Hn Hi Hb. unfold ComposeHandleNum.
  destruct (Z.eqb_spec id (-1)); [lia|].
  unfold handle_etype_shift, handle_etype_bits, wrapU.
  destruct Hw as [->| ->];
    rewrite Z.shiftl_mul_pow2 by lia; rewrite Z.mod_small.
  all: change (2 ^ (32 - 3)) with 536870912 in *;
       change (2 ^ (64 - 3)) with 2305843009213693952 in *;
       change (2 ^ 32) with 4294967296; change (2 ^ 64) with 18446744073709551616; lia.
Qed.

Lemma id_arith : forall w h, layout w -> 0 <= h < 2 ^ w ->
  GetHandleID w h = h mod 2 ^ (w - 3) - 1.
Proof.
  intros w h Hw Hh. unfold GetHandleID. rewrite mask_eq, land_mask by (assumption || (destruct Hw; subst; lia)).
  unfold wrapS. destruct Hw as [->| ->];
  change (2 ^ (32 - 3)) with 536870912 in *;
  change (2 ^ (64 - 3)) with 2305843009213693952 in *;
  change (2 ^ (32 - 1)) with 2147483648 in *;
  change (2 ^ (64 - 1)) with 9223372036854775808 in *;
  change (2 ^ 32) with 4294967296 in *; change (2 ^ 64) with 18446744073709551616 in *;
  cbv zeta.
  - pose proof (Z.mod_pos_bound h 536870912 ltac:(lia)) as B.
    set (r := h mod 536870912) in *.
    destruct (Z.eq_dec r 0) as [->|].
    + reflexivity.
    + rewrite Z.mod_small by lia. destruct (Z.ltb_spec (r - 1) 2147483648); lia.
  - pose proof (Z.mod_pos_bound h 2305843009213693952 ltac:(lia)) as B.
    set (r := h mod 2305843009213693952) in *.
    destruct (Z.eq_dec r 0) as [->|].
    + reflexivity.
    + rewrite Z.mod_small by lia. destruct (Z.ltb_spec (r - 1) 9223372036854775808); lia.
Qed.

Lemma num_arith : forall w h, layout w -> 0 <= h < 2 ^ w ->
  GetHandleElementNum w h = h / 2 ^ (w - 3).
Proof.
  intros w h Hw Hh. unfold GetHandleElementNum, handle_etype_shift, handle_etype_bits, wrapS.
  destruct Hw as [->| ->]; rewrite Z.shiftr_div_pow2 by lia;
  change (2 ^ (32 - 3)) with 536870912 in *;
  change (2 ^ (64 - 3)) with 2305843009213693952 in *;
  change (2 ^ (32 - 1)) with 2147483648 in *;
  change (2 ^ (64 - 1)) with 9223372036854775808 in *;
  change (2 ^ 32) with 4294967296 in *; change (2 ^ 64) with 18446744073709551616 in *;
  cbv zeta.
  - assert (0 <= h / 536870912 < 8) by lia.
    rewrite Z.mod_small by lia. destruct (Z.ltb_spec (h / 536870912) 2147483648); lia.
  - assert (0 <= h / 2305843009213693952 < 8) by lia.
    rewrite Z.mod_small by lia.
    destruct (Z.ltb_spec (h / 2305843009213693952) 9223372036854775808); lia.
Qed.

Lemma compose_range : forall w num id, layout w -> 0 <= ComposeHandleNum w num id < 2 ^ w.
Proof.
  intros w num id Hw. unfold ComposeHandleNum, InvalidHandle, wrapU.
  assert (0 < 2 ^ w) by (destruct Hw as [->| ->]; reflexivity).
  destruct (id =? -1); [lia|]. now apply Z.mod_pos_bound.
Qed.

Lemma pow_split : forall w, layout w -> 2 ^ w = 8 * 2 ^ (w - 3) /\ 0 < 2 ^ (w - 3).
Proof. intros w [->| ->]; split; reflexivity. Qed.

Lemma compose_roundtrip_num : forall w num id,
  layout w -> 0 <= num < 6 -> 0 <= id -> id + 1 < 2 ^ (w - 3) ->
  GetHandleElementNum w (ComposeHandleNum w num id) = num /\
  GetHandleID w (ComposeHandleNum w num id) = id /\
  ComposeHandleNum w num id <> InvalidHandle.
Proof.
  intros w num id Hw Hn Hi Hb. pose proof (compose_range w num id Hw) as R.
  rewrite num_arith, id_arith by assumption.
  rewrite (compose_arith w num id) in * by (lia || assumption).
  destruct (pow_split w Hw) as [_ P].
  rewrite Z.div_add_l by lia.
  replace ((num * 2 ^ (w - 3) + (id + 1)) mod 2 ^ (w - 3)) with (id + 1)
    by (apply Z.mod_unique with num; lia).
  rewrite Z.div_small by lia. unfold InvalidHandle. repeat split; nia.
Qed.

(** Any id whose successor overflows the low bits is not read back. *)
Lemma compose_overflow : forall w num id,
  layout w -> 0 <= id -> 2 ^ (w - 3) <= id + 1 ->
  GetHandleID w (ComposeHandleNum w num id) <> id.
Proof.
  intros w num id Hw Hi Hb. rewrite id_arith by (auto using compose_range).
  destruct (pow_split w Hw) as [_ P].
  pose proof (Z.mod_pos_bound (ComposeHandleNum w num id) (2 ^ (w - 3)) P). lia.
Qed.

Lemma decode_encode : forall w h, layout w -> 0 <= h < 2 ^ w ->
  ComposeHandleNum w (GetHandleElementNum w h) (GetHandleID w h) =
  if h mod 2 ^ (w - 3) =? 0 then InvalidHandle else h.
Proof.
  intros w h Hw Hh. rewrite num_arith, id_arith by assumption.
  destruct (pow_split w Hw) as [E P].
  pose proof (Z.mod_pos_bound h (2 ^ (w - 3)) P) as B.
  pose proof (Z.div_mod h (2 ^ (w - 3)) ltac:(lia)) as D.
  destruct (Z.eqb_spec (h mod 2 ^ (w - 3)) 0) as [Z0|NZ].
  - rewrite Z0. reflexivity.
  - rewrite compose_arith; [lia|assumption| |lia|lia].
    split; [apply Z.div_pos; lia|]. apply Z.div_lt_upper_bound; lia.
Qed.

(** ** Element types *)
Lemma type_num : forall t, In t single_types ->
  0 <= ElementNum t < 6 /\ ElementTypeFromDim (ElementNum t) = t.
Proof. intros t H. repeat (destruct H as [<-|H]; [now vm_compute|]). destruct H. Qed.

Lemma num_type : forall k, 0 <= k < 6 ->
  In (ElementTypeFromDim k) single_types /\ ElementNum (ElementTypeFromDim k) = k.
Proof.
  intros k H. assert (In k [0;1;2;3;4;5]) as I by (simpl; lia).
  repeat (destruct I as [<-|I]; [vm_compute; tauto|]). destruct I.
Qed.

Lemma compose_type_num : forall w t id, ComposeHandle w t id = ComposeHandleNum w (ElementNum t) id.
Proof. reflexivity. Qed.

Lemma etype_of_num : forall w h t, In t single_types ->
  GetHandleElementNum w h = ElementNum t -> GetHandleElementType w h = t.
Proof.
  intros w h t Ht E. unfold GetHandleElementType. rewrite E.
  apply (type_num t Ht).
Qed.

Lemma compose_roundtrip : forall w t id,
  layout w -> In t single_types -> 0 <= id -> id + 1 < 2 ^ (w - 3) ->
  GetHandleElementType w (ComposeHandle w t id) = t /\
  GetHandleElementNum w (ComposeHandle w t id) = ElementNum t /\
  GetHandleID w (ComposeHandle w t id) = id /\
  isValidHandle (ComposeHandle w t id) = true.
Proof.
  intros w t id Hw Ht Hi Hb. rewrite compose_type_num.
  destruct (type_num t Ht) as [Hn _].
  destruct (compose_roundtrip_num w (ElementNum t) id Hw Hn Hi Hb) as (A & B & C).
  split; [now apply etype_of_num|]. repeat split; auto.
  unfold isValidHandle. apply negb_true_iff. now apply Z.eqb_neq.
Qed.

Lemma compose_injective : forall w t1 t2 i1 i2,
  layout w -> In t1 single_types -> In t2 single_types ->
  0 <= i1 -> i1 + 1 < 2 ^ (w - 3) -> 0 <= i2 -> i2 + 1 < 2 ^ (w - 3) ->
  ComposeHandle w t1 i1 = ComposeHandle w t2 i2 -> t1 = t2 /\ i1 = i2.
Proof.
  intros w t1 t2 i1 i2 Hw T1 T2 A1 B1 A2 B2 E.
  destruct (compose_roundtrip w t1 i1) as (P1 & _ & Q1 & _); auto.
  destruct (compose_roundtrip w t2 i2) as (P2 & _ & Q2 & _); auto.
  rewrite E in *. split; congruence.
Qed.

(** OneType accepts exactly the powers of two. *)
Definition bytesZ : list Z := map Z.of_nat (seq 0 256).
Lemma in_bytesZ : forall t, 0 <= t < 256 -> In t bytesZ.
Proof.
  intros t H. unfold bytesZ. apply in_map_iff. exists (Z.to_nat t).
  split; [lia|]. apply in_seq. lia.
Qed.

Lemma one_type_spec : forall t, 0 <= t < 256 ->
  (OneType t = true <-> exists k, 0 <= k < 8 /\ t = 2 ^ k).
Proof.
  intros t Ht.
  assert (forallb (fun t => Bool.eqb (OneType t)
            (existsb (fun k => t =? 2 ^ k) [0;1;2;3;4;5;6;7])) bytesZ = true)
    as C by (vm_compute; reflexivity).
  rewrite forallb_forall in C. specialize (C t (in_bytesZ t Ht)).
  apply Bool.eqb_prop in C. rewrite C, existsb_exists. split.
  - intros (k & Ik & E). exists k. split; [simpl in Ik; lia|lia].
  - intros (k & Hk & ->). exists k. split; [simpl; lia|]. apply Z.eqb_refl.
Qed.

(** The types of a mask, in increasing order: an independent enumeration. *)
Definition types_of (mask : Z) : list Z :=
  filter (fun t => negb (Z.land mask t =? 0)) single_types.

Lemma walk_next_check :
  forallb (fun mask => forallb (fun c =>
     match walk_next 7 c mask with
     | Some l => if list_eq_dec Z.eq_dec l (filter (fun t => c <? t) (types_of mask)) then true else false
     | None => false
     end) single_types) bytesZ = true.
Proof. vm_compute. reflexivity. Qed.

Lemma walk_next_spec : forall mask c, 0 <= mask < 256 -> In c single_types ->
  walk_next 7 c mask = Some (filter (fun t => c <? t) (types_of mask)).
Proof.
  intros mask c Hm Hc. pose proof walk_next_check as C.
  rewrite forallb_forall in C. specialize (C mask (in_bytesZ mask Hm)).
  rewrite forallb_forall in C. specialize (C c Hc). cbv beta in C.
  destruct (walk_next 7 c mask) as [l|]; [|discriminate].
  destruct (list_eq_dec Z.eq_dec l _) as [->|]; [reflexivity|discriminate].
Qed.

Lemma walk_prev_check :
  forallb (fun mask => forallb (fun c =>
     match walk_prev 7 c mask with
     | Some l => if list_eq_dec Z.eq_dec l (rev (filter (fun t => t <? c) (types_of mask))) then true else false
     | None => false
     end) (LastElementType :: single_types)) (firstn 64 bytesZ) = true.
Proof. vm_compute. reflexivity. Qed.

Lemma in_bytesZ64 : forall t, 0 <= t < 64 -> In t (firstn 64 bytesZ).
Proof.
  intros t H. replace (firstn 64 bytesZ) with (map Z.of_nat (seq 0 64)) by reflexivity.
  apply in_map_iff. exists (Z.to_nat t). split; [lia|]. apply in_seq. lia.
Qed.

Lemma walk_prev_spec : forall mask c, 0 <= mask < 64 -> In c (LastElementType :: single_types) ->
  walk_prev 7 c mask = Some (rev (filter (fun t => t <? c) (types_of mask))).
Proof.
  intros mask c Hm Hc. pose proof walk_prev_check as C.
  rewrite forallb_forall in C. specialize (C mask (in_bytesZ64 mask Hm)).
  rewrite forallb_forall in C. specialize (C c Hc). cbv beta in C.
  destruct (walk_prev 7 c mask) as [l|]; [|discriminate].
  destruct (list_eq_dec Z.eq_dec l _) as [->|]; [reflexivity|discriminate].
Qed.

Lemma next_from_none_diverges : forall fuel types, GetNextType fuel NONE types = None.
Proof.
  intros fuel types. unfold GetNextType.
  change (wrapU 8 (Z.shiftl NONE 1)) with 0.
  assert (next_loop fuel 0 types = None) as ->; [|reflexivity].
  induction fuel as [|f IH]; [reflexivity|]. cbn [next_loop].
  rewrite Z.land_0_r. cbn. exact IH.
Qed.
