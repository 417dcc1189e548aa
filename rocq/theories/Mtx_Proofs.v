(** Lemmas about matrix files. *)
From Coq Require Import Ascii String.
From Coq Require Import List Arith NArith ZArith Bool Lia Reals Lra.
From Flocq Require Import Core.Core.
From Verif Require Import Row_Model Mtx_Model Mtx_Spec.
Import ListNotations.
Open Scope nat_scope.

(** * Numbers *)
Definition digit_char (c : nat) : Prop := 48 <= c <= 57.
Lemma is_digit_ok c : is_digit c = true <-> digit_char c.
Proof. unfold is_digit, digit_char. rewrite andb_true_iff, !Nat.leb_le. reflexivity. Qed.
Definition valof (ds : text) (v : N) : N := fold_left (fun v c => (10 * v + N.of_nat (c - 48))%N) ds v.
Definition stops (t : text) : Prop := match t with [] => True | c :: _ => is_digit c = false end.
Lemma read_digits_app ds : forall t v k, Forall digit_char ds -> stops t -> read_digits (ds ++ t) v k = (valof ds v, k + length ds, t).
Proof.
  induction ds as [|d ds IH]; intros t v k F S.
  - cbn. rewrite Nat.add_0_r. destruct t as [|c t]; [reflexivity|]. cbn in S |- *. rewrite S. reflexivity.
  - inversion F as [|? ? D F']; subst. cbn [app read_digits]. apply is_digit_ok in D. rewrite D, IH by assumption. cbn [length]. rewrite Nat.add_succ_r. reflexivity.
Qed.
Lemma valof_app a b v : valof (a ++ b) v = valof b (valof a v).
Proof. apply fold_left_app. Qed.
Lemma digit_val n : (n < 10)%N -> digit_char (48 + N.to_nat n) /\ N.of_nat (48 + N.to_nat n - 48) = n.
Proof. unfold digit_char. intros. split; lia. Qed.
Lemma digits_ok : forall fuel n acc, (n < 10 ^ N.of_nat fuel)%N -> fuel <> 0 ->
  exists ds, digits fuel n acc = ds ++ acc /\ Forall digit_char ds /\ ds <> [] /\ length ds <= fuel /\ forall v, valof ds v = (v * 10 ^ N.of_nat (length ds) + n)%N.
Proof.
  induction fuel as [|f IH]; intros n acc L NZ; [contradiction|]. cbn [digits].
  assert (M : (n mod 10 < 10)%N) by (apply N.mod_lt; lia). destruct (digit_val _ M) as (D1 & D2).
  pose proof (N.div_mod n 10) as DM. destruct (N.eqb_spec (n / 10) 0) as [E|E].
  - exists [48 + N.to_nat (n mod 10)]. split; [reflexivity|]. split; [constructor; auto|]. split; [discriminate|]. split; [cbn; lia|].
    intros v. cbn [valof fold_left length]. rewrite D2. lia.
  - assert (f <> 0) by (intros ->; cbn in L; apply E, N.div_small; lia).
    assert (L' : (n / 10 < 10 ^ N.of_nat f)%N) by (apply N.div_lt_upper_bound; [lia|]; rewrite Nat2N.inj_succ, N.pow_succ_r' in L; exact L).
    destruct (IH (n / 10)%N ((48 + N.to_nat (n mod 10)) :: acc) L' H) as (ds & E1 & F & Ne & Ln & V).
    exists (ds ++ [48 + N.to_nat (n mod 10)]). rewrite E1, <- app_assoc. split; [reflexivity|]. split; [apply Forall_app; auto|].
    split; [destruct ds; discriminate|]. rewrite app_length. cbn [length]. split; [lia|].
    intros v. rewrite valof_app, V. cbn [valof fold_left]. rewrite D2. rewrite Nat.add_1_r, Nat2N.inj_succ, N.pow_succ_r'. lia.
Qed.
Lemma show_uint_ok n : exists ds, show_uint n = ds /\ Forall digit_char ds /\ ds <> [] /\ length ds <= S (N.to_nat (N.size n)) /\ forall v, valof ds v = (v * 10 ^ N.of_nat (length ds) + n)%N.
Proof.
  unfold show_uint. destruct (digits_ok (S (N.to_nat (N.size n))) n []) as (ds & E & H); [|lia|].
  - apply N.lt_le_trans with (2 ^ N.size n)%N; [apply N.size_gt|]. rewrite Nat2N.inj_succ, N2Nat.id.
    apply N.le_trans with (10 ^ N.size n)%N; [apply N.pow_le_mono_l; lia|apply N.pow_le_mono_r; lia].
  - exists ds. rewrite E, app_nil_r. split; [reflexivity|exact H].
Qed.
Lemma digit_not_space c : digit_char c -> is_space c = false.
Proof. unfold digit_char, is_space. intros [A B]. match goal with |- ?x = false => destruct x eqn:E; [exfalso|reflexivity] end. rewrite ?orb_true_iff, ?andb_true_iff, ?Nat.leb_le, ?Nat.eqb_eq in E. lia. Qed.
Lemma skip_ws_id c t : is_space c = false -> skip_ws (c :: t) = c :: t.
Proof. intros H. cbn. rewrite H. reflexivity. Qed.
Lemma read_uint_show n rest : (n < 2 ^ 32)%N -> stops rest -> read_uint (show_uint n ++ rest) = Some (n, rest).
Proof.
  intros B S. destruct (show_uint_ok n) as (ds & -> & F & Ne & _ & V). unfold read_uint.
  assert (E : skip_ws (ds ++ rest) = ds ++ rest).
  { destruct ds as [|d ds]; [contradiction|]. inversion F; subst. apply skip_ws_id, digit_not_space. assumption. }
  rewrite E, read_digits_app by assumption. cbn [Nat.add]. rewrite V, N.mul_0_l, N.add_0_l.
  assert (exists k, length ds = Datatypes.S k) as (k & ->) by (destruct ds as [|? ds']; [contradiction|exists (length ds'); reflexivity]).
  apply N.ltb_lt in B. rewrite B. reflexivity.
Qed.
Lemma read_uint_sp n rest : (n < 2 ^ 32)%N -> stops rest -> read_uint (sp :: show_uint n ++ rest) = Some (n, rest).
Proof. intros B S. unfold read_uint. cbn [skip_ws]. change (is_space sp) with true. apply read_uint_show; assumption. Qed.

Lemma fixdigits_ok k : forall m, Forall digit_char (fixdigits k m) /\ length (fixdigits k m) = k /\ forall v, (m < 10 ^ N.of_nat k)%N -> valof (fixdigits k m) v = (v * 10 ^ N.of_nat k + m)%N.
Proof.
  induction k as [|k IH]; intros m; [cbn; repeat split; auto; intros; lia|]. cbn [fixdigits]. destruct (IH (m / 10)%N) as (F & L & V).
  assert (M : (m mod 10 < 10)%N) by (apply N.mod_lt; lia). destruct (digit_val _ M) as (D1 & D2). pose proof (N.div_mod m 10) as DM.
  split; [apply Forall_app; auto|]. split; [rewrite app_length, L; cbn; lia|]. intros v B. rewrite valof_app. rewrite Nat2N.inj_succ, N.pow_succ_r' in *.
  rewrite V by (apply N.div_lt_upper_bound; lia). cbn [valof fold_left]. rewrite D2. lia.
Qed.

(** * Values *)
Lemma rnd10_parts x : rnd10 x <> 0%R ->
  let d := to_dec x in (mant d < 10 ^ 16)%N /\ ((if neg d then -1 else 1) * IZR (Z.of_N (mant d)) * bpow radix10 (expo d - 15))%R = rnd10 x.
Proof.
  intros NZ. unfold to_dec. rewrite Req_bool_false by exact NZ. set (y := rnd10 x) in *. cbn [mant neg expo].
  assert (G : generic_format radix10 (FLX_exp 16) y) by (apply generic_format_round; [apply FLX_exp_valid; reflexivity|apply valid_rnd_N]).
  set (m := Ztrunc (scaled_mantissa radix10 (FLX_exp 16) y)).
  assert (Ey : y = (IZR m * bpow radix10 (cexp radix10 (FLX_exp 16) y))%R) by exact G.
  replace (cexp radix10 (FLX_exp 16) y + 15 - 15)%Z with (cexp radix10 (FLX_exp 16) y) by lia. split.
  - assert (B : (Rabs (IZR m) < bpow radix10 16)%R).
    { pose proof (scaled_mantissa_lt_bpow radix10 (FLX_exp 16) y) as S. unfold m. rewrite <- (scaled_mantissa_generic radix10 (FLX_exp 16) y G).
      eapply Rlt_le_trans; [exact S|]. apply bpow_le. unfold cexp, FLX_exp. lia. }
    rewrite <- abs_IZR in B. change (bpow radix10 16) with (IZR (10 ^ 16)) in B. apply lt_IZR in B. lia.
  - rewrite Ey at 2. f_equal. destruct (Z.ltb_spec m 0).
    + rewrite N2Z.inj_abs_N, Z.abs_neq by lia. rewrite opp_IZR. ring.
    + rewrite N2Z.inj_abs_N, Z.abs_eq by lia. ring.
Qed.
Lemma read_dec d : (mant d < 10 ^ 16)%N -> read_value (show_dec d) = Fin (rnd2 ((if neg d then -1 else 1) * IZR (Z.of_N (mant d)) * bpow radix10 (expo d - 15))).
Proof.
  intros B. destruct (fixdigits_ok 16 (mant d)) as (F & L & V). unfold show_dec. destruct (fixdigits 16 (mant d)) as [|c f] eqn:E; [discriminate|].
  inversion F as [|? ? Dc Df]; subst. cbn [length] in L.
  set (ex := let a := Z.abs_N (expo d) in if (a <? 10)%N then 48 :: show_uint a else show_uint a).
  assert (Ex : Forall digit_char ex /\ length ex <> 0 /\ valof ex 0 = Z.abs_N (expo d)).
  { unfold ex. cbv zeta. destruct (show_uint_ok (Z.abs_N (expo d))) as (ds & -> & F' & Ne & _ & V').
    assert (L0 : length ds <> 0) by (destruct ds; [contradiction|discriminate]).
    destruct (_ <? _)%N; [split; [constructor; [unfold digit_char; lia|auto]|split; [discriminate|]]|split; [auto|split; [exact L0|]]].
    - unfold valof. cbn [fold_left]. fold (valof ds (10 * 0 + N.of_nat (48 - 48))%N). rewrite V'. reflexivity.
    - rewrite V'. lia. }
  clearbody ex. destruct Ex as (F1 & L1 & V1).
  set (tail := [101; if (expo d <? 0)%Z then 45 else 43] ++ ex).
  assert (Ep : read_digits (c :: 46 :: f ++ tail) 0 0 = (valof [c] 0, 1, 46 :: f ++ tail)).
  { apply (read_digits_app [c]); [auto|reflexivity]. }
  assert (Ef : read_digits (f ++ tail) (valof [c] 0) 0 = (valof (c :: f) 0, 15, tail)).
  { rewrite read_digits_app by (auto; reflexivity). replace (length f) with 15 by lia. reflexivity. }
  unfold read_value.
  assert (Sk : skip_ws ((if neg d then [45] else []) ++ (c :: 46 :: f) ++ tail) = (if neg d then [45] else []) ++ (c :: 46 :: f) ++ tail).
  { destruct (neg d); cbn [app]; apply skip_ws_id; [reflexivity|apply digit_not_space; exact Dc]. }
  rewrite Sk. 
  assert (Sg : read_sign ((if neg d then [45] else []) ++ (c :: 46 :: f) ++ tail) = (neg d, c :: 46 :: f ++ tail)).
  { unfold digit_char in Dc. destruct (neg d); cbn [app read_sign]; [reflexivity|]. destruct (Nat.eqb_spec c 45); [lia|]. destruct (Nat.eqb_spec c 43); [lia|]. reflexivity. }
  rewrite Sg, Ep. rewrite Nat.eqb_refl, Ef. change (1 + 15 =? 0) with false. cbv iota. unfold tail at 1. cbn [app]. rewrite (Nat.eqb_refl 101). cbn [orb].
  rewrite V by exact B. rewrite N.mul_0_l, N.add_0_l.
  assert (R1 : read_digits ex 0 0 = (Z.abs_N (expo d), length ex, [])).
  { rewrite <- (app_nil_r ex) at 1. rewrite read_digits_app by (auto; exact I). rewrite V1. reflexivity. }
  change (Z.of_nat 15) with 15%Z.
  destruct (Z.ltb_spec (expo d) 0); cbn [read_sign Nat.eqb]; rewrite R1; (destruct (length ex) as [|k]; [contradiction|]); rewrite N2Z.inj_abs_N; f_equal; f_equal; f_equal; f_equal; lia.
Qed.
Lemma read_show v : read_value (show_value v) = reread v.
Proof.
  destruct v as [x|s|s]; [|destruct s; reflexivity|destruct s; reflexivity]. cbn [show_value reread]. change (round (Build_radix 10 eq_refl) (FLX_exp 16) ZnearestE x) with (rnd10 x).
  fold (rnd2 (rnd10 x)). destruct (Req_dec (rnd10 x) 0) as [Z|NZ].
  - unfold to_dec. rewrite Req_bool_true by exact Z. rewrite read_dec by reflexivity. cbn [neg mant expo]. rewrite Z. f_equal. f_equal. cbn [Z.of_N]. ring.
  - destruct (rnd10_parts x NZ) as (B & E). rewrite read_dec by exact B. rewrite E. reflexivity.
Qed.

(** * Lines *)
Definition plain (c : nat) : Prop := c <> 0 /\ c <> nl.
Lemma digit_plain c : digit_char c -> plain c.
Proof. unfold digit_char, plain, nl. lia. Qed.
Lemma digits_plain ds : Forall digit_char ds -> Forall plain ds.
Proof. intros F. eapply Forall_impl; [|exact F]. apply digit_plain. Qed.
Lemma show_uint_plain n : Forall plain (show_uint n).
Proof. destruct (show_uint_ok n) as (ds & -> & F & _). apply digits_plain, F. Qed.
Ltac plains := unfold plain, nl, sp; repeat first [lia | constructor].
Lemma show_dec_plain d : Forall plain (show_dec d).
Proof.
  unfold show_dec. destruct (fixdigits_ok 16 (mant d)) as (F & _ & _). repeat (apply Forall_app; split).
  - destruct (neg d); plains.
  - destruct (fixdigits 16 (mant d)) as [|c f]; [constructor|]. inversion F; subst. constructor; [apply digit_plain; assumption|]. constructor; [plains|]. apply digits_plain. assumption.
  - destruct (expo d <? 0)%Z; plains.
  - cbv zeta. destruct (_ <? _)%N; [constructor; [plains|]|]; apply show_uint_plain.
Qed.
Lemma show_value_plain v : Forall plain (show_value v).
Proof. destruct v as [x|s|s]; cbn [show_value]; [apply show_dec_plain|destruct s; cbn; plains|destruct s; cbn; plains]. Qed.
Lemma show_value_head v : exists c t, show_value v = c :: t /\ is_space c = false /\ c <> percent.
Proof.
  destruct v as [x|s|s]; cbn [show_value]; [|destruct s; do 2 eexists; (split; [reflexivity|split; [reflexivity|discriminate]])..].
  unfold show_dec. destruct (neg _); [do 2 eexists; (split; [reflexivity|split; [reflexivity|discriminate]])|]. destruct (fixdigits_ok 16 (mant (to_dec x))) as (F & L & _).
  destruct (fixdigits 16 _) as [|c f]; [discriminate|]. do 2 eexists. split; [reflexivity|]. inversion F as [|? ? Dc]; subst. split; [apply digit_not_space; exact Dc|]. unfold digit_char, percent in *. lia.
Qed.
Lemma double_range x : is_double x -> x <> 0%R -> (bpow radix2 (-1074) <= Rabs x < bpow radix2 1024)%R.
Proof.
  intros [G B] NZ. split; [|exact B]. pose proof (generic_format_ge_bpow radix2 (FLT_exp (-1074) 53) (-1074)) as H.
  destruct (Rcase_abs x) as [Ng|Ps].
  - rewrite Rabs_left by exact Ng. apply H; [intros e; unfold FLT_exp; lia|lra|]. apply generic_format_opp, G.
  - rewrite Rabs_right by exact Ps. apply H; [intros e; unfold FLT_exp; lia|lra|exact G].
Qed.
Lemma bpow2_10_low : (bpow radix10 (-400) <= bpow radix2 (-1074))%R.
Proof.
  change (-400)%Z with (Z.opp 400). change (-1074)%Z with (Z.opp 1074). rewrite !bpow_opp. apply Rinv_le_contravar; [apply bpow_gt_0|].
  rewrite <- !IZR_Zpower by lia. apply IZR_le. apply Z.leb_le. vm_compute. reflexivity.
Qed.
Lemma bpow2_10_high : (bpow radix2 1024 <= bpow radix10 400)%R.
Proof. rewrite <- !IZR_Zpower by lia. apply IZR_le. apply Z.leb_le. vm_compute. reflexivity. Qed.
Lemma rnd10_range x : is_double x -> x <> 0%R -> (bpow radix10 (-400) <= Rabs (rnd10 x) <= bpow radix10 400)%R.
Proof.
  intros D NZ. destruct (double_range x D NZ) as (A & B). pose proof bpow2_10_low. pose proof bpow2_10_high.
  assert (V : Valid_exp (FLX_exp 16)) by (apply FLX_exp_valid; reflexivity).
  unfold rnd10. split.
  - apply abs_round_ge_generic; [exact V|apply valid_rnd_N| |lra]. apply generic_format_bpow. unfold FLX_exp. lia.
  - apply abs_round_le_generic; [exact V|apply valid_rnd_N| |lra]. apply generic_format_bpow. unfold FLX_exp. lia.
Qed.
Lemma expo_bound x : is_double x -> (Z.abs (expo (to_dec x)) <= 400)%Z.
Proof.
  intros D. unfold to_dec. destruct (Req_bool_spec (rnd10 x) 0) as [E|E]; [cbn; lia|]. cbn [expo]. unfold cexp, FLX_exp.
  assert (NZ : x <> 0%R) by (intros ->; apply E; apply round_0, valid_rnd_N).
  destruct (rnd10_range x D NZ) as (A & B). destruct (mag radix10 (rnd10 x)) as (e & He). cbn. specialize (He E).
  assert (-400 < e)%Z by (apply (lt_bpow radix10); lra). assert (e - 1 <= 400)%Z by (apply (le_bpow radix10); lra). lia.
Qed.
Lemma size_le a k : (a < 2 ^ k)%N -> (N.size a <= k)%N.
Proof. intros H. destruct (N.eq_dec a 0) as [->|NZ]; [cbn; lia|]. rewrite N.size_log2 by exact NZ. apply N.le_succ_l. apply N.log2_lt_pow2; lia. Qed.
Lemma show_uint_length a k : (a < 2 ^ k)%N -> (N.of_nat (length (show_uint a)) <= k + 1)%N.
Proof. intros H. destruct (show_uint_ok a) as (ds & -> & _ & _ & L & _). pose proof (size_le a k H). lia. Qed.
Lemma show_value_length v : is_value v -> (N.of_nat (length (show_value v)) <= 100)%N.
Proof.
  destruct v as [x|s|s]; cbn [is_value show_value]; intros D; [|destruct s; cbn; lia|destruct s; cbn; lia].
  unfold show_dec. rewrite !app_length. destruct (fixdigits_ok 16 (mant (to_dec x))) as (_ & L & _). pose proof (expo_bound x D) as B.
  assert (B' : (Z.abs_N (expo (to_dec x)) < 2 ^ 10)%N) by (change (2 ^ 10)%N with 1024%N; lia). pose proof (show_uint_length _ _ B') as Lu. cbv zeta.
  destruct (fixdigits 16 _) as [|c f]; [discriminate|]. cbn [length] in *. destruct (neg _), (_ <? 10)%N; cbn [length]; lia.
Qed.
Definition eline (r c : nat) (v : value) : text := show_uint (N.of_nat (S r)) ++ sp :: show_uint (N.of_nat (S c)) ++ sp :: show_value v.
Lemma entry_line_eq r e : entry_line r e = eline r (fst e) (snd e) ++ [nl].
Proof. unfold entry_line, eline. rewrite <- !app_assoc. cbn [app]. rewrite <- !app_assoc. reflexivity. Qed.
Lemma eline_plain r c v : Forall plain (eline r c v).
Proof.
  unfold eline. apply Forall_app. split; [apply show_uint_plain|]. constructor; [plains|]. apply Forall_app. split; [apply show_uint_plain|]. constructor; [plains|apply show_value_plain].
Qed.
Lemma eline_short r c v : (N.of_nat (S r) < 2 ^ 32)%N -> (N.of_nat (S c) < 2 ^ 32)%N -> is_value v -> short (eline r c v) 0.
Proof.
  intros A B V. unfold short, eline. repeat (rewrite app_length; cbn [length]). pose proof (show_uint_length _ _ A). pose proof (show_uint_length _ _ B). pose proof (show_value_length v V). lia.
Qed.
Lemma plain_one_line t : Forall plain t -> one_line t.
Proof. intros F I. rewrite Forall_forall in F. destruct (F _ I) as (_ & H). apply H. reflexivity. Qed.
Lemma cstr_plain t : Forall plain t -> cstr t = t.
Proof. induction 1 as [|c t (A & _) _ IH]; [reflexivity|]. destruct c as [|c]; [contradiction|]. cbn [cstr]. rewrite IH. reflexivity. Qed.

Lemma split_line l : forall t cur, one_line l ->
  split_lines (l ++ nl :: t) cur = ((rev cur ++ l) :: fst (split_lines t []), snd (split_lines t [])).
Proof.
  induction l as [|c l IH]; intros t cur O; cbn [app split_lines].
  - rewrite Nat.eqb_refl, app_nil_r. destruct (split_lines t []); reflexivity.
  - destruct (Nat.eqb_spec c nl) as [->|N]; [exfalso; apply O; left; reflexivity|]. rewrite IH by (intros I; apply O; right; exact I). cbn [rev]. rewrite <- app_assoc. reflexivity.
Qed.
Lemma split_tail l : forall cur, one_line l -> split_lines l cur = ([], rev cur ++ l).
Proof.
  induction l as [|c l IH]; intros cur O; cbn [split_lines]; [rewrite app_nil_r; reflexivity|].
  destruct (Nat.eqb_spec c nl) as [->|N]; [exfalso; apply O; left; reflexivity|]. rewrite IH by (intros I; apply O; right; exact I). cbn [rev]. rewrite <- app_assoc. reflexivity.
Qed.
Definition unlines (ls : list text) : text := concat (map (fun l => l ++ [nl]) ls).
Lemma split_unlines ls tl : Forall one_line ls -> one_line tl -> split_lines (unlines ls ++ tl) [] = (ls, tl).
Proof.
  intros F O. induction F as [|l ls Ol _ IH]; [apply (split_tail tl []); exact O|].
  unfold unlines in *. cbn [map concat]. rewrite <- !app_assoc. cbn [app]. rewrite split_line by exact Ol. rewrite IH. reflexivity.
Qed.
Lemma short_len l k : short l k -> (buffer <? length l) = false /\ firstn buffer l = l.
Proof. unfold short, buffer. intros H. split; [apply Nat.ltb_ge; lia|apply firstn_all2; lia]. Qed.
Section Loop.
Context {St : Type} (process : St -> text -> result St).
Lemma load_cons s l ls tl s' : short l 0 -> line process s l = Done s' -> load_lines process s (l :: ls) tl = load_lines process s' ls tl.
Proof. intros H E. destruct (short_len l 0 H) as (H1 & H2). cbn [load_lines]. rewrite H2, E, H1. reflexivity. Qed.
Lemma line_comment s t : line process s (percent :: t) = Done s.
Proof. reflexivity. Qed.
Lemma line_data s c t : Forall plain (c :: t) -> is_space c = false -> c <> percent -> line process s (c :: t) = process s (c :: t).
Proof. intros F S N. unfold line. rewrite cstr_plain by exact F. rewrite skip_ws_id by exact S. destruct (Nat.eqb_spec c percent); [contradiction|reflexivity]. Qed.
End Loop.

(** * Loading a matrix *)
Definition ren_ok (ord : option (list nat)) (ren : nat -> nat) (k : nat) : Prop :=
  match ord with None => ren k = k | Some o => nth_error o k = Some (ren k) end.
Definition here (s : lstate) (r : nat) : bool := (lbeg s <=? r) && (r <? lend s).
Definition step1 (ren : nat -> nat) (s : lstate) (e : entry) : lstate :=
  let '(r, c, v) := e in if here s (ren r) then LS true (lbeg s) (lend s) (put (lmat s) (ren r) (ren c) (reread v)) else s.
Lemma put_length m r c v : length (rows (put m r c v)) = length (rows m).
Proof.
  unfold put. cbn [rows]. rewrite app_length, firstn_length. pose proof (skipn_length (r - first m) (rows m)) as L. destruct (skipn _ _); cbn [length] in *; lia.
Qed.
Definition goodst (s : lstate) : Prop := first (lmat s) = lbeg s /\ length (rows (lmat s)) = lend s - lbeg s.
Lemma step1_good ren s e : goodst s -> goodst (step1 ren s e).
Proof. destruct e as [[r c] v]. unfold step1. destruct (here s (ren r)); [|auto]. unfold goodst. cbn [lbeg lend lmat]. rewrite put_length. auto. Qed.
Lemma fold_goodst ren es : forall s, goodst s -> goodst (fold_left (step1 ren) es s).
Proof. induction es as [|e es IH]; intros s H; [exact H|]. cbn [fold_left]. apply IH, step1_good, H. Qed.
Lemma show_uint_head n : exists d t, show_uint n = d :: t /\ digit_char d.
Proof. destruct (show_uint_ok n) as (ds & -> & F & Ne & _). destruct ds as [|d t]; [contradiction|]. inversion F; subst. eauto. Qed.
Lemma digit_not_percent d : digit_char d -> d <> percent.
Proof. unfold digit_char, percent. lia. Qed.
Lemma line_number {St} (process : St -> text -> result St) s n t : Forall plain t -> line process s (show_uint n ++ t) = process s (show_uint n ++ t).
Proof.
  intros F. pose proof (show_uint_plain n) as P. destruct (show_uint_head n) as (d & u & E & D). rewrite E in *. cbn [app].
  apply line_data; [change (Forall plain ((d :: u) ++ t)); apply Forall_app; auto|apply digit_not_space, D|apply digit_not_percent, D].
Qed.
Lemma process_entry mbeg mend rank size ord ren s r c v : headed s = true -> goodst s ->
  (N.of_nat (S r) < 2 ^ 32)%N -> (N.of_nat (S c) < 2 ^ 32)%N -> ren_ok ord ren r -> ren_ok ord ren c ->
  line (process_matrix mbeg mend rank size ord) s (eline r c v) = Done (step1 ren s (r, c, v)).
Proof.
  intros H Gs A B Rr Rc. unfold eline. rewrite line_number by (pose proof (eline_plain r c v) as P; unfold eline in P; apply Forall_app in P; apply P).
  unfold process_matrix. rewrite H. cbn [negb]. rewrite read_uint_show by (auto; reflexivity).
  set (p := N.of_nat (S r)). assert (Hp : p = N.pos (Pos.of_succ_nat r)) by reflexivity. 
  rewrite read_uint_sp by (auto; reflexivity). set (q := N.of_nat (S c)). assert (Hq : q = N.pos (Pos.of_succ_nat c)) by reflexivity.
  assert (Kr : match ord with None => Some (N.to_nat p - 1) | Some o => if (p =? 0)%N then None else nth_error o (N.to_nat p - 1) end = Some (ren r)).
  { replace (N.to_nat p - 1) with r by (unfold p; lia). unfold ren_ok in Rr. destruct ord; [rewrite Hp; cbn [N.eqb]; exact Rr|rewrite Rr; reflexivity]. }
  assert (Kc : match ord with None => Some (N.to_nat q - 1) | Some o => if (q =? 0)%N then None else nth_error o (N.to_nat q - 1) end = Some (ren c)).
  { replace (N.to_nat q - 1) with c by (unfold q; lia). unfold ren_ok in Rc. destruct ord; [rewrite Hq; cbn [N.eqb]; exact Rc|rewrite Rc; reflexivity]. }
  clearbody p q. destruct p as [|p]; [discriminate Hp|]. destruct q as [|q]; [discriminate Hq|]. cbv beta zeta iota. cbv beta iota in Kr, Kc. rewrite Kr. cbv iota. rewrite Kc. unfold step1, here.
  destruct (Nat.leb_spec (lbeg s) (ren r)) as [Lb|]; [destruct (Nat.ltb_spec (ren r) (lend s)) as [Le|]|]; cbn [andb]; try reflexivity. cbn [skip_ws]. change (is_space sp) with true. cbv iota.
  destruct (show_value_head v) as (d & t & E & Sd & _). rewrite E at 1. rewrite skip_ws_id by exact Sd. cbv iota.
  assert (Rv : read_value (sp :: show_value v) = reread v) by (rewrite <- read_show; reflexivity). rewrite Rv.
  destruct Gs as (Ga & Gb). destruct (Nat.ltb_spec (ren r - first (lmat s)) (length (rows (lmat s)))); [reflexivity|exfalso; lia].
Qed.
Fixpoint slines (r : nat) (annot : nat -> text) (rs : list (row value)) : list text :=
  match rs with
  | [] => []
  | rw :: rs' => (match annot r with [] => [] | a => [percent :: sp :: a] end) ++ map (fun e => eline r (fst e) (snd e)) rw ++ slines (S r) annot rs'
  end.
Lemma unlines_app a b : unlines (a ++ b) = unlines a ++ unlines b.
Proof. unfold unlines. rewrite map_app, concat_app. reflexivity. Qed.
Lemma save_rows_lines annot rs : forall r, save_rows r annot rs = unlines (slines r annot rs).
Proof.
  induction rs as [|rw rs IH]; intros r; [reflexivity|]. cbn [save_rows slines]. rewrite !unlines_app, IH. f_equal; [|f_equal].
  - destruct (annot r) as [|a l]; [reflexivity|]. unfold unlines. cbn [map concat]. rewrite app_nil_r. reflexivity.
  - unfold unlines. rewrite map_map. f_equal. apply map_ext. intros e. apply entry_line_eq.
Qed.
Definition ok_row (rw : row value) : Prop := Forall (fun e => (N.of_nat (S (fst e)) < 2 ^ 32)%N /\ is_value (snd e)) rw.
Lemma slines_one annot rs : forall r, (forall k, r <= k < r + length rs -> one_line (annot k)) -> Forall one_line (slines r annot rs).
Proof.
  induction rs as [|rw rs IH]; intros r A; cbn [slines]; [constructor|]. apply Forall_app. split; [|apply Forall_app; split].
  - pose proof (A r ltac:(cbn [length]; lia)) as O. destruct (annot r) as [|a l]; constructor; [|constructor]. intros [X|[X|X]]; [discriminate|discriminate|exact (O X)].
  - apply Forall_forall. intros l I. apply in_map_iff in I as (e & <- & _). apply plain_one_line, eline_plain.
  - apply IH. intros k Hk. apply A. cbn [length]. lia.
Qed.
Lemma load_entries mbeg mend rank size ord ren r rw ls tl : forall s, headed s = true -> goodst s -> (N.of_nat (S r) < 2 ^ 32)%N -> ok_row rw ->
  ren_ok ord ren r -> Forall (fun e => ren_ok ord ren (fst e)) rw ->
  load_lines (process_matrix mbeg mend rank size ord) s (map (fun e => eline r (fst e) (snd e)) rw ++ ls) tl =
  load_lines (process_matrix mbeg mend rank size ord) (fold_left (step1 ren) (map (fun e => (r, fst e, snd e)) rw) s) ls tl.
Proof.
  induction rw as [|[c v] rw IH]; intros s H Gs B O Rr Rc; [reflexivity|]. inversion O as [|? ? (O1 & O2) O3]; subst. inversion Rc as [|? ? Rc1 Rc2]; subst.
  cbn [map app fold_left fst snd] in *. rewrite (load_cons _ _ _ _ _ (step1 ren s (r, c, v))).
  - apply IH; auto using step1_good. unfold step1. destruct (here _ _); auto.
  - apply eline_short; assumption.
  - apply process_entry; assumption.
Qed.
Lemma fold_headed ren es : forall s, headed s = true -> headed (fold_left (step1 ren) es s) = true.
Proof. induction es as [|[[r c] v] es IH]; intros s H; [exact H|]. cbn [fold_left]. apply IH. unfold step1. destruct (here _ _); auto. Qed.
Lemma load_rows mbeg mend rank size ord ren annot rs tl : forall r s, headed s = true -> goodst s -> (N.of_nat (r + length rs) < 2 ^ 32)%N -> Forall ok_row rs ->
  (forall k, r <= k < r + length rs -> short (annot k) 2) ->
  (forall k, r <= k < r + length rs -> ren_ok ord ren k) -> Forall (Forall (fun e => ren_ok ord ren (fst e))) rs ->
  load_lines (process_matrix mbeg mend rank size ord) s (slines r annot rs) tl = if buffer <? length tl then Hang else Done (fold_left (step1 ren) (elements r rs) s).
Proof.
  induction rs as [|rw rs IH]; intros r s H Gs B O A Rr Rc; [reflexivity|]. inversion O; subst. inversion Rc; subst. cbn [slines elements length] in *. rewrite fold_left_app.
  rewrite <- IH; auto; [|apply fold_headed, H|apply fold_goodst, Gs|lia|intros; apply A; lia|intros; apply Rr; lia].
  rewrite <- load_entries with (mbeg := mbeg) (mend := mend) (rank := rank) (size := size) (ord := ord); auto; [|lia|apply Rr; lia].
  pose proof (A r ltac:(lia)) as S. destruct (annot r) as [|a l] eqn:E; [reflexivity|]. cbn [app].
  apply load_cons; [unfold short in *; cbn [length] in *; lia|apply line_comment].
Qed.
