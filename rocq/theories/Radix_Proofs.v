(** Lemmas about radix_sort. *)
From Coq Require Import List Bool Arith ZArith Lia Permutation Sorting.
From Verif Require Import Util Radix_Model Radix_Spec.
Import ListNotations.
Open Scope Z_scope.

Lemma nth_lset : forall {B} (l : list B) i j x d, (i < length l)%nat ->
  nth j (lset l i x) d = if (i =? j)%nat then x else nth j l d.
Proof.
  intros B l. induction l as [|h t IH]; intros i j x d H; cbn [length] in H; [lia|].
  destruct i, j; cbn; auto. apply IH. lia.
Qed.
Lemma lset_len : forall {B} (l : list B) i x, length (lset l i x) = length l.
Proof. intros B l. induction l as [|h t IH]; intros [|i] x; cbn; auto. Qed.
Lemma nth_error_lset' : forall {B} (l : list B) i j x, (i < length l)%nat ->
  nth_error (lset l i x) j = if (i =? j)%nat then Some x else nth_error l j.
Proof.
  intros B l. induction l as [|h t IH]; intros i j x H; cbn [length] in H; [lia|].
  destruct i, j; cbn; auto. apply IH. lia.
Qed.
Lemma get_ok : forall b i, (i < length b)%nat -> get b (Z.of_nat i) = Some (nth i b 0).
Proof.
  intros b i H. unfold get. destruct (Z.leb_spec 0 (Z.of_nat i)); [|lia]. rewrite Nat2Z.id.
  apply nth_error_nth'. exact H.
Qed.
Lemma put_ok : forall {B} (b : list B) i x, (i < length b)%nat -> put b (Z.of_nat i) x = Some (lset b i x).
Proof.
  intros B b i x H. unfold put. destruct (Z.leb_spec 0 (Z.of_nat i)); [|lia].
  destruct (Z.ltb_spec (Z.of_nat i) (Z.of_nat (length b))); [|lia]. cbn. rewrite Nat2Z.id. reflexivity.
Qed.
Lemma w32_small : forall x, 0 <= x < 2 ^ 32 -> w32 x = x.
Proof. intros x H. apply Z.mod_small, H. Qed.
Lemma w32_add : forall x y, w32 (w32 x + y) = w32 (x + y).
Proof. intros x y. unfold w32. apply Zplus_mod_idemp_l. Qed.

Section Sort.
Variable E : Type.
Variable digit : E -> Z.

Definition part (v : nat) (l : list E) : list E := filter (fun e => digit e =? Z.of_nat v) l.
Definition bucket (V : nat) (l : list E) : list E := flat_map (fun v => part v l) (seq 0 V).
Definition cnt (v : nat) (l : list E) : nat := length (part v l).
Definition start (v : nat) (l : list E) : nat := length (bucket v l).

Lemma bucket_S : forall V l, bucket (S V) l = bucket V l ++ part V l.
Proof.
  intros V l. unfold bucket. rewrite seq_S, flat_map_app. cbn. rewrite app_nil_r. reflexivity.
Qed.
Lemma start_S : forall V l, start (S V) l = (start V l + cnt V l)%nat.
Proof. intros V l. unfold start. rewrite bucket_S, app_length. reflexivity. Qed.
Lemma start_mono : forall u v l, (u <= v)%nat -> (start u l <= start v l)%nat.
Proof. intros u v l H. induction H; [lia|]. rewrite start_S. lia. Qed.
Lemma part_app : forall v l r, part v (l ++ r) = part v l ++ part v r.
Proof. intros v l r. apply filter_app. Qed.

Lemma filter_perm : forall (P : E -> bool) l l', Permutation l l' -> Permutation (filter P l) (filter P l').
Proof.
  intros P l l' H. induction H; cbn; auto.
  - destruct (P x); auto.
  - destruct (P x), (P y); auto. constructor.
  - econstructor; eauto.
Qed.
Lemma cnt_perm : forall v l l', Permutation l l' -> cnt v l = cnt v l'.
Proof. intros v l l' H. apply Permutation_length, filter_perm, H. Qed.
Lemma start_perm : forall v l l', Permutation l l' -> start v l = start v l'.
Proof.
  intros v l l' H. induction v as [|v IH]; auto. rewrite !start_S, IH, (cnt_perm v l l' H). reflexivity.
Qed.

Lemma bucket_below : forall V l, Permutation (bucket V l) (filter (fun e => (0 <=? digit e) && (digit e <? Z.of_nat V)) l).
Proof.
  intros V l. induction V as [|V IH].
  - cbn [bucket seq flat_map]. unfold bucket. cbn. induction l as [|e r IHr]; cbn; auto.
    destruct (Z.leb_spec 0 (digit e)), (Z.ltb_spec (digit e) 0); cbn; auto. lia.
  - rewrite bucket_S, IH. unfold part. clear IH. induction l as [|e r IHr]; cbn [filter app]; auto.
    destruct (Z.eqb_spec (digit e) (Z.of_nat V)) as [H|H].
    + destruct (Z.ltb_spec (digit e) (Z.of_nat V)); [lia|]. destruct (Z.leb_spec 0 (digit e)); [|lia].
      destruct (Z.ltb_spec (digit e) (Z.of_nat (S V))); [|lia]. cbn [andb].
      rewrite <- Permutation_middle. constructor. exact IHr.
    + destruct (Z.leb_spec 0 (digit e)); cbn [andb]; auto.
      destruct (Z.ltb_spec (digit e) (Z.of_nat V)), (Z.ltb_spec (digit e) (Z.of_nat (S V))); try lia; auto.
      cbn [app]. constructor. exact IHr.
Qed.
Lemma bucket_perm : forall V l, (forall e, In e l -> 0 <= digit e < Z.of_nat V) -> Permutation (bucket V l) l.
Proof.
  intros V l H. rewrite bucket_below.
  assert (filter (fun e => (0 <=? digit e) && (digit e <? Z.of_nat V)) l = l) as ->; auto.
  induction l as [|e r IH]; auto. cbn [filter]. pose proof (H e (or_introl eq_refl)).
  destruct (Z.leb_spec 0 (digit e)), (Z.ltb_spec (digit e) (Z.of_nat V)); try lia. cbn [andb].
  f_equal. apply IH. auto using in_cons.
Qed.
(** position inside of the buckets *)
Lemma bucket_nth : forall V l i, (i < start V l)%nat -> exists v j, (v < V)%nat /\ (j < cnt v l)%nat /\
  i = (start v l + j)%nat /\ nth_error (bucket V l) i = nth_error (part v l) j.
Proof.
  intros V l. induction V as [|V IH]; intros i Hi; [unfold start in Hi; cbn in Hi; lia|].
  rewrite start_S in Hi. rewrite bucket_S. destruct (Nat.lt_ge_cases i (start V l)) as [L|L].
  - destruct (IH i L) as (v & j & H1 & H2 & H3 & H4). exists v, j. split; [lia|]. split; auto. split; auto.
    rewrite nth_error_app1 by exact L. exact H4.
  - exists V, (i - start V l)%nat. split; [lia|]. split; [lia|]. split; [lia|].
    rewrite nth_error_app2 by exact L. reflexivity.
Qed.

Variable K : nat.

Lemma histogram_ok : forall set b, length b = K -> (forall e, In e set -> 0 <= digit e < Z.of_nat K) ->
  exists b', histogram E digit set b = Some b' /\ length b' = K /\
  forall v, (v < K)%nat -> w32 (nth v b' 0) = w32 (nth v b 0 + Z.of_nat (cnt v set)) /\
    (w32 (nth v b 0) = nth v b 0 -> w32 (nth v b' 0) = nth v b' 0).
Proof.
  induction set as [|e r IH]; intros b Hb Hd.
  - exists b. split; auto. split; auto. intros v Hv. cbn. rewrite Z.add_0_r. auto.
  - pose proof (Hd e (or_introl eq_refl)) as He. cbn [histogram]. set (i := Z.to_nat (digit e)).
    assert (digit e = Z.of_nat i) as Ei by (unfold i; lia). rewrite Ei, get_ok by (unfold i; lia). cbn [obind].
    rewrite put_ok by (unfold i; lia). cbn [obind].
    destruct (IH (lset b i (w32 (nth i b 0 + 1)))) as (b' & -> & Lb & H).
    { rewrite lset_len. exact Hb. } { auto using in_cons. }
    exists b'. split; auto. split; auto. intros v Hv. destruct (H v Hv) as (H1 & H2).
    rewrite nth_lset in H1, H2 by (unfold i; lia). unfold cnt, part. cbn [filter]. rewrite Ei.
    destruct (Nat.eqb_spec i v) as [->|N].
    + rewrite Z.eqb_refl. cbn [length]. split.
      * rewrite H1, w32_add. f_equal. unfold cnt, part. lia.
      * intros _. apply H2. unfold w32. rewrite Z.mod_mod; lia.
    + destruct (Z.eqb_spec (Z.of_nat i) (Z.of_nat v)); [lia|]. split; auto.
Qed.

Lemma offsets_ok : forall set fuel i b sum, (1 <= K)%nat -> length b = K -> (fuel + i = K)%nat ->
  (forall v, (v < i)%nat -> nth v b 0 = w32 (Z.of_nat (start v set) - 1)) ->
  (forall v, (i <= v)%nat -> (v < K - 1)%nat -> nth v b 0 = w32 (Z.of_nat (cnt v set))) ->
  ((i < K)%nat -> sum = w32 (Z.of_nat (start i set))) ->
  exists b', offsets fuel (Z.of_nat i) (Z.of_nat K - 1) b sum = Some b' /\ length b' = K /\
    forall v, (v < K)%nat -> nth v b' 0 = w32 (Z.of_nat (start v set) - 1).
Proof.
  intros set fuel. induction fuel as [|f IH]; intros i b sum HK Hb Hf H1 H2 H3.
  - exists b. split; auto. split; auto. intros v Hv. apply H1. lia.
  - cbn [offsets]. assert (Z.of_nat K - 1 = Z.of_nat (K - 1)) as -> by lia.
    rewrite get_ok by lia. cbn [obind]. rewrite put_ok by lia. cbn [obind].
    rewrite put_ok by (rewrite lset_len; lia). cbn [obind].
    rewrite get_ok by (rewrite !lset_len; lia). cbn [obind].
    replace (Z.of_nat i + 1) with (Z.of_nat (S i)) by lia. replace (Z.of_nat (K - 1)) with (Z.of_nat K - 1) by lia.
    specialize (H3 ltac:(lia)). subst sum. apply IH; auto; [rewrite !lset_len; auto|lia| | |].
    + intros v Hv. rewrite nth_lset by (rewrite lset_len; lia). destruct (Nat.eqb_spec i v) as [->|N].
      * unfold w32. rewrite Zminus_mod_idemp_l. reflexivity.
      * rewrite nth_lset by lia. destruct (Nat.eqb_spec (K - 1) v); [lia|]. apply H1. lia.
    + intros v Hv Hv2. rewrite nth_lset by (rewrite lset_len; lia). destruct (Nat.eqb_spec i v); [lia|].
      rewrite nth_lset by lia. destruct (Nat.eqb_spec (K - 1) v); [lia|]. apply H2; lia.
    + intros HS. rewrite nth_lset by (rewrite lset_len; lia). destruct (Nat.eqb_spec i (K - 1)); [lia|].
      rewrite nth_lset by lia. rewrite Nat.eqb_refl. rewrite H2 by lia. unfold w32.
      rewrite <- Zplus_mod, start_S. f_equal. lia.
Qed.

Lemma scatter_ok : forall L, Z.of_nat (length L) <= 2 ^ 32 -> (forall e, In e L -> 0 <= digit e < Z.of_nat K) ->
  forall r p b dst, L = p ++ r -> length b = K -> (length L <= length dst)%nat ->
  (forall v, (v < K)%nat -> nth v b 0 = w32 (Z.of_nat (start v L) + Z.of_nat (cnt v p) - 1)) ->
  (forall v j, (v < K)%nat -> (j < cnt v p)%nat -> nth_error dst (start v L + j) = nth_error (part v p) j) ->
  exists dst', scatter E digit r b dst = Some dst' /\ length dst' = length dst /\
    forall v j, (v < K)%nat -> (j < cnt v L)%nat -> nth_error dst' (start v L + j) = nth_error (part v L) j.
Proof.
  intros L HL Hd. assert (start K L = length L) as SK.
  { unfold start. apply Permutation_length, bucket_perm, Hd. }
  induction r as [|e r IH]; intros p b dst Hp Hb Hdst Hn Hi.
  - exists dst. split; auto. split; auto. rewrite app_nil_r in Hp. subst p. exact Hi.
  - assert (In e L) as HeL by (rewrite Hp; apply in_app_iff; right; left; auto).
    pose proof (Hd e HeL) as He. cbn [scatter]. set (i := Z.to_nat (digit e)).
    assert (digit e = Z.of_nat i) as Ei by (unfold i; lia). assert (i < K)%nat as HiK by (unfold i; lia).
    rewrite Ei, get_ok by lia. cbn [obind]. rewrite put_ok by lia. cbn [obind].
    rewrite (Hn i HiK).
    assert (cnt i L = cnt i p + S (cnt i r))%nat as C.
    { unfold cnt. rewrite Hp, part_app, app_length. f_equal. unfold part at 1. cbn [filter]. rewrite Ei, Z.eqb_refl. reflexivity. }
    assert (start (S i) L <= length L)%nat as B1 by (rewrite <- SK; apply start_mono; lia).
    rewrite start_S in B1. set (q := (start i L + cnt i p)%nat) in *.
    assert (w32 (w32 (Z.of_nat (start i L) + Z.of_nat (cnt i p) - 1) + 1) = Z.of_nat q) as ->.
    { rewrite w32_add, w32_small; unfold q; lia. }
    rewrite put_ok by (unfold q; lia). cbn [obind].
    destruct (IH (p ++ [e]) (lset b i (Z.of_nat q)) (lset dst q e)) as (dst' & -> & Ld & H).
    + rewrite Hp, <- app_assoc. reflexivity.
    + rewrite lset_len. exact Hb.
    + rewrite lset_len. exact Hdst.
    + intros v Hv. rewrite nth_lset by lia. unfold cnt. rewrite part_app, app_length. unfold part at 2. cbn [filter]. rewrite Ei.
      destruct (Nat.eqb_spec i v) as [->|N].
      * rewrite Z.eqb_refl. cbn [length]. fold (cnt v p). rewrite w32_small; unfold q; lia.
      * destruct (Z.eqb_spec (Z.of_nat i) (Z.of_nat v)); [lia|]. cbn [length]. fold (cnt v p).
        rewrite Hn by auto. f_equal. lia.
    + intros v j Hv Hj. rewrite nth_error_lset' by (unfold q; lia).
      unfold cnt in Hj. rewrite part_app, app_length in Hj. rewrite part_app. unfold part at 2 in Hj. unfold part at 2.
      cbn [filter] in *. rewrite Ei in *.
      destruct (Nat.eqb_spec q (start v L + j)) as [Q|Q].
      * (* the new element *)
        assert (v = i) as ->.
        { destruct (Nat.lt_trichotomy v i) as [G|[G|G]]; auto; exfalso.
          - pose proof (start_mono (S v) i L ltac:(lia)) as M. rewrite start_S in M.
            destruct (Z.eqb_spec (Z.of_nat i) (Z.of_nat v)) in Hj; [lia|]. cbn [length] in Hj. fold (cnt v p) in Hj.
            assert (cnt v p <= cnt v L)%nat by (unfold cnt; rewrite Hp, part_app, app_length; lia). unfold q in Q. lia.
          - pose proof (start_mono (S i) v L ltac:(lia)) as M. rewrite start_S in M. unfold q in Q. lia. }
        assert (j = cnt i p) as -> by (unfold q in Q; lia). rewrite Z.eqb_refl.
        rewrite nth_error_app2 by (unfold cnt; lia). unfold cnt. rewrite Nat.sub_diag. reflexivity.
      * assert (j < cnt v p)%nat as Hj2.
        { destruct (Z.eqb_spec (Z.of_nat i) (Z.of_nat v)) as [G|G].
          - assert (v = i) as -> by lia. cbn [length] in Hj. fold (cnt i p) in Hj. unfold q in Q. lia.
          - cbn [length] in Hj. fold (cnt v p) in Hj. lia. }
        rewrite nth_error_app1 by exact Hj2. apply Hi; auto.
    + exists dst'. split; auto. split; [rewrite Ld; apply lset_len|exact H].
Qed.

Lemma firstn_nth_error : forall {B} (l : list B) n i, (i < n)%nat -> nth_error (firstn n l) i = nth_error l i.
Proof.
  intros B l. induction l as [|h t IH]; intros [|n] [|i] H; cbn; auto; try lia. apply IH. lia.
Qed.
Lemma nth_error_eq : forall {B} (l r : list B), (forall i, nth_error l i = nth_error r i) -> l = r.
Proof.
  intros B l. induction l as [|h t IH]; intros [|g s] H; auto.
  - specialize (H O). discriminate.
  - specialize (H O). discriminate.
  - pose proof (H O) as H0. cbn in H0. injection H0 as <-. f_equal. apply IH. intros i. apply (H (S i)).
Qed.

(** one pass: the array that is written holds the buckets in order *)
Lemma pass_ok : forall set L b dst, Permutation L set -> Z.of_nat (length L) <= 2 ^ 32 ->
  (forall e, In e L -> 0 <= digit e < Z.of_nat K) -> length b = K -> (length L <= length dst)%nat ->
  (forall v, (v < K)%nat -> nth v b 0 = w32 (Z.of_nat (start v set) - 1)) ->
  exists dst', scatter E digit L b dst = Some dst' /\ length dst' = length dst /\
    firstn (length L) dst' = bucket K L.
Proof.
  intros set L b dst HP HL Hd Hb Hdst Hn.
  destruct (scatter_ok L HL Hd L [] b dst eq_refl Hb Hdst) as (dst' & Es & Ld & H).
  - intros v Hv. cbn. rewrite (Hn v Hv), (start_perm v _ _ HP). f_equal. lia.
  - intros v j _ Hj. cbn in Hj. lia.
  - exists dst'. split; auto. split; auto. apply nth_error_eq. intros i.
    assert (length (bucket K L) = length L) as LB by (apply Permutation_length, bucket_perm, Hd).
    destruct (Nat.lt_ge_cases i (length L)) as [Hi|Hi].
    + rewrite firstn_nth_error by exact Hi. destruct (bucket_nth K L i) as (v & j & H1 & H2 & -> & ->).
      * unfold start. lia.
      * apply H; auto.
    + rewrite (proj2 (nth_error_None (bucket K L) i)) by lia. apply nth_error_None. rewrite firstn_length. lia.
Qed.

(** *** Order *)
Lemma ssorted_app : forall (R : E -> E -> Prop) l r, StronglySorted R l -> StronglySorted R r ->
  (forall x y, In x l -> In y r -> R x y) -> StronglySorted R (l ++ r).
Proof.
  intros R l r Hl Hr H. induction Hl as [|x l Hl IH F]; auto. cbn. constructor.
  - apply IH. auto using in_cons.
  - apply Forall_app. split; auto. apply Forall_forall. intros y Hy. apply H; auto. left; auto.
Qed.
Lemma ssorted_filter : forall (R : E -> E -> Prop) P l, StronglySorted R l -> StronglySorted R (filter P l).
Proof.
  intros R P l H. induction H as [|x l Hl IH F]; cbn; [constructor|]. destruct (P x); auto. constructor; auto.
  apply Forall_forall. intros y Hy. apply filter_In in Hy as [Hy _]. rewrite Forall_forall in F. auto.
Qed.
Lemma bucket_sorted : forall (R : E -> E -> Prop) V l, StronglySorted R l ->
  StronglySorted (fun x y => digit x < digit y \/ (digit x = digit y /\ R x y)) (bucket V l).
Proof.
  intros R V l H. induction V as [|V IH]; [constructor|]. rewrite bucket_S. apply ssorted_app; auto.
  - assert (forall x, In x (part V l) -> digit x = Z.of_nat V) as D.
    { intros x Hx. apply filter_In in Hx as [_ Hx]. lia. }
    pose proof (ssorted_filter R (fun e => digit e =? Z.of_nat V) l H) as S. fold (part V l) in S.
    induction S as [|x r S IHS F]; constructor.
    + apply IHS. auto using in_cons.
    + apply Forall_forall. intros y Hy. right. rewrite Forall_forall in F. split; auto.
      rewrite !D; auto using in_eq, in_cons.
  - intros x y Hx Hy. left. apply filter_In in Hy as [_ Hy].
    unfold bucket in Hx. apply in_flat_map in Hx as (v & Hv & Hx). apply in_seq in Hv.
    apply filter_In in Hx as [_ Hx]. lia.
Qed.
(** elements that share the digit keep their order *)
Lemma bucket_filter : forall V l (P : E -> bool) v, (v < V)%nat ->
  (forall e, In e l -> P e = true -> digit e = Z.of_nat v) -> filter P (bucket V l) = filter P l.
Proof.
  intros V l P v Hv H.
  assert (forall u, filter P (part u l) = if (u =? v)%nat then filter P l else []) as G.
  { intros u. unfold part. clear Hv. induction l as [|e r IH]; [cbn; destruct (u =? v)%nat; auto|].
    assert (forall e, In e r -> P e = true -> digit e = Z.of_nat v) as H' by auto using in_cons. specialize (IH H').
    cbn [filter]. pose proof (H e (or_introl eq_refl)) as He. destruct (P e) eqn:EP.
    - specialize (He eq_refl). rewrite He. destruct (Nat.eqb_spec u v) as [Eu|N]; [rewrite Eu in *; clear Eu|].
      + rewrite Z.eqb_refl. cbn [filter]. rewrite EP, IH. reflexivity.
      + destruct (Z.eqb_spec (Z.of_nat v) (Z.of_nat u)); [lia|]. exact IH.
    - destruct (digit e =? Z.of_nat u); cbn [filter]; rewrite ?EP; exact IH. }
  assert (forall W, filter P (bucket W l) = if (v <? W)%nat then filter P l else []) as F.
  { induction W as [|W IH]; [reflexivity|]. rewrite bucket_S, filter_app, IH, G.
    destruct (Nat.ltb_spec v W), (Nat.ltb_spec v (S W)), (Nat.eqb_spec W v); try lia; cbn; rewrite ?app_nil_r; auto. }
  rewrite F. apply Nat.ltb_lt in Hv. rewrite Hv. reflexivity.
Qed.
End Sort.

(** ** Bits *)
Lemma flip_pos : forall x, 0 <= x < 2 ^ 31 -> flip x = x + 2 ^ 31.
Proof.
  intros x H. unfold flip. assert (Z.shiftr x 31 = 0) as -> by (rewrite Z.shiftr_div_pow2 by lia; apply Z.div_small, H).
  change (Z.lor (w32 (- 0)) (2 ^ 31)) with (2 ^ 31). symmetry. apply Z.add_nocarry_lxor.
  apply Z.bits_inj'. intros n Hn. rewrite Z.land_spec, Z.bits_0, Z.pow2_bits_eqb by lia.
  destruct (Z.eqb_spec 31 n) as [<-|]; [|apply andb_false_r]. rewrite andb_true_r.
  rewrite Z.testbit_odd, Z.shiftr_div_pow2, Z.div_small by lia. reflexivity.
Qed.
Lemma flip_neg : forall x, 2 ^ 31 <= x < 2 ^ 32 -> flip x = 2 ^ 32 - 1 - x.
Proof.
  intros x H. unfold flip. assert (Z.shiftr x 31 = 1) as ->.
  { rewrite Z.shiftr_div_pow2 by lia. symmetry. apply Z.div_unique with (x - 2 ^ 31); lia. }
  change (Z.lor (w32 (- (1))) (2 ^ 31)) with (Z.ones 32).
  assert (forall n, 32 <= n -> Z.testbit x n = false) as Hi.
  { intros n Hn. apply Z.bits_above_log2; [lia|]. destruct (Z.eq_dec x 0); [subst; cbn; lia|].
    apply Z.log2_lt_pow2; [lia|]. apply Z.lt_le_trans with (2 ^ 32); [lia|]. apply Z.pow_le_mono_r; lia. }
  assert (Z.lxor x (Z.ones 32) = Z.ldiff (Z.ones 32) x) as ->.
  { apply Z.bits_inj'. intros n Hn. rewrite Z.lxor_spec, Z.ldiff_spec.
    destruct (Z.lt_ge_cases n 32) as [L|L].
    - rewrite Z.ones_spec_low by lia. destruct (Z.testbit x n); reflexivity.
    - rewrite Z.ones_spec_high, Hi by lia. reflexivity. }
  rewrite <- Z.sub_nocarry_ldiff.
  - rewrite Z.ones_equiv. lia.
  - apply Z.bits_inj'. intros n Hn. rewrite Z.ldiff_spec, Z.bits_0.
    destruct (Z.lt_ge_cases n 32) as [L|L]; [rewrite Z.ones_spec_low by lia; apply andb_false_r|rewrite Hi by lia; reflexivity].
Qed.
Lemma flip_range : forall x, 0 <= x < 2 ^ 32 -> 0 <= flip x < 2 ^ 32.
Proof.
  intros x H. destruct (Z.lt_ge_cases x (2 ^ 31)); [rewrite flip_pos by lia|rewrite flip_neg by lia]; lia.
Qed.
Lemma m0_ok : forall x, m0 x = x mod 2048.
Proof. intros x. unfold m0. change 2047 with (Z.ones 11). rewrite Z.land_ones by lia. reflexivity. Qed.
Lemma m1_ok : forall x, m1 x = (x / 2048) mod 2048.
Proof.
  intros x. unfold m1. change 2047 with (Z.ones 11). rewrite Z.land_ones, Z.shiftr_div_pow2 by lia. reflexivity.
Qed.
Lemma m2_ok : forall x, m2 x = x / 4194304.
Proof. intros x. unfold m2. rewrite Z.shiftr_div_pow2 by lia. reflexivity. Qed.
Lemma digits_range : forall x, 0 <= x < 2 ^ 32 ->
  0 <= m0 x < 2048 /\ 0 <= m1 x < 2048 /\ 0 <= m2 x < 2048.
Proof. intros x H. rewrite m0_ok, m1_ok, m2_ok. lia. Qed.
Lemma digits_lt : forall x y, 0 <= x < 2 ^ 32 -> 0 <= y < 2 ^ 32 ->
  (m2 x < m2 y \/ (m2 x = m2 y /\ (m1 x < m1 y \/ (m1 x = m1 y /\ (m0 x < m0 y \/ (m0 x = m0 y /\ True)))))) -> x <= y.
Proof. intros x y Hx Hy. rewrite !m0_ok, !m1_ok, !m2_ok. lia. Qed.

(** ** Float values *)
Lemma magnitude_mono : forall x y, 0 <= x -> x <= y -> float_magnitude x <= float_magnitude y.
Proof.
  intros x y Hx Hy. unfold float_magnitude.
  set (ex := x / 2 ^ 23). set (ey := y / 2 ^ 23). set (fx := x mod 2 ^ 23). set (fy := y mod 2 ^ 23).
  assert (x = ex * 2 ^ 23 + fx /\ 0 <= fx < 2 ^ 23 /\ 0 <= ex) as (X1 & X2 & X3) by (unfold ex, fx; lia).
  assert (y = ey * 2 ^ 23 + fy /\ 0 <= fy < 2 ^ 23) as (Y1 & Y2) by (unfold ey, fy; lia).
  assert (ex <= ey) as L by lia. clearbody ex ey fx fy.
  destruct (Z.eqb_spec ex 0) as [Ex|Ex]; destruct (Z.eqb_spec ey 0) as [Ey|Ey].
  - clear - X1 X2 Y1 Y2 L Ex Ey Hy. subst. lia.
  - pose proof (Z.pow_pos_nonneg 2 (ey - 1) ltac:(lia) ltac:(lia)) as P.
    apply Z.le_trans with ((2 ^ 23 + fy) * 1); [lia|]. apply Z.mul_le_mono_nonneg_l; lia.
  - lia.
  - destruct (Z.eq_dec ex ey) as [->|N].
    + apply Z.mul_le_mono_nonneg_r; [apply Z.pow_nonneg; lia|lia].
    + assert (2 * 2 ^ (ex - 1) <= 2 ^ (ey - 1)) as P.
      { replace (2 * 2 ^ (ex - 1)) with (2 ^ (ex - 1 + 1)) by (rewrite Z.pow_add_r; lia).
        apply Z.pow_le_mono_r; lia. }
      pose proof (Z.pow_pos_nonneg 2 (ex - 1) ltac:(lia) ltac:(lia)) as Q.
      apply Z.le_trans with ((2 ^ 23 * 2) * 2 ^ (ex - 1)); [apply Z.mul_le_mono_nonneg_r; lia|].
      rewrite <- Z.mul_assoc. apply Z.mul_le_mono_nonneg; lia.
Qed.
Lemma magnitude_nonneg : forall x, 0 <= x -> 0 <= float_magnitude x.
Proof. intros x H. apply (magnitude_mono 0 x); lia. Qed.
Lemma flip_value : forall x y, 0 <= x < 2 ^ 32 -> 0 <= y < 2 ^ 32 -> flip x <= flip y -> float_value x <= float_value y.
Proof.
  intros x y Hx Hy H. unfold float_value. destruct (Z.ltb_spec x (2 ^ 31)), (Z.ltb_spec y (2 ^ 31)).
  - rewrite !flip_pos in H by lia. apply magnitude_mono; lia.
  - rewrite (flip_pos x), (flip_neg y) in H by lia. lia.
  - pose proof (magnitude_nonneg (x - 2 ^ 31)). pose proof (magnitude_nonneg y). lia.
  - rewrite !flip_neg in H by lia. pose proof (magnitude_mono (y - 2 ^ 31) (x - 2 ^ 31)). lia.
Qed.

(** ** All three passes *)
Lemma repeat_nth : forall n v, nth v (repeat 0 n) 0 = 0.
Proof. induction n as [|n IH]; intros [|v]; cbn; auto. Qed.

Lemma prepare_ok : forall E (digit : E -> Z) set K, (1 <= K)%nat -> (forall e, In e set -> 0 <= digit e < Z.of_nat K) ->
  exists b b', histogram E digit set (repeat 0 K) = Some b /\ offsets K 0 (Z.of_nat K - 1) b 0 = Some b' /\
  length b' = K /\ forall v, (v < K)%nat -> nth v b' 0 = w32 (Z.of_nat (start E digit v set) - 1).
Proof.
  intros E digit set K HK Hd.
  destruct (histogram_ok E digit K set (repeat 0 K) (repeat_length 0 K) Hd) as (b & Eb & Lb & Hb).
  destruct (offsets_ok E digit K set K 0 b 0 HK Lb ltac:(lia)) as (b' & Eb' & Lb' & Hb').
  - intros v Hv. lia.
  - intros v _ Hv. destruct (Hb v ltac:(lia)) as (H1 & H2). rewrite repeat_nth in *. rewrite <- H2 by reflexivity. exact H1.
  - intros _. reflexivity.
  - exists b, b'. auto.
Qed.

Lemma radix_with_ok : forall E K (key : E -> Z) set temp, Z.of_nat K = 2048 ->
  (forall e, In e set -> 0 <= key e < 2 ^ 32) -> Z.of_nat (length set) <= 2 ^ 32 -> (length set <= length temp)%nat ->
  radix_with K key set temp =
    Some (bucket E (fun e => m2 (flip (key e))) K (bucket E (fun e => m1 (flip (key e))) K
         (bucket E (fun e => m0 (flip (key e))) K set))).
Proof.
  intros E K key set temp ZK Hk Hs Ht. unfold radix_with. cbv zeta. assert (1 <= K)%nat as K1 by lia.
  set (d0 := fun e => m0 (flip (key e))). set (d1 := fun e => m1 (flip (key e))). set (d2 := fun e => m2 (flip (key e))).
  assert (forall e, In e set -> 0 <= d0 e < Z.of_nat K /\ 0 <= d1 e < Z.of_nat K /\ 0 <= d2 e < Z.of_nat K) as D.
  { intros e He. rewrite ZK. apply digits_range, flip_range, Hk, He. }
  clearbody d0 d1 d2.
  destruct (prepare_ok E d0 set K K1) as (h0 & b0 & -> & O0 & L0 & B0); [intros; apply D; auto|].
  destruct (prepare_ok E d1 set K K1) as (h1 & b1 & -> & O1 & L1 & B1); [intros; apply D; auto|].
  destruct (prepare_ok E d2 set K K1) as (h2 & b2 & -> & O2 & L2 & B2); [intros; apply D; auto|].
  cbn [obind]. rewrite O0, O1, O2. cbn [obind].
  assert (Permutation (bucket E d0 K set) set) as P0 by (apply bucket_perm; intros; apply D; auto).
  set (s0 := bucket E d0 K set) in *.
  assert (Permutation (bucket E d1 K s0) set) as P1.
  { rewrite bucket_perm; auto. intros e He. apply D. eapply Permutation_in; eauto. }
  set (s1 := bucket E d1 K s0) in *.
  pose proof (Permutation_length P0) as N0. pose proof (Permutation_length P1) as N1.
  destruct (pass_ok E d0 K set set b0 temp) as (t0 & -> & T0 & F0); auto; [intros; apply D; auto|].
  cbn [obind]. rewrite F0. fold s0.
  destruct (pass_ok E d1 K set s0 b1 set) as (t1 & -> & T1 & F1); auto; [lia| |lia|].
  { intros e He. apply D. exact (Permutation_in _ P0 He). }
  cbn [obind]. assert (t1 = s1) as ->.
  { rewrite <- (firstn_all t1), T1, <- N0. exact F1. }
  destruct (pass_ok E d2 K set s1 b2 t0) as (t2 & -> & T2 & F2); auto; [lia| |lia|].
  { intros e He. apply D. exact (Permutation_in _ P1 He). }
  cbn [obind]. rewrite <- F2. f_equal.
Qed.

Lemma radix_ok : forall E (key : E -> Z) set temp,
  (forall e, In e set -> 0 <= key e < 2 ^ 32) -> Z.of_nat (length set) <= 2 ^ 32 -> (length set <= length temp)%nat ->
  exists K, Z.of_nat K = 2048 /\ radix_sort key set temp =
    Some (bucket E (fun e => m2 (flip (key e))) K (bucket E (fun e => m1 (flip (key e))) K
         (bucket E (fun e => m0 (flip (key e))) K set))).
Proof.
  intros E key set temp H1 H2 H3. exists 2048%nat. split; [reflexivity|]. apply radix_with_ok; auto.
Qed.
