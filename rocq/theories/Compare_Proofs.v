(** Proofs about the comparators of Sort_Model.v. *)
From Coq Require Import ZArith List Bool Lia QArith Qabs Lqa.
From Verif Require Import Util Sort_Model.
Import ListNotations.
Open Scope Z_scope.

(** two coordinates are not told apart *)
Definition near (e x y : Q) : Prop := (Qabs (x - y) <= e)%Q.

Lemma near_iff : forall e x y, near e x y <-> (x <= y + e /\ y <= x + e)%Q.
Proof.
  intros e x y. unfold near. rewrite Qabs_Qle_condition. split; intros [H1 H2]; split; lra.
Qed.

(** points on which "not told apart" is transitive in every coordinate *)
Definition near_transitive (e : Q) (P : list Q -> Prop) : Prop :=
  forall a b c i, P a -> P b -> P c ->
    near e (nth i a 0%Q) (nth i b 0%Q) -> near e (nth i b 0%Q) (nth i c 0%Q) ->
    near e (nth i a 0%Q) (nth i c 0%Q).

Lemma near_dec : forall e x y,
  (if Qlt_le_dec e (Qabs (x - y)) then ~ near e x y else near e x y).
Proof.
  intros. destruct (Qlt_le_dec e (Qabs (x - y))) as [H|H]; unfold near; [lra|exact H].
Qed.

(** one coordinate *)
Definition cmp1 (e x y : Q) : Z :=
  if Qlt_le_dec e (Qabs (x - y)) then (if Qlt_le_dec y x then 1 else -1) else 0.

Lemma compare_coords_cons : forall e x a y b,
  compare_coords e (x :: a) (y :: b) =
  if cmp1 e x y =? 0 then compare_coords e a b else cmp1 e x y.
Proof.
  intros. cbn [compare_coords]. unfold cmp1.
  destruct (Qlt_le_dec e (Qabs (x - y))); [|reflexivity].
  destruct (Qlt_le_dec y x); reflexivity.
Qed.

Lemma cmp1_cases : forall e x y, (0 <= e)%Q ->
  (cmp1 e x y = 1 /\ (y + e < x)%Q) \/
  (cmp1 e x y = -1 /\ (x + e < y)%Q) \/
  (cmp1 e x y = 0 /\ near e x y).
Proof.
  intros e x y He. unfold cmp1. pose proof (near_dec e x y) as Hd.
  destruct (Qlt_le_dec e (Qabs (x - y))) as [H|H]; [|auto].
  rewrite near_iff in Hd.
  destruct (Qlt_le_dec y x) as [G|G]; [left|right; left]; (split; [reflexivity|]).
  - destruct (Qlt_le_dec (y + e) x) as [K|K]; auto. exfalso. apply Hd. split; lra.
  - destruct (Qlt_le_dec (x + e) y) as [K|K]; auto. exfalso. apply Hd. split; lra.
Qed.

Lemma cmp1_opp : forall e x y, (0 <= e)%Q -> cmp1 e y x = - cmp1 e x y.
Proof.
  intros e x y He.
  destruct (cmp1_cases e x y He) as [[-> H]|[[-> H]|[-> H]]],
           (cmp1_cases e y x He) as [[-> G]|[[-> G]|[-> G]]]; try reflexivity;
  rewrite ?near_iff in *; exfalso; lra.
Qed.

Lemma compare_coords_opp : forall e a b, (0 <= e)%Q ->
  compare_coords e b a = - compare_coords e a b.
Proof.
  intros e a. induction a as [|x a IH]; intros [|y b] He; try reflexivity.
  rewrite !compare_coords_cons, (cmp1_opp e x y He), IH by auto.
  destruct (Z.eqb_spec (cmp1 e x y) 0), (Z.eqb_spec (- cmp1 e x y) 0); lia.
Qed.

Lemma compare_coords_trans : forall e a b c, (0 <= e)%Q ->
  length a = length b -> length b = length c ->
  (forall i p q r, In p [a;b;c] -> In q [a;b;c] -> In r [a;b;c] ->
     near e (nth i p 0%Q) (nth i q 0%Q) -> near e (nth i q 0%Q) (nth i r 0%Q) ->
     near e (nth i p 0%Q) (nth i r 0%Q)) ->
  compare_coords e a b <= 0 -> compare_coords e b c <= 0 -> compare_coords e a c <= 0.
Proof.
  intros e a. induction a as [|x a IH]; intros [|y b] [|z c] He Hab Hbc Ht;
    cbn [length] in *; try discriminate; try (intros; assumption).
  rewrite !compare_coords_cons. intros H1 H2.
  pose proof (fun p q r Hp Hq Hr => Ht 0%nat p q r Hp Hq Hr) as H0.
  assert (Ixy : In (x :: a) [x :: a; y :: b; z :: c]) by (left; reflexivity).
  assert (Iy : In (y :: b) [x :: a; y :: b; z :: c]) by (right; left; reflexivity).
  assert (Iz : In (z :: c) [x :: a; y :: b; z :: c]) by (right; right; left; reflexivity).
  pose proof (H0 _ _ _ Ixy Iy Iz) as T1. pose proof (H0 _ _ _ Ixy Iz Iy) as T2.
  pose proof (H0 _ _ _ Iy Ixy Iz) as T3. cbn [nth] in T1, T2, T3.
  rewrite !near_iff in T1, T2, T3.
  destruct (cmp1_cases e x y He) as [[Ex Gx]|[[Ex Gx]|[Ex Gx]]]; rewrite Ex in H1; cbn in H1; try lia;
  destruct (cmp1_cases e y z He) as [[Ey Gy]|[[Ey Gy]|[Ey Gy]]]; rewrite Ey in H2; cbn in H2; try lia;
  destruct (cmp1_cases e x z He) as [[Ez Gz]|[[Ez Gz]|[Ez Gz]]]; rewrite Ez; cbn; try lia;
  rewrite ?near_iff in *.
  - exfalso; lra.
  - exfalso; lra.
  - exfalso; lra.
  - assert (x <= y + e /\ y <= x + e)%Q by (apply T2; split; lra). exfalso; lra.
  - exfalso. assert (x <= z + e /\ z <= x + e)%Q by (apply T1; split; lra). lra.
  - exfalso. assert (y <= z + e /\ z <= y + e)%Q by (apply T3; split; lra). lra.
  - exfalso. assert (x <= z + e /\ z <= x + e)%Q by (apply T1; split; lra). lra.
  - apply (IH b c); auto; try lia.
    intros i p q r Hp Hq Hr. cbn [In] in Hp, Hq, Hr.
    pose proof (Ht (S i)) as Hti.
    assert (X : forall p, a = p \/ b = p \/ c = p \/ False ->
      exists t, In (t :: p) [x :: a; y :: b; z :: c]).
    { intros p' [<-|[<-|[<-|[]]]]; eexists; [exact Ixy|exact Iy|exact Iz]. }
    destruct (X p Hp) as [tp Jp], (X q Hq) as [tq Jq], (X r Hr) as [tr Jr].
    specialize (Hti _ _ _ Jp Jq Jr). exact Hti.
Qed.

(** ** trees *)
Fixpoint elem_size_ind (P : elem -> Prop)
  (HN : forall c, P (ENode c)) (HH : forall n low, Forall P low -> P (EHigh n low))
  (e : elem) {struct e} : P e :=
  match e with
  | ENode c => HN c
  | EHigh n low =>
    HH n low ((fix go (l : list elem) : Forall P l :=
                 match l with
                 | [] => Forall_nil P
                 | x :: l' => Forall_cons x (elem_size_ind P HN HH x) (go l')
                 end) low)
  end.

Fixpoint lex (f : elem -> elem -> Z) (la lb : list elem) : Z :=
  match la, lb with
  | x :: la', y :: lb' => if f x y =? 0 then lex f la' lb' else f x y
  | _, _ => 0
  end.

Lemma compare_high : forall eps na la nb lb,
  compare_elements eps (EHigh na la) (EHigh nb lb) =
  if na =? nb then
    if (length la =? length lb)%nat then lex (compare_elements eps) la lb
    else Z.of_nat (length la) - Z.of_nat (length lb)
  else na - nb.
Proof.
  intros. cbn [compare_elements]. destruct (na =? nb); [|reflexivity].
  destruct (length la =? length lb)%nat; [|reflexivity].
  revert lb. induction la as [|x la IH]; intros [|y lb]; try reflexivity.
  cbn [lex]. rewrite <- IH. reflexivity.
Qed.

(** elements of a mesh: types above nodes have positive numbers *)
Inductive wf_elem (P : list Q -> Prop) : elem -> Prop :=
| wf_node : forall c, P c -> wf_elem P (ENode c)
| wf_high : forall n low, 0 < n -> Forall (wf_elem P) low -> wf_elem P (EHigh n low).

Lemma compare_elements_opp : forall eps, (0 <= eps)%Q -> forall a b,
  compare_elements eps b a = - compare_elements eps a b.
Proof.
  intros eps He a. induction a as [c|n low IH] using elem_size_ind; intros b.
  - destruct b as [c'|n' low']; cbn [compare_elements enum].
    + now apply compare_coords_opp.
    + lia.
  - destruct b as [c'|n' low']; [cbn [compare_elements enum]; lia|].
    rewrite !compare_high. rewrite (Z.eqb_sym n'), (Nat.eqb_sym (length low')).
    destruct (n =? n') eqn:En; [|lia].
    destruct (length low =? length low')%nat; [|lia].
    clear En. revert low'. induction IH as [|x low Hx _ IHl]; intros [|y low']; try reflexivity.
    cbn [lex]. rewrite (Hx y), IHl.
    destruct (Z.eqb_spec (compare_elements eps x y) 0),
             (Z.eqb_spec (- compare_elements eps x y) 0); lia.
Qed.

Lemma lex_trans : forall (D : elem -> Prop) f,
  (forall a b, f b a = - f a b) ->
  (forall x y z, D x -> D y -> D z -> f x y <= 0 -> f y z <= 0 -> f x z <= 0) ->
  forall la lb lc, length la = length lb -> length lb = length lc ->
  Forall D la -> Forall D lb -> Forall D lc ->
  lex f la lb <= 0 -> lex f lb lc <= 0 -> lex f la lc <= 0.
Proof.
  intros D f Ho Ht la.
  induction la as [|x la IH]; intros [|y lb] [|z lc] H1 H2 Hla Hlb Hlc;
    cbn [length] in *; try discriminate; try (intros; assumption).
  inversion_clear Hla as [|? ? Hx Hla']. inversion_clear Hlb as [|? ? Hy Hlb'].
  inversion_clear Hlc as [|? ? Hz Hlc'].
  cbn [lex]. intros G1 G2.
  assert (A1 : f x y <= 0) by (destruct (Z.eqb_spec (f x y) 0); lia).
  assert (A2 : f y z <= 0) by (destruct (Z.eqb_spec (f y z) 0); lia).
  pose proof (Ht x y z Hx Hy Hz A1 A2) as A3.
  destruct (Z.eqb_spec (f x z) 0) as [E|E]; [|exact A3].
  assert (A4 : f z x <= 0) by (rewrite Ho; lia).
  pose proof (Ht y z x Hy Hz Hx A2 A4) as A5. rewrite Ho in A5.
  pose proof (Ht z x y Hz Hx Hy A4 A1) as A6. rewrite Ho in A6.
  destruct (Z.eqb_spec (f x y) 0); [|lia]. destruct (Z.eqb_spec (f y z) 0); [|lia].
  apply (IH lb lc); auto; lia.
Qed.

Fixpoint depth (e : elem) : nat :=
  match e with
  | ENode _ => 0
  | EHigh _ l => S (fold_right Nat.max 0%nat (map depth l))
  end.

Lemma depth_low : forall l N, (fold_right Nat.max 0%nat (map depth l) <= N)%nat ->
  Forall (fun x => (depth x <= N)%nat) l.
Proof.
  induction l as [|x l IH]; intros N H; constructor; cbn [map fold_right] in H.
  - lia.
  - apply IH. lia.
Qed.

Lemma compare_elements_trans : forall eps (P : list Q -> Prop) n, (0 <= eps)%Q ->
  (forall c, P c -> length c = n) -> near_transitive eps P ->
  forall a b c, wf_elem P a -> wf_elem P b -> wf_elem P c ->
  compare_elements eps a b <= 0 -> compare_elements eps b c <= 0 ->
  compare_elements eps a c <= 0.
Proof.
  intros eps P n He Hl Ht.
  assert (G : forall N a b c, (depth a <= N)%nat -> (depth b <= N)%nat -> (depth c <= N)%nat ->
    wf_elem P a -> wf_elem P b -> wf_elem P c ->
    compare_elements eps a b <= 0 -> compare_elements eps b c <= 0 ->
    compare_elements eps a c <= 0).
  2: { intros a b c. apply (G (depth a + depth b + depth c)%nat); lia. }
  induction N as [|N IH]; intros a b c Da Db Dc Wa Wb Wc.
  - destruct a as [ca|na la], b as [cb|nb lb], c as [cc|nc lc]; cbn [depth] in *; try lia.
    inversion_clear Wa as [? Pa|]. inversion_clear Wb as [? Pb|]. inversion_clear Wc as [? Pc|].
    cbn [compare_elements]. apply compare_coords_trans; auto.
    + rewrite (Hl ca), (Hl cb); auto.
    + rewrite (Hl cc), (Hl cb); auto.
    + intros i p q r Hp Hq Hr.
      assert (X : forall p, In p [ca; cb; cc] -> P p)
        by (intros p' [<-|[<-|[<-|[]]]]; auto).
      apply Ht; auto.
  - destruct a as [ca|na la].
    { inversion_clear Wa as [? Pa|].
      destruct b as [cb|nb lb], c as [cc|nc lc];
        inversion_clear Wb as [? Pb|]; inversion_clear Wc as [? Pc|];
        cbn [compare_elements enum]; try (intros; lia).
      intros H1 H2. apply (IH (ENode ca) (ENode cb) (ENode cc)); cbn [depth]; try lia;
        try constructor; auto. }
    inversion_clear Wa as [|? ? Pna Wla].
    destruct b as [cb|nb lb]; inversion_clear Wb as [|? ? Pnb Wlb].
    { cbn [compare_elements enum]. intros; lia. }
    destruct c as [cc|nc lc]; inversion_clear Wc as [|? ? Pnc Wlc].
    { intros _. cbn [compare_elements enum]. intros; lia. }
    rewrite !compare_high.
    destruct (Z.eqb_spec na nb), (Z.eqb_spec nb nc), (Z.eqb_spec na nc); intros H1 H2; try lia.
    destruct (Nat.eqb_spec (length la) (length lb)), (Nat.eqb_spec (length lb) (length lc)),
      (Nat.eqb_spec (length la) (length lc)); try lia.
    cbn [depth] in Da, Db, Dc.
    assert (DD : forall l, (fold_right Nat.max 0%nat (map depth l) <= N)%nat ->
      Forall (wf_elem P) l -> Forall (fun x => (depth x <= N)%nat /\ wf_elem P x) l).
    { intros l H1' H2'. apply depth_low in H1'. rewrite Forall_forall in *. auto. }
    apply (lex_trans (fun x => (depth x <= N)%nat /\ wf_elem P x) (compare_elements eps))
      with (lb := lb); auto; try (apply DD; auto; lia).
    + intros. now apply compare_elements_opp.
    + intros x y z [] [] []. now apply IH.
Qed.

(** ** orders on handles: invalid handles last *)
Definition strict_weak (D : Z -> Prop) (lt : Z -> Z -> bool) : Prop :=
  (forall a, D a -> lt a a = false) /\
  (forall a b c, D a -> D b -> D c -> lt a b = true -> lt b c = true -> lt a c = true) /\
  (forall a b c, D a -> D b -> D c ->
     lt a b = false -> lt b a = false -> lt b c = false -> lt c b = false ->
     lt a c = false /\ lt c a = false).

Lemma strict_weak_cmp : forall (D : Z -> Prop) (cmp : Z -> Z -> Z),
  (forall a, D a -> 0 <= a) ->
  (forall a b, D a -> D b -> a <> 0 -> b <> 0 -> cmp b a = - cmp a b) ->
  (forall a b c, D a -> D b -> D c -> a <> 0 -> b <> 0 -> c <> 0 ->
     cmp a b <= 0 -> cmp b c <= 0 -> cmp a c <= 0) ->
  strict_weak D (fun a b => if (a =? 0) || (b =? 0) then b <? a else cmp a b <? 0).
Proof.
  intros D cmp Hnn Ho Ht. split; [|split].
  - intros a Ha. destruct (Z.eqb_spec a 0); cbn [orb].
    + apply Z.ltb_irrefl.
    + pose proof (Ho a a Ha Ha n n). apply Z.ltb_ge. lia.
  - intros a b c Ha Hb Hc.
    pose proof (Hnn a Ha). pose proof (Hnn b Hb). pose proof (Hnn c Hc).
    destruct (Z.eqb_spec a 0), (Z.eqb_spec b 0), (Z.eqb_spec c 0); cbn [orb];
      rewrite ?Z.ltb_lt; try lia.
    intros I1 I2. pose proof (Ht a b c Ha Hb Hc n n0 n1 ltac:(lia) ltac:(lia)).
    destruct (Z.eq_dec (cmp a c) 0) as [E|]; [|lia].
    pose proof (Ht c a b Hc Ha Hb n1 n n0) as K.
    rewrite (Ho a c), (Ho b c) in K by auto. lia.
  - intros a b c Ha Hb Hc.
    pose proof (Hnn a Ha). pose proof (Hnn b Hb). pose proof (Hnn c Hc).
    destruct (Z.eqb_spec a 0), (Z.eqb_spec b 0), (Z.eqb_spec c 0); cbn [orb];
      rewrite ?Z.ltb_ge; try lia.
    intros I1 I2 I3 I4.
    rewrite (Ho a b) in I2 by auto. rewrite (Ho b c) in I4 by auto.
    pose proof (Ht a b c Ha Hb Hc n n0 n1 ltac:(lia) ltac:(lia)).
    pose proof (Ht c b a Hc Hb Ha n1 n0 n) as K.
    rewrite (Ho a b), (Ho b c), (Ho a c) in K by auto.
    rewrite (Ho a c) by auto. lia.
Qed.

(** lower_bound's requirement: the test holds on a prefix of the array *)
Definition prefix_holds (test : Z -> bool) (l : list Z) : Prop :=
  exists a b, l = a ++ b /\ Forall (fun x => test x = true) a /\ Forall (fun x => test x = false) b.
