(** Small shared helpers: bounded checking by computation, list updates. *)
From Coq Require Import List NArith ZArith Lia Bool Arith.
From Coq Require Import ZifyBool ZifyNat ZifyN.
Import ListNotations.

Ltac Zify.zify_post_hook ::= Z.div_mod_to_equations.

(** All numbers below [n], as [N]. *)
Definition upto (n : nat) : list N := map N.of_nat (seq 0 n).

Lemma in_upto : forall n x, (x < N.of_nat n)%N -> In x (upto n).
Proof.
  intros n x H. unfold upto. apply in_map_iff.
  exists (N.to_nat x). split; [lia|]. apply in_seq. lia.
Qed.

Lemma forallb_upto : forall n (P : N -> bool),
  forallb P (upto n) = true -> forall x, (x < N.of_nat n)%N -> P x = true.
Proof.
  intros n P H x Hx. rewrite forallb_forall in H. apply H. now apply in_upto.
Qed.

(** Write position [i] of a list (no effect when out of range). *)
Fixpoint lset {A} (l : list A) (i : nat) (x : A) : list A :=
  match l, i with
  | [], _ => []
  | _ :: t, O => x :: t
  | h :: t, S j => h :: lset t j x
  end.

Lemma lset_length : forall A (l : list A) i x, length (lset l i x) = length l.
Proof. induction l as [|h t IH]; intros [|i] x; simpl; auto. Qed.

Lemma nth_error_lset_eq : forall A (l : list A) i x,
  i < length l -> nth_error (lset l i x) i = Some x.
Proof.
  induction l as [|h t IH]; intros [|i] x H; simpl in *; try lia; auto.
  apply IH. lia.
Qed.

Lemma nth_error_lset_ne : forall A (l : list A) i j x,
  i <> j -> nth_error (lset l i x) j = nth_error l j.
Proof.
  induction l as [|h t IH]; intros [|i] [|j] x H; simpl in *; try lia; auto.
Qed.

Lemma nth_error_lset : forall A (l : list A) i j x,
  nth_error (lset l i x) j =
  if (i =? j) && (j <? length l) then Some x else nth_error l j.
Proof.
  intros. destruct (Nat.eqb_spec i j) as [->|Hne]; simpl.
  - destruct (Nat.ltb_spec j (length l)).
    + now apply nth_error_lset_eq.
    + transitivity (@None A); [|symmetry];
      apply nth_error_None; rewrite ?lset_length; lia.
  - now apply nth_error_lset_ne.
Qed.

Lemma nth_lset_eq : forall A (l : list A) i x d,
  i < length l -> nth i (lset l i x) d = x.
Proof.
  induction l as [|h t IH]; intros [|i] x d H; simpl in *; try lia; auto.
  apply IH; lia.
Qed.

Lemma nth_lset_ne : forall A (l : list A) i j x d,
  i <> j -> nth j (lset l i x) d = nth j l d.
Proof.
  induction l as [|h t IH]; intros [|i] [|j] x d H; simpl in *; try lia; auto.
Qed.

Lemma nth_lset : forall A (l : list A) i j x d,
  nth j (lset l i x) d =
  if (i =? j) && (j <? length l) then x else nth j l d.
Proof.
  intros. destruct (Nat.eqb_spec i j) as [->|Hne]; simpl.
  - destruct (Nat.ltb_spec j (length l)).
    + now apply nth_lset_eq.
    + rewrite !nth_overflow; rewrite ?lset_length; auto; lia.
  - now apply nth_lset_ne.
Qed.

Lemma lset_same : forall A (l : list A) i d, lset l i (nth i l d) = l.
Proof.
  induction l as [|h t IH]; intros [|i] d; simpl; auto. now rewrite IH.
Qed.

Lemma nth_error_ext : forall A (l1 l2 : list A),
  (forall i, nth_error l1 i = nth_error l2 i) -> l1 = l2.
Proof.
  induction l1 as [|a t IH]; intros [|b u] H; auto.
  - specialize (H 0); discriminate.
  - specialize (H 0); discriminate.
  - f_equal.
    + specialize (H 0). simpl in H. congruence.
    + apply IH. intro i. apply (H (S i)).
Qed.

Lemma In_lset : forall A (l : list A) i x y,
  In y (lset l i x) -> y = x \/ In y l.
Proof.
  induction l as [|h t IH]; intros [|i] x y H; simpl in *; auto.
  - destruct H; auto.
  - destruct H as [->|H]; auto. destruct (IH _ _ _ H); auto.
Qed.

Lemma firstn_lset_ge : forall A (l : list A) n i x,
  n <= i -> firstn n (lset l i x) = firstn n l.
Proof.
  induction l as [|h t IH]; intros [|n] [|i] x H; simpl; auto; try lia.
  f_equal. apply IH. lia.
Qed.

Lemma lset_app_l : forall A (l1 l2 : list A) i x,
  i < length l1 -> lset (l1 ++ l2) i x = lset l1 i x ++ l2.
Proof.
  induction l1 as [|h t IH]; intros l2 [|i] x H; simpl in *; try lia; auto.
  f_equal. apply IH. lia.
Qed.

Lemma lset_app_r : forall A (l1 l2 : list A) i x,
  length l1 <= i -> lset (l1 ++ l2) i x = l1 ++ lset l2 (i - length l1) x.
Proof.
  induction l1 as [|h t IH]; intros l2 i x H; simpl in *.
  - now rewrite Nat.sub_0_r.
  - destruct i as [|i]; [lia|]. simpl. f_equal. apply IH. lia.
Qed.

(** nth_error of the list constructors, as conditionals. *)
Lemma nth_error_app_if : forall A (l1 l2 : list A) k,
  nth_error (l1 ++ l2) k = if k <? length l1 then nth_error l1 k else nth_error l2 (k - length l1).
Proof.
  intros. destruct (Nat.ltb_spec k (length l1)).
  - now apply nth_error_app1.
  - now apply nth_error_app2.
Qed.
Lemma nth_error_firstn_if : forall A n (l : list A) k,
  nth_error (firstn n l) k = if k <? n then nth_error l k else None.
Proof.
  induction n as [|n IH]; intros [|x l] [|k]; cbn [firstn nth_error]; auto.
  - destruct (_ <? _); reflexivity.
  - rewrite IH. reflexivity.
Qed.
Lemma nth_error_skipn_eq : forall A n (l : list A) k,
  nth_error (skipn n l) k = nth_error l (n + k).
Proof.
  induction n as [|n IH]; intros [|x l] k; cbn [skipn Nat.add]; auto.
  - destruct k; reflexivity.
  - rewrite IH. reflexivity.
Qed.
Lemma nth_error_repeat_if : forall A (x : A) n k,
  nth_error (repeat x n) k = if k <? n then Some x else None.
Proof.
  induction n as [|n IH]; intros [|k]; cbn [repeat nth_error]; auto.
  rewrite IH. reflexivity.
Qed.
Lemma nth_error_nil_eq : forall A k, nth_error (@nil A) k = None.
Proof. intros A [|k]; reflexivity. Qed.
Lemma nth_error_removelast : forall A (l : list A) k,
  nth_error (removelast l) k = if k <? length l - 1 then nth_error l k else None.
Proof.
  intros A l k. rewrite removelast_firstn_len, nth_error_firstn_if.
  replace (pred (length l)) with (length l - 1) by lia. reflexivity.
Qed.
Lemma removelast_len : forall A (l : list A), length (removelast l) = length l - 1.
Proof. intros A l. rewrite removelast_firstn_len, firstn_length. lia. Qed.

(** Split all boolean comparisons of naturals in the goal. *)
Ltac natcases :=
  repeat match goal with
  | |- context [Nat.leb ?x ?y] => destruct (Nat.leb_spec x y); cbn [andb orb negb]; try lia
  | |- context [Nat.ltb ?x ?y] => destruct (Nat.ltb_spec x y); cbn [andb orb negb]; try lia
  | |- context [Nat.eqb ?x ?y] => destruct (Nat.eqb_spec x y); cbn [andb orb negb]; try lia
  end.
