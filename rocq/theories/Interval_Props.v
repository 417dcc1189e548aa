(** Property C11. *)
From Coq Require Import List Bool ZArith Lia.
From Verif Require Import Util Interval_Model Interval_Proofs.
Import ListNotations.
Local Open Scope Z_scope.

(** C11: any history of set_interval_beg, set_interval_end, shift_interval,
    clear and writes that is legal (no write outside, no end before the
    beginning) is free of invalid accesses and releases; the bounds and the value
    of every index are those of the ideal indexed sequence: shifts and
    set_interval_beg translate the whole content, set_interval_end keeps the
    common part and fills the rest. *)
Theorem C11_interval_refines : forall (A : Type) (ops : list (op A)) (b : Z) (s : sitv A),
  srun (b, []) ops = Some s ->
  exists a, run (itv0 b) ops = Some a /\ ibeg a = fst s /\ iend a = send s /\
            forall i, get a i = option_map Some (sget s i).
Proof.
  intros A ops b s E. destruct (rep_run ops (itv0 b) (b, []) s (rep_itv0 b) E) as (a & R & H).
  exists a. split; [exact R|]. split; [apply H|]. split; [apply H|]. intros i. now apply rep_get.
Qed.
Print Assumptions C11_interval_refines.

(** The same starting from the filling constructor. *)
Theorem C11_interval_made : forall (A : Type) (ops : list (op A)) (b e : Z) (c : A) (s : sitv A),
  b <= e -> srun (b, repeat c (Z.to_nat (e - b))) ops = Some s ->
  exists a a', make b e c = Some a /\ run a ops = Some a' /\ ibeg a' = fst s /\ iend a' = send s /\
            forall i, get a' i = option_map Some (sget s i).
Proof.
  intros A ops b e c s HE E. destruct (rep_make b e c HE) as (a & M & R0).
  destruct (rep_run ops a _ s R0 E) as (a' & R & H).
  exists a, a'. split; [exact M|]. split; [exact R|]. split; [apply H|]. split; [apply H|].
  intros i. now apply rep_get.
Qed.
Print Assumptions C11_interval_made.

(** What a user of set_interval_end reads off the specification. *)
Theorem C11_set_end_effect : forall (A : Type) (ops : list (op A)) (b e : Z) (c : A) a s,
  srun (b, []) ops = Some s -> run (itv0 b) ops = Some a -> ibeg a <= e ->
  exists a', set_interval_end a e (inl c) = Some a' /\ ibeg a' = ibeg a /\ iend a' = e /\
    forall i, get a' i = if (ibeg a <=? i) && (i <? e)
                         then if i <? iend a then get a i else Some (Some c) else None.
Proof.
  intros A ops b e c a (b', l) E R HE.
  destruct (rep_run ops (itv0 b) (b, []) _ (rep_itv0 b) E) as (a0 & R0 & H).
  rewrite R in R0. injection R0 as <-. pose proof H as (H1 & H2 & _). unfold send in *. cbn [fst snd] in *.
  destruct (rep_set_end a b' l e c H) as (a' & E' & R'); [lia|].
  exists a'. split; [exact E'|].
  assert (Z.of_nat (length (firstn (Z.to_nat (e - b')) l ++ repeat c (Z.to_nat (e - b') - length l))) = e - b') as LL
    by (rewrite app_length, firstn_length, repeat_length; lia).
  pose proof R' as (R1 & R2 & _). unfold send in *. cbn [fst snd] in *. split; [lia|]. split; [lia|].
  intros i. rewrite (rep_get _ _ i R'), (rep_get _ _ i H). unfold sget. cbn [fst snd]. rewrite H1.
  destruct (Z.ltb_spec i b'), (Z.leb_spec b' i); try lia; [reflexivity|]. cbn [andb].
  rewrite nth_error_app_if, nth_error_firstn_if, nth_error_repeat_if, firstn_length.
  destruct (Z.ltb_spec i e), (Z.ltb_spec i (iend a)); natcases; auto.
Qed.
Print Assumptions C11_set_end_effect.

(** Copies. *)
Theorem C11_interval_copies : forall (A : Type) (ops ops2 : list (op A)) b b2 s s2 a a2,
  srun (b, []) ops = Some s -> run (itv0 b) ops = Some a ->
  srun (b2, []) ops2 = Some s2 -> run (itv0 b2) ops2 = Some a2 ->
  (exists c, copy_ctor a = Some c /\ ibeg c = ibeg a /\ iend c = iend a /\ forall i, get c i = get a i) /\
  (exists c, assign_op a2 a = Some c /\ ibeg c = ibeg a /\ iend c = iend a /\ forall i, get c i = get a i).
Proof.
  intros A ops ops2 b b2 s s2 a a2 E R E2 R2.
  destruct (rep_run ops (itv0 b) (b, []) _ (rep_itv0 b) E) as (a0 & R0 & H). rewrite R in R0. injection R0 as <-.
  destruct (rep_run ops2 (itv0 b2) (b2, []) _ (rep_itv0 b2) E2) as (a0 & R0 & H2). rewrite R2 in R0. injection R0 as <-.
  assert (forall c, rep c s -> ibeg c = ibeg a /\ iend c = iend a /\ forall i, get c i = get a i) as K.
  { intros c Hc. split; [destruct H, Hc; congruence|]. split; [destruct H as (_ & X & _), Hc as (_ & Y & _); congruence|].
    intros i. now rewrite (rep_get _ _ i H), (rep_get _ _ i Hc). }
  split.
  - destruct (rep_copy_of a s H) as (c & C & HC). exists c. split; [exact C|]. now apply K.
  - destruct (rep_assign a2 s2 a s H2 H) as (c & C & HC). exists c. split; [exact C|]. now apply K.
Qed.
Print Assumptions C11_interval_copies.

(** Growing an interval with one of its own values as the fill value reads the
    released block. *)
Theorem C11_fill_own_refuted : forall (A : Type) (x : A),
  exists a, run (itv0 3) [OEnd 5 x] = Some a /\ get a 3 = Some (Some x) /\ set_interval_end a 7 (inr 3) = None.
Proof. intros A x. eexists. repeat split; vm_compute; reflexivity. Qed.
Print Assumptions C11_fill_own_refuted.

Example C11_nonvacuous :
  let ops := [OEnd 5 7%nat; OSet 4 9%nat; OShift (-2); OEnd 8 1%nat; OBeg 10; OEnd 12 0%nat; OSet 10 3%nat; OEnd 14 5%nat] in
  srun (3, []) ops = Some (10, [3; 9; 5; 5]%nat) /\
  option_map (fun a => get a 11) (run (itv0 3) ops) = Some (Some (Some 9%nat)).
Proof. vm_compute. auto. Qed.
