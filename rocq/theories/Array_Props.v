(** Properties C07, C08, C09. *)
From Coq Require Import NArith List Bool Lia Arith.
From Verif Require Import Util Array_Model Array_Proofs.
Import ListNotations.

(** C07: any history of push_back, pop_back, resize, clear, writes, inserts,
    single erases and assign that is legal on an ideal sequence and stays within
    2^31 elements runs without touching memory outside of the buffer and shows
    exactly the ideal sequence. *)
Theorem C07_array_is_sequence : forall (A : Type) (ops : list (op A)) (l : list A),
  fits [] ops -> spec_run [] ops = Some l ->
  exists a, run empty ops = Some a /\ m_size a = length l /\
            content a = map (fun x => Some (Some x)) l.
Proof.
  intros A ops l F E. destruct (rep_run ops empty [] l rep_empty F E) as (a & R & H).
  exists a. split; [exact R|]. split; [apply H|]. now apply rep_content.
Qed.
Print Assumptions C07_array_is_sequence.

(** Constructors and copies: the copy shows the same elements. *)
Theorem C07_array_copies : forall (A : Type) (ops ops2 : list (op A)) l l2 a a2,
  fits [] ops -> spec_run [] ops = Some l -> run empty ops = Some a ->
  fits [] ops2 -> spec_run [] ops2 = Some l2 -> run empty ops2 = Some a2 ->
  (exists c, copy_ctor a = Some c /\ content c = content a) /\
  (exists c, assign_op a2 a = Some c /\ content c = content a).
Proof.
  intros A ops ops2 l l2 a a2 F E R F2 E2 R2.
  destruct (rep_run ops empty [] l rep_empty F E) as (a' & R' & H).
  destruct (rep_run ops2 empty [] l2 rep_empty F2 E2) as (a2' & R2' & H2).
  rewrite R in R'. inversion R'; subst a'. rewrite R2 in R2'. inversion R2'; subst a2'.
  rewrite (rep_content a l H). split.
  - destruct (rep_copy a l H) as (c & C & HC). exists c. split; [exact C|]. now apply rep_content.
  - destruct (rep_assign_op a2 l2 a l H2 H) as (c & C & HC). exists c. split; [exact C|]. now apply rep_content.
Qed.
Print Assumptions C07_array_copies.

Theorem C07_array_constructors : forall (A : Type),
  (forall n (c : A), (N.of_nat n <= 2 ^ 31)%N ->
     exists a, make n c = Some a /\ content a = map (fun x => Some (Some x)) (repeat c n)) /\
  (forall l : list A, (N.of_nat (length l) <= 2 ^ 31)%N ->
     exists a, make_range l = Some a /\ content a = map (fun x => Some (Some x)) l).
Proof.
  intros A. split.
  - intros n c S. destruct (rep_make n c S) as (a & E & R). exists a. split; [exact E|]. now apply rep_content.
  - intros l S. destruct (rep_make_range l S) as (a & E & R). exists a. split; [exact E|]. now apply rep_content.
Qed.
Print Assumptions C07_array_constructors.

(** push_back of one of the array's own elements reads freed memory whenever
    the storage has to grow. *)
Theorem C07_push_own_refuted : forall (A : Type) (x : A),
  exists a, run empty [OPush x] = Some a /\ step a (OPushOwn 0) = None.
Proof. intros A x. eexists. split; vm_compute; reflexivity. Qed.
Print Assumptions C07_push_own_refuted.

Example C07_nonvacuous :
  let ops := [OPush 1; OPush 2; OPush 3; OPushOwn 0; OInsert 1 9; OInsertN 0 2 7; OErase 2; OPop;
              OResize 6 5; OSet 0 8; OInsertR 3 [4; 4]; OAssign [1; 2; 3]; OResize 5 0] in
  fits [] ops /\ spec_run [] ops = Some [1; 2; 3; 0; 0].
Proof. cbv zeta. split; [|reflexivity]. cbn. repeat split; lia. Qed.

(** C08: exact effect of erase(first,last) on any represented array: for every
    non-empty range the elements after the FIRST erased one are kept. *)
Theorem C08_erase_range_effect : forall (A : Type) (ops : list (op A)) l a d e,
  fits [] ops -> spec_run [] ops = Some l -> run empty ops = Some a ->
  d < e -> e <= length l ->
  exists a', erase_range a d e = Some a' /\
    content a' = map (fun x => Some (Some x)) (firstn d l ++ firstn (length l - e) (skipn (S d) l)).
Proof.
  intros A ops l a d e F E R Hd He.
  destruct (rep_run ops empty [] l rep_empty F E) as (a0 & R0 & H). rewrite R in R0. inversion R0; subst a0.
  destruct (rep_erase_range a l d e H Hd He) as (a' & E' & H'). exists a'. split; [exact E'|].
  now apply rep_content.
Qed.
Print Assumptions C08_erase_range_effect.

(** Hence it is right for ranges of length one and for ranges up to the end. *)
Theorem C08_erase_range_right : forall (A : Type) (ops : list (op A)) l a d e,
  fits [] ops -> spec_run [] ops = Some l -> run empty ops = Some a ->
  d < e -> e <= length l -> e = S d \/ e = length l ->
  exists a', erase_range a d e = Some a' /\
    content a' = map (fun x => Some (Some x)) (firstn d l ++ skipn e l).
Proof.
  intros A ops l a d e F E R Hd He C.
  destruct (C08_erase_range_effect A ops l a d e F E R Hd He) as (a' & E' & K).
  exists a'. split; [exact E'|]. rewrite K. do 2 f_equal. destruct C as [->|C].
  - apply firstn_all2. rewrite skipn_length. lia.
  - subst e. rewrite Nat.sub_diag, skipn_all. reflexivity.
Qed.
Print Assumptions C08_erase_range_right.

(** ... and wrong otherwise: erasing [2;3] from [1;2;3;4;5] leaves [1;3;4]. *)
Theorem C08_erase_range_refuted : exists a a',
  run empty [OAssign [1; 2; 3; 4; 5]] = Some a /\ erase_range a 1 3 = Some a' /\
  content a' = map (fun x => Some (Some x)) [1; 3; 4] /\
  content a' <> map (fun x => Some (Some x)) [1; 4; 5].
Proof.
  do 2 eexists. split; [vm_compute; reflexivity|]. split; [vm_compute; reflexivity|].
  split; [vm_compute; reflexivity|]. vm_compute. discriminate.
Qed.
Print Assumptions C08_erase_range_refuted.

(** An empty range (which must change nothing) reads outside of a full buffer. *)
Theorem C08_erase_empty_range_refuted : exists a : arr nat,
  run empty [OAssign [1; 2; 3; 4]] = Some a /\ erase_range a 1 1 = None.
Proof. eexists. split; vm_compute; reflexivity. Qed.
Print Assumptions C08_erase_empty_range_refuted.

(** C09: replace of [d,e) by xs is right exactly when there is no tail, or the
    array does not shrink, or it keeps the same power-of-two storage; otherwise
    it reads outside of the new buffer. *)
Theorem C09_replace_exact : forall (A : Type) (ops : list (op A)) l a d e xs,
  fits [] ops -> spec_run [] ops = Some l -> run empty ops = Some a ->
  d <= e -> e <= length l -> (N.of_nat (length l + length xs) <= 2 ^ 31)%N ->
  (replace_safe (length l) d e (length xs) ->
     exists a', replace a d e xs = Some a' /\
       content a' = map (fun x => Some (Some x)) (firstn d l ++ xs ++ skipn e l)) /\
  (~ replace_safe (length l) d e (length xs) -> replace a d e xs = None).
Proof.
  intros A ops l a d e xs F E R Hd He Sm.
  destruct (rep_run ops empty [] l rep_empty F E) as (a0 & R0 & H). rewrite R in R0. inversion R0; subst a0.
  split; intros S.
  - destruct (rep_replace a l d e xs H Hd He) as (a' & E' & H'); auto.
    + unfold small. lia.
    + exists a'. split; [exact E'|]. now apply rep_content.
  - eapply replace_unsafe; eauto.
Qed.
Print Assumptions C09_replace_exact.

Theorem C09_assign : forall (A : Type) (ops : list (op A)) l a xs,
  fits [] ops -> spec_run [] ops = Some l -> run empty ops = Some a ->
  (N.of_nat (length xs) <= 2 ^ 31)%N ->
  exists a', assign a xs = Some a' /\ content a' = map (fun x => Some (Some x)) xs.
Proof.
  intros A ops l a xs F E R Sm.
  destruct (rep_run ops empty [] l rep_empty F E) as (a0 & R0 & H). rewrite R in R0. inversion R0; subst a0.
  destruct (rep_assign a l xs H Sm) as (a' & E' & H'). exists a'. split; [exact E'|]. now apply rep_content.
Qed.
Print Assumptions C09_assign.

(** A user-level witness: replacing two of five elements by one. *)
Theorem C09_replace_shrink_refuted : exists a : arr nat,
  run empty [OAssign [1; 2; 3; 4; 5]] = Some a /\ replace a 0 2 [9] = None.
Proof. eexists. split; vm_compute; reflexivity. Qed.
Print Assumptions C09_replace_shrink_refuted.

Example C09_nonvacuous : replace_safe 8 1 3 1 /\ ~ replace_safe 5 0 2 1.
Proof. split; [right; left; reflexivity|]. intros [H|[H|H]]; [lia| |lia]. vm_compute in H. lia. Qed.
