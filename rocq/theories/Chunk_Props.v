(** Property C10. *)
From Coq Require Import List Bool Lia Arith.
From Verif Require Import Util Chunk_Model Chunk_Proofs.
Import ListNotations.

(** C10: any history of push_back (also of an own element), pop_back, resize,
    clear, writes and erase that is legal on an ideal sequence runs without
    touching memory outside of a chunk and shows the ideal sequence. *)
Theorem C10_chunk_is_sequence : forall (A : Type) (bits : nat) (ops : list (op A)) (l : list A),
  spec_run [] ops = Some l ->
  exists a, run bits empty ops = Some a /\ m_size a = length l /\
            content bits a = map (fun x => Some (Some x)) l.
Proof.
  intros A bits ops l E. destruct (rep_run bits ops empty [] l (rep_empty bits) E) as (a & R & H).
  exists a. split; [exact R|]. split; [apply H|]. now apply rep_content.
Qed.
Print Assumptions C10_chunk_is_sequence.

(** References stay valid: no call except clear moves an element that is in
    range before and after the call; the element has an address at all. *)
Theorem C10_addresses_stable : forall (A : Type) (bits : nat) (ops : list (op A)) a o a',
  run bits empty ops = Some a -> (exists l, spec_run [] ops = Some l) ->
  (exists l, spec_run [] (ops ++ [o]) = Some l) -> step bits a o = Some a' -> o <> OClear ->
  forall k, k < m_size a -> k < m_size a' ->
  address bits a' k = address bits a k /\ address bits a k <> None.
Proof.
  intros A bits ops a o a' R (l & E) (l2 & E2) S NC k K1 K2.
  destruct (rep_run bits ops empty [] l (rep_empty bits) E) as (b & R' & H).
  rewrite R in R'. injection R' as <-.
  assert (spec_step l o = Some l2) as ES.
  { clear - E E2. revert E E2. generalize (@nil A) as l0. induction ops as [|p ops IH]; intros l0 E E2; cbn in *.
    - injection E as <-. destruct (spec_step l0 o); congruence.
    - destruct (spec_step l0 p); [|discriminate]. eauto. }
  destruct (rep_step bits a l o l2 H ES) as (b & S' & H' & ST). rewrite S in S'. injection S' as <-.
  split.
  - apply (ST NC). rewrite <- (proj1 H), <- (proj1 H'). lia.
  - destruct H as (Sz & ST0 & _). rewrite Sz in K1.
    destruct (chunk_of bits _ _ k ST0 K1) as (ad & cells & G & _). unfold address. rewrite G. discriminate.
Qed.
Print Assumptions C10_addresses_stable.

(** Copy construction and assignment show the content of the source. *)
Theorem C10_chunk_copies : forall (A : Type) (bits : nat) (ops ops2 : list (op A)) l l2 a a2,
  spec_run [] ops = Some l -> run bits empty ops = Some a ->
  spec_run [] ops2 = Some l2 -> run bits empty ops2 = Some a2 ->
  (exists c, copy_ctor bits a = Some c /\ content bits c = content bits a) /\
  (exists c, assign_op bits a2 a = Some c /\ content bits c = content bits a).
Proof.
  intros A bits ops ops2 l l2 a a2 E R E2 R2.
  destruct (rep_run bits ops empty [] l (rep_empty bits) E) as (a' & R' & H).
  destruct (rep_run bits ops2 empty [] l2 (rep_empty bits) E2) as (a2' & R2' & H2).
  rewrite R in R'. injection R' as <-. rewrite R2 in R2'. injection R2' as <-.
  rewrite (rep_content bits a l H). split.
  - destruct (rep_copy_ctor bits a l H) as (c & C & HC). exists c. split; [exact C|]. now apply rep_content.
  - destruct (rep_assign_op bits a2 l2 a l H2 H) as (c & C & HC). exists c. split; [exact C|]. now apply rep_content.
Qed.
Print Assumptions C10_chunk_copies.

Example C10_nonvacuous :
  let ops := [OPush 1; OPush 2; OPushOwn 0; OResize 6 5; OErase 1; OSet 0 8; OPop; OResize 300 0; OResize 5 1; OPush 4] in
  spec_run [] ops = Some [8; 1; 5; 5; 0; 4].
Proof. vm_compute. reflexivity. Qed.
Example C10_nonvacuous_address :
  option_map (fun a => (address 1 a 0, address 1 a 3)) (run 1 empty [OResize 300 7]) = Some (Some (0, 0), Some (1, 1)).
Proof. vm_compute. reflexivity. Qed.
