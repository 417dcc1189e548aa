(** Properties C69-C72: what ExchangeData and ReduceData put into a message and
    what the receiver makes of it. *)
From Coq Require Import List Bool Arith ZArith NArith Lia.
From Verif Require Import Util Handle_Model Handle_Proofs Pack_Model Pack_Spec Pack_Proofs.
Import ListNotations.
Open Scope nat_scope.

(** ** C69: arrays and vectors in a buffer *)

Theorem C69_array_roundtrip : forall limit w xs pre post,
  0 < w <= limit -> Forall (fits w) xs ->
  unpack_array limit w (length xs) (pre ++ pack_array limit w xs ++ post) (length pre) =
  Some (xs, length pre + length (pack_array limit w xs)).
Proof.
  intros. rewrite pack_array_spec by assumption.
  rewrite unpack_array_spec by auto. now rewrite encs_len.
Qed.

Theorem C69_vector_roundtrip : forall limit w xs pre post,
  0 < w <= limit -> Forall (fits w) xs -> fits 8 (N.of_nat (length xs)) ->
  unpack_vector limit w (pre ++ pack_vector limit w xs ++ post) (length pre) =
  Some (xs, length pre + length (pack_vector limit w xs)).
Proof. intros. now apply unpack_vector_spec. Qed.

(** the buffer does not depend on where it is cut into calls of MPI_Pack *)
Theorem C69_bytes_independent_of_limit : forall limit1 limit2 w xs,
  0 < w <= limit1 -> 0 < w <= limit2 ->
  pack_array limit1 w xs = pack_array limit2 w xs /\ pack_vector limit1 w xs = pack_vector limit2 w xs.
Proof. intros. now rewrite !pack_array_spec, !pack_vector_spec. Qed.

(** the sizes told in advance are exact and no call handles more than INT_MAX bytes *)
Theorem C69_sizes_exact : forall limit w xs, 0 < w <= limit ->
  length (pack_array limit w xs) = pack_array_size limit w (length xs) /\
  length (pack_vector limit w xs) = pack_vector_size limit w (length xs) /\
  chunk_len limit w (length xs) * w <= limit.
Proof.
  intros limit w xs H.
  rewrite pack_array_spec, pack_vector_spec, array_size_spec, vector_size_spec by assumption.
  rewrite app_length, encs_len, enc_len. do 2 (split; [reflexivity|]).
  unfold chunk_len. pose proof (Nat.mul_div_le (Nat.min (w * length xs) limit) w ltac:(lia)). lia.
Qed.

Example C69_nonvacuous :
  pack_vector 10 4 [258; 3; 70000]%N =
    ([3;0;0;0;0;0;0;0] ++ [2;1;0;0] ++ [3;0;0;0] ++ [112;17;1;0])%N /\
  chunk_len 10 4 3 = 2 /\
  unpack_vector 10 4 ([9;9] ++ pack_vector 10 4 [258; 3; 70000] ++ [5])%N 2 = Some ([258; 3; 70000]%N, 22).
Proof. vm_compute. auto. Qed.

(** ** C70: one message carries the data of all tags *)

Theorem C70_pack_succeeds : forall we pad limit valid ppos sel mask E ts,
  8 <= limit ->
  Forall (fun p => sender_ok we (snd p) sel (fst p) mask E) ts ->
  exists m, pack_tags we pad limit valid ppos sel ts mask E = Some m.
Proof.
  intros we pad limit valid ppos sel mask E ts Hl H.
  exact (pack_tags_ok we pad limit Hl valid ppos [] sel sel mask E ts H).
Qed.

(** Whatever the operation, the receiver applies it exactly to the entries of
    selected elements of the sender that have any, in order, on its own elements
    at the same places, with references translated; it defines the tag where it
    was not defined and stops exactly at the end of the message. *)
Theorem C70_message_roundtrip : forall we pad limit valid ppos unpacked sel rsel mask E F
    (St : Type) (op : nat -> St -> Z -> list N -> nat -> option St) create l m pre post s,
  layout (hbits we) -> 8 <= limit ->
  refs_ok we valid ppos unpacked -> same_lists sel rsel E F ->
  Forall (fun p => sender_ok we (snd (fst p)) sel (fst (fst p)) mask E /\
                   same_tag (fst (fst p)) (snd p) mask) l ->
  pack_tags we pad limit valid ppos sel (map fst l) mask E = Some m ->
  fits 8 (N.of_nat (length m)) ->
  unpack_tags we pad limit St rsel unpacked op create (map snd l) F (pre ++ m ++ post) (length pre) s =
  match run we pad St op create
     (flat_map (fun p => tag_events (tr_val we valid ppos unpacked) sel (snd (fst p)) (fst (fst p)) (snd p) mask E F) l) s with
  | Some s' => Some (map (fun p => after mask (fst (fst p)) (snd p) (seq 0 6)) l, s', length pre + length m)
  | None => None
  end.
Proof. intros. now apply unpack_tags_spec. Qed.

(** the tag of the receiver afterwards *)
Theorem C70_tag_after : forall t rt mask i, same_tag t rt mask -> i < 6 ->
  let a := after mask t rt (seq 0 6) in
  tname a = tname rt /\ tkind a = tkind rt /\ tsize a = tsize rt /\ tbytes a = tbytes rt /\
  defined a i = defined rt i || came t mask i /\
  (defined rt i = true -> sparse a i = sparse rt i) /\
  (defined rt i = false -> came t mask i = true -> sparse a i = sparse t i).
Proof.
  intros t rt mask i (A & B & C & D & G & H) Li a.
  destruct (after_spec 4 8 (le_n 8) (fun _ => true) (fun _ => None) [] (fun _ => true) (fun _ => None)
    (fun _ => true) mask t rt (seq 0 6)) as (X & Y & W);
    [unfold like; auto|apply seq_NoDup|apply seq6|].
  destruct X as (X1 & X2 & X3 & _). destruct (W i) as [W0 W1].
  assert (existsb (Nat.eqb i) (seq 0 6) = true) as Ex.
  { apply existsb_exists. exists i. split; [apply in_seq; lia|apply Nat.eqb_refl]. }
  rewrite Ex in W0, W1. cbn [andb] in W0, W1. fold a in X1, X2, X3, Y, W0, W1.
  split; [exact Y|]. do 3 (split; [congruence|]). split; [exact W0|]. split.
  - intros Hd. rewrite W1, Hd. cbn. now rewrite andb_false_r.
  - intros Hd Hc. now rewrite W1, Hd, Hc.
Qed.

(** ** C71: exchange with the default operation *)

Theorem C71_exchange : forall we pad limit valid ppos unpacked sel rsel mask E F tag dim create l m d,
  layout (hbits we) -> 8 <= limit ->
  refs_ok we valid ppos unpacked -> same_lists sel rsel E F ->
  (forall i, i < 6 -> NoDup (nth i F [])) ->
  (forall i j x, i < 6 -> j < 6 -> i <> j -> In x (nth i F []) -> ~ In x (nth j F [])) ->
  Forall (fun p => sender_ok we (snd (fst p)) sel (fst (fst p)) mask E /\
                   same_tag (fst (fst p)) (snd p) mask /\
                   (forall i, i < 6 -> came (fst (fst p)) mask i = true -> defined (snd p) i = true) /\
                   tag (tname (snd p)) = snd p) l ->
  NoDup (map (fun p => tname (snd p)) l) ->
  pack_tags we pad limit valid ppos sel (map fst l) mask E = Some m -> fits 8 (N.of_nat (length m)) ->
  exists d' ts',
    unpack_tags we pad limit _ rsel unpacked (default_unpack we pad tag dim) create (map snd l) F m 0 d =
      Some (ts', d', length m) /\
    (* an element holds what its counterpart holds, if that is anything *)
    (forall p i j e f, In p l -> i < 6 -> came (fst (fst p)) mask i = true ->
       nth_error (nth i E []) j = Some e -> nth_error (nth i F []) j = Some f ->
       d' (tname (snd p)) f =
         match (if sel e then snd (fst p) e else None) with
         | Some (v :: vs) => Some (map (tr_val we valid ppos unpacked) (v :: vs))
         | _ => d (tname (snd p)) f
         end) /\
    (* everything else is as before *)
    (forall n x, (forall p i, In p l -> tname (snd p) = n -> i < 6 -> came (fst (fst p)) mask i = true ->
                     ~ In x (nth i F [])) -> d' n x = d n x).
Proof.
  intros we pad limit valid ppos unpacked sel rsel mask E F tag dim create l m d Hw Hlim Hr Hl HF HD Hok ND Hp Hf.
  destruct (exchange_spec we pad limit Hw Hlim valid ppos unpacked Hr sel rsel mask E F tag dim create Hl HF HD
    l m d [] [] Hok ND Hp Hf) as (d' & ts' & A & B & C).
  cbn [app length] in A. rewrite app_nil_r in A.
  exists d', ts'. split; [exact A|]. split; [|exact C].
  intros p i j e f Hin Hi Hc He Hf2. rewrite (B p i j e f) by assumption. unfold expected.
  destruct (sel e); [|reflexivity]. destruct (snd (fst p) e) as [[|]|]; reflexivity.
Qed.

(** "afterwards a ghost holds what the owner holds" is true exactly when the owner
    holds something or the two already agreed: an owner without data, or with an
    empty array, leaves the old data of its ghosts *)
Theorem C71_agrees_iff : forall (trv : value -> value) (owner old new : option (list value)),
  new = match owner with Some (v :: vs) => Some (map trv (v :: vs)) | _ => old end ->
  (new = option_map (map trv) owner <->
   (exists v vs, owner = Some (v :: vs)) \/ old = option_map (map trv) owner).
Proof.
  intros trv owner old new ->. destruct owner as [[|v vs]|]; cbn.
  - split; [auto|]. intros [(v & vs & H)|H]; [discriminate|exact H].
  - split; [|auto]. intros _. left. eauto.
  - split; [auto|]. intros [(v & vs & H)|H]; [discriminate|exact H].
Qed.

(** concrete exchanges; handles of 32 bits, three cells on each side *)
Definition cell (k : Z) : Z := ComposeHandleNum 32 3 k.
Definition exE : list (list Z) := [[]; []; []; [cell 0; cell 1; cell 2]; []; []].
Definition exF : list (list Z) := [[]; []; []; [cell 5; cell 1; cell 9]; []; []].
Definition on_cells : list bool := [false; false; false; true; false; false].
Definition nowhere : list bool := [false; false; false; false; false; false].
Definition ex_all (_ : Z) : bool := true.
Definition ex_pos (h : Z) : option Z := if (h =? cell 2)%Z then Some 2%Z else None.
(** tag 0: bulk, any size, sparse; tag 1: one reference, dense; tag 2: one
    variable, dense *)
Definition ex_t0 := Tagd 0 Plain None 1 on_cells on_cells.
Definition ex_t1 := Tagd 1 Ref (Some 1) 4 on_cells nowhere.
Definition ex_t2 := Tagd 2 Var (Some 1) 16 on_cells nowhere.
Definition ex_d0 (h : Z) : option (list value) :=
  if (h =? cell 0)%Z then Some [VB [7%N]; VB [8%N]] else if (h =? cell 2)%Z then Some [] else None.
Definition ex_d1 (h : Z) : option (list value) :=
  Some [if (h =? cell 0)%Z then VR (cell 2) else VR (cell 0)].
Definition ex_d2 (h : Z) : option (list value) :=
  Some [VV [1;2;3;4;5;6;7;8]%N (if (h =? cell 1)%Z then [(12%N, [8;7;6;5;4;3;2;1]%N)] else [])].
Definition ex_l := [(ex_t0, ex_d0, ex_t0); (ex_t1, ex_d1, ex_t1); (ex_t2, ex_d2, ex_t2)].
Definition ex_tag (n : nat) : tagd := nth n [ex_t0; ex_t1; ex_t2] ex_t0.
Definition ex_old (n : nat) (x : Z) : option (list value) :=
  if (n =? 0) && (x =? cell 9)%Z then Some [VB [99%N]] else None.
Definition no_create (n i : nat) (sp : bool) (d : nat -> Z -> option (list value)) := d.

Lemma ex_cases : forall e, In e (nth 3 exE []) -> e = cell 0 \/ e = cell 1 \/ e = cell 2.
Proof. intros e [<-|[<-|[<-|[]]]]; auto. Qed.

Ltac six i := destruct i as [|[|[|[|[|[|]]]]]]; [| | | | | |exfalso; lia].

Lemma ex_sender : Forall (fun p => sender_ok 4 (snd (fst p)) ex_all (fst (fst p)) CELL exE /\
                   same_tag (fst (fst p)) (snd p) CELL /\
                   (forall i, i < 6 -> came (fst (fst p)) CELL i = true -> defined (snd p) i = true) /\
                   ex_tag (tname (snd p)) = snd p) ex_l.
Proof.
  assert (forall i, i < 6 -> fits 4 (N.of_nat (length (nth i exE [])))) as FE.
  { intros i Hi. six i; vm_compute; reflexivity. }
  apply Forall_forall. intros p [<-|[<-|[<-|[]]]]; cbn [fst snd];
  (split; [split; [discriminate|split; [|exact FE]]|split; [|split; [|reflexivity]]]).
  all: try (intros i Hi Hc; six i; try discriminate Hc; reflexivity).
  all: try (do 5 (split; [reflexivity|]); intros i Hi Hc _; six i; try discriminate Hc; reflexivity).
  all: intros i e Hi Hc He _; six i; try discriminate Hc;
    destruct (ex_cases e He) as [->|[->| ->]]; cbn; auto; split; repeat constructor; vm_compute; auto.
Qed.

Lemma ex_refs : refs_ok 4 ex_all ex_pos exF.
Proof.
  intros h p _ H. unfold ex_pos in H. destruct (Z.eqb_spec h (cell 2)) as [->|]; [|discriminate].
  injection H as <-. vm_compute. repeat split; discriminate || lia.
Qed.
Lemma ex_lists : same_lists ex_all ex_all exE exF.
Proof. intros i Hi. six i; cbn; repeat constructor. Qed.

(** the sparse array of cell 0 arrives at cell 5; the reference to cell 2 becomes
    a reference to cell 9, the reference to cell 0 is not packed; the empty array
    of cell 2 leaves the old array of cell 9 *)
Example C71_exchange_nonvacuous :
  exists m d' ts',
  pack_tags 4 4 1000 ex_all ex_pos ex_all (map fst ex_l) CELL exE = Some m /\
  unpack_tags 4 4 1000 _ ex_all exF (default_unpack 4 4 ex_tag (fun _ => 3)) no_create
    (map snd ex_l) exF m 0 ex_old = Some (ts', d', length m) /\
  map (d' 0) [cell 5; cell 1; cell 9] = [Some [VB [7%N]; VB [8%N]]; None; Some [VB [99%N]]] /\
  map (d' 1) [cell 5; cell 1; cell 9] = [Some [VR (cell 9)]; Some [VR 0%Z]; Some [VR 0%Z]] /\
  d' 2 (cell 1) = Some [VV [1;2;3;4;5;6;7;8]%N [(12%N, [8;7;6;5;4;3;2;1]%N)]] /\
  ex_d0 (cell 2) = Some [] /\ length m = 152.
Proof.
  eexists _, _, _. split; [vm_compute; reflexivity|]. split; [vm_compute; reflexivity|].
  vm_compute. repeat split.
Qed.

(** hence "a ghost holds what its owner holds" fails *)
Theorem C71_ghost_equals_owner_refuted :
  ~ (forall l m d,
     Forall (fun p => sender_ok 4 (snd (fst p)) ex_all (fst (fst p)) CELL exE /\
                   same_tag (fst (fst p)) (snd p) CELL /\
                   (forall i, i < 6 -> came (fst (fst p)) CELL i = true -> defined (snd p) i = true) /\
                   ex_tag (tname (snd p)) = snd p) l ->
     pack_tags 4 4 1000 ex_all ex_pos ex_all (map fst l) CELL exE = Some m ->
     forall d' ts' q, unpack_tags 4 4 1000 _ ex_all exF (default_unpack 4 4 ex_tag (fun _ => 3)) no_create
       (map snd l) exF m 0 d = Some (ts', d', q) ->
     forall p j e f, In p l -> nth_error (nth 3 exE []) j = Some e -> nth_error (nth 3 exF []) j = Some f ->
       d' (tname (snd p)) f = option_map (map (tr_val 4 ex_all ex_pos exF)) (snd (fst p) e)).
Proof.
  intros H. destruct C71_exchange_nonvacuous as (m & d' & ts' & A & B & C & _).
  specialize (H ex_l m ex_old ex_sender A d' ts' _ B (ex_t0, ex_d0, ex_t0) 2 (cell 2) (cell 9)
    (or_introl eq_refl) eq_refl eq_refl).
  cbn [map fst snd] in C. injection C as _ _ C. change (tname (snd (ex_t0, ex_d0, ex_t0))) with 0 in H.
  rewrite C in H. vm_compute in H. discriminate.
Qed.

(** a tag of remote references packs nothing but its unpacking consumes the
    message of the next tag, whose own unpacking then runs past the end *)
Theorem C71_remote_reference_refuted : forall we pad limit valid ppos sel rsel mask E F
    (St : Type) op create unpacked t d rr rt m s dr,
  layout (hbits we) -> 8 <= limit ->
  sender_ok we d sel t mask E -> tkind rr = Remote ->
  pack_tags we pad limit valid ppos sel [(rr, dr); (t, d)] mask E = Some m ->
  fits 8 (N.of_nat (length m)) ->
  pack_tags we pad limit valid ppos sel [(t, d)] mask E = Some m /\
  unpack_tags we pad limit St rsel unpacked op create [rr; rt] F m 0 s = None.
Proof.
  intros we pad limit valid ppos sel rsel mask E F St op create unpacked t d rr rt m s dr Hw Hl Hs Kr Hp Hf.
  assert (pack_tags we pad limit valid ppos sel [(t, d)] mask E = Some m) as Hp1.
  { cbn [pack_tags] in *. unfold pack_tag at 1 in Hp. rewrite Kr in Hp.
    destruct (pack_tag we pad limit valid ppos sel d t mask E); [exact Hp|discriminate]. }
  split; [exact Hp1|].
  cbn [pack_tags] in Hp1.
  destruct (pack_tag we pad limit valid ppos sel d t mask E) as [a|] eqn:Pa; [|discriminate].
  rewrite app_nil_r in Hp1. injection Hp1 as ->.
  destruct (pack_tag_spec we pad limit Hl valid ppos [] sel d sel mask E t Hs) as (m0 & m1 & A & R0 & R1 & _).
  rewrite A in Pa. injection Pa as <-.
  assert (forall t' s', exists r, unpack_tag we pad limit St rsel unpacked op create t' F
            (message we pad limit valid ppos sel d mask E t m0 m1) 0 s' =
          match r with Some (x, y) => Some (x, y, length (message we pad limit valid ppos sel d mask E t m0 m1)) | None => None end) as U.
  { intros t' s'. exact (unpack_tag_position we pad limit Hw Hl valid ppos [] sel d St rsel op create mask E F unpacked t t' m0 m1 s' Hs R0 R1 Hf). }
  cbn [unpack_tags]. destruct (U rr s) as [[[x y]|] ->]; [|reflexivity].
  unfold unpack_tag at 1.
  set (M := message we pad limit valid ppos sel d mask E t m0 m1) in *.
  destruct (Nat.eqb_spec (length M) 0) as [Z0|_].
  { exfalso. revert Z0. unfold M, message. rewrite app_length, encs_len. cbn [length]. lia. }
  assert (unpack_array limit 1 2 M (length M) = None) as ->; [|reflexivity].
  unfold unpack_array. cbn [Nat.eqb]. unfold unpack_loop. cbn [Nat.eqb].
  destruct (Nat.min (chunk_len limit 1 2) (2 - 0)) eqn:Em.
  - exfalso. pose proof (chunk_pos limit 1 2). lia.
  - rewrite skipn_all. reflexivity.
Qed.

Example C71_remote_nonvacuous :
  let rr := Tagd 7 Remote (Some 1) 16 on_cells nowhere in
  exists m, pack_tags 4 4 1000 ex_all ex_pos ex_all [(rr, ex_d1); (ex_t0, ex_d0)] CELL exE = Some m /\
    length m = 40.
Proof. eexists. split; [vm_compute; reflexivity|]. vm_compute. reflexivity. Qed.

(** a tag sparse at the sender and dense at the receiver: the positions are read
    as sizes and the data lands on other elements *)
Theorem C71_sparse_mismatch_refuted :
  exists t rt d m ts' d',
    tkind rt = tkind t /\ tsize rt = tsize t /\ tbytes rt = tbytes t /\
    sender_ok 4 d ex_all t CELL [[]; []; []; [cell 0; cell 1]; []; []] /\
    pack_tags 4 4 1000 ex_all ex_pos ex_all [(t, d)] CELL [[]; []; []; [cell 0; cell 1]; []; []] = Some m /\
    unpack_tags 4 4 1000 _ ex_all exF (default_unpack 4 4 (fun _ => rt) (fun _ => 3)) no_create
      [rt] [[]; []; []; [cell 5; cell 6]; []; []] m 0 (fun _ _ => Some []) = Some (ts', d', length m) /\
    d (cell 0) = None /\ d (cell 1) = Some [VB [7%N]; VB [8%N]] /\
    d' 0 (cell 5) = Some [VB [7%N]] /\ d' 0 (cell 6) = Some [VB [8%N]].
Proof.
  exists ex_t0, (Tagd 0 Plain None 1 on_cells nowhere),
    (fun h => if (h =? cell 1)%Z then Some [VB [7%N]; VB [8%N]] else None).
  eexists _, _, _. do 3 (split; [reflexivity|]). split.
  { split; [discriminate|]. split.
    - intros i e Hi Hc He _. six i; try discriminate Hc.
      destruct He as [<-|[<-|[]]]; cbn; auto. split; repeat constructor; vm_compute; auto.
    - intros i Hi. six i; vm_compute; reflexivity. }
  split; [vm_compute; reflexivity|]. split; [vm_compute; reflexivity|].
  vm_compute. repeat split.
Qed.

(** ** C72: the receive buffer *)

(** for tags of a fixed size the receiver reserves enough bytes, counting its own
    elements, and it expects a message exactly when one is sent *)
Theorem C72_receive_buffer : forall we pad limit valid ppos sel rsel mask E F ts m,
  layout (hbits we) -> 8 <= limit ->
  Forall (fun p => sender_ok we (snd p) sel (fst p) mask E) ts ->
  Forall (fun p : tagd * (Z -> option (list value)) => tkind (fst p) = Plain /\ tsize (fst p) <> None) ts ->
  same_lists sel rsel E F -> nth 5 E [] = [] ->
  pack_tags we pad limit valid ppos sel ts mask E = Some m ->
  length m <= recv_size we limit (map fst ts) (count_elems rsel mask F) /\
  count_elems rsel mask F = count_elems sel mask E.
Proof.
  intros we pad limit valid ppos sel rsel mask E F ts m Hw Hl Hs HK HL E5 Hp.
  assert (count_elems rsel mask F = count_elems sel mask E) as Ec.
  { unfold count_elems.
    assert (forall i, i < 6 -> length (filter rsel (nth i F [])) = length (filter sel (nth i E []))) as Q.
    { intros i Hi. induction (HL i Hi) as [|e f es fs Hef _ IH]; [reflexivity|].
      cbn [filter]. rewrite <- Hef. destruct (sel e); cbn [length]; auto. }
    cbn [seq fold_right]. rewrite !Q by lia. reflexivity. }
  split; [|exact Ec]. rewrite Ec.
  exact (messages_len we pad limit Hw Hl valid ppos [] sel sel mask E unit (fun _ _ _ _ _ => None)
    (fun _ _ _ s => s) ts m Hs HK E5 Hp).
Qed.

Example C72_nonvacuous :
  let t := Tagd 0 Plain (Some 2) 1 on_cells on_cells in
  let d := fun h => if (h =? cell 1)%Z then None else Some [VB [7%N]; VB [8%N]] in
  exists m, pack_tags 4 4 1000 ex_all ex_pos ex_all [(t, d)] CELL exE = Some m /\
    length m = 34 /\ count_elems ex_all CELL exF = 3 /\ recv_size 4 1000 [t] 3 = 72.
Proof. eexists. split; [vm_compute; reflexivity|]. vm_compute. auto. Qed.

Print Assumptions C69_array_roundtrip.
Print Assumptions C69_vector_roundtrip.
Print Assumptions C69_bytes_independent_of_limit.
Print Assumptions C69_sizes_exact.
Print Assumptions C70_pack_succeeds.
Print Assumptions C70_message_roundtrip.
Print Assumptions C70_tag_after.
Print Assumptions C71_exchange.
Print Assumptions C71_agrees_iff.
Print Assumptions C71_ghost_equals_owner_refuted.
Print Assumptions C71_remote_reference_refuted.
Print Assumptions C71_sparse_mismatch_refuted.
Print Assumptions C72_receive_buffer.
