(** Properties of the distributed mesh (C73-C79). *)
From Coq Require Import List Bool Arith ZArith Lia Permutation Sorted.
From Verif Require Import Util Algo Par_Model Par_Spec Par_Proofs Par2_Proofs.
Import ListNotations.

(** * A mesh on three processes *)
Definition ex_world : world :=
  [ [Elem 10 SShared 0 [0;1;2]; Elem 11 SOwned 0 [0]; Elem 12 SGhost 1 [0;1]; Elem 9 SShared 0 [0;1]];
    [Elem 12 SShared 1 [0;1]; Elem 9 SGhost 0 [0;1]; Elem 10 SGhost 0 [0;1;2]; Elem 20 SOwned 1 [1]];
    [Elem 10 SGhost 0 [0;1;2]; Elem 30 SAny 2 []] ].
Definition ex_order (q : nat) : list nat :=
  match q with 0 => [2;1] | 1 => [0;2] | 2 => [1;0] | _ => [] end.

Lemma ex_at : forall p i e, at_ ex_world p i e -> In (p, i, e)
  (flat_map (fun pl => map (fun ie => (fst pl, fst ie, snd ie)) (indexed (snd pl))) (indexed ex_world)).
Proof.
  intros p i e H. apply in_flat_map. unfold at_, elems in H.
  destruct (nth_error ex_world p) as [l|] eqn:E.
  - rewrite (nth_error_nth _ _ [] E) in H. exists (p, l). split; [apply in_indexed, E|].
    cbn [fst snd]. apply in_map_iff. exists (i, e). split; auto. apply in_indexed, H.
  - apply nth_error_None in E. rewrite nth_overflow in H by auto. destruct i; discriminate.
Qed.
Ltac ex_cases H := apply ex_at in H; cbn in H;
  repeat (destruct H as [H|H]; [injection H as <- <- <-|]); try (destruct H; fail).
Lemma ex_consistent : consistent ex_world.
Proof.
  constructor.
  - intros p. unfold elems. destruct p as [|[|[|p]]]; cbn; [| | |destruct p; constructor].
    all: repeat (constructor; [cbn; intuition lia|]); constructor.
  - intros p i e H Hs. ex_cases H; try discriminate Hs.
    all: (split; [repeat (constructor; [cbn; intuition lia|]); constructor|]).
    all: cbn; intros q Hq; intuition lia.
  - intros p i e H Hs. ex_cases H; try discriminate Hs; cbn; lia.
  - intros p i e q H Hs Hq Nq. ex_cases H; try discriminate Hs; cbn in Hq.
    all: repeat (destruct Hq as [<-|Hq]); try (destruct Hq; fail); try (exfalso; apply Nq; reflexivity).
    + exists 2. eexists. repeat split.
    + exists 0. eexists. repeat split.
    + exists 1. eexists. repeat split.
    + exists 2. eexists. repeat split.
  - intros q j f H Hs. ex_cases H; try discriminate Hs; cbn [eowner].
    + exists 0. eexists. repeat split; cbn; auto.
    + exists 3. eexists. repeat split; cbn; auto.
    + exists 0. eexists. repeat split; cbn; auto.
    + exists 0. eexists. repeat split; cbn; auto.
Qed.
Lemma ex_arrivals : arrivals ex_world ex_order.
Proof.
  intros q Hq. cbn [length ex_world] in *.
  destruct q as [|[|[|q]]]; [| | |lia]; cbn [ex_order].
  all: split; [repeat (constructor; [cbn; intuition lia|]); constructor|].
  all: intros p; cbn [In]; split; [intuition lia|]; intros [H1 H2]; lia.
Qed.
Lemma ex_separate : separate ex_world.
Proof.
  intros p q i j e f He Hf Ne Nf E. ex_cases He; ex_cases Hf; cbn in *; try lia; congruence.
Qed.

(** * C73: ExchangeData *)

(** After ExchangeData every ghost holds the data of the element of its owner (when the owner
    has data), and nothing else changes.  The order of arrival of the messages is irrelevant. *)
Theorem C73_exchange : forall D w order (d : nat -> nat -> option D), consistent w -> arrivals w order ->
  (forall q j f, at_ w q j f -> estat f = SGhost ->
     exists i e, at_ w (eowner f) i e /\ estat e = SShared /\ ekey e = ekey f /\
       ExchangeData w order d q j = match d (eowner f) i with Some x => Some x | None => d q j end) /\
  (forall q j f, at_ w q j f -> estat f <> SGhost -> ExchangeData w order d q j = d q j).
Proof.
  intros D w order d W O. split.
  - intros q j f Hf Hg. destruct (c_ghost w W q j f Hf Hg) as (i & e & He & Hs & Hk & _).
    exists i, e. repeat (split; auto). apply (exchange_ghost w W order O _ d q j f i e); auto.
  - intros q j f Hf Hg. apply exchange_other. intros f' Hf' E. unfold at_ in *. congruence.
Qed.

(** The two ends of every channel list the same elements in the same order. *)
Theorem C73_lists_match : forall w p q, consistent w -> p <> q ->
  map (key_at (elems w p)) (shared_list w p q) = map (key_at (elems w q)) (ghost_list w q p) /\
  (forall i, In i (ghost_list w q p) <-> exists f, at_ w q i f /\ estat f = SGhost /\ eowner f = p) /\
  (forall i, In i (shared_list w p q) <-> exists e, at_ w p i e /\ estat e = SShared /\ In q (eprocs e)).
Proof.
  intros w p q W N. split; [apply keys_match; auto|]. split; intros i.
  - apply in_ghost_list.
  - rewrite in_shared_list. split; intros (e & H); exists e; intuition.
Qed.

(** A second exchange changes nothing. *)
Theorem C73_idempotent : forall D w o1 o2 (d : nat -> nat -> option D), consistent w ->
  arrivals w o1 -> arrivals w o2 -> forall q j f, at_ w q j f ->
  ExchangeData w o2 (ExchangeData w o1 d) q j = ExchangeData w o1 d q j.
Proof.
  intros D w o1 o2 d W O1 O2 q j f Hf.
  assert (estat f = SGhost \/ estat f <> SGhost) as [E|E] by (destruct (estat f); auto; right; discriminate).
  - destruct (c_ghost w W q j f Hf E) as (i & e & He & Hs & Hk & _).
    rewrite (exchange_ghost w W o2 O2 _ _ q j f i e Hf E He Hk).
    rewrite (exchange_other w o1 _ d (eowner f) i) by (intros e' He' E'; unfold at_ in *; congruence).
    rewrite (exchange_ghost w W o1 O1 _ d q j f i e Hf E He Hk). destruct (d (eowner f) i); reflexivity.
  - apply exchange_other. intros f' Hf' E'. unfold at_ in *. congruence.
Qed.

Example C73_nonvacuous : consistent ex_world /\ arrivals ex_world ex_order /\
  let d := fun p i => if (p =? 1) && (i =? 0) then None else Some (10 * p + i) in
  map (fun p => map (ExchangeData ex_world ex_order d p) (seq 0 4)) (seq 0 3)
  = [[Some 0; Some 1; Some 2; Some 3]; [None; Some 3; Some 0; Some 13]; [Some 0; Some 21; Some 22; Some 23]].
Proof. split; [apply ex_consistent|]. split; [apply ex_arrivals|]. vm_compute. reflexivity. Qed.

(** * C74: ReduceData *)

(** After ReduceData a shared element holds the result of applying the operation to the data of
    all its copies, each taken once, in the order of arrival; nothing else changes. *)
Theorem C74_reduce : forall D op w order (d : nat -> nat -> option D), consistent w -> arrivals w order ->
  (forall p i e, at_ w p i e -> estat e = SShared -> exists c L, copies_of w p e c /\
     Permutation L (others p e) /\
     ReduceData op w order d p i
     = fold_left (fun acc q => match d q (c q) with Some x => op acc x | None => acc end) L (d p i)) /\
  (forall p i e, at_ w p i e -> estat e <> SShared -> ReduceData op w order d p i = d p i).
Proof.
  intros D op w order d W O. split.
  - intros p i e He Hs. destruct (copies_exist w W p i e He Hs) as (c & Hc).
    exists c, (filter (fun q => existsb (Nat.eqb q) (others p e)) (order p)). split; auto. split.
    + eapply order_others; eauto.
    + apply (reduce_shared w W order O D op d p i e c He Hs Hc).
  - intros p i e He Hs. apply reduce_other. intros e' He' E. unfold at_ in *. congruence.
Qed.

(** If the operation does not depend on the order of its arguments, neither does the result: it is
    the fold over the processors of the element. *)
Theorem C74_order_free : forall D op w order (d : nat -> nat -> option D) p i e c,
  consistent w -> arrivals w order -> at_ w p i e -> estat e = SShared -> copies_of w p e c ->
  (forall a x y, op (op a x) y = op (op a y) x) ->
  ReduceData op w order d p i
  = fold_left (fun acc q => match d q (c q) with Some x => op acc x | None => acc end) (others p e) (d p i).
Proof.
  intros D op w order d p i e c W O He Hs Hc Hop.
  rewrite (reduce_shared w W order O D op d p i e c He Hs Hc).
  apply (fold_perm _ _ (fun q acc => from_copy op d c acc q)).
  - eapply order_others; eauto.
  - intros q r x. unfold from_copy. destruct (d q (c q)), (d r (c r)); auto.
Qed.

(** The usual sequence ReduceData, ExchangeData leaves the same data on all copies. *)
Theorem C74_accumulate : forall D op w o1 o2 (d : nat -> nat -> option D) p i e c x,
  consistent w -> arrivals w o1 -> arrivals w o2 -> at_ w p i e -> estat e = SShared ->
  copies_of w p e c -> ReduceData op w o1 d p i = Some x ->
  let r := ExchangeData w o2 (ReduceData op w o1 d) in
  r p i = Some x /\ forall q, In q (others p e) -> r q (c q) = Some x.
Proof.
  intros D op w o1 o2 d p i e c x W O1 O2 He Hs Hc Hx r. split.
  - unfold r. rewrite exchange_other; auto. intros e' He' E. unfold at_ in *. congruence.
  - intros q Hq. destruct (copy_ghost w W p i e c q He Hs Hc Hq) as (f & Hf & Hg & Ho & Hk). subst p.
    unfold r. rewrite (exchange_ghost w W o2 O2 _ _ q (c q) f i e Hf Hg He (eq_sym Hk)), Hx. reflexivity.
Qed.

(** Without that condition the result depends on the order of arrival. *)
Theorem C74_order_matters_refuted : ~ forall w o1 o2 (op : option nat -> nat -> option nat) d p i e,
  consistent w -> arrivals w o1 -> arrivals w o2 -> at_ w p i e ->
  ReduceData op w o1 d p i = ReduceData op w o2 d p i.
Proof.
  intros H.
  assert (arrivals ex_world (fun q => rev (ex_order q))) as A.
  { intros q Hq. destruct (ex_arrivals q Hq) as [A1 A2]. split; [apply NoDup_rev, A1|].
    intros p. rewrite <- in_rev. apply A2. }
  specialize (H ex_world ex_order (fun q => rev (ex_order q)) (fun _ x => Some x)
    (fun p i => Some (10 * p + i)) 0 0 _ ex_consistent ex_arrivals A eq_refl).
  vm_compute in H. discriminate.
Qed.

Example C74_nonvacuous : consistent ex_world /\ arrivals ex_world ex_order /\
  let d := fun p i => if (p =? 1) && (i =? 2) then None else Some (10 * p + i) in
  let op := fun (a : option nat) x => match a with Some y => Some (y + x) | None => Some x end in
  map (fun p => map (ReduceData op ex_world ex_order d p) (seq 0 4)) (seq 0 3)
  = [[Some 20; Some 1; Some 2; Some 14]; [Some 12; Some 11; None; Some 13]; [Some 20; Some 21; Some 22; Some 23]].
Proof. split; [apply ex_consistent|]. split; [apply ex_arrivals|]. vm_compute. reflexivity. Qed.

(** * C75: SynchronizeMarker *)

(** SYNC_BIT_SET: all copies get the marker of the owner.  SYNC_BIT_OR, SYNC_BIT_XOR: all copies
    get the disjunction, the parity of the markers of all copies. *)
Theorem C75_sync_marker : forall w o1 o2 mark p i e c,
  consistent w -> arrivals w o1 -> arrivals w o2 ->
  at_ w p i e -> estat e = SShared -> copies_of w p e c ->
  let m := fun op => SynchronizeMarker w op o1 o2 mark in
  let or := mark p i || existsb (fun q => mark q (c q)) (others p e) in
  let xor := fold_right xorb (mark p i) (map (fun q => mark q (c q)) (others p e)) in
  (m SYNC_SET p i = mark p i /\ forall q, In q (others p e) -> m SYNC_SET q (c q) = mark p i) /\
  (m SYNC_OR p i = or /\ forall q, In q (others p e) -> m SYNC_OR q (c q) = or) /\
  (m SYNC_XOR p i = xor /\ forall q, In q (others p e) -> m SYNC_XOR q (c q) = xor).
Proof.
  intros w o1 o2 mark p i e c W O1 O2 He Hs Hc. cbv zeta. split; [|split].
  - apply (sync_set_ok w W o1 o2 O2 mark p i e c He Hs Hc).
  - apply (sync_or_ok w W o1 o2 O1 O2 mark p i e c He Hs Hc).
  - apply (sync_xor_ok w W o1 o2 O1 O2 mark p i e c He Hs Hc).
Qed.
(** Elements known to one process only keep their marker. *)
Theorem C75_private : forall w op o1 o2 mark p i e, at_ w p i e -> estat e <> SShared -> estat e <> SGhost ->
  SynchronizeMarker w op o1 o2 mark p i = mark p i.
Proof.
  intros w op o1 o2 mark p i e He N1 N2. apply (sync_rest w o1 o2 mark op p i).
  intros e' He'. unfold at_ in *. assert (e' = e) by congruence. subst. auto.
Qed.
(** SYNC_BIT_AND: the copies without the marker do not take part, all copies get the marker of
    the owner ... *)
Theorem C75_and_is_owner : forall w o1 o2 mark p i e c,
  consistent w -> arrivals w o1 -> arrivals w o2 ->
  at_ w p i e -> estat e = SShared -> copies_of w p e c ->
  let m := SynchronizeMarker w SYNC_AND o1 o2 mark in
  m p i = mark p i /\ forall q, In q (others p e) -> m q (c q) = mark p i.
Proof.
  intros w o1 o2 mark p i e c W O1 O2 He Hs Hc.
  apply (sync_and_ok w W o1 o2 O1 O2 mark p i e c He Hs Hc).
Qed.
(** ... which is not the conjunction. *)
Theorem C75_and_refuted : ~ forall w o1 o2 mark p i e c,
  consistent w -> arrivals w o1 -> arrivals w o2 ->
  at_ w p i e -> estat e = SShared -> copies_of w p e c ->
  SynchronizeMarker w SYNC_AND o1 o2 mark p i
  = mark p i && forallb (fun q => mark q (c q)) (others p e).
Proof.
  intros H.
  specialize (H ex_world ex_order ex_order (fun p i => (p =? 0) && (i =? 3)) 0 3 _ (fun _ => 1)
    ex_consistent ex_arrivals ex_arrivals eq_refl eq_refl).
  assert (copies_of ex_world 0 (Elem 9 SShared 0 [0; 1]) (fun _ => 1)) as C.
  { intros q Hq. apply in_others in Hq as [Hq Nq]. cbn in Hq. destruct Hq as [<-|[<-|[]]]; [congruence|].
    eexists. split; reflexivity. }
  specialize (H C). vm_compute in H. discriminate.
Qed.
Example C75_nonvacuous :
  let mark := fun p i => match p, i with 0, 0 | 1, 2 | 2, 0 | 1, 1 | 0, 1 => true | _, _ => false end in
  consistent ex_world /\ arrivals ex_world ex_order /\
  map (fun op => map (fun p => map (SynchronizeMarker ex_world op ex_order ex_order mark p) (seq 0 4)) (seq 0 2))
    [SYNC_SET; SYNC_OR; SYNC_XOR; SYNC_AND]
  = [[[true;true;false;false];[false;false;true;false]];
     [[true;true;false;true];[false;true;true;false]];
     [[true;true;false;true];[false;true;true;false]];
     [[true;true;false;false];[false;false;true;false]]].
Proof. split; [apply ex_consistent|]. split; [apply ex_arrivals|]. vm_compute. reflexivity. Qed.

(** * C76: Enumerate *)

(** The elements that are numbered: in the list given (for the variant with a mask: all), not
    ghosts, with data unless [define] *)
Definition numbered (w : world) (items : nat -> list nat) (define : bool) (d : nat -> nat -> option Z)
    (p i : nat) : Prop :=
  In i (items p) /\ (exists e, at_ w p i e /\ estat e <> SGhost) /\ (define = true \/ d p i <> None).

Lemma numbered_list : forall w items define d p i,
  (forall p i, In i (items p) -> exists e, at_ w p i e) ->
  numbered w items define d p i <-> In i (num_list w items define d p).
Proof.
  intros w items define d p i Ir. rewrite in_num_list by exact Ir. unfold numbered. split.
  - intros (H1 & (e & He & Ng) & H3). split; auto. split; auto.
    destruct (at_cases w p i e He) as (_ & _ & A). rewrite A. destruct (estat e); congruence.
  - intros (H1 & H2 & H3). split; auto. split; auto. destruct (Ir p i H1) as (e & He). exists e. split; auto.
    intros E. destruct (at_cases w p i e He) as (_ & _ & A). rewrite E in A. congruence.
Qed.

(** The elements get the numbers start, start+1, ... without gaps and repetitions, all processes
    return the next free number, ghosts get the number of their owner, the rest is unchanged. *)
Theorem C76_enumerate : forall w order items define start d, consistent w -> 0 < length w ->
  arrivals w order -> (forall p, NoDup (items p)) ->
  (forall p i, In i (items p) -> exists e, at_ w p i e) ->
  let ret := fst (Enumerate w order items define start d) in
  let g := snd (Enumerate w order items define start d) in
  let N := numbered w items define d in
  (forall p i, N p i -> exists v, g p i = Some v /\ (start <= v < ret)%Z) /\
  (forall p q i j, N p i -> N q j -> g p i = g q j -> p = q /\ i = j) /\
  (forall v, (start <= v < ret)%Z -> exists p i, N p i /\ g p i = Some v) /\
  (forall q j f i e, at_ w q j f -> estat f = SGhost -> at_ w (eowner f) i e -> ekey e = ekey f ->
     g q j = match g (eowner f) i with Some x => Some x | None => d q j end) /\
  (forall p i e, at_ w p i e -> estat e <> SGhost -> ~ N p i -> g p i = d p i).
Proof.
  intros w order items define start d W Hw O Hn Hr ret g N.
  pose proof (enumerate_G w Hw order items Hn Hr define start d) as G.
  assert (ret = (start + before (fun p => Z.of_nat (length (num_list w items define d p))) (length w))%Z) as R.
  { apply enumerate_ret; auto. }
  assert (forall p i, N p i -> p < length w) as Lw.
  { intros p i (_ & (e & He & _) & _). eapply in_world, He. }
  assert (forall p i, N p i <-> In i (num_list w items define d p)) as E.
  { intros p i. apply numbered_list, Hr. }
  split; [|split; [|split; [|split]]].
  - intros p i H. rewrite R. eapply blocks_range; [exact G|eapply Lw, H|apply E, H].
  - intros p q i j H1 H2 H. eapply (blocks_inj (length w) (num_list w items define d)); [exact G|..].
    + eapply Lw, H1.
    + eapply Lw, H2.
    + apply E, H1.
    + apply E, H2.
    + exact H.
  - intros v Hv. rewrite R in Hv.
    destruct (blocks_onto _ _ _ _ G v Hv) as (p & i & _ & Hi & Hg). exists p, i. split; [apply E, Hi|exact Hg].
  - intros q j f i e. apply enumerate_ghost; auto.
  - intros p i e He Ng H. apply enumerate_rest; auto.
    + destruct (at_cases w p i e He) as (_ & _ & A). rewrite A. destruct (estat e); congruence.
    + intros Hi. apply H, E, Hi.
Qed.
(** The numbers of a process are consecutive, lower ranks first, and the elements
    that no other process knows come before the shared ones. *)
Theorem C76_order : forall w order items define start d, consistent w -> 0 < length w ->
  arrivals w order -> (forall p, NoDup (items p)) ->
  (forall p i, In i (items p) -> exists e, at_ w p i e) ->
  let g := snd (Enumerate w order items define start d) in
  let N := numbered w items define d in
  (forall p q i j v u, N p i -> N q j -> g p i = Some v -> g q j = Some u -> p < q -> (v < u)%Z) /\
  (forall p i j e f v u, N p i -> N p j -> g p i = Some v -> g p j = Some u ->
     at_ w p i e -> at_ w p j f -> estat e <> SShared -> estat f = SShared -> (v < u)%Z).
Proof.
  intros w order items define start d W Hw O Hn Hr g N.
  pose proof (enumerate_G w Hw order items Hn Hr define start d) as G.
  assert (forall p i, N p i <-> In i (num_list w items define d p)) as E.
  { intros p i. apply numbered_list, Hr. }
  split.
  - intros p q i j v u H1 H2 Hv Hu L.
    eapply (blocks_order (length w) (num_list w items define d)); [exact G|exact L| | | |exact Hv|exact Hu].
    + destruct H2 as (_ & (e & He & _) & _). eapply in_world, He.
    + apply E, H1.
    + apply E, H2.
  - intros p i j e f v u H1 H2 Hv Hu He Hf Ne Sf.
    eapply (enumerate_own_first w Hw order items Hn Hr define start d p i j);
      [eapply in_world, He|apply E, H1|apply E, H2| | |exact Hv|exact Hu].
    + destruct H1 as (_ & (e' & He' & Ng) & _). assert (e' = e) as -> by (unfold at_ in *; congruence).
      destruct (at_cases w p i e He) as (A & _ & _). rewrite A. destruct (estat e); congruence.
    + destruct (at_cases w p j f Hf) as (_ & A & _). rewrite A, Sf. reflexivity.
Qed.
Example C76_nonvacuous : consistent ex_world /\ arrivals ex_world ex_order /\
  let r := Enumerate ex_world ex_order (all_items ex_world) true 100%Z (fun _ _ => None) in
  fst r = 106%Z /\ map (fun p => map (snd r p) (all_items ex_world p)) (seq 0 3)
  = [[Some 101; Some 100; Some 104; Some 102]; [Some 104; Some 102; Some 101; Some 103]; [Some 101; Some 105]]%Z.
Proof. split; [apply ex_consistent|]. split; [apply ex_arrivals|]. vm_compute. auto. Qed.

(** * C77: AssignGlobalID *)

(** Global ids: copies of one element have the same id, different elements have different ids, and
    the ids are exactly 0 .. TotalNumberOf-1. *)
Theorem C77_global_id : forall w order d, consistent w -> 0 < length w -> arrivals w order ->
  let g := AssignGlobalID w order d in
  (forall p i e, at_ w p i e -> exists v, g p i = Some v /\ (0 <= v < TotalNumberOf w)%Z) /\
  (forall q j f i e, at_ w q j f -> estat f = SGhost -> at_ w (eowner f) i e -> ekey e = ekey f ->
     g q j = g (eowner f) i) /\
  (forall p q i j e f, at_ w p i e -> at_ w q j f -> estat e <> SGhost -> estat f <> SGhost ->
     g p i = g q j -> p = q /\ i = j) /\
  (forall p i j e f, at_ w p i e -> at_ w p j f -> g p i = g p j -> i = j) /\
  (forall v, (0 <= v < TotalNumberOf w)%Z -> exists p i e, at_ w p i e /\ estat e <> SGhost /\ g p i = Some v).
Proof.
  intros w order d W Hw O g.
  assert (TotalNumberOf w = before (fun p => Z.of_nat (length (ng_list w p))) (length w)) as T.
  { unfold TotalNumberOf. rewrite scan_world by auto. reflexivity. }
  rewrite T. pose proof (assign_G w order d) as G. split; [|split; [|split; [|split]]].
  - intros p i e He. apply (assign_some w W order O d p i e He).
  - intros q j f i e. apply (assign_ghost w W order O d).
  - intros p q i j e f He Hf Ne Nf. apply (blocks_inj (length w) (ng_list w) 0%Z g G).
    + eapply in_world, He.
    + eapply in_world, Hf.
    + apply in_ng. eauto.
    + apply in_ng. eauto.
  - intros p i j e f. apply (assign_local_inj w W order O d).
  - intros v Hv. destruct (blocks_onto (length w) (ng_list w) 0%Z g G v) as (p & i & _ & Hi & Hg); [lia|].
    apply in_ng in Hi as (e & He & Ne). exists p, i, e. auto.
Qed.
(** From then on the exchange lists are sorted by the global ids: the mesh with the ids as keys is
    again consistent, elements of different processes are told apart, and the lists that were
    re-sorted in place are the lists that would be gathered anew.  So C73-C76 hold afterwards. *)
Theorem C77_storage : forall w order d, consistent w -> arrivals w order ->
  let g := AssignGlobalID w order d in
  consistent (rekey w g) /\ separate (rekey w g) /\ arrivals (rekey w g) order /\
  (forall p q, resorted_shared w g p q = shared_list (rekey w g) p q) /\
  (forall p q, resorted_ghost w g p q = ghost_list (rekey w g) p q).
Proof.
  intros w order d W O g. split; [apply rekey_consistent; auto|]. split; [apply rekey_separate; auto|].
  split; [|split].
  - intros q Hq. unfold g in *. rewrite rekey_length in *. apply O, Hq.
  - intros. apply resorted_shared_ok; auto.
  - intros. apply resorted_ghost_ok; auto.
Qed.
Example C77_nonvacuous : consistent ex_world /\ arrivals ex_world ex_order /\
  let g := AssignGlobalID ex_world ex_order (fun _ _ => None) in
  map (fun p => map (g p) (all_items ex_world p)) (seq 0 3)
  = [[Some 0; Some 1; Some 3; Some 2]; [Some 3; Some 2; Some 0; Some 4]; [Some 0; Some 5]]%Z
  /\ shared_list ex_world 0 1 = [3; 0] /\ resorted_shared ex_world g 0 1 = [0; 3] /\
  TotalNumberOf ex_world = 6%Z.
Proof. split; [apply ex_consistent|]. split; [apply ex_arrivals|]. vm_compute. auto. Qed.

(** * C78: FindSharedGhost *)

(** The search by global id finds exactly the element with this id that is shared with the source
    (when this process is the owner) or is a ghost of the given owner. *)
Theorem C78_find : forall w order d rank v src own i, consistent w -> arrivals w order ->
  let g := AssignGlobalID w order d in
  FindSharedGhost (resorted_shared w g rank) (resorted_ghost w g rank) (gid_key (g rank)) rank v src own = Some i
  <-> exists e, at_ w rank i e /\ g rank i = Some v /\
      if own =? rank then estat e = SShared /\ In src (eprocs e) /\ src <> rank
      else estat e = SGhost /\ eowner e = own.
Proof. intros w order d rank v src own i W O g. apply (find_ok w W order O d). Qed.
(** Reference data: the element that the sender names by id, itself and owner is found on the receiver
    whenever the receiver holds a copy. *)
Theorem C78_reference : forall w order d p q i j e f, consistent w -> arrivals w order ->
  at_ w p i e -> estat e = SShared -> at_ w q j f -> estat f = SGhost -> eowner f = p -> ekey f = ekey e ->
  let g := AssignGlobalID w order d in
  let find := fun r => FindSharedGhost (resorted_shared w g r) (resorted_ghost w g r) (gid_key (g r)) r in
  exists v, g p i = Some v /\ g q j = Some v /\ find q v p p = Some j /\ find p v q p = Some i.
Proof.
  intros w order d p q i j e f W O He Hs Hf Hg Ho Hk g find. subst p.
  destruct (assign_some w W order O d (eowner f) i e He) as (v & Hv & _). fold g in Hv.
  assert (g q j = Some v) as Hq.
  { rewrite <- Hv. apply (assign_ghost w W order O d q j f i e); auto. }
  destruct (c_owner w W q j f Hf Hg) as [_ Nq].
  exists v. split; auto. split; auto. split.
  - apply (find_ok w W order O d). exists f. split; auto. split; auto.
    destruct (Nat.eqb_spec (eowner f) q); [contradiction|]. auto.
  - apply (find_ok w W order O d). exists e. split; auto. split; auto. rewrite Nat.eqb_refl. split; auto.
    destruct (c_ghost w W q j f Hf Hg) as (i' & e' & He' & _ & Hk' & Hin).
    assert (i' = i) as -> by (eapply (key_inj (elems w (eowner f))); [apply W|exact He'|exact He|congruence]).
    assert (e' = e) as -> by (unfold at_ in *; congruence). auto.
Qed.
Example C78_nonvacuous : consistent ex_world /\ arrivals ex_world ex_order /\
  let g := AssignGlobalID ex_world ex_order (fun _ _ => None) in
  let find := fun r => FindSharedGhost (resorted_shared ex_world g r) (resorted_ghost ex_world g r) (gid_key (g r)) r in
  find 1 2%Z 0 0 = Some 1 /\ find 0 2%Z 1 0 = Some 3 /\ find 0 2%Z 2 0 = None /\ find 1 1%Z 0 0 = None.
Proof. split; [apply ex_consistent|]. split; [apply ex_arrivals|]. vm_compute. auto. Qed.

(** * C79: sums over the mesh *)

(** TotalNumberOf counts every element of the mesh once, whatever the number of its copies. *)
Theorem C79_total : forall w, 0 < length w -> consistent w -> separate w ->
  TotalNumberOf w = Z.of_nat (length (nodup Z.eq_dec (map ekey (concat w)))).
Proof. exact total_ok. Qed.
(** Integrate adds every element of the mesh once; the data of the ghosts are not used. *)
Theorem C79_integrate : forall w entry d (val : Z -> option (list Z)),
  0 < length w -> consistent w -> separate w ->
  (forall p i e, at_ w p i e -> estat e <> SGhost -> d p i = val (ekey e)) ->
  Integrate w entry d
  = fold_right Z.add 0%Z (map (fun k => match val k with
      | Some arr => match nth_error arr entry with Some x => x | None => 0%Z end
      | None => 0%Z end) (nodup Z.eq_dec (map ekey (concat w)))).
Proof. exact integrate_ok. Qed.
Example C79_nonvacuous : 0 < length ex_world /\ consistent ex_world /\ separate ex_world /\
  TotalNumberOf ex_world = 6%Z /\
  Integrate ex_world 1 (fun p i => option_map (fun e => [0%Z; ekey e]) (nth_error (elems ex_world p) i)) = 92%Z.
Proof.
  split; [cbn; lia|]. split; [apply ex_consistent|]. split; [apply ex_separate|]. vm_compute. auto.
Qed.

Print Assumptions C73_exchange.
Print Assumptions C73_lists_match.
Print Assumptions C73_idempotent.
Print Assumptions C74_reduce.
Print Assumptions C74_order_free.
Print Assumptions C74_accumulate.
Print Assumptions C74_order_matters_refuted.
Print Assumptions C75_sync_marker.
Print Assumptions C75_private.
Print Assumptions C75_and_is_owner.
Print Assumptions C75_and_refuted.
Print Assumptions C76_enumerate.
Print Assumptions C76_order.
Print Assumptions C77_global_id.
Print Assumptions C77_storage.
Print Assumptions C78_find.
Print Assumptions C78_reference.
Print Assumptions C79_total.
Print Assumptions C79_integrate.
