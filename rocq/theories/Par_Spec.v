(** What a distributed mesh is, stated without the exchange lists. *)
From Coq Require Import List Bool Arith ZArith Lia.
From Verif Require Import Util Par_Model.
Import ListNotations.

(** The element [i] of the process [p] *)
Definition at_ (w : world) (p i : nat) (e : elem) : Prop := nth_error (elems w p) i = Some e.

(** The records of the processes about each other agree: the keys tell the elements of
    one process apart; an element that its owner shares with [q] is a ghost on [q] with
    that owner, and every ghost is shared by its owner. *)
Record consistent (w : world) : Prop := {
  c_keys : forall p, NoDup (map ekey (elems w p));
  c_procs : forall p i e, at_ w p i e -> estat e = SShared ->
    NoDup (eprocs e) /\ forall q, In q (eprocs e) -> q < length w;
  c_owner : forall q i f, at_ w q i f -> estat f = SGhost ->
    eowner f < length w /\ eowner f <> q;
  c_shared : forall p i e q, at_ w p i e -> estat e = SShared -> In q (eprocs e) -> q <> p ->
    exists j f, at_ w q j f /\ estat f = SGhost /\ eowner f = p /\ ekey f = ekey e;
  c_ghost : forall q j f, at_ w q j f -> estat f = SGhost ->
    exists i e, at_ w (eowner f) i e /\ estat e = SShared /\ ekey e = ekey f /\ In q (eprocs e) }.

(** Elements that are not ghosts have different keys on different processes *)
Definition separate (w : world) : Prop := forall p q i j e f,
  at_ w p i e -> at_ w q j f -> estat e <> SGhost -> estat f <> SGhost -> ekey e = ekey f -> p = q.

(** Every process receives one message from every other process, in some order *)
Definition arrivals (w : world) (order : nat -> list nat) : Prop := forall q, q < length w ->
  NoDup (order q) /\ forall p, In p (order q) <-> p < length w /\ p <> q.

(** The other processes that hold a copy of a shared element of [p] *)
Definition others (p : nat) (e : elem) : list nat := filter (fun q => negb (q =? p)) (eprocs e).

(** [c q] is the index of the copy of the element [e] on [q] *)
Definition copies_of (w : world) (p : nat) (e : elem) (c : nat -> nat) : Prop :=
  forall q, In q (others p e) -> exists f, at_ w q (c q) f /\ ekey f = ekey e.
