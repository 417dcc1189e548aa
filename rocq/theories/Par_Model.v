(** Distributed bookkeeping: which elements are exchanged with which process,
    in which order, and the algorithms built on top of the exchange
    (parallel.cpp).

    One element type is modelled; the library keeps the lists of the five types
    of elements separately and treats them independently.  An element carries
    the value by which the exchange lists are sorted ([ekey]: the global id or,
    without global ids, the centroid or the name of the set), the status, the
    owner and the list of processors.  The data of one tag are a function of the
    rank and of the index of the element; [None] means that the element has no
    data.  The packing and unpacking of a message is the subject of Pack_Model.v
    (C70, C71: the j-th element of the receiver gets the data of the j-th element
    of the sender); here a message is the list of the data of the elements sent.
    Reference tags, the selection marker of the exchange and 32-bit overflow of
    the numbers are left out. *)
From Coq Require Import List Bool Arith ZArith Lia.
From Verif Require Import Util Algo.
Import ListNotations.

(** inmost_mesh.h Element::GeometricType .. Status: Owned, Shared, Ghost, Any *)
Inductive status : Type := SOwned | SShared | SGhost | SAny.
Record elem : Type := Elem { ekey : Z; estat : status; eowner : nat; eprocs : list nat }.

Definition is_shared (e : elem) : bool := match estat e with SShared => true | _ => false end.
Definition is_ghost (e : elem) : bool := match estat e with SGhost => true | _ => false end.
Definition is_own (e : elem) : bool :=
  match estat e with SOwned | SAny => true | _ => false end.

(** The elements of each process in the order of iteration *)
Definition world : Type := list (list elem).
Definition elems (w : world) (p : nat) : list elem := nth p w [].

(** std::sort with a comparator of keys (the result is unspecified for equal keys) *)
Fixpoint insert_by (key : nat -> Z) (x : nat) (l : list nat) : list nat :=
  match l with
  | [] => [x]
  | y :: r => if (key y <? key x)%Z then y :: insert_by key x r else x :: l
  end.
Fixpoint sort_by (key : nat -> Z) (l : list nat) : list nat :=
  match l with [] => [] | x :: r => insert_by key x (sort_by key r) end.

Definition key_at (l : list elem) (i : nat) : Z :=
  match nth_error l i with Some e => ekey e | None => 0%Z end.

Definition indexed {A} (l : list A) : list (nat * A) := combine (seq 0 (length l)) l.

(** parallel.cpp:3760-3777 GatherParallelStorage, shared elements: for each of the
    processors of the element  if( *vit != mpirank ) shared[*vit].push_back(it) *)
Definition gather_shared (p q : nat) (l : list elem) : list nat :=
  flat_map (fun ie : nat * elem =>
    if is_shared (snd ie)
    then map (fun _ => fst ie) (filter (fun v => (v =? q) && negb (v =? p)) (eprocs (snd ie)))
    else []) (indexed l).

(** parallel.cpp:3778-3789 GatherParallelStorage, ghost elements:
    ghost[owner].push_back(it) *)
Definition gather_ghost (o : nat) (l : list elem) : list nat :=
  flat_map (fun ie : nat * elem =>
    if is_ghost (snd ie) && (eowner (snd ie) =? o) then [fst ie] else []) (indexed l).

(** parallel.cpp:6553-6640 SortParallelStorage *)
Definition shared_list (w : world) (p q : nat) : list nat :=
  sort_by (key_at (elems w p)) (gather_shared p q (elems w p)).
Definition ghost_list (w : world) (p o : nat) : list nat :=
  sort_by (key_at (elems w p)) (gather_ghost o (elems w p)).

(** Data of one tag on one process *)
Definition upd {D} (d : nat -> option D) (i : nat) (v : option D) : nat -> option D :=
  fun j => if j =? i then v else d j.

(** The loop over the elements of a message, parallel.cpp UnpackTagData: the operation
    is called for the elements that came with data *)
Fixpoint unpack {D} (op : option D -> D -> option D) (msg : list (option D)) (to : list nat)
    (d : nat -> option D) : nat -> option D :=
  match msg, to with
  | m :: msg', i :: to' =>
      unpack op msg' to' (match m with Some x => upd d i (op (d i) x) | None => d end)
  | _, _ => d
  end.

(** parallel.cpp:3397-3572 ExchangeDataInnerBegin packs the messages to all processes,
    3655-3737 ExchangeDataInnerEnd unpacks them in the order of arrival.
    [from p q]: list of the elements of [p] sent to [q]; [to q p]: list of the elements
    of [q] that receive from [p]; [order q]: order of arrival at [q].  (A process that
    has nothing to send to [q] sends no message; the unpacking of its empty message does
    nothing.) *)
Definition exchange {D} (op : option D -> D -> option D) (from to : nat -> nat -> list nat)
    (order : nat -> list nat) (d : nat -> nat -> option D) (q : nat) : nat -> option D :=
  fold_left (fun dq p => unpack op (map (d p) (from p q)) (to q p) dq) (order q) (d q).

(** parallel.cpp:3810-3830 ExchangeData: from the shared elements to the ghost elements
    with DefaultUnpack (the data are replaced, C71) *)
Definition ExchangeData {D} (w : world) (order : nat -> list nat) (d : nat -> nat -> option D)
    : nat -> nat -> option D :=
  exchange (fun _ x => Some x) (shared_list w) (ghost_list w) order d.

(** parallel.cpp:3881-3906 ReduceData: from the ghost elements to the shared elements
    with the operation of the caller *)
Definition ReduceData {D} (op : option D -> D -> option D) (w : world) (order : nat -> list nat)
    (d : nat -> nat -> option D) : nat -> nat -> option D :=
  exchange op (ghost_list w) (shared_list w) order d.

(** * SynchronizeMarker, parallel.cpp:652-669 and 692-763 *)
Inductive syncop : Type := SYNC_SET | SYNC_OR | SYNC_XOR | SYNC_AND.

(** element->Bulk(tag) of a sparse tag creates a zero record when there is none *)
Definition bulk (o : option Z) : Z := match o with Some x => x | None => 0%Z end.
Definition op_or (o : option Z) (x : Z) : option Z := Some (Z.lor (bulk o) x).
Definition op_xor (o : option Z) (x : Z) : option Z := Some (Z.lxor (bulk o) x).
Definition op_and (o : option Z) (x : Z) : option Z := Some (Z.land (bulk o) x).

Definition status_at (w : world) (p i : nat) : option status := option_map estat (nth_error (elems w p) i).
Definition shared_at (w : world) (p i : nat) : bool :=
  match status_at w p i with Some SShared => true | _ => false end.
Definition ghost_at (w : world) (p i : nat) : bool :=
  match status_at w p i with Some SGhost => true | _ => false end.
Definition own_at (w : world) (p i : nat) : bool :=
  match status_at w p i with Some SOwned | Some SAny => true | _ => false end.

(** 698-708: the temporary tag *)
Definition sync_tag (w : world) (op : syncop) (mark : nat -> nat -> bool) : nat -> nat -> option Z :=
  fun p i =>
    if mark p i && (shared_at w p i || (match op with SYNC_SET => false | _ => true end && ghost_at w p i))
    then Some 1%Z else None.

Definition have {D} (o : option D) : bool := match o with Some _ => true | None => false end.

(** 712-756; [ord1] and [ord2] are the orders of arrival of the two exchanges *)
Definition SynchronizeMarker (w : world) (op : syncop) (ord1 ord2 : nat -> list nat)
    (mark : nat -> nat -> bool) : nat -> nat -> bool :=
  let t := sync_tag w op mark in
  match op with
  | SYNC_SET =>
      let t := ExchangeData w ord2 t in
      fun p i => if ghost_at w p i then have (t p i) else mark p i
  | SYNC_OR =>
      let t := ExchangeData w ord2 (ReduceData op_or w ord1 t) in
      fun p i => if ghost_at w p i || shared_at w p i then
                   (if negb (mark p i) && have (t p i) then true else mark p i)
                 else mark p i
  | SYNC_AND =>
      let t := ExchangeData w ord2 (ReduceData op_and w ord1 t) in
      fun p i => if ghost_at w p i || shared_at w p i then have (t p i) && negb (bulk (t p i) =? 0)%Z
                 else mark p i
  | SYNC_XOR =>
      let t := ExchangeData w ord2 (ReduceData op_xor w ord1 t) in
      fun p i => if ghost_at w p i || shared_at w p i then have (t p i) && negb (bulk (t p i) =? 0)%Z
                 else mark p i
  end.

(** * Enumerate, parallel.cpp:783-875 *)

(** for(it ...) if( sel(it) ) Integer(it,num_tag) = shift++;  the test is made on the
    current data of the tag *)
Definition number_pass (sel : (nat -> option Z) -> nat -> bool) (items : list nat)
    (st : Z * (nat -> option Z)) : Z * (nat -> option Z) :=
  fold_left (fun st i => if sel (snd st) i then ((fst st + 1)%Z, upd (snd st) i (Some (fst st))) else st)
    items st.

(** if( GetStatus() != Ghost && (define_sparse || HaveData(num_tag)) ) number++ *)
Definition to_number (w : world) (p : nat) (define : bool) (d : nat -> option Z) (i : nat) : bool :=
  negb (ghost_at w p i) && (define || have (d i)).
Definition number_of (w : world) (items : nat -> list nat) (define : bool)
    (d : nat -> nat -> option Z) (p : nat) : Z :=
  Z.of_nat (length (filter (to_number w p define (d p)) (items p))).

(** MPI_Scan with MPI_SUM: inclusive prefix sum over the ranks *)
Definition scan (f : nat -> Z) (p : nat) : Z := fold_right Z.add 0%Z (map f (seq 0 (S p))).

Definition enumerate_local (w : world) (items : nat -> list nat) (define : bool) (start : Z)
    (d : nat -> nat -> option Z) (p : nat) : Z * (nat -> option Z) :=
  let number := number_of w items define d p in
  let shift := (scan (number_of w items define d) p - number + start)%Z in
  let st := number_pass (fun d i => own_at w p i && (define || have (d i))) (items p) (shift, d p) in
  number_pass (fun d i => shared_at w p i && (define || have (d i))) (items p) st.

(** Result: the returned value and the data of the tag.
    MPI_Bcast(&ret,...,GetProcessorsNumber()-1,comm) *)
Definition Enumerate (w : world) (order : nat -> list nat) (items : nat -> list nat) (define : bool)
    (start : Z) (d : nat -> nat -> option Z) : Z * (nat -> nat -> option Z) :=
  let loc := enumerate_local w items define start d in
  (fst (loc (length w - 1)), ExchangeData w order (fun p => snd (loc p))).

(** * AssignGlobalID, parallel.cpp:2665-2740 (the state Parallel) *)
Definition all_items (w : world) (p : nat) : list nat := seq 0 (length (elems w p)).
Definition nonghosts (w : world) (p : nat) : Z :=
  Z.of_nat (length (filter (fun i => negb (ghost_at w p i)) (all_items w p))).
Definition assign_local (w : world) (p : nat) (d : nat -> option Z) : nat -> option Z :=
  snd (number_pass (fun _ i => negb (ghost_at w p i)) (all_items w p)
    ((scan (nonghosts w) p - nonghosts w p)%Z, d)).
(** The exchange sorts by the old keys: 2716-2723 hide the tag from ExchangeData *)
Definition AssignGlobalID (w : world) (order : nat -> list nat) (d : nat -> nat -> option Z)
    : nat -> nat -> option Z :=
  ExchangeData w order (fun p => assign_local w p (d p)).

(** 2725 SortParallelStorage: the stored lists are sorted by the new global ids *)
Definition gid_key (g : nat -> option Z) (i : nat) : Z := match g i with Some v => v | None => (-1)%Z end.
Definition resorted_shared (w : world) (g : nat -> nat -> option Z) (p q : nat) : list nat :=
  sort_by (gid_key (g p)) (shared_list w p q).
Definition resorted_ghost (w : world) (g : nat -> nat -> option Z) (p o : nat) : list nat :=
  sort_by (gid_key (g p)) (ghost_list w p o).

(** The mesh with the new global ids as keys *)
Definition rekey (w : world) (g : nat -> nat -> option Z) : world :=
  map (fun pl : nat * list elem =>
    map (fun ie : nat * elem =>
      Elem (gid_key (g (fst pl)) (fst ie)) (estat (snd ie)) (eowner (snd ie)) (eprocs (snd ie)))
      (indexed (snd pl))) (indexed w).

(** parallel.cpp:3221-3255 FindSharedGhost on the process [rank] *)
Definition FindSharedGhost (shared ghost : nat -> list nat) (gid : nat -> Z) (rank : nat)
    (global_id : Z) (source_proc owner_proc : nat) : option nat :=
  let l := if owner_proc =? rank then shared source_proc else ghost owner_proc in
  match nth_error l (lower_bound (fun i => (gid i <? global_id)%Z) l) with
  | Some i => if (gid i =? global_id)%Z then Some i else None
  | None => None
  end.

(** * Sums over all processes *)

(** parallel.cpp:771-782 TotalNumberOf (MPI_Allreduce with MPI_SUM) *)
Definition TotalNumberOf (w : world) : Z := scan (nonghosts w) (length w - 1).

(** parallel.cpp:995-1011 Integrate(tag,entry,mask): sum over the elements that are not
    ghosts and have data with that entry; the arithmetic is exact *)
Definition local_sum (w : world) (entry : nat) (d : nat -> nat -> option (list Z)) (p : nat) : Z :=
  fold_left (fun s i =>
    match d p i with
    | Some arr => if negb (ghost_at w p i) then
                    match nth_error arr entry with Some x => (s + x)%Z | None => s end
                  else s
    | None => s
    end) (all_items w p) 0%Z.
Definition Integrate (w : world) (entry : nat) (d : nat -> nat -> option (list Z)) : Z :=
  scan (local_sum w entry d) (length w - 1).
