(** Model of Mesh::EquilibrateGhost (Source/Mesh/parallel.cpp 422-650), which chooses new owners
    of shared elements.

    Elements of one type are numbers that are the same on all processes (global identifiers);
    what a process knows of its copy (owner, status) is a function of the rank and the element.
    ReduceData and ExchangeData are modelled by their effect on one element, which is proved
    for their own model in Par_Props.v (C73, C74): the process where the element is shared
    combines the values of the others in the order of arrival, then they get the result.
    The pair (-1, INT_MAX) in the tag is None.  Left out: hidden elements, timers and reports,
    RecomputeParallelStorage (lists of elements to exchange, computed from owner and status). *)
From Coq Require Import List Bool Arith.
From Verif Require Import Equil_Spec.
Import ListNotations.

Definition is_owned (s : status) : bool := match s with Owned => true | _ => false end.
Definition tag : Type := nat -> option (nat * nat).   (** owner and distance *)
Definition put (t : tag) (c : nat) (v : option (nat * nat)) : tag := fun x => if x =? c then v else t x.

(** 465-485: cells next to an own cell, in the order of local identifiers *)
Definition collect_cell (near : nat -> list nat) (st : nat -> status) (ow : nat -> nat) (s : tag * list nat) (c : nat) : tag * list nat :=
  if is_owned (st c) then s
  else match find (fun l => is_owned (st l)) (near c) with
    | Some l => (put (fst s) c (Some (ow l, 1)), snd s ++ [c])
    | None => (put (fst s) c None, snd s)
    end.
Definition collect (cells : list nat) (near : nat -> list nat) (st : nat -> status) (ow : nat -> nat) : tag * list nat :=
  fold_left (collect_cell near st ow) cells (fun _ => None, []).
(** 500-510: a neighbour of the cell taken from the queue, which has owner [o] and distance [d] *)
Definition visit (st : nat -> status) (o d : nat) (s : tag * list nat) (x : nat) : tag * list nat :=
  if is_owned (st x) then s
  else if match fst s x with None => true | Some (_, e) => d + 1 <? e end
    then (put (fst s) x (Some (o, d + 1)), snd s ++ [x])
    else s.
(** 487-511; None is the failed assertion of line 494 *)
Fixpoint distances (fuel : nat) (near : nat -> list nat) (st : nat -> status) (cur : nat) (t : tag) (queue : list nat) : option tag :=
  match queue, fuel with
  | [], _ => Some t
  | _, 0 => None
  | c :: q, S f =>
    match t c with
    | None => None
    | Some (o, d) =>
      if d <? cur then None
      else
        let s := fold_left (visit st o d) (near c) (t, q) in
        distances f near st (if cur <? d then S cur else cur) (fst s) (snd s)
    end
  end.
(** 457-511 on one process *)
Definition local_tag (cells : list nat) (near : nat -> list nat) (st : nat -> status) (ow : nat -> nat) : option tag :=
  let s := collect cells near st ow in distances (length cells) near st 1 (fst s) (snd s).

(** OperationMinDistance, 422-438 *)
Definition min_distance (r i : option (nat * nat)) : option (nat * nat) :=
  match i, r with
  | None, _ => r
  | Some _, None => i
  | Some (io, id), Some (ro, rd) => if id <? rd then i else if (id =? rd) && (io <? ro) then i else r
  end.
(** OperationMinOwner, 440-446; None is INT_MAX *)
Definition min_owner (r i : option nat) : option nat :=
  match i, r with
  | None, _ => r
  | Some _, None => i
  | Some a, Some b => Some (Nat.min b a)
  end.

Record tables := Tables { t_owner : nat -> nat -> nat; t_status : nat -> nat -> status }.
(** ReduceData and ExchangeData: value of element [e] on process [p] afterwards, 521-522 and 612-613;
    [arrivals p e] are the processes from which [p] gets values *)
Definition reduced {A : Type} (op : A -> A -> A) (arrivals : nat -> nat -> list nat) (value : nat -> nat -> A) (p e : nat) : A :=
  fold_left (fun r q => op r (value q e)) (arrivals p e) (value p e).
Definition exchanged {A : Type} (op : A -> A -> A) (arrivals : nat -> nat -> list nat) (T : tables) (value : nat -> nat -> A) (p e : nat) : A :=
  match t_status T p e with
  | Ghost => reduced op arrivals value (t_owner T p e) e
  | _ => reduced op arrivals value p e
  end.
Definition role (p o : nat) : status := if p =? o then Shared else Ghost.
(** 547-575 *)
Definition new_cells (T : tables) (value : nat -> nat -> option (nat * nat)) : tables :=
  Tables (fun p c => if is_owned (t_status T p c) then t_owner T p c else match value p c with Some (o, _) => o | None => t_owner T p c end)
         (fun p c => if is_owned (t_status T p c) then Owned else match value p c with Some (o, _) => role p o | None => t_status T p c end).
(** 457-580: cells; [tags p] is the tag of process [p] after the calculation of distances *)
Definition equilibrate_cells (arrivals : nat -> nat -> list nat) (tags : nat -> tag) (T : tables) : tables :=
  new_cells T (exchanged min_distance arrivals T tags).

(** 602-607: the smallest owner of the upper adjacent elements *)
Definition smallest (upper : list nat) (owner : nat -> nat) : option nat := fold_left (fun r u => min_owner r (Some (owner u))) upper None.
(** 615-635 *)
Definition new_lower (T : tables) (value : nat -> nat -> option nat) : tables :=
  let moved p e := match value p e with Some o => negb (is_owned (t_status T p e)) && negb (t_owner T p e =? o) | None => false end in
  Tables (fun p e => if moved p e then match value p e with Some o => o | None => t_owner T p e end else t_owner T p e)
         (fun p e => if moved p e then match value p e with Some o => role p o | None => t_status T p e end else t_status T p e).
Definition equilibrate_lower (arrivals : nat -> nat -> list nat) (upper : nat -> nat -> list nat) (U T : tables) : tables :=
  new_lower T (exchanged min_owner arrivals T (fun p e => smallest (upper p e) (t_owner U p))).
(** 448-650: tables of cells, faces, edges and nodes *)
Definition equilibrate (tags : nat -> tag) (arr_c arr_f arr_e arr_n : nat -> nat -> list nat) (up_f up_e up_n : nat -> nat -> list nat)
    (TC TF TE TN : tables) : tables * tables * tables * tables :=
  let C := equilibrate_cells arr_c tags TC in
  let F := equilibrate_lower arr_f up_f C TF in
  let E := equilibrate_lower arr_e up_e F TE in
  (C, F, E, equilibrate_lower arr_n up_n E TN).
