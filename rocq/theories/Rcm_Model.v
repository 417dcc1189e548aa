(** Model of Partitioner::Evaluate with INNER_RCM (Source/Partitioner/partitioner.cpp 298-408),
    on the process that has all the cells.

    Cells are numbered in the order of the iterator; [cells] lists the faces of each cell.
    std::sort may order equal cells in any way, so it is a parameter.  Left out: ResolveShared,
    the check that no other process has cells, names of tags.  Integers do not overflow.
    The result [None] means that the fuel ran out. *)
From Coq Require Import List Bool Arith.
Import ListNotations.

Section Evaluate.
Variable cells : list (list nat).
Variable sort : list nat -> list nat.
Variable procs : nat.

Definition ncells : nat := length cells.
Definition on_face (f c : nat) : bool := existsb (Nat.eqb f) (nth c cells []).
(** Face::Boundary, Source/Mesh/geometry.cpp 2127-2134: there is no second cell *)
Definition boundary (f : nat) : bool := length (filter (on_face f) (seq 0 ncells)) <? 2.
(** the tag ORDER, 324-329 *)
Definition order (c : nat) : nat := length (filter (fun f => negb (boundary f)) (nth c cells [])).
(** BridgeAdjacencies(FACE,CELL), Source/Mesh/element.cpp 1863-1885, without the cell itself,
    which is numbered at this moment and would be skipped *)
Fixpoint add_all (l : list nat) (c : nat) (acc : list nat) : list nat :=
  match l with
  | [] => acc
  | d :: r => add_all r c (if (d =? c) || existsb (Nat.eqb d) acc then acc else acc ++ [d])
  end.
Definition around (c : nat) : list nat := fold_left (fun acc f => add_all (filter (on_face f) (seq 0 ncells)) c acc) (nth c cells []) [].

(** 332 *)
Definition chunk : nat := ncells / procs + 1.

Record state := State {
  index : list nat;      (** the tag CM_INDEX *)
  visited : nat;
  queue : list nat
}.
Definition put (l : list nat) (k v : nat) : list nat := firstn k l ++ v :: skipn (S k) l.
(** 363-364 and 374-375 *)
Definition number (c : nat) (s : state) : state := State (put (index s) c (visited s)) (S (visited s)) (queue s ++ [c]).
(** 370-384 *)
Fixpoint visit (l : list nat) (s : state) : state :=
  match l with
  | [] => s
  | c :: r =>
    if nth c (index s) 0 =? 0 then
      let s' := number c s in
      if visited s' mod chunk =? 0 then State (index s') (visited s') [] else visit r s'
    else visit r s
  end.
(** 365-387 *)
Fixpoint spread (f : nat) (s : state) : option state :=
  match f with
  | O => None
  | S f' =>
    match queue s with
    | [] => Some s
    | x :: q => spread f' (visit (sort (around x)) (State (index s) (visited s) q))
    end
  end.
(** 338-362: the first cell without a number, replaced by later ones of smaller order *)
Definition select (s : state) : option nat :=
  match find (fun c => nth c (index s) 0 =? 0) (seq 0 ncells) with
  | None => None
  | Some a => Some (fold_left (fun b c => if (nth c (index s) 0 =? 0) && (order c <? order b) then c else b) (seq a (ncells - a)) a)
  end.
(** 331-388 *)
Fixpoint run (f : nat) (s : state) : option state :=
  match f with
  | O => None
  | S f' =>
    if visited s =? ncells + 1 then Some s else
    match select s with
    | None => Some s
    | Some c => match spread f (number c s) with None => None | Some s' => run f' s' end
    end
  end.
Definition numbers (f : nat) : option (list nat) := option_map index (run f (State (repeat 0 ncells) 1 [])).
(** 398-404 *)
Definition evaluate (f : nat) : option (list nat) := option_map (map (fun i => i / chunk)) (numbers f).
End Evaluate.

(** An instance of std::sort. *)
Fixpoint insert (key : nat -> nat) (a : nat) (l : list nat) : list nat :=
  match l with
  | [] => [a]
  | b :: r => if key b <? key a then b :: insert key a r else a :: b :: r
  end.
Definition isort (key : nat -> nat) (l : list nat) : list nat := fold_right (insert key) [] l.
