(** What a polygon made of edges is, stated without the algorithms. *)
From Coq Require Import List Arith.
From Verif Require Import Adj_Model.
Import ListNotations.

(** The edge e has exactly the ends a and b, in one order or the other. *)
Definition joins (low : elem -> list elem) (e a b : elem) : Prop := low e = [a; b] \/ low e = [b; a].

(** [path low es ns]: the edges es lead from node to node along ns. *)
Inductive path (low : elem -> list elem) : list elem -> list elem -> Prop :=
| path_nil x : path low [] [x]
| path_cons e x y es ns : joins low e x y -> path low es (y :: ns) -> path low (e :: es) (x :: y :: ns).

(** The edges lead round the nodes ns and back to the first one. *)
Definition goes_round (low : elem -> list elem) (es ns : list elem) : Prop :=
  3 <= length ns /\ match ns with [] => False | n :: _ => path low es (ns ++ [n]) end.

(** ... and no node is visited twice. *)
Definition polygon (low : elem -> list elem) (es ns : list elem) : Prop := goes_round low es ns /\ NoDup ns.

(** the elements that do not bear the hide marker *)
Definition shown (h : elem -> bool) (l : list elem) : list elem := filter (fun x => negb (h x)) l.
