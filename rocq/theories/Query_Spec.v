(** What adjacency requests should return, stated without the algorithms. *)
From Coq Require Import List Arith Bool.
From Verif Require Import Adj_Model.
Import ListNotations.

(** [y] is reached from [x] by [n] steps along the links [c], all of them to visible elements. *)
Inductive steps (m : mesh) (c : elem -> list elem) : nat -> elem -> elem -> Prop :=
| steps_one x y : In y (c x) -> visible m y = true -> steps m c 1 x y
| steps_more n x z y : In z (c x) -> visible m z = true -> steps m c n z y -> steps m c (S n) x y.

(** [y] is adjacent to [x]: it is [x] itself, or reached by climbing or descending through
    the dimensions. If the mesh stores the nodes of cells, these links decide for a node and a cell. *)
Definition adjacent (m : mesh) (x y : elem) : Prop :=
  (y = x /\ visible m x = true) \/
  (cn m = true /\ fst x = 0 /\ fst y = 3 /\ In y (low m x) /\ visible m y = true) \/
  (cn m = true /\ fst x = 3 /\ fst y = 0 /\ In y (high m x) /\ visible m y = true) \/
  (~ (cn m = true /\ fst x = 0 /\ fst y = 3) /\ fst x < fst y /\ steps m (high m) (fst y - fst x) x y) \/
  (~ (cn m = true /\ fst x = 3 /\ fst y = 0) /\ fst y < fst x /\ steps m (low m) (fst x - fst y) x y).

(** [y] is a neighbour of [x] through an element of the types [b] that passes the mask [bok] *)
Definition through (m : mesh) (b : nat -> bool) (bok : elem -> bool) (x y : elem) : Prop :=
  exists z, b (fst z) = true /\ bok z = true /\ adjacent m x z /\ adjacent m z y.
