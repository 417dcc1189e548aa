(** What a loop is.  Elements are numbered; [low] lists the lower elements (nodes of edges,
    edges of faces) of each one. *)
From Coq Require Import List Arith QArith.
Import ListNotations.
Local Close Scope Q_scope.
Local Open Scope nat_scope.

(** how many of the elements [l] have the lower element [h] *)
Definition uses (low : list (list nat)) (l : list nat) (h : nat) : nat := length (filter (fun q => existsb (Nat.eqb h) (nth q low [])) l).
(** elements that close: each lower element is shared by two of them *)
Definition closes (low : list (list nat)) (l : list nat) : Prop := forall h, uses low l h = 0 \/ uses low l h = 2.
(** each element after the first shares a lower element with an earlier one *)
Definition joined (low : list (list nat)) (l : list nat) : Prop := forall l1 q l2, l = l1 ++ q :: l2 -> l1 <> [] ->
  exists p h, In p l1 /\ In h (nth p low []) /\ In h (nth q low []).
(** a loop among the first [n] elements *)
Definition is_loop (n : nat) (low : list (list nat)) (l : list nat) : Prop :=
  l <> [] /\ NoDup l /\ (forall q, In q l -> q < n) /\ closes low l.
(** edges: exactly two different ends *)
Definition all_edges (n : nat) (low : list (list nat)) : Prop :=
  forall q, q < n -> exists a b, a <> b /\ forall h, In h (nth q low []) <-> h = a \/ h = b.
(** perimeter *)
Fixpoint total (meas : list Q) (l : list nat) : Q :=
  match l with [] => 0%Q | q :: r => (nth q meas 0 + total meas r)%Q end.
