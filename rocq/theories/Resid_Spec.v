(** Equations of a linearised system and norms of rows, stated without the algorithms. *)
From Coq Require Import List Reals Permutation.
Import ListNotations.
Open Scope R_scope.

(** One equation: value, entries of the row of the jacobian, entries of the hessian if there is one. *)
Record eqn := Eqn { res : R; jac : list (nat * R); hes : option (list (nat * nat * R)) }.
Definition total (l : list R) : R := fold_right Rplus 0 l.
(** The value of the equation for the displacement [x]. *)
Definition value (x : nat -> R) (e : eqn) : R :=
  res e + total (map (fun a => snd a * x (fst a)) (jac e)) +
  match hes e with None => 0 | Some h => total (map (fun a => snd a * x (fst (fst a)) * x (snd (fst a))) h) end.
(** The places of entries. *)
Definition places (e : eqn) : list nat * option (list (nat * nat)) :=
  (map fst (jac e), match hes e with None => None | Some h => Some (map fst h) end).
(** Norms of rows. *)
Inductive norm_kind := Infinite | Power (p : nat).
(** The row has the norm one. *)
Definition unit_row (k : norm_kind) (e : eqn) : Prop :=
  match k with
  | Infinite => (exists a, In a (jac e) /\ Rabs (snd a) = 1) /\ forall a, In a (jac e) -> Rabs (snd a) <= 1
  | Power p => total (map (fun a => Rabs (snd a) ^ p) (jac e)) = 1
  end.
Definition zero_row (e : eqn) : Prop := forall a, In a (jac e) -> snd a = 0.
Definition solves (x : nat -> R) (es : list eqn) : Prop := forall e, In e es -> value x e = 0.
