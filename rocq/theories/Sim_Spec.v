(** What a user expects of the class Model, apart from how its loops are written. *)
From Coq Require Import List Bool Arith.
From Verif Require Import Sim_Model.
Import ListNotations.

(** What a history of calls asks to be registered. *)
Definition asked (k : kind) (c : call) : list (nat * nat) :=
  match k, c with
  | Mesh, CAdd Mesh n a => [(n, a)]
  | SubModel, CAdd SubModel n a => [(n, a)]
  | Scalar, CAdd Scalar n a => [(n, a)]
  | Matrix, CAdd Matrix n a => [(n, a)]
  | Operator, CAdd Operator n a => [(n, a)]
  | _, _ => []
  end.
Definition asked_entry (c : call) (n a : nat) : Prop := c = CEntry n a \/ c = CFirst n a \/ exists x, c = CAfter n a x.

(** Objects called one after another: each once, whatever the ones before it answered;
    the answer is yes if all of them answered yes. *)
Inductive called {W : Type} (act : nat -> W -> W * bool) : list nat -> W -> W -> bool -> Prop :=
| called_none w : called act [] w w true
| called_one a l w w1 w2 b c : act a w = (w1, b) -> called act l w1 w2 c -> called act (a :: l) w w2 (b && c).

(** The objects of a kind in the order of addition. *)
Definition objects (k : kind) (m : model) : list nat := map snd (listed k m).
(** A submodel takes part unless it was deactivated after its last activation. *)
Definition takes_part (m : model) (n : nat) : Prop := ~ In (n, false) (active_submodels m).
Definition active_objects (m : model) : list nat :=
  map snd (filter (fun e => negb (existsb (fun f => (fst f =? fst e) && negb (snd f)) (active_submodels m))) (listed SubModel m)).
(** All coupling terms, by the address of the submodel. *)
Definition terms (m : model) : list nat := flat_map (fun kv => map snd (snd kv)) (couplings m).

(** The state left by a history of switches. *)
Fixpoint last_switch (f : call -> option (nat * bool)) (cs : list call) (n : nat) : option bool :=
  match cs with
  | [] => None
  | c :: r => match last_switch f r n with
              | Some b => Some b
              | None => match f c with Some (k, b) => if k =? n then Some b else None | None => None end
              end
  end.
Definition switch_sub (c : call) : option (nat * bool) := match c with CActive n b => Some (n, b) | _ => None end.
Definition switch_entry (c : call) : option (nat * bool) := match c with CEntryActive n b => Some (n, b) | _ => None end.

(** Numbers with a value that compares with nothing, as the not-a-number of floating point. *)
Record ordered {T : Type} (ltb : T -> T -> bool) (num : T -> Prop) : Prop := {
  ord_num x y : ltb x y = true -> num x /\ num y;
  ord_irrefl x : ltb x x = false;
  ord_trans x y z : ltb x y = true -> ltb y z = true -> ltb x z = true;
  ord_total x y : num x -> num y -> ltb x y = true \/ ltb y x = true \/ x = y }.
