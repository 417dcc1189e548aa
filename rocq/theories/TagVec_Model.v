(** Model of Mesh::CopyTag2Vector and Mesh::CopyVector2Tag (mesh.cpp:2715-2859).

    The elements visited by the iterator of one type are given as a list; each has an
    index: its DataLocalID() or the value of the tag inds. A write or read outside of
    the vector is [None]. The four value types share the same code. *)
From Coq Require Import List ZArith.
From Verif Require Import Util.
Import ListNotations.
Open Scope Z_scope.

Section TagVec.
Variable V : Type.     (* type of the values *)
Variable zero : V.     (* value initialisation by resize *)
Variable elem : Type.  (* elements *)

(** vector access: operator [] with an index of type int *)
Definition at_ok (v : list V) (i : Z) : bool := (0 <=? i) && (i <? Z.of_nat (length v)).
Definition vget (v : list V) (i : Z) : option V :=
  if at_ok v i then nth_error v (Z.to_nat i) else None.
Definition vset (v : list V) (i : Z) (x : V) : option (list V) :=
  if at_ok v i then Some (lset v (Z.to_nat i) x) else None.
(** std::vector::resize *)
Definition resize (v : list V) (n : nat) : list V :=
  firstn n v ++ repeat zero (n - length v).
(** mesh.cpp:2732-2734 *)
Definition max_index (ind : elem -> Z) (es : list elem) : Z :=
  fold_left (fun s e => Z.max s (ind e)) es 0.
(** mesh.cpp:2736-2737 *)
Fixpoint store (ind : elem -> Z) (tag : elem -> V) (es : list elem) (v : list V) : option (list V) :=
  match es with
  | [] => Some v
  | e :: r => match vset v (ind e) (tag e) with Some v' => store ind tag r v' | None => None end
  end.
(** mesh.cpp:2729-2749 *)
Definition tag2vector (ind : elem -> Z) (tag : elem -> V) (es : list elem) (v : list V) : option (list V) :=
  store ind tag es (resize v (Z.to_nat (max_index ind es))).
(** mesh.cpp:2715-2727 *)
Fixpoint vector2tag (eqb : elem -> elem -> bool) (ind : elem -> Z) (v : list V) (es : list elem) (tag : elem -> V)
  : option (elem -> V) :=
  match es with
  | [] => Some tag
  | e :: r =>
    match vget v (ind e) with
    | Some x => vector2tag eqb ind v r (fun f => if eqb f e then x else tag f)
    | None => None
    end
  end.
End TagVec.
