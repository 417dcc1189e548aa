(** Points of segments, triangles, faces and cells. *)
From Coq Require Import List Reals.
From Verif Require Import Tri_Model.
Import ListNotations.
Open Scope R_scope.

Definition on_seg (a b q : vec) : Prop := exists s, 0 <= s <= 1 /\
  vx q = (1 - s) * vx a + s * vx b /\ vy q = (1 - s) * vy a + s * vy b /\ vz q = (1 - s) * vz a + s * vz b.
Definition bary (x y z : R) (a b c q : vec) : Prop :=
  x + y + z = 1 /\ vx q = x * vx a + y * vx b + z * vx c /\
  vy q = x * vy a + y * vy b + z * vy c /\ vz q = x * vz a + y * vz b + z * vz c.
Definition on_tri (a b c q : vec) : Prop := exists x y z, 0 <= x /\ 0 <= y /\ 0 <= z /\ bary x y z a b c q.
Definition euclid (p q : vec) : R :=
  sqrt ((vx p - vx q) * (vx p - vx q) + (vy p - vy q) * (vy p - vy q) + (vz p - vz q) * (vz p - vz q)).
(** [d] is the distance from [p] to the set [T]: attained, and a lower bound *)
Definition distance_to (T : vec -> Prop) (p : vec) (d : R) : Prop :=
  (exists q, T q /\ d = euclid p q) /\ forall q, T q -> d <= euclid p q.
(** twice the area vector *)
Definition area_vec (a b c : vec) : vec :=
  V ((vy b - vy a) * (vz c - vz a) - (vz b - vz a) * (vy c - vy a))
    ((vz b - vz a) * (vx c - vx a) - (vx b - vx a) * (vz c - vz a))
    ((vx b - vx a) * (vy c - vy a) - (vy b - vy a) * (vx c - vx a)).
Definition sqnorm (v : vec) : R := vx v * vx v + vy v * vy v + vz v * vz v.
(** a polygon drawn as triangles with an apex *)
Fixpoint sides_from (first : vec) (nodes : list vec) : list (vec * vec) :=
  match nodes with
  | [] => []
  | [a] => [(a, first)]
  | a :: (b :: _) as r => (a, b) :: sides_from first r
  end.
Definition sides (nodes : list vec) : list (vec * vec) :=
  match nodes with [] => [] | a :: _ => sides_from a nodes end.
Definition on_face (centre : vec) (nodes : list vec) (q : vec) : Prop :=
  exists a b, In (a, b) (sides nodes) /\ on_tri a b centre q.
