(** Loops of edges, consistent orientations and connected sets of faces. *)
From Coq Require Import List Arith Bool Relations.
From Verif Require Import Geom_Model Geom_Spec Orient_Model.
Import ListNotations.

(** es is the loop of edges through the nodes ns *)
Definition joins (s : surf) (e a b : nat) : Prop := ends s e = (a, b) \/ ends s e = (b, a).
Definition loop (s : surf) (es ns : list nat) : Prop :=
  length es = length ns /\ 3 <= length ns /\ NoDup ns /\ NoDup es /\
  forall e p, In (e, p) (combine es (loop_edges ns)) -> joins s e (fst p) (snd p).
(** the edges of a face with the direction of the face or the opposite one *)
Definition side (r : bool) (p : nat * nat) : nat * nat := if r then flip p else p.
Definition directed (s : surf) (nodes : nat -> list nat) (r : bool) (f : nat) : list (nat * (nat * nat)) :=
  map (fun t => (fst t, side r (snd t))) (combine (fedges s f) (loop_edges (nodes f))).
(** two faces run through a common edge in opposite directions *)
Definition consistent (s : surf) (nodes : nat -> list nat) (faces : list nat) (o : nat -> bool) : Prop :=
  forall f g e p q, In f faces -> In g faces -> f <> g ->
    In (e, p) (directed s nodes (o f) f) -> In (e, q) (directed s nodes (o g) g) -> q = flip p.
Definition share (s : surf) (faces : list nat) (f g : nat) : Prop :=
  In f faces /\ In g faces /\ exists e, In e (fedges s f) /\ In e (fedges s g).
(** the links of the mesh: an edge knows the faces it bounds *)
Definition linked (s : surf) (faces : list nat) : Prop :=
  forall e g, In g faces -> (In g (efaces s e) <-> In e (fedges s g)).
Definition connected (s : surf) (faces : list nat) (f0 : nat) : Prop :=
  forall f, In f faces -> clos_refl_trans nat (share s faces) f0 f.
(** a set of faces of loops *)
Definition shell (s : surf) (nodes : nat -> list nat) (faces : list nat) : Prop :=
  linked s faces /\ forall f, In f faces -> loop s (fedges s f) (nodes f).
(** every edge of a face belongs to another face *)
Definition no_boundary (s : surf) (faces : list nat) : Prop :=
  forall f e, In f faces -> In e (fedges s f) -> exists g, In g faces /\ g <> f /\ In e (fedges s g).
