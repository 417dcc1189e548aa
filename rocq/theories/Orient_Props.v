(** Properties of the functions that orient the faces of a cell (C99-C102). *)
From Coq Require Import List Arith Bool Lia Relations Permutation Reals Lra.
From Verif Require Import Geom_Model Geom_Spec Geom_Proofs Geom2_Proofs Geom_Props Orient_Model Orient_Spec Orient_Proofs Orient2_Proofs.
Import ListNotations.
Open Scope nat_scope.

(** The cube with the nodes of [box] and 12 edges; the last face, opposite to the first one, has
    the wrong direction if [turn] *)
Definition cube_ends (e : nat) : nat * nat :=
  nth e [(0,1); (1,2); (2,3); (3,0); (4,5); (5,6); (6,7); (7,4); (0,4); (1,5); (2,6); (3,7)] (0,0).
Definition cube_edges (turn : bool) (f : nat) : list nat :=
  nth f [[3;2;1;0]; [0;9;4;8]; [1;10;5;9]; [2;11;6;10]; [3;8;7;11]; if turn then [7;6;5;4] else [4;5;6;7]] [].
Definition cube_nodes (turn : bool) (f : nat) : list nat :=
  nth f [[0;3;2;1]; [0;1;5;4]; [1;2;6;5]; [2;3;7;6]; [3;0;4;7]; if turn then [4;7;6;5] else [4;5;6;7]] [].
Definition cube_faces := [0;1;2;3;4;5].
Definition cube (turn : bool) : surf := mk_surf cube_ends (cube_edges turn) cube_faces.
Definition cube_o (turn : bool) (f : nat) : bool := turn && (f =? 5).
Definition cube_pos (n : nat) : vec :=
  nth n [V 0 0 0; V 1 0 0; V 1 1 0; V 0 1 0; V 0 0 1; V 1 0 1; V 1 1 1; V 0 1 1]%R vzero.
Lemma cube_ok turn : shell (cube turn) (cube_nodes turn) cube_faces /\ consistent (cube turn) (cube_nodes turn) cube_faces (cube_o turn) /\
  NoDup cube_faces /\ no_boundary (cube turn) cube_faces /\ forall f0, In f0 cube_faces -> connected (cube turn) cube_faces f0.
Proof.
  split; [apply mk_shell; destruct turn; reflexivity|]. split; [apply consistentb_ok; destruct turn; vm_compute; reflexivity|].
  split; [apply nodupb_ok; reflexivity|]. split; [apply boundb_ok; destruct turn; reflexivity|].
  intros f0 I. apply connb_ok. repeat (destruct I as [<-|I]; [destruct turn; vm_compute; reflexivity|]). destruct I.
Qed.

(** * C99 *)
(** If the faces can be oriented consistently, the search ends and marks exactly the faces whose
    direction differs from that of the first face, as far as they are connected with it. *)
Theorem C99_orientation s nodes faces o f0 : shell s nodes faces -> consistent s nodes faces o -> In f0 faces ->
  exists rv, orientation s false faces f0 = Some rv /\
    (forall f, clos_refl_trans nat (share s faces) f0 f -> rv f = xorb (o f) (o f0)) /\
    (forall f, rv f = true -> In f faces /\ o f <> o f0).
Proof.
  intros SH C F. pose proof (consistent_xor s nodes faces o (o f0) C) as C'.
  destruct (orientation_ok s nodes faces (fun f => xorb (o f) (o f0)) f0 SH C' F (xorb_nilpotent _)) as (rv & E & A & B).
  exists rv. split; [exact E|]. split; [exact B|]. intros f H. destruct (A f H) as (X & I). split; [exact I|].
  intros Y. rewrite Y, xorb_nilpotent in X. discriminate.
Qed.
(** For the whole boundary of a cell the marks are themselves consistent and the surface is
    closed, as C96 and C97 demand. *)
Theorem C99_closes_the_cell s nodes faces o f0 : shell s nodes faces -> consistent s nodes faces o -> In f0 faces ->
  NoDup faces -> connected s faces f0 -> no_boundary s faces ->
  exists rv, orientation s false faces f0 = Some rv /\ rv f0 = false /\ consistent s nodes faces rv /\
    closed (map (fun f => (rv f, nodes f)) faces).
Proof.
  intros SH C F ND Co NB. destruct (C99_orientation s nodes faces o f0 SH C F) as (rv & E & A & _). exists rv.
  assert (R : forall f, In f faces -> rv f = xorb (o f) (o f0)) by (intros f I; apply A, Co, I).
  assert (C' : consistent s nodes faces rv).
  { pose proof (consistent_xor s nodes faces o (o f0) C) as C'. intros f g e p q If Ig N Hp Hq. rewrite (R f If) in Hp. rewrite (R g Ig) in Hq.
    apply (C' f g e p q); assumption. }
  split; [exact E|]. split; [rewrite (R f0 F); apply xorb_nilpotent|]. split; [exact C'|]. apply (closed_of s); assumption.
Qed.
(** There is no more than one answer: two consistent orientations of connected faces agree or
    are opposite everywhere. *)
Theorem C99_unique s nodes faces o o' f0 : shell s nodes faces -> consistent s nodes faces o -> consistent s nodes faces o' ->
  In f0 faces -> connected s faces f0 -> forall f, In f faces -> xorb (o f) (o' f) = xorb (o f0) (o' f0).
Proof.
  intros SH C C' F Co f I. destruct (C99_orientation s nodes faces o f0 SH C F) as (rv & E & A & _).
  destruct (C99_orientation s nodes faces o' f0 SH C' F) as (rv' & E' & A' & _). rewrite E in E'. injection E' as <-.
  pose proof (A f (Co f I)) as X. pose proof (A' f (Co f I)) as Y. rewrite X in Y. destruct (o f), (o' f), (o f0), (o' f0); cbn in *; congruence.
Qed.
Open Scope R_scope.
(** The volume of a cell with planar faces, without any assumption on the directions of its
    faces: the volume for any consistent orientation. *)
Theorem C99_volume s nodes faces o f0 pos cx a : shell s nodes faces -> consistent s nodes faces o -> In f0 faces ->
  NoDup faces -> connected s faces f0 -> no_boundary s faces -> (forall f, In f faces -> planar (map pos (nodes f))) ->
  let v := vol6 a (map (fun f => (o f, map pos (nodes f))) faces) in v <> 0 ->
  exists rv, orientation s false faces f0 = Some rv /\
    cell_volume cx (map (fun f => (rv f, map pos (nodes f))) faces) = Some (Rabs v / 6).
Proof.
  intros SH C F ND Co NB P v V. destruct (C99_orientation s nodes faces o f0 SH C F) as (rv & E & A & _). exists rv. split; [exact E|].
  assert (Cl : closed (map (fun f => (o f, map pos (nodes f))) faces)).
  { pose proof (closed_map pos _ (closed_of s nodes faces o SH ND NB C)) as X. rewrite map_map in X. exact X. }
  assert (Pl : forall f, In f (map (fun f => (o f, map pos (nodes f))) faces) -> planar (snd f)).
  { intros f I. apply in_map_iff in I. destruct I as (g & <- & I). apply P, I. }
  assert (W := proj2 (C96_exact a cx _ Cl Pl) V). fold v in W. rewrite <- W. destruct (o f0) eqn:O0.
  - rewrite <- C96_global_direction, map_map. f_equal. apply map_ext_in. intros f I. cbn [fst snd]. rewrite (A f (Co f I)), xorb_true_r, negb_involutive. reflexivity.
  - f_equal. apply map_ext_in. intros f I. rewrite (A f (Co f I)), xorb_false_r. reflexivity.
Qed.
Example C99_nonvacuous : exists rv, orientation (cube true) false cube_faces 0 = Some rv /\ map rv cube_faces = [false; false; false; false; false; true] /\
  orientation (cube true) false cube_faces 5 <> None /\
  exists rv', orientation (cube true) false cube_faces 5 = Some rv' /\ map rv' cube_faces = [true; true; true; true; true; false].
Proof.
  destruct (cube_ok true) as (SH & C & ND & NB & Co).
  destruct (C99_orientation _ _ _ _ 0%nat SH C (or_introl eq_refl)) as (rv & E & A & _). exists rv. split; [exact E|].
  assert (I5 : In 5%nat cube_faces) by (cbn; tauto).
  destruct (C99_orientation _ _ _ _ 5%nat SH C I5) as (rv' & E' & A' & _).
  split; [cbn [map cube_faces]; rewrite !A by (apply Co; cbn; tauto); reflexivity|]. split; [rewrite E'; discriminate|].
  exists rv'. split; [exact E'|]. cbn [map cube_faces]; rewrite !A' by (apply Co; cbn; tauto); reflexivity.
Qed.

(** * C100 *)
(** The convexity test with exact numbers: for every face all centroids lie on one side. *)
Theorem C100_convexity faces : check_convexity 0 faces = true <->
  forall f, In f faces -> (forall m, In m faces -> 0 <= dot (snd f) (vsub (fst m) (fst f))) \/
                          (forall m, In m faces -> dot (snd f) (vsub (fst m) (fst f)) <= 0).
Proof.
  unfold check_convexity. rewrite forallb_forall. split; intros H f I; specialize (H f I).
  - rewrite fold_rplus', fold_rplus, !Rplus_0_l in H.
    assert (Z : Rabs (Rabs (rsum (dotvs faces f)) - rsum (map Rabs (dotvs faces f))) = 0).
    { destruct (Rlt_dec 0 _) as [L|L] in H; [discriminate|]. pose proof (Rabs_pos (Rabs (rsum (dotvs faces f)) - rsum (map Rabs (dotvs faces f)))). lra. }
    apply same_sign in Z. destruct Z as [Z|Z]; [left|right]; intros m J; apply Z; unfold dotvs; apply in_map_iff; exists m; auto.
  - rewrite fold_rplus', fold_rplus, !Rplus_0_l.
    assert (Z : Rabs (Rabs (rsum (dotvs faces f)) - rsum (map Rabs (dotvs faces f))) = 0).
    { apply same_sign. destruct H as [H|H]; [left|right]; intros d J; apply in_map_iff in J; destruct J as (m & <- & J); apply H, J. }
    rewrite Z. destruct (Rlt_dec 0 0) as [L|L]; [lra|reflexivity].
Qed.
(** With a tolerance nothing convex is rejected. *)
Theorem C100_tolerance eps faces : 0 <= eps -> check_convexity 0 faces = true -> check_convexity eps faces = true.
Proof.
  intros E H. unfold check_convexity in *. rewrite forallb_forall in *. intros f I. specialize (H f I). cbv beta zeta in *.
  destruct (Rlt_dec 0 _) as [L|L] in H; [discriminate|]. destruct (Rlt_dec eps _) as [L'|L']; [lra|reflexivity].
Qed.
(** The short way for convex cells: a normal that points away from the other faces is kept, one
    that points towards them is reversed. *)
Theorem C100_marks faces f b : In (f, b) (combine faces (convex_marks faces)) ->
  ((forall m, In m faces -> dot (snd f) (vsub (fst m) (fst f)) <= 0) -> b = false) /\
  ((forall m, In m faces -> 0 <= dot (snd f) (vsub (fst m) (fst f))) -> (exists m, In m faces /\ 0 < dot (snd f) (vsub (fst m) (fst f))) -> b = true).
Proof.
  intros I. assert (N : faces <> []) by (intros ->; destruct I).
  assert (B : b = if Rlt_dec (dot (snd f) (vsub (fst f) (mean (map fst faces)))) 0 then true else false).
  { unfold convex_marks in I. cbv zeta in I. rewrite <- (map_id faces) in I at 1. revert I. generalize (mean (map fst faces)) as c. clear N. intros c.
    induction faces as [|g l IH]; [intros []|]. cbn [map combine]. intros [E|E]; [injection E as <- <-; reflexivity|apply IH, E]. }
  pose proof (convex_value faces f N) as V. set (d := dot (snd f) (vsub (fst f) (mean (map fst faces)))) in *.
  assert (P : 0 < INR (length faces)) by (apply lt_0_INR; destruct faces; [contradiction|cbn; lia]).
  split.
  - intros H. assert (X : rsum (dotvs faces f) <= 0).
    { clear -H. unfold dotvs. assert (G : forall l, (forall m, In m l -> In m faces) -> rsum (map (fun m => dot (snd f) (vsub (fst m) (fst f))) l) <= 0).
      { induction l as [|m l IH]; intros S; [cbn; lra|]. cbn [map]. rewrite rsum_cons. assert (A := H m (S m (or_introl eq_refl))).
        assert (B := IH (fun x Hx => S x (or_intror Hx))). lra. }
      apply G; auto. }
    rewrite B. destruct (Rlt_dec d 0) as [L|L]; [exfalso; nra|reflexivity].
  - intros H (m0 & I0 & M0). assert (X : 0 < rsum (dotvs faces f)).
    { unfold dotvs. apply in_split in I0. destruct I0 as (l1 & l2 & E). assert (G : forall l, (forall m, In m l -> In m faces) -> 0 <= rsum (map (fun m => dot (snd f) (vsub (fst m) (fst f))) l)).
      { clear -H. induction l as [|m l IH]; intros S; [cbn; lra|]. cbn [map]. rewrite rsum_cons. assert (A := H m (S m (or_introl eq_refl))).
        assert (B := IH (fun x Hx => S x (or_intror Hx))). lra. }
      assert (G1 := G l1). assert (G2 := G l2). rewrite E in G1, G2 |- *. rewrite map_app, rsum_app. cbn [map]. rewrite rsum_cons.
      specialize (G1 (fun m J => in_or_app l1 (m0 :: l2) m (or_introl J))). specialize (G2 (fun m J => in_or_app l1 (m0 :: l2) m (or_intror (or_intror J)))). lra. }
    rewrite B. destruct (Rlt_dec d 0) as [L|L]; [reflexivity|exfalso; nra].
Qed.
(** the six faces of the unit cube, the last one directed inside; a notched set of faces *)
Definition box_faces : list (vec * vec) :=
  [(V (1/2) (1/2) 0, V 0 0 (-1)); (V (1/2) 0 (1/2), V 0 (-1) 0); (V 1 (1/2) (1/2), V 1 0 0);
   (V (1/2) 1 (1/2), V 0 1 0); (V 0 (1/2) (1/2), V (-1) 0 0); (V (1/2) (1/2) 1, V 0 0 (-1))].
Example C100_nonvacuous : check_convexity 0 box_faces = true /\ convex_marks box_faces = [false; false; false; false; false; true] /\
  check_convexity 0 [(V 0 0 0, V 0 0 1); (V 0 0 1, V 1 0 0); (V 0 1 (-1), V 0 1 0)] = false.
Proof.
  assert (D : forall a1 a2 a3 b1 b2 b3 n1 n2 n3, dot (snd (V a1 a2 a3, V n1 n2 n3)) (vsub (fst (V b1 b2 b3, V 0 0 0)) (fst (V a1 a2 a3, V n1 n2 n3))) = n1 * (b1 - a1) + n2 * (b2 - a2) + n3 * (b3 - a3)) by (intros; vunf; ring).
  assert (Out : forall f, In f (firstn 5 box_faces) -> forall m, In m box_faces -> dot (snd f) (vsub (fst m) (fst f)) <= 0).
  { intros f I m J. cbn in I, J. repeat (destruct I as [<-|I]; [repeat (destruct J as [<-|J]; [vunf; lra|]); destruct J|]). destruct I. }
  assert (In_ : forall m, In m box_faces -> 0 <= dot (V 0 0 (-1)) (vsub (fst m) (V (1/2) (1/2) 1))).
  { intros m J. cbn in J. repeat (destruct J as [<-|J]; [vunf; lra|]). destruct J. }
  split; [|split].
  - apply C100_convexity. intros f I. cbn in I. destruct I as [<-|[<-|[<-|[<-|[<-|[<-|[]]]]]]];
      try (right; apply Out; cbn; tauto). left. exact In_.
  - assert (L : forall l : list bool, length l = 6%nat -> exists a b c d e f, l = [a; b; c; d; e; f]).
    { intros l E. destruct l as [|a [|b [|c [|d [|e [|f [|g l]]]]]]]; try discriminate. repeat eexists. }
    destruct (L (convex_marks box_faces)) as (a & b & c & d & e & f & E); [unfold convex_marks; rewrite map_length; reflexivity|].
    assert (M := fun x y => C100_marks box_faces x y). rewrite E in M |- *. cbn [combine box_faces] in M. fold box_faces in M.
    assert (Ha : a = false) by (eapply (proj1 (M _ a (or_introl eq_refl))); apply Out; cbn; tauto).
    assert (Hb : b = false) by (eapply (proj1 (M _ b (or_intror (or_introl eq_refl)))); apply Out; cbn; tauto).
    assert (Hc : c = false) by (eapply (proj1 (M _ c (or_intror (or_intror (or_introl eq_refl))))); apply Out; cbn; tauto).
    assert (Hd : d = false) by (eapply (proj1 (M _ d (or_intror (or_intror (or_intror (or_introl eq_refl)))))); apply Out; cbn; tauto).
    assert (He : e = false) by (eapply (proj1 (M _ e (or_intror (or_intror (or_intror (or_intror (or_introl eq_refl))))))); apply Out; cbn; tauto).
    assert (Hf : f = true).
    { eapply (proj2 (M _ f (or_intror (or_intror (or_intror (or_intror (or_intror (or_introl eq_refl))))))));
        [exact In_|exists (V (1/2) (1/2) 0, V 0 0 (-1)); split; [left; reflexivity|vunf; lra]]. }
    subst. reflexivity.
  - destruct (check_convexity 0 _) eqn:E; [|reflexivity]. exfalso. rewrite C100_convexity in E.
    destruct (E _ (or_introl eq_refl)) as [H|H].
    + specialize (H _ (or_intror (or_intror (or_introl eq_refl)))). cbn [fst snd] in H. revert H. vunf. lra.
    + specialize (H _ (or_intror (or_introl eq_refl))). cbn [fst snd] in H. revert H. vunf. lra.
Qed.

(** * C101 *)
(** CheckNormalOrientation on a cell with planar faces: true means that the volume of the cell is
    not negative when all faces are directed as this face directs them. *)
Theorem C101_check s nodes faces o f pos a : shell s nodes faces -> consistent s nodes faces o -> In f faces ->
  NoDup faces -> connected s faces f -> no_boundary s faces -> (forall g, In g faces -> planar (map pos (nodes g))) ->
  o f = false ->
  exists b, check_normal s pos faces f = Some b /\
    (b = true <-> 0 <= vol6 a (map (fun g => (o g, map pos (nodes g))) faces)).
Proof.
  intros SH C F ND Co NB P O. destruct (C99_orientation s nodes faces o f SH C F) as (rv & E & A & _).
  assert (R : map (fun g => (rv g, map pos (nodes g))) faces = map (fun g => (o g, map pos (nodes g))) faces)
    by (apply map_ext_in; intros g I; rewrite (A g (Co g I)), O, xorb_false_r; reflexivity).
  assert (Cl : closed (map (fun g => (o g, map pos (nodes g))) faces)).
  { pose proof (closed_map pos _ (closed_of s nodes faces o SH ND NB C)) as X. rewrite map_map in X. exact X. }
  unfold check_normal. rewrite E, (measure_vol s nodes pos faces rv SH P), R, (vol6_apex vzero a _ Cl).
  set (v := vol6 a (map (fun g => (o g, map pos (nodes g))) faces)). destruct (Rlt_dec (v / 2) 0) as [L|L]; eexists; (split; [reflexivity|]).
  - split; [discriminate|lra].
  - split; [lra|reflexivity].
Qed.
(** After FixNormalOrientation the check succeeds and the other faces are as before. *)
Theorem C101_fix s nodes faces o f pos : shell s nodes faces -> consistent s nodes faces o -> In f faces ->
  NoDup faces -> connected s faces f -> no_boundary s faces -> (forall g, In g faces -> planar (map pos (nodes g))) ->
  exists s', fix_normal s pos faces f = Some s' /\ check_normal s' pos faces f = Some true /\
    (forall g, g <> f -> fedges s' g = fedges s g) /\ (fedges s' f = fedges s f \/ fedges s' f = rev (fedges s f)) /\
    (check_normal s pos faces f = Some false -> face_normal (map pos (face_nodes s' f)) = vmul (-1) (face_normal (map pos (face_nodes s f)))).
Proof.
  intros SH C F ND Co NB P. set (o1 := fun g => xorb (o g) (o f)).
  assert (C1 : consistent s nodes faces o1) by (apply consistent_xor; exact C).
  destruct (C101_check s nodes faces o1 f pos vzero SH C1 F ND Co NB P (xorb_nilpotent _)) as (b & E & B).
  unfold fix_normal. rewrite E. destruct b.
  - exists s. split; [reflexivity|]. split; [exact E|]. split; [reflexivity|]. split; [left; reflexivity|discriminate].
  - set (s' := reorder_face s f). set (nodes' := reorder_nodes nodes f). exists s'. split; [reflexivity|].
    assert (SH' : shell s' nodes' faces) by (apply reorder_shell, SH).
    assert (C' : consistent s' nodes' faces (fun g => negb (xorb (o1 g) (g =? f)))).
    { pose proof (consistent_xor _ _ _ _ true (reorder_consistent s nodes faces f o1 SH C1)) as X. intros g h e p q Ig Ih N Hp Hq.
      apply (X g h e p q Ig Ih N); rewrite xorb_true_r; assumption. }
    assert (Pm : forall g, Permutation (map pos (nodes' g)) (map pos (nodes g))).
    { intros g. apply Permutation_map. unfold nodes', reorder_nodes. destruct (g =? f); [apply back_perm|reflexivity]. }
    assert (P' : forall g, In g faces -> planar (map pos (nodes' g))).
    { intros g I. apply (planar_perm (map pos (nodes g))); [symmetry; apply Pm|apply P, I]. }
    assert (O' : negb (xorb (o1 f) (f =? f)) = false) by (unfold o1; rewrite Nat.eqb_refl, xorb_nilpotent; reflexivity).
    destruct (C101_check s' nodes' faces _ f pos vzero SH' C' F ND (reorder_connected s faces f Co) (reorder_boundary s faces f NB) P' O') as (b' & E' & B').
    assert (Nr : forall g, face_normal (map pos (nodes' g)) = vmul (if g =? f then -1 else 1) (face_normal (map pos (nodes g)))).
    { intros g. unfold nodes', reorder_nodes. destruct (g =? f); [|rewrite vmul_1; reflexivity]. destruct (nodes g) as [|n r]; [cbn; vring|].
      cbn [back map]. rewrite map_rev. rewrite <- (normal_rev (pos n :: map pos r)). cbn [rev]. rewrite normal_rotate. reflexivity. }
    assert (Vn : vol6 vzero (map (fun g => (negb (xorb (o1 g) (g =? f)), map pos (nodes' g))) faces) = - vol6 vzero (map (fun g => (o1 g, map pos (nodes g))) faces)).
    { unfold vol6. rewrite !map_map. cbn [fst snd]. clear -P P' Pm Nr F. assert (G : forall l, (forall g, In g l -> In g faces) ->
        rsum (map (fun g => sgn (negb (xorb (o1 g) (g =? f))) * rsum (map (tet6 vzero) (fan_tets (map pos (nodes' g))))) l) =
        - rsum (map (fun g => sgn (o1 g) * rsum (map (tet6 vzero) (fan_tets (map pos (nodes g))))) l)); [|apply G; auto].
      induction l as [|g l IH]; intros S; [cbn; ring|]. cbn [map]. rewrite !rsum_cons, IH by (intros; apply S; right; assumption).
      assert (D : forall k, rsum (map (tet6 vzero) (fan_tets (map pos k))) = match k with [] => 0 | n :: _ => 2 * dot (pos n) (face_normal (map pos k)) end).
      { intros [|n r]; [reflexivity|]. cbn [map]. rewrite face_normal_fan, dot_vsum. unfold fan_tets. rewrite map_map.
        rewrite (map_ext _ (fun t => 2 * dot (pos n) (half_cross (pos n) t))) by (intros (x & y); vunf; field). rewrite rsum_mul. ring. }
      assert (Q : rsum (map (tet6 vzero) (fan_tets (map pos (nodes' g)))) = (if g =? f then -1 else 1) * rsum (map (tet6 vzero) (fan_tets (map pos (nodes g))))).
      { rewrite !D, Nr. assert (Hd : nodes' g = nodes g \/ exists n r, nodes g = n :: r /\ nodes' g = n :: rev r).
        { unfold nodes', reorder_nodes. destruct (g =? f); [|left; reflexivity]. destruct (nodes g) as [|n r]; [left; reflexivity|right; exists n, r; auto]. }
        destruct Hd as [-> |(n & r & E1 & E2)]; [|rewrite E1, E2, dot_mul_r; ring]. destruct (nodes g); [ring|rewrite dot_mul_r; ring]. }
      rewrite Q. destruct (g =? f), (o1 g); cbn [xorb negb sgn]; ring. }
    rewrite Vn in B'. split.
    + rewrite E'. f_equal. apply B'. destruct (Rle_dec 0 (vol6 vzero (map (fun g => (o1 g, map pos (nodes g))) faces))) as [L|L]; [apply B in L; discriminate|lra].
    + split; [intros g N; unfold s'; cbn [fedges reorder_face]; apply Nat.eqb_neq in N; rewrite N; reflexivity|].
      split; [right; unfold s'; cbn [fedges reorder_face]; rewrite Nat.eqb_refl; reflexivity|]. intros _.
      rewrite (face_nodes_loop s' f (nodes' f)) by apply SH', F. rewrite (face_nodes_loop s f (nodes f)) by apply SH, F.
      rewrite Nr, Nat.eqb_refl. reflexivity.
Qed.
Lemma cube_planar turn f : In f cube_faces -> planar (map cube_pos (cube_nodes turn f)).
Proof.
  assert (Z : planar (map cube_pos [0;1;2;3]%nat) /\ planar (map cube_pos [4;5;6;7]%nat)).
  { split; [exists (V 0 0 0), (V 1 0 0), (V 0 1 0)|exists (V 0 0 1), (V 1 0 0), (V 0 1 0)];
      intros v [<-|[<-|[<-|[<-|[]]]]]; cbn; [exists 0, 0|exists 1, 0|exists 1, 1|exists 0, 1|exists 0, 0|exists 1, 0|exists 1, 1|exists 0, 1]; vring. }
  destruct Z as (Z1 & Z2). intros I. unfold cube_faces in I. destruct I as [<-|[<-|[<-|[<-|[<-|[<-|[]]]]]]].
  - apply (planar_perm (map cube_pos [0;1;2;3]%nat)); [|exact Z1]. apply Permutation_map. cbn [cube_nodes nth]. apply perm_skip. apply (Permutation_rev [1;2;3]%nat).
  - exists (V 0 0 0), (V 1 0 0), (V 0 0 1). intros v [<-|[<-|[<-|[<-|[]]]]]; cbn; [exists 0, 0|exists 1, 0|exists 1, 1|exists 0, 1]; vring.
  - exists (V 1 0 0), (V 0 1 0), (V 0 0 1). intros v [<-|[<-|[<-|[<-|[]]]]]; cbn; [exists 0, 0|exists 1, 0|exists 1, 1|exists 0, 1]; vring.
  - exists (V 0 1 0), (V 1 0 0), (V 0 0 1). intros v [<-|[<-|[<-|[<-|[]]]]]; cbn; [exists 1, 0|exists 0, 0|exists 0, 1|exists 1, 1]; vring.
  - exists (V 0 0 0), (V 0 1 0), (V 0 0 1). intros v [<-|[<-|[<-|[<-|[]]]]]; cbn; [exists 1, 0|exists 0, 0|exists 0, 1|exists 1, 1]; vring.
  - destruct turn; [|exact Z2]. apply (planar_perm (map cube_pos [4;5;6;7]%nat)); [|exact Z2]. apply Permutation_map. cbn [cube_nodes nth]. apply perm_skip. apply (Permutation_rev [5;6;7]%nat).
Qed.
Lemma cube_vol6 turn : vol6 vzero (map (fun f => (cube_o turn f, map cube_pos (cube_nodes turn f))) cube_faces) = 6.
Proof. unfold vol6. destruct turn; cbn; vunf; ring. Qed.
Example C101_nonvacuous : check_normal (cube true) cube_pos cube_faces 5 = Some false /\ check_normal (cube false) cube_pos cube_faces 5 = Some true /\
  check_normal (cube true) cube_pos cube_faces 0 = Some true /\
  exists s', fix_normal (cube true) cube_pos cube_faces 5 = Some s' /\ map (fedges s') cube_faces = map (cube_edges false) [0;1;2;3;4]%nat ++ [[4;5;6;7]%nat].
Proof.
  assert (I5 : In 5%nat cube_faces) by (cbn; tauto).
  assert (A : check_normal (cube true) cube_pos cube_faces 5 = Some false).
  { destruct (cube_ok true) as (SH & C & ND & NB & Co). pose proof (consistent_xor _ _ _ _ true C) as C'.
    destruct (C101_check _ _ _ _ 5%nat cube_pos vzero SH C' I5 ND (Co _ I5) NB (cube_planar true) eq_refl) as (b & E & B).
    rewrite E. destruct b; [|reflexivity]. exfalso. assert (X := proj1 B eq_refl). clear B. unfold vol6 in X. cbn in X. revert X. vunf. lra. }
  split; [exact A|]. split; [|split].
  - destruct (cube_ok false) as (SH & C & ND & NB & Co).
    destruct (C101_check _ _ _ _ 5%nat cube_pos vzero SH C I5 ND (Co _ I5) NB (cube_planar false) eq_refl) as (b & E & B).
    rewrite E. f_equal. apply B. rewrite cube_vol6. lra.
  - destruct (cube_ok true) as (SH & C & ND & NB & Co). assert (I0 : In 0%nat cube_faces) by (cbn; tauto).
    destruct (C101_check _ _ _ _ 0%nat cube_pos vzero SH C I0 ND (Co _ I0) NB (cube_planar true) eq_refl) as (b & E & B).
    rewrite E. f_equal. apply B. rewrite cube_vol6. lra.
  - unfold fix_normal. rewrite A. eexists. split; reflexivity.
Qed.

(** * C102 *)
(** The search inside of Cell::Inside looks again and again at the first face: neighbours of it
    get the right mark, all other faces stay unmarked. *)
Theorem C102_inside_marks s nodes faces o f0 : shell s nodes faces -> consistent s nodes faces o -> In f0 faces ->
  exists rv, orientation s true faces f0 = Some rv /\
    (forall f, share s faces f0 f -> rv f = xorb (o f) (o f0)) /\ (forall f, ~ share s faces f0 f -> rv f = false).
Proof.
  intros SH C F. pose proof (consistent_xor s nodes faces o (o f0) C) as C'.
  destruct (stale_ok s nodes faces (fun f => xorb (o f) (o f0)) f0 SH C' F (xorb_nilpotent _)) as (rv & E & A & B).
  exists rv. split; [exact E|]. split; [exact B|]. intros f N. destruct (rv f) eqn:R; [|reflexivity]. exfalso. apply N, A, R.
Qed.
(** If all faces touch the first one, as in a tetrahedron, the marks are those of C99. *)
Theorem C102_all_neighbours s nodes faces o f0 : shell s nodes faces -> consistent s nodes faces o -> In f0 faces ->
  (forall f, In f faces -> share s faces f0 f) ->
  exists rv rv', orientation s true faces f0 = Some rv /\ orientation s false faces f0 = Some rv' /\ forall f, In f faces -> rv f = rv' f.
Proof.
  intros SH C F N. destruct (C102_inside_marks s nodes faces o f0 SH C F) as (rv & E & A & _).
  destruct (C99_orientation s nodes faces o f0 SH C F) as (rv' & E' & A' & _). exists rv, rv'. split; [exact E|]. split; [exact E'|].
  intros f I. rewrite (A f (N f I)). symmetry. apply A', rt_step, N, I.
Qed.
Definition cube_inside (eps : R) (p : vec) (turn : bool) (rv : nat -> bool) : bool :=
  inside eps p (map (fun f => (rv f, (mean (map cube_pos (cube_nodes turn f)), map cube_pos (cube_nodes turn f)))) cube_faces).
(** Otherwise the answer may be wrong: the centre of the unit cube is not inside if the face
    opposite to the first one is directed the other way; with the marks of FacesOrientation
    it is inside. *)
Theorem C102_inside_refuted eps : 0 <= eps < 1 -> exists rv rv',
  orientation (cube true) true cube_faces 0 = Some rv /\ cube_inside eps (V (1/2) (1/2) (1/2)) true rv = false /\
  orientation (cube true) false cube_faces 0 = Some rv' /\ cube_inside eps (V (1/2) (1/2) (1/2)) true rv' = true.
Proof.
  intros Eps. destruct (cube_ok true) as (SH & C & ND & NB & Co). assert (I0 : In 0%nat cube_faces) by (cbn; tauto).
  destruct (C102_inside_marks _ _ _ _ 0%nat SH C I0) as (rv & E & A & A'). destruct (C99_orientation _ _ _ _ 0%nat SH C I0) as (rv' & E' & B & _).
  exists rv, rv'. split; [exact E|]. split; [|split; [exact E'|]].
  - assert (R0 : rv 0%nat = false).
    { rewrite A; [reflexivity|]. split; [exact I0|]. split; [exact I0|]. exists 0%nat. cbn. tauto. }
    assert (R5 : rv 5%nat = false).
    { apply A'. intros (_ & _ & e & J & K). cbn in J, K. lia. }
    destruct (cube_inside eps _ true rv) eqn:X; [|reflexivity]. exfalso. unfold cube_inside in X. rewrite C98_answer in X by apply Eps. apply X. clear X. split.
    + eexists. split; [cbn [map cube_faces]; left; reflexivity|]. cbn [fst snd]. rewrite R0. cbn [sgn map cube_nodes nth]. rewrite quad by (cbn; vring). cbn. vunf. lra.
    + eexists. split; [cbn [map cube_faces]; do 5 right; left; reflexivity|]. cbn [fst snd]. rewrite R5. cbn [sgn map cube_nodes nth]. rewrite quad by (cbn; vring). cbn. vunf. lra.
  - unfold cube_inside. rewrite C98_answer by apply Eps. cbv zeta. intros ((f & I & L) & (g & J & M)). clear L I f.
    apply in_map_iff in J. destruct J as (k & <- & J). cbn [fst snd] in M. rewrite (B k (Co 0%nat I0 k J)) in M. revert M.
    unfold cube_faces in J. destruct J as [<-|[<-|[<-|[<-|[<-|[<-|[]]]]]]]; cbn [cube_nodes nth cube_o andb Nat.eqb xorb sgn map];
      (rewrite quad by (cbn; vring)); cbn; vunf; lra.
Qed.
(** the tetrahedron with ids: edges 01 02 03 12 13 23 *)
Definition tet_surf : surf := mk_surf (fun e => nth e [(0,1); (0,2); (0,3); (1,2); (1,3); (2,3)] (0,0))%nat
  (fun f => nth f [[3;5;4]; [2;5;1]; [2;4;0]; [1;3;0]]%nat []) [0;1;2;3]%nat.
Example C102_nonvacuous : let nodes := fun f => nth f [[1;2;3]; [0;3;2]; [0;3;1]; [0;2;1]]%nat [] in let o := fun f => (f =? 2)%nat in
  shell tet_surf nodes [0;1;2;3]%nat /\ consistent tet_surf nodes [0;1;2;3]%nat o /\
  (forall f, In f [0;1;2;3]%nat -> share tet_surf [0;1;2;3]%nat 0 f).
Proof.
  intros nodes o. split; [apply mk_shell; vm_compute; reflexivity|]. split; [apply consistentb_ok; vm_compute; reflexivity|].
  intros f I. split; [left; reflexivity|]. split; [exact I|]. destruct I as [<-|[<-|[<-|[<-|[]]]]]; [exists 3%nat|exists 5%nat|exists 4%nat|exists 3%nat]; cbn; tauto.
Qed.

Print Assumptions C99_orientation.
Print Assumptions C99_closes_the_cell.
Print Assumptions C99_unique.
Print Assumptions C99_volume.
Print Assumptions C100_convexity.
Print Assumptions C100_tolerance.
Print Assumptions C100_marks.
Print Assumptions C101_check.
Print Assumptions C101_fix.
Print Assumptions C102_inside_marks.
Print Assumptions C102_all_neighbours.
Print Assumptions C102_inside_refuted.
