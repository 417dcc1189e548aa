(** C66: CrossProduct and Transform. *)
From Coq Require Import Reals Lra.
From Verif Require Import Rot_Model Rot_Proofs.
Open Scope R_scope.

(** The cross product is orthogonal to both vectors, changes sign when they are
    exchanged, and its square is |A|^2 |B|^2 - (A.B)^2. *)
Theorem C66_cross_product : forall A B,
  inner A (cross A B) = 0 /\ inner B (cross A B) = 0 /\
  cross B A = mk_vec (- v0 (cross A B)) (- v1 (cross A B)) (- v2 (cross A B)) /\
  sq (cross A B) = sq A * sq B - inner A B * inner A B.
Proof.
  intros A B. split; [unfold inner, cross; cbn [v0 v1 v2]; ring|split; [unfold inner, cross; cbn [v0 v1 v2]; ring|split; [|apply lagrange]]].
  unfold cross. cbn [v0 v1 v2]. f_equal; ring.
Qed.

(** Transform maps the first vector to the second, unless they are opposite. *)
Theorem C66_transform_maps : forall A B, 0 < sq A -> 0 < sq B ->
  (forall c, c < 0 -> B <> mk_vec (c * v0 A) (c * v1 A) (c * v2 A)) ->
  apply3 (transform A B) A = B.
Proof.
  intros A B HA HB N. apply transform_maps; try assumption. intro E. apply (w_zero A B HA HB) in E.
  destruct E as [c [Lc E]]. exact (N c Lc E).
Qed.

(** It is a rotation times |B|/|A|. *)
Theorem C66_transform_rotation : forall A B, 0 < sq A -> 0 < sq B ->
  (forall c, c < 0 -> B <> mk_vec (c * v0 A) (c * v1 A) (c * v2 A)) ->
  let Q := transform A B in let l := sqrt (sq B) / sqrt (sq A) in
  inner (r0 Q) (r0 Q) = l * l /\ inner (r1 Q) (r1 Q) = l * l /\ inner (r2 Q) (r2 Q) = l * l /\
  inner (r0 Q) (r1 Q) = 0 /\ inner (r0 Q) (r2 Q) = 0 /\ inner (r1 Q) (r2 Q) = 0 /\
  inner (r0 Q) (cross (r1 Q) (r2 Q)) = l * l * l.
Proof.
  intros A B HA HB N. cbv zeta.
  assert (W : norm A * norm B + dot A B <> 0).
  { intro E. apply (w_zero A B HA HB) in E. destruct E as [c [Lc E]]. exact (N c Lc E). }
  assert (Nq : forall V, sqrt (sq V) = norm V) by (intro V; unfold norm, sq; f_equal; ring). rewrite !Nq.
  pose proof (transform_ortho A B HA HB W) as [H1 [H2 [H3 [H4 [H5 H6]]]]]. cbv zeta in *.
  repeat (split; [assumption|]). apply (transform_det A B HA HB W).
Qed.

(** Vectors perpendicular to both keep their direction: it is the shortest rotation. *)
Theorem C66_transform_axis : forall A B, 0 < sq A -> 0 < sq B ->
  (forall c, c < 0 -> B <> mk_vec (c * v0 A) (c * v1 A) (c * v2 A)) ->
  let l := sqrt (sq B) / sqrt (sq A) in let X := cross A B in
  apply3 (transform A B) X = mk_vec (l * v0 X) (l * v1 X) (l * v2 X).
Proof.
  intros A B HA HB N. cbv zeta.
  assert (Nq : forall V, sqrt (sq V) = norm V) by (intro V; unfold norm, sq; f_equal; ring). rewrite !Nq.
  unfold transform, apply3, cross. cbn [v0 v1 v2 r0 r1 r2]. f_equal; ring.
Qed.

(** For opposite vectors the quaternion is zero: the code divides by zero. *)
Theorem C66_opposite_divides_by_zero : forall A c, 0 < sq A -> c < 0 ->
  let B := mk_vec (c * v0 A) (c * v1 A) (c * v2 A) in
  let X := cross A B in norm A * norm B + dot A B = 0 /\ v0 X = 0 /\ v1 X = 0 /\ v2 X = 0.
Proof.
  intros A c HA Lc. cbv zeta. set (B := mk_vec (c * v0 A) (c * v1 A) (c * v2 A)).
  split; [|unfold cross, B; cbn [v0 v1 v2]; repeat split; ring].
  apply (w_zero A B HA); [replace (sq B) with (c * c * sq A) by (unfold sq, B; cbn [v0 v1 v2]; ring); apply Rmult_lt_0_compat; [nra|exact HA]|]. exists c. split; [exact Lc|reflexivity].
Qed.

Example C66_nonvacuous : let A := mk_vec 1 0 0 in let B := mk_vec 0 1 0 in
  0 < sq A /\ 0 < sq B /\ (forall c, c < 0 -> B <> mk_vec (c * v0 A) (c * v1 A) (c * v2 A)) /\
  apply3 (transform A B) A = B /\ apply3 (transform A B) B = mk_vec (- 1) 0 0.
Proof.
  cbv zeta. assert (H1 : 0 < sq (mk_vec 1 0 0)) by (unfold sq; cbn; lra).
  assert (H2 : 0 < sq (mk_vec 0 1 0)) by (unfold sq; cbn; lra).
  assert (H3 : forall c, c < 0 -> mk_vec 0 1 0 <> mk_vec (c * v0 (mk_vec 1 0 0)) (c * v1 (mk_vec 1 0 0)) (c * v2 (mk_vec 1 0 0))).
  { intros c Lc E. apply (f_equal v1) in E. cbn [v0 v1 v2] in E. lra. }
  split; [exact H1|split; [exact H2|split; [exact H3|split; [now apply C66_transform_maps|]]]].
  assert (Na : norm (mk_vec 1 0 0) = 1) by (unfold norm; cbn [v0 v1 v2]; replace (0 + 1 * 1 + 0 * 0 + 0 * 0) with 1 by ring; apply sqrt_1).
  assert (Nb : norm (mk_vec 0 1 0) = 1) by (unfold norm; cbn [v0 v1 v2]; replace (0 + 0 * 0 + 1 * 1 + 0 * 0) with 1 by ring; apply sqrt_1).
  unfold transform, apply3. rewrite Na, Nb. unfold dot. cbn [v0 v1 v2 r0 r1 r2]. f_equal; field.
Qed.

Print Assumptions C66_cross_product.
Print Assumptions C66_transform_maps.
Print Assumptions C66_transform_rotation.
Print Assumptions C66_transform_axis.
Print Assumptions C66_opposite_divides_by_zero.
