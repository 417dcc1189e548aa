(** C83, C84: geometric tests used by IntersectSphere and IntersectSegment. *)
From Coq Require Import List Bool Reals Lra Psatz.
From Verif Require Import Tri_Model Tri_Spec Tri_Proofs.
Import ListNotations.
Open Scope R_scope.

(** ** C83: distances *)
Theorem C83_segment_distance : forall a b p, distance_to (on_seg a b) p (segment_distance a b p).
Proof. exact segment_distance_ok. Qed.

(** The distance to a triangle, also to a degenerate one unless the point is on its line. *)
Theorem C83_triangle_distance : forall a b c p,
  sqnorm (area_vec a b c) <> 0 \/
  sqnorm (area_vec p a b) <> 0 \/ sqnorm (area_vec p b c) <> 0 \/ sqnorm (area_vec p c a) <> 0 ->
  distance_to (on_tri a b c) p (triangle_distance a b c p).
Proof.
  intros a b c p H. destruct (Req_dec (sqnorm (area_vec a b c)) 0) as [E|E].
  - apply triangle_degenerate; auto. destruct H as [H|H]; [congruence|auto].
  - apply triangle_distance_ok, E.
Qed.
(** On the line of a degenerate triangle the answer is 0 everywhere. *)
Theorem C83_degenerate_line : forall a b c p, sqnorm (area_vec a b c) = 0 ->
  sqnorm (area_vec p a b) = 0 -> sqnorm (area_vec p b c) = 0 -> sqnorm (area_vec p c a) = 0 ->
  triangle_distance a b c p = 0.
Proof. intros a b c p H H1 H2 H3. apply triangle_degenerate; auto. Qed.
Theorem C83_degenerate_refuted : exists a b c p,
  ~ distance_to (on_tri a b c) p (triangle_distance a b c p).
Proof.
  exists (V 0 0 0), (V 1 0 0), (V 2 0 0), (V 5 0 0).
  rewrite C83_degenerate_line; try (unfold sqnorm, area_vec; cbn; ring).
  intros [(q & (x & y & z & X0 & Y0 & Z0 & Bs & B1 & B2 & B3) & E) _]. cbn in B1, B2, B3.
  unfold euclid in E. cbn in E. symmetry in E. apply sqrt_eq_0 in E; [|nra]. nra.
Qed.

Theorem C83_sphere_tri : forall a b c p r, sqnorm (area_vec a b c) <> 0 ->
  sphere_tri a b c p r = true <-> exists q, on_tri a b c q /\ euclid p q <= r.
Proof.
  intros a b c p r H. unfold sphere_tri. rewrite leb_true.
  destruct (triangle_distance_ok a b c p H) as ((q & T & E) & L). split.
  - intros Hr. exists q. split; auto. lra.
  - intros (q' & T' & E'). specialize (L q' T'). lra.
Qed.
(** The face test: some point of the face, drawn as triangles about its centroid, is in the ball. *)
Theorem C83_sphere_face : forall centre nodes p r,
  (forall a b, In (a, b) (sides nodes) -> sqnorm (area_vec a b centre) <> 0) ->
  sphere_face centre nodes p r = true <-> exists q, on_face centre nodes q /\ euclid p q <= r.
Proof.
  intros centre nodes p r H. unfold sphere_face. rewrite existsb_exists, fan_sides. split.
  - intros ([a b] & Hin & Hs). cbn [fst snd] in Hs. apply C83_sphere_tri in Hs as (q & T & E); auto.
    exists q. split; auto. exists a, b. auto.
  - intros (q & (a & b & Hin & T) & E). exists (a, b). split; auto. cbn [fst snd]. apply C83_sphere_tri; eauto.
Qed.
(** The cell test: some point of the boundary of the cell is in the ball. *)
Theorem C83_sphere_cell : forall faces p r,
  (forall c ns a b, In (c, ns) faces -> In (a, b) (sides ns) -> sqnorm (area_vec a b c) <> 0) ->
  sphere_cell faces p r = true <-> exists c ns q, In (c, ns) faces /\ on_face c ns q /\ euclid p q <= r.
Proof.
  intros faces p r H. unfold sphere_cell. rewrite existsb_exists. split.
  - intros ([c ns] & Hin & Hs). cbn [fst snd] in Hs. apply C83_sphere_face in Hs as (q & T & E); eauto 6.
  - intros (c & ns & q & Hin & T & E). exists (c, ns). split; auto. cbn [fst snd]. apply C83_sphere_face; eauto.
Qed.

(** a cube with side 4 *)
Definition quad (f : R -> R -> vec) : vec * list vec := (f 2 2, [f 0 0; f 4 0; f 4 4; f 0 4]).
Definition cube : list (vec * list vec) :=
  [quad (fun s t => V 0 s t); quad (fun s t => V 4 s t); quad (fun s t => V s 0 t); quad (fun s t => V s 4 t);
   quad (fun s t => V s t 0); quad (fun s t => V s t 4)].
Lemma cube_sides : forall c ns a b, In (c, ns) cube -> In (a, b) (sides ns) ->
  sqnorm (area_vec a b c) <> 0 /\
  ((vx a = 0 /\ vx b = 0 /\ vx c = 0) \/ (vx a = 4 /\ vx b = 4 /\ vx c = 4) \/
   (vy a = 0 /\ vy b = 0 /\ vy c = 0) \/ (vy a = 4 /\ vy b = 4 /\ vy c = 4) \/
   (vz a = 0 /\ vz b = 0 /\ vz c = 0) \/ (vz a = 4 /\ vz b = 4 /\ vz c = 4)).
Proof.
  intros c ns a b H Hs. cbn in H.
  repeat (destruct H as [H|H]; [injection H as <- <-; cbn in Hs;
    repeat (destruct Hs as [Hs|Hs]; [injection Hs as <- <-; split; [unfold sqnorm, area_vec; cbn; lra|cbn; tauto]|]);
    destruct Hs|]).
  destruct H.
Qed.
Lemma cube_face_points : forall c ns a b x y z q, In (c, ns) cube -> In (a, b) (sides ns) -> bary x y z a b c q ->
  vx q = 0 \/ vx q = 4 \/ vy q = 0 \/ vy q = 4 \/ vz q = 0 \/ vz q = 4.
Proof.
  intros c ns a b x y z q Hc Hs (Bs & B1 & B2 & B3). destruct (cube_sides c ns a b Hc Hs) as (_ & H).
  destruct H as [(E1 & E2 & E3)|[(E1 & E2 & E3)|[(E1 & E2 & E3)|[(E1 & E2 & E3)|[(E1 & E2 & E3)|(E1 & E2 & E3)]]]]];
  rewrite ?B1, ?B2, ?B3, E1, E2, E3.
  - left; ring.
  - right; left. lra.
  - do 2 right; left; ring.
  - do 3 right; left. lra.
  - do 4 right; left; ring.
  - do 5 right. lra.
Qed.

(** A ball that lies inside a cell does not count as an intersection with the cell. *)
Theorem C83_ball_inside_refuted :
  (forall q, euclid (V 2 2 2) q <= 1 -> 0 < vx q < 4 /\ 0 < vy q < 4 /\ 0 < vz q < 4) /\
  sphere_cell cube (V 2 2 2) 1 = false.
Proof.
  split.
  { intros q H. assert ((2 - vx q) * (2 - vx q) + (2 - vy q) * (2 - vy q) + (2 - vz q) * (2 - vz q) <= 1) as L.
    { apply sqrt_le_0; [|lra|rewrite sqrt_1; exact H].
      pose proof (Rle_0_sqr (2 - vx q)). pose proof (Rle_0_sqr (2 - vy q)). pose proof (Rle_0_sqr (2 - vz q)). unfold Rsqr in *. lra. }
    pose proof (Rle_0_sqr (2 - vx q)). pose proof (Rle_0_sqr (2 - vy q)). pose proof (Rle_0_sqr (2 - vz q)). unfold Rsqr in *.
    assert (forall w, (2 - w) * (2 - w) <= 1 -> 0 < w < 4) as G by (intros w Hw; split; nra).
    split; [|split]; apply G; lra. }
  apply not_true_iff_false. intros H. apply C83_sphere_cell in H as (c & ns & q & Hc & (a & b & Hs & (x & y & z & _ & _ & _ & B)) & E).
  - pose proof (cube_face_points _ _ _ _ _ _ _ _ Hc Hs B) as P.
    assert (1 < euclid (V 2 2 2) q); [|lra]. unfold euclid. cbn. rewrite <- sqrt_1 at 1. apply sqrt_lt_1_alt. split; [lra|].
    pose proof (Rle_0_sqr (2 - vx q)) as Q1. pose proof (Rle_0_sqr (2 - vy q)) as Q2. pose proof (Rle_0_sqr (2 - vz q)) as Q3.
    unfold Rsqr in *. destruct P as [P|[P|[P|[P|[P|P]]]]]; rewrite P in *; lra.
  - intros c ns a b Hc Hs. apply (cube_sides c ns a b Hc Hs).
Qed.

(** ** C84: segments *)
(** Exact description of the test: tolerance 1e-10 in the parameter of the segment, 1e-7 in the
    coordinates in the triangle, and two cut-offs. *)
Theorem C84_segment_tri_iff : forall t0 t1 t2 p1 p2,
  segment_tri t0 t1 t2 p1 p2 = true <->
  / 10 ^ 25 <= Rabs (dotproduct (normalise (crossproduct (vsub t0 t2) (vsub t1 t2))) (vsub p2 p1)) /\
  exists k x y, - / 10 ^ 10 <= k <= 1 + / 10 ^ 10 /\
    bary x y (1 - x - y) t0 t1 t2 (vadd p1 (vscale k (vsub p2 p1))) /\
    - / 10 ^ 7 <= x /\ - / 10 ^ 7 <= y /\ - / 10 ^ 7 <= 1 - x - y /\
    (/ 10 ^ 25 <= sqnorm (crossproduct (vsub t0 t2) (vsub t1 t2)) \/ x = 0 \/ y = 0).
Proof. exact segment_tri_iff. Qed.

(** No intersection is missed, for a triangle that is not tiny and a segment that is not parallel to it. *)
Theorem C84_segment_tri_complete : forall t0 t1 t2 p1 p2 q,
  on_seg p1 p2 q -> on_tri t0 t1 t2 q ->
  / 10 ^ 25 <= sqnorm (area_vec t2 t0 t1) ->
  / 10 ^ 25 * sqrt (sqnorm (area_vec t2 t0 t1)) <=
    Rabs (dotproduct (area_vec t2 t0 t1) (vsub p2 p1)) ->
  segment_tri t0 t1 t2 p1 p2 = true.
Proof.
  intros t0 t1 t2 p1 p2 q (s & Hs & E1 & E2 & E3) (x & y & z & X0 & Y0 & Z0 & Bs & B1 & B2 & B3) Hn Hm.
  assert (0 < / 10 ^ 25) as E25 by (apply Rinv_0_lt_compat, pow_lt; lra).
  assert (0 < / 10 ^ 10) as E10 by (apply Rinv_0_lt_compat, pow_lt; lra).
  assert (0 < / 10 ^ 7) as E7 by (apply Rinv_0_lt_compat, pow_lt; lra).
  assert (crossproduct (vsub t0 t2) (vsub t1 t2) = area_vec t2 t0 t1) as EN.
  { unfold crossproduct, area_vec, vsub. cbn. f_equal; ring. }
  set (N := area_vec t2 t0 t1) in *. set (e25 := / 10 ^ 25) in *. set (e10 := / 10 ^ 10) in *. set (e7 := / 10 ^ 7) in *.
  apply C84_segment_tri_iff. rewrite EN. fold e25 e10 e7. split.
  - unfold normalise. set (l := sqrt (dotproduct N N)). assert (sqrt (sqnorm N) = l) as El by reflexivity.
    rewrite El in Hm. assert (0 < l) as Lp by (apply sqrt_lt_R0; change (dotproduct N N) with (sqnorm N); lra).
    destruct (eqb l 0) eqn:E0; [apply eqb_true in E0; lra|].
    replace (dotproduct (V (vx N / l) (vy N / l) (vz N / l)) (vsub p2 p1)) with (dotproduct N (vsub p2 p1) / l)
      by (unfold dotproduct; cbn; field; lra).
    unfold Rdiv. rewrite Rabs_mult, (Rabs_right (/ l)); [|apply Rle_ge; left; apply Rinv_0_lt_compat; lra].
    apply (Rmult_le_reg_r l); [lra|]. rewrite Rmult_assoc, Rinv_l by lra. lra.
  - exists s, x, y. split; [lra|]. split.
    + unfold bary, vadd, vscale, vsub. cbn [vx vy vz]. replace z with (1 - x - y) in * by lra. split; [ring|]. repeat split; lra.
    + repeat split; try lra; left; exact Hn.
Qed.

(** What is reported has a point of the (slightly longer) segment in the (slightly larger) triangle. *)
Theorem C84_segment_tri_sound : forall t0 t1 t2 p1 p2, segment_tri t0 t1 t2 p1 p2 = true ->
  exists k x y z, - / 10 ^ 10 <= k <= 1 + / 10 ^ 10 /\ - / 10 ^ 7 <= x /\ - / 10 ^ 7 <= y /\ - / 10 ^ 7 <= z /\
    bary x y z t0 t1 t2 (vadd p1 (vscale k (vsub p2 p1))).
Proof.
  intros t0 t1 t2 p1 p2 H. apply C84_segment_tri_iff in H as (_ & k & x & y & Hk & B & X & Y & Z & _).
  exists k, x, y, (1 - x - y). tauto.
Qed.

(** A triangle with sides of 1e-7 is missed. *)
Theorem C84_tiny_refuted : let h := / 10 ^ 7 in
  let t0 := V h 0 0 in let t1 := V 0 h 0 in let t2 := V 0 0 0 in
  let p1 := V (h / 4) (h / 4) (-1) in let p2 := V (h / 4) (h / 4) 1 in
  (exists q, on_seg p1 p2 q /\ on_tri t0 t1 t2 q) /\ segment_tri t0 t1 t2 p1 p2 = false.
Proof.
  intros h t0 t1 t2 p1 p2. assert (0 < h) as H0 by (apply Rinv_0_lt_compat, pow_lt; lra). split.
  - exists (V (h / 4) (h / 4) 0). split.
    + exists (1 / 2). cbn. repeat split; try lra; field.
    + exists (1 / 4), (1 / 4), (1 / 2). unfold bary. cbn. repeat split; lra.
  - apply not_true_iff_false. intros H. apply C84_segment_tri_iff in H as (_ & k & x & y & _ & (_ & B1 & B2 & _) & _ & _ & _ & C).
    unfold t0, t1, t2, p1, p2, vadd, vscale, vsub in B1, B2. cbn in B1, B2.
    assert (x = 1 / 4) as Ex by (apply (Rmult_eq_reg_r h); lra).
    assert (y = 1 / 4) as Ey by (apply (Rmult_eq_reg_r h); lra).
    destruct C as [C|[C|C]]; [|lra|lra].
    unfold sqnorm, crossproduct, t0, t1, t2, vsub in C. cbn in C.
    replace ((0 - 0) * (0 - 0) - (0 - 0) * (h - 0)) with 0 in C by ring.
    replace ((0 - 0) * (0 - 0) - (h - 0) * (0 - 0)) with 0 in C by ring.
    replace ((h - 0) * (h - 0) - (0 - 0) * (0 - 0)) with (h * h) in C by ring.
    unfold h in C. lra.
Qed.
(** A segment in the plane of the triangle is missed, also if it crosses the triangle. *)
Theorem C84_coplanar_refuted :
  let t0 := V 1 0 0 in let t1 := V 0 1 0 in let t2 := V 0 0 0 in
  let p1 := V (1 / 4) (-1) 0 in let p2 := V (1 / 4) 1 0 in
  (exists q, on_seg p1 p2 q /\ on_tri t0 t1 t2 q) /\ segment_tri t0 t1 t2 p1 p2 = false.
Proof.
  intros t0 t1 t2 p1 p2. split.
  - exists (V (1 / 4) (1 / 4) 0). split.
    + exists (5 / 8). cbn. repeat split; lra.
    + exists (1 / 4), (1 / 4), (1 / 2). unfold bary. cbn. repeat split; lra.
  - apply not_true_iff_false. intros H. apply C84_segment_tri_iff in H as (H & _).
    assert (crossproduct (vsub t0 t2) (vsub t1 t2) = V 0 0 1) as E.
    { unfold crossproduct, vsub, t0, t1, t2. cbn. f_equal; ring. }
    rewrite E in H. assert (normalise (V 0 0 1) = V 0 0 1) as E1.
    { unfold normalise. replace (dotproduct (V 0 0 1) (V 0 0 1)) with 1 by (unfold dotproduct; cbn; ring).
      rewrite sqrt_1. destruct (eqb 1 0) eqn:E0; auto. cbn. f_equal; field. }
    rewrite E1 in H. unfold dotproduct, p1, p2, vsub in H. cbn [vx vy vz] in H.
    replace (0 * (1 / 4 - 1 / 4) + 0 * (1 - -1) + 1 * (0 - 0)) with 0 in H by ring. rewrite Rabs_R0 in H.
    assert (0 < / 10 ^ 25) by (apply Rinv_0_lt_compat, pow_lt; lra). lra.
Qed.

(** Faces and cells. *)
Theorem C84_segment_face_complete : forall centre nodes p1 p2 q,
  on_seg p1 p2 q -> on_face centre nodes q ->
  (forall a b, In (a, b) (sides nodes) -> / 10 ^ 25 <= sqnorm (area_vec centre a b) /\
     / 10 ^ 25 * sqrt (sqnorm (area_vec centre a b)) <= Rabs (dotproduct (area_vec centre a b) (vsub p2 p1))) ->
  segment_face centre nodes p1 p2 = true.
Proof.
  intros centre nodes p1 p2 q Hs (a & b & Hin & Ht) H. unfold segment_face. apply existsb_exists. rewrite fan_sides.
  exists (a, b). split; auto. cbn [fst snd]. destruct (H a b Hin). eapply C84_segment_tri_complete; eauto.
Qed.
Theorem C84_segment_cell_complete : forall faces c ns p1 p2 q,
  In (c, ns) faces -> on_seg p1 p2 q -> on_face c ns q ->
  (forall a b, In (a, b) (sides ns) -> / 10 ^ 25 <= sqnorm (area_vec c a b) /\
     / 10 ^ 25 * sqrt (sqnorm (area_vec c a b)) <= Rabs (dotproduct (area_vec c a b) (vsub p2 p1))) ->
  segment_cell faces p1 p2 = true.
Proof.
  intros faces c ns p1 p2 q Hin Hs Ht H. unfold segment_cell. apply existsb_exists.
  exists (c, ns). split; auto. cbn [fst snd]. eapply C84_segment_face_complete; eauto.
Qed.
Theorem C84_segment_cell_sound : forall faces p1 p2, segment_cell faces p1 p2 = true ->
  exists c ns a b k x y z, In (c, ns) faces /\ In (a, b) (sides ns) /\
    - / 10 ^ 10 <= k <= 1 + / 10 ^ 10 /\ - / 10 ^ 7 <= x /\ - / 10 ^ 7 <= y /\ - / 10 ^ 7 <= z /\
    bary x y z a b c (vadd p1 (vscale k (vsub p2 p1))).
Proof.
  intros faces p1 p2 H. unfold segment_cell in H. apply existsb_exists in H as ([c ns] & Hin & H).
  unfold segment_face in H. apply existsb_exists in H as ([a b] & Hs & H). rewrite fan_sides in Hs. cbn [fst snd] in *.
  apply C84_segment_tri_sound in H as (k & x & y & z & H1 & H2 & H3 & H4 & H5).
  exists c, ns, a, b, k, x, y, z. tauto.
Qed.
(** A segment that lies inside a cell does not count as an intersection with the cell. *)
Theorem C84_segment_inside_refuted :
  (forall q, on_seg (V 1 1 1) (V 3 3 3) q -> 0 < vx q < 4 /\ 0 < vy q < 4 /\ 0 < vz q < 4) /\
  segment_cell cube (V 1 1 1) (V 3 3 3) = false.
Proof.
  split.
  { intros q (s & Hs & E1 & E2 & E3). cbn in E1, E2, E3. lra. }
  apply not_true_iff_false. intros H. apply C84_segment_cell_sound in H as (c & ns & a & b & k & x & y & z & Hc & Hs & Hk & _ & _ & _ & B).
  pose proof (cube_face_points _ _ _ _ _ _ _ _ Hc Hs B) as P. unfold vadd, vscale, vsub in P. cbn [vx vy vz] in P.
  assert (/ 10 ^ 10 < 1 / 4) by lra. set (e := / 10 ^ 10) in *. clearbody e. lra.
Qed.

(** ** Examples *)
Example C83_nonvacuous : sqnorm (area_vec (V 0 0 0) (V 3 0 0) (V 0 3 0)) <> 0 /\
  triangle_distance (V 0 0 0) (V 3 0 0) (V 0 3 0) (V 1 1 5) = 5.
Proof.
  assert (sqnorm (area_vec (V 0 0 0) (V 3 0 0) (V 0 3 0)) <> 0) as H by (unfold sqnorm, area_vec; cbn; lra).
  split; auto. destruct (triangle_distance_ok _ _ _ (V 1 1 5) H) as ((q & (x & y & z & X0 & Y0 & Z0 & Bs & B1 & B2 & B3) & E) & L).
  cbn in B1, B2, B3.
  assert (on_tri (V 0 0 0) (V 3 0 0) (V 0 3 0) (V 1 1 0)) as T.
  { exists (1 / 3), (1 / 3), (1 / 3). unfold bary. cbn. repeat split; lra. }
  specialize (L _ T). apply Rle_antisym.
  - eapply Rle_trans; [exact L|]. unfold euclid. cbn. right. replace ((1 - 1) * (1 - 1) + (1 - 1) * (1 - 1) + (5 - 0) * (5 - 0)) with (5 * 5) by ring.
    apply sqrt_square. lra.
  - rewrite E. unfold euclid. cbn. rewrite <- (sqrt_square 5) at 1 by lra. apply sqrt_le_1_alt. rewrite B3.
    pose proof (Rle_0_sqr (1 - vx q)) as Q1. pose proof (Rle_0_sqr (1 - vy q)) as Q2. unfold Rsqr in *.
    replace (x * 0 + y * 0 + z * 0) with 0 by ring. lra.
Qed.
Example C83_face_nonvacuous : sphere_face (V 0 2 2) [V 0 0 0; V 0 4 0; V 0 4 4; V 0 0 4] (V (-1) 2 1) 2 = true.
Proof.
  apply C83_sphere_face.
  - intros a b H. apply (cube_sides (V 0 2 2) [V 0 0 0; V 0 4 0; V 0 4 4; V 0 0 4]); auto. left. reflexivity.
  - exists (V 0 2 1). split.
    + exists (V 0 0 0), (V 0 4 0). split; [cbn; auto|]. exists (1 / 4), (1 / 4), (1 / 2). unfold bary. cbn. repeat split; lra.
    + unfold euclid. cbn. apply Rle_trans with (sqrt (2 * 2)); [apply sqrt_le_1_alt; lra|rewrite sqrt_square; lra].
Qed.
Example C84_nonvacuous : segment_tri (V 1 0 0) (V 0 1 0) (V 0 0 0) (V (1 / 4) (1 / 4) (-1)) (V (1 / 4) (1 / 4) 1) = true.
Proof.
  apply (C84_segment_tri_complete _ _ _ _ _ (V (1 / 4) (1 / 4) 0)).
  - exists (1 / 2). cbn. repeat split; lra.
  - exists (1 / 4), (1 / 4), (1 / 2). unfold bary. cbn. repeat split; lra.
  - unfold sqnorm, area_vec. cbn. lra.
  - replace (sqnorm (area_vec (V 0 0 0) (V 1 0 0) (V 0 1 0))) with 1 by (unfold sqnorm, area_vec; cbn; ring).
    rewrite sqrt_1. unfold dotproduct, area_vec, vsub. cbn. rewrite Rabs_right; lra.
Qed.

Print Assumptions C83_segment_distance.
Print Assumptions C83_triangle_distance.
Print Assumptions C83_degenerate_line.
Print Assumptions C83_degenerate_refuted.
Print Assumptions C83_sphere_tri.
Print Assumptions C83_sphere_face.
Print Assumptions C83_sphere_cell.
Print Assumptions C83_ball_inside_refuted.
Print Assumptions C84_segment_tri_iff.
Print Assumptions C84_segment_tri_complete.
Print Assumptions C84_segment_tri_sound.
Print Assumptions C84_tiny_refuted.
Print Assumptions C84_coplanar_refuted.
Print Assumptions C84_segment_face_complete.
Print Assumptions C84_segment_cell_complete.
Print Assumptions C84_segment_cell_sound.
Print Assumptions C84_segment_inside_refuted.
