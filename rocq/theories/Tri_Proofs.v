(** Lemmas about distance and intersection tests. *)
From Coq Require Import List Bool Reals Lra Psatz.
From Verif Require Import Tri_Model Tri_Spec.
Import ListNotations.
Open Scope R_scope.

Lemma leb_true : forall x y, leb x y = true <-> x <= y.
Proof. intros x y. unfold leb. destruct (Rle_dec x y); split; auto; congruence. Qed.
Lemma leb_false : forall x y, leb x y = false <-> y < x.
Proof. intros x y. unfold leb. destruct (Rle_dec x y); split; auto; try congruence; intros; lra. Qed.
Lemma ltb_true : forall x y, ltb x y = true <-> x < y.
Proof. intros x y. unfold ltb. destruct (Rlt_dec x y); split; auto; congruence. Qed.
Lemma ltb_false : forall x y, ltb x y = false <-> y <= x.
Proof. intros x y. unfold ltb. destruct (Rlt_dec x y); split; auto; try congruence; intros; lra. Qed.
Lemma eqb_true : forall x y, eqb x y = true <-> x = y.
Proof. intros x y. unfold eqb. destruct (Req_EM_T x y); split; auto; congruence. Qed.
Lemma eqb_false : forall x y, eqb x y = false <-> x <> y.
Proof. intros x y. unfold eqb. destruct (Req_EM_T x y); split; auto; congruence. Qed.

Lemma pdist_euclid : forall q p, pdist q p = euclid p q.
Proof. intros [x y z] [x' y' z']. unfold pdist, euclid, dotproduct, vsub. cbn. f_equal. ring. Qed.
Lemma euclid_le : forall p q r, sqnorm (vsub q p) <= sqnorm (vsub r p) -> euclid p q <= euclid p r.
Proof.
  intros p q r H. unfold euclid. apply sqrt_le_1_alt. unfold sqnorm, vsub in H. cbn in H. lra.
Qed.
Lemma dot_nonneg : forall v, 0 <= dotproduct v v.
Proof. intros [x y z]. unfold dotproduct. cbn. nra. Qed.
Lemma dot_zero : forall v, dotproduct v v = 0 -> vx v = 0 /\ vy v = 0 /\ vz v = 0.
Proof. intros [x y z]. unfold dotproduct. cbn. intros H. repeat split; nra. Qed.

(** ** Segment *)
Lemma segment_distance_ok : forall a b p, distance_to (on_seg a b) p (segment_distance a b p).
Proof.
  intros a b p. unfold segment_distance. set (v := vsub b a). set (d := dotproduct v v).
  assert (forall s, sqnorm (vsub (vadd a (vscale s v)) p) =
            d * s * s - 2 * s * dotproduct v (vsub p a) + sqnorm (vsub a p)) as Q.
  { intros s. unfold d, v, sqnorm, dotproduct, vsub, vadd, vscale. cbn. ring. }
  assert (forall q, on_seg a b q -> exists s, 0 <= s <= 1 /\ q = vadd a (vscale s v)) as Hq.
  { intros [x y z] (s & Hs & E1 & E2 & E3). exists s. split; auto. cbn in *. unfold vadd, vscale, v, vsub. cbn.
    f_equal; lra. }
  assert (forall s, 0 <= s <= 1 -> on_seg a b (vadd a (vscale s v))) as Hs.
  { intros s Hs. exists s. split; auto. unfold vadd, vscale, v, vsub. cbn. repeat split; ring. }
  assert (on_seg a b a) as Ha. { exists 0. split; [lra|]. repeat split; ring. }
  assert (on_seg a b b) as Hb. { exists 1. split; [lra|]. repeat split; ring. }
  assert (b = vadd a (vscale 1 v)) as Eb.
  { destruct a, b. unfold vadd, vscale, v, vsub. cbn. f_equal; ring. }
  assert (a = vadd a (vscale 0 v)) as Ea.
  { destruct a. unfold vadd, vscale, v, vsub. cbn. f_equal; ring. }
  pose proof (dot_nonneg v) as D0. fold d in D0. cbv zeta.
  destruct (eqb d 0) eqn:E0.
  - apply eqb_true in E0. rewrite pdist_euclid. split; [exists a; auto|].
    intros q H. destruct (Hq q H) as (s & H1 & ->). apply euclid_le. rewrite Q.
    destruct (dot_zero v E0) as (Z1 & Z2 & Z3).
    assert (dotproduct v (vsub p a) = 0) as -> by (unfold dotproduct; rewrite Z1, Z2, Z3; ring).
    rewrite E0. lra.
  - apply eqb_false in E0. assert (0 < d) as Dp by lra.
    set (w := dotproduct v (vsub p a)) in *. set (t := w / d).
    assert (w = t * d) as Ew by (unfold t; field; lra).
    destruct (leb 0 t && leb t 1) eqn:E1.
    + apply andb_true_iff in E1 as [E1 E2]. apply leb_true in E1, E2. rewrite pdist_euclid. split; [eauto|].
      intros q H. destruct (Hq q H) as (s & H1 & ->). apply euclid_le. rewrite !Q, Ew.
      assert (0 <= d * ((s - t) * (s - t))) by (apply Rmult_le_pos; [lra|apply Rle_0_sqr]). nra.
    + destruct (ltb t 0) eqn:E2.
      * apply ltb_true in E2. rewrite pdist_euclid. split; [eauto|].
        intros q H. destruct (Hq q H) as (s & H1 & ->). apply euclid_le. rewrite Q, Ew.
        assert (0 <= d * s) by nra. assert (0 <= (d * s) * (- t)) by nra. nra.
      * apply ltb_false in E2. assert (1 < t) as T1.
        { apply andb_false_iff in E1 as [E1|E1]; apply leb_false in E1; lra. }
        rewrite pdist_euclid. split; [eauto|].
        intros q H. destruct (Hq q H) as (s & H1 & ->). apply euclid_le. rewrite Eb. rewrite !Q, Ew.
        assert (0 <= d * (1 - s)) as P1 by nra. assert (0 <= (d * (1 - s)) * (2 * t - 1 - s)) by nra. nra.
Qed.

(** ** Triangle *)
Lemma normalise_unit : forall n, dotproduct n n <> 0 ->
  dotproduct (normalise n) (normalise n) = 1 /\ exists l, 0 < l /\ n = vscale l (normalise n).
Proof.
  intros n H. unfold normalise. set (d := sqrt (dotproduct n n)).
  assert (0 < dotproduct n n) as P by (pose proof (dot_nonneg n); lra).
  assert (0 < d) as Dp by (apply sqrt_lt_R0; auto).
  assert (d * d = dotproduct n n) as DD by (apply sqrt_sqrt; lra).
  destruct (eqb d 0) eqn:E; [apply eqb_true in E; lra|]. split.
  - unfold dotproduct in *. cbn. replace (vx n / d * (vx n / d) + vy n / d * (vy n / d) + vz n / d * (vz n / d))
      with ((vx n * vx n + vy n * vy n + vz n * vz n) / (d * d)) by (field; lra). rewrite <- DD. field. lra.
  - exists d. split; auto. destruct n. unfold vscale. cbn. f_equal; field; lra.
Qed.
Lemma normalise_zero : forall n, dotproduct n n = 0 -> normalise n = n.
Proof.
  intros n H. unfold normalise. rewrite H, sqrt_0. destruct (eqb 0 0) eqn:E; auto. apply eqb_false in E. congruence.
Qed.

(** a path from the triangle to a point outside of it meets an edge *)
Lemma first_exit : forall g b : R * R * R,
  let '(g1, g2, g3) := g in let '(b1, b2, b3) := b in
  0 <= g1 -> 0 <= g2 -> 0 <= g3 -> (b1 < 0 \/ b2 < 0 \/ b3 < 0) ->
  exists s, 0 <= s <= 1 /\
    let x := g1 + s * (b1 - g1) in let y := g2 + s * (b2 - g2) in let z := g3 + s * (b3 - g3) in
    0 <= x /\ 0 <= y /\ 0 <= z /\ (x = 0 \/ y = 0 \/ z = 0).
Proof.
  intros [[g1 g2] g3] [[b1 b2] b3] H1 H2 H3 Hb.
  assert (forall g b, 0 <= g -> exists s, 0 <= s <= 1 /\ (forall r, 0 <= r <= s -> 0 <= g + r * (b - g)) /\
            (b < 0 -> g + s * (b - g) = 0) /\ (0 <= b -> s = 1)) as E.
  { intros g b Hg. destruct (Rlt_dec b 0) as [L|L].
    - exists (g / (g - b)). assert (0 < g - b) as P by lra.
      assert (g / (g - b) * (g - b) = g) as Q by (field; lra).
      assert (0 <= g / (g - b) <= 1) as R1.
      { split; [apply Rmult_le_pos; [lra|left; apply Rinv_0_lt_compat; lra]|].
        apply (Rmult_le_reg_r (g - b)); [lra|]. rewrite Q. lra. }
      split; [auto|]. split; [|split; [|lra]].
      + intros r Hr. nra.
      + intros _. nra.
    - exists 1. split; [lra|]. split; [|split; [lra|auto]]. intros r Hr. nra. }
  destruct (E g1 b1 H1) as (s1 & R1 & P1 & Z1 & O1). destruct (E g2 b2 H2) as (s2 & R2 & P2 & Z2 & O2).
  destruct (E g3 b3 H3) as (s3 & R3 & P3 & Z3 & O3).
  set (s := Rmin s1 (Rmin s2 s3)). exists s.
  assert (s <= s1) as L1 by apply Rmin_l.
  assert (s <= s2) as L2 by (eapply Rle_trans; [apply Rmin_r|apply Rmin_l]).
  assert (s <= s3) as L3 by (eapply Rle_trans; [apply Rmin_r|apply Rmin_r]).
  assert (s = s1 \/ s = s2 \/ s = s3) as C.
  { unfold s. unfold Rmin at 1 3 5. unfold Rmin. repeat destruct Rle_dec; auto. }
  assert (0 <= s) as S0 by (destruct C as [->|[->| ->]]; lra).
  split; [lra|]. cbv zeta. split; [apply P1; lra|]. split; [apply P2; lra|]. split; [apply P3; lra|].
  (* the coordinate that determines s is negative at the far end *)
  assert (s < 1 \/ s = 1) as [S1|S1] by lra.
  - destruct C as [C|[C|C]].
    + left. rewrite C. apply Z1. destruct (Rlt_dec b1 0); auto. rewrite O1 in C; lra.
    + right; left. rewrite C. apply Z2. destruct (Rlt_dec b2 0); auto. rewrite O2 in C; lra.
    + right; right. rewrite C. apply Z3. destruct (Rlt_dec b3 0); auto. rewrite O3 in C; lra.
  - destruct Hb as [B|[B|B]].
    + left. replace s with s1 by lra. auto.
    + right; left. replace s with s2 by lra. auto.
    + right; right. replace s with s3 by lra. auto.
Qed.

(** the plane of the triangle: a vector orthogonal to the normal is a combination of two sides *)
Lemma plane_coords : forall u v w, let N := crossproduct u v in
  dotproduct N N <> 0 -> dotproduct N w = 0 ->
  w = vadd (vscale (dotproduct (crossproduct w v) N / dotproduct N N) u)
           (vscale (dotproduct (crossproduct u w) N / dotproduct N N) v).
Proof.
  intros [u1 u2 u3] [v1 v2 v3] [w1 w2 w3] N HN Hw.
  set (D := dotproduct N N) in *.
  set (A := dotproduct (crossproduct (V w1 w2 w3) (V v1 v2 v3)) N).
  set (B := dotproduct (crossproduct (V u1 u2 u3) (V w1 w2 w3)) N).
  set (C := dotproduct N (V w1 w2 w3)) in *.
  assert (D * w1 = A * u1 + B * v1 + C * vx N) as E1.
  { unfold A, B, C, D, N, dotproduct, crossproduct. cbn. ring. }
  assert (D * w2 = A * u2 + B * v2 + C * vy N) as E2.
  { unfold A, B, C, D, N, dotproduct, crossproduct. cbn. ring. }
  assert (D * w3 = A * u3 + B * v3 + C * vz N) as E3.
  { unfold A, B, C, D, N, dotproduct, crossproduct. cbn. ring. }
  rewrite Hw in E1, E2, E3. clearbody A B C D. unfold vadd, vscale. cbn.
  f_equal; apply (Rmult_eq_reg_l D); auto; [rewrite E1|rewrite E2|rewrite E3]; field; auto.
Qed.

Lemma on_tri_edges : forall a b c q, on_seg a b q \/ on_seg b c q \/ on_seg c a q -> on_tri a b c q.
Proof.
  intros a b c q [(s & H & E1 & E2 & E3)|[(s & H & E1 & E2 & E3)|(s & H & E1 & E2 & E3)]].
  - exists (1 - s), s, 0. repeat split; lra.
  - exists 0, (1 - s), s. repeat split; lra.
  - exists s, 0, (1 - s). repeat split; lra.
Qed.

Lemma edges_distance : forall a b c p,
  distance_to (fun q => on_seg a b q \/ on_seg b c q \/ on_seg c a q) p
    (Rmin (Rmin (segment_distance a b p) (segment_distance b c p)) (segment_distance c a p)).
Proof.
  intros a b c p.
  destruct (segment_distance_ok a b p) as ((q1 & T1 & E1) & L1).
  destruct (segment_distance_ok b c p) as ((q2 & T2 & E2) & L2).
  destruct (segment_distance_ok c a p) as ((q3 & T3 & E3) & L3).
  set (d1 := segment_distance a b p) in *. set (d2 := segment_distance b c p) in *.
  set (d3 := segment_distance c a p) in *. split.
  - unfold Rmin. repeat destruct Rle_dec; eauto 6.
  - intros q [H|[H|H]].
    + eapply Rle_trans; [apply Rmin_l|]. eapply Rle_trans; [apply Rmin_l|]. auto.
    + eapply Rle_trans; [apply Rmin_l|]. eapply Rle_trans; [apply Rmin_r|]. auto.
    + eapply Rle_trans; [apply Rmin_r|]. auto.
Qed.

Lemma triangle_distance_ok : forall a b c p, sqnorm (area_vec a b c) <> 0 ->
  distance_to (on_tri a b c) p (triangle_distance a b c p).
Proof.
  intros a b c p Hd. unfold triangle_distance. cbv zeta.
  set (u := vsub b a). set (v := vsub c a). set (N := crossproduct u v).
  assert (dotproduct N N <> 0) as HN.
  { intros E. apply Hd. rewrite <- E. unfold sqnorm, area_vec, N, u, v, dotproduct, crossproduct, vsub. cbn. ring. }
  destruct (normalise_unit N HN) as (Hu & l & Hl & El). set (n := normalise N) in *.
  set (t := dotproduct (vsub a p) n). set (P := vadd p (vscale t n)).
  (* orthogonality *)
  assert (dotproduct n u = 0) as Onu.
  { apply (Rmult_eq_reg_l l); [|lra]. rewrite Rmult_0_r.
    replace (l * dotproduct n u) with (dotproduct (vscale l n) u) by (unfold dotproduct, vscale; cbn; ring).
    rewrite <- El. unfold N, dotproduct, crossproduct. cbn. ring. }
  assert (dotproduct n v = 0) as Onv.
  { apply (Rmult_eq_reg_l l); [|lra]. rewrite Rmult_0_r.
    replace (l * dotproduct n v) with (dotproduct (vscale l n) v) by (unfold dotproduct, vscale; cbn; ring).
    rewrite <- El. unfold N, dotproduct, crossproduct. cbn. ring. }
  assert (dotproduct n (vsub P a) = 0) as OnP.
  { replace (dotproduct n (vsub P a)) with (t * dotproduct n n - dotproduct (vsub a p) n)
      by (unfold P, dotproduct, vsub, vadd, vscale; cbn; ring). rewrite Hu. unfold t. ring. }
  assert (dotproduct N (vsub P a) = 0) as ONP.
  { rewrite El. replace (dotproduct (vscale l n) (vsub P a)) with (l * dotproduct n (vsub P a))
      by (unfold dotproduct, vscale; cbn; ring). rewrite OnP. ring. }
  pose proof (plane_coords u v (vsub P a) HN ONP) as EP. cbv zeta in EP. fold N in EP.
  set (be := dotproduct (crossproduct (vsub P a) v) N / dotproduct N N) in EP.
  set (ga := dotproduct (crossproduct u (vsub P a)) N / dotproduct N N) in EP.
  clearbody be ga.
  assert (vx P = vx a + be * vx u + ga * vx v /\ vy P = vy a + be * vy u + ga * vy v /\ vz P = vz a + be * vz u + ga * vz v) as (P1 & P2 & P3).
  { pose proof (f_equal vx EP) as F1. pose proof (f_equal vy EP) as F2. pose proof (f_equal vz EP) as F3.
    unfold vsub, vadd, vscale in F1, F2, F3. cbn [vx vy vz] in F1, F2, F3. lra. }
  (* Pythagoras *)
  assert (forall q x y z, bary x y z a b c q ->
    sqnorm (vsub q p) = t * t + sqnorm (vsub q P)) as Py.
  { intros q x y z (Hs & B1 & B2 & B3).
    assert (dotproduct n (vsub q P) = 0) as O.
    { replace (dotproduct n (vsub q P)) with
        ((x + y + z - 1) * dotproduct n a + (y - be) * dotproduct n u + (z - ga) * dotproduct n v).
      - rewrite Hs, Onu, Onv. ring.
      - unfold dotproduct, vsub. cbn [vx vy vz]. rewrite B1, B2, B3, P1, P2, P3. unfold u, v, vsub. cbn [vx vy vz].
        replace x with (1 - y - z) by lra. ring. }
    replace (vsub q p) with (vadd (vsub q P) (vscale t n)).
    - replace (sqnorm (vadd (vsub q P) (vscale t n))) with
        (sqnorm (vsub q P) + 2 * t * dotproduct n (vsub q P) + t * t * dotproduct n n)
        by (unfold sqnorm, dotproduct, vadd, vscale; cbn; ring). rewrite O, Hu. ring.
    - unfold P, vsub, vadd, vscale. cbn [vx vy vz]. f_equal; ring. }
  assert (bary (1 - be - ga) be ga a b c P) as BP.
  { unfold bary. rewrite P1, P2, P3. unfold u, v, vsub. cbn [vx vy vz]. repeat split; ring. }
  (* the three vectors *)
  assert (crossproduct (vsub P a) (vsub P b) = vscale ga N) as Q1.
  { unfold crossproduct, vsub, vscale, N. cbn [vx vy vz]. rewrite P1, P2, P3. unfold crossproduct, u, v, vsub. cbn [vx vy vz].
    f_equal; ring. }
  assert (crossproduct (vsub P b) (vsub P c) = vscale (1 - be - ga) N) as Q2.
  { unfold crossproduct, vsub, vscale, N. cbn [vx vy vz]. rewrite P1, P2, P3. unfold crossproduct, u, v, vsub. cbn [vx vy vz].
    f_equal; ring. }
  assert (crossproduct (vsub P c) (vsub P a) = vscale be N) as Q3.
  { unfold crossproduct, vsub, vscale, N. cbn [vx vy vz]. rewrite P1, P2, P3. unfold crossproduct, u, v, vsub. cbn [vx vy vz].
    f_equal; ring. }
  rewrite Q1, Q2, Q3.
  assert (forall r s, dotproduct (vscale r N) (vscale s N) = r * s * dotproduct N N) as DS.
  { intros r s. unfold dotproduct, vscale. cbn. ring. }
  rewrite !DS. assert (0 < dotproduct N N) as DP by (pose proof (dot_nonneg N); lra).
  assert (forall r, leb 0 (r * dotproduct N N) = true <-> 0 <= r) as Lb.
  { intros r. rewrite leb_true. split; intros H.
    - apply (Rmult_le_reg_r (dotproduct N N)); lra.
    - apply Rmult_le_pos; lra. }
  destruct (_ && _) eqn:E.
  - apply andb_true_iff in E as [E E3]. apply andb_true_iff in E as [E1 E2].
    apply Lb in E1, E2, E3.
    assert (0 <= 1 - be - ga /\ 0 <= be /\ 0 <= ga) as (G1 & G2 & G3).
    { clear - E1 E2 E3. split; [|split].
      - destruct (Rle_dec 0 (1 - be - ga)); auto. exfalso. assert (ga <= 0) by nra. assert (be <= 0) by nra. lra.
      - destruct (Rle_dec 0 be); auto. exfalso. assert (ga <= 0) by nra. assert (1 - be - ga <= 0) by nra. lra.
      - destruct (Rle_dec 0 ga); auto. exfalso. assert (be <= 0) by nra. assert (1 - be - ga <= 0) by nra. lra. }
    assert (Rabs t = euclid p P) as ->.
    { unfold euclid. pose proof (Py P _ _ _ BP) as E. unfold sqnorm, vsub in E. cbn [vx vy vz] in E.
      replace ((vx p - vx P) * (vx p - vx P) + (vy p - vy P) * (vy p - vy P) + (vz p - vz P) * (vz p - vz P))
        with (t * t) by lra. rewrite <- sqrt_Rsqr_abs. reflexivity. }
    split.
    + exists P. split; auto. exists (1 - be - ga), be, ga. auto.
    + intros q (x & y & z & _ & _ & _ & B). apply euclid_le. rewrite (Py _ _ _ _ B), (Py _ _ _ _ BP).
      assert (sqnorm (vsub P P) = 0) as -> by (unfold sqnorm, vsub; cbn; ring).
      assert (0 <= sqnorm (vsub q P)) by apply (dot_nonneg (vsub q P)). lra.
  - destruct (edges_distance a b c p) as ((q & T & Eq) & L). split.
    + exists q. split; auto. apply on_tri_edges, T.
    + intros r (x & y & z & X0 & Y0 & Z0 & B).
      pose proof (first_exit (x, y, z) (1 - be - ga, be, ga)) as F. cbv beta iota in F.
      destruct F as (s & Hs & F); auto.
      { destruct (Rlt_dec (1 - be - ga) 0); auto. destruct (Rlt_dec be 0); auto. destruct (Rlt_dec ga 0); auto.
        exfalso. apply Bool.not_true_iff_false in E. apply E.
        apply andb_true_iff. split; [apply andb_true_iff; split|]; apply Lb; apply Rmult_le_pos; lra. }
      cbv zeta in F. destruct F as (F1 & F2 & F3 & F0).
      set (x' := x + s * (1 - be - ga - x)) in *. set (y' := y + s * (be - y)) in *. set (z' := z + s * (ga - z)) in *.
      set (q' := vadd r (vscale s (vsub P r))).
      assert (bary x' y' z' a b c q') as B'.
      { destruct B as (Bs & B1 & B2 & B3). destruct BP as (Cs & C1 & C2 & C3). unfold bary, q', vadd, vscale, vsub, x', y', z'.
        cbn [vx vy vz]. rewrite C1, C2, C3, B1, B2, B3. replace x with (1 - y - z) by lra. repeat split; ring. }
      apply Rle_trans with (euclid p q').
      * apply L. destruct B' as (Bs & B1 & B2 & B3). clearbody x' y' z'. destruct F0 as [F0|[F0|F0]]; subst.
        -- right; left. exists z'. split; [lra|]. rewrite B1, B2, B3. replace y' with (1 - z') by lra. repeat split; ring.
        -- right; right. exists x'. split; [lra|]. rewrite B1, B2, B3. replace z' with (1 - x') by lra. repeat split; ring.
        -- left. exists y'. split; [lra|]. rewrite B1, B2, B3. replace x' with (1 - y') by lra. repeat split; ring.
      * apply euclid_le. rewrite (Py _ _ _ _ B'), (Py _ _ _ _ B).
        replace (sqnorm (vsub q' P)) with ((1 - s) * (1 - s) * sqnorm (vsub r P)).
        -- assert (0 <= sqnorm (vsub r P)) by apply (dot_nonneg (vsub r P)).
           assert ((1 - s) * (1 - s) <= 1) by nra. nra.
        -- unfold q', sqnorm, vsub, vadd, vscale. cbn [vx vy vz]. ring.
Qed.

(** ** Segment and triangle *)
Lemma tri_det : forall a b, dotproduct a a * dotproduct b b - dotproduct a b * dotproduct a b =
  dotproduct (crossproduct a b) (crossproduct a b).
Proof. intros [a1 a2 a3] [b1 b2 b3]. unfold dotproduct, crossproduct. cbn. ring. Qed.

(** signed speed at which the segment passes the plane of the triangle *)
Definition plane_speed (t0 t1 t2 p1 p2 : vec) : R :=
  dotproduct (normalise (crossproduct (vsub t0 t2) (vsub t1 t2))) (vsub p2 p1).

Lemma segment_tri_iff : forall t0 t1 t2 p1 p2,
  segment_tri t0 t1 t2 p1 p2 = true <->
  / 10 ^ 25 <= Rabs (plane_speed t0 t1 t2 p1 p2) /\
  exists k x y, - / 10 ^ 10 <= k <= 1 + / 10 ^ 10 /\
    bary x y (1 - x - y) t0 t1 t2 (vadd p1 (vscale k (vsub p2 p1))) /\
    - / 10 ^ 7 <= x /\ - / 10 ^ 7 <= y /\ - / 10 ^ 7 <= 1 - x - y /\
    (/ 10 ^ 25 <= sqnorm (crossproduct (vsub t0 t2) (vsub t1 t2)) \/ x = 0 \/ y = 0).
Proof.
  intros t0 t1 t2 p1 p2. unfold segment_tri, plane_speed. cbv zeta.
  set (a := vsub t0 t2). set (b := vsub t1 t2). set (ray := vsub p2 p1). set (N := crossproduct a b).
  set (m := dotproduct (normalise N) ray).
  assert (0 < / 10 ^ 25) as E25 by (apply Rinv_0_lt_compat, pow_lt; lra).
  destruct (ltb (Rabs m) (/ 10 ^ 25)) eqn:Em.
  { apply ltb_true in Em. split; [discriminate|]. intros (H & _). lra. }
  apply ltb_false in Em.
  assert (m <> 0) as M0. { intros E. rewrite E, Rabs_R0 in Em. lra. }
  assert (dotproduct N N <> 0) as HN.
  { intros E. apply M0. unfold m. rewrite (normalise_zero N E). destruct (dot_zero N E) as (Z1 & Z2 & Z3).
    unfold dotproduct. rewrite Z1, Z2, Z3. ring. }
  destruct (normalise_unit N HN) as (Hu & l & Hl & El). set (n := normalise N) in *.
  assert (forall w, dotproduct N w = l * dotproduct n w) as NL.
  { intros w. rewrite El. unfold dotproduct, vscale. cbn. ring. }
  assert (dotproduct n a = 0 /\ dotproduct n b = 0) as (Ona & Onb).
  { split; (apply (Rmult_eq_reg_l l); [|lra]); rewrite <- NL, Rmult_0_r; unfold N, dotproduct, crossproduct; cbn; ring. }
  set (k := - (- dotproduct n t2 + dotproduct n p1) / m).
  assert (k * m = dotproduct n t2 - dotproduct n p1) as Ek by (unfold k; field; auto).
  (* the parameter of any point of the plane *)
  assert (forall k' x y, bary x y (1 - x - y) t0 t1 t2 (vadd p1 (vscale k' ray)) ->
    k' = k /\ vsub (vadd p1 (vscale k' ray)) t2 = vadd (vscale x a) (vscale y b)) as U.
  { intros k' x y (_ & B1 & B2 & B3).
    assert (vsub (vadd p1 (vscale k' ray)) t2 = vadd (vscale x a) (vscale y b)) as E.
    { unfold vsub at 1. rewrite B1, B2, B3. unfold a, b, vadd, vscale, vsub. cbn [vx vy vz]. f_equal; ring. }
    split; auto. assert (dotproduct n p1 + k' * m - dotproduct n t2 = 0) as E2.
    { replace (dotproduct n p1 + k' * m - dotproduct n t2) with (dotproduct n (vsub (vadd p1 (vscale k' ray)) t2))
        by (unfold m, dotproduct, vsub, vadd, vscale; cbn; ring).
      rewrite E. replace (dotproduct n (vadd (vscale x a) (vscale y b))) with (x * dotproduct n a + y * dotproduct n b)
        by (unfold dotproduct, vadd, vscale; cbn; ring). rewrite Ona, Onb. ring. }
    apply (Rmult_eq_reg_r m); auto. lra. }
  destruct (ltb k (- / 10 ^ 10) || ltb (1 + / 10 ^ 10) k) eqn:E1.
  { split; [discriminate|]. intros (_ & k' & x & y & Hk & B & _). destruct (U k' x y B) as (-> & _).
    apply orb_true_iff in E1 as [E1|E1]; apply ltb_true in E1; lra. }
  apply orb_false_iff in E1 as [K1 K2]. apply ltb_false in K1, K2.
  set (c := vsub (vadd p1 (vscale k ray)) t2).
  (* the point of the plane *)
  assert (dotproduct N c = 0) as ONc.
  { rewrite NL. replace (dotproduct n c) with (dotproduct n p1 + k * m - dotproduct n t2)
      by (unfold c, m, dotproduct, vsub, vadd, vscale; cbn; ring). rewrite Ek. ring. }
  pose proof (plane_coords a b c HN ONc) as Ec. cbv zeta in Ec. fold N in Ec.
  set (x := dotproduct (crossproduct c b) N / dotproduct N N) in Ec.
  set (y := dotproduct (crossproduct a c) N / dotproduct N N) in Ec. clearbody x y.
  assert (bary x y (1 - x - y) t0 t1 t2 (vadd p1 (vscale k ray))) as Bk.
  { pose proof (f_equal vx Ec) as F1. pose proof (f_equal vy Ec) as F2. pose proof (f_equal vz Ec) as F3.
    unfold c, a, b, vsub, vadd, vscale in F1, F2, F3. cbn [vx vy vz] in F1, F2, F3.
    unfold bary, vadd, vscale. cbn [vx vy vz]. split; [ring|]. unfold ray in *. unfold vsub in *. cbn [vx vy vz] in *.
    repeat split; lra. }
  rewrite (tri_det a b). fold N. set (D := dotproduct N N) in *.
  assert (0 < D) as DP by (pose proof (dot_nonneg N); fold D in H; lra).
  assert (dotproduct b b * dotproduct a c - dotproduct a b * dotproduct b c = x * D) as Ux.
  { rewrite Ec. unfold D, N. rewrite <- tri_det. unfold dotproduct, vadd, vscale. cbn. ring. }
  assert (dotproduct a a * dotproduct b c - dotproduct a b * dotproduct a c = y * D) as Uy.
  { rewrite Ec. unfold D, N. rewrite <- tri_det. unfold dotproduct, vadd, vscale. cbn. ring. }
  rewrite Ux, Uy.
  replace (x * D / D) with x by (field; lra). replace (y * D / D) with y by (field; lra).
  assert (sqnorm N = D) as SN by reflexivity. rewrite SN.
  assert (Rabs D = D) as AD by (apply Rabs_right; lra). rewrite AD.
  (* coordinates are unique *)
  assert (forall k' x' y', bary x' y' (1 - x' - y') t0 t1 t2 (vadd p1 (vscale k' ray)) -> k' = k /\ x' = x /\ y' = y) as UQ.
  { intros k' x' y' B. destruct (U k' x' y' B) as (-> & E). fold c in E. split; auto.
    assert (dotproduct b b * dotproduct a c - dotproduct a b * dotproduct b c = x' * D) as Ux'.
    { rewrite E. unfold D, N. rewrite <- tri_det. unfold dotproduct, vadd, vscale. cbn. ring. }
    assert (dotproduct a a * dotproduct b c - dotproduct a b * dotproduct a c = y' * D) as Uy'.
    { rewrite E. unfold D, N. rewrite <- tri_det. unfold dotproduct, vadd, vscale. cbn. ring. }
    split; apply (Rmult_eq_reg_r D); lra. }
  assert (forall r, ltb 0 (Rabs (r * D)) = true <-> r <> 0) as Nz.
  { intros r. rewrite ltb_true. split.
    - intros H ->. rewrite Rmult_0_l, Rabs_R0 in H. lra.
    - intros H. apply Rabs_pos_lt. intros E. apply Rmult_integral in E as [E|E]; lra. }
  destruct (ltb D (/ 10 ^ 25) && ltb 0 (Rabs (x * D)) && ltb 0 (Rabs (y * D))) eqn:E2.
  - apply andb_true_iff in E2 as [E2 Ey]. apply andb_true_iff in E2 as [E2 Ex].
    apply ltb_true in E2. apply Nz in Ex, Ey. split; [discriminate|].
    intros (_ & k' & x' & y' & _ & B & _ & _ & _ & H). destruct (UQ k' x' y' B) as (-> & -> & ->).
    destruct H as [H|[H|H]]; [lra|congruence|congruence].
  - split.
    + intros H. apply andb_true_iff in H as [H H3]. apply andb_true_iff in H as [H1 H2].
      apply leb_true in H1, H2, H3. split; [exact Em|]. exists k, x, y. split; [lra|]. split; auto.
      do 2 (split; auto). split; [lra|].
      apply andb_false_iff in E2 as [E2|E2]; [apply andb_false_iff in E2 as [E2|E2]|].
      * left. apply ltb_false in E2. exact E2.
      * right; left. destruct (Req_dec x 0); auto. apply Nz in H. congruence.
      * right; right. destruct (Req_dec y 0); auto. apply Nz in H. congruence.
    + intros (_ & k' & x' & y' & _ & B & X & Y & Z & _). destruct (UQ k' x' y' B) as (-> & -> & ->).
      apply andb_true_iff. split; [apply andb_true_iff; split|]; apply leb_true; lra.
Qed.

(** ** Faces *)
Lemma fan_from : forall f nodes, combine nodes (tl nodes ++ match nodes with [] => [] | _ => [f] end) = sides_from f nodes.
Proof.
  intros f nodes. induction nodes as [|a r IH]; auto. destruct r as [|b r]; auto.
  cbn [tl app combine sides_from]. f_equal. exact IH.
Qed.
Lemma fan_sides : forall nodes, fan nodes = sides nodes.
Proof.
  intros [|a r]; auto. unfold fan, sides. change (firstn 1 (a :: r)) with [a]. apply (fan_from a (a :: r)).
Qed.

(** ** Degenerate triangles *)
Lemma sq_pos : forall v, sqnorm v <> 0 -> 0 < sqnorm v.
Proof. intros v H. pose proof (dot_nonneg v) as P. unfold sqnorm, dotproduct in *. lra. Qed.
(** the points of a degenerate triangle lie on its edges *)
Lemma degenerate_edges : forall a b c q, sqnorm (area_vec a b c) = 0 -> on_tri a b c q ->
  on_seg a b q \/ on_seg b c q \/ on_seg c a q.
Proof.
  intros a b c q Hd (x & y & z & X0 & Y0 & Z0 & Bs & B1 & B2 & B3).
  assert (exists d1 d2 d3, d1 + d2 + d3 = 0 /\ (d1 <> 0 \/ d2 <> 0 \/ d3 <> 0) /\
    d1 * vx a + d2 * vx b + d3 * vx c = 0 /\ d1 * vy a + d2 * vy b + d3 * vy c = 0 /\
    d1 * vz a + d2 * vz b + d3 * vz c = 0) as (d1 & d2 & d3 & Ds & Dn & D1 & D2 & D3).
  { set (u := vsub b a). set (v := vsub c a).
    destruct (dot_zero (area_vec a b c) Hd) as (Z1 & Z2 & Z3). unfold area_vec in Z1, Z2, Z3. cbn [vx vy vz] in Z1, Z2, Z3.
    destruct (Req_dec (dotproduct u u) 0) as [E|E].
    - destruct (dot_zero u E) as (U1 & U2 & U3). unfold u, vsub in U1, U2, U3. cbn [vx vy vz] in U1, U2, U3.
      exists 1, (-1), 0. repeat split; lra.
    - set (l := dotproduct u v / dotproduct u u). exists (l - 1), (- l), 1. split; [ring|]. split; [right; right; lra|].
      assert (l * dotproduct u u = dotproduct u v) as El by (unfold l; field; auto).
      (* |u|^2 v = (u.v) u + ..., for parallel vectors *)
      set (n1 := vy u * vz v - vz u * vy v). set (n2 := vz u * vx v - vx u * vz v). set (n3 := vx u * vy v - vy u * vx v).
      assert (n1 = 0) as M1 by exact Z1. assert (n2 = 0) as M2 by exact Z2. assert (n3 = 0) as M3 by exact Z3.
      assert (dotproduct u u * vx v = dotproduct u v * vx u) as F1.
      { replace (dotproduct u u * vx v) with (dotproduct u v * vx u - vy u * n3 + vz u * n2)
          by (unfold dotproduct, n2, n3; ring). rewrite M2, M3. ring. }
      assert (dotproduct u u * vy v = dotproduct u v * vy u) as F2.
      { replace (dotproduct u u * vy v) with (dotproduct u v * vy u + vx u * n3 - vz u * n1)
          by (unfold dotproduct, n1, n3; ring). rewrite M1, M3. ring. }
      assert (dotproduct u u * vz v = dotproduct u v * vz u) as F3.
      { replace (dotproduct u u * vz v) with (dotproduct u v * vz u - vx u * n2 + vy u * n1)
          by (unfold dotproduct, n1, n2; ring). rewrite M1, M2. ring. }
      rewrite <- El in F1, F2, F3.
      assert (vx v = l * vx u) as G1 by (apply (Rmult_eq_reg_l (dotproduct u u)); auto; lra).
      assert (vy v = l * vy u) as G2 by (apply (Rmult_eq_reg_l (dotproduct u u)); auto; lra).
      assert (vz v = l * vz u) as G3 by (apply (Rmult_eq_reg_l (dotproduct u u)); auto; lra).
      unfold u, v, vsub in G1, G2, G3. cbn [vx vy vz] in G1, G2, G3. repeat split; lra. }
  (* move along the relation until a coordinate vanishes *)
  assert (exists K, x + K * d1 < 0 \/ y + K * d2 < 0 \/ z + K * d3 < 0) as (K & HK).
  { destruct Dn as [Dn|[Dn|Dn]].
    - exists (- (x + 1) / d1). left. replace (x + - (x + 1) / d1 * d1) with (-1) by (field; auto). lra.
    - exists (- (y + 1) / d2). right; left. replace (y + - (y + 1) / d2 * d2) with (-1) by (field; auto). lra.
    - exists (- (z + 1) / d3). right; right. replace (z + - (z + 1) / d3 * d3) with (-1) by (field; auto). lra. }
  pose proof (first_exit (x, y, z) (x + K * d1, y + K * d2, z + K * d3)) as F. cbv beta iota in F.
  destruct (F X0 Y0 Z0 HK) as (s & Hs & F'). clear F. cbv zeta in F'.
  replace (x + s * (x + K * d1 - x)) with (x + s * K * d1) in F' by ring.
  replace (y + s * (y + K * d2 - y)) with (y + s * K * d2) in F' by ring.
  replace (z + s * (z + K * d3 - z)) with (z + s * K * d3) in F' by ring.
  set (w := s * K) in *. clearbody w. destruct F' as (F1 & F2 & F3 & F0).
  set (x' := x + w * d1) in *. set (y' := y + w * d2) in *. set (z' := z + w * d3) in *.
  assert (x' + y' + z' = 1) as S1.
  { unfold x', y', z'. replace (x + w * d1 + (y + w * d2) + (z + w * d3)) with (x + y + z + w * (d1 + d2 + d3)) by ring.
    rewrite Bs, Ds. ring. }
  assert (forall p q r, p * d1 + q * d2 + r * d3 = d1 * p + d2 * q + d3 * r) as Cm by (intros; ring).
  assert (vx q = x' * vx a + y' * vx b + z' * vx c) as C1.
  { unfold x', y', z'. replace ((x + w * d1) * vx a + (y + w * d2) * vx b + (z + w * d3) * vx c) with
      (x * vx a + y * vx b + z * vx c + w * (d1 * vx a + d2 * vx b + d3 * vx c)) by ring. rewrite D1, B1. ring. }
  assert (vy q = x' * vy a + y' * vy b + z' * vy c) as C2.
  { unfold x', y', z'. replace ((x + w * d1) * vy a + (y + w * d2) * vy b + (z + w * d3) * vy c) with
      (x * vy a + y * vy b + z * vy c + w * (d1 * vy a + d2 * vy b + d3 * vy c)) by ring. rewrite D2, B2. ring. }
  assert (vz q = x' * vz a + y' * vz b + z' * vz c) as C3.
  { unfold x', y', z'. replace ((x + w * d1) * vz a + (y + w * d2) * vz b + (z + w * d3) * vz c) with
      (x * vz a + y * vz b + z * vz c + w * (d1 * vz a + d2 * vz b + d3 * vz c)) by ring. rewrite D3, B3. ring. }
  clearbody x' y' z'. destruct F0 as [F0|[F0|F0]]; subst.
  - right; left. exists z'. split; [lra|]. rewrite C1, C2, C3. replace y' with (1 - z') by lra. repeat split; ring.
  - right; right. exists x'. split; [lra|]. rewrite C1, C2, C3. replace z' with (1 - x') by lra. repeat split; ring.
  - left. exists y'. split; [lra|]. rewrite C1, C2, C3. replace x' with (1 - y') by lra. repeat split; ring.
Qed.

Lemma triangle_degenerate : forall a b c p, sqnorm (area_vec a b c) = 0 ->
  (sqnorm (area_vec p a b) = 0 /\ sqnorm (area_vec p b c) = 0 /\ sqnorm (area_vec p c a) = 0 ->
     triangle_distance a b c p = 0) /\
  (sqnorm (area_vec p a b) <> 0 \/ sqnorm (area_vec p b c) <> 0 \/ sqnorm (area_vec p c a) <> 0 ->
     distance_to (on_tri a b c) p (triangle_distance a b c p)).
Proof.
  intros a b c p Hd. unfold triangle_distance. cbv zeta.
  set (N := crossproduct (vsub b a) (vsub c a)).
  assert (dotproduct N N = 0) as HN by exact Hd.
  rewrite (normalise_zero N HN). destruct (dot_zero N HN) as (N1 & N2 & N3).
  assert (dotproduct (vsub a p) N = 0) as Et by (unfold dotproduct; rewrite N1, N2, N3; ring). rewrite Et.
  assert (vadd p (vscale 0 N) = p) as Ep by (destruct p; unfold vadd, vscale; cbn; f_equal; ring). rewrite Ep.
  set (q1 := crossproduct (vsub p a) (vsub p b)). set (q2 := crossproduct (vsub p b) (vsub p c)).
  set (q3 := crossproduct (vsub p c) (vsub p a)).
  assert (sqnorm (area_vec p a b) = dotproduct q1 q1) as E1.
  { unfold q1, sqnorm, area_vec, dotproduct, crossproduct, vsub. cbn. ring. }
  assert (sqnorm (area_vec p b c) = dotproduct q2 q2) as E2.
  { unfold q2, sqnorm, area_vec, dotproduct, crossproduct, vsub. cbn. ring. }
  assert (sqnorm (area_vec p c a) = dotproduct q3 q3) as E3.
  { unfold q3, sqnorm, area_vec, dotproduct, crossproduct, vsub. cbn. ring. }
  rewrite E1, E2, E3.
  assert (vx q1 + vx q2 + vx q3 = 0 /\ vy q1 + vy q2 + vy q3 = 0 /\ vz q1 + vz q2 + vz q3 = 0) as (S1 & S2 & S3).
  { unfold N, crossproduct, vsub in N1, N2, N3. unfold q1, q2, q3, crossproduct, vsub.
    cbn [vx vy vz] in *. repeat split; lra. }
  assert (dotproduct q1 q1 + dotproduct q1 q2 + dotproduct q1 q3 = 0) as T1.
  { replace (dotproduct q1 q1 + dotproduct q1 q2 + dotproduct q1 q3) with
      (vx q1 * (vx q1 + vx q2 + vx q3) + vy q1 * (vy q1 + vy q2 + vy q3) + vz q1 * (vz q1 + vz q2 + vz q3))
      by (unfold dotproduct; ring). rewrite S1, S2, S3. ring. }
  assert (dotproduct q2 q2 + dotproduct q1 q2 + dotproduct q2 q3 = 0) as T2.
  { replace (dotproduct q2 q2 + dotproduct q1 q2 + dotproduct q2 q3) with
      (vx q2 * (vx q1 + vx q2 + vx q3) + vy q2 * (vy q1 + vy q2 + vy q3) + vz q2 * (vz q1 + vz q2 + vz q3))
      by (unfold dotproduct; ring). rewrite S1, S2, S3. ring. }
  assert (dotproduct q3 q3 + dotproduct q1 q3 + dotproduct q2 q3 = 0) as T3.
  { replace (dotproduct q3 q3 + dotproduct q1 q3 + dotproduct q2 q3) with
      (vx q3 * (vx q1 + vx q2 + vx q3) + vy q3 * (vy q1 + vy q2 + vy q3) + vz q3 * (vz q1 + vz q2 + vz q3))
      by (unfold dotproduct; ring). rewrite S1, S2, S3. ring. }
  pose proof (dot_nonneg q1) as P1. pose proof (dot_nonneg q2) as P2. pose proof (dot_nonneg q3) as P3.
  clear E1 E2 E3 S1 S2 S3. clearbody q1 q2 q3. split.
  - intros (Z1 & Z2 & Z3).
    assert (leb 0 (dotproduct q1 q2) = true) as -> by (apply leb_true; lra).
    assert (leb 0 (dotproduct q2 q3) = true) as -> by (apply leb_true; lra).
    assert (leb 0 (dotproduct q1 q3) = true) as -> by (apply leb_true; lra).
    cbn. apply Rabs_R0.
  - intros Hz. destruct (_ && _) eqn:E.
    + exfalso. apply andb_true_iff in E as [E X3]. apply andb_true_iff in E as [X1 X2].
      apply leb_true in X1, X2, X3. lra.
    + destruct (edges_distance a b c p) as ((q & T & Eq) & L). split.
      * exists q. split; auto. apply on_tri_edges, T.
      * intros r Hr. apply L, degenerate_edges; auto.
Qed.
