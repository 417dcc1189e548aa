(** Proofs about CrossProduct and Transform. *)
From Coq Require Import Reals Lra Field Psatz.
From Verif Require Import Rot_Model.
Open Scope R_scope.

Definition apply3 (Q : mat3) (A : vec) : vec :=
  mk_vec (v0 (r0 Q) * v0 A + v1 (r0 Q) * v1 A + v2 (r0 Q) * v2 A)
         (v0 (r1 Q) * v0 A + v1 (r1 Q) * v1 A + v2 (r1 Q) * v2 A)
         (v0 (r2 Q) * v0 A + v1 (r2 Q) * v1 A + v2 (r2 Q) * v2 A).

Definition sq (A : vec) : R := v0 A * v0 A + v1 A * v1 A + v2 A * v2 A.
Definition inner (A B : vec) : R := v0 A * v0 B + v1 A * v1 B + v2 A * v2 B.

Lemma sq_nneg : forall A, 0 <= sq A.
Proof. intro A. unfold sq. nra. Qed.
Lemma norm_sq : forall A, norm A * norm A = sq A.
Proof. intro A. unfold norm. replace (0 + v0 A * v0 A + v1 A * v1 A + v2 A * v2 A) with (sq A) by (unfold sq; ring). apply sqrt_sqrt, sq_nneg. Qed.
Lemma norm_nneg : forall A, 0 <= norm A.
Proof. intro A. apply sqrt_pos. Qed.

Lemma lagrange : forall A B, sq (cross A B) = sq A * sq B - inner A B * inner A B.
Proof. intros A B. unfold sq, cross, inner. cbn [v0 v1 v2]. ring. Qed.

Lemma vec_eta : forall A, mk_vec (v0 A) (v1 A) (v2 A) = A.
Proof. now destruct A. Qed.

Section T.
Variables A B : vec.
Hypothesis HA : 0 < sq A.
Hypothesis HB : 0 < sq B.
Let a := norm A.
Let b := norm B.
Let w := norm A * norm B + dot A B.
Hypothesis Hw : w <> 0.

Lemma a_pos : 0 < a.
Proof. pose proof (norm_sq A) as H. pose proof (norm_nneg A). unfold a. nra. Qed.
Lemma b_pos : 0 < b.
Proof. pose proof (norm_sq B) as H. pose proof (norm_nneg B). unfold b. nra. Qed.

Lemma q_len : sq (cross A B) + w * w = 2 * (a * b) * w.
Proof.
  rewrite lagrange, <- !norm_sq. fold a b. unfold w. fold a b. unfold dot, inner. ring.
Qed.

Lemma transform_maps : apply3 (transform A B) A = B.
Proof.
  pose proof a_pos as Pa. pose proof b_pos as Pb. pose proof q_len as Q.
  pose proof (norm_sq A) as EA. pose proof (norm_sq B) as EB. fold a in EA. fold b in EB.
  unfold transform. cbv zeta. fold w. fold a b.
  set (x := - (v1 B * v2 A - v2 B * v1 A)). set (y := - (v2 B * v0 A - v0 B * v2 A)). set (z := - (v0 B * v1 A - v1 B * v0 A)).
  assert (EN : x * x + y * y + z * z + w * w = 2 * (a * b) * w).
  { rewrite <- Q. unfold sq, cross, x, y, z. cbn [v0 v1 v2]. ring. }
  rewrite EN.
  assert (En : 2 * (b / a) / (2 * (a * b) * w) = 1 / (a * a * w)) by (field; repeat split; lra).
  rewrite En.
  set (d := inner A B).
  assert (Ew : w = a * b + d) by (unfold w, a, b, d, dot, inner; ring).
  assert (Eq : x * x + y * y + z * z = (a * b - d) * w) by (rewrite Ew in *; lra).
  assert (T : forall P A0 B0, P = - ((a * b - d) * w) * A0 + w * (a * a * B0 - d * A0) -> b / a * A0 + P * (1 / (a * a * w)) = B0).
  { intros P A0 B0 ->. field. split; [exact Hw|lra]. }
  unfold apply3. cbn [r0 r1 r2 v0 v1 v2]. set (k := 1 / (a * a * w)) in *. set (l := b / a) in *. rewrite <- (vec_eta B) at 1. f_equal.
  - etransitivity; [|apply (T (- (y * y + z * z) * v0 A + (x * y - z * w) * v1 A + (x * z + y * w) * v2 A) (v0 A) (v0 B))]; [ring|].
    rewrite <- Eq, EA. unfold d, inner, sq. cbn [v0 v1 v2]. unfold x, y, z. ring.
  - etransitivity; [|apply (T ((x * y + z * w) * v0 A - (x * x + z * z) * v1 A + (y * z - x * w) * v2 A) (v1 A) (v1 B))]; [ring|].
    rewrite <- Eq, EA. unfold d, inner, sq. cbn [v0 v1 v2]. unfold x, y, z. ring.
  - etransitivity; [|apply (T ((x * z - y * w) * v0 A + (y * z + x * w) * v1 A - (x * x + y * y) * v2 A) (v2 A) (v2 B))]; [ring|].
    rewrite <- Eq, EA. unfold d, inner, sq. cbn [v0 v1 v2]. unfold x, y, z. ring.
Qed.

(** The rows are orthogonal and of length |B|/|A|. *)
Lemma transform_ortho : let Q := transform A B in let l := norm B / norm A in
  inner (r0 Q) (r0 Q) = l * l /\ inner (r1 Q) (r1 Q) = l * l /\ inner (r2 Q) (r2 Q) = l * l /\
  inner (r0 Q) (r1 Q) = 0 /\ inner (r0 Q) (r2 Q) = 0 /\ inner (r1 Q) (r2 Q) = 0.
Proof.
  cbv zeta. pose proof a_pos as Pa. pose proof b_pos as Pb. pose proof q_len as Q.
  unfold transform. cbv zeta. fold w. fold a b.
  set (x := - (v1 B * v2 A - v2 B * v1 A)). set (y := - (v2 B * v0 A - v0 B * v2 A)). set (z := - (v0 B * v1 A - v1 B * v0 A)).
  assert (N : x * x + y * y + z * z + w * w <> 0) by nra.
  set (l := b / a). unfold inner. cbn [r0 r1 r2 v0 v1 v2].
  clearbody x y z l. clear Q. clearbody w. repeat split; field; exact N.
Qed.

(** det Q = l^3: a rotation, not a reflection. *)
Lemma transform_det : let Q := transform A B in let l := norm B / norm A in
  inner (r0 Q) (cross (r1 Q) (r2 Q)) = l * l * l.
Proof.
  cbv zeta. pose proof a_pos as Pa. pose proof b_pos as Pb. pose proof q_len as Q.
  unfold transform. cbv zeta. fold w. fold a b.
  set (x := - (v1 B * v2 A - v2 B * v1 A)). set (y := - (v2 B * v0 A - v0 B * v2 A)). set (z := - (v0 B * v1 A - v1 B * v0 A)).
  assert (N : x * x + y * y + z * z + w * w <> 0) by nra.
  set (l := b / a). unfold inner, cross. cbn [r0 r1 r2 v0 v1 v2].
  clearbody x y z l. clear Q. clearbody w. field; exact N.
Qed.

(** The axis is kept (scaled by l). *)
End T.

(** w vanishes exactly for opposite directions. *)
Lemma w_zero : forall A B, 0 < sq A -> 0 < sq B ->
  (norm A * norm B + dot A B = 0 <-> exists c, c < 0 /\ B = mk_vec (c * v0 A) (c * v1 A) (c * v2 A)).
Proof.
  intros A B HA HB. pose proof (norm_sq A) as EA. pose proof (norm_sq B) as EB.
  pose proof (norm_nneg A) as NA. pose proof (norm_nneg B) as NB. split.
  - intro E. assert (Pa : 0 < norm A) by nra. assert (Pb : 0 < norm B) by nra.
    assert (L : sq (cross A B) = 0).
    { rewrite lagrange, <- EA, <- EB. replace (inner A B) with (- (norm A * norm B)) by (unfold dot in E; unfold inner; lra). ring. }
    exists (- (norm B / norm A)). split.
    + apply Ropp_lt_gt_0_contravar. apply Rdiv_lt_0_compat; assumption.
    + assert (C : v0 (cross A B) = 0 /\ v1 (cross A B) = 0 /\ v2 (cross A B) = 0) by (unfold sq in L; repeat split; nra).
      destruct C as [C0 [C1 C2]]. unfold cross in C0, C1, C2. cbn [v0 v1 v2] in C0, C1, C2.
      assert (D : inner A B = - (norm A * norm B)) by (unfold dot in E; unfold inner; lra). unfold inner in D. unfold sq in EA.
      assert (K : forall A0 B0, norm A * norm A * B0 = - (norm A * norm B) * A0 -> B0 = - (norm B / norm A) * A0).
      { intros A0 B0 H. apply (Rmult_eq_reg_l (norm A * norm A)); [|nra]. rewrite H. field. lra. }
      destruct B as [B0 B1 B2]. cbn [v0 v1 v2] in *.
      f_equal; apply K; rewrite EA, <- D.
      * transitivity ((v0 A * B0 + v1 A * B1 + v2 A * B2) * v0 A + v2 A * (v2 A * B0 - v0 A * B2) - v1 A * (v0 A * B1 - v1 A * B0)); [ring|rewrite C1, C2; ring].
      * transitivity ((v0 A * B0 + v1 A * B1 + v2 A * B2) * v1 A + v0 A * (v0 A * B1 - v1 A * B0) - v2 A * (v1 A * B2 - v2 A * B1)); [ring|rewrite C0, C2; ring].
      * transitivity ((v0 A * B0 + v1 A * B1 + v2 A * B2) * v2 A + v1 A * (v1 A * B2 - v2 A * B1) - v0 A * (v2 A * B0 - v0 A * B2)); [ring|rewrite C0, C1; ring].
  - intros [c [Lc ->]].
    assert (Eb : norm (mk_vec (c * v0 A) (c * v1 A) (c * v2 A)) = - c * norm A).
    { unfold norm. cbn [v0 v1 v2].
      replace (0 + c * v0 A * (c * v0 A) + c * v1 A * (c * v1 A) + c * v2 A * (c * v2 A)) with ((- c) * (- c) * (0 + v0 A * v0 A + v1 A * v1 A + v2 A * v2 A)) by ring.
      rewrite sqrt_mult; [|nra|unfold sq in HA; lra]. rewrite sqrt_square by lra. reflexivity. }
    rewrite Eb. unfold dot. cbn [v0 v1 v2]. unfold sq in EA. nra.
Qed.
