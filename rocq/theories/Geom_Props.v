(** C94-C98: lengths, areas, normals, barycenters, volumes and the inside test. *)
From Coq Require Import List Reals Permutation Lra Lia Psatz Bool.
From Verif Require Import Geom_Model Geom_Spec Geom_Proofs Geom2_Proofs.
Import ListNotations.
Open Scope R_scope.

Ltac nodup := vm_compute; repeat (apply NoDup_cons; [let I := fresh in intros I; repeat (destruct I as [I|I]; [discriminate I|]); destruct I|]); apply NoDup_nil.
Ltac find_in := first [left; reflexivity | right; find_in].
Ltac edges := apply NoDup_Permutation_bis; [nodup|vm_compute; lia|vm_compute; let e := fresh in let I := fresh in intros e I;
  repeat (destruct I as [<-|I]; [find_in|]); destruct I].
Ltac rcase := repeat (destruct (Req_EM_T _ _) || destruct (Rlt_dec _ _)); try lra.

(** * C94 *)
(** Half the sum of the cross products over the edges of the loop, wherever it starts. *)
Theorem C94_shoelace nodes :
  face_normal nodes = vmul (1/2) (vsum (map (fun e => cross (fst e) (snd e)) (loop_edges nodes))).
Proof. apply normal_shoelace. Qed.
Theorem C94_start_and_direction a l t :
  face_normal (l ++ [a]) = face_normal (a :: l) /\
  face_normal (rev l) = vmul (-1) (face_normal l) /\
  face_normal (shift t l) = face_normal l /\
  face_area (l ++ [a]) = face_area (a :: l) /\ face_area (rev l) = face_area l /\ face_area (shift t l) = face_area l.
Proof.
  assert (Lr : face_area (l ++ [a]) = face_area (a :: l)).
  { unfold face_area. rewrite normal_rotate, app_length. cbn [length]. rewrite Nat.add_comm. reflexivity. }
  repeat split; auto using normal_rotate, normal_rev, normal_shift; unfold face_area.
  - rewrite rev_length, normal_rev, len_mul. replace (Rabs (-1)) with 1; [rewrite Rmult_1_l; reflexivity|]. rewrite Rabs_left; lra.
  - unfold shift at 1. rewrite map_length, normal_shift. reflexivity.
Qed.
Theorem C94_area_is_length_of_normal nodes : face_area nodes = len (face_normal nodes) /\ 0 <= face_area nodes.
Proof.
  assert (E : face_area nodes = len (face_normal nodes)).
  { unfold face_area. destruct nodes as [|a [|b [|c r]]]; try reflexivity; cbn; unfold len, dot; cbn;
    replace (0 * 0 + 0 * 0 + 0 * 0) with 0 by ring; rewrite sqrt_0; reflexivity. }
  split; [assumption|]. rewrite E. apply len_ge0.
Qed.
Theorem C94_triangle a b c : face_area [a; b; c] = triarea a b c /\ face_area [a; b; c] = 1/2 * len (cross (vsub b a) (vsub c a)).
Proof.
  assert (E : face_area [a; b; c] = len (half_cross a (b, c))).
  { rewrite (proj1 (C94_area_is_length_of_normal _)). rewrite face_normal_fan. cbn. f_equal. apply vadd_0_r. }
  rewrite E, heron. split; [reflexivity|]. unfold half_cross. cbn [fst snd]. rewrite len_mul. rewrite Rabs_right; lra.
Qed.
Theorem C94_edge a b t : edge_length a b * edge_length a b = (vx a - vx b)^2 + (vy a - vy b)^2 + (vz a - vz b)^2 /\ 0 <= edge_length a b /\
  edge_length b a = edge_length a b /\ edge_length (vadd t a) (vadd t b) = edge_length a b.
Proof.
  unfold edge_length. split; [rewrite len_sq; vunf; ring|]. split; [apply len_ge0|]. split; unfold len; f_equal; vunf; ring.
Qed.
(** The oriented areas of a closed surface sum to zero, planar faces or not. *)
Theorem C94_closed_surface fs : closed fs -> vsum (map (fun f => vmul (sgn (fst f)) (face_normal (snd f))) fs) = vzero.
Proof. apply closed_normals. Qed.

Lemma tetrahedron_closed a b c d : closed (tetrahedron a b c d).
Proof.
  pose (pt := fun n => match n with 0%nat => a | 1%nat => b | 2%nat => c | _ => d end).
  change (tetrahedron a b c d) with (map (fun f => (fst f, map pt (snd f)))
    [(false, [1;2;3]%nat); (false, [0;3;2]%nat); (true, [0;3;1]%nat); (false, [0;2;1]%nat)]).
  apply closed_map. unfold closed. edges.
Qed.
Example C94_nonvacuous : closed (tetrahedron (V 0 0 0) (V 1 0 0) (V 0 1 0) (V 0 0 1)) /\
  face_normal [V 0 0 0; V 2 0 0; V 2 3 0; V 0 3 0] = V 0 0 6 /\ face_area [V 0 0 0; V 2 0 0; V 2 3 0; V 0 3 0] = 6.
Proof.
  assert (E : face_normal [V 0 0 0; V 2 0 0; V 2 3 0; V 0 3 0] = V 0 0 6) by (cbn; vfield).
  split; [apply tetrahedron_closed|]. split; [assumption|]. rewrite (proj1 (C94_area_is_length_of_normal _)), E. unfold len, dot. cbn.
  replace (0 * 0 + 0 * 0 + 6 * 6) with (6 * 6) by ring. apply sqrt_square. lra.
Qed.

(** * C95 *)
Theorem C95_center_of_mass p e1 e2 nodes o : (forall v, In v nodes -> in_plane p e1 e2 v) -> in_plane p e1 e2 o ->
  face_normal nodes <> vzero -> face_bary nodes = area_center o (face_normal nodes) nodes.
Proof. apply face_bary_center. Qed.
Theorem C95_start_and_direction a l t : planar (a :: l) -> face_normal (a :: l) <> vzero ->
  face_bary (l ++ [a]) = face_bary (a :: l) /\ face_bary (rev (a :: l)) = face_bary (a :: l) /\
  face_bary (shift t (a :: l)) = vadd t (face_bary (a :: l)).
Proof. intros P N. split; [|split]; auto using face_bary_rotate, face_bary_rev, face_bary_shift. Qed.
Theorem C95_in_plane nodes v : planar nodes -> face_normal nodes <> vzero -> In v nodes ->
  dot (vsub (face_bary nodes) v) (face_normal nodes) = 0.
Proof.
  intros (p & e1 & e2 & H) N I. pose proof (face_bary_plane p e1 e2 nodes H N v I) as E.
  assert (X : forall a b n, dot (vsub a b) n = dot a n - dot b n) by (intros; vunf; ring). rewrite X, E. ring.
Qed.
Lemma triangle_planar a b c : planar [a; b; c].
Proof.
  exists a, (vsub b a), (vsub c a). intros v [<-|[<-|[<-|[]]]]; [exists 0, 0|exists 1, 0|exists 0, 1]; vring.
Qed.
(** A triangle: the mean of its nodes, even if it has no area. *)
Theorem C95_triangle a b c : face_bary [a; b; c] = vmul (1/3) (vadd a (vadd b c)).
Proof.
  assert (M : mean [a; b; c] = vmul (1/3) (vadd a (vadd b c))) by (unfold mean; cbn [length fold_left]; replace (INR 3) with 3 by (cbn; ring); vfield).
  unfold face_bary. cbn [length Nat.ltb Nat.leb]. cbv zeta. rewrite M. destruct (Req_EM_T _ 0) as [E|E]; [reflexivity|].
  destruct (fan_moment_sum (vmul (1/3) (vadd a (vadd b c))) (face_normal [a; b; c]) a (pairs [b; c])) as (A & B).
  rewrite A in *. rewrite B. clear A B M. cbn [pairs map] in *. rewrite rsum_cons in *. change (rsum []) with 0 in *.
  rewrite vsum_cons. change (vsum []) with vzero. cbn [fst snd]. revert E. generalize (weight (face_normal [a; b; c]) (half_cross a (b, c))). intros w E.
  rewrite Rplus_0_r, vadd_0_r, vmul_vmul in *. rewrite Rinv_l, vmul_1 by assumption. vfield.
Qed.
Example C95_nonvacuous : let l := [V 0 0 0; V 2 0 0; V 2 3 0; V 0 3 0] in
  planar l /\ face_normal l <> vzero /\ face_bary l = V 1 (3/2) 0.
Proof.
  intros l. assert (H : forall v, In v l -> in_plane vzero (V 1 0 0) (V 0 1 0) v).
  { intros v [<-|[<-|[<-|[<-|[]]]]]; [exists 0, 0|exists 2, 0|exists 2, 3|exists 0, 3]; vring. }
  assert (E : face_normal l = V 0 0 6) by (cbn; vfield). split; [exists vzero, (V 1 0 0), (V 0 1 0); exact H|].
  assert (N : face_normal l <> vzero) by (rewrite E; intros X; injection X as X; lra). split; [assumption|].
  rewrite (C95_center_of_mass vzero (V 1 0 0) (V 0 1 0) l vzero H (p_in_plane _ _ _) N). rewrite E. unfold area_center. cbn [map loop_edges app pairs l fst snd].
  clear. replace (dot (V 0 0 6) (V 0 0 6)) with 36 by (vunf; ring).
  repeat match goal with |- context [dot (V 0 0 6) (half_cross vzero ?t)] => let w := eval cbn in t in
    match w with (V ?a ?b _, V ?c ?d _) => replace (dot (V 0 0 6) (half_cross vzero t)) with (3 * (a * d - b * c)) by (vunf; field) end end.
  cbn [vsum fold_right fst snd]. unfold vzero. apply vec_eq; unfold vadd, vmul; cbn [vx vy vz]; lra.
Qed.

(** * C96 *)
(** The oriented sum does not depend on the position, also for curved faces. *)
Theorem C96_translation t cx fs : closed fs -> vol_sum (vadd t cx) (shift_faces t fs) = vol_sum cx fs /\
  cell_volume (vadd t cx) (shift_faces t fs) = cell_volume cx fs.
Proof. intros C. assert (E := vol_sum_shift t cx fs C). split; [assumption|]. unfold cell_volume. rewrite E. reflexivity. Qed.
(** Planar faces: the sum of the oriented tetrahedra over the fan triangles, from any apex. *)
Theorem C96_exact o cx fs : closed fs -> (forall f, In f fs -> planar (snd f)) ->
  vol_sum cx fs = vol6 o fs / 6 /\ (vol6 o fs <> 0 -> cell_volume cx fs = Some (Rabs (vol6 o fs) / 6)).
Proof.
  intros C P. assert (E : vol_sum cx fs = vol6 o fs / 6) by (rewrite (vol6_apex o vzero fs C); apply vol_sum_planar; assumption).
  split; [assumption|]. intros N. unfold cell_volume. rewrite E. destruct (Rlt_dec (vol6 o fs / 6) 0) as [L|L].
  - destruct (Rlt_dec 0 (- (vol6 o fs / 6))) as [L'|L']; [|lra]. rewrite Rabs_left by lra. f_equal. field.
  - destruct (Rlt_dec 0 (vol6 o fs / 6)) as [L'|L']; [|exfalso; apply N; lra]. rewrite Rabs_right by lra. reflexivity.
Qed.
(** Reversing the marks of all faces changes nothing in the volume. *)
Theorem C96_global_direction cx fs : cell_volume cx (map (fun f => (negb (fst f), snd f)) fs) = cell_volume cx fs.
Proof.
  assert (E : vol_sum cx (map (fun f => (negb (fst f), snd f)) fs) = - vol_sum cx fs).
  { unfold vol_sum. rewrite !fold_rplus, map_map. cbn [fst snd]. induction fs as [|(s & l) fs IH]; [cbn; ring|]. cbn [map fst snd].
    rewrite !rsum_cons, !Rplus_0_l in *. rewrite IH. destruct s; cbn [negb sgn]; ring. }
  unfold cell_volume. rewrite E. rcase; f_equal; lra.
Qed.
(** Two cells with a common face, which bounds one of them from each side. *)
Theorem C96_additive c1 c2 cx f A B : planar (snd f) -> (forall g, In g (A ++ B) -> planar (snd g)) ->
  vol_sum c1 (f :: A) + vol_sum c2 ((negb (fst f), snd f) :: B) = vol_sum cx (A ++ B).
Proof.
  intros Pf P. rewrite !vol_sum_planar; [| assumption | intros g [<-|I]; [assumption|apply P, in_or_app; right; assumption] | intros g [<-|I]; [assumption|apply P, in_or_app; left; assumption]].
  unfold vol6. rewrite map_app, rsum_app. cbn [map]. rewrite !rsum_cons. cbn [fst snd]. destruct f as (s & l). destruct s; cbn [negb sgn fst snd]; field.
Qed.
Lemma tetrahedron_planar a b c d f : In f (tetrahedron a b c d) -> planar (snd f).
Proof. intros [<-|[<-|[<-|[<-|[]]]]]; apply triangle_planar. Qed.
Lemma tetrahedron_vol6 a b c d : vol6 a (tetrahedron a b c d) = det4v a b c d.
Proof. unfold vol6. cbn. vunf. ring. Qed.
Theorem C96_tetrahedron cx a b c d : det4v a b c d <> 0 -> cell_volume cx (tetrahedron a b c d) = Some (Rabs (det4v a b c d) / 6).
Proof.
  intros N. rewrite <- tetrahedron_vol6 in *. apply C96_exact; auto using tetrahedron_closed. apply tetrahedron_planar.
Qed.
Definition box (x y z : R) : list (bool * list vec) :=
  map (fun f => (fst f, map (fun n => match n with
    | 0%nat => V 0 0 0 | 1%nat => V x 0 0 | 2%nat => V x y 0 | 3%nat => V 0 y 0
    | 4%nat => V 0 0 z | 5%nat => V x 0 z | 6%nat => V x y z | _ => V 0 y z end) (snd f)))
  [(true, [0;1;2;3]%nat); (false, [4;5;6;7]%nat); (false, [0;1;5;4]%nat); (false, [1;2;6;5]%nat); (false, [2;3;7;6]%nat); (true, [0;3;7;4]%nat)].
Lemma box_closed x y z : closed (box x y z).
Proof. apply closed_map. unfold closed. edges. Qed.
Lemma box_planar x y z f : In f (box x y z) -> planar (snd f).
Proof.
  intros I. unfold box in I. cbn in I.
  destruct I as [<-|[<-|[<-|[<-|[<-|[<-|[]]]]]]]; cbn [snd].
  - exists (V 0 0 0), (V 1 0 0), (V 0 1 0). intros v [<-|[<-|[<-|[<-|[]]]]]; [exists 0, 0|exists x, 0|exists x, y|exists 0, y]; vring.
  - exists (V 0 0 z), (V 1 0 0), (V 0 1 0). intros v [<-|[<-|[<-|[<-|[]]]]]; [exists 0, 0|exists x, 0|exists x, y|exists 0, y]; vring.
  - exists (V 0 0 0), (V 1 0 0), (V 0 0 1). intros v [<-|[<-|[<-|[<-|[]]]]]; [exists 0, 0|exists x, 0|exists x, z|exists 0, z]; vring.
  - exists (V x 0 0), (V 0 1 0), (V 0 0 1). intros v [<-|[<-|[<-|[<-|[]]]]]; [exists 0, 0|exists y, 0|exists y, z|exists 0, z]; vring.
  - exists (V 0 y 0), (V 1 0 0), (V 0 0 1). intros v [<-|[<-|[<-|[<-|[]]]]]; [exists x, 0|exists 0, 0|exists 0, z|exists x, z]; vring.
  - exists (V 0 0 0), (V 0 1 0), (V 0 0 1). intros v [<-|[<-|[<-|[<-|[]]]]]; [exists 0, 0|exists y, 0|exists y, z|exists 0, z]; vring.
Qed.
Lemma box_vol6 x y z : vol6 vzero (box x y z) = 6 * (x * y * z).
Proof. unfold vol6. cbn. vunf. ring. Qed.
Example C96_nonvacuous cx : closed (box 2 3 4) /\ (forall f, In f (box 2 3 4) -> planar (snd f)) /\ vol6 vzero (box 2 3 4) <> 0 /\
  cell_volume cx (box 2 3 4) = Some 24.
Proof.
  split; [apply box_closed|]. split; [apply box_planar|]. rewrite box_vol6. split; [lra|].
  rewrite (proj2 (C96_exact vzero cx _ (box_closed 2 3 4) (box_planar 2 3 4))) by (rewrite box_vol6; lra). rewrite box_vol6. f_equal. rewrite Rabs_right; lra.
Qed.

(** * C97 *)
Theorem C97_center_of_mass o cnodes fs : closed fs -> (forall f, In f fs -> planar (snd f)) -> vol6 o fs <> 0 ->
  cell_bary cnodes fs = vmul (/ vol6 o fs) (mom24 o fs).
Proof. apply cell_bary_closed. Qed.
Theorem C97_apex o o' fs : closed fs -> vol6 o fs = vol6 o' fs /\ mom24 o fs = mom24 o' fs.
Proof. intros C. split; [apply vol6_apex|apply mom24_apex]; assumption. Qed.
Theorem C97_tetrahedron cnodes a b c d : det4v a b c d <> 0 ->
  cell_bary cnodes (tetrahedron a b c d) = vmul (1/4) (vadd a (vadd b (vadd c d))).
Proof.
  intros N. rewrite (cell_bary_closed a) by (auto using tetrahedron_closed; try apply tetrahedron_planar; rewrite tetrahedron_vol6; assumption).
  rewrite tetrahedron_vol6. replace (mom24 a (tetrahedron a b c d)) with (vmul (det4v a b c d) (vmul (1/4) (vadd a (vadd b (vadd c d))))).
  - rewrite vmul_vmul. rewrite Rinv_l by assumption. apply vmul_1.
  - assert (Z : forall x y, tet6 a (a, x, y) = 0) by (intros; vunf; ring).
    unfold mom24. cbn [tetrahedron map fan_tets pairs fst snd vsum fold_right sgn]. rewrite !Z, !vmul_0, !vadd_0_r, !vmul_zero, !vadd_0_r, vmul_1.
    unfold tet_mean. cbn [fst snd]. reflexivity.
Qed.
(** Moving or reversing the cell. *)
Theorem C97_translation t cnodes cnodes' fs o : closed fs -> (forall f, In f fs -> planar (snd f)) -> vol6 o fs <> 0 ->
  cell_bary cnodes' (shift_faces t fs) = vadd t (cell_bary cnodes fs).
Proof.
  intros C P N. rewrite (cell_bary_closed o cnodes fs C P N).
  assert (C' : closed (shift_faces t fs)) by (apply (closed_map (vadd t) fs C)).
  assert (P' : forall f, In f (shift_faces t fs) -> planar (snd f)).
  { intros f I. unfold shift_faces in I. apply in_map_iff in I. destruct I as (g & <- & I). destruct (P g I) as (p & e1 & e2 & H).
    exists (vadd t p), e1, e2. cbn [snd]. intros v J. apply in_map_iff in J. destruct J as (w & <- & J). apply in_plane_shift, H, J. }
  assert (T : forall x, tet6 (vadd t o) (vadd t (fst (fst x)), vadd t (snd (fst x)), vadd t (snd x)) = tet6 o x) by (intros ((x & y) & z); vunf; ring).
  assert (V' : vol6 (vadd t o) (shift_faces t fs) = vol6 o fs).
  { unfold vol6, shift_faces. rewrite map_map. cbn [fst snd]. f_equal. apply map_ext. intros f. f_equal. rewrite fan_shift, map_map. f_equal. apply map_ext, T. }
  assert (M' : mom24 (vadd t o) (shift_faces t fs) = vadd (mom24 o fs) (vmul (vol6 o fs) t)).
  { apply dot_ext. intros u. rewrite dot_add_r, dot_mul_r. unfold mom24, vol6, shift_faces. rewrite map_map, !dot_vsum. cbn [fst snd].
    clear. induction fs as [|f fs IH]; [cbn; ring|]. cbn [map]. rewrite !rsum_cons, IH.
    match goal with |- ?A + (?B + ?C * ?x) = ?D + ?B + (?E + ?C) * ?x => enough (X : A = D + E * x) by lra end.
    rewrite !dot_mul_r, !dot_vsum, Rmult_assoc, <- Rmult_plus_distr_l. f_equal. rewrite fan_shift, map_map.
    induction (fan_tets (snd f)) as [|((x & y) & z) l IHl]; [cbn; ring|]. cbn [map]. rewrite !rsum_cons, IHl. vunf. field. }
  rewrite (cell_bary_closed (vadd t o) cnodes' _ C' P') by (rewrite V'; assumption). rewrite V', M', vmul_add, vmul_vmul, Rinv_l, vmul_1 by assumption. apply vadd_comm.
Qed.
Example C97_nonvacuous : let t := tetrahedron (V 0 0 0) (V 4 0 0) (V 0 8 0) (V 0 0 12) in
  closed t /\ (forall f, In f t -> planar (snd f)) /\ vol6 (V 0 0 0) t <> 0 /\ cell_bary [V 7 0 0; V 1 1 1] t = V 1 2 3 /\
  closed (box 2 3 4) /\ (forall f, In f (box 2 3 4) -> planar (snd f)) /\ vol6 vzero (box 2 3 4) <> 0.
Proof.
  intros t. split; [apply tetrahedron_closed|]. split; [apply tetrahedron_planar|].
  assert (D : det4v (V 0 0 0) (V 4 0 0) (V 0 8 0) (V 0 0 12) <> 0) by (vunf; lra).
  split; [unfold t; rewrite tetrahedron_vol6; exact D|]. split; [unfold t; rewrite (C97_tetrahedron _ _ _ _ _ D); clear; vfield|].
  split; [apply box_closed|]. split; [apply box_planar|]. rewrite box_vol6. lra.
Qed.

(** * C98 *)
(** The sum over the loop is exactly twice the distance term of the face. *)
Theorem C98_term p v0 nodes : inside_sum p v0 nodes = 2 * dot (vsub v0 p) (face_normal nodes).
Proof. apply inside_sum_normal. Qed.
Theorem C98_answer eps p faces : let d f := sgn (fst f) * (2 * dot (vsub (fst (snd f)) p) (face_normal (snd (snd f)))) in
  0 <= eps -> (inside eps p faces = true <-> ~ ((exists f, In f faces /\ eps < d f) /\ (exists f, In f faces /\ d f < - eps))).
Proof. apply inside_char. Qed.
(** A cell with planar faces and volume: exactly the points on the inner side of every face,
    with the tolerance, whether the faces look out of the cell or into it. *)
Theorem C98_inner_side eps p o faces : let fs := map (fun f => (fst f, snd (snd f))) faces in
  let d f := sgn (fst f) * (2 * dot (vsub (fst (snd f)) p) (face_normal (snd (snd f)))) in
  0 <= eps -> closed fs -> (forall f, In f faces -> planar (fst (snd f) :: snd (snd f))) ->
  INR (length faces) * eps < Rabs (vol6 o fs) ->
  (inside eps p faces = true <-> forall f, In f faces -> if Rlt_dec 0 (vol6 o fs) then - eps <= d f else d f <= eps).
Proof.
  intros fs d Pe C P Vl. pose proof (inside_total o p faces C P) as T. change (rsum (map d faces) = vol6 o fs) in T. rewrite (inside_char eps p faces Pe).
  destruct (Rlt_dec 0 (vol6 o fs)) as [L|L].
  - rewrite Rabs_right in Vl by lra. split.
    + intros H f I. destruct (Rle_dec (- eps) (d f)) as [G|G]; [assumption|]. exfalso. apply H. split; [|exists f; split; [assumption|unfold d in *; lra]].
      assert (X : ~ forall g, In g faces -> d g <= eps). { intros A. apply (rsum_le d eps) in A. rewrite T in A. lra. }
      destruct (Exists_dec (fun g => eps < d g) faces (fun g => Rlt_dec eps (d g))) as [E|E]; [apply Exists_exists in E; exact E|].
      exfalso. apply X. intros g J. destruct (Rle_dec (d g) eps); [assumption|]. exfalso. apply E, Exists_exists. exists g. split; [assumption|lra].
    + intros H (_ & f & I & G). specialize (H f I). unfold d in *. lra.
  - rewrite Rabs_left1 in Vl by lra. split.
    + intros H f I. destruct (Rle_dec (d f) eps) as [G|G]; [assumption|]. exfalso. apply H. split; [exists f; split; [assumption|unfold d in *; lra]|].
      assert (X : ~ forall g, In g faces -> - d g <= eps).
      { intros A. apply (rsum_le (fun g => - d g) eps) in A. rewrite (map_ext _ (fun g => -1 * d g)) in A by (intros; ring). rewrite rsum_mul, T in A. lra. }
      destruct (Exists_dec (fun g => d g < - eps) faces (fun g => Rlt_dec (d g) (- eps))) as [E|E]; [apply Exists_exists in E; exact E|].
      exfalso. apply X. intros g J. destruct (Rle_dec (- d g) eps); [assumption|]. exfalso. apply E, Exists_exists. exists g. split; [assumption|lra].
    + intros H ((f & I & G) & _). specialize (H f I). unfold d in *. lra.
Qed.
(** A polygon in a mesh of dimension three: the union of the triangles over its edges. *)
Lemma inside_tri_iff p e1 e2 q a b c : in_plane p e1 e2 q -> in_plane p e1 e2 a -> in_plane p e1 e2 b -> in_plane p e1 e2 c ->
  cross (vsub b a) (vsub c a) <> vzero -> (inside_tri true q a (b, c) = true <-> in_triangle q a b c).
Proof.
  intros (x0 & y0 & ->) (x1 & y1 & ->) (x2 & y2 & ->) (x3 & y3 & ->) N.
  set (w := cross e1 e2). set (W := dot w w).
  pose (k := fun xa ya xb yb => (x0 - xa) * (y0 - yb) - (y0 - ya) * (x0 - xb)).
  assert (K : forall xa ya xb yb, cross (vsub (vadd p (vadd (vmul x0 e1) (vmul y0 e2))) (vadd p (vadd (vmul xa e1) (vmul ya e2))))
     (vsub (vadd p (vadd (vmul x0 e1) (vmul y0 e2))) (vadd p (vadd (vmul xb e1) (vmul yb e2)))) = vmul (k xa ya xb yb) w) by (intros; unfold k, w; vring).
  pose (D := (x2 - x1) * (y3 - y1) - (y2 - y1) * (x3 - x1)).
  assert (ND : D <> 0 /\ 0 < W).
  { assert (E : cross (vsub (vadd p (vadd (vmul x2 e1) (vmul y2 e2))) (vadd p (vadd (vmul x1 e1) (vmul y1 e2))))
      (vsub (vadd p (vadd (vmul x3 e1) (vmul y3 e2))) (vadd p (vadd (vmul x1 e1) (vmul y1 e2)))) = vmul D w) by (unfold D, w; vring).
    rewrite E in N. split.
    - intros Z. apply N. rewrite Z. apply vmul_0.
    - destruct (dot_ge0 w) as [G|G]; [exact G|]. exfalso. apply N. rewrite (dot_0_eq w) by (symmetry; exact G). apply vmul_zero. }
  destruct ND as (ND & PW). unfold inside_tri. cbv zeta. cbn [fst snd]. rewrite !K. cbn [dotn]. rewrite !dot_mul_l, !dot_mul_r. fold W.
  set (k1 := k x1 y1 x2 y2). set (k2 := k x2 y2 x3 y3). set (k3 := k x3 y3 x1 y1).
  assert (S1 : k1 + k2 + k3 = D) by (unfold k1, k2, k3, k, D; ring).
  rewrite !andb_true_iff. unfold ge0.
  assert (G : forall x y, (if Rle_dec 0 (x * (y * W)) then true else false) = true <-> 0 <= x * y).
  { intros x y. destruct (Rle_dec 0 (x * (y * W))) as [L|L]; split; intros H; [nra|reflexivity|discriminate|exfalso; apply L; rewrite <- Rmult_assoc; apply Rmult_le_pos; lra]. }
  rewrite !G. split.
  - intros ((H12 & H23) & H13). exists (k2 / D), (k3 / D), (k1 / D).
    assert (Pos : forall x, 0 <= x * D -> 0 <= x / D).
    { intros x H. replace (x / D) with (x * D * / (D * D)) by (field; assumption). apply Rmult_le_pos; [assumption|].
      apply Rlt_le, Rinv_0_lt_compat. nra. }
    split; [apply Pos; rewrite <- S1; nra|]. split; [apply Pos; rewrite <- S1; nra|]. split; [apply Pos; rewrite <- S1; nra|].
    split; [rewrite <- S1; field; rewrite S1; assumption|].
    assert (Vec : forall m n r s t v, m + n + r = 1 -> s = m * x1 + n * x2 + r * x3 -> t = m * y1 + n * y2 + r * y3 ->
      v = vadd p (vadd (vmul s e1) (vmul t e2)) ->
      v = vadd (vmul m (vadd p (vadd (vmul x1 e1) (vmul y1 e2)))) (vadd (vmul n (vadd p (vadd (vmul x2 e1) (vmul y2 e2)))) (vmul r (vadd p (vadd (vmul x3 e1) (vmul y3 e2)))))).
    { intros m n r s t v Hs -> -> ->. assert (m = 1 - n - r) by lra. subst m. vring. }
    apply (Vec _ _ _ x0 y0); [rewrite <- S1; field; rewrite S1; assumption| | |reflexivity]; unfold k1, k2, k3, k; unfold D in *; field; assumption.
  - intros (l1 & l2 & l3 & P1 & P2 & P3 & Sm & E).
    assert (El : forall x y, vmul W (vadd (vmul (x - (l1 * x1 + l2 * x2 + l3 * x3)) (V 1 0 0)) (vmul (y - (l1 * y1 + l2 * y2 + l3 * y3)) (V 0 1 0))) =
       vmul W (vadd (vmul (x - (l1 * x1 + l2 * x2 + l3 * x3)) (V 1 0 0)) (vmul (y - (l1 * y1 + l2 * y2 + l3 * y3)) (V 0 1 0)))) by reflexivity.
    clear El.
    assert (Eq : vadd (vmul (x0 - (l1 * x1 + l2 * x2 + l3 * x3)) e1) (vmul (y0 - (l1 * y1 + l2 * y2 + l3 * y3)) e2) = vzero).
    { assert (Z : l1 = 1 - l2 - l3) by lra. subst l1. clear -E.
      injection E as Ex Ey Ez. apply vec_eq; vunf; cbn in *; lra. }
    assert (Ex : x0 = l1 * x1 + l2 * x2 + l3 * x3).
    { pose proof (f_equal (fun v => dot (cross v e2) w) Eq) as Z. cbn beta in Z.
      replace (dot (cross (vadd (vmul (x0 - (l1 * x1 + l2 * x2 + l3 * x3)) e1) (vmul (y0 - (l1 * y1 + l2 * y2 + l3 * y3)) e2)) e2) w) with ((x0 - (l1 * x1 + l2 * x2 + l3 * x3)) * W) in Z by (unfold W, w; vunf; ring).
      replace (dot (cross vzero e2) w) with 0 in Z by (vunf; ring). apply Rmult_integral in Z. destruct Z; lra. }
    assert (Ey : y0 = l1 * y1 + l2 * y2 + l3 * y3).
    { pose proof (f_equal (fun v => dot (cross e1 v) w) Eq) as Z. cbn beta in Z.
      replace (dot (cross e1 (vadd (vmul (x0 - (l1 * x1 + l2 * x2 + l3 * x3)) e1) (vmul (y0 - (l1 * y1 + l2 * y2 + l3 * y3)) e2))) w) with ((y0 - (l1 * y1 + l2 * y2 + l3 * y3)) * W) in Z by (unfold W, w; vunf; ring).
      replace (dot (cross e1 vzero) w) with 0 in Z by (vunf; ring). apply Rmult_integral in Z. destruct Z; lra. }
    assert (Z : l1 = 1 - l2 - l3) by lra.
    assert (K1 : k1 = l3 * D) by (unfold k1, k, D; rewrite Ex, Ey, Z; ring).
    assert (K2 : k2 = l1 * D) by (unfold k2, k, D; rewrite Ex, Ey, Z; ring).
    assert (K3 : k3 = l2 * D) by (unfold k3, k, D; rewrite Ex, Ey, Z; ring).
    assert (Q : forall x y, 0 <= x -> 0 <= y -> 0 <= x * D * (y * D)).
    { intros x y Hx Hy. replace (x * D * (y * D)) with (x * y * (D * D)) by ring. apply Rmult_le_pos; [apply Rmult_le_pos; assumption|nra]. }
    rewrite K1, K2, K3. auto.
Qed.
Theorem C98_polygon p e1 e2 q c nodes : in_plane p e1 e2 q -> (forall v, In v (c :: nodes) -> in_plane p e1 e2 v) ->
  (forall e, In e (loop_edges nodes) -> cross (vsub (fst e) c) (vsub (snd e) c) <> vzero) ->
  (inside2 true q c nodes = true <-> exists e, In e (loop_edges nodes) /\ in_triangle q c (fst e) (snd e)).
Proof.
  intros Hq H N. unfold inside2. destruct nodes as [|v0 r]; [split; [discriminate|intros (e & [] & _)]|].
  change (pairs ((v0 :: r) ++ [v0])) with (loop_edges (v0 :: r)). rewrite existsb_exists.
  split; intros ((a & b) & I & T); exists (a, b); (split; [assumption|]); pose proof (loop_in _ _ I) as J; cbn [fst snd] in *;
    apply (inside_tri_iff p e1 e2 q c a b); auto; try (apply H; cbn [In] in *; tauto); apply (N (a, b) I).
Qed.
(** In a mesh of dimension two every point is inside of every cell. *)
Theorem C98_dimension_two_refuted px py cx cy nodes : nodes <> [] -> (forall v, In v nodes -> vz v = 0) ->
  inside2 false (V px py 0) (V cx cy 0) nodes = true.
Proof.
  intros N Z. unfold inside2. destruct nodes as [|v0 r]; [contradiction|].
  change (pairs ((v0 :: r) ++ [v0])) with (loop_edges (v0 :: r)).
  assert (T : forall e, In e (loop_edges (v0 :: r)) -> inside_tri false (V px py 0) (V cx cy 0) e = true).
  { intros (a & b) I. apply loop_in in I. cbn [fst snd] in I. assert (Za := Z a (proj1 I)). assert (Zb := Z b (proj2 I)).
    destruct a as [a1 a2 a3], b as [b1 b2 b3]. cbn in Za, Zb. subst a3 b3. unfold inside_tri, ge0, dotn. cbv zeta. vunf.
    repeat match goal with |- context [Rle_dec 0 ?x] => destruct (Rle_dec 0 x) as [_|X]; [|exfalso; apply X; replace x with 0 by ring; lra] end. reflexivity. }
  apply existsb_exists. destruct r as [|b r]; [exists (v0, v0)|exists (v0, b)]; (split; [left; reflexivity|apply T; left; reflexivity]).
Qed.
Lemma quad p a b c d : c = vsub (vadd b d) a ->
  2 * dot (vsub (mean [a; b; c; d]) p) (face_normal [a; b; c; d]) = 2 * dot (vsub a p) (cross (vsub b a) (vsub d a)).
Proof.
  intros ->. assert (M : mean [a; b; vsub (vadd b d) a; d] = vmul (1/2) (vadd b d)) by (unfold mean; cbn [length fold_left]; replace (INR 4) with 4 by (cbn; ring); vfield).
  assert (N : face_normal [a; b; vsub (vadd b d) a; d] = cross (vsub b a) (vsub d a)) by (rewrite face_normal_fan; cbn [pairs map]; rewrite !vsum_cons; change (vsum []) with vzero; vfield).
  rewrite M, N. vunf. field.
Qed.
Example C98_nonvacuous : let faces := map (fun f => (fst f, (mean (snd f), snd f))) (box 1 1 1) in
  inside 0 (V (1/2) (1/2) (1/2)) faces = true /\ inside 0 (V 2 (1/2) (1/2)) faces = false /\
  inside2 false (V 9 9 0) (V (1/3) (1/3) 0) [V 0 0 0; V 1 0 0; V 0 1 0] = true /\
  inside2 true (V 9 9 0) (V (1/3) (1/3) 0) [V 0 0 0; V 1 0 0; V 0 1 0] = false.
Proof.
  intros faces.
  assert (Cl : closed (map (fun f => (fst f, snd (snd f))) faces)).
  { unfold faces. rewrite map_map. cbn [fst snd]. rewrite (map_ext _ (fun f => f)) by (intros (s & l); reflexivity). rewrite map_id. apply box_closed. }
  assert (Ev : forall x y z, (inside 0 (V x y z) faces = true <-> 0 <= x <= 1 /\ 0 <= y <= 1 /\ 0 <= z <= 1)).
  { intros x y z. assert (Vo : vol6 vzero (map (fun f => (fst f, snd (snd f))) faces) = 6).
    { unfold faces. rewrite map_map. cbn [fst snd]. rewrite (map_ext _ (fun f => f)) by (intros (s & l); reflexivity). rewrite map_id, box_vol6. ring. }
    pose proof (C98_inner_side 0 (V x y z) vzero faces (Rle_refl 0) Cl) as T. cbv zeta in T. rewrite Vo in T. rewrite T; clear T.
    - destruct (Rlt_dec 0 6) as [_|G]; [|lra]. unfold faces. cbn [box map fst snd].
      assert (Q : forall s a b c d, c = vsub (vadd b d) a ->
        (- 0 <= sgn (fst (s, (mean [a; b; c; d], [a; b; c; d]))) * (2 * dot (vsub (fst (snd (s, (mean [a; b; c; d], [a; b; c; d])))) (V x y z)) (face_normal (snd (snd (s, (mean [a; b; c; d], [a; b; c; d])))))) <->
         0 <= sgn s * dot (vsub a (V x y z)) (cross (vsub b a) (vsub d a)))).
      { intros s a b c d E. cbn [fst snd]. rewrite (quad (V x y z) a b c d E). destruct s; cbn [sgn]; lra. }
      split.
      + intros H.
        pose proof (H _ (or_introl eq_refl)) as H1; apply Q in H1; [|vring]. pose proof (H _ (or_intror (or_introl eq_refl))) as H2; apply Q in H2; [|vring].
        pose proof (H _ (or_intror (or_intror (or_introl eq_refl)))) as H3; apply Q in H3; [|vring]. pose proof (H _ (or_intror (or_intror (or_intror (or_introl eq_refl))))) as H4; apply Q in H4; [|vring].
        pose proof (H _ (or_intror (or_intror (or_intror (or_intror (or_introl eq_refl)))))) as H5; apply Q in H5; [|vring]. pose proof (H _ (or_intror (or_intror (or_intror (or_intror (or_intror (or_introl eq_refl))))))) as H6; apply Q in H6; [|vring].
        clear -H1 H2 H3 H4 H5 H6. cbn [sgn] in *. vunf. lra.
      + intros H f I. clear -H Q I. repeat (destruct I as [<-|I]; [apply Q; [vring|cbn [sgn]; vunf; lra]|]). destruct I.
    - intros f I. unfold faces in I. apply in_map_iff in I. destruct I as (g & <- & I). cbn [fst snd].
      destruct (box_planar 1 1 1 g I) as (p & e1 & e2 & H). exists p, e1, e2. intros v [<-|J]; [|apply H, J].
      apply mean_in_plane; [|exact H]. intros Z. unfold box in I. cbn in I. repeat (destruct I as [<-|I]; [discriminate Z|]). destruct I.
    - rewrite Rmult_0_r. rewrite Rabs_right; lra. }
  split; [apply Ev; lra|]. split; [destruct (inside 0 (V 2 (1/2) (1/2)) faces) eqn:E; [|reflexivity]; apply Ev in E; lra|].
  split; [apply C98_dimension_two_refuted; [discriminate|intros v [<-|[<-|[<-|[]]]]; reflexivity]|].
  unfold inside2. cbn [app pairs existsb inside_tri]. unfold inside_tri, ge0, dotn. cbv zeta. vunf.
  repeat match goal with |- context [Rle_dec 0 ?x] => destruct (Rle_dec 0 x) as [X|X]; [try (exfalso; lra)|try (exfalso; lra)]; clear X; cbn [andb orb] end. reflexivity.
Qed.

Print Assumptions C94_shoelace.
Print Assumptions C94_start_and_direction.
Print Assumptions C94_area_is_length_of_normal.
Print Assumptions C94_triangle.
Print Assumptions C94_closed_surface.
Print Assumptions C95_center_of_mass.
Print Assumptions C95_start_and_direction.
Print Assumptions C95_in_plane.
Print Assumptions C95_triangle.
Print Assumptions C96_translation.
Print Assumptions C96_exact.
Print Assumptions C96_global_direction.
Print Assumptions C96_additive.
Print Assumptions C96_tetrahedron.
Print Assumptions C97_center_of_mass.
Print Assumptions C97_apex.
Print Assumptions C97_tetrahedron.
Print Assumptions C97_translation.
Print Assumptions C98_term.
Print Assumptions C98_answer.
Print Assumptions C98_inner_side.
Print Assumptions C98_polygon.
Print Assumptions C98_dimension_two_refuted.
Print Assumptions C94_edge.
