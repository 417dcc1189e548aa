From Coq Require Import List Reals Permutation Lra Lia Psatz Bool.
From Verif Require Import Geom_Model Geom_Spec Geom_Proofs.
Import ListNotations.
Open Scope R_scope.

(** * Planar faces *)
Lemma half_cross_plane p e1 e2 o a b : in_plane p e1 e2 o -> in_plane p e1 e2 a -> in_plane p e1 e2 b ->
  exists l, half_cross o (a, b) = vmul l (cross e1 e2).
Proof.
  intros (ao & bo & ->) (aa & ba & ->) (ab & bb & ->).
  exists (1/2 * ((aa - ao) * (bb - bo) - (ba - bo) * (ab - ao))). vring.
Qed.
Lemma pairs_in {A} (l : list A) e : In e (pairs l) -> In (fst e) l /\ In (snd e) l.
Proof.
  revert e. induction l as [|a l IH]; [intros e []|]. destruct l as [|b l]; [intros e []|].
  intros e [<-|I]; [cbn; auto|]. apply IH in I. cbn [In] in *. tauto.
Qed.
Lemma loop_in {A} (l : list A) e : In e (loop_edges l) -> In (fst e) l /\ In (snd e) l.
Proof.
  destruct l as [|a l]; [intros []|]. unfold loop_edges. intros I. apply pairs_in in I. rewrite !in_app_iff in I. cbn [In] in *. tauto.
Qed.
Lemma vsum_par {A} (f : A -> vec) w l : (forall x, In x l -> exists k, f x = vmul k w) -> exists k, vsum (map f l) = vmul k w.
Proof.
  induction l as [|a l IH]; intros H.
  - exists 0. rewrite vmul_0. reflexivity.
  - destruct (H a) as (k & E); [left; reflexivity|]. destruct IH as (k' & E'); [intros x I; apply H; right; assumption|].
    exists (k + k'). cbn [map]. rewrite vsum_cons, E, E'. vring.
Qed.
Lemma face_normal_fan v0 r : face_normal (v0 :: r) = vsum (map (half_cross v0) (pairs r)).
Proof. unfold face_normal. rewrite fold_vadd, vadd_0_l. reflexivity. Qed.
Lemma normal_plane p e1 e2 nodes : (forall v, In v nodes -> in_plane p e1 e2 v) ->
  exists k, face_normal nodes = vmul k (cross e1 e2).
Proof.
  intros H. destruct nodes as [|v0 r]; [exists 0; rewrite vmul_0; reflexivity|]. rewrite face_normal_fan.
  apply vsum_par. intros (a & b) I. apply pairs_in in I. cbn in I. apply (half_cross_plane p e1 e2); apply H; cbn; tauto.
Qed.
Lemma weight_par w k l : weight (vmul k w) (vmul l w) * len (vmul k w) = dot (vmul k w) (vmul l w).
Proof.
  unfold weight. destruct (Req_EM_T (dot (vmul k w) (vmul l w)) 0) as [E|E]; [rewrite E; ring|].
  rewrite !dot_mul_l, !dot_mul_r in *. rewrite !len_mul.
  replace (Rabs (k * (l * dot w w))) with (Rabs k * Rabs l * (len w * len w)).
  2:{ rewrite len_sq. rewrite !Rabs_mult. rewrite (Rabs_right (dot w w)); [ring|]. apply Rle_ge, dot_ge0. }
  assert (Rabs k <> 0) by (apply Rabs_no_R0; intros ->; apply E; ring).
  assert (Rabs l <> 0) by (apply Rabs_no_R0; intros ->; apply E; ring).
  assert (len w <> 0) by (intros Z; apply E; rewrite <- len_sq, Z; ring). field. auto.
Qed.
Lemma weight_zero nt : weight vzero nt = 0.
Proof. unfold weight. destruct (Req_EM_T (dot vzero nt) 0) as [E|E]; [rewrite E; ring|]. exfalso. apply E, dot_0_l. Qed.
Lemma fan_moment_sum xf n0 v0 ts :
  fst (fan_moment xf n0 v0 ts) = rsum (map (fun t => weight n0 (half_cross v0 t)) ts) /\
  snd (fan_moment xf n0 v0 ts) =
    vsum (map (fun t => vmul (weight n0 (half_cross v0 t)) (vmul (1/3) (vadd (vadd (vsub v0 xf) (vsub (fst t) xf)) (vsub (snd t) xf)))) ts).
Proof.
  unfold fan_moment.
  assert (G : forall ts s,
    let r := fold_left (fun s t => let at_ := weight n0 (half_cross v0 t) in
      (fst s + at_, vadd (snd s) (vmul (1/3) (vmul at_ (vadd (vadd (vsub v0 xf) (vsub (fst t) xf)) (vsub (snd t) xf)))))) ts s in
    fst r = fst s + rsum (map (fun t => weight n0 (half_cross v0 t)) ts) /\
    snd r = vadd (snd s) (vsum (map (fun t => vmul (weight n0 (half_cross v0 t)) (vmul (1/3) (vadd (vadd (vsub v0 xf) (vsub (fst t) xf)) (vsub (snd t) xf)))) ts))).
  { clear ts. induction ts as [|t ts IH]; intros s; cbn [fold_left map].
    - split; [cbn; ring|rewrite vadd_0_r; reflexivity].
    - destruct (IH (fst s + weight n0 (half_cross v0 t), vadd (snd s) (vmul (1/3) (vmul (weight n0 (half_cross v0 t)) (vadd (vadd (vsub v0 xf) (vsub (fst t) xf)) (vsub (snd t) xf)))))) as (A & B).
      cbv zeta in *. rewrite A, B. cbn [fst snd]. rewrite rsum_cons, vsum_cons. split; [ring|].
      rewrite !vmul_vmul, (Rmult_comm (1/3)), vadd_assoc. reflexivity. }
  destruct (G ts (0, vzero)) as (A & B). cbv zeta in *. rewrite A, B. cbn [fst snd]. split; [ring|apply vadd_0_l].
Qed.
Definition planar_by p e1 e2 (nodes : list vec) := forall v, In v nodes -> in_plane p e1 e2 v.

Lemma fan_par p e1 e2 v0 r : planar_by p e1 e2 (v0 :: r) ->
  exists k, face_normal (v0 :: r) = vmul k (cross e1 e2) /\
    forall t, In t (pairs r) -> exists l, half_cross v0 t = vmul l (cross e1 e2).
Proof.
  intros H. destruct (normal_plane p e1 e2 _ H) as (k & E). exists k. split; [assumption|].
  intros (a & b) I. apply pairs_in in I. cbn in I. apply (half_cross_plane p e1 e2); apply H; cbn; tauto.
Qed.
Lemma fan_weight p e1 e2 v0 r t : planar_by p e1 e2 (v0 :: r) -> In t (pairs r) ->
  weight (face_normal (v0 :: r)) (half_cross v0 t) * len (face_normal (v0 :: r)) = dot (face_normal (v0 :: r)) (half_cross v0 t).
Proof.
  intros H I. destruct (fan_par p e1 e2 v0 r H) as (k & E & F). destruct (F t I) as (l & G). rewrite E, G. apply weight_par.
Qed.
Lemma fan_total p e1 e2 xf v0 r : planar_by p e1 e2 (v0 :: r) ->
  fst (fan_moment xf (face_normal (v0 :: r)) v0 (pairs r)) = len (face_normal (v0 :: r)).
Proof.
  intros H. destruct (fan_moment_sum xf (face_normal (v0 :: r)) v0 (pairs r)) as (A & _). rewrite A. clear A.
  destruct (Req_EM_T (len (face_normal (v0 :: r))) 0) as [Z|Z].
  - rewrite Z. assert (N : face_normal (v0 :: r) = vzero) by (apply dot_0_eq; rewrite <- len_sq, Z; ring).
    rewrite N. rewrite (map_ext _ (fun _ => 0)) by (intros; apply weight_zero).
    induction (pairs r) as [|x l IH]; cbn [map]; [reflexivity|]. rewrite rsum_cons, IH. ring.
  - apply (Rmult_eq_reg_r (len (face_normal (v0 :: r)))); [|assumption]. rewrite len_sq.
    transitivity (dot (face_normal (v0 :: r)) (vsum (map (half_cross v0) (pairs r)))); [|rewrite <- face_normal_fan; reflexivity].
    rewrite Rmult_comm, <- rsum_mul, dot_vsum. f_equal. apply map_ext_in. intros t I.
    rewrite Rmult_comm. apply (fan_weight p e1 e2 v0 r t H I).
Qed.
Lemma plane_dot p e1 e2 v w k : in_plane p e1 e2 v -> in_plane p e1 e2 w -> dot v (vmul k (cross e1 e2)) = dot w (vmul k (cross e1 e2)).
Proof. intros (a & b & ->) (c & d & ->). vunf. ring. Qed.
Lemma len_0 a : len a = 0 -> a = vzero.
Proof. intros H. apply dot_0_eq. rewrite <- len_sq, H. ring. Qed.
(** the moment of the fan against the normal *)
Lemma fan_dot p e1 e2 xf v0 r : planar_by p e1 e2 (v0 :: r) ->
  let n0 := face_normal (v0 :: r) in let m := fan_moment xf n0 v0 (pairs r) in
  dot (snd m) n0 = fst m * (dot v0 n0 - dot xf n0).
Proof.
  intros H n0 m. subst m. destruct (fan_moment_sum xf n0 v0 (pairs r)) as (A & B). rewrite A, B.
  rewrite dot_comm, dot_vsum, Rmult_comm, <- rsum_mul. f_equal. apply map_ext_in. intros t I.
  destruct (fan_par p e1 e2 v0 r H) as (k & E & _). unfold n0. rewrite E. destruct t as (a & b). apply pairs_in in I. cbn in I.
  assert (Da : dot a (vmul k (cross e1 e2)) = dot v0 (vmul k (cross e1 e2))) by (apply (plane_dot p); apply H; cbn; tauto).
  assert (Db : dot b (vmul k (cross e1 e2)) = dot v0 (vmul k (cross e1 e2))) by (apply (plane_dot p); apply H; cbn; tauto).
  generalize dependent (vmul k (cross e1 e2)). intros w _ Da Db. cbn [fst snd].
  rewrite !dot_mul_r. rewrite dot_comm.
  replace (dot (vadd (vadd (vsub v0 xf) (vsub a xf)) (vsub b xf)) w) with (dot v0 w + dot a w + dot b w - 3 * dot xf w) by (vunf; ring).
  rewrite Da, Db. field.
Qed.
Lemma vol_term_planar cx nodes : planar nodes -> vol_term cx nodes = rsum (map (tet6 vzero) (fan_tets nodes)) / 6.
Proof.
  intros (p & e1 & e2 & H). destruct nodes as [|v0 r]; [cbn; field|].
  assert (T : rsum (map (tet6 vzero) (fan_tets (v0 :: r))) / 6 = dot v0 (face_normal (v0 :: r)) / 3).
  { rewrite face_normal_fan, dot_vsum. unfold fan_tets. rewrite map_map.
    rewrite (map_ext _ (fun t => 2 * dot v0 (half_cross v0 t))) by (intros (a & b); vunf; field). rewrite rsum_mul. field. }
  rewrite T. unfold vol_term. pose proof (fan_dot p e1 e2 vzero v0 r H) as D. cbv zeta in D.
  pose proof (fan_total p e1 e2 vzero v0 r H) as F. cbv zeta.
  destruct (Req_EM_T _ 0) as [Z|Z].
  - rewrite Z in F. symmetry in F. apply len_0 in F. rewrite F, !dot_0_r. reflexivity.
  - rewrite dot_mul_l, D, dot_0_l. field. assumption.
Qed.
Lemma vol_term'_planar nodes : planar nodes -> vol_term' nodes = rsum (map (tet6 vzero) (fan_tets nodes)) / 6.
Proof.
  intros P. rewrite <- (vol_term_planar vzero) by assumption. destruct P as (p & e1 & e2 & H).
  destruct nodes as [|v0 r]; [reflexivity|]. unfold vol_term, vol_term'.
  pose proof (fan_dot p e1 e2 vzero v0 r H) as D. pose proof (fan_dot p e1 e2 (mean (v0 :: r)) v0 r H) as D'. cbv zeta in *.
  pose proof (fan_total p e1 e2 vzero v0 r H) as F. pose proof (fan_total p e1 e2 (mean (v0 :: r)) v0 r H) as F'.
  rewrite F, F' in *. destruct (Req_EM_T _ 0) as [Z|Z].
  - apply len_0 in Z. rewrite Z, !dot_0_r. reflexivity.
  - rewrite dot_add_l, !dot_mul_l, D, D', dot_0_l. field. assumption.
Qed.

(** * Volume *)
Lemma vol6_apex o o' fs : closed fs -> vol6 o fs = vol6 o' fs.
Proof.
  intros C. unfold vol6.
  assert (G : forall a, rsum (map (fun f => sgn (fst f) * rsum (map (tet6 a) (fan_tets (snd f)))) fs) =
     rsum (map (fun f => sgn (fst f) * rsum (map (tet6 vzero) (fan_tets (snd f)))) fs) - 0).
  { intros a. rewrite <- (closed_fan (fun e => dot a (cross (fst e) (snd e))) fs) by (assumption || (intros (x & y); vunf; ring)).
    clear C. induction fs as [|f fs IH]; [cbn; ring|]. cbn [map]. rewrite !rsum_cons, IH.
    match goal with |- _ + (?A - ?B) = ?C + ?A - (?D + ?B) => enough (E : sgn (fst f) * rsum (map (tet6 a) (fan_tets (snd f))) = C - D) by lra end.
    rewrite <- Rmult_minus_distr_l. f_equal.
    induction (fan_tets (snd f)) as [|((x & y) & z) l IHl]; [cbn; ring|]. cbn [map]. rewrite !rsum_cons, IHl. vunf. ring. }
  rewrite (G o), (G o'). reflexivity.
Qed.
Lemma vol_sum_planar cx fs : (forall f, In f fs -> planar (snd f)) -> vol_sum cx fs = vol6 vzero fs / 6.
Proof.
  intros H. unfold vol_sum. rewrite fold_rplus. unfold vol6. induction fs as [|f fs IH]; [cbn; field|]. cbn [map].
  rewrite !rsum_cons. rewrite vol_term_planar by (apply H; left; reflexivity).
  assert (X : forall g, In g fs -> planar (snd g)) by (intros g I; apply H; right; assumption).
  specialize (IH X). rewrite Rplus_0_l in *. rewrite IH. field.
Qed.
Lemma fan_moment_shift t n0 v0 r :
  let m := fan_moment vzero n0 v0 r in
  let m' := fan_moment vzero n0 (vadd t v0) (map (fun e => (vadd t (fst e), vadd t (snd e))) r) in
  fst m' = fst m /\ snd m' = vadd (snd m) (vmul (fst m) t).
Proof.
  cbv zeta. destruct (fan_moment_sum vzero n0 v0 r) as (A & B).
  destruct (fan_moment_sum vzero n0 (vadd t v0) (map (fun e => (vadd t (fst e), vadd t (snd e))) r)) as (A' & B').
  rewrite A, A', B, B'. clear. rewrite !map_map. cbn [fst snd].
  induction r as [|(a & b) r (IH1 & IH2)]; cbn [map].
  - split; [reflexivity|]. cbn. vring.
  - rewrite !rsum_cons, !vsum_cons, IH1, IH2. cbn [fst snd]. rewrite half_cross_shift. split; [reflexivity|].
    set (w := weight n0 (half_cross v0 (a, b))). vfield.
Qed.
Lemma vol_term_shift t cx nodes : vol_term (vadd t cx) (shift t nodes) = vol_term cx nodes + dot t (face_normal nodes) / 3.
Proof.
  destruct nodes as [|v0 r]; [cbn; vunf; field|]. pose proof (normal_shift t (v0 :: r)) as N. unfold vol_term. unfold shift in *. cbn [map].
  cbn [map] in N. rewrite N, pairs_map. destruct (fan_moment_shift t (face_normal (v0 :: r)) v0 (pairs r)) as (A & B). cbv zeta in *.
  rewrite A, B. destruct (Req_EM_T _ 0) as [Z|Z].
  - rewrite dot_add_l. field.
  - rewrite vmul_add, vmul_vmul. rewrite (Rinv_l _ Z), vmul_1, dot_add_l. field.
Qed.
Lemma vol_sum_shift t cx fs : closed fs -> vol_sum (vadd t cx) (shift_faces t fs) = vol_sum cx fs.
Proof.
  intros C. apply closed_normals in C. apply (f_equal (dot t)) in C. rewrite dot_0_r, dot_vsum in C.
  unfold vol_sum. rewrite !fold_rplus, !Rplus_0_l. transitivity (rsum (map (fun f => sgn (fst f) * vol_term cx (snd f)) fs) + 0 / 3); [|field].
  rewrite <- C. clear C. unfold shift_faces. rewrite map_map. cbn [fst snd].
  induction fs as [|f fs IH]; [cbn; field|]. cbn [map]. rewrite !rsum_cons, IH, vol_term_shift, dot_mul_r. field.
Qed.

(** * First moments *)
Definition wt o t := vmul (tet6 o t) (tet_mean o t).
Lemma mom24_apex o o' fs : closed fs -> mom24 o fs = mom24 o' fs.
Proof.
  intros C. apply dot_ext. intros u. unfold mom24. rewrite !dot_vsum.
  set (T := fun w x y z => vmul (det4v w x y z) (vmul (1/4) (vadd w (vadd x (vadd y z))))).
  assert (Z := closed_fan (fun e => dot u (T o' o (fst e) (snd e))) fs).
  rewrite <- (Rplus_0_r (rsum (map _ fs))), <- Z; [|intros (x & y); unfold T; vunf; field|assumption]. clear Z C.
  induction fs as [|f fs IH]; [cbn; ring|]. cbn [map]. rewrite !rsum_cons.
  match goal with |- ?A + ?B + (?E + ?F) = ?C + ?D => enough (X : A + E = C) by lra end.
  rewrite !dot_mul_r, !dot_vsum, <- Rmult_plus_distr_l. f_equal.
  induction (fan_tets (snd f)) as [|((x & y) & z) l IHl]; [cbn; ring|]. cbn [map]. rewrite !rsum_cons, <- IHl. cbn [fst snd].
  unfold T. vunf. field.
Qed.
Lemma rsum_mul_l {A} k (f : A -> R) l : k * rsum (map f l) = rsum (map (fun x => k * f x) l).
Proof. symmetry. apply rsum_mul. Qed.
Lemma cell_moment_sum xc fs : cell_moment xc fs =
  vsum (map (fun f => vmul (sgn (fst f)) (vsum (map (fun t => tri_moment xc (fst (fst t)) (snd (fst t), snd t)) (fan_tets (snd f))))) fs).
Proof.
  unfold cell_moment.
  assert (G : forall fs c, fold_left (fun c f => match snd f with
    | v0 :: r => fold_left (fun c t => vadd c (vmul (sgn (fst f)) (tri_moment xc v0 t))) (pairs r) c
    | [] => c end) fs c = vadd c (vsum (map (fun f => vmul (sgn (fst f)) (vsum (map (fun t => tri_moment xc (fst (fst t)) (snd (fst t), snd t)) (fan_tets (snd f))))) fs))).
  { clear fs. induction fs as [|f fs IH]; intros c; cbn [fold_left map]; [rewrite vadd_0_r; reflexivity|].
    rewrite IH, vsum_cons, vadd_assoc. f_equal. destruct f as (s & [|v0 r]); cbn [fst snd].
    - cbn [fan_tets map]. change (vsum []) with vzero. rewrite vmul_zero, vadd_0_r. reflexivity.
    - rewrite fold_vadd. f_equal. rewrite vsum_mul. unfold fan_tets. rewrite map_map. cbn [fst snd].
      reflexivity. }
  rewrite G. apply vadd_0_l.
Qed.
Lemma tri_div u xc a b c :
  dot u (vmul 6 (tri_moment xc a (b, c))) =
  tet6 xc (a, b, c) * dot u (vsub (tet_mean xc (a, b, c)) xc)
  + (dot u (vmul 6 (tri_moment xc xc (a, b))) + dot u (vmul 6 (tri_moment xc xc (b, c))) + dot u (vmul 6 (tri_moment xc xc (c, a)))).
Proof. vunf. field. Qed.
Lemma cell_moment_closed o xc fs : closed fs ->
  vmul 6 (cell_moment xc fs) = vsub (mom24 o fs) (vmul (vol6 o fs) xc).
Proof.
  intros C. rewrite (mom24_apex o xc fs C), (vol6_apex o xc fs C). apply dot_ext. intros u. rewrite dot_mul_r, cell_moment_sum.
  assert (Z := closed_fan (fun e => dot u (vmul 6 (tri_moment xc xc e))) fs).
  assert (D : forall x y, dot u (vsub x y) = dot u x - dot u y) by (intros; vunf; ring). rewrite D, dot_mul_r.
  rewrite <- (Rplus_0_r (_ - _)), <- Z; [|intros (x & y); vunf; field|assumption]. clear Z C. unfold mom24, vol6.
  rewrite !dot_vsum. induction fs as [|f fs IH]; [cbn; ring|]. cbn [map]. rewrite !rsum_cons.
  match goal with |- 6 * (?A + ?B) = ?C + ?D - (?E + ?F) * ?x + (?G + ?H) => enough (X : 6 * A = C - E * x + G) by lra end.
  rewrite !dot_mul_r, !dot_vsum. rewrite (Rmult_comm 6), !Rmult_assoc, <- !Rmult_minus_distr_l, <- Rmult_plus_distr_l. f_equal.
  rewrite (Rmult_comm _ 6).
  induction (fan_tets (snd f)) as [|((x & y) & z) l IHl]; [cbn; ring|]. cbn [map]. rewrite !rsum_cons.
  rewrite !Rmult_plus_distr_l, IHl. cbn [fst snd]. pose proof (tri_div u xc x y z) as T. rewrite dot_mul_r in T.
  rewrite T. rewrite (D (tet_mean xc (x, y, z)) xc), !dot_mul_r. ring.
Qed.
Lemma cell_bary_closed o cnodes fs : closed fs -> (forall f, In f fs -> planar (snd f)) -> vol6 o fs <> 0 ->
  cell_bary cnodes fs = vmul (/ vol6 o fs) (mom24 o fs).
Proof.
  intros C P N. unfold cell_bary. cbv zeta. set (xc := mean cnodes).
  assert (Vl : fold_left (fun v f => v + sgn (fst f) * vol_term' (snd f)) fs 0 = vol6 o fs / 6).
  { rewrite (vol6_apex o vzero fs C), fold_rplus. unfold vol6. clear C N. induction fs as [|f fs IH]; [cbn; field|]. cbn [map].
    rewrite !rsum_cons. rewrite vol_term'_planar by (apply P; left; reflexivity).
    assert (X : forall g, In g fs -> planar (snd g)) by (intros g I; apply P; right; assumption).
    specialize (IH X). rewrite Rplus_0_l in *. rewrite IH. field. }
  rewrite Vl. pose proof (cell_moment_closed o xc fs C) as M.
  assert (R1 : cell_moment xc fs = vmul (/6) (vsub (mom24 o fs) (vmul (vol6 o fs) xc))).
  { rewrite <- M, vmul_vmul. replace (/6 * 6) with 1 by field. rewrite vmul_1. reflexivity. }
  destruct (Rlt_dec (vol6 o fs / 6) 0) as [L|L]; (destruct (Req_EM_T _ 0) as [E|E]; [exfalso; apply N; lra|]); rewrite R1; vfield; lra.
Qed.

(** * Barycenter of a planar face *)
Lemma plane_apex p e1 e2 n k o o' a b : n = vmul k (cross e1 e2) ->
  in_plane p e1 e2 o -> in_plane p e1 e2 o' -> in_plane p e1 e2 a -> in_plane p e1 e2 b ->
  forall u, let g o e := dot n (half_cross o e) * dot u (vmul (1/3) (vadd o (vadd (fst e) (snd e)))) in
  g o' (a, b) = g o (a, b) + (g o (o', a) - g o (o', b)).
Proof.
  intros -> (ao & bo & ->) (ap & bp & ->) (aa & ba & ->) (ab & bb & ->) u. cbv beta zeta. cbn [fst snd].
  assert (H : forall a1 b1 a2 b2 a3 b3, dot (vmul k (cross e1 e2))
     (half_cross (vadd p (vadd (vmul a1 e1) (vmul b1 e2))) (vadd p (vadd (vmul a2 e1) (vmul b2 e2)), vadd p (vadd (vmul a3 e1) (vmul b3 e2)))) =
     k * dot (cross e1 e2) (cross e1 e2) * (1/2 * ((a2 - a1) * (b3 - b1) - (b2 - b1) * (a3 - a1)))) by (intros; vunf; ring).
  rewrite !H. generalize (k * dot (cross e1 e2) (cross e1 e2)). intros K. vunf. field.
Qed.
Lemma telescope (f : vec -> R) : forall l a, rsum (map (fun e => f (fst e) - f (snd e)) (pairs (a :: l))) = f a - f (last l a).
Proof.
  induction l as [|b l IH]; intros a; [cbn; ring|]. change (pairs (a :: b :: l)) with ((a, b) :: pairs (b :: l)).
  cbn [map]. rewrite rsum_cons, IH. cbn [fst snd]. destruct l as [|c l]; [cbn; ring|].
  assert (E : forall (l : list vec) a b c, last (c :: l) a = last (c :: l) b) by (clear; induction l as [|d l IH]; intros; [reflexivity|cbn [last] in *; apply (IH a b d)]).
  change (last (b :: c :: l) a) with (last (c :: l) a). rewrite (E l a b c). ring.
Qed.
Lemma telescope_loop (f : vec -> R) nodes : rsum (map (fun e => f (fst e) - f (snd e)) (loop_edges nodes)) = 0.
Proof.
  destruct nodes as [|a l]; [reflexivity|]. unfold loop_edges. cbn [app]. rewrite telescope, last_last. ring.
Qed.
Lemma rsum_sub {A} (f g : A -> R) l : rsum (map (fun x => f x - g x) l) = rsum (map f l) - rsum (map g l).
Proof. induction l as [|a l IH]; [cbn; ring|]. cbn [map]. rewrite !rsum_cons, IH. ring. Qed.
Lemma area_center_apex p e1 e2 nodes o o' : planar_by p e1 e2 nodes -> in_plane p e1 e2 o -> in_plane p e1 e2 o' ->
  area_center o (face_normal nodes) nodes = area_center o' (face_normal nodes) nodes.
Proof.
  intros H Ho Ho'. apply dot_ext. intros u. unfold area_center. rewrite !dot_vsum.
  destruct (normal_plane p e1 e2 nodes H) as (k & E). set (n := face_normal nodes) in *.
  pose (g := fun o (e : vec * vec) => dot n (half_cross o e) * dot u (vmul (1/3) (vadd o (vadd (fst e) (snd e))))).
  assert (X : forall o, rsum (map (fun e => dot u (vmul (dot n (half_cross o e) / dot n n) (vmul (1/3) (vadd o (vadd (fst e) (snd e)))))) (loop_edges nodes)) =
    / dot n n * rsum (map (g o) (loop_edges nodes))).
  { intros o1. rewrite <- rsum_mul. f_equal. apply map_ext. intros e. rewrite dot_mul_r. unfold g. unfold Rdiv. ring. }
  rewrite (X o), (X o'). f_equal.
  rewrite (map_ext_in (g o') (fun e => g o e + (g o (o', fst e) - g o (o', snd e)))).
  - rewrite rsum_add. rewrite (telescope_loop (fun a => g o (o', a))). ring.
  - intros (a & b) I. apply loop_in in I. cbn [fst snd] in *. apply (plane_apex p e1 e2 n k); auto; apply H; tauto.
Qed.
Lemma half_cross_l v0 a : half_cross v0 (v0, a) = vzero. Proof. vring. Qed.
Lemma half_cross_r v0 a : half_cross v0 (a, v0) = vzero. Proof. vring. Qed.
Lemma loop_fan_sum (f : vec * vec -> R) v0 r : (forall a, f (v0, a) = 0) -> (forall a, f (a, v0) = 0) ->
  rsum (map f (loop_edges (v0 :: r))) = rsum (map f (pairs r)).
Proof.
  intros A B. unfold loop_edges. destruct r as [|a r].
  - cbn. rewrite A. ring.
  - cbn [app]. change (pairs (v0 :: a :: r ++ [v0])) with ((v0, a) :: pairs (a :: r ++ [v0])). cbn [map]. rewrite rsum_cons, A.
    destruct (@exists_last _ (a :: r)) as (l & z & E); [discriminate|]. change (a :: r ++ [v0]) with ((a :: r) ++ [v0]). rewrite E.
    rewrite <- app_assoc. cbn [app]. rewrite pairs_snoc, map_app, rsum_app. cbn. rewrite B. ring.
Qed.
Lemma face_bary_center p e1 e2 nodes o : planar_by p e1 e2 nodes -> in_plane p e1 e2 o -> face_normal nodes <> vzero ->
  face_bary nodes = area_center o (face_normal nodes) nodes.
Proof.
  intros H Ho N. destruct nodes as [|v0 r]; [exfalso; apply N; reflexivity|].
  rewrite (area_center_apex p e1 e2 (v0 :: r) o v0) by (auto; apply H; left; reflexivity). clear o Ho.
  assert (L : Nat.ltb 2 (length (v0 :: r)) = true).
  { destruct r as [|a [|b r]]; [exfalso; apply N; reflexivity|exfalso; apply N; reflexivity|reflexivity]. }
  unfold face_bary. rewrite L. cbv zeta. set (xf := mean (v0 :: r)). pose proof (fan_total p e1 e2 xf v0 r H) as F.
  destruct (fan_moment_sum xf (face_normal (v0 :: r)) v0 (pairs r)) as (A & B). rewrite F.
  assert (Z : len (face_normal (v0 :: r)) <> 0) by (intros Z; apply N, len_0, Z).
  destruct (Req_EM_T _ 0) as [E|_]; [contradiction|].
  apply dot_ext. intros u. unfold area_center. rewrite dot_add_r, dot_mul_r, B, !dot_vsum.
  rewrite loop_fan_sum by (intros a; rewrite ?half_cross_l, ?half_cross_r, !dot_mul_r, dot_0_r; unfold Rdiv; ring).
  assert (W : forall t, In t (pairs r) -> weight (face_normal (v0 :: r)) (half_cross v0 t) =
    dot (face_normal (v0 :: r)) (half_cross v0 t) / dot (face_normal (v0 :: r)) (face_normal (v0 :: r)) * len (face_normal (v0 :: r))).
  { intros t I. pose proof (fan_weight p e1 e2 v0 r t H I) as G. rewrite <- G, <- len_sq. field. assumption. }
  rewrite F in A. rewrite rsum_mul_l.
  transitivity (rsum (map (fun t => dot u (vmul (dot (face_normal (v0 :: r)) (half_cross v0 t) / dot (face_normal (v0 :: r)) (face_normal (v0 :: r))) (vmul (1 / 3) (vadd v0 (vadd (fst t) (snd t)))))
      - / len (face_normal (v0 :: r)) * (dot u xf * weight (face_normal (v0 :: r)) (half_cross v0 t))) (pairs r)) + dot u xf).
  - f_equal. f_equal. apply map_ext_in. intros t I. rewrite (W t I). rewrite !dot_mul_r.
    set (q := dot (face_normal (v0 :: r)) (half_cross v0 t) / dot (face_normal (v0 :: r)) (face_normal (v0 :: r))).
    replace (dot u (vadd (vadd (vsub v0 xf) (vsub (fst t) xf)) (vsub (snd t) xf))) with (dot u (vadd v0 (vadd (fst t) (snd t))) - 3 * dot u xf) by (vunf; ring).
    field. assumption.
  - rewrite rsum_sub, !rsum_mul, <- A. field. assumption.
Qed.
Lemma area_center_perm o n a b : Permutation (loop_edges a) (loop_edges b) -> area_center o n a = area_center o n b.
Proof. intros P. unfold area_center. apply vsum_perm, Permutation_map, P. Qed.
Lemma normal_rotate a l : face_normal (l ++ [a]) = face_normal (a :: l).
Proof. rewrite !normal_shoelace. f_equal. apply vsum_perm, Permutation_map, loop_rotate. Qed.
Lemma normal_rev l : face_normal (rev l) = vmul (-1) (face_normal l).
Proof.
  rewrite !normal_shoelace. rewrite (vsum_perm _ _ (Permutation_map _ (loop_rev l))), map_map, vmul_vmul, (Rmult_comm (-1)), <- vmul_vmul.
  f_equal. rewrite <- vsum_mul. f_equal. apply map_ext. intros (a & b). vring.
Qed.
Lemma planar_perm a b : Permutation a b -> planar a -> planar b.
Proof. intros P (p & e1 & e2 & H). exists p, e1, e2. intros v I. apply H. eapply Permutation_in; [symmetry; exact P|assumption]. Qed.
Lemma p_in_plane p e1 e2 : in_plane p e1 e2 p. Proof. exists 0, 0. vring. Qed.
Lemma face_bary_rotate a l : planar (a :: l) -> face_normal (a :: l) <> vzero -> face_bary (l ++ [a]) = face_bary (a :: l).
Proof.
  intros (p & e1 & e2 & H) N. rewrite (face_bary_center p e1 e2 (a :: l) p H (p_in_plane p e1 e2) N).
  assert (H' : planar_by p e1 e2 (l ++ [a])) by (intros v I; apply H; apply in_app_iff in I; cbn in *; tauto).
  rewrite (face_bary_center p e1 e2 (l ++ [a]) p H' (p_in_plane p e1 e2)) by (rewrite normal_rotate; assumption).
  rewrite normal_rotate. apply area_center_perm, loop_rotate.
Qed.
Lemma face_bary_rev l : planar l -> face_normal l <> vzero -> face_bary (rev l) = face_bary l.
Proof.
  intros (p & e1 & e2 & H) N. rewrite (face_bary_center p e1 e2 l p H (p_in_plane p e1 e2) N).
  assert (H' : planar_by p e1 e2 (rev l)) by (intros v I; apply H; apply in_rev; assumption).
  assert (N' : face_normal (rev l) <> vzero).
  { rewrite normal_rev. intros Z. apply N. apply (f_equal (vmul (-1))) in Z. rewrite vmul_vmul, vmul_zero in Z.
    replace (-1 * -1) with 1 in Z by ring. rewrite vmul_1 in Z. exact Z. }
  rewrite (face_bary_center p e1 e2 (rev l) p H' (p_in_plane p e1 e2) N'). rewrite normal_rev. unfold area_center.
  rewrite (vsum_perm _ _ (Permutation_map _ (loop_rev l))), map_map. f_equal. apply map_ext. intros (a & b). cbn [flip fst snd].
  rewrite (vadd_comm b a). f_equal.
  replace (half_cross p (flip (a, b))) with (vmul (-1) (half_cross p (a, b))) by vring. rewrite !dot_mul_l, !dot_mul_r.
  field. intros Z. apply N, dot_0_eq, Z.
Qed.
Lemma loop_map {A B} (f : A -> B) l : loop_edges (map f l) = map (fun e => (f (fst e), f (snd e))) (loop_edges l).
Proof.
  destruct l as [|a l]; [reflexivity|]. unfold loop_edges. cbn [map]. change (f a :: map f l) with (map f (a :: l)).
  change [f a] with (map f [a]). rewrite <- map_app. apply pairs_map.
Qed.
Lemma in_plane_shift t p e1 e2 v : in_plane p e1 e2 v -> in_plane (vadd t p) e1 e2 (vadd t v).
Proof. intros (a & b & ->). exists a, b. vring. Qed.
Lemma area_weights p e1 e2 nodes o : planar_by p e1 e2 nodes -> in_plane p e1 e2 o -> face_normal nodes <> vzero ->
  rsum (map (fun e => dot (face_normal nodes) (half_cross o e) / dot (face_normal nodes) (face_normal nodes)) (loop_edges nodes)) = 1.
Proof.
  intros H Ho N. assert (D : dot (face_normal nodes) (face_normal nodes) <> 0) by (intros Z; apply N, dot_0_eq, Z).
  rewrite (map_ext _ (fun e => / dot (face_normal nodes) (face_normal nodes) * dot (face_normal nodes) (half_cross o e))) by (intros; unfold Rdiv; ring).
  rewrite rsum_mul. replace (rsum _) with (dot (face_normal nodes) (face_normal nodes)); [field; assumption|].
  pose proof (normal_shift (vmul (-1) o) nodes) as E. 
  generalize (face_normal nodes) at 1 3. intros n. rewrite <- E. rewrite normal_shoelace. unfold shift. rewrite loop_map, map_map, dot_mul_r, dot_vsum, <- rsum_mul.
  f_equal. apply map_ext. intros (a & b). vunf. ring.
Qed.
Lemma face_bary_shift t l : planar l -> face_normal l <> vzero -> face_bary (shift t l) = vadd t (face_bary l).
Proof.
  intros (p & e1 & e2 & H) N. rewrite (face_bary_center p e1 e2 l p H (p_in_plane p e1 e2) N).
  assert (H' : planar_by (vadd t p) e1 e2 (shift t l)).
  { intros v I. apply in_map_iff in I. destruct I as (x & <- & I). apply in_plane_shift, H, I. }
  rewrite (face_bary_center (vadd t p) e1 e2 (shift t l) (vadd t p) H' (p_in_plane _ e1 e2)) by (rewrite normal_shift; assumption).
  rewrite normal_shift. apply dot_ext. intros u. rewrite dot_add_r. unfold area_center, shift. rewrite loop_map, map_map. cbn [fst snd].
  rewrite !dot_vsum. pose proof (area_weights p e1 e2 l p H (p_in_plane p e1 e2) N) as W.
  match goal with |- ?A = _ + ?B => enough (X : A = dot u t * 1 + B) by (rewrite X; ring); rewrite <- W at 1 end.
  rewrite <- rsum_mul, <- rsum_add. f_equal.
  apply map_ext. intros (a & b). cbn [fst snd]. rewrite half_cross_shift.
  rewrite !dot_mul_r, !dot_add_r.
  field. intros Z. apply N, dot_0_eq, Z.
Qed.
(** the barycenter lies in the plane of the face *)
Lemma face_bary_plane p e1 e2 l : planar_by p e1 e2 l -> face_normal l <> vzero ->
  forall v, In v l -> dot (face_bary l) (face_normal l) = dot v (face_normal l).
Proof.
  intros H N v I. rewrite (face_bary_center p e1 e2 l p H (p_in_plane p e1 e2) N). destruct (normal_plane p e1 e2 l H) as (k & E).
  rewrite dot_comm. unfold area_center. rewrite dot_vsum.
  rewrite (map_ext_in _ (fun e => dot v (face_normal l) * (dot (face_normal l) (half_cross p e) / dot (face_normal l) (face_normal l)))).
  - rewrite rsum_mul, (area_weights p e1 e2 l p H (p_in_plane p e1 e2) N). ring.
  - intros (a & b) J. apply loop_in in J. cbn [fst snd] in *. rewrite !dot_mul_r, !dot_add_r.
    assert (Da : dot (face_normal l) a = dot v (face_normal l)) by (rewrite dot_comm, E; apply (plane_dot p); apply H; tauto).
    assert (Db : dot (face_normal l) b = dot v (face_normal l)) by (rewrite dot_comm, E; apply (plane_dot p); apply H; tauto).
    assert (Dp : dot (face_normal l) p = dot v (face_normal l)) by (rewrite dot_comm, E; apply (plane_dot p); [apply p_in_plane|apply H; tauto]).
    rewrite Da, Db, Dp. field. intros Z. apply N, dot_0_eq, Z.
Qed.

(** * Inside *)
Lemma inside_sum_normal p v0 nodes : inside_sum p v0 nodes = 2 * dot (vsub v0 p) (face_normal nodes).
Proof.
  unfold inside_sum.
  assert (G : forall l a s, snd (fold_left (fun s v2 => (v2, snd s + det4v p v0 (fst s) v2)) l (a, s)) =
    s + rsum (map (fun e => det4v p v0 (fst e) (snd e)) (pairs (a :: l)))).
  { induction l as [|b l IH]; intros a s; cbn [fold_left]; [cbn; ring|]. rewrite IH.
    change (pairs (a :: b :: l)) with ((a, b) :: pairs (b :: l)). cbn [map]. rewrite rsum_cons. cbn [fst snd]. ring. }
  rewrite G, Rplus_0_l. clear G. destruct nodes as [|a nodes]; [cbn; vunf; ring|].
  destruct (@exists_last _ (a :: nodes)) as (l & z & E); [discriminate|]. rewrite E, last_last. clear a nodes E.
  change (pairs (z :: l ++ [z])) with (loop_edges (z :: l)).
  rewrite <- (rsum_perm _ _ (Permutation_map _ (loop_rotate z l))).
  rewrite <- (normal_shift (vmul (-1) p)), normal_shoelace. unfold shift. rewrite loop_map, map_map, dot_mul_r, dot_vsum, <- Rmult_assoc.
  replace (2 * (1/2)) with 1 by field. rewrite Rmult_1_l. f_equal. apply map_ext. intros (a & b). vunf. ring.
Qed.
Lemma count_pos {A} (g : A -> bool) l k : (0 < fold_left (fun k f => if g f then S k else k) l k)%nat <-> (0 < k)%nat \/ exists f, In f l /\ g f = true.
Proof.
  revert k. induction l as [|a l IH]; intros k; cbn [fold_left].
  - split; [left; assumption|intros [H|(f & [] & _)]; assumption].
  - rewrite IH. destruct (g a) eqn:E; split.
    + intros [H|(f & I & G)]; right; [exists a; split; [left; reflexivity|assumption]|exists f; split; [right; assumption|assumption]].
    + intros _. left. lia.
    + intros [H|(f & I & G)]; [left; assumption|right; exists f; split; [right; assumption|assumption]].
    + intros [H|(f & [->|I] & G)]; [left; assumption|congruence|right; exists f; split; assumption].
Qed.
Lemma fold_ext {A B} (f g : A -> B -> A) : (forall a b, f a b = g a b) -> forall l a, fold_left f l a = fold_left g l a.
Proof. intros H l. induction l as [|b l IH]; intros a; cbn; [reflexivity|]. rewrite H. apply IH. Qed.
Lemma inside_char eps p faces : let d f := sgn (fst f) * (2 * dot (vsub (fst (snd f)) p) (face_normal (snd (snd f)))) in
  0 <= eps -> (inside eps p faces = true <-> ~ ((exists f, In f faces /\ eps < d f) /\ (exists f, In f faces /\ d f < - eps))).
Proof.
  intros d Pe. unfold inside. cbv zeta. rewrite negb_true_iff.
  set (c := fun f : bool * (vec * list vec) => sgn (fst f) * inside_sum p (fst (snd f)) (snd (snd f))).
  assert (Ec : forall f, c f = d f) by (intros f; unfold c, d; rewrite inside_sum_normal; reflexivity).
  set (gp := fun f => if Rlt_dec eps (c f) then true else false).
  set (gm := fun f => if Rlt_dec eps (c f) then false else if Rlt_dec (c f) (- eps) then true else false).
  rewrite (fold_ext _ (fun k f => if gp f then S k else k)) by (intros k f; unfold gp, c; destruct (Rlt_dec eps _); reflexivity).
  rewrite (fold_ext (fun k f => if Rlt_dec eps (sgn (fst f) * inside_sum p (fst (snd f)) (snd (snd f))) then k else if Rlt_dec (sgn (fst f) * inside_sum p (fst (snd f)) (snd (snd f))) (- eps) then S k else k) (fun k f => if gm f then S k else k))
    by (intros k f; unfold gm, c; destruct (Rlt_dec eps _); [reflexivity|destruct (Rlt_dec _ (-eps)); reflexivity]).
  rewrite Nat.ltb_ge.
  pose proof (count_pos gp faces 0) as P. pose proof (count_pos gm faces 0) as M.
  set (vp := fold_left _ faces 0%nat) in *. set (vm := fold_left _ faces 0%nat) in M |- *.
  assert (P' : (0 < vp)%nat <-> exists f, In f faces /\ eps < d f).
  { rewrite P. split.
    - intros [X|(f & I & G)]; [lia|]. exists f. split; [assumption|]. unfold gp in G. rewrite Ec in G. destruct (Rlt_dec eps (d f)); [assumption|discriminate].
    - intros (f & I & G). right. exists f. split; [assumption|]. unfold gp. rewrite Ec. destruct (Rlt_dec eps (d f)); [reflexivity|contradiction]. }
  assert (M' : (0 < vm)%nat <-> exists f, In f faces /\ d f < - eps).
  { rewrite M. split.
    - intros [X|(f & I & G)]; [lia|]. exists f. split; [assumption|]. unfold gm in G. rewrite Ec in G.
      destruct (Rlt_dec eps (d f)); [discriminate|]. destruct (Rlt_dec (d f) (-eps)); [assumption|discriminate].
    - intros (f & I & G). right. exists f. split; [assumption|]. unfold gm. rewrite Ec.
      destruct (Rlt_dec eps (d f)); [lra|]. destruct (Rlt_dec (d f) (-eps)); [reflexivity|contradiction]. }
  rewrite <- P', <- M'. destruct vp, vm; cbn; split; intros; lia.
Qed.
(** the sum of the signed terms is six times the volume *)
Lemma inside_term p c nodes : planar (c :: nodes) -> 2 * dot (vsub c p) (face_normal nodes) = rsum (map (tet6 p) (fan_tets nodes)).
Proof.
  intros (q & e1 & e2 & H). destruct nodes as [|v0 r]; [cbn; vunf; ring|].
  assert (H' : planar_by q e1 e2 (v0 :: r)) by (intros v I; apply H; right; assumption).
  destruct (normal_plane q e1 e2 _ H') as (k & E).
  assert (D : dot c (face_normal (v0 :: r)) = dot v0 (face_normal (v0 :: r))) by (rewrite E; apply (plane_dot q); apply H; cbn; tauto).
  replace (dot (vsub c p) (face_normal (v0 :: r))) with (dot (vsub v0 p) (face_normal (v0 :: r))).
  2:{ assert (X : forall a b n, dot (vsub a b) n = dot a n - dot b n) by (intros; vunf; ring). rewrite !X, D. reflexivity. }
  rewrite face_normal_fan, dot_vsum, <- rsum_mul. unfold fan_tets. rewrite map_map. f_equal. apply map_ext. intros (a & b). vunf. field.
Qed.
Lemma rsum_le {A} (f : A -> R) e l : (forall x, In x l -> f x <= e) -> rsum (map f l) <= INR (length l) * e.
Proof.
  induction l as [|a l IH]; intros H; [cbn; lra|]. cbn [map length]. rewrite rsum_cons, S_INR.
  specialize (IH (fun x I => H x (or_intror I))). specialize (H a (or_introl eq_refl)). lra.
Qed.
Definition strip (faces : list (bool * (vec * list vec))) : list (bool * list vec) := map (fun f => (fst f, snd (snd f))) faces.
Lemma inside_total o p faces : closed (strip faces) -> (forall f, In f faces -> planar (fst (snd f) :: snd (snd f))) ->
  rsum (map (fun f => sgn (fst f) * (2 * dot (vsub (fst (snd f)) p) (face_normal (snd (snd f))))) faces) = vol6 o (strip faces).
Proof.
  intros C P. rewrite (vol6_apex o p _ C). unfold vol6, strip. rewrite map_map. cbn [fst snd]. f_equal. apply map_ext_in.
  intros f I. f_equal. apply inside_term, P, I.
Qed.
Lemma tri_cross_plane p e1 e2 q a b : in_plane p e1 e2 q -> in_plane p e1 e2 a -> in_plane p e1 e2 b ->
  exists k, cross (vsub q a) (vsub q b) = vmul k (cross e1 e2).
Proof.
  intros (a0 & b0 & ->) (a1 & b1 & ->) (a2 & b2 & ->). exists ((a0-a1)*(b0-b2) - (b0-b1)*(a0-a2)). vring.
Qed.

Lemma mean_in_plane p e1 e2 l : l <> [] -> planar_by p e1 e2 l -> in_plane p e1 e2 (mean l).
Proof.
  intros N H. unfold mean.
  assert (X : fold_left vadd l vzero = vsum l).
  { rewrite (fold_ext vadd (fun n t => vadd n ((fun x => x) t))) by reflexivity. rewrite fold_vadd, map_id. apply vadd_0_l. }
  rewrite X. clear X.
  assert (Y : exists a b, vsum l = vadd (vmul (INR (length l)) p) (vadd (vmul a e1) (vmul b e2))).
  { clear N. induction l as [|v l IH]; [exists 0, 0; cbn; vring|].
    destruct IH as (a & b & E); [intros w I; apply H; right; assumption|]. destruct (H v (or_introl eq_refl)) as (c & d & ->).
    exists (c + a), (d + b). rewrite vsum_cons, E. cbn [length]. rewrite S_INR. vring. }
  destruct Y as (a & b & ->). assert (Z : INR (length l) <> 0) by (apply not_0_INR; destruct l; [contradiction|discriminate]).
  exists (a / INR (length l)), (b / INR (length l)). vfield; assumption.
Qed.
