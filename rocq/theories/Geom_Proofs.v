From Coq Require Import List Reals Permutation Lra Lia Psatz Bool.
From Verif Require Import Geom_Model Geom_Spec.
Import ListNotations.
Open Scope R_scope.

(** * Vectors *)
Lemma vec_eq a b : vx a = vx b -> vy a = vy b -> vz a = vz b -> a = b.
Proof. destruct a, b. cbn. congruence. Qed.
Ltac vunf := unfold tri_moment, half_cross, moment1, tet6, tet_mean, det4v, det3v, det3d, dot, cross, vsub, vadd, vmul, vzero, flip in *; cbn [vx vy vz fst snd] in *.
Ltac vring := apply vec_eq; vunf; ring.
Ltac vfield := apply vec_eq; vunf; field.

Lemma vadd_comm a b : vadd a b = vadd b a. Proof. vring. Qed.
Lemma vadd_assoc a b c : vadd a (vadd b c) = vadd (vadd a b) c. Proof. vring. Qed.
Lemma vadd_0_l a : vadd vzero a = a. Proof. vring. Qed.
Lemma vadd_0_r a : vadd a vzero = a. Proof. vring. Qed.
Lemma vmul_0 a : vmul 0 a = vzero. Proof. vring. Qed.
Lemma vmul_zero k : vmul k vzero = vzero. Proof. vring. Qed.
Lemma vmul_1 a : vmul 1 a = a. Proof. vring. Qed.
Lemma vmul_add k a b : vmul k (vadd a b) = vadd (vmul k a) (vmul k b). Proof. vring. Qed.
Lemma vmul_vmul k l a : vmul k (vmul l a) = vmul (k * l) a. Proof. vring. Qed.
Lemma dot_0_l a : dot vzero a = 0. Proof. vunf. ring. Qed.
Lemma dot_0_r a : dot a vzero = 0. Proof. vunf. ring. Qed.
Lemma dot_add_r a b c : dot a (vadd b c) = dot a b + dot a c. Proof. vunf. ring. Qed.
Lemma dot_add_l a b c : dot (vadd a b) c = dot a c + dot b c. Proof. vunf. ring. Qed.
Lemma dot_mul_r k a b : dot a (vmul k b) = k * dot a b. Proof. vunf. ring. Qed.
Lemma dot_mul_l k a b : dot (vmul k a) b = k * dot a b. Proof. vunf. ring. Qed.
Lemma dot_comm a b : dot a b = dot b a. Proof. vunf. ring. Qed.
Lemma dot_ge0 a : 0 <= dot a a. Proof. destruct a. vunf. nra. Qed.
Lemma dot_0_eq a : dot a a = 0 -> a = vzero.
Proof. destruct a as [x y z]. unfold dot, vzero. cbn. intros H. f_equal; nra. Qed.
Lemma len_mul k a : len (vmul k a) = Rabs k * len a.
Proof.
  unfold len. rewrite dot_mul_l, dot_mul_r. replace (k * (k * dot a a)) with (k * k * dot a a) by ring.
  rewrite sqrt_mult; [|nra|apply dot_ge0]. f_equal. rewrite <- sqrt_Rsqr_abs. reflexivity.
Qed.
Lemma len_sq a : len a * len a = dot a a.
Proof. unfold len. apply sqrt_sqrt, dot_ge0. Qed.
Lemma len_ge0 a : 0 <= len a. Proof. apply sqrt_pos. Qed.

(** * Sums *)
Lemma fold_vadd {A} (f : A -> vec) : forall l n, fold_left (fun n t => vadd n (f t)) l n = vadd n (vsum (map f l)).
Proof.
  induction l as [|a l IH]; intros n; cbn [fold_left map]; [rewrite vadd_0_r; reflexivity|].
  rewrite IH. unfold vsum at 2. cbn [fold_right]. fold (vsum (map f l)). rewrite vadd_assoc. reflexivity.
Qed.
Lemma fold_rplus {A} (f : A -> R) : forall l n, fold_left (fun n t => n + f t) l n = n + rsum (map f l).
Proof.
  induction l as [|a l IH]; intros n; cbn [fold_left map rsum fold_right]; [ring|]. rewrite IH. fold (rsum (map f l)). ring.
Qed.
Lemma vsum_cons a l : vsum (a :: l) = vadd a (vsum l). Proof. reflexivity. Qed.
Lemma rsum_cons a l : rsum (a :: l) = a + rsum l. Proof. reflexivity. Qed.
Lemma vsum_app a b : vsum (a ++ b) = vadd (vsum a) (vsum b).
Proof. induction a as [|x a IH]; cbn [app]; [symmetry; apply vadd_0_l|]. rewrite !vsum_cons, IH. apply vadd_assoc. Qed.
Lemma rsum_app a b : rsum (a ++ b) = rsum a + rsum b.
Proof. induction a as [|x a IH]; cbn [app]; rewrite ?rsum_cons, ?IH; cbn; ring. Qed.
Lemma vsum_perm a b : Permutation a b -> vsum a = vsum b.
Proof. intros P. induction P; rewrite ?vsum_cons in *; try congruence. vring. Qed.
Lemma rsum_perm a b : Permutation a b -> rsum a = rsum b.
Proof. intros P. induction P; rewrite ?rsum_cons in *; try congruence. ring. Qed.
Lemma vsum_mul {A} k (f : A -> vec) l : vsum (map (fun x => vmul k (f x)) l) = vmul k (vsum (map f l)).
Proof. induction l as [|a l IH]; cbn [map]; [rewrite vmul_zero; reflexivity|]. rewrite !vsum_cons, IH. vring. Qed.
Lemma rsum_mul {A} k (f : A -> R) l : rsum (map (fun x => k * f x) l) = k * rsum (map f l).
Proof. induction l as [|a l IH]; cbn [map]; [cbn; ring|]. rewrite !rsum_cons, IH. ring. Qed.
Lemma dot_vsum {A} u (f : A -> vec) l : dot u (vsum (map f l)) = rsum (map (fun x => dot u (f x)) l).
Proof. induction l as [|a l IH]; cbn [map]; [apply dot_0_r|]. rewrite vsum_cons, rsum_cons, dot_add_r, IH. reflexivity. Qed.
Lemma vsum_add {A} (f g : A -> vec) l : vsum (map (fun x => vadd (f x) (g x)) l) = vadd (vsum (map f l)) (vsum (map g l)).
Proof. induction l as [|a l IH]; cbn [map]; [symmetry; apply vadd_0_l|]. rewrite !vsum_cons, IH. vring. Qed.
Lemma rsum_add {A} (f g : A -> R) l : rsum (map (fun x => f x + g x) l) = rsum (map f l) + rsum (map g l).
Proof. induction l as [|a l IH]; cbn [map]; [cbn; ring|]. rewrite !rsum_cons, IH. ring. Qed.
Lemma map_ext_sum {A B} (f g : A -> B) l : (forall x, In x l -> f x = g x) -> map f l = map g l.
Proof. apply map_ext_in. Qed.

(** * Boundary sums *)
Lemma pairs_snoc {A} : forall (l : list A) a b, pairs (l ++ [a; b]) = pairs (l ++ [a]) ++ [(a, b)].
Proof.
  induction l as [|x l IH]; intros a b; [reflexivity|]. destruct l as [|y l]; [reflexivity|].
  cbn [app pairs]. f_equal. apply (IH a b).
Qed.
Lemma pairs_map {A B} (f : A -> B) : forall l, pairs (map f l) = map (fun e => (f (fst e), f (snd e))) (pairs l).
Proof.
  induction l as [|x l IH]; [reflexivity|]. destruct l as [|y l]; [reflexivity|].
  cbn [map pairs fst snd]. f_equal. exact IH.
Qed.
Lemma pairs_rev {A} : forall (l : list A), pairs (rev l) = rev (map flip (pairs l)).
Proof.
  induction l as [|x l IH]; [reflexivity|]. destruct l as [|y l]; [reflexivity|].
  cbn [rev pairs map]. rewrite <- app_assoc. cbn [app]. rewrite pairs_snoc. f_equal. exact IH.
Qed.
(** the boundary of the fan triangles is the loop *)
Lemma fan_boundary (phi : vec * vec -> R) v0 : (forall e, phi (flip e) = - phi e) ->
  forall r, rsum (map (fun t => phi (v0, fst t) + phi t + phi (snd t, v0)) (pairs r)) =
    match r with [] => 0 | a :: _ => phi (v0, a) + rsum (map phi (pairs (r ++ [v0]))) end.
Proof.
  intros AS. induction r as [|a r IH]; [reflexivity|].
  destruct r as [|b r].
  - cbn [app pairs map rsum fold_right]. change (a, v0) with (flip (v0, a)). rewrite AS. ring.
  - cbn [pairs map app]. rewrite rsum_cons. cbn [pairs app] in IH. rewrite IH. cbn [fst snd]. rewrite !rsum_cons.
    change (b, v0) with (flip (v0, b)). rewrite AS. cbn [pairs app map]. ring.
Qed.
Lemma fan_loop (phi : vec * vec -> R) nodes : (forall e, phi (flip e) = - phi e) ->
  rsum (map (fun t => phi (fst (fst t), snd (fst t)) + phi (snd (fst t), snd t) + phi (snd t, fst (fst t))) (fan_tets nodes)) =
  rsum (map phi (loop_edges nodes)).
Proof.
  intros AS. destruct nodes as [|v0 r]; [reflexivity|]. unfold fan_tets, loop_edges. rewrite map_map. cbn [fst snd].
  rewrite (map_ext _ (fun t => phi (v0, fst t) + phi t + phi (snd t, v0))) by (intros (x & y); reflexivity).
  rewrite fan_boundary by assumption. destruct r as [|a r]; [|reflexivity].
  cbn. assert (H := AS (v0, v0)). unfold flip in H. cbn in H. lra.
Qed.
Lemma closed_sum (phi : vec * vec -> R) fs : (forall e, phi (flip e) = - phi e) -> closed fs ->
  rsum (map phi (flat_map face_edges fs)) = 0.
Proof.
  intros AS C. unfold closed in C. pose proof (rsum_perm _ _ (Permutation_map phi C)) as P. rewrite map_map in P.
  rewrite (map_ext (fun x => phi (flip x)) (fun x => -1 * phi x)) in P by (intros e; rewrite AS; ring).
  rewrite rsum_mul in P. lra.
Qed.
Lemma face_edges_sum (phi : vec * vec -> R) f : (forall e, phi (flip e) = - phi e) ->
  rsum (map phi (face_edges f)) = sgn (fst f) * rsum (map phi (loop_edges (snd f))).
Proof.
  intros AS. unfold face_edges, sgn. destruct (fst f); [|ring]. rewrite map_map.
  rewrite (map_ext (fun x => phi (flip x)) (fun x => -1 * phi x)) by (intros e; rewrite AS; ring).
  apply rsum_mul.
Qed.
Lemma closed_fan (phi : vec * vec -> R) fs : (forall e, phi (flip e) = - phi e) -> closed fs ->
  rsum (map (fun f => sgn (fst f) * rsum (map (fun t => phi (fst (fst t), snd (fst t)) + phi (snd (fst t), snd t) + phi (snd t, fst (fst t)))
                                              (fan_tets (snd f)))) fs) = 0.
Proof.
  intros AS C. rewrite <- (closed_sum phi fs AS C). clear C. induction fs as [|f fs IH]; [reflexivity|].
  cbn [map flat_map]. rewrite rsum_cons, map_app, rsum_app, IH, face_edges_sum, fan_loop by assumption. reflexivity.
Qed.

(** * Normals *)
Lemma face_normal_sum nodes : face_normal nodes = vsum (map (fun t => half_cross (fst (fst t)) (snd (fst t), snd t)) (fan_tets nodes)).
Proof.
  destruct nodes as [|v0 r]; [reflexivity|]. unfold face_normal, fan_tets. rewrite fold_vadd, vadd_0_l, map_map. cbn [fst snd].
  reflexivity.
Qed.
Lemma dot_normal u nodes : dot u (face_normal nodes) = rsum (map (fun e => dot u (vmul (1/2) (cross (fst e) (snd e)))) (loop_edges nodes)).
Proof.
  rewrite <- fan_loop by (intros (a & b); vunf; ring). rewrite face_normal_sum, dot_vsum. f_equal.
  apply map_ext. intros ((v0 & a) & b). vunf. field.
Qed.
Lemma dot_ext a b : (forall u, dot u a = dot u b) -> a = b.
Proof.
  intros H. pose proof (H (V 1 0 0)) as X. pose proof (H (V 0 1 0)) as Y. pose proof (H (V 0 0 1)) as Z.
  apply vec_eq; vunf; lra.
Qed.
Lemma normal_shoelace nodes : face_normal nodes = vmul (1/2) (vsum (map (fun e => cross (fst e) (snd e)) (loop_edges nodes))).
Proof.
  apply dot_ext. intros u. rewrite dot_normal, dot_mul_r, dot_vsum, <- rsum_mul. f_equal. apply map_ext. intros e. apply dot_mul_r.
Qed.
Lemma loop_rotate {A} (a : A) l : Permutation (loop_edges (l ++ [a])) (loop_edges (a :: l)).
Proof.
  unfold loop_edges. destruct l as [|b l]; [reflexivity|]. cbn [app].
  replace (b :: (l ++ [a]) ++ [b]) with ((b :: l) ++ [a; b]) by (cbn; rewrite <- app_assoc; reflexivity).
  rewrite pairs_snoc. rewrite Permutation_app_comm. reflexivity.
Qed.
Lemma loop_rev {A} (l : list A) : Permutation (loop_edges (rev l)) (map flip (loop_edges l)).
Proof.
  destruct l as [|a l]; [reflexivity|]. cbn [rev]. rewrite loop_rotate. unfold loop_edges. cbn [app].
  replace (a :: rev l ++ [a]) with (rev (a :: l ++ [a])) by (cbn; rewrite rev_app_distr; reflexivity).
  rewrite pairs_rev. symmetry. apply Permutation_rev.
Qed.
Lemma half_cross_shift t v0 a b : half_cross (vadd t v0) (vadd t a, vadd t b) = half_cross v0 (a, b).
Proof. vring. Qed.
Lemma fan_shift t nodes : fan_tets (shift t nodes) = map (fun x => (vadd t (fst (fst x)), vadd t (snd (fst x)), vadd t (snd x))) (fan_tets nodes).
Proof.
  destruct nodes as [|v0 r]; [reflexivity|]. unfold fan_tets, shift. cbn [map]. rewrite pairs_map, !map_map. reflexivity.
Qed.
Lemma normal_shift t nodes : face_normal (shift t nodes) = face_normal nodes.
Proof.
  rewrite !face_normal_sum, fan_shift, map_map. f_equal. apply map_ext. intros ((v0 & a) & b). apply half_cross_shift.
Qed.
Lemma closed_normals fs : closed fs -> vsum (map (fun f => vmul (sgn (fst f)) (face_normal (snd f))) fs) = vzero.
Proof.
  intros C. apply dot_ext. intros u. rewrite dot_0_r, dot_vsum.
  rewrite <- (closed_sum (fun e => dot u (vmul (1/2) (cross (fst e) (snd e)))) fs) by (assumption || (intros (a & b); vunf; ring)).
  clear C. induction fs as [|f fs IH]; [reflexivity|].
  cbn [map flat_map]. rewrite rsum_cons, map_app, rsum_app, IH, face_edges_sum, dot_mul_r, dot_normal by (intros (a & b); vunf; ring).
  reflexivity.
Qed.
Lemma closed_map {A B} (g : A -> B) (fs : list (bool * list A)) : closed fs -> closed (map (fun f => (fst f, map g (snd f))) fs).
Proof.
  unfold closed. intros C.
  assert (E : flat_map face_edges (map (fun f => (fst f, map g (snd f))) fs) =
              map (fun e => (g (fst e), g (snd e))) (flat_map face_edges fs)).
  { clear C. induction fs as [|(s & l) fs IH]; [reflexivity|]. cbn [map flat_map fst snd]. rewrite map_app, IH. f_equal.
    assert (LE : loop_edges (map g l) = map (fun e => (g (fst e), g (snd e))) (loop_edges l)).
    { destruct l as [|a l]; [reflexivity|]. unfold loop_edges. cbn [map]. rewrite <- pairs_map. cbn [map app].
      rewrite map_app. reflexivity. }
    unfold face_edges. cbn [fst snd]. rewrite LE. destruct s; [|reflexivity]. rewrite !map_map. reflexivity. }
  rewrite E, map_map. transitivity (map (fun e => (g (fst e), g (snd e))) (map flip (flat_map face_edges fs))).
  - apply Permutation_map. exact C.
  - rewrite map_map. reflexivity.
Qed.

(** * Heron *)
Lemma heron p1 p2 p3 : triarea p1 p2 p3 = len (half_cross p1 (p2, p3)).
Proof.
  unfold triarea. pose proof (len_sq (vsub p2 p1)) as A. pose proof (len_sq (vsub p3 p1)) as B. pose proof (len_sq (vsub p3 p2)) as C.
  set (a := len (vsub p2 p1)) in *. set (b := len (vsub p3 p1)) in *. set (c := len (vsub p3 p2)) in *.
  replace (1 / 2 * (a + b + c) * (1 / 2 * (a + b + c) - a) * (1 / 2 * (a + b + c) - b) * (1 / 2 * (a + b + c) - c))
    with ((2 * (a * a) * (b * b) + 2 * (b * b) * (c * c) + 2 * (c * c) * (a * a)
           - (a * a) * (a * a) - (b * b) * (b * b) - (c * c) * (c * c)) / 16) by field.
  rewrite A, B, C. unfold len. f_equal.
  replace ((2 * dot (vsub p2 p1) (vsub p2 p1) * dot (vsub p3 p1) (vsub p3 p1) +
     2 * dot (vsub p3 p1) (vsub p3 p1) * dot (vsub p3 p2) (vsub p3 p2) +
     2 * dot (vsub p3 p2) (vsub p3 p2) * dot (vsub p2 p1) (vsub p2 p1) -
     dot (vsub p2 p1) (vsub p2 p1) * dot (vsub p2 p1) (vsub p2 p1) -
     dot (vsub p3 p1) (vsub p3 p1) * dot (vsub p3 p1) (vsub p3 p1) -
     dot (vsub p3 p2) (vsub p3 p2) * dot (vsub p3 p2) (vsub p3 p2)) / 16) with (dot (half_cross p1 (p2, p3)) (half_cross p1 (p2, p3)))
    by (vunf; field).
  apply Rmax_right, dot_ge0.
Qed.
