(** Specification for automatic differentiation: which functions of the
    unknowns the expression objects stand for, and what a gradient row and a
    Hessian row of a function are.  Nothing here mentions how derivatives are
    computed. *)
From Coq Require Import Reals List Sorted.
From Verif Require Import Row_Props Autodiff_Model.
Import ListNotations.
Open Scope R_scope.

Notation point := (nat -> R).
Notation lform := (linear_form 0 Rplus Rmult).
Notation qform := (quadratic_form 0 Rplus Rmult).

(** The line through x with direction h. *)
Definition line (x h : point) (t : R) : point := fun i => x i + t * h i.

(** J is the gradient of F at x: the derivative of F along every direction h is
    J(h). *)
Definition is_gradient (F : point -> R) (x : point) (J : rrow) : Prop :=
  forall h, derivable_pt_lim (fun t => F (line x h t)) 0 (lform J h).
(** A variable with value v and variations r stores g near x. *)
Definition carries (x : point) (v : R) (r : rrow) (g : point -> R) : Prop :=
  g x = v /\ is_gradient g x r.

(** The two-argument arctangent is c_atan2; this says it is the angle. *)
Definition is_angle (th y x : R) : Prop :=
  - PI < th <= PI /\ y = sqrt (x * x + y * y) * sin th /\ x = sqrt (x * x + y * y) * cos th.

(** [denotes x s sr g0 e F]: at the point x, expression e stands for F, and F
    is differentiable there by the rules of calculus; the variable being
    assigned has value s, variations sr and stands for g0. *)
Inductive denotes (x : point) (s : R) (sr : rrow) (g0 : point -> R) : expr -> (point -> R) -> Prop :=
| d_const v : denotes x s sr g0 (EConst v) (fun _ => v)
| d_unknown i : denotes x s sr g0 (EVar (x i) (Some i)) (fun y => y i)
| d_fixed v : denotes x s sr g0 (EVar v None) (fun _ => v)
| d_variable v r g : carries x v r g -> denotes x s sr g0 (EMulti v r) g
| d_hvariable v r h g : carries x v r g -> denotes x s sr g0 (EHess v r h) g
| d_self : carries x s sr g0 -> denotes x s sr g0 ESelf g0
| d_cmul k a G : denotes x s sr g0 a G -> denotes x s sr g0 (EUn (UCMul k) a) (fun y => k * G y)
(* variation(G,k) keeps the value of G and scales its variation *)
| d_variation k a G : denotes x s sr g0 a G ->
    denotes x s sr g0 (EUn (UVariation k) a) (fun y => G x + k * (G y - G x))
| d_cdiv k a G : denotes x s sr g0 a G -> k <> 0 -> denotes x s sr g0 (EUn (UCDiv k) a) (fun y => G y / k)
| d_cadd k a G : denotes x s sr g0 a G -> denotes x s sr g0 (EUn (UCAdd k) a) (fun y => G y + k)
| d_csub k a G : denotes x s sr g0 a G -> denotes x s sr g0 (EUn (UCSub k) a) (fun y => k - G y)
| d_recip k a G : denotes x s sr g0 a G -> G x <> 0 -> denotes x s sr g0 (EUn (URecip k) a) (fun y => k / G y)
| d_neg a G : denotes x s sr g0 a G -> denotes x s sr g0 (EUn UNeg a) (fun y => - G y)
| d_plus a G : denotes x s sr g0 a G -> denotes x s sr g0 (EUn UPlus a) G
| d_abs a G : denotes x s sr g0 a G -> G x <> 0 -> denotes x s sr g0 (EUn UAbs a) (fun y => Rabs (G y))
| d_exp a G : denotes x s sr g0 a G -> denotes x s sr g0 (EUn UExp a) (fun y => exp (G y))
| d_log a G : denotes x s sr g0 a G -> 0 < G x -> denotes x s sr g0 (EUn ULog a) (fun y => ln (G y))
| d_sin a G : denotes x s sr g0 a G -> denotes x s sr g0 (EUn USin a) (fun y => sin (G y))
| d_cos a G : denotes x s sr g0 a G -> denotes x s sr g0 (EUn UCos a) (fun y => cos (G y))
| d_sqrt a G : denotes x s sr g0 a G -> 0 < G x -> denotes x s sr g0 (EUn USqrt a) (fun y => sqrt (G y))
| d_soft_abs k a G : denotes x s sr g0 a G -> k <> 0 ->
    denotes x s sr g0 (EUn (USoftAbs k) a) (fun y => sqrt (G y * G y + k * k))
| d_soft_sign k a G : denotes x s sr g0 a G -> k <> 0 ->
    denotes x s sr g0 (EUn (USoftSign k) a) (fun y => G y / sqrt (G y * G y + k * k))
(* real exponent, positive base *)
| d_powc k a G : denotes x s sr g0 a G -> 0 < G x ->
    denotes x s sr g0 (EUn (UPowC k) a) (fun y => Rpower (G y) k)
(* integral exponent, base not zero *)
| d_powz k a G : denotes x s sr g0 a G -> G x <> 0 ->
    denotes x s sr g0 (EUn (UPowC (IZR k)) a) (fun y => powerRZ (G y) k)
(* natural exponent other than one, any base *)
| d_pown n a G : denotes x s sr g0 a G -> n <> 1%nat ->
    denotes x s sr g0 (EUn (UPowC (INR n)) a) (fun y => G y ^ n)
| d_cpow k a G : denotes x s sr g0 a G -> 0 < k ->
    denotes x s sr g0 (EUn (UCPow k) a) (fun y => Rpower k (G y))
| d_mul a b F G : denotes x s sr g0 a F -> denotes x s sr g0 b G ->
    denotes x s sr g0 (EBin BMul a b) (fun y => F y * G y)
| d_div a b F G : denotes x s sr g0 a F -> denotes x s sr g0 b G -> G x <> 0 ->
    denotes x s sr g0 (EBin BDiv a b) (fun y => F y / G y)
| d_add a b F G : denotes x s sr g0 a F -> denotes x s sr g0 b G ->
    denotes x s sr g0 (EBin BAdd a b) (fun y => F y + G y)
| d_sub a b F G : denotes x s sr g0 a F -> denotes x s sr g0 b G ->
    denotes x s sr g0 (EBin BSub a b) (fun y => F y - G y)
| d_pow a b F G : denotes x s sr g0 a F -> denotes x s sr g0 b G -> 0 < F x ->
    denotes x s sr g0 (EBin BPow a b) (fun y => Rpower (F y) (G y))
| d_atan2 a b F G : denotes x s sr g0 a F -> denotes x s sr g0 b G -> F x <> 0 \/ 0 < G x ->
    denotes x s sr g0 (EBin BAtan2 a b) (fun y => c_atan2 (F y) (G y))
| d_soft_max k a b F G : denotes x s sr g0 a F -> denotes x s sr g0 b G -> k <> 0 ->
    denotes x s sr g0 (EBin (BSoftMax k) a b) (fun y => (F y + G y + sqrt ((F y - G y) * (F y - G y) + k * k)) / 2)
| d_soft_min k a b F G : denotes x s sr g0 a F -> denotes x s sr g0 b G -> k <> 0 ->
    denotes x s sr g0 (EBin (BSoftMin k) a b) (fun y => (F y + G y - sqrt ((F y - G y) * (F y - G y) + k * k)) / 2)
(* condition(c,l,r): away from c = 0; the branch not taken may be anything *)
| d_cond_l c l r C F G : denotes x s sr g0 c C -> 0 < C x -> denotes x s sr g0 l F ->
    denotes x s sr g0 (ECond c l r) (fun y => if Rge_dec (C y) 0 then F y else G y)
| d_cond_r c l r C F G : denotes x s sr g0 c C -> C x < 0 -> denotes x s sr g0 r G ->
    denotes x s sr g0 (ECond c l r) (fun y => if Rge_dec (C y) 0 then F y else G y)
| d_branch_l l r F : denotes x s sr g0 l F -> denotes x s sr g0 (EBranch true l r) F
| d_branch_r l r F : denotes x s sr g0 r F -> denotes x s sr g0 (EBranch false l r) F.

(** No product has the assigned variable itself as a factor. *)
Fixpoint no_self_factor (e : expr) : Prop :=
  match e with
  | EUn _ a => no_self_factor a
  | EBin b l r => (b = BMul -> l <> ESelf /\ r <> ESelf) /\ no_self_factor l /\ no_self_factor r
  | ECond _ l r | EBranch _ l r => no_self_factor l /\ no_self_factor r
  | _ => True
  end.

(** ** Second derivatives *)
(** d1 and d2 are the first and second derivative of F at x along h. *)
Definition second (F : point -> R) (x h : point) (d1 d2 : R) : Prop :=
  exists (f1 : R -> R) (eps : R), 0 < eps /\
    (forall t, Rabs t < eps -> derivable_pt_lim (fun t => F (line x h t)) t (f1 t)) /\
    f1 0 = d1 /\ derivable_pt_lim f1 0 d2.
(** J and H are the gradient and the Hessian of F at x; an entry (i,j) of H is
    the coefficient of h_i h_j in the second derivative along h. *)
Definition is_hessian (F : point -> R) (x : point) (J : rrow) (H : rhrow) : Prop :=
  forall h, second F x h (lform J h) (qform H h).
(** A variable with second derivatives: distinct columns, ordered Hessian. *)
Definition carries2 (x : point) (v : R) (r : rrow) (hr : rhrow) (g : point -> R) : Prop :=
  g x = v /\ NoDup (map fst r) /\ StronglySorted pair_le (map fst hr) /\ is_hessian g x r hr.
Definition nonempty (r : rrow) : bool := match r with [] => false | _ => true end.
Definition affine (G : point -> R) (x : point) : Prop :=
  forall h, exists c, forall t, G (line x h t) = G x + c * t.

(** [denotes2 x s sr sh g0 mJ mH b e F]: the fragment for which GetHessian with
    multipliers mJ, mH is right.  b tells whether e depends on unknowns. *)
Inductive denotes2 (x : point) (s : R) (sr : rrow) (sh : rhrow) (g0 : point -> R)
  : R -> R -> bool -> expr -> (point -> R) -> Prop :=
| h_const mJ mH v : denotes2 x s sr sh g0 mJ mH false (EConst v) (fun _ => v)
| h_unknown mJ mH i : denotes2 x s sr sh g0 mJ mH true (EVar (x i) (Some i)) (fun y => y i)
| h_fixed mJ mH v : denotes2 x s sr sh g0 mJ mH false (EVar v None) (fun _ => v)
| h_variable mJ mH v r g : carries2 x v r [] g -> denotes2 x s sr sh g0 mJ mH (nonempty r) (EMulti v r) g
| h_hvariable mJ mH v r hr g : carries2 x v r hr g -> denotes2 x s sr sh g0 mJ mH (nonempty r) (EHess v r hr) g
| h_self mJ mH : carries2 x s sr sh g0 -> denotes2 x s sr sh g0 mJ mH (nonempty sr) ESelf g0
| h_cmul mJ mH b k a G : denotes2 x s sr sh g0 (mJ * k) (mH * k) b a G ->
    denotes2 x s sr sh g0 mJ mH b (EUn (UCMul k) a) (fun y => k * G y)
| h_variation mJ mH b k a G : denotes2 x s sr sh g0 (mJ * k) (mH * k) b a G ->
    denotes2 x s sr sh g0 mJ mH b (EUn (UVariation k) a) (fun y => G x + k * (G y - G x))
| h_cdiv mJ mH b k a G : k <> 0 -> denotes2 x s sr sh g0 (mJ * (1 / k)) (mH * (1 / k)) b a G ->
    denotes2 x s sr sh g0 mJ mH b (EUn (UCDiv k) a) (fun y => G y / k)
| h_cadd mJ mH b k a G : denotes2 x s sr sh g0 mJ mH b a G ->
    denotes2 x s sr sh g0 mJ mH b (EUn (UCAdd k) a) (fun y => G y + k)
| h_csub mJ mH b k a G : denotes2 x s sr sh g0 (- mJ) (- mH) b a G ->
    denotes2 x s sr sh g0 mJ mH b (EUn (UCSub k) a) (fun y => k - G y)
| h_neg mJ mH b a G : denotes2 x s sr sh g0 (- mJ) (- mH) b a G ->
    denotes2 x s sr sh g0 mJ mH b (EUn UNeg a) (fun y => - G y)
| h_plus mJ mH b a G : denotes2 x s sr sh g0 mJ mH b a G -> denotes2 x s sr sh g0 mJ mH b (EUn UPlus a) G
| h_abs_pos mJ mH b a G : 0 < G x -> denotes2 x s sr sh g0 mJ mH b a G ->
    denotes2 x s sr sh g0 mJ mH b (EUn UAbs a) (fun y => Rabs (G y))
| h_abs_neg mJ mH b a G : G x < 0 -> denotes2 x s sr sh g0 (- mJ) (- mH) b a G ->
    denotes2 x s sr sh g0 mJ mH b (EUn UAbs a) (fun y => Rabs (G y))
(* exp: only for equal multipliers up to sign; the argument is asked with other ones *)
| h_exp mJ mH b a G : mH = Rabs mJ -> denotes2 x s sr sh g0 (if Rlt_dec mJ 0 then -1 else 1) (mH * exp (G x)) b a G ->
    denotes2 x s sr sh g0 mJ mH b (EUn UExp a) (fun y => exp (G y))
(* log: in addition the argument must be affine *)
| h_log mJ mH b a G : mH = Rabs mJ -> 0 < G x -> affine G x ->
    denotes2 x s sr sh g0 (if Rlt_dec mJ 0 then -1 else 1) (2 * mH / G x) b a G ->
    denotes2 x s sr sh g0 mJ mH b (EUn ULog a) (fun y => ln (G y))
(* k/a: only for negative k (multipliers 1) and affine argument *)
| h_recip mJ mH b k a G : mJ * k < 0 -> mH = 1 -> G x <> 0 -> affine G x ->
    denotes2 x s sr sh g0 1 (-2 * k / (G x * G x)) b a G ->
    denotes2 x s sr sh g0 mJ mH b (EUn (URecip k) a) (fun y => k / G y)
| h_sin mJ mH b a G : denotes2 x s sr sh g0 1 1 b a G ->
    denotes2 x s sr sh g0 mJ mH b (EUn USin a) (fun y => sin (G y))
| h_cos mJ mH b a G : denotes2 x s sr sh g0 1 1 b a G ->
    denotes2 x s sr sh g0 mJ mH b (EUn UCos a) (fun y => cos (G y))
| h_sqrt mJ mH b a G : 0 < G x -> denotes2 x s sr sh g0 1 1 b a G ->
    denotes2 x s sr sh g0 mJ mH b (EUn USqrt a) (fun y => sqrt (G y))
(* products: both factors depend on unknowns, or none *)
| h_mul mJ mH b l r F G : denotes2 x s sr sh g0 1 1 b l F -> denotes2 x s sr sh g0 1 1 b r G ->
    denotes2 x s sr sh g0 mJ mH b (EBin BMul l r) (fun y => F y * G y)
| h_add mJ mH b b' l r F G : denotes2 x s sr sh g0 1 1 b l F -> denotes2 x s sr sh g0 1 1 b' r G ->
    denotes2 x s sr sh g0 mJ mH (orb b b') (EBin BAdd l r) (fun y => F y + G y)
| h_sub mJ mH b b' l r F G : denotes2 x s sr sh g0 1 1 b l F -> denotes2 x s sr sh g0 1 1 b' r G ->
    denotes2 x s sr sh g0 mJ mH (orb b b') (EBin BSub l r) (fun y => F y - G y)
| h_cond_l mJ mH b c l r C F G : denotes x s sr g0 c C -> 0 < C x -> denotes2 x s sr sh g0 mJ mH b l F ->
    denotes2 x s sr sh g0 mJ mH b (ECond c l r) (fun y => if Rge_dec (C y) 0 then F y else G y)
| h_cond_r mJ mH b c l r C F G : denotes x s sr g0 c C -> C x < 0 -> denotes2 x s sr sh g0 mJ mH b r G ->
    denotes2 x s sr sh g0 mJ mH b (ECond c l r) (fun y => if Rge_dec (C y) 0 then F y else G y)
| h_branch_l mJ mH b l r F : denotes2 x s sr sh g0 mJ mH b l F -> denotes2 x s sr sh g0 mJ mH b (EBranch true l r) F
| h_branch_r mJ mH b l r F : denotes2 x s sr sh g0 mJ mH b r F -> denotes2 x s sr sh g0 mJ mH b (EBranch false l r) F.
