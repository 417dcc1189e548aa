(** Properties C46, C52 and C56. *)
From Coq Require Import Reals List Bool Arith Lia Lra Sorted FunctionalExtensionality.
From Verif Require Import Util Row_Model Row_Proofs Row_Props Merger_Model Merger_Props Autodiff_Model Autodiff_Spec Autodiff_Proofs.
Import ListNotations.
Open Scope R_scope.

(** Without a current Automatizator derivatives are gathered in a row, with one
    in its merger, which is cleared between uses (C29). *)
Definition ready (tgt : target) : Prop := tgt = None \/ exists b e, tgt = Some (fresh 0 b e false).

(** C46: a variable made from an expression that stands for F holds the value
    of F and the exact gradient of F: distinct columns, the derivative along
    every direction, and at every column the partial derivative. *)
Theorem C46_autodiff_exact : forall (x : point) (s : R) (sr : rrow) (g0 : point -> R) (e : expr) (F : point -> R) (tgt : target),
  denotes x s sr g0 e F -> ready tgt ->
  exists J, do_assign AsgVar tgt s sr e = Some (F x, J) /\ NoDup (map fst J) /\ is_gradient F x J /\
    (forall i, derivable_pt_lim (fun t => F (fun j => if Nat.eqb j i then t else x j)) (x i) (get_safe 0 Nat.eqb J i)).
Proof.
  intros x s sr g0 e F tgt D T.
  destruct (into_new_ok tgt (jac s s sr e 1) T) as (J & E & N & L).
  destruct (jac_ok _ _ _ _ _ _ D s ltac:(now left) x) as (Hv & _).
  assert (G : is_gradient F x J).
  { apply grad_of. intro h. destruct (jac_ok _ _ _ _ _ _ D s ltac:(now left) h) as (_ & d & Hd & Hj).
    exists d. split; auto. rewrite L, Hj. ring. }
  exists J. unfold do_assign. rewrite E, Hv. split; auto. split; auto. split; auto.
  intro i. rewrite (proj1 (C28_row_access R 0 1 Rplus Rmult Rminus Ropp RTheory J i (fun v => v) N)).
  rewrite <- lform_unit.
  apply (lim_ext (fun t => F (line x (unit i) (t - x i)))).
  - intro t. f_equal. apply functional_extensionality. intro j. unfold line, unit.
    destruct (Nat.eqb_spec j i) as [->|]; ring.
  - eapply lim_eq; [eapply (lim_comp (fun t => t - x i) (fun t => F (line x (unit i) t))); [apply lim_sub; [apply lim_id|apply lim_const]|]|].
    + cbn beta. replace (x i - x i) with 0 by ring. apply G.
    + ring.
Qed.
Print Assumptions C46_autodiff_exact.

(** GetJacobian(mult,row) adds mult times the gradient to whatever the row holds. *)
Theorem C46_get_jacobian_adds : forall (x : point) (s : R) (sr : rrow) (g0 : point -> R) (e : expr) (F : point -> R) (r : rrow) (mult : R),
  denotes x s sr g0 e F ->
  exists D : point -> R,
    (forall h, derivable_pt_lim (fun t => F (line x h t)) 0 (D h)) /\
    (forall h, lform (row_run r (jac s s sr e mult)) h = lform r h + mult * D h) /\
    (NoDup (map fst r) -> NoDup (map fst (row_run r (jac s s sr e mult)))).
Proof.
  intros x s sr g0 e F r mult D. exists (fun h => evs_form h (jac s s sr e 1)). split; [|split].
  - intro h. destruct (jac_ok _ _ _ _ _ _ D s ltac:(now left) h) as (_ & d & Hd & Hj). rewrite Hj, Rmult_1_l. exact Hd.
  - intro h. rewrite row_run_form. destruct (jac_ok _ _ _ _ _ _ D s ltac:(now left) h) as (_ & d & Hd & Hj). rewrite !Hj. ring.
  - apply row_run_nodup.
Qed.
Print Assumptions C46_get_jacobian_adds.

(** The two-argument arctangent of the model is the angle of the point. *)
Theorem C46_atan2_is_angle : forall y x, is_angle (c_atan2 y x) y x.
Proof. exact c_atan2_angle. Qed.
Print Assumptions C46_atan2_is_angle.

(** The exclusion of exponent one at a zero base is necessary: pow(x,1) at
    x = 0 has no variation, for a constant and for a variable exponent. *)
Definition origin : point := fun _ => 0.
Theorem C46_pow_one_at_zero_refuted : forall tgt, ready tgt ->
  (forall y : point, c_pow (y 0%nat) 1 = y 0%nat) /\
  exists J1 J2,
  do_assign AsgVar tgt 0 [] (EUn (UPowC 1) (EVar (origin 0%nat) (Some 0%nat))) = Some (0, J1) /\
  do_assign AsgVar tgt 0 [] (EBin BPow (EVar (origin 0%nat) (Some 0%nat)) (EConst 1)) = Some (0, J2) /\
  ~ is_gradient (fun y => c_pow (y 0%nat) 1) origin J1 /\ ~ is_gradient (fun y => c_pow (y 0%nat) 1) origin J2.
Proof.
  intros tgt T.
  assert (C : forall z, c_pow z 1 = z) by (intro z; change 1 with (INR 1); rewrite c_pow_n; ring).
  split; [intro; apply C|].
  assert (W : forall J, (forall h, lform J h = 0) -> ~ is_gradient (fun y : point => c_pow (y 0%nat) 1) origin J).
  { intros J HJ G. specialize (G (fun _ => 1)). rewrite HJ in G.
    assert (X : 0 = 1); [|lra].
    apply (uniqueness_limite _ _ _ _ G). apply (lim_ext (fun t => t)); [|apply lim_id].
    intro t. rewrite C. unfold line, origin. ring. }
  destruct (into_new_ok tgt (jac 0 0 [] (EUn (UPowC 1) (EVar (origin 0%nat) (Some 0%nat))) 1) T) as (J1 & E1 & _ & L1).
  destruct (into_new_ok tgt (jac 0 0 [] (EBin BPow (EVar (origin 0%nat) (Some 0%nat)) (EConst 1)) 1) T) as (J2 & E2 & _ & L2).
  exists J1, J2. unfold do_assign. rewrite E1, E2. cbn [value uval bval with_val].
  replace (c_pow (origin 0%nat) 1) with 0 by (rewrite C; reflexivity). split; auto. split; auto. split.
  - apply W. intro h. rewrite L1. cbn [jac ucoef value]. unfold origin. rewrite isz_0, Rmult_0_r, isz_0. reflexivity.
  - apply W. intro h. rewrite L2. cbn [jac lcoef rcoef value]. unfold origin. rewrite isz_0, !Rmult_0_r, isz_0. reflexivity.
Qed.
Print Assumptions C46_pow_one_at_zero_refuted.

(** A concrete expression: sin(x0*v)/x1, at x = (2,3), v = x0+x1 stored in a
    variable. *)
Example C46_nonvacuous : exists F,
  let x : point := fun i => match i with O => 2 | _ => 3 end in
  denotes x 0 [] (fun _ => 0)
    (EBin BDiv (EUn USin (EBin BMul (EVar 2 (Some 0%nat)) (EMulti 5 [(0%nat, 1); (1%nat, 1)]))) (EVar 3 (Some 1%nat))) F /\
  F x = sin (2 * 5) / 3 /\ ready None /\ ready (Some (fresh 0 0 10 false)).
Proof.
  exists (fun y => sin (y 0%nat * (y 0%nat + y 1%nat)) / y 1%nat). cbv zeta. set (x := fun i : nat => match i with O => 2 | _ => 3 end).
  split; [|split; [|split]].
  - apply d_div with (F := fun y => sin (y 0%nat * (y 0%nat + y 1%nat))) (G := fun y => y 1%nat).
    + apply d_sin with (G := fun y => y 0%nat * (y 0%nat + y 1%nat)).
      apply d_mul with (F := fun y => y 0%nat) (G := fun y => y 0%nat + y 1%nat).
      * exact (d_unknown x 0 [] (fun _ => 0) 0%nat).
      * apply d_variable. split; [cbn; lra|]. intro h. rewrite !lform_cons, lform_nil. cbn [fst snd]. unfold line.
        eapply lim_eq; [apply lim_add; apply lim_add; try apply lim_const; apply lim_mul; (apply lim_id || apply lim_const)|]. cbn beta. ring.
    + exact (d_unknown x 0 [] (fun _ => 0) 1%nat).
    + cbn. lra.
  - cbn. f_equal. f_equal. lra.
  - now left.
  - right. eauto.
Qed.

(** ** C56: assignments that combine a variable with an expression *)
(** The function a variable should stand for after the assignment. *)
Definition assigned (a : assign) (g F : point -> R) : point -> R :=
  match a with
  | AsgVar | AsgRef => F
  | AsgAdd => fun y => g y + F y
  | AsgSub => fun y => g y - F y
  | AsgMul => fun y => g y * F y
  | AsgDiv => fun y => g y / F y
  end.
(** =, +=, -=, *= and /= leave the variable with the value and the gradient of
    the combined function, also when the expression refers to the variable,
    provided that (except for *= and construction) no product has the assigned
    variable itself as a factor. *)
Theorem C56_assignments : forall (a : assign) (x : point) (s : R) (sr : rrow) (g : point -> R) (e : expr) (F : point -> R) (tgt : target),
  ready tgt -> carries x s sr g -> NoDup (map fst sr) -> denotes x s sr g e F ->
  a = AsgVar \/ a = AsgMul \/ no_self_factor e -> (a = AsgDiv -> F x <> 0) ->
  exists v J, do_assign a tgt s sr e = Some (v, J) /\ NoDup (map fst J) /\ carries x v J (assigned a g F).
Proof.
  intros a x s sr g e F tgt T [C1 C2] N D HS HD.
  assert (HV : value s e = F x) by (destruct (jac_ok _ _ _ _ _ _ D s ltac:(now left) x); auto).
  assert (HJ : forall s', a = AsgVar \/ a = AsgMul -> s' = s ->
            forall h, exists d, dd F x h d /\ forall m, evs_form h (jac s s' sr e m) = m * d).
  { intros s' _ -> h. apply (jac_ok _ _ _ _ _ _ D s ltac:(now left) h). }
  assert (HJ' : forall s', ~ (a = AsgVar \/ a = AsgMul) ->
            forall h, exists d, dd F x h d /\ forall m, evs_form h (jac s s' sr e m) = m * d).
  { intros s' Na h. apply (jac_ok _ _ _ _ _ _ D s' ltac:(right; tauto) h). }
  destruct a; cbn [do_assign assigned]; rewrite HV.
  - destruct (into_new_ok tgt (jac s s sr e 1) T) as (J & -> & NJ & L). exists (F x), J. cbn. split; auto. split; auto. split; auto.
    apply grad_of. intro h. destruct (HJ s ltac:(auto) eq_refl h) as (d & Hd & Hj). exists d. split; auto. rewrite L, Hj. ring.
  - destruct (into_new_ok tgt (jac s (F x) sr e 1) T) as (J & -> & NJ & L). exists (F x), J. cbn. split; auto. split; auto. split; auto.
    apply grad_of. intro h. destruct (HJ' (F x) ltac:(intros [|]; discriminate) h) as (d & Hd & Hj). exists d. split; auto. rewrite L, Hj. ring.
  - destruct (into_ok tgt 1 sr (jac s (s + F x) sr e 1) T N) as (J & -> & NJ & L). exists (s + F x), J. cbn. split; auto. split; auto. split; [congruence|].
    apply grad_of. intro h. destruct (HJ' (s + F x) ltac:(intros [|]; discriminate) h) as (d & Hd & Hj).
    exists (lform sr h + d). split; [apply lim_add; [apply C2|exact Hd]|]. rewrite L, Hj. ring.
  - destruct (into_ok tgt 1 sr (jac s (s - F x) sr e (-1)) T N) as (J & -> & NJ & L). exists (s - F x), J. cbn. split; auto. split; auto. split; [congruence|].
    apply grad_of. intro h. destruct (HJ' (s - F x) ltac:(intros [|]; discriminate) h) as (d & Hd & Hj).
    exists (lform sr h - d). split; [apply lim_sub; [apply C2|exact Hd]|]. rewrite L, Hj. ring.
  - destruct (into_ok tgt (F x) sr (jac s s sr e s) T N) as (J & -> & NJ & L). exists (s * F x), J. cbn. split; auto. split; auto. split; [congruence|].
    apply grad_of. intro h. destruct (HJ s ltac:(auto) eq_refl h) as (d & Hd & Hj).
    exists (lform sr h * F x + g x * d). split.
    + eapply lim_eq; [apply lim_mul; [apply C2|exact Hd]|]. cbn beta. now rewrite line_0.
    + rewrite L, Hj, C1. ring.
  - assert (HF : F x <> 0) by auto.
    destruct (into_ok tgt (1 / F x) sr (jac s (s * (1 / F x)) sr e (- (s * (1 / F x)) * (1 / F x))) T N) as (J & -> & NJ & L).
    exists (s * (1 / F x)), J. cbn. split; auto. split; auto. split; [rewrite C1; unfold Rdiv; ring|].
    apply grad_of. intro h. destruct (HJ' (s * (1 / F x)) ltac:(intros [|]; discriminate) h) as (d & Hd & Hj).
    exists ((lform sr h * F x - d * g x) / (F x * F x)). split.
    + eapply lim_eq; [apply lim_div; [apply C2|exact Hd|now rewrite line_0]|]. cbn beta. now rewrite line_0.
    + rewrite L, Hj, C1. field. auto.
Qed.
Print Assumptions C56_assignments.

(** Without that provision =, +=, -= and /= give a wrong gradient: the product
    asks the variable for its value after it was overwritten.  For x = 2 and
    the expression x*x, through a reference to x. *)
Definition two : point := fun _ => 2.
Theorem C56_self_product_refuted : forall tgt a, ready tgt -> In a [AsgRef; AsgAdd; AsgSub; AsgDiv] ->
  let g (y : point) := y 0%nat in let sr := [(0%nat, 1)] in let e := EBin BMul ESelf ESelf in let F (y : point) := y 0%nat * y 0%nat in
  carries two 2 sr g /\ NoDup (map fst sr) /\ denotes two 2 sr g e F /\ F two <> 0 /\
  exists v J, do_assign a tgt 2 sr e = Some (v, J) /\ ~ is_gradient (assigned a g F) two J.
Proof.
  intros tgt a T HA g sr e F.
  assert (C : carries two 2 sr g).
  { split; [reflexivity|]. intro h. unfold sr, g. rewrite lform_cons, lform_nil. cbn [fst snd]. unfold line, two.
    eapply lim_eq; [apply lim_add; [apply lim_const|apply lim_mul; [apply lim_id|apply lim_const]]|]. cbn beta. ring. }
  assert (N : NoDup (map fst sr)) by (repeat constructor; cbn; tauto).
  assert (D : denotes two 2 sr g e F) by (apply d_mul; apply d_self; exact C).
  split; auto. split; auto. split; auto. split; [unfold F, two; lra|].
  set (h1 := (fun _ => 1) : point).
  assert (LS : lform sr h1 = 1) by (unfold sr; rewrite lform_cons, lform_nil; cbn [fst snd]; unfold h1; ring).
  assert (HE : forall s' m, evs_form h1 (jac 2 s' sr e m) = m * (s' + s')).
  { intros. unfold e. cbn [jac lcoef rcoef value value_now]. rewrite evs_app, !evs_cons, !evs_nil. cbn [ev_form]. rewrite LS. ring. }
  assert (HF : dd F two h1 4).
  { unfold dd, F, line, two, h1. eapply lim_eq; [apply lim_mul; apply lim_add; try apply lim_const; apply lim_mul; (apply lim_id || apply lim_const)|]. cbn beta. ring. }
  assert (HG : dd g two h1 1).
  { rewrite <- LS. exact (proj2 C h1). }
  assert (W : forall J d (Q : point -> R), dd Q two h1 d -> lform J h1 <> d -> ~ is_gradient Q two J).
  { intros J d Q HQ Hn G. apply Hn. exact (uniqueness_limite _ _ _ _ (G h1) HQ). }
  destruct HA as [<-|[<-|[<-|[<-|[]]]]]; cbn [do_assign assigned];
    replace (value 2 e) with 4 by (cbn; ring).
  - destruct (into_new_ok tgt (jac 2 4 sr e 1) T) as (J & -> & _ & L). exists 4, J. split; [reflexivity|].
    apply (W _ 4); [exact HF|]. rewrite L, HE. lra.
  - destruct (into_ok tgt 1 sr (jac 2 (2 + 4) sr e 1) T N) as (J & -> & _ & L). exists (2 + 4), J. split; [reflexivity|].
    apply (W _ (1 + 4)); [exact (lim_add _ _ _ _ _ HG HF)|]. rewrite L, HE, LS. lra.
  - destruct (into_ok tgt 1 sr (jac 2 (2 - 4) sr e (-1)) T N) as (J & -> & _ & L). exists (2 - 4), J. split; [reflexivity|].
    apply (W _ (1 - 4)); [exact (lim_sub _ _ _ _ _ HG HF)|]. rewrite L, HE, LS. lra.
  - destruct (into_ok tgt (1 / 4) sr (jac 2 (2 * (1 / 4)) sr e (- (2 * (1 / 4)) * (1 / 4))) T N) as (J & -> & _ & L).
    exists (2 * (1 / 4)), J. split; [reflexivity|].
    apply (W _ (- (1 / 4))).
    + eapply lim_eq; [apply (lim_div _ _ _ _ _ HG HF)|]; cbn beta; rewrite ?line_0; unfold F, g, two; lra.
    + rewrite L, HE, LS. lra.
Qed.
Print Assumptions C56_self_product_refuted.

Example C56_nonvacuous :
  let x : point := fun _ => 2 in let g (y : point) := y 0%nat in let sr := [(0%nat, 1)] in
  exists e F, denotes x 2 sr g e F /\ no_self_factor e /\ e = EUn UExp ESelf /\ carries x 2 sr g /\ NoDup (map fst sr) /\ F x <> 0.
Proof.
  cbv zeta. exists (EUn UExp ESelf), (fun y => exp (y 0%nat)).
  assert (C : carries (fun _ => 2) 2 [(0%nat, 1)] (fun y : point => y 0%nat)).
  { split; [reflexivity|]. intro h. rewrite lform_cons, lform_nil. cbn [fst snd]. unfold line.
    eapply lim_eq; [apply lim_add; [apply lim_const|apply lim_mul; [apply lim_id|apply lim_const]]|]. cbn beta. ring. }
  split; [apply d_exp with (G := fun y => y 0%nat); now apply d_self|]. split; [cbn; auto|]. split; auto. split; auto.
  split; [repeat constructor; cbn; tauto|]. pose proof (exp_pos 2). lra.
Qed.

(** ** C52: second derivatives *)
(** A hessian_variable made from an expression of the fragment holds the value,
    the gradient and the Hessian of the function, and can be used as an operand
    again: distinct (increasing) columns, ordered Hessian indices. *)
Theorem C52_hessian_exact : forall (x : point) (s : R) (sr : rrow) (sh : rhrow) (g0 : point -> R) (b : bool) (e : expr) (F : point -> R),
  denotes2 x s sr sh g0 1 1 b e F ->
  exists J H, hess s sr sh e 1 1 = Some (J, H) /\ carries2 x (value s e) J H F /\ StronglySorted lt (map fst J).
Proof.
  intros x s sr sh g0 b e F D. destruct (hess_ok _ _ _ _ _ _ _ _ _ _ D) as (Hv & J & H & E & S1 & S2 & _ & Q).
  exists J, H. split; [exact E|]. split; [|exact S1]. split; [auto|]. split; [|split; [exact S2|]].
  - clear - S1. induction S1 as [|a l S1 IH Fa]; constructor; auto. intro I. rewrite Forall_forall in Fa. specialize (Fa a I). lia.
  - intro h. destruct (Q h) as (d1 & d2 & D1 & D2 & D3). rewrite D2, D3, !Rmult_1_l. exact D1.
Qed.
Print Assumptions C52_hessian_exact.

Lemma second_unique : forall F x h d1 d2 e1 e2, second F x h d1 d2 -> second F x h e1 e2 -> d1 = e1 /\ d2 = e2.
Proof.
  intros F x h d1 d2 e1 e2 A B. split.
  - exact (uniqueness_limite _ _ _ _ (second_dd _ _ _ _ _ A) (second_dd _ _ _ _ _ B)).
  - destruct A as (f & e & A1 & A2 & A3 & A4). destruct B as (g & e' & B1 & B2 & B3 & B4).
    apply (uniqueness_limite f 0 d2 e2 A4). apply (lim_loc g f 0 e2 (Rmin e e')); auto; [now apply Rmin_pos|].
    intros t Ht. rewrite Rminus_0_r in Ht. apply rmin3 in Ht. destruct Ht as [Ta Tb].
    exact (uniqueness_limite _ _ _ _ (B2 t Tb) (A2 t Ta)).
Qed.

(** Outside of the fragment the stored Hessian is wrong: -exp(x) and
    exp(exp(x)) at 0, log(x*x), 1/x and x^2 at 1.  (The last one loses the
    gradient.) *)
Definition ones : point := fun _ => 1.
Definition xvar (v : R) : expr := EVar v (Some 0%nat).
Definition wrong (x : point) (e : expr) (F : point -> R) : Prop :=
  exists J H, hess 0 [] [] e 1 1 = Some (J, H) /\ value 0 e = F x /\ ~ is_hessian F x J H.
Lemma sorted1 : forall c, StronglySorted lt (map fst [(0%nat, c : R)]).
Proof. repeat constructor. Qed.
Lemma form1 : forall c, lform [(0%nat, c)] ones = c.
Proof. intro c. rewrite lform_cons, lform_nil. cbn [fst snd]. unfold ones. ring. Qed.
Lemma second_x : forall x : point, second (fun y => y 0%nat) x ones 1 0.
Proof. intro x. exact (second_coord 0%nat x ones). Qed.
Lemma wrong_by : forall x e F J H d1 d2, hess 0 [] [] e 1 1 = Some (J, H) -> value 0 e = F x -> second F x ones d1 d2 ->
  lform J ones <> d1 \/ qform H ones <> d2 -> wrong x e F.
Proof.
  intros x e F J H d1 d2 E V S N. exists J, H. split; auto. split; auto. intro I. specialize (I ones).
  destruct (second_unique _ _ _ _ _ _ _ I S). tauto.
Qed.
Lemma ltz_neg : forall a, a < 0 -> ltz a = true.
Proof. intros a H. unfold ltz. destruct (Rlt_dec a 0); [auto|contradiction]. Qed.
Lemma ltz_pos : forall a, 0 <= a -> ltz a = false.
Proof. intros a H. unfold ltz. destruct (Rlt_dec a 0); auto. lra. Qed.
Lemma second_exp : forall (x : point) (G : point -> R) d1 d2, second G x ones d1 d2 ->
  second (fun y => exp (G y)) x ones (exp (G x) * d1) (exp (G x) * (d1 * d1) + exp (G x) * d2).
Proof.
  intros x G d1 d2 S. apply (second_comp exp exp (exp (G x)) G x ones d1 d2 1 S); [lra|intros; apply derivable_pt_lim_exp|apply derivable_pt_lim_exp].
Qed.

Theorem C52_exp_negated_refuted : wrong origin (EUn UNeg (EUn UExp (xvar 0))) (fun y => - exp (y 0%nat)).
Proof.
  destruct (mjh1_ok (- (1) * exp 0 * -1) [(0%nat, -1)] 1 [] (sorted1 _) ltac:(constructor)) as (H & E & _ & V).
  eapply wrong_by.
  - cbn [hess value xvar]. unfold sgn. pose proof (exp_pos 0). rewrite ltz_neg by lra. rewrite E. reflexivity.
  - reflexivity.
  - apply (second_ext (fun y => -1 * exp (y 0%nat))); [intro; ring|]. apply second_scale, (second_exp origin (fun y => y 0%nat) 1 0). apply second_x.
  - right. rewrite V, form1, qform_nil. unfold origin. rewrite exp_0. lra.
Qed.
Print Assumptions C52_exp_negated_refuted.

Theorem C52_exp_nested_refuted : wrong origin (EUn UExp (EUn UExp (xvar 0))) (fun y => exp (exp (y 0%nat))).
Proof.
  destruct (mjh1_ok (1 * exp 0 * 1) [(0%nat, 1)] 1 [] (sorted1 _) ltac:(constructor)) as (H & E & S & V).
  destruct (mjh1_ok (1 * exp (exp 0) * 1) (row_scale (1 * exp 0 * 1) [(0%nat, 1)]) 1 H (sorted1 _) S) as (H' & E' & _ & V').
  pose proof (exp_pos 0). pose proof (exp_pos (exp 0)).
  eapply wrong_by.
  - cbn [hess value uval xvar]. unfold sgn. rewrite (ltz_pos (1 * exp (exp 0))) by lra. rewrite (ltz_pos (1 * exp 0)) by lra. rewrite E, E'. reflexivity.
  - reflexivity.
  - apply (second_exp origin (fun y => exp (y 0%nat))). apply (second_exp origin (fun y => y 0%nat) 1 0). apply second_x.
  - right. rewrite V', V, lform_scale, form1, qform_nil. unfold origin. rewrite exp_0.
    pose proof (exp_ineq1 1 ltac:(lra)). lra.
Qed.
Print Assumptions C52_exp_nested_refuted.

Theorem C52_log_refuted : wrong ones (EUn ULog (EBin BMul (xvar 1) (xvar 1))) (fun y => ln (y 0%nat * y 0%nat)).
Proof.
  destruct (msr_ok (1 * 1) [(0%nat, 1)] (1 * 1) [(0%nat, 1)] (sorted1 _) (sorted1 _)) as (J & E1 & S1 & _ & V1).
  destruct (mjh2_ok (2 * (2 * 1 * (1 / (1 * 1)))) [(0%nat, 1)] [(0%nat, 1)] (1 * (2 * 1 * (1 / (1 * 1)))) [] (1 * (2 * 1 * (1 / (1 * 1)))) []
     (sorted1 _) (sorted1 _) ltac:(tauto) ltac:(constructor) ltac:(constructor)) as (H & E2 & S2 & V2).
  destruct (mjh1_ok (- (1 * (1 / (1 * 1))) * 1 * (1 / (1 * 1))) J 1 H S1 S2) as (H' & E3 & _ & V3).
  eapply wrong_by.
  - cbn [hess value uval bval xvar]. unfold sgn. rewrite (ltz_pos (1 * (1 / (1 * 1)))) by lra. rewrite E1, E2. cbn [pair_opt]. rewrite E3. reflexivity.
  - reflexivity.
  - eapply (second_comp ln (fun z => 1 / z) (-1) (fun y => y 0%nat * y 0%nat) ones ones _ _ 1);
      [apply second_mul; apply second_x|lra| |].
    + unfold ones. intros z Hz. apply lim_ln. apply Rabs_def2 in Hz. lra.
    + unfold ones. eapply lim_eq; [apply lim_div; [apply lim_const|apply lim_id|]|]; cbn beta; lra.
  - right. rewrite V3, V2, V1, form1, qform_nil. unfold ones. lra.
Qed.
Print Assumptions C52_log_refuted.

Theorem C52_reciprocal_refuted : wrong ones (EUn (URecip 1) (xvar 1)) (fun y => 1 / y 0%nat).
Proof.
  destruct (mjh1_ok (2 * (1 * (1 / 1)) * (1 / 1) * (1 / 1) * -1) [(0%nat, -1)] 1 [] (sorted1 _) ltac:(constructor)) as (H & E & _ & V).
  eapply wrong_by.
  - cbn [hess value uval xvar]. unfold sgn. rewrite ltz_neg by lra. rewrite E. reflexivity.
  - cbn [value uval xvar]. unfold ones. lra.
  - apply (second_comp (fun z => 1 / z) (fun z => - (1) / (z * z)) 2 (fun y => y 0%nat) ones ones 1 0 1 (second_x _)); [lra| |].
    + unfold ones. intros z Hz. apply Rabs_def2 in Hz. eapply lim_eq; [apply lim_div; [apply lim_const|apply lim_id|lra]|]. cbn beta. field. lra.
    + unfold ones. eapply lim_eq; [apply lim_div; [apply lim_const|apply lim_mul; apply lim_id|]|]; cbn beta; lra.
  - right. rewrite V, form1, qform_nil. unfold ones. lra.
Qed.
Print Assumptions C52_reciprocal_refuted.

Theorem C52_pow_refuted : wrong ones (EUn (UPowC 2) (xvar 1)) (fun y => c_pow (y 0%nat) 2).
Proof.
  destruct (mjh1_ok (1 * (c_pow 1 2 * 2 / 1 * (2 - 1) / 1)) [(0%nat, 1)] (1 * (c_pow 1 2 * 2 / 1)) [] (sorted1 _) ltac:(constructor)) as (H & E & _ & V).
  eapply wrong_by.
  - cbn [hess value uval xvar]. rewrite isz_ne by lra. rewrite E. reflexivity.
  - reflexivity.
  - apply (second_ext (fun y => y 0%nat * y 0%nat)).
    + intro y. replace 2 with (INR 2) by (cbn; lra). rewrite c_pow_n. ring.
    + apply second_mul; apply second_x.
  - left. rewrite lform_nil. unfold ones. lra.
Qed.
Print Assumptions C52_pow_refuted.

(** A product with exactly one factor that depends on unknowns fails, e.g.
    c*x with a variable c without variations. *)
Theorem C52_product_with_constant_refuted : forall v x0,
  hess 0 [] [] (EBin BMul (EHess v [] []) (EVar x0 (Some 0%nat))) 1 1 = None /\
  hess 0 [] [] (EBin BMul (EVar x0 (Some 0%nat)) (EHess v [] [])) 1 1 = None.
Proof.
  intros v x0. cbn [hess row_scale hscale_row sort_row is_sorted map]. unfold mjh2.
  destruct (C30_one_empty_refuted R Rplus Rmult (/ 2) (2 * 1) (x0 * 1) (v * 1) (0%nat, 1) [] [] []) as [A _].
  destruct (C30_one_empty_refuted R Rplus Rmult (/ 2) (2 * 1) (v * 1) (x0 * 1) (0%nat, 1) [] [] []) as [_ B].
  assert (P : forall (a : option rrow) (b : option rhrow), b = None -> pair_opt a b = None) by (intros [?|] b ->; reflexivity).
  split; apply P; [exact A|exact B].
Qed.
Print Assumptions C52_product_with_constant_refuted.

(** Operations whose GetHessian throws. *)
Theorem C52_not_implemented : forall s sr sh mJ mH a l r k,
  hess s sr sh (EUn (USoftAbs k) a) mJ mH = None /\ hess s sr sh (EUn (USoftSign k) a) mJ mH = None /\
  hess s sr sh (EUn (UCPow k) a) mJ mH = None /\ hess s sr sh (EBin BDiv l r) mJ mH = None /\
  hess s sr sh (EBin BPow l r) mJ mH = None /\ hess s sr sh (EBin BAtan2 l r) mJ mH = None /\
  hess s sr sh (EBin (BSoftMax k) l r) mJ mH = None /\ hess s sr sh (EBin (BSoftMin k) l r) mJ mH = None.
Proof. intros. repeat split. Qed.
Print Assumptions C52_not_implemented.

Example C52_nonvacuous :
  let x : point := fun i => match i with O => 2 | _ => 3 end in
  exists F, denotes2 x 0 [] [] (fun _ => 0) 1 1 true
    (EUn UExp (EBin BAdd (EUn USin (EBin BMul (EVar 2 (Some 0%nat)) (EVar 3 (Some 1%nat)))) (EUn (UCMul 5) (EVar 3 (Some 1%nat))))) F /\
  F x = exp (sin (2 * 3) + 5 * 3).
Proof.
  cbv zeta. exists (fun y => exp (sin (y 0%nat * y 1%nat) + 5 * y 1%nat)). split; [|reflexivity].
  set (x := fun i : nat => match i with O => 2 | _ => 3 end).
  apply h_exp with (G := fun y => sin (y 0%nat * y 1%nat) + 5 * y 1%nat); [rewrite Rabs_R1; auto|].
  apply (h_add x 0 [] [] (fun _ => 0) _ _ true true _ _ (fun y => sin (y 0%nat * y 1%nat)) (fun y => 5 * y 1%nat)).
  - apply (h_sin x 0 [] [] (fun _ => 0) _ _ true _ (fun y => y 0%nat * y 1%nat)).
    apply (h_mul x 0 [] [] (fun _ => 0) _ _ true _ _ (fun y => y 0%nat) (fun y => y 1%nat));
      [exact (h_unknown x 0 [] [] (fun _ => 0) 1 1 0%nat)|exact (h_unknown x 0 [] [] (fun _ => 0) 1 1 1%nat)].
  - apply (h_cmul x 0 [] [] (fun _ => 0) _ _ true 5 _ (fun y => y 1%nat)). exact (h_unknown x 0 [] [] (fun _ => 0) _ _ 1%nat).
Qed.
