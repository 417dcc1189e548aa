From Coq Require Import List Arith Bool Lia Relations Permutation Reals Lra.
From Verif Require Import Geom_Model Geom_Spec Geom_Proofs Geom2_Proofs Orient_Model Orient_Spec Orient_Proofs.
Import ListNotations.

(** * Checks for concrete surfaces *)
Definition joinsb (s : surf) (e a b : nat) : bool :=
  (fst (ends s e) =? a) && (snd (ends s e) =? b) || (fst (ends s e) =? b) && (snd (ends s e) =? a).
Fixpoint nodupb (l : list nat) : bool := match l with [] => true | x :: r => negb (existsb (Nat.eqb x) r) && nodupb r end.
Definition loopb (s : surf) (es ns : list nat) : bool :=
  (length es =? length ns) && (3 <=? length ns) && nodupb ns && nodupb es &&
  forallb (fun t => joinsb s (fst t) (fst (snd t)) (snd (snd t))) (combine es (loop_edges ns)).
Definition peqb (p q : nat * nat) : bool := (fst p =? fst q) && (snd p =? snd q).
Definition consistentb (s : surf) nodes faces (o : nat -> bool) : bool :=
  forallb (fun f => forallb (fun g => (f =? g) ||
    forallb (fun t => forallb (fun u => negb (fst t =? fst u) || peqb (snd u) (flip (snd t))) (directed s nodes (o g) g)) (directed s nodes (o f) f)) faces) faces.
Lemma existsb_in x l : existsb (Nat.eqb x) l = true <-> In x l.
Proof.
  rewrite existsb_exists. split; [intros (y & I & E); apply Nat.eqb_eq in E; subst; exact I|intros I; exists x; rewrite Nat.eqb_refl; auto].
Qed.
Lemma nodupb_ok l : nodupb l = true -> NoDup l.
Proof.
  induction l as [|a l IH]; [constructor|]. cbn. rewrite andb_true_iff, negb_true_iff. intros (A & B). constructor; [|auto].
  intros I. apply existsb_in in I. congruence.
Qed.
Lemma loopb_ok s es ns : loopb s es ns = true -> loop s es ns.
Proof.
  unfold loopb. rewrite !andb_true_iff, forallb_forall. intros ((((A & B) & C) & D) & E).
  split; [apply Nat.eqb_eq, A|]. split; [apply Nat.leb_le, B|]. split; [apply nodupb_ok, C|]. split; [apply nodupb_ok, D|].
  intros e p I. apply E in I. cbn [fst snd] in I. unfold joinsb in I. rewrite orb_true_iff, !andb_true_iff, !Nat.eqb_eq in I. unfold joins.
  destruct (ends s e) as (a & b). cbn in I. destruct I as [(-> & ->)|(-> & ->)]; auto.
Qed.
Lemma consistentb_ok s nodes faces o : consistentb s nodes faces o = true -> consistent s nodes faces o.
Proof.
  unfold consistentb. rewrite forallb_forall. intros H f g e p q If Ig N Hp Hq. specialize (H f If). rewrite forallb_forall in H.
  specialize (H g Ig). apply orb_true_iff in H. destruct H as [H|H]; [apply Nat.eqb_eq in H; contradiction|].
  rewrite forallb_forall in H. specialize (H _ Hp). rewrite forallb_forall in H. specialize (H _ Hq). cbn [fst snd] in H.
  rewrite Nat.eqb_refl in H. cbn in H. unfold peqb in H. apply andb_true_iff in H. destruct H as (A & B). apply Nat.eqb_eq in A, B.
  destruct q. cbn in *. subst. reflexivity.
Qed.
(** HighConn made from LowConn *)
Definition mk_surf (en : nat -> nat * nat) (fe : nat -> list nat) (faces : list nat) : surf :=
  Surf en fe (fun e => filter (fun f => existsb (Nat.eqb e) (fe f)) faces).
Lemma mk_linked en fe faces : linked (mk_surf en fe faces) faces.
Proof. intros e g I. cbn [efaces fedges mk_surf]. rewrite filter_In, existsb_in. tauto. Qed.
Lemma mk_shell en fe faces nodes : forallb (fun f => loopb (mk_surf en fe faces) (fe f) (nodes f)) faces = true -> shell (mk_surf en fe faces) nodes faces.
Proof. intros H. split; [apply mk_linked|]. intros f I. rewrite forallb_forall in H. apply loopb_ok, H, I. Qed.
Definition boundb (fe : nat -> list nat) (faces : list nat) : bool :=
  forallb (fun f => forallb (fun e => existsb (fun g => negb (g =? f) && existsb (Nat.eqb e) (fe g)) faces) (fe f)) faces.
Lemma boundb_ok s faces : boundb (fedges s) faces = true -> no_boundary s faces.
Proof.
  unfold boundb. rewrite forallb_forall. intros H f e If Ie. specialize (H f If). rewrite forallb_forall in H. specialize (H e Ie).
  apply existsb_exists in H. destruct H as (g & Ig & H). apply andb_true_iff in H. destruct H as (A & B). exists g.
  split; [assumption|]. split; [apply negb_true_iff in A; apply Nat.eqb_neq; exact A|apply existsb_in; exact B].
Qed.
(** reachable faces by k rounds *)
Fixpoint reachb (fe : nat -> list nat) (faces : list nat) (k : nat) (r : list nat) : list nat :=
  match k with 0 => r | S k' => reachb fe faces k' (filter (fun g => existsb (fun f => (g =? f) || existsb (fun e => existsb (Nat.eqb e) (fe g)) (fe f)) r) faces) end.
Lemma reachb_ok s faces f0 : forall k r, (forall f, In f r -> In f faces /\ clos_refl_trans nat (share s faces) f0 f) ->
  forall f, In f (reachb (fedges s) faces k r) -> clos_refl_trans nat (share s faces) f0 f.
Proof.
  induction k as [|k IH]; intros r H f I; [apply (H f I)|]. cbn [reachb] in I. revert I. apply IH. clear IH f. intros g Ig.
  apply filter_In in Ig. destruct Ig as (Ig & E). split; [assumption|]. apply existsb_exists in E. destruct E as (f & If & E).
  destruct (H f If) as (Ff & R). apply orb_true_iff in E. destruct E as [E|E]; [apply Nat.eqb_eq in E; subst; assumption|].
  apply existsb_exists in E. destruct E as (e & Ie & E). apply existsb_in in E.
  eapply rt_trans; [exact R|]. apply rt_step. split; [assumption|]. split; [assumption|]. exists e. auto.
Qed.
Definition connb (fe : nat -> list nat) (faces : list nat) (f0 : nat) : bool :=
  existsb (Nat.eqb f0) faces && forallb (fun f => existsb (Nat.eqb f) (reachb fe faces (length faces) [f0])) faces.
Lemma connb_ok s faces f0 : connb (fedges s) faces f0 = true -> In f0 faces /\ connected s faces f0.
Proof.
  unfold connb. rewrite andb_true_iff, forallb_forall. intros (A & B). apply existsb_in in A. split; [assumption|].
  intros f If. specialize (B f If). apply existsb_in in B. revert B. apply reachb_ok. intros g [<-|[]]. split; [assumption|apply rt_refl].
Qed.

(** * Reversal of the edges of a face *)
Definition back (ns : list nat) : list nat := match ns with [] => [] | n :: r => n :: rev r end.
Definition reorder_nodes (nodes : nat -> list nat) (f : nat) : nat -> list nat := fun g => if g =? f then back (nodes g) else nodes g.
Lemma loop_back ns : loop_edges (back ns) = rev (map flip (loop_edges ns)).
Proof.
  destruct ns as [|n r]; [reflexivity|]. unfold back, loop_edges. rewrite <- pairs_rev. f_equal. cbn [app rev]. rewrite rev_app_distr. reflexivity.
Qed.
Lemma combine_app {A B} : forall (a1 a2 : list A) (b1 b2 : list B), length a1 = length b1 -> combine (a1 ++ a2) (b1 ++ b2) = combine a1 b1 ++ combine a2 b2.
Proof. induction a1 as [|x a1 IH]; intros a2 [|y b1] b2 L; try discriminate; [reflexivity|]. cbn in *. rewrite IH by lia. reflexivity. Qed.
Lemma combine_rev {A B} : forall (a : list A) (b : list B), length a = length b -> combine (rev a) (rev b) = rev (combine a b).
Proof.
  induction a as [|x a IH]; intros [|y b] L; try discriminate; [reflexivity|]. cbn in *. rewrite combine_app by (rewrite !rev_length; lia).
  rewrite IH by lia. reflexivity.
Qed.
Lemma combine_map_r {A B C} (f : B -> C) : forall (a : list A) b, combine a (map f b) = map (fun t : A * B => (fst t, f (snd t))) (combine a b).
Proof. induction a as [|x a IH]; intros [|y b]; try reflexivity. cbn. rewrite IH. reflexivity. Qed.
Lemma combine_back es ns : length es = length ns ->
  combine (rev es) (loop_edges (back ns)) = rev (map (fun t : nat * (nat * nat) => (fst t, flip (snd t))) (combine es (loop_edges ns))).
Proof. intros L. rewrite loop_back, combine_rev by (rewrite map_length, loop_len; exact L). rewrite combine_map_r. reflexivity. Qed.
Lemma back_perm ns : Permutation (back ns) ns.
Proof. destruct ns; [reflexivity|]. cbn. apply perm_skip. symmetry. apply Permutation_rev. Qed.
Lemma joins_flip s e a b : joins s e a b -> joins s e b a. Proof. intros [H|H]; [right|left]; exact H. Qed.
Lemma loop_reorder s es ns : loop s es ns -> loop s (rev es) (back ns).
Proof.
  intros (L & L3 & N1 & N2 & J). pose proof (Permutation_length (back_perm ns)) as LB.
  split; [rewrite rev_length, LB; exact L|]. split; [rewrite LB; exact L3|]. split; [eapply Permutation_NoDup; [symmetry; apply back_perm|exact N1]|].
  split; [apply NoDup_rev, N2|]. intros e p I. rewrite combine_back in I by exact L. apply in_rev in I. apply in_map_iff in I.
  destruct I as ((e' & q) & E & I). cbn [fst snd] in E. injection E as -> <-. apply joins_flip. apply (J e q I).
Qed.
Lemma loop_ext s s' es ns : (forall e, ends s e = ends s' e) -> loop s es ns -> loop s' es ns.
Proof. intros H (A & B & C & D & E). repeat split; auto. intros e p I. specialize (E e p I). unfold joins in *. rewrite <- H. exact E. Qed.
Section R.
Variables (s : surf) (nodes : nat -> list nat) (faces : list nat) (f : nat).
Let s' := reorder_face s f.
Let nodes' := reorder_nodes nodes f.
Lemma reorder_edges e g : In e (fedges s' g) <-> In e (fedges s g).
Proof. unfold s'. cbn [fedges reorder_face]. destruct (g =? f); [symmetry; apply in_rev|reflexivity]. Qed.
Lemma reorder_shell : shell s nodes faces -> shell s' nodes' faces.
Proof.
  intros (Lk & Lp). split.
  - intros e g I. rewrite reorder_edges. apply (Lk e g I).
  - intros g I. specialize (Lp g I). unfold s', nodes', reorder_nodes. cbn [fedges reorder_face].
    destruct (Nat.eqb_spec g f); (eapply loop_ext; [|]); try (intros; reflexivity); [apply loop_reorder, Lp|exact Lp].
Qed.
Lemma reorder_directed r g e p : shell s nodes faces -> In g faces ->
  In (e, p) (directed s' nodes' r g) <-> In (e, p) (directed s nodes (xorb r (g =? f)) g).
Proof.
  intros (_ & Lp) I. specialize (Lp g I). unfold directed, s', nodes', reorder_nodes. cbn [fedges reorder_face]. destruct (g =? f).
  - rewrite xorb_true_r. rewrite combine_back by apply Lp. rewrite map_rev, <- in_rev, map_map. cbn [fst snd].
    rewrite !in_map_iff. split; intros ((e1 & (a & b)) & E & H); exists (e1, (a, b)); split; auto; destruct r; unfold side, flip in *; cbn in *; congruence.
  - rewrite xorb_false_r. reflexivity.
Qed.
Lemma reorder_consistent o : shell s nodes faces -> consistent s nodes faces o -> consistent s' nodes' faces (fun g => xorb (o g) (g =? f)).
Proof.
  intros SH C g h e p q Ig Ih N Hp Hq. apply (reorder_directed _ _ _ _ SH Ig) in Hp. apply (reorder_directed _ _ _ _ SH Ih) in Hq.
  rewrite xorb_assoc, xorb_nilpotent, xorb_false_r in Hp, Hq. apply (C g h e p q); assumption.
Qed.
Lemma reorder_share g h : share s' faces g h <-> share s faces g h.
Proof. unfold share. setoid_rewrite reorder_edges. reflexivity. Qed.
Lemma reorder_reach x0 y0 : clos_refl_trans nat (share s faces) x0 y0 -> clos_refl_trans nat (share s' faces) x0 y0.
Proof.
  intros C. induction C as [x y H|x|x y z H1 IH1 H2 IH2]; [apply rt_step, reorder_share, H|apply rt_refl|eapply rt_trans; eassumption].
Qed.
Lemma reorder_connected : connected s faces f -> connected s' faces f.
Proof. intros C g I. apply reorder_reach, C, I. Qed.
Lemma reorder_boundary : no_boundary s faces -> no_boundary s' faces.
Proof. intros B g e I J. rewrite reorder_edges in J. destruct (B g e I J) as (h & A & N & H). exists h. rewrite reorder_edges. auto. Qed.
End R.

Open Scope R_scope.
(** * Geometry *)
Lemma bary_dot l : planar l -> dot (face_bary l) (face_normal l) = rsum (map (tet6 vzero) (fan_tets l)) / 2.
Proof.
  intros P. destruct l as [|v0 r]; [cbn; vunf; field|].
  assert (T : rsum (map (tet6 vzero) (fan_tets (v0 :: r))) / 2 = dot v0 (face_normal (v0 :: r))).
  { rewrite face_normal_fan, dot_vsum. unfold fan_tets. rewrite map_map.
    rewrite (map_ext _ (fun t => 2 * dot v0 (half_cross v0 t))) by (intros (a & b); vunf; field). rewrite rsum_mul. field. }
  rewrite T. destruct (Req_EM_T (len (face_normal (v0 :: r))) 0) as [Z|Z].
  - apply len_0 in Z. rewrite Z, !dot_0_r. reflexivity.
  - destruct P as (p & e1 & e2 & H). apply (face_bary_plane p e1 e2); [exact H| |left; reflexivity].
    intros E. apply Z. rewrite E. unfold len. rewrite dot_0_l, sqrt_0. reflexivity.
Qed.
Lemma pairs_fst {A} : forall (l : list A) a, map fst (pairs (l ++ [a])) = l.
Proof. induction l as [|x l IH]; intros a; [reflexivity|]. specialize (IH a). destruct l as [|y l]; [reflexivity|]. cbn in *. rewrite IH. reflexivity. Qed.
Lemma loop_fst {A} (l : list A) : map fst (loop_edges l) = l.
Proof. destruct l as [|a l]; [reflexivity|]. unfold loop_edges. apply pairs_fst. Qed.
Lemma combine_snd {A B} : forall (a : list A) (b : list B), length a = length b -> map snd (combine a b) = b.
Proof. induction a as [|x a IH]; intros [|y b] L; try discriminate; [reflexivity|]. cbn in *. rewrite IH by lia. reflexivity. Qed.
Lemma face_nodes_loop s f ns : loop s (fedges s f) ns -> face_nodes s f = ns.
Proof.
  intros L. unfold face_nodes. rewrite (trace_loop s _ _ L). rewrite <- map_map, combine_snd by (rewrite loop_len; apply L). apply loop_fst.
Qed.
Lemma measure_vol s nodes pos faces rv : shell s nodes faces -> (forall f, In f faces -> planar (map pos (nodes f))) ->
  measure s pos faces rv = vol6 vzero (map (fun f => (rv f, map pos (nodes f))) faces) / 2.
Proof.
  intros (_ & Lp) P. unfold measure, vol6. cbv zeta. rewrite fold_rplus, map_map, Rplus_0_l. cbn [fst snd]. induction faces as [|f l IH]; [cbn; field|].
  cbn [map]. rewrite !rsum_cons, IH; [|intros; apply Lp; right; assumption|intros; apply P; right; assumption].
  rewrite (face_nodes_loop s f (nodes f)) by (apply Lp; left; reflexivity). rewrite bary_dot by (apply P; left; reflexivity). field.
Qed.
Lemma fold_rplus' l : forall a, fold_left Rplus l a = a + rsum l.
Proof. induction l as [|x l IH]; intros a; cbn; [ring|]. rewrite IH. unfold rsum. cbn. ring. Qed.
Lemma same_sign l : Rabs (Rabs (rsum l) - rsum (map Rabs l)) = 0 <-> (forall d, In d l -> 0 <= d) \/ (forall d, In d l -> d <= 0).
Proof.
  assert (B : forall l, Rabs (rsum l) <= rsum (map Rabs l)).
  { induction l0 as [|x l0 IH]; [cbn; rewrite Rabs_R0; lra|]. cbn [map]. rewrite !rsum_cons. pose proof (Rabs_triang x (rsum l0)). lra. }
  assert (P : forall l, rsum l = rsum (map Rabs l) -> forall d, In d l -> 0 <= d).
  { induction l0 as [|x l0 IH]; intros E d I; [contradiction|]. cbn [map] in E. rewrite !rsum_cons in E.
    assert (Hl := B l0). pose proof (Rle_abs x). pose proof (Rle_abs (rsum l0)). destruct I as [<-|I]; [|apply IH; [lra|assumption]].
    assert (Rabs x = x) by lra. pose proof (Rabs_pos x). lra. }
  assert (Q : forall l, - rsum l = rsum (map Rabs l) -> forall d, In d l -> d <= 0).
  { induction l0 as [|x l0 IH]; intros E d I; [contradiction|]. cbn [map] in E. rewrite !rsum_cons in E.
    assert (Hl := B l0). pose proof (Rle_abs (- x)). pose proof (Rle_abs (- rsum l0)). rewrite Rabs_Ropp in *. destruct I as [<-|I]; [|apply IH; [lra|assumption]].
    assert (Rabs x = - x) by lra. pose proof (Rabs_pos x). lra. }
  split.
  - intros E. assert (X : Rabs (rsum l) = rsum (map Rabs l)).
    { destruct (Req_dec (Rabs (rsum l) - rsum (map Rabs l)) 0); [lra|]. exfalso. apply (Rabs_no_R0 _ H E). }
    unfold Rabs at 1 in X. destruct (Rcase_abs (rsum l)); [right; apply Q; exact X|left; apply P; exact X].
  - intros [H|H].
    + assert (E : rsum (map Rabs l) = rsum l /\ 0 <= rsum l).
      { induction l as [|x l IH]; [cbn; lra|]. cbn [map]. rewrite !rsum_cons. destruct IH as (E & E'); [intros; apply H; right; assumption|].
        assert (0 <= x) by (apply H; left; reflexivity). rewrite E. rewrite Rabs_right by lra. lra. }
      destruct E as (E & E'). rewrite E, (Rabs_right (rsum l)) by lra. rewrite Rminus_diag_eq, Rabs_R0 by reflexivity. reflexivity.
    + assert (E : rsum (map Rabs l) = - rsum l /\ rsum l <= 0).
      { induction l as [|x l IH]; [cbn; lra|]. cbn [map]. rewrite !rsum_cons. destruct IH as (E & E'); [intros; apply H; right; assumption|].
        assert (x <= 0) by (apply H; left; reflexivity). rewrite E. rewrite Rabs_left1 by lra. lra. }
      destruct E as (E & E'). rewrite E, (Rabs_left1 (rsum l)) by lra. rewrite Rminus_diag_eq, Rabs_R0 by reflexivity. reflexivity.
Qed.
Lemma convex_value faces f : faces <> [] ->
  INR (length faces) * dot (snd f) (vsub (fst f) (mean (map fst faces))) = - rsum (dotvs faces f).
Proof.
  intros N. unfold mean. rewrite map_length. assert (Z : INR (length faces) <> 0) by (apply not_0_INR; destruct faces; [contradiction|discriminate]).
  assert (X : forall l, fold_left vadd l vzero = vsum l).
  { intros l. rewrite (fold_ext vadd (fun n t => vadd n ((fun x => x) t))) by reflexivity. rewrite fold_vadd, map_id. apply vadd_0_l. }
  rewrite X. replace (INR (length faces) * dot (snd f) (vsub (fst f) (vmul (/ INR (length faces)) (vsum (map fst faces)))))
    with (INR (length faces) * dot (snd f) (fst f) - dot (snd f) (vsum (map fst faces))).
  2:{ set (v := vsum (map fst faces)). vunf. field. assumption. }
  clear N Z X. rewrite dot_vsum. unfold dotvs. induction faces as [|g l IH]; [cbn; ring|]. cbn [map length]. rewrite !rsum_cons, S_INR.
  assert (D : dot (snd f) (vsub (fst g) (fst f)) = dot (snd f) (fst g) - dot (snd f) (fst f)) by (vunf; ring). rewrite D. lra.
Qed.
