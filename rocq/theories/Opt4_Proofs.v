(** Proofs about the annealing optimizer. *)
From Coq Require Import Ascii String List Arith Lia Bool Field.
From Verif Require Import Util OField Table_Proofs Opt_Spec Opt_Model Opt_Proofs Opt2_Proofs Opt3_Proofs.
Import ListNotations.
Open Scope nat_scope.

Section Ann.
Variable F : ofield.
Add Field Fa : (fth F).
Variable pow10 : F -> F.
Variable shape accept : nat -> F -> F.
Notation le := (Opt_Spec.le F).
Notation ahandler := (ahandler F).

Lemma le0 : forall x y : F, le x y <-> ((y - x <? 0)%F = false).
Proof. exact (le_sub0 F). Qed.

Lemma abs_le : forall x c : F, le (fabs x) c <-> le x c /\ le (- x)%F c.
Proof.
  intros x c. unfold fabs. destruct (x <? 0)%F eqn:E.
  - split; [|tauto]. intro H. split; [|exact H]. apply o_le_trans with (- x)%F; [|exact H].
    apply le0. replace (- x - x)%F with (- x + - x)%F by ring. assert (X := flt_asym F _ _ (flt_opp F _ E)). now apply add_nneg.
  - split; [|tauto]. intro H. split; [exact H|]. apply o_le_trans with x; [|exact H].
    apply le0. replace (x - - x)%F with (x + x)%F by ring. now apply add_nneg.
Qed.

Lemma le_scale : forall x y g : F, (0 <? g)%F = true -> le x y -> le (x * g)%F (y * g)%F.
Proof.
  intros x y g G H. apply le0. apply le0 in H. replace (y * g - x * g)%F with ((y - x) * g)%F by ring.
  apply mul_nneg; [exact H|]. now apply flt_asym.
Qed.

Lemma le_unscale : forall x y g : F, (0 <? g)%F = true -> le (x * g)%F (y * g)%F -> le x y.
Proof.
  intros x y g G H. apply le0. apply le0 in H. assert (N := pos_neq F _ G).
  replace (y - x)%F with ((y * g - x * g) / g)%F by (field; exact N). now apply div_nneg.
Qed.

Lemma draw_range : forall fuel h n a b bound n' next, draw F shape fuel h n a b bound = Some (n', next) -> le a next /\ le next b.
Proof.
  induction fuel as [|fuel IH]; intros h n a b bound n' next E; cbn [draw] in E; [discriminate|].
  match type of E with (if ?c then _ else _) = _ => destruct c eqn:C end.
  - injection E as <- <-. apply andb_true_iff in C. destruct C as [C1 C2]. apply negb_true_iff in C1. apply negb_true_iff in C2. split; assumption.
  - eapply IH; eauto.
Qed.

Lemma div_some : forall x y q, div F x y = Some q -> y <> 0%F /\ q = (x / y)%F.
Proof.
  intros x y q. unfold div. destruct (negb (y <? 0)%F && negb (0 <? y)%F)%bool eqn:C; [discriminate|]. intro E. injection E as <-.
  split; [|reflexivity]. intros ->. rewrite flt_irr in C. discriminate.
Qed.

Lemma closest_in : forall p to v, closest_to F p to = Some v -> In v (p_values F p).
Proof. intros p to v H. unfold closest_to in H. eapply nth_error_In; eauto. Qed.

(** Moving part of the way. *)
Lemma part_way : forall cur next a b t : F, le a cur -> le cur b -> le a next -> le next b -> (t <? 0)%F = false -> le t 1%F ->
  le a (cur + t * (next - cur))%F /\ le (cur + t * (next - cur))%F b.
Proof.
  intros cur next a b t A B C D T1 T2. apply le0 in A. apply le0 in B. apply le0 in C. apply le0 in D. apply le0 in T2. split; apply le0.
  - replace (cur + t * (next - cur) - a)%F with ((1 - t) * (cur - a) + t * (next - a))%F by ring. apply add_nneg; now apply mul_nneg.
  - replace (b - (cur + t * (next - cur)))%F with ((1 - t) * (b - cur) + t * (b - next))%F by ring. apply add_nneg; now apply mul_nneg.
Qed.

Lemma next_value_ok : forall fuel (h : ahandler) a b n v,
  minimal F (ah_param F h) = Some a -> maximal F (ah_param F h) = Some b ->
  le a (ah_value F h) -> le (ah_value F h) b ->
  next_value F shape fuel h = Some (n, v) ->
  exists w, le a w /\ le w b /\
    (((0 <? ah_barrier F h)%F = true -> le (fabs (w - ah_value F h))%F (ah_barrier F h * (b - a))%F) /\
     if ah_closest F h then closest_to F (ah_param F h) w = Some v else v = w).
Proof.
  intros fuel h a b n v MN MX LA LB H. unfold next_value in H. rewrite MN, MX in H.
  set (cur := ah_value F h) in *.
  match type of H with context [draw F shape fuel h (ah_n F h) a b ?bd] => set (bound := bd) in * end.
  destruct (draw F shape fuel h (ah_n F h) a b bound) as [[n1 next]|] eqn:D; [|discriminate].
  destruct (draw_range _ _ _ _ _ _ _ _ D) as [NA NB].
  assert (FIN : forall w, (if ah_closest F h then match closest_to F (ah_param F h) w with None => None | Some v => Some (n1, v) end else Some (n1, w)) = Some (n, v) ->
    if ah_closest F h then closest_to F (ah_param F h) w = Some v else v = w).
  { intros w E. destruct (ah_closest F h); [destruct (closest_to F (ah_param F h) w); congruence|congruence]. }
  destruct (0 <? ah_barrier F h)%F eqn:BR.
  - destruct (div F (cur - a)%F (b - a)%F) as [nc|] eqn:D1; [|discriminate].
    destruct (div F (next - a)%F (b - a)%F) as [nn|] eqn:D2; [|discriminate].
    apply div_some in D1. apply div_some in D2. destruct D1 as [NZ ->]. destruct D2 as [_ ->].
    assert (G : (0 <? b - a)%F = true).
    { assert (X : le a b) by (eapply o_le_trans; eassumption). destruct (le_cases F a b X) as [Y|Y]; [exact (proj1 (flt_sub F _ _) Y)|]. exfalso. apply NZ. rewrite Y. ring. }
    assert (DE : ((next - a) / (b - a) - (cur - a) / (b - a) = (next - cur) / (b - a))%F) by (field; exact NZ).
    assert (SC : le (next - cur)%F (b - a)%F /\ le (- (next - cur))%F (b - a)%F).
    { apply le0 in NA. apply le0 in NB. apply le0 in LA. apply le0 in LB. split; apply le0.
      - replace (b - a - (next - cur))%F with ((b - next) + (cur - a))%F by ring. now apply add_nneg.
      - replace (b - a - - (next - cur))%F with ((b - cur) + (next - a))%F by ring. now apply add_nneg. }
    rewrite DE in H.
    destruct (ah_barrier F h <? fabs ((next - cur) / (b - a)))%F eqn:EX.
    + (* shortened *)
      assert (B1 : le (ah_barrier F h) 1%F).
      { apply o_le_trans with (fabs ((next - cur) / (b - a)))%F; [now apply o_lt_le|]. apply abs_le. destruct SC as [S1 S2]. split.
        - apply (le_unscale _ _ (b - a)%F G). replace ((next - cur) / (b - a) * (b - a))%F with (next - cur)%F by (field; exact NZ). now replace (1 * (b - a))%F with (b - a)%F by ring.
        - apply (le_unscale _ _ (b - a)%F G). replace (- ((next - cur) / (b - a)) * (b - a))%F with (- (next - cur))%F by (field; exact NZ). now replace (1 * (b - a))%F with (b - a)%F by ring. }
      replace (((cur - a) / (b - a) + ah_barrier F h * ((next - cur) / (b - a))) * (b - a) + a)%F with (cur + ah_barrier F h * (next - cur))%F in H by (field; exact NZ).
      exists (cur + ah_barrier F h * (next - cur))%F.
      destruct (part_way cur next a b (ah_barrier F h)) as [P1 P2]; auto; [now apply flt_asym|].
      split; [exact P1|]. split; [exact P2|]. split; [|now apply FIN]. intros _.
      replace (cur + ah_barrier F h * (next - cur) - cur)%F with (ah_barrier F h * (next - cur))%F by ring.
      apply abs_le. destruct SC as [S1 S2]. split.
      * replace (ah_barrier F h * (next - cur))%F with ((next - cur) * ah_barrier F h)%F by ring. replace (ah_barrier F h * (b - a))%F with ((b - a) * ah_barrier F h)%F by ring. now apply le_scale.
      * replace (- (ah_barrier F h * (next - cur)))%F with (- (next - cur) * ah_barrier F h)%F by ring. replace (ah_barrier F h * (b - a))%F with ((b - a) * ah_barrier F h)%F by ring. now apply le_scale.
    + replace ((next - a) / (b - a) * (b - a) + a)%F with next in H by (field; exact NZ).
      exists next. split; [exact NA|]. split; [exact NB|]. split; [|now apply FIN]. intros _.
      assert (EX' : le (fabs ((next - cur) / (b - a)))%F (ah_barrier F h)) by exact EX.
      apply abs_le in EX'. destruct EX' as [E1 E2]. apply abs_le. split.
      * apply (le_scale _ _ (b - a)%F G) in E1. now replace ((next - cur) / (b - a) * (b - a))%F with (next - cur)%F in E1 by (field; exact NZ).
      * apply (le_scale _ _ (b - a)%F G) in E2. now replace (- ((next - cur) / (b - a)) * (b - a))%F with (- (next - cur))%F in E2 by (field; exact NZ).
  - exists next. split; [exact NA|]. split; [exact NB|]. split; [discriminate|]. now apply FIN.
Qed.

(** At the end of the range, with the strict bound. *)
Lemma strict_end : forall fuel (h : ahandler) a b, minimal F (ah_param F h) = Some a -> maximal F (ah_param F h) = Some b ->
  (a <? b)%F = true -> ah_strict F h = true -> ah_closest F h = false -> (0 <? ah_barrier F h)%F = true ->
  (ah_value F h = a \/ ah_value F h = b) -> next_value F shape (S fuel) h = Some (S (ah_n F h), ah_value F h).
Proof.
  intros fuel h a b MN MX AB ST CL BR V. unfold next_value. rewrite MN, MX, ST, CL, BR.
  assert (G := proj1 (flt_sub F a b) AB). assert (NZ := pos_neq F _ G).
  set (cur := ah_value F h) in *.
  assert (BD : (if (b - cur <? cur - a)%F then ((1 + 1) * (b - cur))%F else ((1 + 1) * (cur - a))%F) = 0%F).
  { destruct V as [-> | ->].
    - assert (X : (b - a <? a - a)%F = false) by (replace (a - a)%F with (0 : F)%F by ring; now apply flt_asym). rewrite X. ring.
    - assert (X : (b - b <? b - a)%F = true) by (replace (b - b)%F with (0 : F)%F by ring; exact G). rewrite X. ring. }
  rewrite BD. cbn [draw]. fold cur. replace (cur + shape (ah_count F h) (ah_rnd F h (ah_n F h)) * 0)%F with cur by ring.
  assert (R : (negb (cur <? a)%F && negb (b <? cur)%F)%bool = true).
  { destruct V as [-> | ->]; rewrite flt_irr; rewrite (flt_asym F _ _ AB); reflexivity. }
  rewrite R.
  assert (DV : forall x, div F x (b - a)%F = Some (x / (b - a))%F).
  { intro x. unfold div. rewrite G. now rewrite andb_false_r. }
  rewrite !DV. replace ((cur - a) / (b - a) - (cur - a) / (b - a))%F with (0 : F)%F by ring.
  assert (Z' : (ah_barrier F h <? fabs (0 : F))%F = false) by (rewrite fabs_0; now apply flt_asym). rewrite Z'.
  f_equal. f_equal. field. exact NZ.
Qed.

(** A parameter with a single value. *)
Lemma single_value : forall fuel (h : ahandler) a, p_values F (ah_param F h) = [a] -> (0 <? ah_barrier F h)%F = true -> next_value F shape fuel h = None.
Proof.
  intros fuel h a V BR. unfold next_value, minimal, maximal. rewrite V. cbn [length nth_error Nat.sub].
  destruct (draw F shape fuel h _ a a _) as [[n next]|]; [|reflexivity]. rewrite BR.
  assert (D : forall x, div F x (a - a)%F = None).
  { intro x. unfold div. replace (a - a)%F with (0 : F)%F by ring. rewrite flt_irr. reflexivity. }
  now rewrite D.
Qed.

(** Annealing as an algorithm. *)
Definition ann_ok (a : annealing F) (l : list (param F)) : Prop := length (n_handlers F a) = length l /\ n_cur F a < length l.

Lemma ann_lawful : forall fuel, lawful F (annealing_alg F shape accept fuel) ann_ok.
Proof.
  intro fuel. constructor.
  - intros a ps a' c (L & C) MK. cbn [annealing_alg alg_make] in MK. unfold ann_make in MK.
    destruct (nth_error (n_handlers F a) (n_cur F a)) as [h|]; [|discriminate]. destruct (next_value F shape fuel h) as [[n v]|]; [|discriminate].
    injection MK as <- <-. split; [split; cbn [n_handlers n_cur]; [now rewrite lset_length|exact C]|].
    exists (n_cur F a), v. split; [reflexivity|]. unfold plist in C. now rewrite map_length in C.
  - intros a ps a' c r buf a2 ps2 b (L & C) MK EC G U (t & V). cbn [annealing_alg alg_make alg_update] in *. unfold ann_make in MK.
    destruct (nth_error (n_handlers F a) (n_cur F a)) as [h|] eqn:E; [|discriminate]. destruct (next_value F shape fuel h) as [[n v]|]; [|discriminate].
    injection MK as <- <-. unfold ann_update in U. cbn [n_handlers n_cur] in U.
    assert (HL : n_cur F a < length (n_handlers F a)) by lia. rewrite nth_error_lset_eq in U by exact HL. rewrite V, EC in U.
    cbn [nth_error ah_value ah_count ah_rnd ah_n] in U.
    assert (CL : n_cur F a < length (entries F ps)) by (unfold plist in C; now rewrite map_length in C).
    destruct (update_one F pow10 (n_cur F a) v (r_mafter F r) ps CL) as (ps1 & U1 & _ & _ & PL & U2). rewrite U2 in U.
    match type of U with context [if ?ok then Some (v, _, _, _) else _] => destruct ok end.
    + injection U as <- <- <-. split; [|left; split; [reflexivity|exact U1]]. split; cbn [n_handlers n_cur].
      * rewrite !lset_length, PL. exact L.
      * rewrite lset_length, PL, L. apply Nat.mod_upper_bound. lia.
    + injection U as <- <- <-. split; [|right; auto]. split; cbn [n_handlers n_cur].
      * now rewrite !lset_length.
      * rewrite lset_length, L. apply Nat.mod_upper_bound. lia.
Qed.

Lemma ann_update_total : forall fuel a ps a' c buf, ann_ok a (plist F ps) -> alg_make F _ (annealing_alg F shape accept fuel) a ps = Some (a', c) ->
  (exists r t, view F buf = r :: t /\ r_changed F r = c) -> exists x, alg_update F _ (annealing_alg F shape accept fuel) a' ps buf = Some x.
Proof.
  intros fuel a ps a' c buf (L & C) MK (r & t & V & EC). cbn [annealing_alg alg_make alg_update] in *. unfold ann_make in MK.
  destruct (nth_error (n_handlers F a) (n_cur F a)) as [h|] eqn:E; [|discriminate]. destruct (next_value F shape fuel h) as [[n v]|]; [|discriminate].
  injection MK as <- <-. unfold ann_update. cbn [n_handlers n_cur].
  assert (HL : n_cur F a < length (n_handlers F a)) by lia. rewrite nth_error_lset_eq by exact HL. rewrite V, EC.
  cbn [nth_error ah_value ah_count ah_rnd ah_n].
  assert (CL : n_cur F a < length (entries F ps)) by (unfold plist in C; now rewrite map_length in C).
  destruct (update_one F pow10 (n_cur F a) v (r_mafter F r) ps CL) as (ps1 & U1 & _ & _ & PL & U2). rewrite U2.
  match goal with |- context [if ?ok then Some (v, _, _, _) else _] => destruct ok end; eauto.
Qed.

(** Values in use stay in the range through a trial. *)
Definition within (h : ahandler) : Prop :=
  exists a b, minimal F (ah_param F h) = Some a /\ maximal F (ah_param F h) = Some b /\ le a (ah_value F h) /\ le (ah_value F h) b /\
    forall v, In v (p_values F (ah_param F h)) -> le a v /\ le v b.

Lemma next_within : forall fuel h n v, within h -> next_value F shape fuel h = Some (n, v) ->
  exists a b, minimal F (ah_param F h) = Some a /\ maximal F (ah_param F h) = Some b /\ le a v /\ le v b.
Proof.
  intros fuel h n v (a & b & MN & MX & LA & LB & IN) H. exists a, b. split; [exact MN|]. split; [exact MX|].
  destruct (next_value_ok fuel h a b n v MN MX LA LB H) as (w & WA & WB & _ & E). destruct (ah_closest F h).
  - apply IN. eapply closest_in; eauto.
  - subst v. auto.
Qed.

Lemma within_trial : forall fuel o m g o' s, Forall within (n_handlers F (o_alg F _ o)) ->
  trial F pow10 (annealing_alg F shape accept fuel) o m g = Some (o', s) ->
  Forall within (n_handlers F (o_alg F _ o')) /\
  exists i v h a b, s_changed F s = [(i, v)] /\ i = n_cur F (o_alg F _ o) /\ nth_error (n_handlers F (o_alg F _ o)) i = Some h /\
    minimal F (ah_param F h) = Some a /\ maximal F (ah_param F h) = Some b /\ le a v /\ le v b.
Proof.
  intros fuel o m g o' s W T. destruct (trial_alg F pow10 _ _ _ _ _ _ _ T) as (a1 & MK & _ & _ & FALSE & TRUE & _).
  cbn [annealing_alg alg_make alg_update] in *. unfold ann_make in MK.
  destruct (nth_error (n_handlers F (o_alg F _ o)) (n_cur F (o_alg F _ o))) as [h|] eqn:E; [|discriminate].
  destruct (next_value F shape fuel h) as [[n v]|] eqn:NV; [|discriminate]. injection MK as <- EC.
  assert (WH := Forall_nth_error _ _ _ _ _ W E). destruct (next_within _ _ _ _ WH NV) as (a & b & MN & MX & VA & VB).
  assert (HL : n_cur F (o_alg F _ o) < length (n_handlers F (o_alg F _ o))) by (apply nth_error_Some; congruence).
  set (h1 := mk_ah F (ah_param F h) (ah_value F h) (ah_count F h) (ah_strict F h) (ah_closest F h) (ah_barrier F h) (ah_rnd F h) n) in *.
  assert (WH1 : within h1) by exact WH.
  split.
  - destruct g.
    + destruct (TRUE eq_refl) as (buf & t & ps2 & u & V & AU & _). unfold ann_update in AU. cbn [n_handlers n_cur] in AU.
      rewrite nth_error_lset_eq in AU by exact HL. rewrite V in AU. cbn [r_changed] in AU. rewrite <- EC in AU. cbn [nth_error r_mafter] in AU.
      assert (WV : forall cnt k, within (mk_ah F (ah_param F h1) v cnt (ah_strict F h1) (ah_closest F h1) (ah_barrier F h1) (ah_rnd F h1) k)).
      { intros cnt k. destruct WH as (a' & b' & MN' & MX' & _ & _ & IN). exists a', b'. cbn [ah_param ah_value h1].
        assert (a' = a) by congruence. assert (b' = b) by congruence. subst. auto. }
      assert (WC : forall cnt k, within (mk_ah F (ah_param F h1) (ah_value F h1) cnt (ah_strict F h1) (ah_closest F h1) (ah_barrier F h1) (ah_rnd F h1) k)) by (intros; exact WH).
      match type of AU with context [if ?ok then _ else Some (ah_value F h1, _, _, _)] => destruct ok end.
      * destruct (update1 F _ v m _) as [ps'|]; [|discriminate]. injection AU as <- <- <-. cbn [n_handlers]. apply Forall_lset; [|apply WV]. now apply Forall_lset.
      * injection AU as <- <- <-. cbn [n_handlers]. apply Forall_lset; [|apply WC]. now apply Forall_lset.
    + destruct (FALSE eq_refl) as (-> & _). cbn [n_handlers]. now apply Forall_lset.
  - exists (n_cur F (o_alg F _ o)), v, h, a, b. rewrite <- EC. auto 8.
Qed.

End Ann.
