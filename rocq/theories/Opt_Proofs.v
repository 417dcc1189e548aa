(** Proofs about the parameter optimizers. *)
From Coq Require Import Ascii String List Arith Lia Bool Field.
From Verif Require Import Util OField Opt_Spec Opt_Model.
Import ListNotations.
Open Scope nat_scope.

Section MinElement.
Variable F : ofield.
Variable A : Type.
Variable key : A -> F.
Notation ltk := (fun x y => (key x <? key y)%F).
Notation le := (Opt_Spec.le F).

Lemma o_le_trans : forall x y z : F, le x y -> le y z -> le x z.
Proof. intros x y z P Q. unfold Opt_Spec.le in *. eapply flt_ge_trans; eassumption. Qed.
Lemma o_lt_le : forall x y : F, (x <? y)%F = true -> le x y.
Proof. intros. now apply flt_asym. Qed.

(** The scan keeps the first smallest element of what it has seen. *)
Lemma min_at_ok : forall l seen best besti,
  nth_error seen besti = Some best ->
  (forall j y, nth_error seen j = Some y -> le (key best) (key y)) ->
  (forall j y, j < besti -> nth_error seen j = Some y -> (key best <? key y)%F = true) ->
  first_smallest F key (seen ++ l) (min_at ltk l best besti (length seen)).
Proof.
  induction l as [|x l IH]; intros seen best besti E A1 A2; cbn [min_at].
  - rewrite app_nil_r. exists best. auto.
  - replace (seen ++ x :: l) with ((seen ++ [x]) ++ l) by (rewrite <- app_assoc; reflexivity).
    replace (S (length seen)) with (length (seen ++ [x])) by (rewrite app_length; cbn [length]; lia).
    assert (BL : besti < length seen) by (apply nth_error_Some; congruence).
    destruct (key x <? key best)%F eqn:C.
    + replace (length seen) with (length seen + 0) at 1 by lia.
      apply IH.
      * rewrite Nat.add_0_r, nth_error_app2, Nat.sub_diag by lia. reflexivity.
      * intros j y J. destruct (lt_dec j (length seen)).
        -- rewrite nth_error_app1 in J by lia. eapply o_le_trans; [apply o_lt_le; exact C|]. eauto.
        -- rewrite nth_error_app2 in J by lia. destruct (j - length seen) as [|[|?]]; try discriminate. injection J as <-. apply flt_irr.
      * intros j y JL J. rewrite nth_error_app1 in J by lia. eapply flt_lt_le; [exact C|]. apply (A1 j y J).
    + apply IH.
      * rewrite nth_error_app1 by lia. exact E.
      * intros j y J. destruct (lt_dec j (length seen)).
        -- rewrite nth_error_app1 in J by lia. eauto.
        -- rewrite nth_error_app2 in J by lia. destruct (j - length seen) as [|[|?]]; try discriminate. injection J as <-. exact C.
      * intros j y JL J. rewrite nth_error_app1 in J by lia. eauto.
Qed.

Lemma min_element_ok : forall l, l <> [] -> first_smallest F key l (min_element ltk l).
Proof.
  intros [|x l] N; [congruence|]. cbn [min_element]. change (x :: l) with ([x] ++ l). change 1 with (length [x]).
  apply min_at_ok.
  - reflexivity.
  - intros [|[|j]] y J; try discriminate. injection J as <-. apply flt_irr.
  - intros j y J. lia.
Qed.

End MinElement.

Section Range.
Variable F : ofield.
Add Field Fr : (fth F).

Lemma steps_S : forall n s, steps F (S n) s = (s + steps F n s)%F.
Proof. intros n s. unfold steps. induction n as [|n IH]; cbn [fsum] in *; [ring|]. rewrite IH at 1. ring. Qed.

Lemma steps_pos : forall n s, (0 <? s)%F = true -> (steps F n s <? 0)%F = false.
Proof. intros n s P. unfold steps. apply fsum_nneg. intros. now apply flt_asym. Qed.

Lemma fill_exact : forall n first last step, (0 <? step)%F = true -> (last - first = steps F n step)%F ->
  fill flt fadd n first last step = Some (map (fun i => (first + steps F i step)%F) (seq 0 n)).
Proof.
  induction n as [|n IH]; intros first last step P E.
  - cbn [fill]. assert (last = first) as -> by (replace last with (first + (last - first))%F by ring; rewrite E; cbn; ring). now rewrite flt_irr.
  - cbn [fill].
    assert (L : (first <? last)%F = true).
    { apply (proj2 (flt_sub F first last)). rewrite E, steps_S. apply add_pos; [exact P|]. now apply steps_pos. }
    rewrite L. rewrite (IH (first + step)%F last step P).
    + cbn [seq map]. f_equal. f_equal; [cbn; ring|]. rewrite <- seq_shift, map_map. apply map_ext. intro i. rewrite steps_S. ring.
    + rewrite steps_S in E. replace (last - (first + step))%F with (last - first - step)%F by ring. rewrite E. ring.
Qed.

Lemma fill_over : forall n first last step, (0 <? step)%F = true -> (steps F n step <? last - first)%F = true ->
  fill flt fadd n first last step = None.
Proof.
  induction n as [|n IH]; intros first last step P E; cbn [fill].
  - assert (L : (first <? last)%F = true) by (apply (proj2 (flt_sub F first last)); exact E). now rewrite L.
  - assert (L : (first <? last)%F = true).
    { apply (proj2 (flt_sub F first last)). eapply flt_le_lt; [|exact E]. now apply steps_pos. }
    rewrite L, IH; auto. rewrite steps_S in E. apply (flt_add F _ _ (- step)%F) in E.
    replace (step + steps F n step + - step)%F with (steps F n step) in E by ring.
    now replace (last - first + - step)%F with (last - (first + step))%F in E by ring.
Qed.

End Range.

Section Buffer.
Variable F : ofield.
Notation result := (result F).

Fixpoint pushes (cap : nat) (buf : list result) (rs : list result) : option (list result) :=
  match rs with [] => Some buf | r :: rs' => match push F cap buf r with None => None | Some b => pushes cap b rs' end end.

Lemma push_view : forall cap buf r, 1 <= cap -> length buf <= cap ->
  exists b, push F cap buf r = Some b /\ view F b = r :: firstn (cap - 1) (view F buf) /\ length b <= cap /\
    length b = Nat.min cap (S (length buf)).
Proof.
  intros cap buf r C L. unfold push. destruct (Nat.eqb_spec (length buf) cap) as [E|E].
  - destruct buf as [|x buf]; cbn [length] in *; [lia|]. exists (buf ++ [r]). split; [reflexivity|]. unfold view.
    rewrite rev_app_distr. cbn [rev app]. rewrite app_length. cbn [length]. split; [|lia]. f_equal.
    rewrite firstn_app. rewrite rev_length. replace (cap - 1 - length buf) with 0 by lia. cbn [firstn]. rewrite app_nil_r.
    rewrite firstn_all2; [reflexivity|]. rewrite rev_length. lia.
  - exists (buf ++ [r]). split; [reflexivity|]. unfold view. rewrite rev_app_distr. cbn [rev app]. rewrite app_length. cbn [length].
    split; [|lia]. f_equal. rewrite firstn_all2; [reflexivity|]. rewrite rev_length. lia.
Qed.

Lemma pushes_ok : forall cap rs buf done, 1 <= cap -> view F buf = latest cap done -> length buf <= cap ->
  exists b, pushes cap buf rs = Some b /\ view F b = latest cap (done ++ rs) /\ length b <= cap.
Proof.
  intros cap. induction rs as [|r rs IH]; intros buf done C V L; cbn [pushes].
  - exists buf. rewrite app_nil_r. auto.
  - destruct (push_view cap buf r C L) as (b & -> & Vb & Lb & _).
    destruct (IH b (done ++ [r]) C) as (b2 & E2 & V2 & L2); [|exact Lb|].
    + rewrite Vb, V. unfold latest. rewrite rev_app_distr. cbn [rev app]. rewrite firstn_firstn.
      replace (Nat.min (cap - 1) cap) with (cap - 1) by lia. destruct cap; [lia|]. cbn [firstn]. now rewrite Nat.sub_succ, Nat.sub_0_r.
    + exists b2. rewrite <- app_assoc in V2. auto.
Qed.

Lemma find_first : forall A (f : A -> bool) l x, find f l = Some x <->
  exists k, nth_error l k = Some x /\ f x = true /\ forall j y, j < k -> nth_error l j = Some y -> f y = false.
Proof.
  intros A f. induction l as [|a l IH]; intros x; cbn [find].
  - split; [discriminate|]. intros ([|k] & E & _); discriminate.
  - destruct (f a) eqn:E.
    + split.
      * intro H. injection H as <-. exists 0. repeat split; auto. intros j y J. lia.
      * intros ([|k] & N & T & B); [exact N|]. rewrite (B 0 a) in E; [discriminate|lia|reflexivity].
    + rewrite IH. split.
      * intros (k & N & T & B). exists (S k). repeat split; auto. intros [|j] y J Y; [injection Y as <-; exact E|]. apply (B j y); [lia|exact Y].
      * intros ([|k] & N & T & B); [injection N as <-; congruence|]. exists k. repeat split; auto. intros j y J Y. apply (B (S j) y); [lia|exact Y].
Qed.

(** Points that agree up to the tolerance. *)
Definition near (r u : list F) : Prop := Forall2 (fun x y => (e_minus 8 <? fabs (x - y))%F = false) r u.

Lemma same_points_ok : forall r u, length r = length u -> exists b, same_points F r u = Some b /\ (b = true <-> near r u).
Proof.
  induction r as [|x r IH]; intros [|y u] L; cbn [length same_points] in *; try lia.
  - exists true. split; [reflexivity|]. split; [constructor|reflexivity].
  - destruct (e_minus 8 <? fabs (x - y))%F eqn:E.
    + exists false. split; [reflexivity|]. split; [discriminate|]. intro H. inversion H; subst. congruence.
    + destruct (IH u ltac:(lia)) as (b & -> & Hb). exists b. split; [reflexivity|]. rewrite Hb. split; intro H; [now constructor|]. now inversion H.
Qed.

Lemma find_same_ok : forall d us (r : result), length (r_after F r) = d -> Forall (fun u => length (r_after F u) = d) us ->
  exists b, find_same F r us = Some b /\ (b = true <-> exists u, In u us /\ near (r_after F r) (r_after F u)).
Proof.
  intros d. induction us as [|u us IH]; intros r R A; cbn [find_same].
  - exists false. split; [reflexivity|]. split; [discriminate|]. intros (u & [] & _).
  - inversion A; subst. destruct (same_points_ok (r_after F r) (r_after F u) ltac:(congruence)) as (b & -> & B).
    destruct b.
    + exists true. split; [reflexivity|]. split; [|reflexivity]. intros _. exists u. split; [now left|]. now apply B.
    + destruct (IH r eq_refl ltac:(assumption)) as (c & -> & C). exists c. split; [reflexivity|]. rewrite C. split.
      * intros (v & V & N). exists v. split; [now right|exact N].
      * intros (v & [<-|V] & N); [apply B in N; discriminate|]. eauto.
Qed.

Definition apart (us : list result) : Prop :=
  forall i j u v, i < j -> nth_error us i = Some u -> nth_error us j = Some v -> ~ near (r_after F v) (r_after F u).

Lemma unique_loop_ok : forall d max rs us, Forall (fun u => length (r_after F u) = d) rs -> Forall (fun u => length (r_after F u) = d) us ->
  apart us -> length us <= S max ->
  exists us', unique_loop F max rs us = Some us' /\ apart us' /\ length us' <= S max /\ incl us us' /\ incl us' (us ++ rs) /\
    (length us' <= max -> forall r, In r rs -> exists u, In u us' /\ near (r_after F r) (r_after F u)).
Proof.
  intros d max. induction rs as [|r rs IH]; intros us A B P L; cbn [unique_loop].
  - exists us. rewrite app_nil_r. repeat split; auto using incl_refl. intros _ r [].
  - inversion A as [|? ? AR AS]; subst. destruct (Nat.leb_spec (length us) max) as [M|M].
    + destruct (find_same_ok _ us r eq_refl B) as (b & E & Q). rewrite E. destruct b.
      * destruct (IH us AS B P L) as (us' & E' & P' & L' & I1 & I2 & C). exists us'. split; [exact E'|].
        split; [exact P'|]. split; [exact L'|]. split; [exact I1|]. split.
        { intros x X. apply I2 in X. apply in_app_iff in X. apply in_app_iff. cbn [In]. tauto. }
        intros LM x [<-|X]; [|now apply C]. destruct (proj1 Q eq_refl) as (u & U & N). exists u. split; [now apply I1|exact N].
      * destruct (IH (us ++ [r]) AS) as (us' & E' & P' & L' & I1 & I2 & C).
        { apply Forall_app. split; [exact B|]. now constructor. }
        { intros i j u v IJ U V N. destruct (lt_dec j (length us)) as [J|J].
          - rewrite nth_error_app1 in V by lia. rewrite nth_error_app1 in U by lia. now apply (P i j u v).
          - rewrite nth_error_app2 in V by lia. destruct (j - length us) as [|[|?]] eqn:D; try discriminate. injection V as <-.
            rewrite nth_error_app1 in U by lia. assert (X : false = true); [|discriminate X]. apply Q. exists u. split; [|exact N]. eapply nth_error_In; eauto. }
        { rewrite app_length. cbn [length]. lia. }
        exists us'. split; [exact E'|]. split; [exact P'|]. split; [exact L'|]. split.
        { intros x X. apply I1. apply in_app_iff. now left. }
        split.
        { intros x X. apply I2 in X. rewrite <- app_assoc in X. exact X. }
        intros LM x [<-|X]; [|now apply C]. exists r. split; [apply I1; apply in_app_iff; right; now left|].
        clear. unfold near. induction (r_after F r) as [|y l IH]; constructor; [|exact IH].
        apply flt_asym. replace (y - y)%F with (0 : F)%F by (pose proof (F_R (fth F)) as R; rewrite (Rsub_def R); now rewrite (Ropp_def R)).
        rewrite fabs_0. apply e_minus_pos.
    + destruct (IH us AS B P L) as (us' & E' & P' & L' & I1 & I2 & C). exists us'. split; [exact E'|].
      split; [exact P'|]. split; [exact L'|]. split; [exact I1|]. split.
      { intros x X. apply I2 in X. apply in_app_iff in X. apply in_app_iff. cbn [In]. tauto. }
      intros LM. exfalso. assert (length us <= length us'); [|lia].
      assert (G : forall rs us us', unique_loop F max rs us = Some us' -> length us <= length us').
      { clear. induction rs as [|r rs IH]; intros us us' E; cbn [unique_loop] in E; [injection E as <-; lia|].
        destruct (length us <=? max); [|now apply IH]. destruct (find_same F r us) as [[]|]; [now apply IH| |discriminate].
        apply IH in E. rewrite app_length in E. lia. }
      eapply G. exact E'.
Qed.

End Buffer.
