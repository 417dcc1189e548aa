(** C49: copying between tags and vectors. *)
From Coq Require Import List ZArith Lia.
From Verif Require Import Util TagVec_Model TagVec_Proofs.
Import ListNotations.
Open Scope Z_scope.

(** CopyTag2Vector writes outside of its vector for every non-empty set of elements,
    whatever the indices, values and previous contents of the vector. *)
Theorem C49_tag_to_vector_always_out_of_bounds :
  forall V zero elem (ind : elem -> Z) (tag : elem -> V) es v, es <> [] ->
  tag2vector V zero elem ind tag es v = None.
Proof.
  intros V zero elem ind tag es v N. unfold tag2vector. apply store_bad.
  destruct (max_fold ind es 0) as (A & B & C). fold (max_index elem ind es) in A, B, C.
  destruct C as [C|(e & I & C)].
  - destruct es as [|e r]; [congruence|]. exists e. split; [left; reflexivity|].
    specialize (B e (or_introl eq_refl)). unfold at_ok. rewrite resize_length, C in *.
    destruct (Z.leb_spec 0 (ind e)); [|reflexivity]. destruct (Z.ltb_spec (ind e) (Z.of_nat (Z.to_nat 0))); [cbn in *; lia|reflexivity].
  - exists e. split; [assumption|]. unfold at_ok. rewrite resize_length.
    destruct (Z.ltb_spec (ind e) (Z.of_nat (Z.to_nat (max_index elem ind es)))); [lia|].
    destruct (0 <=? ind e); reflexivity.
Qed.
Print Assumptions C49_tag_to_vector_always_out_of_bounds.
Example C49_tag_to_vector_nonvacuous :
  [3; 0; 7] <> [] /\ tag2vector Z 0 Z (fun e => e) (fun e => e * 10) [3; 0; 7] [] = None /\
  tag2vector Z 0 Z (fun e => e) (fun e => e * 10) [] [1; 2] = Some [].
Proof. split; [discriminate|]. split; reflexivity. Qed.

(** CopyVector2Tag succeeds exactly when every element's index is inside the vector;
    then each visited element gets the value at its index and others keep theirs. *)
Theorem C49_vector_to_tag : forall V elem (eqb : elem -> elem -> bool) (ind : elem -> Z) (v : list V) es tag,
  (forall x y, eqb x y = true <-> x = y) ->
  ((exists tag', vector2tag V elem eqb ind v es tag = Some tag') <->
   (forall e, In e es -> 0 <= ind e < Z.of_nat (length v))) /\
  (forall tag', vector2tag V elem eqb ind v es tag = Some tag' ->
     forall e, (In e es -> nth_error v (Z.to_nat (ind e)) = Some (tag' e)) /\ (~ In e es -> tag' e = tag e)).
Proof.
  intros V elem eqb ind v es tag Q. split.
  - revert tag. induction es as [|e r IH]; intros tag; cbn [vector2tag].
    + split; [intros _ e []|eauto].
    + destruct (vget V v (ind e)) as [x|] eqn:E.
      * apply vget_spec in E. destruct E as (L & E).
        assert (Z.to_nat (ind e) < length v)%nat by (apply nth_error_Some; congruence). rewrite IH. split.
        -- intros K f [<-|F]; [lia|auto].
        -- intros K f F. apply K. right. assumption.
      * split; [intros (? & ?); discriminate|]. intros H. exfalso. specialize (H e (or_introl eq_refl)).
        unfold vget, at_ok in E. destruct (Z.leb_spec 0 (ind e)); [|lia].
        destruct (Z.ltb_spec (ind e) (Z.of_nat (length v))); [|lia]. cbn in E. apply nth_error_None in E. lia.
  - revert tag. induction es as [|e r IH]; intros tag tag'; cbn [vector2tag].
    + intros H. inversion H; subst. intros f. split; [intros []|reflexivity].
    + destruct (vget V v (ind e)) as [x|] eqn:E; [|discriminate]. intros H f. destruct (IH _ _ H f) as (A & B).
      assert (D : In f r \/ ~ In f r).
      { clear - Q. induction r as [|g r IH]; [right; intros []|]. destruct IH as [I|I]; [left; right; assumption|].
        destruct (eqb f g) eqn:G; [left; left; symmetry; apply Q; assumption|].
        right. intros [->|J]; [|auto]. assert (eqb f f = true) by (apply Q; reflexivity). congruence. }
      split.
      * intros [->|I]; [|auto]. destruct D as [D|D]; [auto|]. rewrite (B D).
        assert (G : eqb f f = true) by (apply Q; reflexivity). rewrite G. apply vget_spec in E. tauto.
      * intros N. cbn in N. rewrite B by tauto. destruct (eqb f e) eqn:G; [|reflexivity].
        apply Q in G. subst. tauto.
Qed.
Print Assumptions C49_vector_to_tag.
Example C49_vector_to_tag_nonvacuous :
  match vector2tag Z Z Z.eqb (fun e => e - 1) [10; 20; 30] [3; 1] (fun _ => 0) with
  | Some t => map t [1; 2; 3] = [10; 0; 30] | None => False end /\
  vector2tag Z Z Z.eqb (fun e => e) [10; 20; 30] [3; 1] (fun _ => 0) = None.
Proof. split; reflexivity. Qed.

(** The write loop itself is right: given a vector that is long enough it succeeds, and
    with distinct indices each element's value is then found at its index, so that
    copying back restores the tag on the visited elements. *)
Theorem C49_write_loop : forall V elem (ind : elem -> Z) (tag : elem -> V) es v,
  (forall e, In e es -> 0 <= ind e < Z.of_nat (length v)) -> NoDup (map ind es) ->
  exists v', store V elem ind tag es v = Some v' /\ length v' = length v /\
    (forall e, In e es -> nth_error v' (Z.to_nat (ind e)) = Some (tag e)) /\
    (forall i, (forall e, In e es -> Z.to_nat (ind e) <> i) -> nth_error v' i = nth_error v i).
Proof.
  intros V elem ind tag es. induction es as [|e r IH]; intros v B N; cbn [store].
  - exists v. split; [reflexivity|]. split; [reflexivity|]. split; [intros e []|reflexivity].
  - cbn [map] in N. inversion N as [|? ? N1 N2]; subst. pose proof (B e (or_introl eq_refl)) as Be.
    destruct (vset V v (ind e) (tag e)) as [v1|] eqn:E.
    2:{ exfalso. unfold vset, at_ok in E. destruct (Z.leb_spec 0 (ind e)); [|lia].
        destruct (Z.ltb_spec (ind e) (Z.of_nat (length v))); [discriminate|lia]. }
    pose proof (vset_length _ _ _ _ E) as L.
    assert (V1 : v1 = lset v (Z.to_nat (ind e)) (tag e)).
    { unfold vset in E. destruct (at_ok V v (ind e)); [|discriminate]. congruence. }
    destruct (IH v1) as (v' & S1 & S2 & S3 & S4); [|assumption|].
    { intros f F. rewrite L. apply B. right. assumption. }
    exists v'. split; [assumption|]. split; [lia|].
    assert (D : forall f, In f r -> Z.to_nat (ind f) <> Z.to_nat (ind e)).
    { intros f F Q. apply N1. pose proof (B f (or_intror F)). replace (ind e) with (ind f) by lia. apply in_map. assumption. }
    split.
    + intros f [<-|F]; [|auto]. rewrite S4 by (intros f F; apply D; assumption). subst v1.
      apply nth_error_lset_eq. lia.
    + intros i H. rewrite S4 by (intros f F; apply H; right; assumption). subst v1.
      apply nth_error_lset_ne. apply H. left. reflexivity.
Qed.
Print Assumptions C49_write_loop.
Example C49_write_loop_nonvacuous :
  (forall e, In e [2; 0] -> 0 <= e < Z.of_nat (length [7; 7; 7])) /\ NoDup (map (fun e : Z => e) [2; 0]) /\
  store Z Z (fun e => e) (fun e => e * 10) [2; 0] [7; 7; 7] = Some [0; 7; 20].
Proof.
  split; [intros e [<-|[<-|[]]]; cbn; lia|]. split; [|reflexivity].
  cbn. repeat constructor; cbn; intuition lia.
Qed.
