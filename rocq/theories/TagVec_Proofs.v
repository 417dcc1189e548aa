From Coq Require Import List ZArith Lia.
From Verif Require Import Util TagVec_Model.
Import ListNotations.
Open Scope Z_scope.
Section P.
Context {V elem : Type}.
Lemma resize_length (zero : V) v n : length (resize V zero v n) = n.
Proof. unfold resize. rewrite app_length, firstn_length, repeat_length. lia. Qed.
Lemma max_fold (ind : elem -> Z) es : forall s, s <= fold_left (fun s e => Z.max s (ind e)) es s /\
  (forall e, In e es -> ind e <= fold_left (fun s e => Z.max s (ind e)) es s) /\
  (fold_left (fun s e => Z.max s (ind e)) es s = s \/ exists e, In e es /\ ind e = fold_left (fun s e => Z.max s (ind e)) es s).
Proof.
  induction es as [|e r IH]; intros s; cbn [fold_left].
  - split; [lia|]. split; [intros e []|auto].
  - destruct (IH (Z.max s (ind e))) as (A & B & C). split; [lia|]. split.
    + intros f [<-|F]; [lia|]. auto.
    + destruct C as [C|(f & F & C)]; [|right; exists f; split; [right|]; assumption].
      rewrite C. destruct (Z.max_spec s (ind e)) as [[_ M]|[_ M]]; rewrite M; [|auto].
      right. exists e. split; [left; reflexivity|reflexivity].
Qed.
Lemma vset_length v i (x : V) v' : vset V v i x = Some v' -> length v' = length v.
Proof. unfold vset. destruct (at_ok V v i); [|discriminate]. intros H. inversion H. apply lset_length. Qed.
Lemma store_bad (ind : elem -> Z) tag es : forall (v : list V),
  (exists e, In e es /\ at_ok V v (ind e) = false) -> store V elem ind tag es v = None.
Proof.
  induction es as [|f r IH]; intros v (e & I & B); [destruct I|]. cbn [store].
  destruct (vset V v (ind f) (tag f)) as [v'|] eqn:E; [|reflexivity].
  destruct I as [->|I].
  - unfold vset in E. rewrite B in E. discriminate.
  - apply IH. exists e. split; [assumption|]. unfold at_ok in *. rewrite (vset_length _ _ _ _ E). assumption.
Qed.
Lemma vget_spec (v : list V) i x : vget V v i = Some x <-> 0 <= i /\ nth_error v (Z.to_nat i) = Some x.
Proof.
  unfold vget, at_ok. destruct (Z.leb_spec 0 i) as [L|L]; cbn [andb].
  - destruct (Z.ltb_spec i (Z.of_nat (length v))) as [M|M]; [tauto|].
    split; [discriminate|]. intros (_ & H). assert (Z.to_nat i < length v)%nat by (apply nth_error_Some; congruence). lia.
  - split; [discriminate|lia].
Qed.
End P.
