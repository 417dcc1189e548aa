(** Algorithms of the C++ standard library used by several models. *)
From Coq Require Import List Bool Arith Lia.
From Verif Require Import Util.
Import ListNotations.

Section LowerBound.
Context {A : Type} (less : A -> bool).   (* [less x] is  x < value *)

(** std::lower_bound as implemented by libstdc++ (halving of the length):
    while(len > 0) { half = len >> 1; middle = first + half;
      if(middle < val) { first = middle + 1; len = len - half - 1; } else len = half; } *)
Fixpoint lb_loop (fuel : nat) (l : list A) (first len : nat) : nat :=
  match fuel with
  | O => first
  | S f =>
      if len =? 0 then first else
      let half := len / 2 in
      match nth_error l (first + half) with
      | Some x => if less x then lb_loop f l (S (first + half)) (len - half - 1)
                  else lb_loop f l first half
      | None => first
      end
  end.
Definition lower_bound (l : list A) : nat := lb_loop (S (length l)) l 0 (length l).

(** On a partitioned array the result is the partition point. *)
Definition parted (l : list A) : Prop := forall i j x y,
  i <= j -> nth_error l i = Some x -> nth_error l j = Some y -> less y = true -> less x = true.

Lemma lb_loop_ok : forall fuel l first len, parted l ->
  len < fuel -> first + len <= length l ->
  (forall i x, i < first -> nth_error l i = Some x -> less x = true) ->
  (forall i x, first + len <= i -> nth_error l i = Some x -> less x = false) ->
  let k := lb_loop fuel l first len in
  k <= length l /\
  (forall i x, i < k -> nth_error l i = Some x -> less x = true) /\
  (forall i x, k <= i -> nth_error l i = Some x -> less x = false).
Proof.
  induction fuel as [|f IH]; intros l first len P Hf Hl H1 H2; [lia|]. cbn [lb_loop].
  destruct (Nat.eqb_spec len 0) as [->|N].
  - split; [lia|]. split; intros i x Hi Hx; [eapply H1; [|exact Hx]; lia|eapply H2; [|exact Hx]; lia].
  - destruct (nth_error l (first + len / 2)) as [m|] eqn:E.
    2:{ apply nth_error_None in E. lia. }
    destruct (less m) eqn:L.
    + apply IH; auto; try lia.
      * intros i x Hi Hx. eapply P; [|exact Hx|exact E|exact L]. lia.
      * intros i x Hi Hx. eapply H2; [|exact Hx]. lia.
    + apply IH; auto; try lia.
      intros i x Hi Hx. destruct (less x) eqn:Lx; auto.
      rewrite (P _ _ _ _ Hi E Hx Lx) in L. discriminate.
Qed.

Theorem lower_bound_ok : forall l, parted l ->
  lower_bound l <= length l /\
  (forall i x, i < lower_bound l -> nth_error l i = Some x -> less x = true) /\
  (forall i x, lower_bound l <= i -> nth_error l i = Some x -> less x = false).
Proof.
  intros l P. apply (lb_loop_ok (S (length l)) l 0 (length l)); auto; try lia.
  all: intros i x Hi Hx; try lia. assert (nth_error l i = None) by (apply nth_error_None; lia). congruence.
Qed.
End LowerBound.
