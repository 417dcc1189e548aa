(** Proofs about split_string. *)
From Coq Require Import List Bool Ascii Arith Lia.
From Verif Require Import Split_Model.
Import ListNotations.

(** The maximal pieces of [s] without delimiters. *)
Inductive pieces (D : ascii -> Prop) : str -> list str -> Prop :=
| pieces_end : forall s, Forall D s -> pieces D s []
| pieces_word : forall d w r ws,
    Forall D d -> w <> [] -> Forall (fun c => ~ D c) w ->
    match r with [] => True | c :: _ => D c end ->
    pieces D r ws -> pieces D (d ++ w ++ r) (w :: ws).

Lemma find_at_spec : forall p s i,
  match find_at p s i with
  | None => Forall (fun c => p c = false) s
  | Some j => i <= j /\ j - i < length s /\
      Forall (fun c => p c = false) (firstn (j - i) s) /\
      exists c r, skipn (j - i) s = c :: r /\ p c = true
  end.
Proof.
  intros p s. induction s as [|c t IH]; intros i; cbn [find_at]; [constructor|].
  destruct (p c) eqn:Hp.
  - rewrite Nat.sub_diag. cbn [firstn skipn length].
    split; [lia|]. split; [lia|]. split; [constructor|]. exists c, t. auto.
  - specialize (IH (S i)). destruct (find_at p t (S i)) as [j|].
    + destruct IH as [H1 [H2 [H3 H4]]].
      replace (j - i) with (S (j - S i)) by lia. cbn [firstn skipn length].
      split; [lia|]. split; [lia|]. split; [constructor; auto|]. exact H4.
    + constructor; auto.
Qed.

Lemma is_delim_spec : forall delims c, is_delim delims c = true <-> In c delims.
Proof.
  intros. unfold is_delim. rewrite existsb_exists. split.
  - intros [x [Hx He]]. apply Ascii.eqb_eq in He. now subst.
  - intros H. exists c. split; auto. apply Ascii.eqb_refl.
Qed.

Lemma Forall_impl' : forall (A : Type) (P Q : A -> Prop) l,
  (forall a, P a -> Q a) -> Forall P l -> Forall Q l.
Proof. intros. eapply Forall_impl; eauto. Qed.

Lemma not_delim : forall delims c, is_delim delims c = false -> ~ In c delims.
Proof. intros delims c H K. apply is_delim_spec in K. congruence. Qed.

Lemma delim_neg : forall delims c, negb (is_delim delims c) = false -> In c delims.
Proof. intros delims c H. apply is_delim_spec. now destruct (is_delim delims c). Qed.

Lemma skipn_skipn' : forall A (l : list A) a b, skipn a (skipn b l) = skipn (b + a) l.
Proof.
  intros A l a b. revert l. induction b as [|b IH]; intros l; [reflexivity|].
  destruct l as [|x l]; [now rewrite !skipn_nil|]. cbn [skipn Nat.add]. apply IH.
Qed.

(** from the start [b] of a word *)
Lemma split_loop_ok : forall delims s fuel b acc,
  length s - b < fuel -> b < length s ->
  (exists c r, skipn b s = c :: r /\ is_delim delims c = false) ->
  exists ws,
    split_loop fuel s delims (Some b) (find_first (is_delim delims) s (Some b)) acc
      = Some (acc ++ ws) /\
    exists w r ws', ws = w :: ws' /\ skipn b s = w ++ r /\ w <> [] /\
      Forall (fun c => ~ In c delims) w /\
      match r with [] => True | c :: _ => In c delims end /\
      pieces (fun c => In c delims) r ws'.
Proof.
  intros delims s fuel. induction fuel as [|fuel IH]; intros b acc Hf Hb [c [r [Hs Hc]]];
    [lia|].
  cbn [split_loop]. unfold find_first at 1. cbn [find_first].
  pose proof (find_at_spec (is_delim delims) (skipn b s) b) as H.
  destruct (find_at (is_delim delims) (skipn b s) b) as [p|] eqn:Hp.
  - destruct H as [H1 [H2 [H3 [d [r' [H4 Hd]]]]]].
    assert (Hw : firstn (p - b) (skipn b s) <> []).
    { intros E. rewrite Hs in E, H4.
      destruct (p - b); [|discriminate]. cbn [skipn] in H4. congruence. }
    assert (Hsp : skipn p s = d :: r').
    { rewrite <- H4, skipn_skipn'. f_equal. lia. }
    rewrite skipn_length in H2.
    assert (Hbp : b < p).
    { destruct (Nat.eq_dec b p) as [->|]; [|lia]. rewrite Hs in H4.
      rewrite Nat.sub_diag in H4. cbn [skipn] in H4. congruence. }
    set (w := firstn (p - b) (skipn b s)) in *.
    assert (Hsplit : skipn b s = w ++ d :: r').
    { rewrite <- H4. unfold w. symmetry. apply firstn_skipn. }
    cbn [find_first].
    pose proof (find_at_spec (fun c => negb (is_delim delims c)) (skipn p s) p) as G.
    destruct (find_at (fun c => negb (is_delim delims c)) (skipn p s) p) as [e|] eqn:He.
    + destruct G as [G1 [G2 [G3 [x [y [G4 G5]]]]]].
      rewrite skipn_length in G2.
      assert (Hse : skipn e s = x :: y).
      { rewrite <- G4, skipn_skipn'. f_equal. lia. }
      destruct (IH e (acc ++ [w])) as [ws [Hr [w2 [r2 [ws2 [E1 [E2 [E3 [E4 [E5 E6]]]]]]]]]];
        try lia.
      { exists x, y. split; auto. now destruct (is_delim delims x). }
      cbn [find_first] in *. rewrite Hr. exists (w :: ws). split.
      { rewrite <- app_assoc. reflexivity. }
      exists w, (d :: r'), ws. split; [reflexivity|]. split; [exact Hsplit|].
      split; [exact Hw|]. split.
      { eapply Forall_impl; [|exact H3]. apply not_delim. }
      split; [now apply is_delim_spec|].
      rewrite <- Hsp. rewrite <- (firstn_skipn (e - p) (skipn p s)).
      rewrite skipn_skipn'. replace (p + (e - p)) with e by lia.
      rewrite E2, E1. constructor; auto.
      eapply Forall_impl; [|exact G3]. intros a. apply delim_neg.
    + assert (Hlen : 1 <= fuel).
      { assert (1 <= length s - p).
        { rewrite <- skipn_length, Hsp. cbn. lia. } lia. }
      destruct fuel as [|fuel]; [lia|]. cbn [split_loop find_first].
      exists [w]. split; [reflexivity|].
      exists w, (d :: r'), []. split; [reflexivity|]. split; [exact Hsplit|].
      split; [exact Hw|]. split.
      { eapply Forall_impl; [|exact H3]. apply not_delim. }
      split; [now apply is_delim_spec|].
      constructor. rewrite <- Hsp. eapply Forall_impl; [|exact G].
      intros a. apply delim_neg.
  - destruct fuel as [|fuel]; [lia|]. cbn [split_loop find_first].
    exists [skipn b s]. split; [reflexivity|].
    exists (skipn b s), [], []. split; [reflexivity|].
    split; [now rewrite app_nil_r|]. split; [rewrite Hs; discriminate|].
    split. { eapply Forall_impl; [|exact H]. apply not_delim. }
    split; [exact I|]. constructor. constructor.
Qed.

Lemma split_string_ok : forall s old delims,
  exists ws, split_string s old delims = Some (old ++ ws) /\
    pieces (fun c => In c delims) s ws.
Proof.
  intros s old delims. unfold split_string. cbn [find_first].
  change (skipn 0 s) with s.
  pose proof (find_at_spec (fun c => negb (is_delim delims c)) s 0) as G.
  destruct (find_at (fun c => negb (is_delim delims c)) s 0) as [e|] eqn:He.
  - destruct G as [G1 [G2 [G3 [x [y [G4 G5]]]]]]. rewrite Nat.sub_0_r in *.
    destruct (split_loop_ok delims s (S (length s)) e old)
      as [ws [Hr [w2 [r2 [ws2 [E1 [E2 [E3 [E4 [E5 E6]]]]]]]]]]; try lia.
    { exists x, y. split; auto. now destruct (is_delim delims x). }
    rewrite Hr. exists ws. split; [reflexivity|].
    rewrite <- (firstn_skipn e s), E2, E1. constructor; auto.
    eapply Forall_impl; [|exact G3]. intros a. apply delim_neg.
  - exists []. rewrite app_nil_r. split; [reflexivity|].
    constructor. eapply Forall_impl; [|exact G]. intros a. apply delim_neg.
Qed.

(** the pieces are unique *)
Lemma prefix_unique : forall (D : ascii -> Prop) d w r d' w' r',
  d ++ w ++ r = d' ++ w' ++ r' ->
  Forall D d -> Forall D d' -> w <> [] -> w' <> [] ->
  Forall (fun c => ~ D c) w -> Forall (fun c => ~ D c) w' ->
  match r with [] => True | c :: _ => D c end ->
  match r' with [] => True | c :: _ => D c end ->
  w = w' /\ r = r'.
Proof.
  intros D d. induction d as [|c d IH]; intros w r d' w' r' E Hd Hd' Hw Hw' Fw Fw' Hr Hr'.
  - destruct d' as [|c' d'].
    + cbn [app] in E. clear Hd Hd'. revert w' r r' E Hw' Fw' Hr Hr'.
      induction Fw as [|a w Ha Fw IHw]; intros w' r r' E Hw' Fw' Hr Hr'; [congruence|].
      destruct w' as [|a' w']; [congruence|].
      cbn [app] in E. injection E as -> E. inversion Fw'; subst.
      destruct w as [|b w].
      * destruct w' as [|b' w'].
        { cbn [app] in E. auto. }
        cbn [app] in E. subst r. inversion H2; subst. contradiction.
      * destruct w' as [|b' w'].
        { cbn [app] in E. subst r'. inversion Fw; subst. contradiction. }
        destruct (IHw ltac:(discriminate) (b' :: w') r r' E) as [-> ->]; auto; discriminate.
    + destruct w as [|a w]; [congruence|]. cbn [app] in E. injection E as -> E.
      inversion Fw; inversion Hd'; subst; contradiction.
  - destruct d' as [|c' d'].
    + destruct w' as [|a w']; [congruence|]. cbn [app] in E. injection E as -> E.
      inversion Fw'; inversion Hd; subst; contradiction.
    + cbn [app] in E. injection E as -> E. inversion Hd; inversion Hd'; subst.
      eapply IH; eauto.
Qed.

Lemma pieces_unique : forall D s ws, pieces D s ws ->
  forall ws', pieces D s ws' -> ws = ws'.
Proof.
  intros D s ws H. induction H as [s Hs|d w r ws Hd Hw Fw Hr Hp IH]; intros ws' H'.
  - inversion H'; subst; auto. destruct w as [|c w]; [congruence|].
    apply Forall_app in Hs. destruct Hs as [_ Hs]. inversion Hs; inversion H1; subst.
    contradiction.
  - inversion H' as [s' Hs|d' w' r' ws'' Hd' Hw' Fw' Hr' Hp' E]; subst.
    + destruct w as [|c w]; [congruence|].
      apply Forall_app in Hs. destruct Hs as [_ Hs]. inversion Hs; inversion Fw; subst.
      contradiction.
    + destruct (prefix_unique D d' w' r' d w r E) as [-> ->]; auto.
      f_equal. now apply IH.
Qed.
