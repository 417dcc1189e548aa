(** Properties C05, C06. *)
From Coq Require Import ZArith List Bool Lia.
From Verif Require Import Util Handle_Model Marker_Model Marker_Proofs.
Import ListNotations.
Open Scope Z_scope.

(** C05: after any history, held markers are pairwise distinct, a creation
    fails exactly when all 8*fields markers are held, and a created marker is
    not among those held. *)
Theorem C05_markers_distinct : forall f es ops s held, library_family f ->
  run f (init f es, []) ops = Some (s, held) ->
  NoDup held /\ (length held <= 8 * fields f)%nat /\
  (CreateMarker f s = None <-> length held = (8 * fields f)%nat) /\
  (forall n s', CreateMarker f s = Some (n, s') -> ~ In n held).
Proof.
  intros f es ops s held Hf R. pose proof (inv_history f es ops s held Hf R) as I.
  split; [apply I|]. split; [eapply held_bound; eauto|].
  split; [eapply create_outcome; eauto|].
  intros n s' C. pose proof (inv_step f es s held (ideal es ops) OCreate s' (n :: held) Hf I) as J.
  cbn [step] in J. rewrite C in J. specialize (J eq_refl).
  pose proof (i_nodup _ _ _ _ _ J) as N. now inversion N.
Qed.
Print Assumptions C05_markers_distinct.

(** Markers of the two families never coincide and are recognised by
    isPrivate; none equals InvalidMarker(). *)
Theorem C05_marker_values : forall w n, w = 32 \/ w = 64 ->
  (In n (all_markers shared_family) -> isPrivate w n = false /\ n <> InvalidMarker w) /\
  (In n (all_markers (private_family w)) -> isPrivate w n = true /\ n <> InvalidMarker w).
Proof.
  intros w n Hw.
  assert (forallb (fun n => negb (isPrivate w n) && negb (n =? InvalidMarker w))
            (all_markers shared_family) = true) as A
    by (destruct Hw as [->| ->]; vm_compute; reflexivity).
  assert (forallb (fun n => isPrivate w n && negb (n =? InvalidMarker w))
            (all_markers (private_family w)) = true) as B
    by (destruct Hw as [->| ->]; vm_compute; reflexivity).
  rewrite forallb_forall in A, B. split; intros H.
  - apply A in H. apply andb_true_iff in H. destruct H as [H1 H2].
    apply negb_true_iff in H1, H2. apply Z.eqb_neq in H2. auto.
  - apply B in H. apply andb_true_iff in H. destruct H as [H1 H2].
    apply negb_true_iff in H2. apply Z.eqb_neq in H2. auto.
Qed.
Print Assumptions C05_marker_values.

(** A released marker is handed out again: after releasing any held marker
    creation succeeds. *)
Theorem C05_release_allows_create : forall f es ops s held n c, library_family f ->
  run f (init f es, []) ops = Some (s, held) -> In n held ->
  exists n' s', CreateMarker f (ReleaseMarker f s n c) = Some (n', s').
Proof.
  intros f es ops s held n c Hf R Hn.
  pose proof (inv_history f es ops s held Hf R) as I.
  pose proof (inv_step f es s held _ (ORelease n c) (ReleaseMarker f s n c) (remove Z.eq_dec n held) Hf I) as J.
  cbn [step] in J.
  replace (holds held n) with true in J
    by (symmetry; apply existsb_exists; exists n; split; [assumption|apply Z.eqb_refl]).
  specialize (J eq_refl).
  destruct (CreateMarker f (ReleaseMarker f s n c)) as [[n' s']|] eqn:C; [eauto|].
  apply (create_outcome _ _ _ _ _ Hf J) in C.
  pose proof (held_bound _ _ _ _ _ Hf I).
  pose proof (remove_length_lt Z.eq_dec held n Hn). lia.
Qed.
Print Assumptions C05_release_allows_create.

(** C06: on every element and for every marker value of the family, GetMarker
    answers what the history of SetMarker/RemMarker/ReleaseMarker says. *)
Theorem C06_markers_refine : forall f es ops s held, library_family f ->
  run f (init f es, []) ops = Some (s, held) ->
  forall e n, (e < length es)%nat -> In n (all_markers f) ->
  GetMarker f s e n = ideal es ops e n.
Proof.
  intros f es ops s held Hf R. apply (i_get _ _ _ _ _ (inv_history f es ops s held Hf R)).
Qed.
Print Assumptions C06_markers_refine.

(** After a release with cleanup, no live element of a cleaned type carries the
    marker, and all other pairs are unchanged. *)
Theorem C06_release_cleans : forall f es ops s held n c s' held', library_family f ->
  run f (init f es, []) ops = Some (s, held) ->
  step f (s, held) (ORelease n c) = Some (s', held') ->
  forall e t, nth_error es e = Some (t, true) ->
  (Z.land c t <> 0 -> GetMarker f s' e n = false) /\
  (forall n', In n' (all_markers f) -> n' <> n \/ Z.land c t = 0 ->
     GetMarker f s' e n' = GetMarker f s e n').
Proof.
  intros f es ops s held n c s' held' Hf R S e t E.
  pose proof (inv_history f es ops s held Hf R) as I.
  pose proof (inv_step _ _ _ _ _ _ _ _ Hf I S) as J.
  assert (e < length es)%nat as He by (apply nth_error_Some; congruence).
  assert (In n (all_markers f)) as Hn.
  { cbn in S. destruct (holds held n) eqn:H; [|discriminate].
    apply holds_in in H. now apply (i_in _ _ _ _ _ I). }
  split.
  - intros Hc. rewrite (i_get _ _ _ _ _ J) by auto. cbn. rewrite E, Z.eqb_refl. cbn.
    apply Z.eqb_neq in Hc. now rewrite Hc.
  - intros n' Hn' D. rewrite (i_get _ _ _ _ _ J), (i_get _ _ _ _ _ I) by auto. cbn. rewrite E.
    destruct D as [D|D].
    + destruct (Z.eqb_spec n n'); [congruence|reflexivity].
    + rewrite D. cbn. now rewrite andb_false_r.
Qed.
Print Assumptions C06_release_cleans.

(** Without cleanup the next owner of the marker sees the old mark. *)
Theorem C06_release_without_cleanup_refuted :
  exists ops s held n,
    run shared_family (init shared_family [(CELL, true)], []) ops = Some (s, n :: held) /\
    ops = [OCreate; OSet 0 1; ORelease 1 NONE; OCreate] /\
    GetMarker shared_family s 0 n = true.
Proof. do 4 eexists. split; [|split; [reflexivity|]]; vm_compute; reflexivity. Qed.
Print Assumptions C06_release_without_cleanup_refuted.

Example C05_C06_nonvacuous :
  exists s held,
    run (private_family 32) (init (private_family 32) [(NODE, true); (CELL, true)], [])
      [OCreate; OCreate; OSet 0 (2 ^ 31 + 1); OSet 1 (2 ^ 31 + 2); ORelease (2 ^ 31 + 1) (NODE + CELL); OCreate]
      = Some (s, held) /\ held = [2 ^ 31 + 1; 2 ^ 31 + 2] /\
    GetMarker (private_family 32) s 1 (2 ^ 31 + 2) = true /\
    GetMarker (private_family 32) s 0 (2 ^ 31 + 1) = false.
Proof. do 2 eexists. split; [|split; [|split]]; vm_compute; reflexivity. Qed.
