(** Proofs about copying a mesh. *)
From Coq Require Import List Bool Arith Lia.
From Verif Require Import Util Storage_Model Storage_Proofs Copy_Model.
Import ListNotations.

Section S.
Variable V : Type.
Variable dflt : V.
Variable chunk : nat.
Variable minsz : nat.
Variable spc : V -> V.
Hypothesis chunk_pos : 0 < chunk.

Notation st := (st V).
Notation adr s id := (nth id (links V s) None).
Notation own s a := (nth a (back V s) None).
Notation occ s := (occupied V s).
Notation cap s := (capacity V chunk s).
Notation inv := (inv V dflt chunk minsz).
Notation copy := (copy V dflt chunk minsz spc).
Notation step := (step V dflt chunk minsz).
Notation run := (run V dflt chunk minsz).
Notation atl := (at_least minsz).
Notation rup := (roundup chunk).

Lemma copy_live_length : forall f ls src dst, length (copy_live V dflt f ls src dst) = length dst.
Proof.
  intros f ls src. unfold copy_live. induction ls as [|[a|] ls IH]; intros dst; cbn [fold_left]; auto.
  rewrite IH. apply lset_length.
Qed.
Lemma copy_live_nth : forall f ls src dst a, a < length dst ->
  nth a (copy_live V dflt f ls src dst) dflt =
  if existsb (fun l => match l with Some b => a =? b | None => false end) ls then f (nth a src dflt) else nth a dst dflt.
Proof.
  intros f ls src. unfold copy_live. induction ls as [|[b|] ls IH]; intros dst a H; cbn [fold_left existsb orb]; auto.
  rewrite IH by (now rewrite lset_length). rewrite nth_lset.
  destruct (existsb _ ls); [now rewrite orb_true_r|]. rewrite orb_false_r.
  destruct (Nat.eqb_spec b a), (Nat.eqb_spec a b); try congruence; subst; auto.
  destruct (Nat.ltb_spec a (length dst)); [reflexivity|lia].
Qed.

Lemma nth_ext_d : forall (l k : list V), length l = length k ->
  (forall i, i < length l -> nth i l dflt = nth i k dflt) -> l = k.
Proof. intros l k H1 H2. apply (nth_ext _ _ dflt dflt); auto. Qed.

Lemma live_addr : forall (s : st) a, tables V s ->
  existsb (fun l => match l with Some b => a =? b | None => false end) (links V s) = true <-> own s a <> None.
Proof.
  intros s a T. rewrite existsb_exists. split.
  - intros [[b|] [H1 H2]]; [|discriminate]. apply Nat.eqb_eq in H2. subst b.
    apply (In_nth _ _ None) in H1. destruct H1 as [i [_ H1]]. apply (t_lk _ _ T) in H1. congruence.
  - intros H. destruct (own s a) as [i|] eqn:E; [|congruence]. apply (t_bk _ _ T) in E.
    exists (Some a). split; [|apply Nat.eqb_refl]. rewrite <- E. apply nth_In.
    eapply nth_Some_lt; eauto.
Qed.

Lemma nth_repeat_d : forall n i, nth i (repeat dflt n) dflt = dflt.
Proof. induction n as [|n IH]; intros [|i]; cbn; auto. Qed.

(** the columns of the copy are those of the original *)
Lemma copy_cols : forall s, inv s -> cols V (copy s) = cols V s.
Proof.
  intros s [T D F P]. cbn [Copy_Model.copy cols realloc]. rewrite map_map.
  assert (G : forall l, (forall c, In c l -> In c (cols V s)) ->
    map (fun p => copy_live V dflt (fun v => v) (links V s) (fst p) (snd p))
      (combine l (map (fun _ => resize_col V dflt chunk [] (atl (cap s))) l)) = l).
  { induction l as [|c l IH]; intros H; cbn [map combine fst snd]; auto. rewrite IH by (intros; apply H; now right).
    f_equal. assert (Hc : In c (cols V s)) by (apply H; now left).
    assert (L : length (resize_col V dflt chunk [] (atl (cap s))) = length c).
    { unfold resize_col. rewrite resize_length, (d_len _ _ _ _ D c Hc), (p_len _ _ _ _ P). reflexivity. }
    apply nth_ext_d; [now rewrite copy_live_length|]. rewrite copy_live_length. intros i Hi.
    rewrite copy_live_nth by auto. destruct (existsb _ (links V s)) eqn:E; auto.
    assert (O : own s i = None).
    { destruct (own s i) eqn:O; auto. rewrite (proj2 (live_addr s i T)) in E; congruence. }
    rewrite (d_dead _ _ _ _ D c i Hc O). unfold resize_col, resize. rewrite firstn_nil, app_nil_l. apply nth_repeat_d. }
  now apply G.
Qed.

(** ** States that differ only in the reverse table and the sparse records *)
Definition similar (s t : st) : Prop :=
  links V s = links V t /\ espace V s = espace V t /\ elinks V s = elinks V t /\ modif V s = modif V t /\
  cols V s = cols V t /\ needsp V s = needsp V t /\ length (back V s) = length (back V t) /\
  length (sparse V s) = length (sparse V t).

Lemma copy_similar : forall s, inv s -> similar (copy s) s.
Proof.
  intros s I. pose proof I as [T D F P]. unfold similar. rewrite copy_cols by auto. repeat split; cbn.
  - rewrite resize_length. symmetry. apply (p_len _ _ _ _ P).
  - rewrite (d_splen _ _ _ _ D). destruct (needsp V s); [|reflexivity].
    rewrite copy_live_length, resize_length. symmetry. apply (p_len _ _ _ _ P).
Qed.

Lemma similar_realloc : forall s t n, similar s t -> similar (realloc V dflt chunk minsz s n) (realloc V dflt chunk minsz t n).
Proof.
  intros s t n (H1 & H2 & H3 & H4 & H5 & H6 & H7 & H8). unfold similar, realloc.
  cbn [links back espace elinks modif cols sparse needsp].
  rewrite H1, H2, H3, H4, H5, H6, !resize_length. repeat split.
  destruct (needsp V t); [now rewrite !resize_length|reflexivity].
Qed.
Lemma similar_cap : forall s t, similar s t -> cap s = cap t /\ occ s = occ t.
Proof.
  intros s t (H1 & H2 & H3 & _). unfold capacity, occupied. now rewrite H1, H2, H3.
Qed.

Lemma similar_tie : forall s t, similar s t ->
  match tie V dflt chunk minsz s, tie V dflt chunk minsz t with
  | Some (s', i), Some (t', j) => i = j /\ similar s' t'
  | None, None => True
  | _, _ => False
  end.
Proof.
  intros s t S. pose proof (similar_cap _ _ S) as [C O]. pose proof S as (H1 & H2 & H3 & H4 & H5 & H6 & H7 & H8).
  unfold tie. rewrite C, O, H1, H2, H3, H4.
  destruct (match espace V t with [] => (occ t, []) | a :: es => if modif V t then (occ t, espace V t) else (a, es) end) as [addr es].
  destruct (match elinks V t with
      | [] => (length (links V t), links V t ++ [Some addr], [])
      | i :: el => (i, lset (links V t) i (Some addr), el) end) as [[id ls] el].
  destruct (negb (id <? length ls)); [exact I|].
  set (s1 := St V ls (back V s) es el (modif V t) (cols V s) (sparse V s) (needsp V s)).
  set (t1 := St V ls (back V t) es el (modif V t) (cols V t) (sparse V t) (needsp V t)).
  assert (S1 : similar s1 t1) by (unfold similar; cbn; auto 10).
  destruct (similar_cap _ _ S1) as [C1 _]. rewrite C1.
  assert (S2 : similar (if cap t1 =? cap t then s1 else realloc V dflt chunk minsz s1 (cap t1))
                       (if cap t1 =? cap t then t1 else realloc V dflt chunk minsz t1 (cap t1))).
  { destruct (cap t1 =? cap t); auto. now apply similar_realloc. }
  revert S2. generalize (if cap t1 =? cap t then s1 else realloc V dflt chunk minsz s1 (cap t1)).
  generalize (if cap t1 =? cap t then t1 else realloc V dflt chunk minsz t1 (cap t1)).
  clear. intros t s (H1 & H2 & H3 & H4 & H5 & H6 & H7 & H8). rewrite H7.
  destruct (addr <? length (back V t)); [|exact I]. split; [reflexivity|].
  unfold similar. cbn. rewrite !lset_length. auto 10.
Qed.

Definition sim_result (a b : option (st * option nat)) : Prop :=
  match a, b with
  | Some (s', i), Some (t', j) => i = j /\ similar s' t'
  | None, None => True
  | _, _ => False
  end.
Lemma similar_step : forall s t o, o <> OReorder V -> similar s t -> sim_result (step s o) (step t o).
Proof.
  intros s t o No S. pose proof (similar_cap _ _ S) as [C O]. pose proof S as (H1 & H2 & H3 & H4 & H5 & H6 & H7 & H8).
  destruct o as [|id| |c id v|id v| | |b]; cbn [Storage_Model.step].
  - pose proof (similar_tie s t S) as K.
    destruct (tie V dflt chunk minsz s) as [[s' i]|], (tie V dflt chunk minsz t) as [[t' j]|]; try contradiction; auto.
    destruct K as [-> K]. split; auto.
  - unfold destroy. rewrite H1. destruct (nth_error (links V t) id) as [[a|]|] eqn:E; try exact I.
    rewrite H7. destruct (a <? length (back V t)) eqn:L; [|exact I].
    unfold untie. cbn [modif links back espace elinks cols sparse needsp]. rewrite H4. destruct (modif V t); [exact I|].
    rewrite E, H7, L. cbn [option_map]. split; [reflexivity|]. unfold similar.
    cbn [links back espace elinks modif cols sparse needsp]. rewrite !lset_length, H2, H3, H5, H6, H7, H8. auto 10.
  - congruence.
  - unfold write. rewrite H1, H5, H7. destruct (nth_error (links V t) id) as [[a|]|]; try exact I.
    destruct (nth_error (cols V t) c); [|exact I]. destruct (a <? length (back V t)); [|exact I].
    split; [reflexivity|]. unfold similar. cbn. auto 10.
  - unfold write_sparse. rewrite H1, H8. destruct (nth_error (links V t) id) as [[a|]|]; try exact I.
    destruct (a <? length (sparse V t)); [|exact I].
    split; [reflexivity|]. unfold similar. cbn. rewrite !lset_length. auto 10.
  - split; [reflexivity|]. unfold similar, new_dense. cbn. rewrite C, H5. auto 10.
  - split; [reflexivity|]. unfold similar, new_sparse. cbn. rewrite C.
    repeat split; auto. destruct (sparse V s), (sparse V t); try discriminate; auto.
  - split; [reflexivity|]. unfold similar, set_modif. cbn. auto 10.
Qed.

Lemma similar_run : forall h s t, ~ In (OReorder V) h -> similar s t ->
  match run s h, run t h with
  | Some (s', rs), Some (t', rs') => rs = rs' /\ similar s' t'
  | None, None => True
  | _, _ => False
  end.
Proof.
  induction h as [|o h IH]; intros s t N S; cbn [Storage_Model.run]; [auto|]. cbn [In] in N.
  pose proof (similar_step s t o ltac:(intuition) S) as K. unfold sim_result in K.
  destruct (step s o) as [[s1 i]|], (step t o) as [[t1 j]|]; try contradiction; auto.
  destruct K as [-> K]. specialize (IH s1 t1 ltac:(intuition) K).
  destruct (run s1 h) as [[s2 rs]|], (run t1 h) as [[t2 rs']|]; try contradiction; auto.
  destruct IH as [-> IH]. auto.
Qed.

Lemma similar_read : forall s t c i, similar s t -> read V dflt s c i = read V dflt t c i.
Proof. intros s t c i (H1 & _ & _ & _ & H5 & _ & H7 & _). unfold read. now rewrite H1, H5, H7. Qed.

(** ** Compaction of the copy *)
Lemma skip_free_none : forall (b : list (option nat)) e, (forall a, nth a b None = None) -> skip_free b e = 0.
Proof. intros b e H. induction e as [|e IH]; cbn [skip_free]; [reflexivity|]. now rewrite H. Qed.
Lemma copy_own : forall s a, own (copy s) a = None.
Proof.
  intros s a. cbn. unfold resize. rewrite firstn_nil, app_nil_l. generalize (atl (cap s) - length (@nil (option nat))).
  intros n. revert a. induction n as [|n IH]; intros [|a]; cbn; auto.
Qed.
Lemma copy_reorder : forall s, reorder V dflt chunk minsz (copy s) =
  let t := copy s in
  let s2 := St V (links V t) (back V t) [] (elinks V t) (modif V t) (cols V t) (sparse V t) (needsp V t) in
  Some (realloc V dflt chunk minsz s2 (cap s2)).
Proof.
  intros s. unfold reorder. rewrite (skip_free_none (back V (copy s))) by (apply copy_own). reflexivity.
Qed.

(** states where creation works, although the reverse table is wrong *)
Definition weak (s : st) : Prop :=
  espace V s = [] /\ length (back V s) = atl (cap s) /\ frees V s.

Lemma copy_reorder_weak : forall s, inv s -> exists s', reorder V dflt chunk minsz (copy s) = Some s' /\
  weak s' /\ links V s' = links V s /\ occ s' = length (links V s) - length (elinks V s).
Proof.
  intros s [T D F P]. rewrite copy_reorder. eexists. split; [reflexivity|].
  split; [split; [reflexivity|split]|split; [reflexivity|]]; cbn.
  - now rewrite resize_length.
  - split; cbn [elinks links]; apply F.
  - unfold occupied. cbn. lia.
Qed.

Lemma weak_tie : forall s, weak s -> exists s' id, tie V dflt chunk minsz s = Some (s', id) /\ weak s' /\
  occ s' = S (occ s) /\ adr s id = None /\ adr s' id = Some (occ s) /\ forall i, i <> id -> adr s' i = adr s i.
Proof.
  pose proof chunk_pos as Hcp. intros s [W1 [W2 W3]]. pose proof (frees_le V s W3) as Fle. unfold tie. rewrite W1.
  set (r := match elinks V s with
      | [] => (length (links V s), links V s ++ [Some (occ s)], [])
      | i :: el => (i, lset (links V s) i (Some (occ s)), el) end).
  assert (R : exists id ls el, r = (id, ls, el) /\ id < length ls /\ nth id (links V s) None = None /\
    (forall i, nth i ls None = if i =? id then Some (occ s) else adr s i) /\
    length ls - length el = S (length (links V s) - length (elinks V s)) /\
    NoDup el /\ (forall i, In i el <-> i < length ls /\ nth i ls None = None)).
  { subst r. destruct W3 as [N F]. destruct (elinks V s) as [|j el] eqn:E.
    - eexists _, _, _. split; [reflexivity|]. rewrite app_length. cbn [length].
      split; [lia|]. split; [apply nth_overflow; lia|]. split; [intros i; apply nth_app_one|].
      split; [lia|]. split; [constructor|]. intros i. rewrite nth_app_one. specialize (F i). cbn [In] in *.
      split; [contradiction|]. intros [H1 H2]. destruct (Nat.eqb_spec i (length (links V s))); [discriminate|].
      apply F. split; [lia|auto].
    - eexists _, _, _. split; [reflexivity|]. rewrite lset_length.
      assert (Hj : j < length (links V s) /\ adr s j = None) by (apply F; now left). destruct Hj as [Hj1 Hj2].
      cbn [length] in Fle. split; [auto|]. split; [auto|]. split; [intros i; now apply nth_lset_lt|].
      split; [cbn [length]; lia|]. inversion N as [|? ? N1 N2]; subst. split; [auto|].
      intros i. rewrite nth_lset_lt by auto. specialize (F i). cbn [In] in F.
      destruct (Nat.eqb_spec i j) as [->|Ni].
      + split; [contradiction|]. intros [_ H]. discriminate.
      + rewrite <- F. split; [auto|]. intros [H|H]; [congruence|auto]. }
  destruct R as [id [ls [el [-> [R1 [R2 [R3 [R4 [R5 R6]]]]]]]]].
  destruct (Nat.ltb_spec id (length ls)); [|lia]. cbn [negb].
  set (s1 := St V ls (back V s) [] el (modif V s) (cols V s) (sparse V s) (needsp V s)).
  assert (O1 : occ s1 = S (occ s)) by (unfold occupied, s1; cbn; rewrite W1; cbn [length]; lia).
  assert (M : cap s <= cap s1) by (unfold capacity; apply roundup_mono; [exact chunk_pos|lia]).
  set (s2 := if cap s1 =? cap s then s1 else realloc V dflt chunk minsz s1 (cap s1)).
  assert (B : length (back V s2) = atl (cap s1)).
  { subst s2. destruct (Nat.eqb_spec (cap s1) (cap s)) as [E|E].
    - cbn [back s1]. now rewrite W2, E.
    - cbn. now rewrite resize_length. }
  assert (K : links V s2 = ls /\ espace V s2 = [] /\ elinks V s2 = el).
  { subst s2. destruct (cap s1 =? cap s); auto. }
  destruct K as [K1 [K2 K3]].
  assert (Hlt : occ s < length (back V s2)).
  { rewrite B. pose proof (atl_ge minsz (cap s1)). pose proof (roundup_ge chunk chunk_pos (occ s1)) as G.
    change (rup (occ s1)) with (cap s1) in G. lia. }
  apply Nat.ltb_lt in Hlt. rewrite Hlt. eexists _, _. split; [reflexivity|].
  assert (O2 : forall a b c d e, occ (St V (links V s2) a (espace V s2) (elinks V s2) b c d e) = occ s1).
  { intros. unfold occupied. cbn [links espace elinks]. rewrite K1, K2, K3. reflexivity. }
  split; [|split; [|split; [|split]]].
  - split; [exact K2|]. split.
    + cbn [back]. rewrite lset_length, B. f_equal. unfold capacity. now rewrite O2.
    + split; cbn [elinks links]; rewrite ?K1, ?K3; auto.
  - now rewrite O2.
  - exact R2.
  - cbn [links]. rewrite K1, R3, Nat.eqb_refl. reflexivity.
  - intros i Hi. cbn [links]. rewrite K1, R3. destruct (Nat.eqb_spec i id); [contradiction|reflexivity].
Qed.

(** k+1 creations: the last element gets address occupied + k *)
Lemma weak_ties : forall k s, weak s -> exists s' rs id,
  run s (repeat (OTie V) (S k)) = Some (s', rs) /\ adr s' id = Some (occ s + k) /\ adr s id = None /\
  (forall i a, adr s i = Some a -> adr s' i = Some a).
Proof.
  induction k as [|k IH]; intros s W; destruct (weak_tie s W) as [s1 [id [E [W1 [O [A1 [A2 A3]]]]]]].
  - exists s1, [Some id], id. cbn [repeat Storage_Model.run Storage_Model.step]. rewrite E, Nat.add_0_r.
    repeat split; auto. intros i a Hi. rewrite A3; congruence.
  - destruct (IH s1 W1) as [s2 [rs [j [E2 [B1 [B2 B3]]]]]]. exists s2, (Some id :: rs), j.
    change (repeat (OTie V) (S (S k))) with (OTie V :: repeat (OTie V) (S k)).
    cbn [Storage_Model.run Storage_Model.step]. rewrite E, E2. rewrite O in B1.
    split; [reflexivity|]. split; [rewrite B1; f_equal; lia|]. split.
    + destruct (Nat.eq_dec j id) as [->|N]; [congruence|]. rewrite <- A3; auto.
    + intros i a Hi. apply B3. rewrite A3; congruence.
Qed.
End S.

(** ** Sparse records *)
Lemma lookup_none : forall W (r : record W) m, ~ In m (map fst r) -> lookup W r m = None.
Proof.
  induction r as [|[k v] r IH]; intros m H; cbn [lookup map fst In] in *; [reflexivity|].
  destruct (Nat.eqb_spec k m); [intuition|]. apply IH. intuition.
Qed.
Lemma copy_record_nil : forall W tags (r : record W),
  (forall t, In t tags -> ~ In (fst t) (map fst r)) -> copy_record W tags r = [].
Proof.
  intros W tags r. unfold copy_record. generalize (@nil (nat * W)).
  induction tags as [|t tags IH]; intros d H; cbn [fold_left]; [reflexivity|].
  rewrite lookup_none by (apply H; now left). apply IH. intros; apply H; now right.
Qed.
