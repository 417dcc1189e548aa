(** Properties C50 and C51: copying a mesh. *)
From Coq Require Import List Bool Arith Lia.
From Verif Require Import Util Storage_Model Storage_Proofs Storage_Props Copy_Model Copy_Proofs.
Import ListNotations.

Section S.
Variable V : Type.
Variable dflt : V.
Variable chunk : nat.
Variable minsz : nat.
Variable spc : V -> V.
Hypothesis chunk_pos : 0 < chunk.

Notation run := (run V dflt chunk minsz).
Notation init := (init V dflt chunk minsz).
Notation copy := (copy V dflt chunk minsz spc).
Notation reorder := (reorder V dflt chunk minsz).
Notation read := (read V dflt).
Notation adr s id := (nth id (links V s) None).

Lemma reachable_inv : forall h s rs, run init h = Some (s, rs) -> inv V dflt chunk minsz s.
Proof.
  intros h s rs E.
  destruct (run_sim V dflt chunk minsz chunk_pos _ _ _ _ _ (sim_init V dflt chunk minsz chunk_pos) E) as [_ M].
  apply (m_inv _ _ _ _ _ _ M).
Qed.

(** ** C51 *)

(** Copying after any history gives the same elements with the same dense data,
    and any further calls other than ReorderEmpty succeed on the copy exactly
    when they do on the original, return the same and leave the same data. *)
Theorem C51_copy : forall h s rs, run init h = Some (s, rs) ->
  (forall c i, read (copy s) c i = read s c i) /\
  forall h2, ~ In (OReorder V) h2 ->
    match run (copy s) h2, run s h2 with
    | Some (s1, r1), Some (s2, r2) => r1 = r2 /\ links V s1 = links V s2 /\ forall c i, read s1 c i = read s2 c i
    | None, None => True
    | _, _ => False
    end.
Proof using chunk_pos.
  intros h s rs E. pose proof (reachable_inv h s rs E) as I.
  pose proof (copy_similar V dflt chunk minsz spc chunk_pos s I) as S. split.
  - intros c i. now apply similar_read.
  - intros h2 N. pose proof (similar_run V dflt chunk minsz spc h2 _ _ N S) as K.
    destruct (run (copy s) h2) as [[s1 r1]|], (run s h2) as [[s2 r2]|]; auto.
    destruct K as [-> K]. split; [reflexivity|]. split; [apply K|]. intros c i. now apply similar_read.
Qed.

(** number of existing elements *)
Definition count (s : st V) : nat := length (links V s) - length (elinks V s).

(** If some element lies beyond the compacted size, ReorderEmpty of the copy
    succeeds but leaves it there, and after enough creations a new element has
    the address of that element. *)
Theorem C51_compacted_copy_overlaps : forall h s rs i a, run init h = Some (s, rs) ->
  adr s i = Some a -> count s <= a ->
  exists s1, reorder (copy s) = Some s1 /\
  exists s2 ids j, run s1 (repeat (OTie V) (S (a - count s))) = Some (s2, ids) /\
    j <> i /\ adr s2 j = Some a /\ adr s2 i = Some a.
Proof using chunk_pos.
  intros h s rs i a E A C. pose proof (reachable_inv h s rs E) as I.
  destruct (copy_reorder_weak V dflt chunk minsz spc chunk_pos s I) as [s1 [R [W [L O]]]].
  exists s1. split; [exact R|].
  destruct (weak_ties V dflt chunk minsz spc chunk_pos (a - count s) s1 W) as [s2 [ids [j [R2 [B1 [B2 B3]]]]]].
  exists s2, ids, j. split; [exact R2|]. rewrite O in B1. fold (count s) in B1.
  split; [|split].
  - intros ->. rewrite L in B2. congruence.
  - rewrite B1. f_equal. lia.
  - apply B3. now rewrite L.
Qed.

(** Otherwise (nothing to move) compaction of the copy is harmless. *)
Theorem C51_compact_source : forall h s rs, run init h = Some (s, rs) ->
  (forall i a, adr s i = Some a -> a < count s) ->
  exists s1, reorder (copy s) = Some s1 /\ (forall c i, read s1 c i = read s c i) /\
    forall i, adr s1 i = adr s i.
Proof using chunk_pos.
  intros h s rs E C. pose proof (reachable_inv h s rs E) as I.
  rewrite copy_reorder. eexists. split; [reflexivity|]. split; [|reflexivity].
  intros c i. rewrite <- (similar_read V dflt _ _ c i (copy_similar V dflt chunk minsz spc chunk_pos s I)).
  pose proof I as [T D F P].
  set (t := copy s).
  set (s2 := St V (links V t) (back V t) [] (elinks V t) (modif V t) (cols V t) (sparse V t) (needsp V t)).
  assert (O2 : occupied V s2 = count s) by (unfold occupied, count, s2, t; cbn; lia).
  unfold Storage_Model.read. cbn [links realloc s2]. change (links V t) with (links V s).
  destruct (nth_error (links V s) i) as [[a|]|] eqn:A; auto.
  apply nth_error_opt in A. specialize (C i a A).
  assert (B : a < at_least minsz (capacity V chunk s2)).
  { pose proof (atl_ge minsz (capacity V chunk s2)). unfold capacity in *.
    pose proof (roundup_ge chunk chunk_pos (occupied V s2)). lia. }
  cbn [cols back realloc]. rewrite resize_length. destruct (Nat.ltb_spec a (at_least minsz (capacity V chunk s2))); [|lia].
  rewrite nth_error_map. change (cols V s2) with (cols V t).
  destruct (nth_error (cols V t) c) as [col|]; [|reflexivity]. cbn [option_map].
  assert (Hb : a < length (back V t)).
  { destruct (copy_similar V dflt chunk minsz spc chunk_pos s I) as (_ & _ & _ & _ & _ & _ & H7 & _). fold t in H7. rewrite H7.
    apply (t_lk _ _ T) in A. eapply nth_Some_lt; eauto. }
  destruct (Nat.ltb_spec a (length (back V t))); [|lia]. f_equal. unfold resize_col. rewrite nth_resize.
  pose proof (roundup_ge chunk chunk_pos (at_least minsz (capacity V chunk s2))).
  destruct (Nat.ltb_spec a (roundup chunk (at_least minsz (capacity V chunk s2)))); [reflexivity|lia].
Qed.
End S.
Print Assumptions C51_copy.
Print Assumptions C51_compacted_copy_overlaps.
Print Assumptions C51_compact_source.

(** Three elements, the first destroyed: the third is beyond the compacted size. *)
Definition ex := [ONewDense nat; OTie nat; OTie nat; OTie nat; OWrite nat 0 2 7; OWrite nat 0 1 5; ODestroy nat 0].
Example C51_nonvacuous :
  match run nat 0 4 1 (init nat 0 4 1) ex with
  | Some (s, _) =>
    nth 2 (links nat s) None = Some 2 /\ count nat s = 2 /\
    read nat 0 (copy nat 0 4 1 (fun v => v) s) 0 2 = Some 7 /\
    match reorder nat 0 4 1 (copy nat 0 4 1 (fun v => v) s) with
    | Some s1 =>
      match run nat 0 4 1 s1 [OTie nat; OWrite nat 0 0 9] with
      | Some (s2, [Some j; None]) => j = 0 /\ read nat 0 s2 0 2 = Some 9
      | _ => False
      end
    | None => False
    end
  | None => False
  end.
Proof. vm_compute. auto 10. Qed.
Example C51_compact_nonvacuous :
  match run nat 0 4 1 (init nat 0 4 1) (ex ++ [OReorder nat]) with
  | Some (s, _) =>
    links nat s = [None; Some 1; Some 0] /\ count nat s = 2
  | None => False
  end.
Proof. vm_compute. auto. Qed.

(** ** C50 *)

(** Tags of different meshes have different identities: no sparse value of any
    record is copied. *)
Theorem C50_sparse_dropped : forall W (tags : list (nat * nat)) (r : record W),
  (forall t, In t tags -> ~ In (fst t) (map snd tags)) ->
  (forall m, In m (map fst r) -> In m (map snd tags)) ->
  copy_record W tags r = [] /\ forall t, In t tags -> lookup W (copy_record W tags r) (fst t) = None.
Proof.
  intros W tags r H1 H2. assert (E : copy_record W tags r = []).
  { apply copy_record_nil. intros t Ht K. apply (H1 t Ht). auto. }
  split; [exact E|]. intros t _. now rewrite E.
Qed.
Print Assumptions C50_sparse_dropped.

(** So the statement that copying keeps sparse data is false. *)
Theorem C50_kept_refuted :
  ~ (forall W (tags : list (nat * nat)) (r : record W) t,
     (forall t, In t tags -> ~ In (fst t) (map snd tags)) -> NoDup (map fst tags) -> NoDup (map snd tags) ->
     In t tags -> lookup W (copy_record W tags r) (fst t) = lookup W r (snd t)).
Proof.
  intros H. specialize (H nat [(10, 1)] [(1, 5)] (10, 1)).
  assert (E : lookup nat (copy_record nat [(10, 1)] [(1, 5)]) 10 = lookup nat [(1, 5)] 1).
  { apply H; cbn; intuition; try (repeat constructor; cbn; tauto). subst. cbn in *. discriminate. }
  discriminate.
Qed.
Print Assumptions C50_kept_refuted.

(** In the whole copy: with records of sparse values, every element of the copy
    has an empty record, whatever the original has. *)
Theorem C50_copy : forall W chunk minsz tags h s rs, 0 < chunk ->
  run (record W) [] chunk minsz (init (record W) [] chunk minsz) h = Some (s, rs) ->
  (forall t, In t tags -> ~ In (fst t) (map snd tags)) ->
  (forall i r, read_sparse (record W) s i = Some r -> forall m, In m (map fst r) -> In m (map snd tags)) ->
  forall i r, read_sparse (record W) (copy (record W) [] chunk minsz (copy_record W tags) s) i = Some r -> r = [].
Proof.
  intros W chunk minsz tags h s rs Hc E H1 H2 i r R.
  pose proof (reachable_inv (record W) [] chunk minsz Hc h s rs E) as I.
  pose proof I as [T D F P].
  unfold read_sparse in R. cbn [Copy_Model.copy links sparse realloc] in R.
  destruct (nth_error (links (record W) s) i) as [[a|]|] eqn:A; try discriminate.
  destruct (needsp (record W) s) eqn:N; [|destruct a; discriminate].
  assert (L : a < length (copy_live (record W) [] (copy_record W tags) (links (record W) s) (sparse (record W) s)
    (resize (@nil (record W)) (at_least minsz (capacity (record W) chunk s)) []))).
  { apply nth_error_Some. intros K. assert (Some r = None) by (rewrite <- K; symmetry; exact R). discriminate. }
  assert (K := eq_trans (eq_sym R) (nth_error_nth' _ [] L)). injection K as ->. rewrite copy_live_length in L.
  rewrite (copy_live_nth _ _ _ (copy_record W tags) Hc) by auto. destruct (existsb _ _).
  - apply copy_record_nil. intros t Ht K. apply (H1 t Ht). apply (H2 i (nth a (sparse (record W) s) [])); auto.
    unfold read_sparse. rewrite A. apply nth_error_nth'. rewrite (d_splen _ _ _ _ D), N.
    apply nth_error_opt in A. apply (t_lk _ _ T) in A. eapply nth_Some_lt; eauto.
  - unfold resize. rewrite firstn_nil, app_nil_l. apply nth_repeat_d.
Qed.
Print Assumptions C50_copy.
Example C50_nonvacuous :
  match run (record nat) [] 4 1 (init (record nat) [] 4 1)
      [ONewSparse _; OTie _; OTie _; OWriteSparse _ 1 [(1, 5); (2, 6)]] with
  | Some (s, _) =>
    read_sparse _ s 1 = Some [(1, 5); (2, 6)] /\
    read_sparse _ (copy (record nat) [] 4 1 (copy_record nat [(10, 1); (20, 2)]) s) 1 = Some []
  | None => False
  end.
Proof. vm_compute. auto. Qed.
