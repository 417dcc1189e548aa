(** Properties C14, C15, C18: element storage. *)
From Coq Require Import List Bool Arith Lia.
From Verif Require Import Util Storage_Model Storage_Proofs.
Import ListNotations.

Section S.
Variable V : Type.
Variable dflt : V.
Variable chunk : nat.
Variable minsz : nat.

(** ** Specification: what a history of calls means, with no addresses.
    An element is alive or not; every dense tag gives a value for every element;
    one sparse record per element. *)
Record ab := Ab {
  alive : nat -> bool;
  ncol : nat;
  val : nat -> nat -> V;     (* tag, element *)
  hassp : bool;
  spv : nat -> V;
  amod : bool
}.

Definition a0 : ab := Ab (fun _ => false) 0 (fun _ _ => dflt) false (fun _ => dflt) false.

(** Which calls are legal. *)
Definition allowed (A : ab) (o : op V) : bool :=
  match o with
  | ODestroy _ id => negb (amod A) && alive A id
  | OWrite _ c id _ => alive A id && (c <? ncol A)
  | OWriteSparse _ id _ => alive A id && hassp A
  | _ => true
  end.

(** Effect of a call that returned [r]. *)
Definition after (A : ab) (o : op V) (r : option nat) : ab :=
  match o, r with
  | OTie _, Some n =>
      Ab (fun i => (i =? n) || alive A i) (ncol A)
         (fun c i => if i =? n then dflt else val A c i) (hassp A)
         (fun i => if i =? n then dflt else spv A i) (amod A)
  | OTie _, None => A
  | ODestroy _ id, _ =>
      Ab (fun i => negb (i =? id) && alive A i) (ncol A) (val A) (hassp A) (spv A) (amod A)
  | OReorder _, _ => A
  | OWrite _ c id v, _ =>
      Ab (alive A) (ncol A) (fun d i => if (d =? c) && (i =? id) then v else val A d i)
         (hassp A) (spv A) (amod A)
  | OWriteSparse _ id v, _ =>
      Ab (alive A) (ncol A) (val A) (hassp A)
         (fun i => if i =? id then v else spv A i) (amod A)
  | ONewDense _, _ =>
      Ab (alive A) (S (ncol A)) (fun d i => if d =? ncol A then dflt else val A d i)
         (hassp A) (spv A) (amod A)
  | ONewSparse _, _ =>
      Ab (alive A) (ncol A) (val A) true
         (fun i => if hassp A then spv A i else dflt) (amod A)
  | OModif _ b, _ => Ab (alive A) (ncol A) (val A) (hassp A) (spv A) b
  end.

Fixpoint spec (A : ab) (h : list (op V)) (rs : list (option nat)) : ab :=
  match h, rs with
  | o :: h', r :: rs' => spec (after A o r) h' rs'
  | _, _ => A
  end.

(** The values returned are right: creations return a fresh id, nothing else
    returns one. *)
Fixpoint legal (A : ab) (h : list (op V)) (rs : list (option nat)) : Prop :=
  match h, rs with
  | [], [] => True
  | o :: h', r :: rs' =>
      allowed A o = true /\
      (match o, r with
       | OTie _, Some n => alive A n = false
       | OTie _, None => False
       | _, Some _ => False
       | _, None => True
       end) /\ legal (after A o r) h' rs'
  | _, _ => False
  end.

Definition agrees (s : st V) (A : ab) : Prop :=
  (forall c i, read V dflt s c i =
     if alive A i && (c <? ncol A) then Some (val A c i) else None) /\
  (forall i, read_sparse V s i =
     if alive A i && hassp A then Some (spv A i) else None).

(** The list of live ids of a history. *)
Fixpoint live (L : list nat) (h : list (op V)) (rs : list (option nat)) : list nat :=
  match h, rs with
  | OTie _ :: h', Some n :: rs' => live (n :: L) h' rs'
  | ODestroy _ id :: h', _ :: rs' => live (remove Nat.eq_dec id L) h' rs'
  | _ :: h', _ :: rs' => live L h' rs'
  | _, _ => L
  end.

Definition creations (h : list (op V)) : nat :=
  length (filter (fun o => match o with OTie _ => true | _ => false end) h).
Definition destructions (h : list (op V)) : nat :=
  length (filter (fun o => match o with ODestroy _ _ => true | _ => false end) h).

Hypothesis chunk_pos : 0 < chunk.

Notation run := (run V dflt chunk minsz).
Notation step := (step V dflt chunk minsz).
Notation init := (init V dflt chunk minsz).
Notation inv := (inv V dflt chunk minsz).
Notation adr s id := (nth id (links V s) None).

Record sim (s : st V) (A : ab) : Prop := {
  m_inv : inv s;
  m_alive : forall i, alive A i = match adr s i with Some _ => true | None => false end;
  m_ncol : length (cols V s) = ncol A;
  m_sp : needsp V s = hassp A;
  m_mod : modif V s = amod A;
  m_val : forall c i, alive A i = true -> c < ncol A -> rdc V dflt s c i = Some (val A c i);
  m_spv : forall i, alive A i = true -> hassp A = true -> rds V dflt s i = Some (spv A i)
}.

Lemma sim_agrees : forall s A, sim s A -> agrees s A.
Proof.
  intros s A M. split.
  - intros c i. rewrite read_rdc by apply (m_inv _ _ M).
    destruct (alive A i) eqn:E; cbn [andb].
    + destruct (Nat.ltb_spec c (ncol A)).
      * now apply (m_val _ _ M).
      * unfold rdc. destruct (adr s i); auto.
        rewrite (proj2 (nth_error_None _ _)); auto. rewrite (m_ncol _ _ M). lia.
    + unfold rdc. rewrite (m_alive _ _ M) in E. destruct (adr s i); [discriminate|auto].
  - intro i. pose proof (m_inv _ _ M) as I.
    rewrite (read_rds V dflt chunk) by apply I.
    destruct (alive A i) eqn:E; cbn [andb].
    + destruct (hassp A) eqn:Hs.
      * now apply (m_spv _ _ M).
      * unfold rds. rewrite (m_sp _ _ M), Hs. now destruct (adr s i).
    + unfold rds. rewrite (m_alive _ _ M) in E. destruct (adr s i); [discriminate|auto].
Qed.

Lemma alive_adr : forall s A i, sim s A -> (alive A i = true <-> adr s i <> None).
Proof.
  intros s A i M. rewrite (m_alive _ _ M). destruct (adr s i); split; congruence.
Qed.

Lemma step_sim : forall s A o, sim s A -> allowed A o = true ->
  exists s' r, step s o = Some (s', r) /\ sim s' (after A o r) /\
    (match o, r with
     | OTie _, Some n => alive A n = false
     | OTie _, None => False
     | _, Some _ => False
     | _, None => True
     end).
Proof.
  intros s A o M Hal. pose proof (m_inv _ _ M) as I.
  destruct o as [|id| |c id v|id v| | |b]; cbn [Storage_Model.step allowed] in *.
  - destruct (tie_ok V dflt chunk minsz chunk_pos s I)
      as (s' & n & E & I' & H1 & H2 & H3 & H4 & H5 & H6 & H7 & H8 & H9 & H10).
    rewrite E. exists s', (Some n). split; auto.
    assert (Hn : alive A n = false) by (rewrite (m_alive _ _ M), H1; auto).
    split; [|auto]. split; cbn [after alive ncol val hassp spv amod]; auto.
    + intro i. destruct (Nat.eqb_spec i n) as [->|Hi]; cbn [orb].
      * destruct (adr s' n); [auto|tauto].
      * rewrite H2 by auto. apply (m_alive _ _ M).
    + rewrite H9. apply (m_ncol _ _ M).
    + rewrite H10. apply (m_sp _ _ M).
    + rewrite H8. apply (m_mod _ _ M).
    + intros c i. destruct (Nat.eqb_spec i n) as [->|Hi]; cbn [orb].
      * intros _ Hc. rewrite H6, (m_ncol _ _ M).
        destruct (Nat.ltb_spec c (ncol A)); [auto|lia].
      * intros Ha Hc. rewrite H4 by auto. now apply (m_val _ _ M).
    + intros i. destruct (Nat.eqb_spec i n) as [->|Hi]; cbn [orb].
      * intros _ Hc. now rewrite H7, (m_sp _ _ M), Hc.
      * intros Ha Hc. rewrite H5 by auto. now apply (m_spv _ _ M).
  - apply andb_prop in Hal. destruct Hal as [Hm Ha]. apply negb_true_iff in Hm.
    destruct (destroy_ok V dflt chunk minsz chunk_pos s id I)
      as (s' & E & I' & H1 & H2 & H3 & H4 & H5 & H6).
    { now rewrite (m_mod _ _ M). }
    { now apply (alive_adr s A). }
    rewrite E. exists s', None. split; auto. split; [|auto].
    split; cbn [after alive ncol val hassp spv amod]; auto.
    + intro i. rewrite H1. destruct (i =? id); cbn [negb andb]; auto. apply (m_alive _ _ M).
    + rewrite H5. apply (m_ncol _ _ M).
    + rewrite H6. apply (m_sp _ _ M).
    + rewrite H4. apply (m_mod _ _ M).
    + intros c i. destruct (Nat.eqb_spec i id) as [->|Hi]; cbn [negb andb]; [discriminate|].
      intros Hi2 Hc. rewrite H2 by auto. now apply (m_val _ _ M).
    + intros i. destruct (Nat.eqb_spec i id) as [->|Hi]; cbn [negb andb]; [discriminate|].
      intros Hi2 Hc. rewrite H3 by auto. now apply (m_spv _ _ M).
  - destruct (reorder_ok V dflt chunk minsz chunk_pos s I)
      as (s' & E & I' & H1 & H2 & H3 & H4 & H5 & H6 & H7).
    rewrite E. exists s', None. split; auto. split; [|auto].
    split; cbn [after alive ncol val hassp spv amod]; auto.
    + intro i. rewrite (m_alive _ _ M). specialize (H3 i).
      destruct (adr s' i), (adr s i); auto; [destruct H3 as [_ H3]|destruct H3 as [H3 _]];
      specialize (H3 eq_refl); discriminate.
    + rewrite H6. apply (m_ncol _ _ M).
    + rewrite H7. apply (m_sp _ _ M).
    + rewrite H5. apply (m_mod _ _ M).
    + intros c i. rewrite H1. apply (m_val _ _ M).
    + intros i. rewrite H2. apply (m_spv _ _ M).
  - apply andb_prop in Hal. destruct Hal as [Ha Hc]. apply Nat.ltb_lt in Hc.
    destruct (write_ok V dflt chunk minsz chunk_pos s c id v I)
      as (s' & E & I' & H1 & H2 & H3 & H4 & H5 & H6).
    { now apply (alive_adr s A). }
    { now rewrite (m_ncol _ _ M). }
    rewrite E. exists s', None. split; auto. split; [|auto].
    split; cbn [after alive ncol val hassp spv amod]; auto.
    + intro i. rewrite H1. apply (m_alive _ _ M).
    + rewrite H5. apply (m_ncol _ _ M).
    + rewrite H6. apply (m_sp _ _ M).
    + rewrite H4. apply (m_mod _ _ M).
    + intros d i Hi Hd. rewrite H2. destruct ((d =? c) && (i =? id)); auto.
      now apply (m_val _ _ M).
    + intros i. rewrite H3. apply (m_spv _ _ M).
  - apply andb_prop in Hal. destruct Hal as [Ha Hc].
    destruct (write_sparse_ok V dflt chunk minsz s id v I)
      as (s' & E & I' & H1 & H2 & H3 & H4 & H5 & H6).
    { now apply (alive_adr s A). }
    { now rewrite (m_sp _ _ M). }
    rewrite E. exists s', None. split; auto. split; [|auto].
    split; cbn [after alive ncol val hassp spv amod]; auto.
    + intro i. rewrite H1. apply (m_alive _ _ M).
    + rewrite H5. apply (m_ncol _ _ M).
    + rewrite H6. apply (m_sp _ _ M).
    + rewrite H4. apply (m_mod _ _ M).
    + intros d i. rewrite H2. apply (m_val _ _ M).
    + intros i Hi Hs. rewrite H3. destruct (i =? id); auto. now apply (m_spv _ _ M).
  - destruct (new_dense_ok V dflt chunk minsz s I) as (I' & H1 & H2 & H3 & H4).
    eexists _, None. split; [reflexivity|]. split; [|auto].
    split; cbn [after alive ncol val hassp spv amod]; auto.
    + intro i. rewrite H1. apply (m_alive _ _ M).
    + rewrite H4. f_equal. apply (m_ncol _ _ M).
    + apply (m_sp _ _ M).
    + apply (m_mod _ _ M).
    + intros d i Hi Hd. rewrite H2, (m_ncol _ _ M). rewrite <- (m_alive _ _ M), Hi, andb_true_r.
      destruct (Nat.eqb_spec d (ncol A)); auto. apply (m_val _ _ M); auto. lia.
    + intros i. rewrite H3. apply (m_spv _ _ M).
  - destruct (new_sparse_ok V dflt chunk minsz s I) as (I' & H1 & H2 & H3).
    eexists _, None. split; [reflexivity|]. split; [|auto].
    split; cbn [after alive ncol val hassp spv amod]; auto.
    + intro i. rewrite H1. apply (m_alive _ _ M).
    + apply (m_ncol _ _ M).
    + apply (m_mod _ _ M).
    + intros d i. rewrite H2. apply (m_val _ _ M).
    + intros i Hi _. rewrite H3, (m_sp _ _ M). destruct (hassp A) eqn:Hs.
      * now apply (m_spv _ _ M).
      * rewrite (m_alive _ _ M) in Hi. destruct (adr s i); [auto|discriminate].
  - destruct (set_modif_ok V dflt chunk minsz s b I) as (I' & H1 & H2 & H3).
    eexists _, None. split; [reflexivity|]. split; [|auto].
    split; cbn [after alive ncol val hassp spv amod]; auto; try apply M.
Qed.

Lemma step_refused : forall s A o, sim s A -> allowed A o = false -> step s o = None.
Proof.
  intros s A o M H. pose proof (m_inv _ _ M) as I.
  destruct o as [|id| |c id v|id v| | |b]; cbn [allowed] in H; try discriminate;
  cbn [Storage_Model.step].
  - rewrite destroy_refused; auto. rewrite (m_mod _ _ M).
    destruct (amod A); [auto|]. cbn in H. right. rewrite (m_alive _ _ M) in H.
    destruct (adr s id); [discriminate|auto].
  - rewrite write_refused; auto. rewrite (m_ncol _ _ M).
    apply andb_false_iff in H. destruct H as [H|H].
    + left. rewrite (m_alive _ _ M) in H. destruct (adr s id); [discriminate|auto].
    + right. apply Nat.ltb_ge in H. lia.
  - rewrite (write_sparse_refused V dflt chunk minsz); auto. rewrite (m_sp _ _ M).
    apply andb_false_iff in H. destruct H as [H|H]; auto.
    left. rewrite (m_alive _ _ M) in H. destruct (adr s id); [discriminate|auto].
Qed.

Lemma sim_init : sim init a0.
Proof.
  split; cbn [a0 alive ncol hassp amod]; auto; try discriminate.
  - now apply init_ok.
  - intro i. now destruct i.
Qed.

Lemma run_sim : forall h s A s' rs, sim s A -> run s h = Some (s', rs) ->
  legal A h rs /\ sim s' (spec A h rs).
Proof.
  induction h as [|o h IH]; intros s A s' rs M E; cbn [Storage_Model.run] in E.
  - injection E as <- <-. split; [exact Logic.I|exact M].
  - destruct (allowed A o) eqn:Hal.
    + destruct (step_sim s A o M Hal) as (s1 & r & E1 & M1 & Hr). rewrite E1 in E.
      destruct (run s1 h) as [[s2 rs2]|] eqn:E2; [|discriminate].
      injection E as <- <-. destruct (IH _ _ _ _ M1 E2) as [L1 L2].
      cbn [legal spec]. auto.
    + rewrite (step_refused _ _ _ M Hal) in E. discriminate.
Qed.

(** C18: data written is read back, and changes nothing else.
    Reads after any history are those of the specification; a creation returns an
    id not in use; a call is refused exactly when it is not legal. *)
Theorem C18_storage_read_over_write : forall h s rs,
  run init h = Some (s, rs) ->
  legal a0 h rs /\ agrees s (spec a0 h rs) /\
  (forall o, step s o <> None <-> allowed (spec a0 h rs) o = true).
Proof.
  intros h s rs E. destruct (run_sim _ _ _ _ _ sim_init E) as [L M].
  split; auto. split; [now apply sim_agrees|]. intro o. split; intro H.
  - destruct (allowed (spec a0 h rs) o) eqn:Ho; auto.
    now rewrite (step_refused _ _ _ M Ho) in H.
  - destruct (step_sim _ _ _ M H) as (s1 & r & E1 & _). congruence.
Qed.

(** Live list of a history against the specification. *)
Lemma live_spec : forall h A L rs, legal A h rs ->
  NoDup L -> (forall i, In i L <-> alive A i = true) ->
  NoDup (live L h rs) /\
  (forall i, In i (live L h rs) <-> alive (spec A h rs) i = true) /\
  length (live L h rs) + destructions h = length L + creations h.
Proof.
  induction h as [|o h IH]; intros A L rs HL N HA.
  - destruct rs; [|destruct HL]. cbn. repeat split; auto; try apply HA. 
  - destruct rs as [|r rs]; [destruct HL|]. cbn [legal] in HL. destruct HL as (Hal & Hr & HL).
    assert (Hrem : forall i, In i L -> NoDup (remove Nat.eq_dec i L) /\
       S (length (remove Nat.eq_dec i L)) = length L).
    { clear - N. intros i Hi. induction L as [|x l IHl]; [destruct Hi|].
      inversion N as [|? ? Hx Nl]; subst. cbn [remove].
      destruct (Nat.eq_dec i x) as [<-|Hne].
      - rewrite notin_remove by auto. auto.
      - destruct Hi as [->|Hi]; [congruence|]. destruct (IHl Nl Hi) as [G1 G2].
        split; [|cbn [length]; lia]. constructor; auto.
        intro G. apply in_remove in G. tauto. }
    destruct o as [|id| |c id v|id v| | |b]; destruct r as [n|]; try (exfalso; exact Hr);
      cbn [live spec]; unfold creations, destructions; cbn [filter length];
      fold (creations h); fold (destructions h).
    + destruct (IH _ (n :: L) rs HL) as (G1 & G2 & G3).
      * constructor; auto. intro G. apply HA in G. congruence.
      * intro i. cbn [after alive In]. rewrite HA.
        destruct (Nat.eqb_spec i n); cbn [orb]; split; auto; intros [?|?]; congruence.
      * repeat split; auto; try apply G2. cbn [length] in G3. lia.
    + cbn [allowed] in Hal. apply andb_prop in Hal. destruct Hal as [_ Hal].
      destruct (Hrem id) as [R1 R2]; [now apply HA|].
      destruct (IH _ (remove Nat.eq_dec id L) rs HL R1) as (G1 & G2 & G3).
      * intro i. cbn [after alive]. destruct (Nat.eqb_spec i id) as [->|Hi]; cbn [negb andb].
        -- split; [|discriminate]. intro G. exfalso. now apply remove_In in G.
        -- rewrite <- HA. split; intro G; [now apply in_remove in G|now apply in_in_remove].
      * repeat split; auto; try apply G2. lia.
    + destruct (IH _ L rs HL N) as (G1 & G2 & G3); [intro; apply HA|]. repeat split; auto; apply G2.
    + destruct (IH _ L rs HL N) as (G1 & G2 & G3); [intro; apply HA|]. repeat split; auto; apply G2.
    + destruct (IH _ L rs HL N) as (G1 & G2 & G3); [intro; apply HA|]. repeat split; auto; apply G2.
    + destruct (IH _ L rs HL N) as (G1 & G2 & G3); [intro; apply HA|]. repeat split; auto; apply G2.
    + destruct (IH _ L rs HL N) as (G1 & G2 & G3); [intro; apply HA|]. repeat split; auto; apply G2.
    + destruct (IH _ L rs HL N) as (G1 & G2 & G3); [intro; apply HA|]. repeat split; auto; apply G2.
Qed.

(** C14: after any history the live ids are those created and not destroyed, they
    have distinct addresses inside every allocated array, the reverse table agrees,
    and the element count is creations minus destructions. *)
Theorem C14_live_elements_distinct : forall h s rs,
  run init h = Some (s, rs) ->
  let L := live [] h rs in
  NoDup L /\
  (forall i, In i L <-> exists a, nth_error (links V s) i = Some (Some a)) /\
  (forall i j a, nth_error (links V s) i = Some (Some a) ->
                 nth_error (links V s) j = Some (Some a) -> i = j) /\
  (forall i a, nth_error (links V s) i = Some (Some a) <->
               nth_error (back V s) a = Some (Some i)) /\
  (forall i a, nth_error (links V s) i = Some (Some a) ->
     a < capacity V chunk s /\ a < length (back V s) /\
     (forall c, In c (cols V s) -> a < length c) /\
     (needsp V s = true -> a < length (sparse V s))) /\
  length (links V s) - length (elinks V s) = length L /\
  length L = creations h - destructions h.
Proof.
  intros h s rs E L. destruct (run_sim _ _ _ _ _ sim_init E) as [HL M].
  destruct (live_spec h a0 [] rs HL) as (G1 & G2 & G3); [constructor|cbn; split; [tauto|discriminate]|].
  fold L in G1, G2, G3.
  pose proof (m_inv _ _ M) as [T D F P].
  assert (GL : forall i, In i L <-> adr s i <> None).
  { intro i. rewrite G2. now apply alive_adr. }
  split; auto. split; [|split; [|split; [|split; [|split]]]].
  - intro i. rewrite GL. split.
    + intro Hi. destruct (adr s i) as [a|] eqn:Ea; [|tauto]. exists a. now apply nth_error_opt.
    + intros (a & Ha). apply nth_error_opt in Ha. congruence.
  - intros i j a Hi Hj. apply nth_error_opt in Hi, Hj. apply (t_lk _ _ T) in Hi, Hj. congruence.
  - intros i a. rewrite !nth_error_opt. split; [apply (t_lk _ _ T)|apply (t_bk _ _ T)].
  - intros i a Hi. apply nth_error_opt in Hi. apply (t_lk _ _ T) in Hi.
    pose proof (p_occ _ _ _ _ P _ _ Hi). pose proof (nth_Some_lt _ _ _ _ Hi).
    split; [unfold capacity; pose proof (roundup_ge chunk chunk_pos (occupied V s)); lia|].
    split; auto. split.
    + intros c Hc. rewrite (d_len _ _ _ _ D c Hc).
      pose proof (roundup_ge chunk chunk_pos (length (back V s))). lia.
    + intro Hn. rewrite (d_splen _ _ _ _ D), Hn. auto.
  - pose proof (lives_count V s F) as Hc.
    enough (length L = length (lives V s)) by lia.
    apply PeanoNat.Nat.le_antisymm; apply NoDup_incl_length; auto; try apply lives_nodup.
    + intros x Hx. apply lives_in. now apply GL.
    + intros x Hx. apply GL. now apply lives_in.
  - cbn [length] in G3. lia.
Qed.

(** C15: ReorderEmpty succeeds in every reachable state; ids, data and sparse data
    are unchanged; the live elements then occupy exactly the addresses 0..n-1, and
    no hole is left. *)
Theorem C15_reorder_empty_compacts : forall h s rs,
  run init h = Some (s, rs) ->
  exists s', reorder V dflt chunk minsz s = Some s' /\
  (forall c i, read V dflt s' c i = read V dflt s c i) /\
  (forall i, read_sparse V s' i = read_sparse V s i) /\
  (forall i, (exists a, nth_error (links V s') i = Some (Some a)) <->
             (exists a, nth_error (links V s) i = Some (Some a))) /\
  (forall a, a < length (live [] h rs) <->
             exists i, nth_error (links V s') i = Some (Some a)) /\
  espace V s' = [].
Proof.
  intros h s rs E.
  destruct (C14_live_elements_distinct h s rs E) as (G1 & G2 & _ & _ & _ & G3 & _).
  destruct (run_sim _ _ _ _ _ sim_init E) as [HL M].
  pose proof (m_inv _ _ M) as I.
  destruct (reorder_ok V dflt chunk minsz chunk_pos s I)
    as (s' & E' & I' & H1 & H2 & H3 & H4 & H5 & H6 & H7).
  exists s'. split; auto. destruct I as [T D F P]. destruct I' as [T' D' F' P'].
  split. { intros c i. rewrite !read_rdc by auto. apply H1. }
  split. { intro i. rewrite !(read_rds V dflt chunk) by auto. apply H2. }
  assert (Hex : forall s0 i, (exists a, nth_error (links V s0) i = Some (Some a)) <-> adr s0 i <> None).
  { intros s0 i. split.
    - intros (a & Ha). apply nth_error_opt in Ha. congruence.
    - intro Hi. destruct (adr s0 i) as [a|] eqn:Ea; [|tauto]. exists a. now apply nth_error_opt. }
  split. { intro i. rewrite !Hex, H3. tauto. }
  split.
  - intro a. pose proof (lives_count V s F) as Hc. specialize (H4 a).
    assert (Hn : length (live [] h rs) = length (lives V s)) by lia. rewrite Hn. split.
    + intro Ha. destruct (nth a (back V s') None) as [i|] eqn:Eo.
      * exists i. apply nth_error_opt. now apply (t_bk _ _ T').
      * destruct H4 as [H4 _]. specialize (H4 eq_refl). lia.
    + intros (i & Hi). apply nth_error_opt in Hi. apply (t_lk _ _ T') in Hi.
      destruct (le_lt_dec (length (lives V s)) a) as [G|G]; auto. apply H4 in G. congruence.
  - destruct (espace V s') as [|x l] eqn:Ee; auto. exfalso.
    unfold reorder in E'. destruct (compact _ _ _ _ _); [|discriminate].
    injection E' as <-. discriminate.
Qed.
End S.

Print Assumptions C14_live_elements_distinct.
Print Assumptions C15_reorder_empty_compacts.
Print Assumptions C18_storage_read_over_write.

(** A history with a new tag, creations, writes, a destruction, creation inside a
    modification (which leaves the hole), sparse data and a compaction. *)
Definition ex_h : list (op nat) :=
  [ONewDense _; OTie _; OTie _; OTie _; OWrite _ 0 2 7; OWrite _ 0 1 5; ONewSparse _;
   OWriteSparse _ 2 9; ODestroy _ 0; OModif _ true; OTie _; OModif _ false; ONewDense _; OTie _].

Example C14_nonvacuous : exists s rs, run nat 0 2 3 (init nat 0 2 3) ex_h = Some (s, rs) /\
  live nat [] ex_h rs = [3; 0; 2; 1] /\
  links nat s = [Some 3; Some 1; Some 2; Some 0] /\ length (back nat s) = 4.
Proof. vm_compute. eexists _, _. auto. Qed.

Definition ex_h2 : list (op nat) :=
  ex_h ++ [ODestroy _ 2; ODestroy _ 3; OWrite _ 0 0 4].

Example C15_nonvacuous : exists s rs s',
  run nat 0 2 3 (init nat 0 2 3) ex_h2 = Some (s, rs) /\
  links nat s = [Some 3; Some 1; None; None] /\
  reorder nat 0 2 3 s = Some s' /\ links nat s' = [Some 0; Some 1; None; None] /\
  read nat 0 s' 0 1 = Some 5 /\ read nat 0 s' 0 0 = Some 4.
Proof. vm_compute. eexists _, _, _. repeat split; reflexivity. Qed.

Example C18_nonvacuous : exists s rs, run nat 0 2 3 (init nat 0 2 3) ex_h = Some (s, rs) /\
  read nat 0 s 0 2 = Some 7 /\ read nat 0 s 0 1 = Some 5 /\ read nat 0 s 0 0 = Some 0 /\
  read nat 0 s 1 2 = Some 0 /\ read_sparse nat s 2 = Some 9 /\ read_sparse nat s 1 = Some 0.
Proof. vm_compute. eexists _, _. repeat split; reflexivity. Qed.
