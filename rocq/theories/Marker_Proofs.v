(** Proofs about markers. *)
From Coq Require Import ZArith List Bool Lia.
From Verif Require Import Util Marker_Model.
Import ListNotations.
Open Scope Z_scope.

(** The three marker families of the library. *)
Definition library_family (f : family) : Prop :=
  f = shared_family \/ f = private_family 32 \/ f = private_family 64.

(** ** Specification: what a history means, without bytes or bits. *)

(** Who is marked with what. *)
Definition ideal_step (es : list (Z * bool)) (m : nat -> Z -> bool) (o : op) : nat -> Z -> bool :=
  match o with
  | OCreate => m
  | OSet e n => fun e' n' => if Nat.eqb e e' && Z.eqb n n' then true else m e' n'
  | ORem e n => fun e' n' => if Nat.eqb e e' && Z.eqb n n' then false else m e' n'
  | ORelease n c => fun e' n' =>
      if Z.eqb n n' && match nth_error es e' with
                       | Some (t, a) => a && negb (Z.land c t =? 0)
                       | None => false
                       end
      then false else m e' n'
  end.
Definition ideal (es : list (Z * bool)) (ops : list op) : nat -> Z -> bool :=
  fold_left (ideal_step es) ops (fun _ _ => false).

(** ** Marker values *)
Definition mk (f : family) (k j : nat) : Z :=
  Z.lor (Z.lor (Z.shiftl (Z.of_nat k) MarkerShift) (2 ^ Z.of_nat j)) (pbit f).

(** All the marker values of a family. *)
Definition all_markers (f : family) : list Z :=
  map (fun p => mk f (fst p) (snd p)) (list_prod (seq 0 (fields f)) (seq 0 8)).

Lemma decode_check : forall f, library_family f ->
  forallb (fun p => (Nat.eqb (pos f (mk f (fst p) (snd p))) (fst p))
                    && (msk f (mk f (fst p) (snd p)) =? 2 ^ Z.of_nat (snd p)))
          (list_prod (seq 0 (fields f)) (seq 0 8)) = true.
Proof. intros f [->|[->| ->]]; vm_compute; reflexivity. Qed.

Lemma decode : forall f k j, library_family f -> (k < fields f)%nat -> (j < 8)%nat ->
  pos f (mk f k j) = k /\ msk f (mk f k j) = 2 ^ Z.of_nat j.
Proof.
  intros f k j Hf Hk Hj. pose proof (decode_check f Hf) as C.
  rewrite forallb_forall in C. specialize (C (k, j)).
  cbn [fst snd] in C. rewrite andb_true_iff in C.
  destruct C as [A B].
  - apply in_prod; apply in_seq; lia.
  - split; [now apply Nat.eqb_eq | now apply Z.eqb_eq].
Qed.

Lemma mk_inj : forall f k j k' j', library_family f ->
  (k < fields f)%nat -> (j < 8)%nat -> (k' < fields f)%nat -> (j' < 8)%nat ->
  mk f k j = mk f k' j' -> k = k' /\ j = j'.
Proof.
  intros f k j k' j' Hf Hk Hj Hk' Hj' E.
  destruct (decode f k j) as [A B]; auto. destruct (decode f k' j') as [A' B']; auto.
  rewrite E in *. split; [congruence|].
  assert (2 ^ Z.of_nat j = 2 ^ Z.of_nat j') as P by congruence.
  apply Z.pow_inj_r in P; lia.
Qed.

Lemma in_all_markers : forall f n,
  In n (all_markers f) <-> exists k j, (k < fields f)%nat /\ (j < 8)%nat /\ n = mk f k j.
Proof.
  intros f n. unfold all_markers. rewrite in_map_iff. split.
  - intros ([k j] & E & I). apply in_prod_iff in I. destruct I as [A B].
    apply in_seq in A, B. exists k, j. cbn in E. repeat split; auto; lia.
  - intros (k & j & Hk & Hj & ->). exists (k, j). split; [reflexivity|].
    apply in_prod; apply in_seq; lia.
Qed.

Fixpoint nodupb (l : list Z) : bool :=
  match l with [] => true | x :: r => negb (existsb (Z.eqb x) r) && nodupb r end.
Lemma nodupb_ok : forall l, nodupb l = true -> NoDup l.
Proof.
  induction l as [|x r IH]; cbn; intros H; [constructor|].
  apply andb_true_iff in H. destruct H as [A B]. constructor; auto.
  intros I. apply negb_true_iff in A.
  assert (existsb (Z.eqb x) r = true); [|congruence].
  apply existsb_exists. exists x. split; [assumption|apply Z.eqb_refl].
Qed.
Lemma all_markers_nodup : forall f, library_family f ->
  NoDup (all_markers f) /\ length (all_markers f) = (8 * fields f)%nat.
Proof.
  intros f [->|[->| ->]]; (split; [apply nodupb_ok|]; vm_compute; reflexivity).
Qed.

(** ** Bits *)
Lemma land_pow2 : forall x j, 0 <= j -> negb (Z.land x (2 ^ j) =? 0) = Z.testbit x j.
Proof.
  intros x j Hj. destruct (Z.testbit x j) eqn:E.
  - apply negb_true_iff, Z.eqb_neq. intros H.
    assert (Z.testbit (Z.land x (2 ^ j)) j = true) as T.
    { rewrite Z.land_spec, E, Z.pow2_bits_true by lia. reflexivity. }
    rewrite H, Z.bits_0 in T. discriminate.
  - apply negb_false_iff, Z.eqb_eq. apply Z.bits_inj'. intros n Hn.
    rewrite Z.land_spec, Z.bits_0, Z.pow2_bits_eqb by lia.
    destruct (Z.eqb_spec j n) as [->|]; [now rewrite E|]. now rewrite andb_false_r.
Qed.

Lemma or_at_bit : forall l k j k' j', (k < length l)%nat ->
  Z.testbit (nth k' (or_at l k (2 ^ Z.of_nat j)) 0) (Z.of_nat j') =
  Z.testbit (nth k' l 0) (Z.of_nat j') || (Nat.eqb k k' && Nat.eqb j j').
Proof.
  intros l k j k' j' Hk. unfold or_at. destruct (Nat.eqb_spec k k') as [<-|Hne].
  - rewrite nth_lset_eq by assumption. rewrite Z.lor_spec. f_equal.
    rewrite Z.pow2_bits_eqb by lia. cbn [andb].
    destruct (Nat.eqb_spec j j'), (Z.eqb_spec (Z.of_nat j) (Z.of_nat j')); auto; lia.
  - rewrite nth_lset_ne by assumption. cbn. now rewrite orb_false_r.
Qed.

Lemma clr_at_bit : forall l k j k' j', (k < length l)%nat ->
  Z.testbit (nth k' (clr_at l k (2 ^ Z.of_nat j)) 0) (Z.of_nat j') =
  Z.testbit (nth k' l 0) (Z.of_nat j') && negb (Nat.eqb k k' && Nat.eqb j j').
Proof.
  intros l k j k' j' Hk. unfold clr_at. destruct (Nat.eqb_spec k k') as [<-|Hne].
  - rewrite nth_lset_eq by assumption. rewrite Z.ldiff_spec. f_equal. f_equal.
    rewrite Z.pow2_bits_eqb by lia. cbn [andb].
    destruct (Nat.eqb_spec j j'), (Z.eqb_spec (Z.of_nat j) (Z.of_nat j')); auto; lia.
  - rewrite nth_lset_ne by assumption. cbn. now rewrite andb_true_r.
Qed.

Lemma or_at_length : forall l k m, length (or_at l k m) = length l.
Proof. intros. apply lset_length. Qed.
Lemma clr_at_length : forall l k m, length (clr_at l k m) = length l.
Proof. intros. apply lset_length. Qed.

Definition is_byte (b : Z) : Prop := 0 <= b < 256.

Lemma byte_check :
  forallb (fun b => forallb (fun j =>
     let b := Z.of_N b in let m := 2 ^ Z.of_nat j in
     (Z.lor b m <? 256) && (0 <=? Z.lor b m) && (Z.ldiff b m <? 256) && (0 <=? Z.ldiff b m)) (seq 0 8))
    (upto 256) = true.
Proof. vm_compute. reflexivity. Qed.
Lemma byte_ops : forall b j, is_byte b -> (j < 8)%nat ->
  is_byte (Z.lor b (2 ^ Z.of_nat j)) /\ is_byte (Z.ldiff b (2 ^ Z.of_nat j)).
Proof.
  intros b j Hb Hj.
  pose proof (forallb_upto 256 _ byte_check (Z.to_N b) ltac:(unfold is_byte in *; lia)) as C.
  cbv beta in C. rewrite forallb_forall in C. specialize (C j ltac:(apply in_seq; lia)).
  cbv zeta in C. rewrite Z2N.id in C by (unfold is_byte in *; lia).
  unfold is_byte. lia.
Qed.
Lemma bytes_or : forall l k j, Forall is_byte l -> (j < 8)%nat ->
  Forall is_byte (or_at l k (2 ^ Z.of_nat j)).
Proof.
  intros l k j H Hj. apply Forall_forall. intros x I. unfold or_at in I.
  apply In_lset in I. destruct I as [-> |I].
  - apply byte_ops; auto. destruct (nth_in_or_default k l 0) as [I|E].
    + rewrite Forall_forall in H. auto.
    + rewrite E. unfold is_byte. lia.
  - rewrite Forall_forall in H. auto.
Qed.
Lemma bytes_clr : forall l k j, Forall is_byte l -> (j < 8)%nat ->
  Forall is_byte (clr_at l k (2 ^ Z.of_nat j)).
Proof.
  intros l k j H Hj. apply Forall_forall. intros x I. unfold clr_at in I.
  apply In_lset in I. destruct I as [-> |I].
  - apply byte_ops; auto. destruct (nth_in_or_default k l 0) as [I|E].
    + rewrite Forall_forall in H. auto.
    + rewrite E. unfold is_byte. lia.
  - rewrite Forall_forall in H. auto.
Qed.

(** ** Creation *)
Lemma free_mask_check :
  forallb (fun b => let b := Z.of_N b in
     if free_mask b =? 0
     then forallb (fun j => Z.testbit b (Z.of_nat j)) (seq 0 8)
     else existsb (fun j => (free_mask b =? 2 ^ Z.of_nat j) && negb (Z.testbit b (Z.of_nat j))) (seq 0 8))
    (upto 256) = true.
Proof. vm_compute. reflexivity. Qed.

Lemma free_mask_spec : forall b, is_byte b ->
  (free_mask b = 0 /\ forall j, (j < 8)%nat -> Z.testbit b (Z.of_nat j) = true) \/
  (exists j, (j < 8)%nat /\ free_mask b = 2 ^ Z.of_nat j /\ Z.testbit b (Z.of_nat j) = false).
Proof.
  intros b Hb.
  pose proof (forallb_upto 256 _ free_mask_check (Z.to_N b) ltac:(unfold is_byte in *; lia)) as C.
  cbv beta zeta in C. rewrite Z2N.id in C by (unfold is_byte in *; lia).
  destruct (Z.eqb_spec (free_mask b) 0) as [E|E].
  - left. split; [assumption|]. intros j Hj. rewrite forallb_forall in C.
    apply C. apply in_seq. lia.
  - right. apply existsb_exists in C. destruct C as (j & I & H). apply in_seq in I.
    exists j. split; [lia|]. apply andb_true_iff in H. destruct H as [A B].
    split; [now apply Z.eqb_eq|]. now apply negb_true_iff.
Qed.

Lemma create_loop_some : forall sp k0 r sp', Forall is_byte sp ->
  create_loop k0 sp = Some (r, sp') ->
  exists k j, (k < length sp)%nat /\ (j < 8)%nat /\
    r = Z.lor (Z.shiftl (k0 + Z.of_nat k) MarkerShift) (2 ^ Z.of_nat j) /\
    Z.testbit (nth k sp 0) (Z.of_nat j) = false /\
    sp' = or_at sp k (2 ^ Z.of_nat j).
Proof.
  induction sp as [|b rest IH]; intros k0 r sp' HB E; [discriminate|].
  inversion_clear HB as [|? ? Hb Hrest]. cbn [create_loop] in E.
  destruct (free_mask_spec b Hb) as [[F A]|(j & Hj & F & T)].
  - rewrite F in E. cbn in E.
    destruct (create_loop (k0 + 1) rest) as [[r1 rest']|] eqn:L; [|discriminate].
    inversion E; subst. destruct (IH _ _ _ Hrest L) as (k & j & Hk & Hj & -> & T & ->).
    exists (S k), j. cbn [length nth]. repeat split; try lia; auto.
    replace (k0 + 1 + Z.of_nat k) with (k0 + Z.of_nat (S k)) by lia. reflexivity.
  - rewrite F in E. destruct (Z.eqb_spec (2 ^ Z.of_nat j) 0) as [Z0|NZ].
    + assert (0 < 2 ^ Z.of_nat j) by (apply Z.pow_pos_nonneg; lia). lia.
    + cbn in E. inversion E; subst. exists 0%nat, j. cbn [length nth].
      repeat split; try lia; auto.
      now rewrite Z.add_0_r.
Qed.

Lemma create_loop_none : forall sp k0, Forall is_byte sp ->
  create_loop k0 sp = None ->
  forall k j, (k < length sp)%nat -> (j < 8)%nat -> Z.testbit (nth k sp 0) (Z.of_nat j) = true.
Proof.
  induction sp as [|b rest IH]; intros k0 HB E k j Hk Hj; [cbn in Hk; lia|].
  inversion_clear HB as [|? ? Hb Hrest]. cbn [create_loop] in E.
  destruct (free_mask_spec b Hb) as [[F A]|(j' & Hj' & F & T)].
  - rewrite F in E. cbn in E.
    destruct (create_loop (k0 + 1) rest) as [[r1 rest']|] eqn:L; [discriminate|].
    destruct k as [|k]; cbn [nth]; [auto|]. eapply IH; eauto. cbn in Hk. lia.
  - rewrite F in E. destruct (Z.eqb_spec (2 ^ Z.of_nat j') 0) as [Z0|NZ].
    + assert (0 < 2 ^ Z.of_nat j') by (apply Z.pow_pos_nonneg; lia). lia.
    + cbn in E. discriminate.
Qed.

(** ** Invariant over histories *)
Record inv (f : family) (es : list (Z * bool)) (s : state) (held : list Z)
           (m : nat -> Z -> bool) : Prop := {
  i_len : length (alloc s) = fields f;
  i_byte : Forall is_byte (alloc s);
  i_held : forall k j, (k < fields f)%nat -> (j < 8)%nat ->
     (Z.testbit (nth k (alloc s) 0) (Z.of_nat j) = true <-> In (mk f k j) held);
  i_nodup : NoDup held;
  i_in : forall n, In n held -> In n (all_markers f);
  i_es : map (fun e => (etype e, alive e)) (elems s) = es;
  i_elen : Forall (fun e => length (bytes e) = fields f) (elems s);
  i_get : forall e n, (e < length es)%nat -> In n (all_markers f) ->
     GetMarker f s e n = m e n
}.

Lemma get_bit : forall f s i e k j, library_family f ->
  (k < fields f)%nat -> (j < 8)%nat -> nth_error (elems s) i = Some e ->
  GetMarker f s i (mk f k j) = Z.testbit (nth k (bytes e) 0) (Z.of_nat j).
Proof.
  intros f s i e k j Hf Hk Hj E. unfold GetMarker. rewrite E.
  destruct (decode f k j Hf Hk Hj) as [-> ->]. apply land_pow2. lia.
Qed.

Lemma nth_0_repeat : forall n k, nth k (repeat 0 n) 0 = 0.
Proof.
  induction n as [|n IH]; intros [|k]; cbn; auto.
Qed.

Lemma inv_init : forall f es, library_family f ->
  inv f es (init f es) [] (fun _ _ => false).
Proof.
  intros f es Hf. split; cbn.
  - apply repeat_length.
  - apply Forall_forall. intros x I. apply repeat_spec in I. subst. unfold is_byte. lia.
  - intros k j Hk Hj. rewrite nth_0_repeat, Z.bits_0. split; [discriminate|tauto].
  - constructor.
  - tauto.
  - rewrite map_map. cbn. rewrite <- (map_id es) at 2. apply map_ext. now intros [? ?].
  - apply Forall_forall. intros x I. apply in_map_iff in I. destruct I as (p & <- & _).
    cbn. apply repeat_length.
  - intros e n He Hn. apply in_all_markers in Hn. destruct Hn as (k & j & Hk & Hj & ->).
    destruct (nth_error es e) as [p|] eqn:E.
    + erewrite get_bit; eauto; [|cbn; rewrite nth_error_map, E; reflexivity].
      cbn. rewrite nth_0_repeat. apply Z.bits_0.
    + apply nth_error_None in E. lia.
Qed.

Lemma elems_nth : forall f es s held m e, inv f es s held m -> (e < length es)%nat ->
  exists el, nth_error (elems s) e = Some el /\ length (bytes el) = fields f /\
             nth_error es e = Some (etype el, alive el).
Proof.
  intros f es s held m e I He.
  destruct (nth_error (elems s) e) as [el|] eqn:E.
  - exists el. split; [reflexivity|]. split.
    + pose proof (i_elen _ _ _ _ _ I) as L. rewrite Forall_forall in L. apply L.
      eapply nth_error_In; eauto.
    + rewrite <- (i_es _ _ _ _ _ I), nth_error_map, E. reflexivity.
  - apply nth_error_None in E. rewrite <- (i_es _ _ _ _ _ I), map_length in He. lia.
Qed.

Lemma map_lset_same : forall A B (g : A -> B) l i x y,
  nth_error l i = Some x -> g y = g x -> map g (lset l i y) = map g l.
Proof.
  induction l as [|h t IH]; intros [|i] x y E G; cbn in *; try discriminate.
  - inversion E; subst. now rewrite G.
  - f_equal. eapply IH; eauto.
Qed.

(** Updating one element's bytes. *)
Lemma inv_upd : forall f es s held m i g s' m',
  inv f es s held m -> upd_elem s i g = Some s' ->
  (forall b, length b = fields f -> length (g b) = fields f) ->
  (forall el n, nth_error (elems s) i = Some el -> In n (all_markers f) ->
     negb (Z.land (nth (pos f n) (g (bytes el)) 0) (msk f n) =? 0) = m' i n) ->
  (forall e n, e <> i -> m' e n = m e n) ->
  inv f es s' held m'.
Proof.
  intros f es s held m i g s' m' I U HL HG HO. unfold upd_elem in U.
  destruct (nth_error (elems s) i) as [el|] eqn:E; [|discriminate].
  destruct (alive el) eqn:Al; [|discriminate]. inversion U; subst; clear U.
  assert (length (bytes el) = fields f) as Lel.
  { pose proof (i_elen _ _ _ _ _ I) as L. rewrite Forall_forall in L. apply L.
    eapply nth_error_In; eauto. }
  split; cbn; try (now apply I).
  - rewrite <- (i_es _ _ _ _ _ I). eapply map_lset_same; eauto.
  - apply Forall_forall. intros x Ix. apply In_lset in Ix. destruct Ix as [->|Ix].
    + cbn. auto.
    + pose proof (i_elen _ _ _ _ _ I) as L. rewrite Forall_forall in L. auto.
  - intros e n He Hn. unfold GetMarker. cbn. rewrite nth_error_lset.
    destruct (Nat.eqb_spec i e) as [<-|Hne].
    + assert (i < length (elems s))%nat as Hi by (apply nth_error_Some; congruence).
      rewrite (proj2 (Nat.ltb_lt _ _) Hi). cbn. now apply HG.
    + cbn. rewrite HO by auto. now apply (i_get _ _ _ _ _ I).
Qed.

Lemma holds_in : forall held n, holds held n = true -> In n held.
Proof.
  intros held n H. apply existsb_exists in H. destruct H as (x & I & E).
  apply Z.eqb_eq in E. now subst.
Qed.

Lemma nodup_remove : forall (n : Z) l, NoDup l -> NoDup (remove Z.eq_dec n l).
Proof.
  induction l as [|x r IH]; cbn; intros H; [constructor|].
  inversion_clear H. destruct (Z.eq_dec n x); auto. constructor; auto.
  intros I. apply in_remove in I. tauto.
Qed.

Lemma marker_bit_upd : forall f k j k' j', library_family f ->
  (k < fields f)%nat -> (j < 8)%nat -> (k' < fields f)%nat -> (j' < 8)%nat ->
  (Nat.eqb k k' && Nat.eqb j j') = Z.eqb (mk f k j) (mk f k' j').
Proof.
  intros f k j k' j' Hf Hk Hj Hk' Hj'.
  destruct (Z.eqb_spec (mk f k j) (mk f k' j')) as [E|E].
  - apply mk_inj in E; auto. destruct E as [-> ->]. now rewrite !Nat.eqb_refl.
  - destruct (Nat.eqb_spec k k') as [->|]; [|reflexivity].
    destruct (Nat.eqb_spec j j') as [->|]; [|reflexivity]. congruence.
Qed.

Lemma inv_step : forall f es s held m o s' held', library_family f ->
  inv f es s held m -> step f (s, held) o = Some (s', held') ->
  inv f es s' held' (ideal_step es m o).
Proof.
  intros f es s held m o s' held' Hf I S. destruct o as [|n c|e n|e n]; cbn [step] in S.
  - (* create *)
    unfold CreateMarker in S.
    destruct (create_loop 0 (alloc s)) as [[r sp]|] eqn:L; [|discriminate].
    inversion S; subst; clear S.
    apply create_loop_some in L; [|apply I].
    destruct L as (k & j & Hk & Hj & -> & T & ->).
    rewrite (i_len _ _ _ _ _ I) in Hk. rewrite Z.add_0_l.
    change (Z.lor (Z.lor (Z.shiftl (Z.of_nat k) MarkerShift) (2 ^ Z.of_nat j)) (pbit f)) with (mk f k j).
    assert (~ In (mk f k j) held) as NI.
    { intros C. apply (i_held _ _ _ _ _ I) in C; auto. congruence. }
    split; cbn; try (now apply I).
    + rewrite or_at_length. apply I.
    + apply bytes_or; auto. apply I.
    + intros k' j' Hk' Hj'. rewrite or_at_bit by (rewrite (i_len _ _ _ _ _ I); lia).
      rewrite (marker_bit_upd f) by auto.
      rewrite orb_true_iff, Z.eqb_eq, (i_held _ _ _ _ _ I) by auto. tauto.
    + constructor; auto. apply I.
    + intros n [<-|H]; [|now apply (i_in _ _ _ _ _ I)]. apply in_all_markers. eauto 6.
  - (* release *)
    destruct (holds held n) eqn:H; [|discriminate]. apply holds_in in H.
    inversion S; subst; clear S.
    pose proof (i_in _ _ _ _ _ I n H) as Hn. apply in_all_markers in Hn.
    destruct Hn as (k & j & Hk & Hj & ->).
    destruct (decode f k j Hf Hk Hj) as [P M].
    split; cbn [ReleaseMarker alloc elems]; rewrite ?P, ?M.
    + rewrite clr_at_length. apply I.
    + apply bytes_clr; auto. apply I.
    + intros k' j' Hk' Hj'. rewrite clr_at_bit by (rewrite (i_len _ _ _ _ _ I); lia).
      rewrite (marker_bit_upd f) by auto.
      rewrite andb_true_iff, negb_true_iff, Z.eqb_neq, (i_held _ _ _ _ _ I) by auto.
      split.
      * intros [A B]. apply in_in_remove; auto.
      * intros A. apply in_remove in A. destruct A as [A1 A2]. split; [assumption|congruence].
    + apply nodup_remove. apply I.
    + intros n' A. apply in_remove in A. apply (i_in _ _ _ _ _ I). tauto.
    + rewrite <- (i_es _ _ _ _ _ I), map_map. apply map_ext. intros e.
      destruct (alive e && negb (Z.land c (etype e) =? 0)); reflexivity.
    + apply Forall_forall. intros x Ix. apply in_map_iff in Ix. destruct Ix as (e & <- & Ie).
      pose proof (i_elen _ _ _ _ _ I) as L. rewrite Forall_forall in L.
      destruct (alive e && negb (Z.land c (etype e) =? 0)); cbn; rewrite ?clr_at_length; auto.
    + intros e n' He Hn'. apply in_all_markers in Hn'. destruct Hn' as (k' & j' & Hk' & Hj' & ->).
      destruct (elems_nth _ _ _ _ _ _ I He) as (el & E & Lel & Ees).
      rewrite (get_bit f _ e
        (if alive el && negb (Z.land c (etype el) =? 0)
         then with_bytes el (clr_at (bytes el) k (2 ^ Z.of_nat j)) else el)); auto.
      2:{ cbn [ReleaseMarker elems]. rewrite nth_error_map, E. cbn. now rewrite P, M. }
      assert (Z.testbit (nth k' (bytes el) 0) (Z.of_nat j') = m e (mk f k' j')) as G.
      { rewrite <- (get_bit f s e el k' j') by auto. apply (i_get _ _ _ _ _ I); auto.
        apply in_all_markers; eauto 6. }
      cbn [ideal_step]. rewrite Ees. cbv iota beta.
      destruct (alive el && negb (Z.land c (etype el) =? 0)); cbn [with_bytes bytes].
      * rewrite clr_at_bit by lia. rewrite (marker_bit_upd f) by auto. rewrite G, andb_true_r.
        destruct (mk f k j =? mk f k' j'); cbn; now rewrite ?andb_false_r, ?andb_true_r.
      * rewrite andb_false_r. exact G.
  - (* set *)
    destruct (holds held n) eqn:H; [|discriminate]. apply holds_in in H.
    unfold SetMarker in S. destruct (upd_elem s e _) as [s1|] eqn:U; [|discriminate].
    cbn in S. inversion S; subst; clear S.
    pose proof (i_in _ _ _ _ _ I n H) as Hn. apply in_all_markers in Hn.
    destruct Hn as (k & j & Hk & Hj & ->).
    destruct (decode f k j Hf Hk Hj) as [P M].
    eapply inv_upd; eauto; cbn beta.
    + intros b Hb. now rewrite or_at_length.
    + intros el n' E Hn'. apply in_all_markers in Hn'. destruct Hn' as (k' & j' & Hk' & Hj' & ->).
      destruct (decode f k' j' Hf Hk' Hj') as [P' M']. rewrite P, M, P', M', land_pow2 by lia.
      assert (e < length es)%nat as He.
      { rewrite <- (i_es _ _ _ _ _ I), map_length. apply nth_error_Some. congruence. }
      destruct (elems_nth _ _ _ _ _ _ I He) as (el' & E' & Lel & _).
      rewrite E in E'. inversion E'; subst el'.
      rewrite or_at_bit by lia. rewrite (marker_bit_upd f) by auto.
      rewrite <- (get_bit f s e el k' j') by auto.
      rewrite (i_get _ _ _ _ _ I) by (auto; apply in_all_markers; eauto 6).
      cbn. rewrite Nat.eqb_refl. cbn.
      destruct (mk f k j =? mk f k' j'); [apply orb_true_r|apply orb_false_r].
    + intros e' n' Hne. cbn. destruct (Nat.eqb_spec e e'); [congruence|reflexivity].
  - (* rem *)
    destruct (holds held n) eqn:H; [|discriminate]. apply holds_in in H.
    unfold RemMarker in S. destruct (upd_elem s e _) as [s1|] eqn:U; [|discriminate].
    cbn in S. inversion S; subst; clear S.
    pose proof (i_in _ _ _ _ _ I n H) as Hn. apply in_all_markers in Hn.
    destruct Hn as (k & j & Hk & Hj & ->).
    destruct (decode f k j Hf Hk Hj) as [P M].
    eapply inv_upd; eauto; cbn beta.
    + intros b Hb. now rewrite clr_at_length.
    + intros el n' E Hn'. apply in_all_markers in Hn'. destruct Hn' as (k' & j' & Hk' & Hj' & ->).
      destruct (decode f k' j' Hf Hk' Hj') as [P' M']. rewrite P, M, P', M', land_pow2 by lia.
      assert (e < length es)%nat as He.
      { rewrite <- (i_es _ _ _ _ _ I), map_length. apply nth_error_Some. congruence. }
      destruct (elems_nth _ _ _ _ _ _ I He) as (el' & E' & Lel & _).
      rewrite E in E'. inversion E'; subst el'.
      rewrite clr_at_bit by lia. rewrite (marker_bit_upd f) by auto.
      rewrite <- (get_bit f s e el k' j') by auto.
      rewrite (i_get _ _ _ _ _ I) by (auto; apply in_all_markers; eauto 6).
      cbn. rewrite Nat.eqb_refl. cbn.
      destruct (mk f k j =? mk f k' j'); [apply andb_false_r|apply andb_true_r].
    + intros e' n' Hne. cbn. destruct (Nat.eqb_spec e e'); [congruence|reflexivity].
Qed.

Lemma inv_run : forall f es ops s held m s' held', library_family f ->
  inv f es s held m -> run f (s, held) ops = Some (s', held') ->
  inv f es s' held' (fold_left (ideal_step es) ops m).
Proof.
  induction ops as [|o r IH]; intros s held m s' held' Hf I R; cbn [run fold_left] in R |- *.
  - inversion R; subst; assumption.
  - destruct (step f (s, held) o) as [[s1 h1]|] eqn:S; [|discriminate].
    eapply IH; eauto. eapply inv_step; eauto.
Qed.

Lemma inv_history : forall f es ops s held, library_family f ->
  run f (init f es, []) ops = Some (s, held) ->
  inv f es s held (ideal es ops).
Proof.
  intros f es ops s held Hf R. unfold ideal. eapply inv_run; eauto. now apply inv_init.
Qed.

(** ** Consequences *)
Lemma held_bound : forall f es s held m, library_family f -> inv f es s held m ->
  (length held <= 8 * fields f)%nat.
Proof.
  intros f es s held m Hf I. destruct (all_markers_nodup f Hf) as [N L]. rewrite <- L.
  apply NoDup_incl_length; [apply I|]. intros x. apply I.
Qed.

Lemma create_outcome : forall f es s held m, library_family f -> inv f es s held m ->
  (CreateMarker f s = None <-> length held = (8 * fields f)%nat).
Proof.
  intros f es s held m Hf I. destruct (all_markers_nodup f Hf) as [N L].
  unfold CreateMarker. destruct (create_loop 0 (alloc s)) as [[r sp]|] eqn:C.
  - split; [discriminate|]. intros E. exfalso.
    apply create_loop_some in C; [|apply I].
    destruct C as (k & j & Hk & Hj & _ & T & _). rewrite (i_len _ _ _ _ _ I) in Hk.
    assert (In (mk f k j) held) as IN.
    { assert (incl (all_markers f) held) as IL.
      { apply NoDup_length_incl; [apply I|lia|intros x; apply I]. }
      apply IL. apply in_all_markers; eauto 6. }
    apply (i_held _ _ _ _ _ I) in IN; auto. congruence.
  - split; [intros _|reflexivity]. apply Nat.le_antisymm; [eapply held_bound; eauto|].
    rewrite <- L. apply NoDup_incl_length; [assumption|]. intros n Hn.
    apply in_all_markers in Hn. destruct Hn as (k & j & Hk & Hj & ->).
    apply (i_held _ _ _ _ _ I); auto.
    eapply create_loop_none; eauto; [apply I|]. now rewrite (i_len _ _ _ _ _ I).
Qed.
