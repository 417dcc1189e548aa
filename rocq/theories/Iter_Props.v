(** Properties C41, C42: walking over the elements of a mesh. *)
From Coq Require Import ZArith List Bool Arith Lia Sorted.
From Verif Require Import Util Handle_Model Handle_Proofs Iter_Model Iter_Proofs.
Import ListNotations.
Open Scope nat_scope.

(** an element of the mesh that a walk should meet: local id in use, not hidden *)
Definition visible (m : mesh) (types : Z) (x : it) : Prop :=
  In (fst x) single_types /\ Z.land types (fst x) <> 0%Z /\
  exists c, (0 <= snd x)%Z /\
    nth_error (nth (Z.to_nat (ElementNum (fst x))) m []) (Z.to_nat (snd x)) = Some c /\
    used c = true /\ hidden c = false.

Lemma visible_at : forall m types t i,
  visible m types (t, i) <->
  In t single_types /\ Z.land types t <> 0%Z /\ (0 <= i)%Z /\
  at_id shown (row m (num t)) (Z.to_nat i) = true.
Proof.
  intros m types t i. unfold visible, at_id, row, num. cbn [fst snd]. split.
  - intros [H1 [H2 [c [H3 [H4 [H5 H6]]]]]]. rewrite H4. unfold shown. rewrite H5, H6. auto.
  - intros [H1 [H2 [H3 H4]]]. split; [exact H1|]. split; [exact H2|].
    destruct (nth_error _ _) as [c|]; [|discriminate]. exists c. unfold shown in H4.
    apply andb_true_iff in H4. destruct H4 as [H4 H5]. apply negb_true_iff in H5. auto.
Qed.

(** ** C41 *)

(** The loop for(it = Begin(types); it != End(); ++it) ends and meets the
    visible elements of the types, each once, by type and local id. *)
Theorem C41_forward : forall m types, wf_mesh m -> (0 <= types < 64)%Z ->
  exists x l n, begin_it m types = Some x /\
    (forall k, collect (n + k) m types x = Some l) /\
    (forall e, In e l <-> visible m types e) /\
    StronglySorted before l.
Proof.
  intros m types W Ht. destruct (begin_spec m types W Ht) as [x [Hx [n Hn]]].
  exists x, (all_shown m types), (S n). split; [exact Hx|]. split; [exact Hn|].
  split; [|apply all_shown_sorted].
  intros [t i]. rewrite visible_at. apply all_shown_in.
Qed.
Print Assumptions C41_forward.

Definition ex_mesh : mesh :=
  [ [Cell false false; Cell true false; Cell true true; Cell true false];
    []; [Cell true false]; [Cell true true]; []; [Cell true false] ].

Example C41_nonvacuous : wf_mesh ex_mesh /\
  begin_it ex_mesh (NODE + FACE + CELL + MESH) = Some (NODE, 1%Z) /\
  collect 9 ex_mesh (NODE + FACE + CELL + MESH) (NODE, 1%Z) =
    Some [(NODE, 1); (NODE, 3); (FACE, 0); (MESH, 0)]%Z /\
  number_of ex_mesh (fun q => if q =? 0 then 1%Z else 0%Z)
    (fun q => if q =? 0 then 1%Z else if q =? 3 then 1%Z else 0%Z) (NODE + FACE + CELL + MESH) = 4%Z.
Proof. repeat split. Qed.

(** NumberOf is the number of elements the loop meets, when the counters of
    free ids and of hidden elements are right. *)
Theorem C41_number_of : forall m free hid types x l n, wf_mesh m -> (0 <= types < 64)%Z ->
  (forall q, q < 5 -> free q = Z.of_nat (count (fun c => negb (used c)) (row m q))) ->
  (forall q, q < 5 -> hid q = Z.of_nat (count (fun c => used c && hidden c) (row m q))) ->
  begin_it m types = Some x -> collect n m types x = Some l ->
  number_of m free hid types = Z.of_nat (length l).
Proof.
  intros m free hid types x l n W Ht Hfree Hhid Hx Hl.
  destruct (begin_spec m types W Ht) as [x' [Hx' [n' Hn']]].
  assert (x' = x) by congruence. subst x'.
  assert (El : l = all_shown m types).
  { assert (Mono : forall a b y r, collect a m types y = Some r -> collect (a + b) m types y = Some r).
    { induction a as [|a IH]; intros b y r H; [discriminate|]. cbn [collect Nat.add] in *.
      destruct ((fst y =? NONE) && (snd y =? -1))%Z; [exact H|].
      destruct (incr 7 m types y) as [z|]; [|discriminate].
      destruct (collect a m types z) as [s|] eqn:Es; [|discriminate].
      rewrite (IH b z s Es). exact H. }
    pose proof (Mono n (S n') x l Hl) as M. specialize (Hn' n).
    replace (n + S n') with (S (n' + n)) in M by lia. congruence. }
  subst l. unfold all_shown, number_of.
  assert (Tq : forall q, q < 5 ->
    (Z.of_nat (length (row m q)) - free q - hid q)%Z =
    Z.of_nat (length (of_type m (2 ^ Z.of_nat q)%Z 0))).
  { intros q Hq. rewrite Hfree, Hhid by auto. unfold of_type. rewrite map_length, count_ids.
    assert (E : num (2 ^ Z.of_nat q)%Z = q)
      by (do 5 (destruct q as [|q]; [reflexivity|]); lia).
    rewrite E. pose proof (count_split (row m q)). lia. }
  assert (T5 : length (of_type m MESH 0) = 1).
  { unfold of_type. rewrite map_length, count_ids. change (num MESH) with 5. rewrite W. reflexivity. }
  assert (B : forall q, q < 6 -> has_type types q = negb (Z.land types (2 ^ Z.of_nat q) =? 0)%Z).
  { intros q Hq. unfold has_type.
    destruct (Z.testbit types (Z.of_nat q)) eqn:E; symmetry.
    - apply negb_true_iff, Z.eqb_neq. intros H.
      assert (K : Z.testbit (Z.land types (2 ^ Z.of_nat q)) (Z.of_nat q) = true).
      { rewrite Z.land_spec, E, Z.pow2_bits_true by lia. reflexivity. }
      rewrite H, Z.bits_0 in K. discriminate.
    - apply negb_false_iff, Z.eqb_eq. apply Z.bits_inj'. intros k Hk.
      rewrite Z.land_spec, Z.bits_0, Z.pow2_bits_eqb by lia.
      destruct (Z.eqb_spec (Z.of_nat q) k) as [<-|]; [now rewrite E|apply andb_false_r]. }
  unfold types_of, single_types. cbn [seq filter].
  rewrite (B 0), (B 1), (B 2), (B 3), (B 4), (B 5) by lia.
  pose proof (Tq 0 ltac:(lia)) as T0. pose proof (Tq 1 ltac:(lia)) as T1.
  pose proof (Tq 2 ltac:(lia)) as T2. pose proof (Tq 3 ltac:(lia)) as T3.
  pose proof (Tq 4 ltac:(lia)) as T4.
  change (2 ^ Z.of_nat 0)%Z with 1%Z in *. change (2 ^ Z.of_nat 1)%Z with 2%Z in *.
  change (2 ^ Z.of_nat 2)%Z with 4%Z in *. change (2 ^ Z.of_nat 3)%Z with 8%Z in *.
  change (2 ^ Z.of_nat 4)%Z with 16%Z in *. change (2 ^ Z.of_nat 5)%Z with 32%Z in *.
  change MESH with 32%Z in T5.
  destruct (negb (Z.land types 1 =? 0)%Z), (negb (Z.land types 2 =? 0)%Z),
    (negb (Z.land types 4 =? 0)%Z), (negb (Z.land types 8 =? 0)%Z),
    (negb (Z.land types 16 =? 0)%Z), (negb (Z.land types 32 =? 0)%Z);
  cbn [map fold_right flat_map]; rewrite ?app_length; cbn [length]; lia.
Qed.
Print Assumptions C41_number_of.

(** NextHandle(h) is the next handle in use, in the order of types and ids, with
    the mesh itself at the end; after the mesh comes LastHandle(). *)
Theorem C41_next_handle : forall m h, wf_mesh m -> fst h <= 5 ->
  snd h < length (row m (fst h)) ->
  exists r, next_handle m h = Some r /\
    (fst h < 5 -> in_use m r /\ hbefore h r /\
       forall x, in_use m x -> fst x <= 5 -> hbefore h x -> ~ hbefore x r) /\
    (fst h = 5 -> r = (5, 1)).
Proof.
  intros m [n id] W Hn Hid. cbn [fst snd] in *. unfold next_handle. cbn [fst snd].
  destruct (Nat.eq_dec n 5) as [->|Hne].
  - exists (5, 1). split; [|split; [lia|reflexivity]].
    rewrite W in Hid. cbn in Hid. assert (id = 0) by lia. subst id. reflexivity.
  - destruct (next_handle_loop_spec 7 m n (id + 1) W) as [[rn ri] [R1 [R2 [R3 R4]]]]; try lia.
    rewrite R1. exists (rn, ri). split.
    + destruct (Nat.eqb_spec rn 5) as [->|]; [|reflexivity]. cbn [andb].
      unfold in_use in R2. cbn [fst snd] in R2. rewrite W in R2.
      apply at_id_lt in R2. cbn in R2. destruct ri; [reflexivity|lia].
    + split; [|lia]. intros _. split; [exact R2|]. unfold hbefore at 1. cbn [fst snd] in *.
      split; [lia|]. intros x Hx _ Hb. apply R4; auto. unfold hbefore in Hb. cbn in Hb. lia.
Qed.
Print Assumptions C41_next_handle.

(** NextHandle(h,types): the next handle in use among the types of the mask, or
    one past the last id of the last type. *)
Theorem C41_next_handle_types : forall m types h, fst h < 5 -> snd h < length (row m (fst h)) ->
  exists r, next_handle_types m types h = Some r /\
    (in_use m r /\ among types (fst h) r /\ hbefore h r /\
       (forall x, in_use m x -> among types (fst h) x -> hbefore h x -> ~ hbefore x r)
     \/
     snd r = length (row m (fst r)) /\ among types (fst h) r /\
       forall x, in_use m x -> among types (fst h) x -> ~ hbefore h x).
Proof.
  intros m types [n id] Hn Hid. cbn [fst snd] in *. unfold next_handle_types. cbn [fst snd].
  destruct (next_handle_types_loop_spec 7 m types n (id + 1)) as [[rn ri] [R1 [R2 [R3 [R4 R5]]]]]; try lia.
  rewrite R1. exists (rn, ri). split.
  { destruct R2 as [R2 _]. cbn in R2. destruct (Nat.eqb_spec rn 5); [lia|reflexivity]. }
  cbn [fst snd] in *.
  destruct R5 as [R5|[R5 R6]].
  - left. split; [exact R5|]. split; [exact R2|]. unfold hbefore at 1. cbn [fst snd].
    split; [lia|]. intros x Hx A Hb. apply R4; auto. unfold hbefore in Hb. cbn in Hb. lia.
  - right. split; [exact R5|]. split; [exact R2|]. intros x Hx A Hb. apply (R6 x Hx A).
    unfold hbefore in Hb. cbn in Hb. lia.
Qed.
Print Assumptions C41_next_handle_types.

Example C41_next_handle_nonvacuous :
  next_handle ex_mesh (0, 1) = Some (0, 2) /\ next_handle ex_mesh (0, 3) = Some (2, 0) /\
  next_handle ex_mesh (3, 0) = Some (5, 0) /\ next_handle ex_mesh (5, 0) = Some (5, 1) /\
  next_handle_types ex_mesh (NODE + CELL) (0, 3) = Some (3, 0) /\
  next_handle_types ex_mesh (NODE + CELL) (3, 0) = Some (3, 1).
Proof. repeat split. Qed.

(** ** C42 *)

(** One step back inside a type: the nearest visible element with a smaller id. *)
Theorem C42_step_back : forall m types t i j, In t single_types ->
  j < i -> visible m t (t, Z.of_nat j) ->
  (forall k, j < k < i -> ~ visible m t (t, Z.of_nat k)) ->
  decr 7 m types (t, Z.of_nat i) = Some (t, Z.of_nat j).
Proof.
  intros m types t i j Ht Hj Hv Hn. apply decr_down; auto; [lia|].
  assert (Hl : Z.land t t <> 0%Z) by (rewrite Z.land_diag; now apply single_nonzero).
  apply visible_at in Hv. rewrite Nat2Z.id in Hv. destruct Hv as [_ [_ [_ Hv]]].
  pose proof (down_spec shown (row m (num t)) i) as D.
  destruct (down shown (row m (num t)) i) as [k|].
  - destruct D as [D1 [D2 D3]]. f_equal.
    destruct (Nat.lt_trichotomy k j) as [L|[L|L]]; auto.
    + rewrite D3 in Hv by lia. discriminate.
    + exfalso. apply (Hn k ltac:(lia)). apply visible_at. rewrite Nat2Z.id.
      repeat split; auto. lia.
  - rewrite D in Hv by auto. discriminate.
Qed.
Print Assumptions C42_step_back.

(** Over one type whose element with local id 0 is visible, walking back meets
    the elements of the forward walk in reverse. *)
Theorem C42_single_type : forall m t i, In t single_types ->
  visible m t (t, 0%Z) -> visible m t (t, Z.of_nat i) ->
  exists l n, (forall k, collect_back (n + k) m t (t, Z.of_nat i) = Some (rev l)) /\
    (forall e, In e l <-> visible m t e /\ (snd e <= Z.of_nat i)%Z) /\
    StronglySorted before l.
Proof.
  intros m t i Ht H0 Hi.
  assert (Hl : Z.land t t <> 0%Z) by (rewrite Z.land_diag; now apply single_nonzero).
  apply visible_at in H0. destruct H0 as [_ [_ [_ H0]]]. change (Z.to_nat 0) with 0 in H0.
  apply visible_at in Hi. rewrite Nat2Z.id in Hi. destruct Hi as [_ [_ [_ Hi]]].
  exists (map (fun k => (t, Z.of_nat k)) (filter (at_id shown (row m (num t))) (seq 0 (S i)))),
    (S (S i)).
  split; [|split].
  - intros k. change (S (S i) + k) with (S (S (i + k))).
    rewrite (collect_back_spec m t i Ht H0 (i + k)) by lia. f_equal.
    rewrite seq_S, filter_app, Nat.add_0_l. cbn [filter]. rewrite Hi.
    rewrite map_app, rev_app_distr. reflexivity.
  - intros [s k]. cbn [snd]. rewrite in_map_iff, visible_at. split.
    + intros [j [E Hj]]. injection E as <- <-. apply filter_In in Hj. destruct Hj as [Hj Hs].
      apply in_seq in Hj. rewrite Nat2Z.id. repeat split; auto; lia.
    + intros [[Hs [Hb [Hk Hu]]] Hle].
      assert (s = t).
      { cbn in Ht, Hs.
        destruct Ht as [<-|[<-|[<-|[<-|[<-|[<-|[]]]]]]],
          Hs as [<-|[<-|[<-|[<-|[<-|[<-|[]]]]]]]; cbn in Hb; congruence. }
      subst s. exists (Z.to_nat k). split; [f_equal; lia|]. apply filter_In.
      split; [apply in_seq; lia|exact Hu].
  - assert (S1 : forall n k, StronglySorted before
      (map (fun k => (t, Z.of_nat k)) (filter (at_id shown (row m (num t))) (seq k n)))).
    { induction n as [|n IH]; intros k; cbn [seq filter map]; [constructor|].
      destruct (at_id shown (row m (num t)) k); [|apply IH]. cbn [map].
      constructor; [apply IH|]. apply Forall_forall. intros y Hy. apply in_map_iff in Hy.
      destruct Hy as [q [<- Hq]]. apply filter_In in Hq. destruct Hq as [Hq _].
      apply in_seq in Hq. right. cbn. lia. }
    apply S1.
Qed.
Print Assumptions C42_single_type.

Example C42_nonvacuous :
  let m := [[Cell true false; Cell false false; Cell true false; Cell true true; Cell true false]] in
  visible m NODE (NODE, 0%Z) /\ visible m NODE (NODE, 4%Z) /\
  collect_back 6 m NODE (NODE, 4%Z) = Some [(NODE, 4); (NODE, 2); (NODE, 0)]%Z.
Proof.
  split; [|split; [|reflexivity]].
  - apply visible_at. cbn. repeat split; auto; lia.
  - apply visible_at. cbn. repeat split; auto; lia.
Qed.

(** With a deleted (or hidden) element 0 the walk back arrives at it. *)
Theorem C42_deleted_first_refuted : exists m, wf_mesh m /\
  visible m NODE (NODE, 1%Z) /\
  decr 7 m NODE (NODE, 1%Z) = Some (NODE, 0%Z) /\ ~ visible m NODE (NODE, 0%Z).
Proof.
  exists [[Cell false false; Cell true false]; []; []; []; []; [Cell true false]].
  split; [reflexivity|]. split; [apply visible_at; cbn; repeat split; auto; lia|].
  split; [reflexivity|]. rewrite visible_at. cbn. intros [_ [_ [_ H]]]. discriminate.
Qed.
Print Assumptions C42_deleted_first_refuted.

(** Going back to the previous type, operator-- steps twice: the last element of
    that type is never met. *)
Theorem C42_type_change_refuted : exists m, wf_mesh m /\
  visible m (NODE + EDGE) (NODE, 1%Z) /\ visible m (NODE + EDGE) (EDGE, 0%Z) /\
  incr 7 m (NODE + EDGE) (NODE, 1%Z) = Some (EDGE, 0%Z) /\
  decr 7 m (NODE + EDGE) (EDGE, 0%Z) = Some (NODE, 0%Z).
Proof.
  exists [[Cell true false; Cell true false]; [Cell true false]; []; []; []; [Cell true false]].
  split; [reflexivity|].
  split; [apply visible_at; cbn; repeat split; auto; lia|].
  split; [apply visible_at; cbn; repeat split; auto; lia|]. split; reflexivity.
Qed.
Print Assumptions C42_type_change_refuted.

(** ... and from a type without elements it arrives at local id -2, which is
    neither an element nor End(). *)
Theorem C42_empty_type_refuted : forall m types t t' lid, In t single_types -> In t' single_types ->
  GetPrevType 9 t types = Some t' -> row m (num t') = [] -> (num t' < 5) ->
  lid = 0%Z -> decr 7 m types (t, lid) = Some (t', (-2)%Z).
Proof.
  intros m types t t' lid Ht Ht' Hp He Hn ->.
  cbn [decr]. destruct (Z.eqb_spec t NONE) as [E|_]; [exfalso; now apply (single_nonzero t Ht)|].
  change (prev_local shown (row m (num t)) 0) with (-1)%Z. change (-1 =? -1)%Z with true. cbv iota.
  rewrite Hp. destruct (Z.eqb_spec t' NONE) as [E|_]; [exfalso; now apply (single_nonzero t' Ht')|].
  unfold last_local_iter, last_local. rewrite He. destruct (Nat.eqb_spec (num t') 5); [lia|].
  destruct (Z.eqb_spec t' NONE) as [E|_]; [exfalso; now apply (single_nonzero t' Ht')|].
  reflexivity.
Qed.
Print Assumptions C42_empty_type_refuted.

Example C42_empty_type_nonvacuous :
  GetPrevType 9 EDGE (NODE + EDGE) = Some NODE /\
  decr 7 [[]; [Cell true false]; []; []; []; [Cell true false]] (NODE + EDGE) (EDGE, 0%Z)
    = Some (NODE, (-2)%Z).
Proof. split; reflexivity. Qed.

(** --End() is End(). *)
Theorem C42_end_refuted : forall m types, decr 7 m types end_it = Some end_it.
Proof. reflexivity. Qed.
Print Assumptions C42_end_refuted.

(** PrevHandle(h,types) is the nearest handle in use before [h] among the types
    of the mask (and the type of [h]). *)
Theorem C42_prev_handle_types : forall m types h, fst h < 5 ->
  match prev_handle_types m types h with
  | Some r => in_use m r /\ (fst r = fst h \/ has_type types (fst r) = true) /\ hbefore r h /\
      forall x, in_use m x -> (fst x = fst h \/ has_type types (fst x) = true) ->
        hbefore x h -> ~ hbefore r x
  | None => forall x, in_use m x -> (fst x = fst h \/ has_type types (fst x) = true) -> ~ hbefore x h
  end.
Proof.
  intros m types [n c] Hn. cbn [fst] in Hn. unfold prev_handle_types. cbn [fst snd].
  destruct (Nat.eqb_spec n 5); [lia|]. apply prev_handle_types_loop_spec. lia.
Qed.
Print Assumptions C42_prev_handle_types.

(** From the mesh itself it is the last handle in use of the types of the mask. *)
Theorem C42_prev_handle_types_mesh : forall m types,
  match prev_handle_types m types (5, 0) with
  | Some r => in_use m r /\ fst r < 5 /\ has_type types (fst r) = true /\
      forall x, in_use m x -> fst x < 5 -> has_type types (fst x) = true -> ~ hbefore r x
  | None => forall x, fst x < 5 -> has_type types (fst x) = true -> ~ in_use m x
  end.
Proof.
  intros m types. unfold prev_handle_types. cbn [fst snd Nat.eqb].
  pose proof (find_down types 5) as F.
  destruct (find (has_type types) (rev (seq 0 5))) as [q|].
  - destruct F as [F1 [F2 F3]].
    assert (B : forall x, in_use m x -> fst x < 5 -> has_type types (fst x) = true ->
              hbefore x (q, length (row m q))).
    { intros [xn xi] Hu Hx Ht. unfold hbefore, in_use in *. cbn [fst snd] in *.
      destruct (Nat.lt_trichotomy xn q) as [L|[L|L]]; [lia| |].
      - subst xn. apply at_id_lt in Hu. lia.
      - rewrite F3 in Ht by lia. discriminate. }
    pose proof (prev_handle_types_loop_spec 7 m types q (length (row m q)) ltac:(lia)) as P.
    destruct (prev_handle_types_loop 7 m types q (length (row m q))) as [r|].
    + destruct P as [P1 [P2 [P3 P4]]]. split; [exact P1|].
      split; [unfold hbefore in P3; cbn in P3; lia|].
      split; [destruct P2 as [->|P2]; auto|].
      intros x Hu Hx Ht. apply P4; auto.
    + intros x Hx Ht Hu. apply (P x Hu); auto.
  - intros x Hx Ht. rewrite F in Ht by auto. discriminate.
Qed.
Print Assumptions C42_prev_handle_types_mesh.

(** PrevHandle(h) looks at edges, faces, cells and sets before [h], and at
    nodes only when [h] is a node. *)
Theorem C42_prev_handle : forall m h, fst h < 5 ->
  match prev_handle m h with
  | Some r => in_use m r /\ (fst r = fst h \/ 0 < fst r) /\ hbefore r h /\
      forall x, in_use m x -> (fst x = fst h \/ 0 < fst x) -> hbefore x h -> ~ hbefore r x
  | None => forall x, in_use m x -> (fst x = fst h \/ 0 < fst x) -> ~ hbefore x h
  end.
Proof.
  intros m [n c] Hn. cbn [fst] in Hn. unfold prev_handle. cbn [fst snd].
  destruct (Nat.eqb_spec n 5); [lia|]. apply prev_handle_loop_spec.
Qed.
Print Assumptions C42_prev_handle.

Example C42_prev_handle_nonvacuous :
  prev_handle_types ex_mesh (NODE + FACE) (3, 0) = Some (2, 0) /\
  prev_handle_types ex_mesh (NODE + FACE) (2, 0) = Some (0, 3) /\
  prev_handle_types ex_mesh (NODE + FACE) (0, 1) = None /\
  prev_handle_types ex_mesh (NODE + FACE) (5, 0) = Some (2, 0) /\
  prev_handle ex_mesh (3, 0) = Some (2, 0) /\ prev_handle ex_mesh (0, 3) = Some (0, 2) /\
  prev_handle ex_mesh (5, 0) = Some (3, 0).
Proof. repeat split. Qed.

(** Before LastHandle() is the mesh; from the mesh PrevHandle goes to the last
    handle in use among edges, faces and cells. *)
Theorem C42_prev_handle_mesh : forall m types,
  prev_handle m (5, 1) = Some (5, 0) /\ prev_handle_types m types (5, 1) = Some (5, 0) /\
  match prev_handle m (5, 0) with
  | Some r => in_use m r /\ 0 < fst r < 4 /\
      forall x, in_use m x -> 0 < fst x < 4 -> ~ hbefore r x
  | None => forall x, 0 < fst x < 4 -> ~ in_use m x
  end.
Proof.
  intros m types. split; [reflexivity|]. split; [reflexivity|].
  unfold prev_handle. cbn [fst snd Nat.eqb].
  pose proof (prev_handle_loop_spec m 4 0) as P.
  destruct (prev_handle_loop m 4 0) as [r|].
  - destruct P as [P1 [P2 [P3 P4]]]. unfold hbefore in P3. cbn [fst snd] in P3.
    split; [exact P1|]. split; [cbn in P2; lia|].
    intros x Hu Hx. apply P4; auto; [right; lia|]. unfold hbefore. cbn. lia.
  - intros x Hx Hu. apply (P x Hu); [right; lia|]. unfold hbefore. cbn. lia.
Qed.
Print Assumptions C42_prev_handle_mesh.

(** PrevHandle never comes from an edge, face, cell or set to a node, and never
    from the mesh to a set. *)
Theorem C42_prev_handle_refuted :
  (forall m h i, 0 < fst h -> prev_handle m h <> Some (0, i)) /\
  (forall m i, prev_handle m (5, 0) <> Some (4, i)) /\
  (exists m, in_use m (0, 0) /\ in_use m (1, 0) /\ next_handle m (0, 0) = Some (1, 0) /\
     prev_handle m (1, 0) = None).
Proof.
  split; [|split].
  - intros m [n c] i Hn H. cbn [fst] in Hn. unfold prev_handle in H. cbn [fst snd] in H.
    destruct (Nat.eqb_spec n 5) as [->|].
    + destruct c; [|discriminate].
      pose proof (prev_handle_loop_spec m 4 0) as P. rewrite H in P. cbn in P. lia.
    + pose proof (prev_handle_loop_spec m n c) as P. rewrite H in P. cbn in P. lia.
  - intros m i H. unfold prev_handle in H. cbn [fst snd Nat.eqb] in H.
    pose proof (prev_handle_loop_spec m 4 0) as P. rewrite H in P. unfold hbefore in P. cbn in P. lia.
  - exists [[Cell true false]; [Cell true false]; []; []; []; [Cell true false]].
    repeat split.
Qed.
Print Assumptions C42_prev_handle_refuted.
