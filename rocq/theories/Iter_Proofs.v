(** Proofs about Iter_Model.v. *)
From Coq Require Import ZArith List Bool Arith Lia Sorted.
From Verif Require Import Util Handle_Model Handle_Proofs Iter_Model.
Import ListNotations.
Open Scope nat_scope.

(** ** local id walks *)

(** ids of a table, from [k] on, whose entry satisfies [p] *)
Definition ids_from (p : cell -> bool) (l : list cell) (k : nat) : list nat :=
  filter (at_id p l) (seq k (length l - k)).

Lemma skip_up_spec : forall p l s k,
  (forall j, nth_error s j = nth_error l (k + j)) -> length s = length l - k ->
  skip_up p s (Z.of_nat k) =
  match ids_from p l k with [] => Z.of_nat (k + length s) | i :: _ => Z.of_nat i end.
Proof.
  intros p l s. induction s as [|c s IH]; intros k Hn Hl; cbn [skip_up].
  - unfold ids_from. rewrite <- Hl. cbn. f_equal. lia.
  - unfold ids_from. rewrite <- Hl. cbn [length seq filter].
    assert (E : at_id p l k = p c).
    { unfold at_id. specialize (Hn 0). rewrite Nat.add_0_r in Hn. rewrite <- Hn. reflexivity. }
    rewrite E. destruct (p c); [reflexivity|].
    replace (Z.of_nat k + 1)%Z with (Z.of_nat (S k)) by lia.
    rewrite IH.
    + unfold ids_from. replace (length l - S k) with (length s) by (cbn in Hl; lia).
      destruct (filter _ _); [|reflexivity]. f_equal. cbn. lia.
    + intros j. specialize (Hn (S j)). cbn [nth_error] in Hn. rewrite Hn. f_equal. lia.
    + cbn in Hl. lia.
Qed.

Lemma next_local_spec : forall p l lid, (-1 <= lid < Z.of_nat (length l))%Z ->
  next_local p l lid =
  match ids_from p l (Z.to_nat (lid + 1)) with
  | [] => Z.of_nat (length l) | i :: _ => Z.of_nat i end.
Proof.
  intros p l lid H. unfold next_local.
  replace (lid + 1)%Z with (Z.of_nat (Z.to_nat (lid + 1))) at 2 by lia.
  set (k := Z.to_nat (lid + 1)). assert (k <= length l) by (unfold k; lia). clearbody k.
  rewrite (skip_up_spec p l (skipn k l) k).
  - destruct (ids_from p l k); [|reflexivity]. rewrite skipn_length. f_equal. lia.
  - intros j. apply nth_error_skipn_eq.
  - apply skipn_length.
Qed.

Lemma ids_from_tail : forall p l k i t, ids_from p l k = i :: t ->
  k <= i < length l /\ at_id p l i = true /\ t = ids_from p l (S i).
Proof.
  intros p l k i t H. unfold ids_from in *.
  remember (length l - k) as n eqn:En. revert k En H.
  induction n as [|n IH]; intros k En H; [discriminate|].
  cbn [seq filter] in H. destruct (at_id p l k) eqn:E.
  - injection H as <- <-. split; [lia|]. split; [exact E|].
    replace (length l - S k) with n by lia. reflexivity.
  - apply IH in H; [|lia]. split; [lia|tauto].
Qed.

Lemma ids_from_in : forall p l k i, In i (ids_from p l k) <-> k <= i /\ at_id p l i = true.
Proof.
  intros p l k i. unfold ids_from. rewrite filter_In, in_seq.
  split; [intros [H1 H2]; split; [lia|auto]|].
  intros [H1 H2]. split; [|exact H2]. unfold at_id in H2.
  destruct (nth_error l i) eqn:E; [|discriminate].
  assert (i < length l) by (apply nth_error_Some; congruence). lia.
Qed.

Lemma down_spec : forall p l c,
  match down p l c with
  | Some j => j < c /\ at_id p l j = true /\ forall i, j < i < c -> at_id p l i = false
  | None => forall i, i < c -> at_id p l i = false
  end.
Proof.
  intros p l c. induction c as [|j IH]; cbn [down]; [intros; lia|].
  destruct (at_id p l j) eqn:E; [split; [lia|]; split; [exact E|intros; lia]|].
  destruct (down p l j) as [k|].
  - destruct IH as [H1 [H2 H3]]. split; [lia|]. split; [exact H2|].
    intros i Hi. destruct (Nat.eq_dec i j) as [->|]; [exact E|apply H3; lia].
  - intros i Hi. destruct (Nat.eq_dec i j) as [->|]; [exact E|apply IH; lia].
Qed.

(** skip_down is the greatest suitable id, or 0 *)
Lemma skip_down_spec : forall p l n,
  skip_down p l n = match down p l (S n) with Some j => Z.of_nat j | None => 0%Z end.
Proof.
  intros p l n. induction n as [|n IH].
  - cbn [skip_down down]. destruct (at_id p l 0); reflexivity.
  - cbn [skip_down]. rewrite IH. remember (S n) as k. cbn [down].
    destruct (at_id p l k) eqn:E; reflexivity.
Qed.

(** ** types *)
Definition types_after (t mask : Z) : list Z := filter (fun s => t <? s)%Z (types_of mask).

Lemma next_type_check :
  forallb (fun mask => forallb (fun t =>
    match GetNextType 9 t mask, types_after t mask with
    | Some r, [] => (r =? 0)%Z
    | Some r, s :: rest => (r =? s)%Z && negb (s =? 0)%Z &&
        if in_dec Z.eq_dec s single_types then
        if list_eq_dec Z.eq_dec rest (types_after s mask) then true else false else false
    | None, _ => false
    end) single_types) (firstn 64 bytesZ) = true.
Proof. vm_compute. reflexivity. Qed.

Lemma next_type_spec : forall mask t, (0 <= mask < 64)%Z -> In t single_types ->
  match types_after t mask with
  | [] => GetNextType 9 t mask = Some 0%Z
  | s :: rest => GetNextType 9 t mask = Some s /\ s <> 0%Z /\ In s single_types /\
                 rest = types_after s mask
  end.
Proof.
  intros mask t Hm Ht. pose proof next_type_check as C.
  rewrite forallb_forall in C. specialize (C mask (in_bytesZ64 mask Hm)).
  rewrite forallb_forall in C. specialize (C t Ht). cbv beta in C.
  destruct (GetNextType 9 t mask) as [r|]; [|discriminate].
  destruct (types_after t mask) as [|s rest].
  - apply Z.eqb_eq in C. now subst.
  - apply andb_true_iff in C. destruct C as [C C3].
    apply andb_true_iff in C. destruct C as [C1 C2].
    apply Z.eqb_eq in C1. apply negb_true_iff, Z.eqb_neq in C2. subst r.
    destruct (in_dec Z.eq_dec s single_types); [|discriminate].
    destruct (list_eq_dec Z.eq_dec rest (types_after s mask)); [|discriminate]. auto.
Qed.

Lemma first_type_check :
  forallb (fun mask =>
    match types_of mask with
    | [] => (first_type mask =? 0)%Z
    | s :: rest => (first_type mask =? s)%Z &&
        if in_dec Z.eq_dec s single_types then
        if list_eq_dec Z.eq_dec rest (types_after s mask) then true else false else false
    end) (firstn 64 bytesZ) = true.
Proof. vm_compute. reflexivity. Qed.

Lemma first_type_spec : forall mask, (0 <= mask < 64)%Z ->
  match types_of mask with
  | [] => first_type mask = 0%Z
  | s :: rest => first_type mask = s /\ In s single_types /\ rest = types_after s mask
  end.
Proof.
  intros mask Hm. pose proof first_type_check as C.
  rewrite forallb_forall in C. specialize (C mask (in_bytesZ64 mask Hm)). cbv beta in C.
  destruct (types_of mask) as [|s rest].
  - now apply Z.eqb_eq.
  - apply andb_true_iff in C. destruct C as [C1 C2]. apply Z.eqb_eq in C1.
    destruct (in_dec Z.eq_dec s single_types); [|discriminate].
    destruct (list_eq_dec Z.eq_dec rest (types_after s mask)); [|discriminate]. auto.
Qed.

Lemma single_nonzero : forall t, In t single_types -> t <> 0%Z.
Proof. intros t H. cbn in H. lia. Qed.

(** ** forward iteration *)
(** the table of the mesh itself has one entry, in use and never hidden *)
Definition wf_mesh (m : mesh) : Prop := row m 5 = [Cell true false].

Lemma last_local_wf : forall m t, wf_mesh m -> In t single_types ->
  last_local m t = Z.of_nat (length (row m (num t))).
Proof.
  intros m t W H. unfold last_local. destruct (Nat.eqb_spec (num t) 5) as [E|E]; [|reflexivity].
  rewrite E, W. reflexivity.
Qed.

Definition of_type (m : mesh) (t : Z) (k : nat) : list it :=
  map (fun i => (t, Z.of_nat i)) (ids_from shown (row m (num t)) k).

Definition remaining (m : mesh) (mask : Z) (x : it) : list it :=
  of_type m (fst x) (Z.to_nat (snd x + 1)) ++
  flat_map (fun s => of_type m s 0) (types_after (fst x) mask).

Definition good (m : mesh) (x : it) : Prop :=
  In (fst x) single_types /\ (-1 <= snd x < Z.of_nat (length (row m (num (fst x)))))%Z \/
  In (fst x) single_types /\ snd x = (-1)%Z.

Lemma next_local_end : forall p l lid, (-1 <= lid)%Z -> (lid < Z.of_nat (length l) \/ lid = -1)%Z ->
  next_local p l lid =
  match ids_from p l (Z.to_nat (lid + 1)) with
  | [] => Z.of_nat (length l) | i :: _ => Z.of_nat i end.
Proof.
  intros p l lid H1 H2. destruct H2 as [H2|H2]; [apply next_local_spec; lia|].
  apply next_local_spec. subst lid. destruct l; cbn [length]; lia.
Qed.

Lemma incr_spec : forall fuel m mask x, wf_mesh m -> (0 <= mask < 64)%Z -> good m x ->
  length (types_after (fst x) mask) < fuel ->
  exists y, incr fuel m mask x = Some y /\
  match remaining m mask x with
  | [] => y = end_it
  | z :: rest => y = z /\ good m y /\ (0 <= snd y)%Z /\ remaining m mask y = rest
  end.
Proof.
  induction fuel as [|f IH]; intros m mask [t lid] W Hm Hg Hf; [lia|].
  cbn [fst] in Hf.
  assert (Ht : In t single_types) by (destruct Hg as [[H _]|[H _]]; exact H).
  assert (Hl1 : (-1 <= lid)%Z) by (destruct Hg as [[_ H]|[_ H]]; cbn in H; lia).
  assert (Hl2 : (lid < Z.of_nat (length (row m (num t))) \/ lid = -1)%Z)
    by (destruct Hg as [[_ H]|[_ H]]; cbn in H; lia).
  cbn [incr]. destruct (Z.eqb_spec t NONE) as [E|_]; [exfalso; now apply (single_nonzero t Ht)|].
  rewrite (next_local_end shown _ lid Hl1 Hl2), (last_local_wf m t W Ht).
  unfold remaining at 1. cbn [fst snd]. unfold of_type at 1.
  destruct (ids_from shown (row m (num t)) (Z.to_nat (lid + 1))) as [|i rest] eqn:Ei.
  - rewrite Z.eqb_refl. cbn [map app].
    pose proof (next_type_spec mask t Hm Ht) as N.
    destruct (types_after t mask) as [|s ts].
    + rewrite N. exists end_it. split; reflexivity.
    + destruct N as [N [Hs0 [Hs Hts]]]. rewrite N.
      destruct (Z.eqb_spec s NONE) as [E|_]; [contradiction|].
      destruct (IH m mask (s, (-1)%Z) W Hm) as [y [Hy Hr]].
      * right. split; [exact Hs|reflexivity].
      * cbn [fst]. rewrite <- Hts. cbn [length] in Hf. lia.
      * exists y. split; [exact Hy|].
        unfold remaining in Hr at 1. cbn [fst snd] in Hr. change (Z.to_nat (-1 + 1)) with 0 in Hr.
        rewrite <- Hts in Hr. cbn [flat_map]. exact Hr.
  - apply ids_from_tail in Ei. destruct Ei as [Hi [Hs Hrest]].
    destruct (Z.eqb_spec (Z.of_nat i) (Z.of_nat (length (row m (num t))))) as [E|_]; [lia|].
    exists (t, Z.of_nat i). split; [reflexivity|]. cbn [map app].
    split; [reflexivity|]. split; [left; cbn; split; [exact Ht|lia]|].
    split; [cbn; lia|]. unfold remaining, of_type. cbn [fst snd].
    replace (Z.to_nat (Z.of_nat i + 1)) with (S i) by lia. rewrite Hrest. reflexivity.
Qed.

Lemma types_after_len : forall t mask, length (types_after t mask) <= 6.
Proof.
  intros t mask. unfold types_after, types_of.
  assert (L : forall (f : Z -> bool) l, length (filter f l) <= length l).
  { intros f l. induction l; cbn; [lia|]. destruct (f a); cbn; lia. }
  pose proof (L (fun s => (t <? s)%Z) (filter (fun t0 => negb (Z.land mask t0 =? 0)%Z) single_types)).
  pose proof (L (fun t0 => negb (Z.land mask t0 =? 0)%Z) single_types). cbn in *. lia.
Qed.

Lemma collect_spec : forall n m mask x, wf_mesh m -> (0 <= mask < 64)%Z -> good m x ->
  (0 <= snd x)%Z -> length (remaining m mask x) <= n ->
  collect (S (S n)) m mask x = Some (x :: remaining m mask x).
Proof.
  induction n as [|n IH]; intros m mask x W Hm Hg Hp Hn;
    destruct (incr_spec 7 m mask x W Hm Hg ltac:(pose proof (types_after_len (fst x) mask); lia))
      as [y [Hy Hr]].
  - destruct (remaining m mask x) as [|]; [|cbn in Hn; lia]. subst y.
    assert (E : ((fst x =? NONE) && (snd x =? -1))%Z = false).
    { destruct (Z.eqb_spec (snd x) (-1)); [lia|apply andb_false_r]. }
    cbn [collect]. rewrite E, Hy. reflexivity.
  - assert (E : ((fst x =? NONE) && (snd x =? -1))%Z = false).
    { destruct (Z.eqb_spec (snd x) (-1)); [lia|apply andb_false_r]. }
    remember (S (S n)) as k. cbn [collect]. rewrite E, Hy. subst k.
    destruct (remaining m mask x) as [|z rest] eqn:Er.
    + subst y. reflexivity.
    + destruct Hr as [-> [Hgz [Hpz Hrz]]].
      rewrite IH; auto; [rewrite Hrz; reflexivity|rewrite Hrz; cbn in Hn; lia].
Qed.

(** the whole list *)
Definition all_shown (m : mesh) (mask : Z) : list it :=
  flat_map (fun s => of_type m s 0) (types_of mask).

Lemma begin_spec : forall m mask, wf_mesh m -> (0 <= mask < 64)%Z ->
  exists x, begin_it m mask = Some x /\
  exists n, forall k, collect (S (n + k)) m mask x = Some (all_shown m mask).
Proof.
  intros m mask W Hm. unfold begin_it.
  pose proof (first_type_spec mask Hm) as F. unfold all_shown.
  destruct (types_of mask) as [|s ts] eqn:Et.
  - rewrite F. exists end_it. split; [reflexivity|]. exists 0. intros k. reflexivity.
  - destruct F as [-> [Hs Hts]].
    destruct (incr_spec 7 m mask (s, (-1)%Z) W Hm) as [y [Hy Hr]].
    + right. split; [exact Hs|reflexivity].
    + pose proof (types_after_len s mask). cbn [fst]. lia.
    + exists y. split; [exact Hy|].
      assert (E : remaining m mask (s, (-1)%Z) = flat_map (fun s => of_type m s 0) (s :: ts)).
      { unfold remaining. cbn [fst snd flat_map]. rewrite Hts. reflexivity. }
      rewrite E in Hr. clear E.
      destruct (flat_map (fun s => of_type m s 0) (s :: ts)) as [|z rest].
      * subst y. exists 0. intros k. reflexivity.
      * destruct Hr as [-> [Hg [Hp Hrz]]]. exists (S (length rest)). intros k.
        rewrite <- Hrz. apply (collect_spec (length (remaining m mask z) + k)); auto. lia.
Qed.

(** order of visited elements: by type, then by local id *)
Definition before (x y : it) : Prop :=
  (fst x < fst y \/ fst x = fst y /\ snd x < snd y)%Z.

Lemma ids_from_sorted : forall p l k, StronglySorted lt (ids_from p l k).
Proof.
  intros p l k. unfold ids_from. generalize (length l - k) as n. intros n.
  revert k. induction n as [|n IH]; intros k; cbn [seq filter]; [constructor|].
  destruct (at_id p l k); [|apply IH]. constructor; [apply IH|].
  apply Forall_forall. intros i Hi. apply filter_In in Hi. destruct Hi as [Hi _].
  apply in_seq in Hi. lia.
Qed.

Lemma all_shown_sorted : forall m mask, StronglySorted before (all_shown m mask).
Proof.
  intros m mask. unfold all_shown.
  assert (T : StronglySorted Z.lt (types_of mask)).
  { unfold types_of.
    assert (G : StronglySorted Z.lt single_types) by (repeat constructor).
    induction G as [|x l G IH Hx]; cbn [filter]; [constructor|].
    destruct (negb _); [|exact IH]. constructor; [exact IH|].
    rewrite Forall_forall in *. intros y Hy. apply filter_In in Hy. apply Hx, Hy. }
  induction T as [|t ts T IH Ht]; cbn [flat_map]; [constructor|].
  assert (A : forall a b, StronglySorted before a -> StronglySorted before b ->
    (forall x y, In x a -> In y b -> before x y) -> StronglySorted before (a ++ b)).
  { clear. intros a b Ha Hb H. induction Ha as [|x a Ha IH Hx]; [exact Hb|].
    cbn [app]. constructor.
    - apply IH. intros; apply H; auto. now right.
    - apply Forall_app. split; auto. apply Forall_forall. intros y Hy. apply H; auto. now left. }
  apply A; auto.
  - unfold of_type. pose proof (ids_from_sorted shown (row m (num t)) 0) as S1.
    induction S1 as [|i l S1 IHs Hi]; cbn [map]; constructor; auto.
    rewrite Forall_forall in *. intros y Hy. apply in_map_iff in Hy.
    destruct Hy as [j [<- Hj]]. right. cbn. specialize (Hi j Hj). lia.
  - intros x y Hx Hy. unfold of_type in Hx. apply in_map_iff in Hx. destruct Hx as [i [<- _]].
    apply in_flat_map in Hy. destruct Hy as [s [Hs Hy]].
    apply in_map_iff in Hy. destruct Hy as [j [<- _]].
    left. cbn. rewrite Forall_forall in Ht. now apply Ht.
Qed.

Lemma all_shown_in : forall m mask t i,
  In (t, i) (all_shown m mask) <->
  In t single_types /\ Z.land mask t <> 0%Z /\ (0 <= i)%Z /\
  at_id shown (row m (num t)) (Z.to_nat i) = true.
Proof.
  intros m mask t i. unfold all_shown. rewrite in_flat_map. split.
  - intros [s [Hs Hi]]. apply in_map_iff in Hi. destruct Hi as [j [E Hj]].
    injection E as -> <-. apply ids_from_in in Hj.
    unfold types_of in Hs. apply filter_In in Hs. destruct Hs as [Hs Hb].
    apply negb_true_iff, Z.eqb_neq in Hb.
    rewrite Nat2Z.id. split; [exact Hs|]. split; [exact Hb|]. split; [lia|tauto].
  - intros [Hs [Hb [Hp Hi]]]. exists t. split.
    + apply filter_In. split; [exact Hs|]. apply negb_true_iff. now apply Z.eqb_neq.
    + apply in_map_iff. exists (Z.to_nat i). split; [f_equal; lia|].
      apply ids_from_in. split; [lia|exact Hi].
Qed.

(** ** backward iteration *)
Lemma prev_local_spec : forall p l lid, (1 <= lid)%Z ->
  prev_local p l lid =
  match down p l (Z.to_nat lid) with Some j => Z.of_nat j | None => 0%Z end.
Proof.
  intros p l lid H. unfold prev_local. destruct (Z.leb_spec lid 0); [lia|].
  rewrite skip_down_spec. replace (S (Z.to_nat (lid - 1))) with (Z.to_nat lid) by lia. reflexivity.
Qed.

(** ** handles *)
Definition hbefore (x y : hnd) : Prop := fst x < fst y \/ fst x = fst y /\ snd x < snd y.
Definition in_use (m : mesh) (x : hnd) : Prop := at_id used (row m (fst x)) (snd x) = true.

Lemma at_id_lt : forall p l i, at_id p l i = true -> i < length l.
Proof.
  intros p l i H. unfold at_id in H. destruct (nth_error l i) eqn:E; [|discriminate].
  apply nth_error_Some. congruence.
Qed.

Lemma skip_up_used : forall p l k, k <= length l ->
  let j := Z.to_nat (skip_up p (skipn k l) (Z.of_nat k)) in
  k <= j <= length l /\ (forall i, k <= i < j -> at_id p l i = false) /\
  (j < length l -> at_id p l j = true).
Proof.
  intros p l k Hk. cbv zeta.
  rewrite (skip_up_spec p l (skipn k l) k).
  2: { intros; apply nth_error_skipn_eq. }
  2: { apply skipn_length. }
  destruct (ids_from p l k) as [|i t] eqn:E.
  - rewrite Nat2Z.id, skipn_length. replace (k + (length l - k)) with (length l) by lia.
    split; [lia|]. split; [|lia].
    intros i Hi. destruct (at_id p l i) eqn:Ei; auto.
    assert (In i (ids_from p l k)) by (apply ids_from_in; split; [lia|auto]).
    rewrite E in H. destruct H.
  - rewrite Nat2Z.id. pose proof (ids_from_sorted p l k) as S1. rewrite E in S1.
    apply StronglySorted_inv in S1. destruct S1 as [_ S1]. rewrite Forall_forall in S1.
    pose proof (ids_from_tail _ _ _ _ _ E) as [T1 [T2 _]].
    split; [lia|]. split; [|auto].
    intros q Hq. destruct (at_id p l q) eqn:Eq; auto.
    assert (I : In q (ids_from p l k)) by (apply ids_from_in; split; [lia|auto]).
    rewrite E in I. destruct I as [->|I]; [lia|]. specialize (S1 q I). lia.
Qed.

(** NextHandle: the next handle in use *)
Lemma next_handle_loop_spec : forall f m n id, wf_mesh m -> n <= 5 ->
  5 - n < f -> id <= length (row m n) -> (n = 5 -> id = 0) ->
  exists r, next_handle_loop f m n id = Some r /\ in_use m r /\
    (n < fst r \/ n = fst r /\ id <= snd r) /\
    forall x, in_use m x -> (n < fst x \/ n = fst x /\ id <= snd x) -> ~ hbefore x r.
Proof.
  induction f as [|f IH]; intros m n id W Hn Hf Hid H5; [lia|].
  cbn [next_handle_loop]. destruct (Nat.ltb_spec n 5) as [L|L].
  - pose proof (skip_up_used used (row m n) id Hid) as U. cbv zeta in U.
    set (j := Z.to_nat (skip_up used (skipn id (row m n)) (Z.of_nat id))) in *. clearbody j.
    destruct U as [U1 [U2 U3]].
    destruct (Nat.eqb_spec j (length (row m n))) as [E|E].
    + destruct (IH m (n + 1) 0 W ltac:(lia) ltac:(lia) ltac:(lia) ltac:(auto)) as [r [R1 [R2 [R3 R4]]]].
      exists r. split; [exact R1|]. split; [exact R2|]. split; [lia|].
      intros x Hx Hb. apply R4; auto.
      destruct Hb as [Hb|[En Hb]]; [lia|]. exfalso.
      pose proof (at_id_lt _ _ _ Hx). unfold in_use in Hx. rewrite <- En in *. rewrite U2 in Hx by lia. discriminate.
    + exists (n, j). split; [reflexivity|]. split; [unfold in_use; cbn; apply U3; lia|].
      split; [cbn; lia|]. intros [xn xi] Hx Hb Hlt. unfold hbefore, in_use in *. cbn [fst snd] in *.
      destruct Hb as [Hb|[En Hb]]; [lia|]. rewrite <- En in *. destruct Hlt as [Hlt|[_ Hlt]]; [lia|].
      rewrite U2 in Hx by lia. discriminate.
  - assert (n = 5) by lia. subst n. rewrite (H5 eq_refl) in *. exists (5, 0). split; [reflexivity|].
    split; [unfold in_use; cbn [fst snd]; rewrite W; reflexivity|]. split; [cbn; lia|].
    intros [xn xi] Hx Hb Hlt. unfold hbefore in *. cbn in *. lia.
Qed.

(** greatest element of a mask below a type *)
Lemma find_down : forall types n,
  match find (has_type types) (rev (seq 0 n)) with
  | Some q => q < n /\ has_type types q = true /\ forall k, q < k < n -> has_type types k = false
  | None => forall k, k < n -> has_type types k = false
  end.
Proof.
  intros types n. induction n as [|n IH]; [cbn; intros; lia|].
  rewrite seq_S, rev_app_distr. cbn [rev app find]. rewrite Nat.add_0_l.
  destruct (has_type types n) eqn:E.
  - split; [lia|]. split; [exact E|intros; lia].
  - destruct (find (has_type types) (rev (seq 0 n))) as [q|].
    + destruct IH as [H1 [H2 H3]]. split; [lia|]. split; [exact H2|].
      intros k Hk. destruct (Nat.eq_dec k n) as [->|]; [exact E|apply H3; lia].
    + intros k Hk. destruct (Nat.eq_dec k n) as [->|]; [exact E|apply IH; lia].
Qed.

Lemma prev_handle_types_loop_spec : forall f m types n c, n < f ->
  match prev_handle_types_loop f m types n c with
  | Some r => in_use m r /\ (fst r = n \/ has_type types (fst r) = true) /\ hbefore r (n, c) /\
      forall x, in_use m x -> (fst x = n \/ has_type types (fst x) = true) ->
        hbefore x (n, c) -> ~ hbefore r x
  | None => forall x, in_use m x -> (fst x = n \/ has_type types (fst x) = true) ->
        ~ hbefore x (n, c)
  end.
Proof.
  induction f as [|f IH]; intros m types n c Hf; [lia|].
  cbn [prev_handle_types_loop].
  pose proof (down_spec used (row m n) c) as D.
  destruct (down used (row m n) c) as [j|].
  - destruct D as [D1 [D2 D3]]. split; [exact D2|]. split; [now left|].
    split; [right; cbn; lia|]. intros [xn xi] Hx _ Hb Hr. unfold hbefore, in_use in *. cbn [fst snd] in *.
    assert (xn = n) by lia. subst xn. rewrite D3 in Hx by lia. discriminate.
  - pose proof (find_down types n) as F.
    destruct (find (has_type types) (rev (seq 0 n))) as [q|].
    + destruct F as [F1 [F2 F3]].
      specialize (IH m types q (length (row m q)) ltac:(lia)).
      assert (Step : forall x, in_use m x -> (fst x = n \/ has_type types (fst x) = true) ->
        hbefore x (n, c) -> hbefore x (q, length (row m q)) /\ (fst x = q \/ has_type types (fst x) = true)).
      { intros [xn xi] Hx Hm Hb. unfold hbefore in *. cbn [fst snd] in *.
        destruct Hb as [Hb|[-> Hb]].
        - destruct Hm as [Hm|Hm]; [lia|]. split; [|now right].
          destruct (Nat.lt_trichotomy xn q) as [K|[->|K]]; [now left| |].
          + right. split; [reflexivity|]. apply (at_id_lt used). exact Hx.
          + rewrite F3 in Hm by lia. discriminate.
        - unfold in_use in Hx. cbn in Hx. rewrite D in Hx by lia. discriminate. }
      destruct (prev_handle_types_loop f m types q (length (row m q))) as [r|].
      * destruct IH as [I1 [I2 [I3 I4]]]. split; [exact I1|].
        assert (Hr : has_type types (fst r) = true) by (destruct I2 as [->|]; auto).
        split; [now right|]. split; [unfold hbefore in *; cbn [fst snd] in *; lia|].
        intros x Hx Hm Hb. destruct (Step x Hx Hm Hb). now apply I4.
      * intros x Hx Hm Hb. destruct (Step x Hx Hm Hb). apply (IH x); auto.
    + intros [xn xi] Hx Hm Hb. unfold hbefore in Hb. cbn [fst snd] in *.
      destruct Hb as [Hb|[-> Hb]].
      * destruct Hm as [Hm|Hm]; [lia|]. rewrite F in Hm by auto. discriminate.
      * unfold in_use in Hx. cbn [fst snd] in Hx. rewrite D in Hx by lia. discriminate.
Qed.

(** ** NumberOf *)
Fixpoint count (p : cell -> bool) (l : list cell) : nat :=
  match l with [] => 0 | c :: t => (if p c then 1 else 0) + count p t end.

Lemma count_ids : forall p l, length (ids_from p l 0) = count p l.
Proof.
  intros p l. unfold ids_from. rewrite Nat.sub_0_r.
  assert (G : forall s k pre, l = pre ++ s -> length pre = k ->
    length (filter (at_id p l) (seq k (length s))) = count p s).
  { induction s as [|c s IH]; intros k pre E Hk; [reflexivity|].
    cbn [length seq filter count].
    assert (A : at_id p l k = p c).
    { unfold at_id. rewrite E, nth_error_app2 by lia. rewrite Hk, Nat.sub_diag. reflexivity. }
    rewrite A. specialize (IH (S k) (pre ++ [c])).
    rewrite <- app_assoc, app_length in IH. cbn [length app] in IH.
    specialize (IH E ltac:(lia)). destruct (p c); cbn [length]; lia. }
  apply (G l 0 []); reflexivity.
Qed.

Lemma count_split : forall l,
  count shown l + count (fun c => used c && hidden c) l + count (fun c => negb (used c)) l = length l.
Proof.
  induction l as [|[u h] l IH]; [reflexivity|]. cbn [count length]. unfold shown in *. cbn.
  destruct u, h; cbn in *; lia.
Qed.

(** ** NextHandle with types *)
Lemma find_up : forall types k n,
  match find (has_type types) (seq k n) with
  | Some q => k <= q < k + n /\ has_type types q = true /\ forall i, k <= i < q -> has_type types i = false
  | None => forall i, k <= i < k + n -> has_type types i = false
  end.
Proof.
  intros types k n. revert k. induction n as [|n IH]; intros k; cbn [seq find]; [intros; lia|].
  destruct (has_type types k) eqn:E.
  - split; [lia|]. split; [exact E|intros; lia].
  - specialize (IH (S k)). destruct (find (has_type types) (seq (S k) n)) as [q|].
    + destruct IH as [H1 [H2 H3]]. split; [lia|]. split; [exact H2|].
      intros i Hi. destruct (Nat.eq_dec i k) as [->|]; [exact E|apply H3; lia].
    + intros i Hi. destruct (Nat.eq_dec i k) as [->|]; [exact E|apply IH; lia].
Qed.

(** handles of types of the mask (the mesh itself excluded), or of the type [n] *)
Definition among (types : Z) (n : nat) (x : hnd) : Prop :=
  fst x < 5 /\ (fst x = n \/ has_type types (fst x) = true).

Lemma next_handle_types_loop_spec : forall f m types n id, n < 5 -> 5 - n <= f ->
  id <= length (row m n) ->
  exists r, next_handle_types_loop f m types n id = Some r /\ among types n r /\
    (n < fst r \/ n = fst r /\ id <= snd r) /\
    (forall x, in_use m x -> among types n x -> (n < fst x \/ n = fst x /\ id <= snd x) ->
       ~ hbefore x r) /\
    (in_use m r \/
     snd r = length (row m (fst r)) /\
     forall x, in_use m x -> among types n x -> ~ (n < fst x \/ n = fst x /\ id <= snd x)).
Proof.
  induction f as [|f IH]; intros m types n id Hn Hf Hid; [lia|].
  cbn [next_handle_types_loop]. destruct (Nat.ltb_spec n 5) as [_|]; [|lia].
  pose proof (skip_up_used used (row m n) id Hid) as U. cbv zeta in U.
  set (j := Z.to_nat (skip_up used (skipn id (row m n)) (Z.of_nat id))) in *. clearbody j.
  destruct U as [U1 [U2 U3]].
  assert (Same : forall x, in_use m x -> n = fst x -> id <= snd x -> j <= snd x).
  { intros x Hx En Hb. destruct (le_lt_dec j (snd x)); [assumption|]. exfalso.
    unfold in_use in Hx. rewrite <- En, U2 in Hx by lia. discriminate. }
  destruct (Nat.eqb_spec j (length (row m n))) as [E|E].
  - assert (NoSame : forall x, in_use m x -> n = fst x -> id <= snd x -> False).
    { intros x Hx En Hb. pose proof (Same x Hx En Hb). unfold in_use in Hx.
      rewrite <- En in Hx. apply at_id_lt in Hx. lia. }
    pose proof (find_up types (n + 1) (5 - (n + 1))) as F.
    destruct (find (has_type types) (seq (n + 1) (5 - (n + 1)))) as [q|].
    + destruct F as [F1 [F2 F3]].
      destruct (IH m types q 0 ltac:(lia) ltac:(lia) ltac:(lia)) as [r [R1 [R2 [R3 [R4 R5]]]]].
      assert (Step : forall x, in_use m x -> among types n x ->
        (n < fst x \/ n = fst x /\ id <= snd x) ->
        among types q x /\ (q < fst x \/ q = fst x /\ 0 <= snd x)).
      { intros x Hx [A1 A2] [B|[B1 B2]].
        - destruct A2 as [A2|A2]; [lia|]. split; [split; auto|].
          destruct (le_lt_dec q (fst x)); [lia|]. rewrite F3 in A2 by lia. discriminate.
        - exfalso. now apply (NoSame x). }
      exists r. split; [exact R1|]. split; [|split; [lia|split]].
      * destruct R2 as [G1 G2]. split; [exact G1|]. right. destruct G2 as [->|]; auto.
      * intros x Hx A B. destruct (Step x Hx A B). now apply R4.
      * destruct R5 as [R5|[R5 R6]]; [now left|]. right. split; [exact R5|].
        intros x Hx A B. destruct (Step x Hx A B). now apply (R6 x).
    + assert (None' : forall x, in_use m x -> among types n x ->
        ~ (n < fst x \/ n = fst x /\ id <= snd x)).
      { intros x Hx [A1 A2] [B|[B1 B2]]; [|now apply (NoSame x)].
        destruct A2 as [A2|A2]; [lia|]. rewrite F in A2 by lia. discriminate. }
      exists (n, j). split; [reflexivity|]. split; [split; [exact Hn|now left]|].
      split; [cbn; lia|]. split.
      * intros x Hx A B. exfalso. now apply (None' x).
      * right. cbn. auto.
  - exists (n, j). split; [reflexivity|]. split; [split; [exact Hn|now left]|].
    split; [cbn; lia|]. split; [|left; unfold in_use; cbn; apply U3; lia].
    intros x Hx [A1 A2] B Hlt. unfold hbefore in Hlt. cbn [fst snd] in Hlt.
    destruct B as [B|[B1 B2]]; [lia|]. pose proof (Same x Hx B1 B2). lia.
Qed.

(** PrevHandle without types: nodes are reached only from nodes *)
Lemma prev_handle_loop_spec : forall m n c,
  match prev_handle_loop m n c with
  | Some r => in_use m r /\ (fst r = n \/ 0 < fst r) /\ hbefore r (n, c) /\
      forall x, in_use m x -> (fst x = n \/ 0 < fst x) -> hbefore x (n, c) -> ~ hbefore r x
  | None => forall x, in_use m x -> (fst x = n \/ 0 < fst x) -> ~ hbefore x (n, c)
  end.
Proof.
  intros m n. induction n as [|n IH]; intros c; cbn [prev_handle_loop].
  - pose proof (down_spec used (row m 0) c) as D.
    destruct (down used (row m 0) c) as [j|].
    + destruct D as [D1 [D2 D3]]. split; [exact D2|]. split; [now left|].
      split; [right; cbn; lia|]. intros [xn xi] Hx _ Hb Hr. unfold hbefore, in_use in *. cbn [fst snd] in *.
      assert (xn = 0) by lia. subst xn. rewrite D3 in Hx by lia. discriminate.
    + intros [xn xi] Hx Hm Hb. unfold hbefore, in_use in *. cbn [fst snd] in *.
      assert (xn = 0) by lia. subst xn. rewrite D in Hx by lia. discriminate.
  - pose proof (down_spec used (row m (S n)) c) as D.
    destruct (down used (row m (S n)) c) as [j|].
    + destruct D as [D1 [D2 D3]]. split; [exact D2|]. split; [now left|].
      split; [right; cbn; lia|]. intros [xn xi] Hx _ Hb Hr. unfold hbefore, in_use in *. cbn [fst snd] in *.
      assert (xn = S n) by lia. subst xn. rewrite D3 in Hx by lia. discriminate.
    + set (c' := if 0 <? n then length (row m n) else 0).
      assert (Step : forall x, in_use m x -> (fst x = S n \/ 0 < fst x) ->
        hbefore x (S n, c) -> hbefore x (n, c') /\ (fst x = n \/ 0 < fst x)).
      { intros [xn xi] Hx Hm Hb. unfold hbefore, in_use in *. cbn [fst snd] in *.
        destruct Hb as [Hb|[-> Hb]]; [|rewrite D in Hx by lia; discriminate].
        split; [|lia]. destruct (Nat.eq_dec xn n) as [->|]; [right|left; lia].
        split; [reflexivity|]. unfold c'. destruct (Nat.ltb_spec 0 n); [|lia].
        now apply at_id_lt in Hx. }
      specialize (IH c'). destruct (prev_handle_loop m n c') as [r|].
      * destruct IH as [I1 [I2 [I3 I4]]].
        assert (Hr : 0 < fst r).
        { destruct I2 as [I2|I2]; [|exact I2]. destruct n; [|lia].
          unfold c', hbefore in I3. cbn in I3. lia. }
        split; [exact I1|]. split; [now right|].
        split; [unfold hbefore in *; cbn [fst snd] in *; lia|].
        intros x Hx Hm Hb. destruct (Step x Hx Hm Hb). now apply I4.
      * intros x Hx Hm Hb. destruct (Step x Hx Hm Hb). now apply (IH x).
Qed.

(** ** the backward loop over one type *)
Lemma prev_type_single : forall t, In t single_types -> GetPrevType 9 t t = Some 0%Z.
Proof. intros t H. cbn in H. destruct H as [<-|[<-|[<-|[<-|[<-|[<-|[]]]]]]]; reflexivity. Qed.

Lemma decr_down : forall m types t i j, In t single_types ->
  0 < i -> down shown (row m (num t)) i = Some j ->
  decr 7 m types (t, Z.of_nat i) = Some (t, Z.of_nat j).
Proof.
  intros m types t i j Ht Hi Hd. cbn [decr].
  destruct (Z.eqb_spec t NONE) as [E|_]; [exfalso; now apply (single_nonzero t Ht)|].
  rewrite prev_local_spec by lia. rewrite Nat2Z.id, Hd.
  destruct (Z.eqb_spec (Z.of_nat j) (-1)); [lia|reflexivity].
Qed.

Lemma filter_seq_down : forall p l i,
  filter (at_id p l) (seq 0 i) =
  match down p l i with Some j => filter (at_id p l) (seq 0 j) ++ [j] | None => [] end.
Proof.
  intros p l i. induction i as [|i IH]; [reflexivity|].
  rewrite seq_S, filter_app, Nat.add_0_l. cbn [filter down].
  destruct (at_id p l i); [reflexivity|]. rewrite app_nil_r. exact IH.
Qed.

Lemma collect_back_spec : forall m t i, In t single_types ->
  at_id shown (row m (num t)) 0 = true ->
  forall n, i <= n ->
  collect_back (S (S n)) m t (t, Z.of_nat i) =
  Some ((t, Z.of_nat i) ::
        rev (map (fun k => (t, Z.of_nat k)) (filter (at_id shown (row m (num t))) (seq 0 i)))).
Proof.
  intros m t i Ht H0. induction i as [i IH] using lt_wf_ind. intros n Hn.
  remember (S n) as n' eqn:En. cbn [collect_back fst snd].
  destruct (Z.eqb_spec t NONE) as [E|_]; [exfalso; now apply (single_nonzero t Ht)|]. cbn [andb].
  destruct (Nat.eq_dec i 0) as [->|Hi].
  - assert (D : decr 7 m t (t, Z.of_nat 0) = Some end_it).
    { cbn [decr]. destruct (Z.eqb_spec t NONE) as [E|_]; [exfalso; now apply (single_nonzero t Ht)|].
      change (prev_local shown (row m (num t)) (Z.of_nat 0)) with (-1)%Z.
      change (-1 =? -1)%Z with true. cbv iota.
      rewrite (prev_type_single t Ht). reflexivity. }
    rewrite D, En. reflexivity.
  - pose proof (down_spec shown (row m (num t)) i) as D.
    destruct (down shown (row m (num t)) i) as [j|] eqn:Ed.
    2: { rewrite D in H0 by lia. discriminate. }
    rewrite (decr_down m t t i j Ht ltac:(lia) Ed).
    destruct n as [|n]; [lia|]. subst n'. rewrite IH by lia.
    cbn [option_map]. f_equal. f_equal. rewrite (filter_seq_down _ _ i), Ed.
    rewrite map_app, rev_app_distr. reflexivity.
Qed.
