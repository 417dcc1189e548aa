(** Properties C38, C39, C40: sorting of handles, sorting by global id,
    comparators. *)
From Coq Require Import ZArith List Bool Lia Arith Permutation Sorted QArith Qabs Lqa.
From Verif Require Import Util Sort_Model Sort_Proofs Compare_Proofs.
Import ListNotations.
Open Scope Z_scope.

(** std::sort with some order: any function that permutes and sorts *)
Definition sorts (D : Z -> Prop) (le : Z -> Z -> Prop) (srt : list Z -> list Z) : Prop :=
  forall l, Forall D l -> Permutation l (srt l) /\ StronglySorted le (srt l).

(** handles of existing elements and the invalid handle 0; [w] bytes *)
Definition handle (w : nat) (x : Z) : Prop := 0 <= x < 256 ^ Z.of_nat w - 1.

(** valid handles ascending, then the invalid ones *)
Definition invalid_last (x y : Z) : Prop := y = 0 \/ (x <> 0 /\ x <= y).

(** an insertion sort, to have a std::sort in the examples *)
Fixpoint insert (lt : Z -> Z -> bool) (x : Z) (l : list Z) : list Z :=
  match l with
  | [] => [x]
  | y :: t => if lt y x then y :: insert lt x t else x :: l
  end.
Definition isort (lt : Z -> Z -> bool) (l : list Z) : list Z := fold_right (insert lt) [] l.

Lemma insert_perm : forall lt x l, Permutation (x :: l) (insert lt x l).
Proof.
  intros lt x l. induction l as [|y l IH]; cbn [insert]; [constructor; constructor|].
  destruct (lt y x); [|reflexivity]. rewrite perm_swap. now constructor.
Qed.

Lemma isort_sorts : forall key, sorts (fun _ => True) (fun x y => key x <= key y)
  (isort (fun x y => key x <? key y)).
Proof.
  intros key l _. induction l as [|x l [IH1 IH2]]; cbn [isort fold_right].
  - split; constructor.
  - fold (isort (fun x y => key x <? key y) l). split.
    + rewrite IH1 at 1. apply insert_perm.
    + revert IH2. generalize (isort (fun x y => key x <? key y) l) as s. clear.
      intros s H. induction H as [|y s H IH Hy]; cbn [insert].
      * constructor; constructor.
      * destruct (Z.ltb_spec (key y) (key x)) as [Hl|Hl].
        -- constructor; auto. apply (Permutation_Forall (insert_perm _ x s)).
           constructor; auto. lia.
        -- constructor; [constructor; auto|]. constructor; auto.
           rewrite Forall_forall in *. intros z Hz. specialize (Hy z Hz). lia.
Qed.

(** ** C38 *)

(** SortHandles rearranges; without invalid handles the result is ascending;
    any long array has the invalid handles at the end. *)
Theorem C38_sort_handles : forall w srt h tmp,
  w = 4%nat \/ w = 8%nat -> sorts (fun _ => True) Z.le srt ->
  Forall (handle w) h -> Z.of_nat (length h) < 2 ^ 32 -> length tmp = length h ->
  let r := SortHandles false w srt h tmp in
  Permutation h r /\
  (~ In 0 h -> StronglySorted Z.le r) /\
  ((handles_limit w < length h)%nat -> StronglySorted invalid_last r).
Proof.
  intros w srt h tmp Hw Hs Hh Hn Ht. unfold SortHandles.
  rewrite Forall_forall in Hh.
  destruct (Nat.ltb_spec (handles_limit w) (length h)) as [Hl|Hl].
  2: { destruct (Hs h) as [S1 S2]; [apply Forall_forall; auto|]. split; [exact S1|].
       split; [intros _; exact S2|]. intros; lia. }
  set (h1 := map (fun x => if x =? 0 then undef w else x) h).
  assert (Hp : 0 < 256 ^ Z.of_nat w) by (apply Z.pow_pos_nonneg; lia).
  assert (Hp1 : 1 < 256 ^ Z.of_nat w) by (destruct Hw as [-> | ->]; reflexivity).
  destruct (radix_numbers w h1 tmp) as [P1 P2].
  { intros x Hx. apply in_map_iff in Hx. destruct Hx as [y [<- Hy]].
    specialize (Hh y Hy). unfold handle, undef in *. destruct (Z.eqb_spec y 0); lia. }
  { unfold h1. now rewrite map_length. }
  { unfold h1. now rewrite map_length. }
  set (r := passes (byte_at false w) h1 0 w h1 tmp) in *. clearbody r.
  set (back := fun x => if x =? undef w then 0 else x).
  assert (Hback : map back h1 = h).
  { unfold h1. rewrite map_map. rewrite <- (map_id h) at 2. apply map_ext_in.
    intros x Hx. specialize (Hh x Hx). unfold back, handle, undef in *.
    destruct (Z.eqb_spec x 0).
    - rewrite Z.eqb_refl. lia.
    - destruct (Z.eqb_spec x (256 ^ Z.of_nat w - 1)); lia. }
  assert (Hr : forall x, In x r -> 0 < x <= undef w).
  { intros x Hx. apply (Permutation_in _ (Permutation_sym P1)) in Hx.
    apply in_map_iff in Hx. destruct Hx as [y [<- Hy]].
    specialize (Hh y Hy). unfold handle, undef in *. destruct (Z.eqb_spec y 0); lia. }
  assert (PR : Permutation h (map back r)).
  { rewrite <- Hback at 1. now apply Permutation_map. }
  assert (SR : StronglySorted invalid_last (map back r)).
  { clear - P2 Hr. induction P2 as [|x r P2 IH Hx]; cbn [map]; constructor.
    - apply IH. intros; apply Hr; now right.
    - rewrite Forall_forall in *. intros z Hz. apply in_map_iff in Hz.
      destruct Hz as [y [<- Hy]]. specialize (Hx y Hy).
      pose proof (Hr x (or_introl eq_refl)). pose proof (Hr y (or_intror Hy)).
      unfold invalid_last, back.
      destruct (Z.eqb_spec y (undef w)); [now left|right].
      destruct (Z.eqb_spec x (undef w)); [lia|]. lia. }
  split; [exact PR|]. split; [|intros _; exact SR].
  intros Hni. apply (sorted_impl_in invalid_last); auto.
  intros x y Hx Hy [->|[_ H]]; [|exact H].
  exfalso. apply Hni. apply (Permutation_in _ (Permutation_sym PR)). exact Hy.
Qed.
Print Assumptions C38_sort_handles.

(** 33 handles in descending order with an invalid one in front *)
Definition ex_handles : list Z := 0 :: map (fun i => 1000 * (40 - Z.of_nat i)) (seq 0 33).

Example C38_nonvacuous :
  Forall (handle 4) ex_handles /\ (handles_limit 4 < length ex_handles)%nat /\
  Permutation ex_handles (SortHandles false 4 (isort Z.ltb) ex_handles (repeat 7 34)) /\
  SortHandles false 4 (isort Z.ltb) ex_handles (repeat 7 34) = rev ex_handles.
Proof.
  assert (H : Forall (handle 4) ex_handles).
  { apply Forall_forall. intros x Hx. unfold handle.
    apply (proj1 (forallb_forall (fun x => (0 <=? x) && (x <? 256 ^ Z.of_nat 4 - 1)) ex_handles))
      in Hx; [|vm_compute; reflexivity].
    apply andb_true_iff in Hx. lia. }
  split; [exact H|]. split; [apply Nat.ltb_lt; vm_compute; reflexivity|].
  split; [|vm_compute; reflexivity].
  apply (C38_sort_handles 4 (isort Z.ltb) ex_handles (repeat 7 34)); auto.
  - exact (isort_sorts (fun x => x)).
  - reflexivity.
Qed.

(** The place of invalid handles depends on the length of the array: the same
    contents are ordered one way up to the limit and the other way beyond it. *)
Theorem C38_invalid_place_refuted : forall srt, sorts (fun _ => True) Z.le srt ->
  SortHandles false 4 srt [5; 0] [0; 0] = [0; 5] /\
  (forall tmp, length tmp = 33%nat ->
     SortHandles false 4 srt (repeat 5 32 ++ [0]) tmp = repeat 5 32 ++ [0]).
Proof.
  intros srt Hs. split.
  - unfold SortHandles. cbn. destruct (Hs [5; 0]) as [P1 P2]; [repeat constructor|].
    set (r := srt [5; 0]) in *. clearbody r.
    assert (Hlen : length r = 2%nat) by (rewrite <- (Permutation_length P1); reflexivity).
    destruct r as [|a [|b [|]]]; try discriminate.
    inversion_clear P2 as [|? ? _ Hab]. inversion_clear Hab as [|? ? Hab' _].
    pose proof (Permutation_in _ P1 (or_introl eq_refl)) as I5.
    pose proof (Permutation_in _ P1 (or_intror (or_introl eq_refl))) as I0.
    cbn [In] in I5, I0.
    destruct I5 as [I5|[I5|[]]], I0 as [I0|[I0|[]]]; subst; try lia; try discriminate.
    reflexivity.
  - intros tmp Ht.
    destruct (C38_sort_handles 4 srt (repeat 5 32 ++ [0]) tmp) as [P1 [_ P2]]; auto.
    + apply Forall_forall. intros x Hx. unfold handle. apply in_app_iff in Hx.
      destruct Hx as [Hx|[<-|[]]]; [|cbn; lia]. apply repeat_spec in Hx. subst x. cbn. lia.
    + rewrite app_length, repeat_length. cbn. lia.
    + specialize (P2 ltac:(apply Nat.ltb_lt; reflexivity)).
      set (r := SortHandles false 4 srt (repeat 5 32 ++ [0]) tmp) in *. clearbody r.
      clear - P1 P2.
      (* an ascending arrangement of 5s followed by the invalid handle *)
      assert (G : forall n r, Permutation (repeat 5 n ++ [0]) r ->
        StronglySorted invalid_last r -> r = repeat 5 n ++ [0]).
      { induction n as [|n IH]; intros s Q1 Q2.
        - apply Permutation_length_1_inv in Q1. exact Q1.
        - destruct s as [|x s]; [symmetry in Q1; apply Permutation_nil in Q1; discriminate|].
          inversion_clear Q2 as [|? ? Q3 Q4].
          assert (x = 5).
          { assert (Hx : In x (repeat 5 (S n) ++ [0]))
              by (apply (Permutation_in _ (Permutation_sym Q1)); now left).
            apply in_app_iff in Hx. destruct Hx as [Hx|[<-|[]]]; [now apply repeat_spec in Hx|].
            exfalso. cbn [repeat app] in Q1.
            assert (H5 : In 5 (0 :: s)) by (apply (Permutation_in _ Q1); now left).
            destruct H5 as [H5|H5]; [discriminate|].
            rewrite Forall_forall in Q4. specialize (Q4 5 H5). unfold invalid_last in Q4. lia. }
          subst x. cbn [repeat app] in *. f_equal. apply IH; auto.
          eapply Permutation_cons_inv; exact Q1. }
      now apply G.
Qed.
Print Assumptions C38_invalid_place_refuted.

(** A handle equal to ENUMUNDEF is turned into the invalid handle. *)
Theorem C38_undef_refuted : exists h, length h = 33%nat /\
  forall srt tmp, length tmp = 33%nat -> In (undef 4) h /\
    ~ In (undef 4) (SortHandles false 4 srt h tmp).
Proof.
  exists (repeat (undef 4) 33). split; [reflexivity|]. intros srt tmp Ht.
  split; [left; reflexivity|]. unfold SortHandles.
  replace (handles_limit 4 <? length (repeat (undef 4) 33))%nat with true by reflexivity.
  cbv zeta. intros Hx. apply in_map_iff in Hx. destruct Hx as [y [Hy _]].
  destruct (Z.eqb_spec y (undef 4)) as [E|E]; [|contradiction].
  apply Z.eqb_neq in Hy; auto.
Qed.
Print Assumptions C38_undef_refuted.

(** On a big-endian machine the bytes are taken in the wrong order. *)
Theorem C38_big_endian_refuted : exists h tmp srt,
  sorts (fun _ => True) Z.le srt /\ Forall (handle 4) h /\ ~ In 0 h /\
  length tmp = length h /\
  ~ StronglySorted Z.le (SortHandles true 4 srt h tmp).
Proof.
  exists (repeat 256 16 ++ repeat 1 17), (repeat 0 33), (isort Z.ltb).
  split; [exact (isort_sorts (fun x => x))|].
  split.
  { apply Forall_forall. intros x Hx. unfold handle. apply in_app_iff in Hx.
    destruct Hx as [Hx|Hx]; apply repeat_spec in Hx; subst x; cbn; lia. }
  split.
  { intros Hx. apply in_app_iff in Hx.
    destruct Hx as [Hx|Hx]; apply repeat_spec in Hx; discriminate. }
  split; [reflexivity|].
  assert (E : SortHandles true 4 (isort Z.ltb) (repeat 256 16 ++ repeat 1 17) (repeat 0 33)
              = repeat 256 16 ++ repeat 1 17) by (vm_compute; reflexivity).
  rewrite E. intros H. cbn in H. inversion_clear H as [|? ? _ H1].
  rewrite Forall_forall in H1. specialize (H1 1). cbn in H1. lia.
Qed.
Print Assumptions C38_big_endian_refuted.

(** ** C39 *)

(** signed integers of [w] bytes *)
Definition integer_range (w : nat) (x : Z) : Prop :=
  - (256 ^ Z.of_nat w / 2) <= x < 256 ^ Z.of_nat w / 2.

(** non-negative ids ascending, then the negative ids ascending *)
Definition unsigned_le (x y : Z) : Prop :=
  (0 <= x /\ y < 0) \/ ((0 <= x <-> 0 <= y) /\ x <= y).

(** SortByGlobalID rearranges the handles; ids that are not negative come out
    ascending; long arrays are sorted stably, with negative ids at the end. *)
Theorem C39_sort_by_global_id : forall w gid srt h tmp,
  w = 4%nat \/ w = 8%nat ->
  sorts (fun x => x <> 0) (fun x y => gid x <= gid y) srt ->
  Forall (fun x => x <> 0) h -> (forall x, integer_range w (gid x)) ->
  Z.of_nat (length h) < 2 ^ 32 -> length tmp = length h ->
  let r := SortByGlobalID false w gid srt h tmp in
  Permutation h r /\
  ((forall x, In x h -> 0 <= gid x) -> StronglySorted (fun x y => gid x <= gid y) r) /\
  ((ids_limit w < length h)%nat ->
     StronglySorted (fun x y => unsigned_le (gid x) (gid y)) r /\
     forall v, filter (fun x => gid x =? v) r = filter (fun x => gid x =? v) h).
Proof.
  intros w gid srt h tmp Hw Hs Hh Hg Hn Ht. unfold SortByGlobalID.
  destruct (Nat.ltb_spec (ids_limit w) (length h)) as [Hl|Hl].
  2: { destruct (Hs h Hh) as [S1 S2]. split; [exact S1|]. split; [intros _; exact S2|intros; lia]. }
  set (M := 256 ^ Z.of_nat w) in *.
  set (val := fun x => gid x mod M).
  assert (HM : 0 < M) by (apply Z.pow_pos_nonneg; lia).
  assert (HM2 : M = 2 * (M / 2)) by (unfold M; destruct Hw as [-> | ->]; reflexivity).
  change (passes (fun (i : nat) (x : Z) => byte_at false w i (gid x mod M)) h 0 w h tmp)
    with (passes (dig val w) h 0 w h tmp).
  assert (Hval : forall x, 0 <= val x < 256 ^ Z.of_nat w)
    by (intros; apply Z.mod_pos_bound; exact HM).
  destruct (radix_sorts val w Hval h tmp Hn Ht) as [P1 P2].
  pose proof (fun v => passes_stable val w v h w 0 h tmp Hn Ht (Permutation_refl h)) as P3.
  set (r := passes (dig val w) h 0 w h tmp) in *. clearbody r.
  assert (Hv : forall x, val x = if gid x <? 0 then gid x + M else gid x).
  { intros x. specialize (Hg x). unfold integer_range in Hg. fold M in Hg. unfold val.
    destruct (Z.ltb_spec (gid x) 0).
    - symmetry. apply (Z.mod_unique_pos _ _ (-1)); lia.
    - apply Z.mod_small. lia. }
  assert (Hvi : forall x v, integer_range w v ->
    (gid x =? v) = (val x =? (if v <? 0 then v + M else v))).
  { intros x v Hr. rewrite Hv. specialize (Hg x). unfold integer_range in *. fold M in Hg, Hr.
    destruct (Z.ltb_spec (gid x) 0), (Z.ltb_spec v 0);
      match goal with |- (?a =? ?b) = (?c =? ?d) =>
        destruct (Z.eqb_spec a b), (Z.eqb_spec c d) end; lia || reflexivity. }
  split; [exact P1|].
  assert (SU : StronglySorted (fun x y => unsigned_le (gid x) (gid y)) r).
  { apply (sorted_impl_in (fun x y => val x <= val y)); auto.
    intros x y _ _. rewrite !Hv. pose proof (Hg x) as Gx. pose proof (Hg y) as Gy.
    unfold integer_range in Gx, Gy. fold M in Gx, Gy.
    unfold unsigned_le. destruct (Z.ltb_spec (gid x) 0), (Z.ltb_spec (gid y) 0); lia. }
  split.
  - intros Hpos. apply (sorted_impl_in (fun x y => unsigned_le (gid x) (gid y))); auto.
    intros x y Hx Hy.
    apply (Permutation_in _ (Permutation_sym P1)) in Hx, Hy.
    apply Hpos in Hx, Hy. unfold unsigned_le. lia.
  - intros _. split; [exact SU|]. intros v.
    destruct (Z_le_dec (- (M / 2)) v) as [L1|L1]; [destruct (Z_lt_dec v (M / 2)) as [L2|L2]|].
    + rewrite !(filter_ext (fun x => gid x =? v) (fun x => val x =? (if v <? 0 then v + M else v)))
        by (intros; apply Hvi; unfold integer_range; fold M; lia).
      apply P3.
    + rewrite !filter_none; auto; intros x _; apply Z.eqb_neq; specialize (Hg x);
        unfold integer_range in Hg; fold M in Hg; lia.
    + rewrite !filter_none; auto; intros x _; apply Z.eqb_neq; specialize (Hg x);
        unfold integer_range in Hg; fold M in Hg; lia.
Qed.
Print Assumptions C39_sort_by_global_id.

Definition ex_elements : list Z := map (fun i => 1 + Z.of_nat i) (seq 0 65).

Lemma ex_elements_pos : forall x, In x ex_elements -> 0 < x.
Proof. intros x Hx. apply in_map_iff in Hx. destruct Hx as [i [<- _]]. lia. Qed.

(** global ids descending, two handles share each id *)
Definition ex_gid (x : Z) : Z := 300000 - 1000 * (Z.min (Z.max x 0) 100 / 2).

Example C39_nonvacuous :
  (ids_limit 4 < length ex_elements)%nat /\
  (forall x, In x ex_elements -> 0 <= ex_gid x) /\
  StronglySorted (fun x y => ex_gid x <= ex_gid y)
    (SortByGlobalID false 4 ex_gid (isort (fun x y => ex_gid x <? ex_gid y)) ex_elements (repeat 0 65)) /\
  firstn 4 (SortByGlobalID false 4 ex_gid (isort (fun x y => ex_gid x <? ex_gid y)) ex_elements (repeat 0 65))
    = [64; 65; 62; 63].
Proof.
  split; [apply Nat.ltb_lt; vm_compute; reflexivity|].
  assert (R : forall x, 0 <= ex_gid x < 400000) by (intros; unfold ex_gid; lia).
  split; [intros; apply R|]. split; [|vm_compute; reflexivity].
  apply (C39_sort_by_global_id 4 ex_gid (isort (fun x y => ex_gid x <? ex_gid y)) ex_elements (repeat 0 65)); auto.
  - intros l _. apply isort_sorts. apply Forall_forall. auto.
  - apply Forall_forall. intros x Hx. apply ex_elements_pos in Hx. lia.
  - intros x. specialize (R x). unfold integer_range.
    change (256 ^ Z.of_nat 4 / 2) with 2147483648. lia.
  - reflexivity.
  - intros; apply R.
Qed.

(** A negative global id (the value before ids are assigned is -1) is first in
    a short array and last in a long one. *)
Theorem C39_negative_refuted : exists gid h short,
  (forall x, integer_range 4 (gid x)) /\ Forall (fun x => x <> 0) h /\
  gid 1 = -1 /\ In 1 h /\ In 1 short /\
  (forall srt, sorts (fun x => x <> 0) (fun x y => gid x <= gid y) srt ->
     (forall tmp, length tmp = length h ->
        last (SortByGlobalID false 4 gid srt h tmp) 0 = 1) /\
     hd 0 (SortByGlobalID false 4 gid srt short [0;0]) = 1).
Proof.
  exists (fun x => if x =? 1 then -1 else 7), (1 :: repeat 2 64), [2; 1].
  set (gid := fun x => if x =? 1 then -1 else 7).
  assert (Hg : forall x, integer_range 4 (gid x)).
  { intros x. unfold gid, integer_range. cbn. destruct (x =? 1); lia. }
  assert (Hh : Forall (fun x => x <> 0) (1 :: repeat 2 64)).
  { constructor; [lia|]. apply Forall_forall. intros x Hx. apply repeat_spec in Hx. lia. }
  repeat (split; [first [exact Hg | exact Hh | reflexivity | left; reflexivity | right; left; reflexivity]|]).
  intros srt Hs. split.
  - intros tmp Ht.
    destruct (C39_sort_by_global_id 4 gid srt (1 :: repeat 2 64) tmp) as [P1 [_ P2]]; auto.
    { cbn [length]. rewrite repeat_length. lia. }
    destruct (P2 ltac:(apply Nat.ltb_lt; reflexivity)) as [P3 _]. clear P2.
    set (r := SortByGlobalID false 4 gid srt (1 :: repeat 2 64) tmp) in *. clearbody r.
    assert (I1 : In 1 r) by (apply (Permutation_in _ P1); now left).
    apply in_split in I1. destruct I1 as [a [b ->]].
    destruct b as [|y b]; [now rewrite last_last|]. exfalso.
    assert (Py : In y (repeat 2 64)).
    { assert (Q : Permutation (repeat 2 64) (a ++ y :: b))
        by (apply (Permutation_cons_app_inv a (y :: b) P1)).
      apply (Permutation_in _ (Permutation_sym Q)). apply in_app_iff. right. now left. }
    apply repeat_spec in Py. subst y.
    clear - P3. induction a as [|z a IH]; cbn [app] in P3; inversion_clear P3 as [|? ? P4 P5]; auto.
    inversion_clear P5 as [|? ? P6 _]. unfold gid, unsigned_le in P6. cbn in P6. lia.
  - unfold SortByGlobalID. cbn [ids_limit length Nat.eqb Nat.ltb Nat.leb].
    destruct (Hs [2; 1]) as [P1 P2]; [repeat constructor; lia|].
    set (r := srt [2; 1]) in *. clearbody r.
    assert (Hlen : length r = 2%nat) by (rewrite <- (Permutation_length P1); reflexivity).
    destruct r as [|a [|b [|]]]; try discriminate. cbn [hd].
    inversion_clear P2 as [|? ? _ Hab]. inversion_clear Hab as [|? ? Hab' _].
    pose proof (Permutation_in _ P1 (or_introl eq_refl)) as I5.
    pose proof (Permutation_in _ P1 (or_intror (or_introl eq_refl))) as I0.
    cbn [In] in I5, I0.
    destruct I5 as [I5|[I5|[]]], I0 as [I0|[I0|[]]]; subst; try lia; try discriminate; auto;
    unfold gid in Hab'; cbn in Hab'; lia.
Qed.
Print Assumptions C39_negative_refuted.

(** ** C40 *)

(** the comparators order elements (handle 0 is last) when "coordinates closer
    than epsilon" is transitive on the points of the mesh; epsilon = 0 always is *)
Theorem C40_centroid : forall e cen (P : list Q -> Prop) n, (0 <= e)%Q ->
  (forall c, P c -> length c = n) -> near_transitive e P ->
  strict_weak (fun h => 0 <= h /\ P (cen h)) (centroid_less e cen).
Proof.
  intros e cen P n He Hl Ht.
  apply (strict_weak_cmp _ (fun a b => compare_coords e (cen a) (cen b))).
  - tauto.
  - intros. now apply compare_coords_opp.
  - intros a b c [_ Pa] [_ Pb] [_ Pc] _ _ _. apply compare_coords_trans; auto.
    + rewrite (Hl (cen a)), (Hl (cen b)); auto.
    + rewrite (Hl (cen c)), (Hl (cen b)); auto.
    + intros i p q r Hp Hq Hr.
      assert (X : forall p, In p [cen a; cen b; cen c] -> P p)
        by (intros p' [<-|[<-|[<-|[]]]]; auto).
      apply Ht; auto.
Qed.
Print Assumptions C40_centroid.

Theorem C40_hierarchy : forall e el (P : list Q -> Prop) n, (0 <= e)%Q ->
  (forall c, P c -> length c = n) -> near_transitive e P ->
  strict_weak (fun h => 0 <= h /\ wf_elem P (el h)) (hierarchy_less e el).
Proof.
  intros e el P n He Hl Ht.
  apply (strict_weak_cmp _ (fun a b => compare_elements e (el a) (el b))).
  - tauto.
  - intros. now apply compare_elements_opp.
  - intros a b c [_ Pa] [_ Pb] [_ Pc] _ _ _. now apply (compare_elements_trans e P n).
Qed.
Print Assumptions C40_hierarchy.

Theorem C40_epsilon_zero : forall P, near_transitive 0 P.
Proof.
  intros P a b c i _ _ _. rewrite !near_iff. intros [H1 H2] [H3 H4]. split; lra.
Qed.
Print Assumptions C40_epsilon_zero.

(** with epsilon 0 the order is the lexicographic order of the coordinates *)
Theorem C40_lexicographic : forall a b, length a = length b ->
  (compare_coords 0 a b < 0 <->
   exists i, (i < length a)%nat /\ (nth i a 0 < nth i b 0)%Q /\
     forall j, (j < i)%nat -> (nth j a 0 == nth j b 0)%Q) /\
  (compare_coords 0 a b = 0 <-> Forall2 Qeq a b).
Proof.
  induction a as [|x a IH]; intros [|y b] Hl; cbn [length] in *; try discriminate.
  - cbn. split; [split; [lia|intros [i [Hi _]]; lia]|split; [constructor|reflexivity]].
  - destruct (IH b ltac:(lia)) as [IH1 IH2]. rewrite compare_coords_cons.
    destruct (cmp1_cases 0 x y ltac:(lra)) as [[-> H]|[[-> H]|[-> H]]].
    + cbn [Z.eqb]. split; split; try lia.
      * intros [[|i] [_ [H1 H2]]]; [cbn in H1; lra|]. specialize (H2 0%nat ltac:(lia)).
        cbn in H2. lra.
      * intros F. inversion F. lra.
    + cbn [Z.eqb]. split; split; try lia.
      * intros _. exists 0%nat. cbn. split; [lia|]. split; [lra|]. intros; lia.
      * intros F. inversion F. lra.
    + change (0 =? 0) with true. cbv iota. rewrite near_iff in H.
      assert (E : (x == y)%Q) by lra. split.
      * rewrite IH1. split.
        -- intros [i [H1 [H2 H3]]]. exists (S i). split; [lia|]. split; [exact H2|].
           intros [|j] Hj; [exact E|]. apply H3. lia.
        -- intros [[|i] [H1 [H2 H3]]]; [cbn in H2; lra|].
           exists i. split; [lia|]. split; [exact H2|]. intros j Hj. apply (H3 (S j)). lia.
      * rewrite IH2. split; [now constructor|]. intros F. now inversion F.
Qed.
Print Assumptions C40_lexicographic.

(** the tag comparators *)
Theorem C40_tag : forall key, strict_weak (fun h => 0 <= h) (tag_less key).
Proof.
  intros key.
  assert (S : strict_weak (fun h => 0 <= h)
    (fun a b => if (a =? 0) || (b =? 0) then b <? a else key a - key b <? 0)).
  { apply (strict_weak_cmp (fun h => 0 <= h) (fun a b => key a - key b)); auto; intros; lia. }
  assert (E : forall a b, tag_less key a b =
    if (a =? 0) || (b =? 0) then b <? a else key a - key b <? 0).
  { intros. unfold tag_less. destruct (_ || _); [reflexivity|].
    destruct (Z.ltb_spec (key a) (key b)), (Z.ltb_spec (key a - key b) 0); lia. }
  destruct S as [S1 [S2 S3]]. split; [|split].
  - intros a. rewrite E. apply S1.
  - intros a b c. rewrite !E. apply S2.
  - intros a b c. rewrite !E. apply S3.
Qed.
Print Assumptions C40_tag.

(** three nodes of a plane mesh, the second handle is closer than epsilon to
    both neighbours only in one coordinate *)
Definition ex_cen (h : Z) : list Q :=
  if h =? 1 then [0; 5]%Q else if h =? 2 then [(1#4); 7]%Q else [10; 0]%Q.

Example C40_nonvacuous :
  near_transitive (1#2) (fun c => c = ex_cen 1 \/ c = ex_cen 2 \/ c = ex_cen 3) /\
  strict_weak (fun h => 0 <= h) (centroid_less (1#2) ex_cen) /\
  centroid_less (1#2) ex_cen 1 2 = true /\ centroid_less (1#2) ex_cen 2 3 = true /\
  centroid_less (1#2) ex_cen 3 0 = true /\
  compare_elements (1#2) (EHigh 1 [ENode (ex_cen 1); ENode (ex_cen 2)])
    (EHigh 1 [ENode (ex_cen 1); ENode (ex_cen 3)]) = -1.
Proof.
  assert (T : near_transitive (1#2) (fun c => c = ex_cen 1 \/ c = ex_cen 2 \/ c = ex_cen 3)).
  { intros a b c i Ha Hb Hc. rewrite !near_iff.
    destruct Ha as [->|[->| ->]], Hb as [->|[->| ->]], Hc as [->|[->| ->]];
      destruct i as [|[|[|i]]]; cbn; intros [H1 H2] [H3 H4]; split; lra. }
  split; [exact T|]. split.
  - assert (D : forall h, ex_cen h = ex_cen 1 \/ ex_cen h = ex_cen 2 \/ ex_cen h = ex_cen 3).
    { intros h. unfold ex_cen at 1 3 5. destruct (h =? 1); [now left|].
      destruct (h =? 2); [right; now left|]. right; now right. }
    assert (Hlen : forall c, (c = ex_cen 1 \/ c = ex_cen 2 \/ c = ex_cen 3) -> length c = 2%nat)
      by (intros c [->|[->| ->]]; reflexivity).
    assert (He : (0 <= 1#2)%Q) by lra.
    destruct (C40_centroid _ ex_cen _ 2%nat He Hlen T) as [S1 [S2 S3]].
    split; [intros; now apply S1|]. split.
    + intros a b c Ha Hb Hc. apply S2; auto.
    + intros a b c Ha Hb Hc. apply S3; auto.
  - vm_compute. auto.
Qed.

(** with a positive epsilon the relation can be cyclic *)
Theorem C40_epsilon_cycle_refuted : exists e cen,
  (0 < e)%Q /\ (forall h, length (cen h) = 2%nat) /\
  centroid_less e cen 1 2 = true /\ centroid_less e cen 2 3 = true /\
  centroid_less e cen 3 1 = true.
Proof.
  exists 1%Q, (fun h => if h =? 1 then [2; 0]%Q else if h =? 2 then [1; 2]%Q else [0; 4]%Q).
  split; [lra|]. split; [intros h; destruct (h =? 1); [|destruct (h =? 2)]; reflexivity|].
  vm_compute. auto.
Qed.
Print Assumptions C40_epsilon_cycle_refuted.

(** search by value: the array is sorted by the comparator (invalid handles at
    the end), the test must hold on a prefix *)
Definition tag_sorted (key : Z -> Z) (l : list Z) : Prop :=
  StronglySorted (fun x y => tag_less key y x = false) l.

Theorem C40_search_global_id : forall key l v, Forall (fun h => 0 <= h) l ->
  tag_sorted key l -> prefix_holds (fun h => gid_less_value key h v) l.
Proof.
  intros key l v Hl Hs. induction Hs as [|x l Hs IH Hx].
  - exists [], []. repeat split; constructor.
  - inversion_clear Hl as [|? ? Hx0 Hl']. destruct (IH Hl') as [a [b [E [Ha Hb]]]].
    destruct (gid_less_value key x v) eqn:Ex.
    + exists (x :: a), b. subst l. repeat split; auto.
    + exists [], (x :: l). repeat split; auto. constructor; auto.
      rewrite Forall_forall in *. intros y Hy. specialize (Hx y Hy). specialize (Hl' y Hy).
      unfold gid_less_value, tag_less in *.
      destruct (Z.eqb_spec x 0), (Z.eqb_spec y 0); cbn [orb] in *;
        rewrite ?Z.ltb_ge in *; try lia; auto.
Qed.
Print Assumptions C40_search_global_id.

Theorem C40_search_tag : forall key l v, Forall (fun h => 0 < h) l ->
  tag_sorted key l -> prefix_holds (fun h => tag_less_value key h v) l.
Proof.
  intros key l v Hl Hs.
  destruct (C40_search_global_id key l v) as [a [b [E [Ha Hb]]]]; auto.
  { rewrite Forall_forall in *. intros h Hh. specialize (Hl h Hh). lia. }
  exists a, b. subst l. apply Forall_app in Hl. destruct Hl as [La Lb].
  split; [reflexivity|].
  rewrite !Forall_forall in *.
  split; intros h Hh; [specialize (Ha h Hh); specialize (La h Hh); rewrite <- Ha
                      |specialize (Hb h Hh); specialize (Lb h Hh); rewrite <- Hb];
    unfold tag_less_value, gid_less_value; destruct (Z.eqb_spec h 0); try lia; reflexivity.
Qed.
Print Assumptions C40_search_tag.

Theorem C40_search_centroid : forall e cen (P : list Q -> Prop) n l v, (0 <= e)%Q ->
  (forall c, P c -> length c = n) -> near_transitive e P -> P v ->
  Forall (fun h => 0 < h /\ P (cen h)) l ->
  StronglySorted (fun x y => centroid_less e cen y x = false) l ->
  prefix_holds (fun h => centroid_less_point e cen h v) l.
Proof.
  intros e cen P n l v He Hlen Ht Hv Hl Hs. induction Hs as [|x l Hs IH Hx].
  - exists [], []. repeat split; constructor.
  - inversion_clear Hl as [|? ? Hx0 Hl']. destruct (IH Hl') as [a [b [E [Ha Hb]]]].
    destruct (centroid_less_point e cen x v) eqn:Ex.
    + exists (x :: a), b. subst l. repeat split; auto.
    + exists [], (x :: l). repeat split; auto. constructor; auto.
      rewrite Forall_forall in *. intros y Hy. specialize (Hx y Hy). specialize (Hl' y Hy).
      destruct Hl' as [Hy0 Py], Hx0 as [Hx0 Px].
      unfold centroid_less_point, centroid_less in *.
      destruct (Z.eqb_spec x 0), (Z.eqb_spec y 0); try lia; cbn [orb] in *.
      rewrite ?Z.ltb_ge in *.
      rewrite (compare_coords_opp e (cen x) (cen y)) in Hx by auto.
      rewrite (compare_coords_opp e v (cen x)) in Ex by auto.
      rewrite (compare_coords_opp e v (cen y)) by auto.
      assert (compare_coords e v (cen y) <= 0); [|lia].
      apply (compare_coords_trans e v (cen x) (cen y)); try lia; auto.
      * rewrite (Hlen v), (Hlen (cen x)); auto.
      * rewrite (Hlen (cen y)), (Hlen (cen x)); auto.
      * intros i p q r Hp Hq Hr.
        assert (X : forall p, In p [v; cen x; cen y] -> P p)
          by (intros p' [<-|[<-|[<-|[]]]]; auto).
        apply Ht; auto.
Qed.
Print Assumptions C40_search_centroid.

Example C40_search_nonvacuous :
  tag_sorted (fun h => 10 * h) [1; 2; 5; 0] /\
  prefix_holds (fun h => gid_less_value (fun h => 10 * h) h 20) [1; 2; 5; 0] /\
  tag_sorted (fun h => 10 * h) [1; 2; 5] /\
  StronglySorted (fun x y => centroid_less (1#2) ex_cen y x = false) [1; 2; 3].
Proof.
  assert (S : tag_sorted (fun h => 10 * h) [1; 2; 5; 0]).
  { unfold tag_sorted. repeat constructor. }
  split; [exact S|]. split.
  - apply C40_search_global_id; auto. repeat (constructor; [lia|]). constructor.
  - split; [unfold tag_sorted; repeat constructor|]. repeat constructor.
Qed.

(** with an invalid handle at the end of the sorted array the test of the tag
    and centroid comparators is true again behind the place searched for *)
Theorem C40_search_invalid_refuted :
  (exists key l v, Forall (fun h => 0 <= h) l /\ tag_sorted key l /\
     ~ prefix_holds (fun h => tag_less_value key h v) l) /\
  (exists cen l v, Forall (fun h => 0 <= h) l /\
     StronglySorted (fun x y => centroid_less 0 cen y x = false) l /\
     ~ prefix_holds (fun h => centroid_less_point 0 cen h v) l).
Proof.
  assert (G : forall test : Z -> bool, test 1 = false -> test 0 = true ->
    ~ prefix_holds test [1; 0]).
  { intros test H1 H0 [a [b [E [Ha Hb]]]]. destruct a as [|x a].
    - cbn in E. subst b. inversion_clear Hb as [|? ? _ Hb']. inversion_clear Hb'. congruence.
    - cbn in E. inversion E; subst. inversion_clear Ha. congruence. }
  split.
  - exists (fun h => h), [1; 0], 1.
    split; [repeat (constructor; [lia|]); constructor|].
    split; [unfold tag_sorted; repeat constructor|]. now apply G.
  - exists (fun h => [inject_Z h]), [1; 0], [1%Q].
    split; [repeat (constructor; [lia|]); constructor|].
    split; [repeat constructor|]. now apply G.
Qed.
Print Assumptions C40_search_invalid_refuted.
