(** C85: radix sort of the entries of the search tree. *)
From Coq Require Import List Bool Arith ZArith Lia Permutation Sorting.
From Verif Require Import Util Radix_Model Radix_Spec Radix_Proofs.
Import ListNotations.
Open Scope Z_scope.

(** The sort stays within its arrays. *)
Theorem C85_radix_total : forall E (key : E -> Z) set temp,
  (forall e, In e set -> 0 <= key e < 2 ^ 32) -> Z.of_nat (length set) <= 2 ^ 32 -> (length set <= length temp)%nat ->
  radix_sort key set temp <> None.
Proof.
  intros E key set temp H1 H2 H3. destruct (radix_ok E key set temp H1 H2 H3) as (K & _ & ->). discriminate.
Qed.

(** No entry is lost or duplicated. *)
Theorem C85_radix_permutation : forall E (key : E -> Z) set temp out,
  (forall e, In e set -> 0 <= key e < 2 ^ 32) -> Z.of_nat (length set) <= 2 ^ 32 -> (length set <= length temp)%nat ->
  radix_sort key set temp = Some out -> Permutation out set.
Proof.
  intros E key set temp out H1 H2 H3 Ho. destruct (radix_ok E key set temp H1 H2 H3) as (K & EK & Er).
  rewrite Er in Ho. injection Ho as <-.
  assert (forall e, In e set -> 0 <= m0 (flip (key e)) < Z.of_nat K /\ 0 <= m1 (flip (key e)) < Z.of_nat K /\
            0 <= m2 (flip (key e)) < Z.of_nat K) as D.
  { intros e He. rewrite EK. apply digits_range, flip_range, H1, He. }
  assert (Permutation (bucket E (fun e => m0 (flip (key e))) K set) set) as P0.
  { apply bucket_perm. intros e He. exact (proj1 (D e He)). }
  assert (Permutation (bucket E (fun e => m1 (flip (key e))) K (bucket E (fun e => m0 (flip (key e))) K set)) set) as P1.
  { rewrite bucket_perm; auto. intros e He. exact (proj1 (proj2 (D e (Permutation_in _ P0 He)))). }
  rewrite bucket_perm; auto. intros e He. exact (proj2 (proj2 (D e (Permutation_in _ P1 He)))).
Qed.

(** The float values of the result are in ascending order. *)
Theorem C85_radix_ordered : forall E (key : E -> Z) set temp out,
  (forall e, In e set -> 0 <= key e < 2 ^ 32) -> Z.of_nat (length set) <= 2 ^ 32 -> (length set <= length temp)%nat ->
  radix_sort key set temp = Some out -> ordered (fun e => float_value (key e)) out.
Proof.
  intros E key set temp out H1 H2 H3 Ho. pose proof (C85_radix_permutation E key set temp out H1 H2 H3 Ho) as P.
  destruct (radix_ok E key set temp H1 H2 H3) as (K & EK & Er). rewrite Er in Ho. injection Ho as Ho.
  assert (StronglySorted (fun _ _ : E => True) set) as S.
  { clear. induction set as [|e r IH]; constructor; auto. apply Forall_forall. auto. }
  apply (bucket_sorted E (fun e => m0 (flip (key e))) _ K) in S.
  apply (bucket_sorted E (fun e => m1 (flip (key e))) _ K) in S.
  apply (bucket_sorted E (fun e => m2 (flip (key e))) _ K) in S. rewrite Ho in S. clear Ho Er.
  assert (forall x, In x out -> 0 <= key x < 2 ^ 32) as R.
  { intros x Hx. apply H1. exact (Permutation_in _ P Hx). }
  intros i j x y Hij Hx Hy. apply flip_value; try (apply R; eapply nth_error_In; eauto).
  apply digits_lt; try (apply flip_range, R; eapply nth_error_In; eauto).
  clear - S Hij Hx Hy. revert i j Hij Hx Hy. induction S as [|z l S IH F]; intros i j Hij Hx Hy; [destruct i; discriminate|].
  destruct j as [|j]; [lia|]. cbn in Hy. destruct i as [|i].
  - cbn in Hx. injection Hx as <-. rewrite Forall_forall in F. exact (F y (nth_error_In _ _ Hy)).
  - cbn in Hx. apply (IH i j); auto. lia.
Qed.

(** Entries with the same coordinate keep their order. *)
Theorem C85_radix_stable : forall E (key : E -> Z) set temp out k,
  (forall e, In e set -> 0 <= key e < 2 ^ 32) -> Z.of_nat (length set) <= 2 ^ 32 -> (length set <= length temp)%nat ->
  radix_sort key set temp = Some out ->
  filter (fun e => key e =? k) out = filter (fun e => key e =? k) set.
Proof.
  intros E key set temp out k H1 H2 H3 Ho. destruct (radix_ok E key set temp H1 H2 H3) as (K & EK & Er).
  rewrite Er in Ho. injection Ho as <-.
  destruct (Z.lt_ge_cases k 0) as [N|N]; [|destruct (Z.lt_ge_cases k (2 ^ 32)) as [M|M]].
  - assert (forall l, (forall e, In e l -> In e set) -> filter (fun e => key e =? k) l = []) as G.
    { induction l as [|e r IH]; intros Hl; auto. cbn [filter]. pose proof (H1 e (Hl e (or_introl eq_refl))).
      destruct (Z.eqb_spec (key e) k); [lia|]. apply IH. auto using in_cons. }
    rewrite !G; auto. intros e He. apply (Permutation_in _ (C85_radix_permutation E key set temp _ H1 H2 H3 Er)), He.
  - pose proof (digits_range (flip k) (flip_range k ltac:(lia))) as (D0 & D1 & D2).
    rewrite (bucket_filter E (fun e => m2 (flip (key e))) K _ _ (Z.to_nat (m2 (flip k)))); [|lia|].
    rewrite (bucket_filter E (fun e => m1 (flip (key e))) K _ _ (Z.to_nat (m1 (flip k)))); [|lia|].
    rewrite (bucket_filter E (fun e => m0 (flip (key e))) K _ _ (Z.to_nat (m0 (flip k)))); [reflexivity|lia|].
    all: intros e _ He; apply Z.eqb_eq in He; rewrite He, Z2Nat.id by lia; reflexivity.
  - assert (forall l, (forall e, In e l -> In e set) -> filter (fun e => key e =? k) l = []) as G.
    { induction l as [|e r IH]; intros Hl; auto. cbn [filter]. pose proof (H1 e (Hl e (or_introl eq_refl))).
      destruct (Z.eqb_spec (key e) k); [lia|]. apply IH. auto using in_cons. }
    rewrite !G; auto. intros e He. apply (Permutation_in _ (C85_radix_permutation E key set temp _ H1 H2 H3 Er)), He.
Qed.

(** ** Example: 5, -7 (twice), 3, 1.0, -0, 0, -1.0 (denormals but for the ones) *)
Example C85_nonvacuous :
  let set := [(5, 0); (2 ^ 31 + 7, 1); (3, 2); (1065353216, 3); (2 ^ 31, 4); (0, 5); (3212836864, 6); (2 ^ 31 + 7, 7)] in
  radix_sort fst set (repeat (0, 0) 9) =
    Some [(3212836864, 6); (2147483655, 1); (2147483655, 7); (2147483648, 4); (0, 5); (3, 2); (5, 0); (1065353216, 3)] /\
  map float_value [1065353216; 3212836864; 2 ^ 31; 2 ^ 31 + 7] = [2 ^ 149; - 2 ^ 149; 0; -7] /\
  (forall e, In e set -> 0 <= fst e < 2 ^ 32).
Proof.
  cbv zeta. split; [vm_compute; reflexivity|]. split; [vm_compute; reflexivity|].
  intros e He. cbn [In] in He. repeat (destruct He as [<-|He]; [cbn [fst]; lia|]). destruct He.
Qed.

Print Assumptions C85_radix_total.
Print Assumptions C85_radix_permutation.
Print Assumptions C85_radix_ordered.
Print Assumptions C85_radix_stable.
