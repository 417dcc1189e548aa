(** C86-C89: loops of edges of a face, orientation of faces and edges. *)
From Coq Require Import List Arith Bool Lia Permutation.
From Verif Require Import Util Adj_Model Adj_Proofs Loop_Model Loop_Spec Loop_Proofs Loop2_Proofs Loop3_Proofs.
Import ListNotations.

(** Witnesses: a pentagon with nodes 0..4, edge i joins node i and node i+1 mod 5 (the ends
    of the edge 2 are stored in the other order), edge 10 joins nodes 1 and 3. *)
Definition wn (i : nat) : elem := (0, i).
Definition we (i : nat) : elem := (1, i).
Definition wlow (e : elem) : list elem :=
  match e with
  | (1, 0) => [wn 0; wn 1] | (1, 1) => [wn 1; wn 2] | (1, 2) => [wn 3; wn 2]
  | (1, 3) => [wn 3; wn 4] | (1, 4) => [wn 4; wn 0] | (1, 10) => [wn 1; wn 3]
  | _ => []
  end.
Definition wpent := map we [0; 1; 2; 3; 4].
Definition hid_of (l : list elem) (e : elem) : bool := existsb (eqe e) l.

Ltac poly := split; [split; [cbn; lia|cbn; repeat (constructor; [first [left; reflexivity|right; reflexivity]|]); constructor]|
  repeat constructor; cbn; intuition discriminate].

Lemma wpent_polygon : polygon wlow wpent (map wn [0; 1; 2; 3; 4]).
Proof. poly. Qed.

(** * C86: the nodes of a face in the order of its loop *)

Theorem C86_nodes : forall low h lc ns, polygon low lc ns -> face_nodes low h false lc = Some ns.
Proof. intros. apply ring_polygon. assumption. Qed.

Theorem C86_nodes_visible : forall low h lc ns,
  polygon (fun e => shown h (low e)) (shown h lc) ns -> face_nodes low h true lc = Some ns.
Proof.
  intros low h lc ns P. unfold face_nodes. rewrite ring_hidden_eq; [apply ring_polygon; assumption|].
  rewrite (polygon_length _ _ _ P). destruct P as ((L & _) & _). exact L.
Qed.

(** Consecutive nodes of the answer are the ends of the edges in turn. *)
Theorem C86_nodes_edges : forall low h lc ns i e, polygon low lc ns -> nth_error lc i = Some e ->
  exists ans a b, face_nodes low h false lc = Some ans /\ Permutation ans ns /\
    nth_error ans i = Some a /\ nth_error ans (if Nat.eqb (S i) (length ans) then 0 else S i) = Some b /\ joins low e a b.
Proof.
  intros low h lc ns i e P E. pose proof (polygon_length _ _ _ P) as PL.
  assert (IL : i < length lc) by (apply nth_error_Some; congruence).
  pose proof P as ((L & W) & ND). destruct ns as [|n ns]; [contradiction|].
  destruct (path_at _ _ _ _ _ W E) as (a & b & A & B & J).
  exists (n :: ns), a, b. split; [apply C86_nodes; assumption|]. split; [reflexivity|].
  rewrite nth_error_app1 in A by lia. split; [assumption|]. split; [|assumption].
  destruct (Nat.eqb_spec (S i) (length (n :: ns))) as [N|N].
  - rewrite N in B. rewrite nth_error_mid in B. exact B.
  - rewrite nth_error_app1 in B by lia. exact B.
Qed.

Theorem C86_mask : forall low h priv ok lc ns, polygon low lc ns ->
  face_nodes_mask low h false priv ok lc = Some (filter ok ns).
Proof. intros. apply ring_mask_ring. apply ring_polygon. assumption. Qed.

Theorem C86_mask_visible : forall low h priv ok q lc ns, h q = false ->
  (priv = true -> h (last (q :: lc) q) = false) ->
  polygon (fun e => shown h (low e)) (shown h (q :: lc)) ns ->
  face_nodes_mask low h true priv ok (q :: lc) = Some (filter ok ns).
Proof.
  intros low h priv ok q lc ns Q PL P. unfold face_nodes_mask. rewrite ring_mask_hidden_eq; auto.
  - apply ring_mask_ring. apply ring_polygon. assumption.
  - rewrite (polygon_length _ _ _ P). destruct P as ((L & _) & _). exact L.
Qed.

(** Without these conditions the masked request does not return the selected nodes of the
    answer to the request without a mask. *)
Theorem C86_mask_hidden_refuted :
  (exists low h lc ns, polygon (fun e => shown h (low e)) (shown h lc) ns /\
     face_nodes low h true lc = Some ns /\
     forall priv, face_nodes_mask low h true priv (fun _ => true) lc <> Some ns) /\
  (exists low h lc ns ans, polygon (fun e => shown h (low e)) (shown h lc) ns /\ (exists q r, lc = q :: r /\ h q = false) /\
     face_nodes low h true lc = Some ns /\
     face_nodes_mask low h true true (fun _ => true) lc = Some ans /\ ~ NoDup ans).
Proof.
  split.
  - exists wlow, (hid_of [we 10]), (we 10 :: wpent), (map wn [0; 1; 2; 3; 4]). split; [poly|].
    split; [reflexivity|]. intros []; vm_compute; discriminate.
  - exists wlow, (hid_of [we 10]), (wpent ++ [we 10]), (map wn [0; 1; 2; 3; 4]), (map wn [0; 1; 2; 3; 4; 0]).
    split; [poly|]. split; [eexists _, _; split; reflexivity|]. split; [reflexivity|]. split; [reflexivity|].
    intros N. inversion N as [|? ? NI _]; subst. apply NI. cbn. auto 10.
Qed.

Example C86_nonvacuous : polygon wlow wpent (map wn [0; 1; 2; 3; 4]) /\
  face_nodes wlow (fun _ => false) false wpent = Some (map wn [0; 1; 2; 3; 4]) /\
  (* edges 1 and 2 replaced by the edge 10; node 2 hidden *)
  let h := hid_of (wn 2 :: map we [1; 2]) in let lc := map we [0; 1; 10; 2; 3; 4] in
  polygon (fun e => shown h (wlow e)) (shown h lc) (map wn [0; 1; 3; 4]) /\
  face_nodes wlow h true lc = Some (map wn [0; 1; 3; 4]) /\
  face_nodes_mask wlow h true true (fun n => negb (eqe n (wn 1))) lc = Some (map wn [0; 3; 4]).
Proof. split; [exact wpent_polygon|]. split; [reflexivity|]. split; [poly|]. split; reflexivity. Qed.

(** * C87: FixEdgeOrder *)

(** The call on a face ends. *)
Theorem C87_terminates : forall low lc, exists N, forall fuel, N <= fuel -> fix_order low true fuel lc <> None.
Proof. intros low lc. exists (4 * length lc + 5). intros. apply fix_total. assumption. Qed.

(** No edge is lost, whatever is returned. *)
Theorem C87_permutes : forall low adv fuel lc b lc', fix_order low adv fuel lc = Some (b, lc') -> Permutation lc lc'.
Proof. intros. eapply fix_sound. eassumption. Qed.

(** True is returned only if the edges now lead round, and then getNodes follows them. *)
Theorem C87_sound : forall low adv fuel lc lc', fix_order low adv fuel lc = Some (true, lc') ->
  exists ns, goes_round low lc' ns /\ forall h, face_nodes low h false lc' = Some ns.
Proof. intros low adv fuel lc lc' H. apply fix_sound in H. destruct H as (_ & H). destruct (H eq_refl) as (ns & G & E). exists ns. split; [assumption|intros; exact E]. Qed.

(** Every order of the edges of a polygon is repaired. *)
Theorem C87_complete : forall low c ns lc fuel, polygon low c ns -> Permutation lc c -> 4 * length lc + 5 <= fuel ->
  exists c' ns', fix_order low true fuel lc = Some (true, c') /\ Permutation lc c' /\ polygon low c' ns' /\ Permutation ns ns' /\
    forall h, face_nodes low h false c' = Some ns'.
Proof.
  intros low c ns lc fuel P PM L. destruct (fix_complete low c ns lc fuel P PM L) as (c' & ns' & E & P' & PN).
  exists c', ns'. split; [assumption|]. split; [eapply fix_sound; eassumption|]. split; [assumption|]. split; [assumption|].
  intros h. apply C86_nodes. assumption.
Qed.

(** The loop of Cell::FixEdgeOrder that looks for the next edge does not advance. *)
Lemma search_stuck low hit lc j e p : nth_error lc j = Some e -> two (low e) = Some p -> hit p = false ->
  forall fuel, search low false fuel hit lc j = None.
Proof. intros E T H. induction fuel as [|f IH]; cbn [search]; [reflexivity|]. rewrite E, T, H. exact IH. Qed.

Theorem C87_cell_refuted : exists low c ns lc, polygon low c ns /\ Permutation lc c /\
  forall fuel, fix_order low false fuel lc = None.
Proof.
  exists wlow, wpent, (map wn [0; 1; 2; 3; 4]), (map we [0; 1; 4; 3; 2]). split; [exact wpent_polygon|]. split.
  - unfold wpent. cbn. do 2 apply perm_skip. transitivity (map we [4; 2; 3]); [cbn; apply perm_skip; apply perm_swap|].
    transitivity (map we [2; 4; 3]); [apply perm_swap|]. cbn. apply perm_skip. apply perm_swap.
  - intros fuel. unfold fix_order. cbn.
    destruct fuel as [|[|f]]; [reflexivity|reflexivity|].
    cbn [order]. cbn - [search order].
    rewrite (search_stuck wlow _ (map we [0; 1; 4; 3; 2]) 3 (we 3) (wn 3, wn 4)); reflexivity.
Qed.

(** With hidden edges an ordered loop is recognised if the last edge is visible, ... *)
Theorem C87_visible : forall low h lc e ns, h e = false ->
  polygon (fun e => shown h (low e)) (shown h (lc ++ [e])) ns -> fix_hidden_ordered low h (lc ++ [e]) = Some true.
Proof. intros. eapply fix_hidden_polygon; eassumption. Qed.

(** ... and refused in a case with a hidden last edge. *)
Theorem C87_visible_refuted : exists low h lc ns, polygon (fun e => shown h (low e)) (shown h lc) ns /\
  fix_hidden_ordered low h lc = Some false.
Proof.
  exists wlow, (hid_of [we 10]), (wpent ++ [we 10]), (map wn [0; 1; 2; 3; 4]). split; [poly|reflexivity].
Qed.

Example C87_nonvacuous : fix_order wlow true 30 (map we [0; 3; 2; 4; 1]) = Some (true, map we [0; 4; 3; 2; 1]) /\
  fix_order wlow true 30 (map we [0; 3; 2; 4; 10]) = Some (false, map we [0; 4; 3; 2; 10]) /\
  fix_order wlow false 30 (map we [0; 4; 3; 2; 1]) = Some (true, map we [0; 4; 3; 2; 1]) /\
  fix_hidden_ordered wlow (hid_of [we 10]) (we 10 :: wpent) = Some true.
Proof. repeat split; reflexivity. Qed.

(** * C88: CheckEdgeOrder *)

Theorem C88_accepts : forall low strict lc ns, polygon low lc ns -> check_plain low strict lc = Some true.
Proof. intros. eapply check_plain_polygon; eassumption. Qed.

(** What is checked exactly: that the edges without the last one lead on from node to node. *)
Theorem C88_exact : forall low strict lc, (forall e, In e lc -> exists a b, low e = [a; b] /\ a <> b) ->
  (forall q r l x y, lc = q :: r :: l -> joins low q x y -> ~ joins low r x y) ->
  exists b, check_plain low strict lc = Some b /\
    (b = true <-> 3 <= length lc /\ exists ns, path low (removelast lc) ns).
Proof. intros. apply check_plain_spec; assumption. Qed.

Theorem C88_accepts_visible : forall low h strict q lc ns, h q = false ->
  polygon (fun e => shown h (low e)) (shown h (q :: lc)) ns -> check_hidden low h strict (q :: lc) = Some true.
Proof. intros. eapply check_hidden_polygon; eassumption. Qed.

(** It is not checked that the loop is closed; and an ordered loop behind a hidden first
    edge is refused. *)
Theorem C88_check_refuted :
  (exists low lc, (forall e, In e lc -> exists a b, low e = [a; b] /\ a <> b) /\
     (forall strict, check_plain low strict lc = Some true) /\ (forall strict, check_hidden low (fun _ => false) strict lc = Some true) /\
     forall ns, ~ goes_round low lc ns) /\
  (exists low h lc ns, polygon (fun e => shown h (low e)) (shown h lc) ns /\
     forall strict, check_hidden low h strict lc = Some false).
Proof.
  split.
  - exists wlow, (map we [0; 1; 2; 10]). split.
    { intros e I. cbn in I. destruct I as [<-|[<-|[<-|[<-|[]]]]]; eexists _, _; (split; [reflexivity|discriminate]). }
    split; [intros []; reflexivity|]. split; [intros []; reflexivity|].
    intros ns (L & G). destruct ns as [|n ns]; [contradiction|].
    pose proof (path_len _ _ _ G) as PL. rewrite app_length in PL. cbn in PL.
    destruct ns as [|n1 [|n2 [|n3 [|n4 ns]]]]; cbn in PL; try lia. cbn [app map] in G.
    repeat (apply path_inv in G; let e := fresh "e" in let J := fresh "J" in destruct G as (e & ? & EQ & J & G); injection EQ as <- <-).
    unfold joins in *. cbn in *.
    repeat match goal with H : _ \/ _ |- _ => destruct H as [H|H]; inversion H; clear H; subst end; congruence.
  - exists wlow, (hid_of [we 10]), (we 10 :: wpent), (map wn [0; 1; 2; 3; 4]). split; [poly|intros []; reflexivity].
Qed.

Example C88_nonvacuous : check_plain wlow true wpent = Some true /\ check_plain wlow true (map we [0; 2; 1; 3; 4]) = Some false /\
  check_hidden wlow (hid_of [we 10]) true (map we [0; 10; 1; 2; 3; 10; 4; 10]) = Some true.
Proof. repeat split; reflexivity. Qed.

(** * C89: orientation *)

(** Face::ReorderEdges turns the loop round from the same node. *)
Theorem C89_reorder : forall low lc n ns, polygon low lc (n :: ns) ->
  polygon low (reorder lc) (n :: rev ns) /\ (forall h, face_nodes low h false (reorder lc) = Some (n :: rev ns)).
Proof.
  intros low lc n ns P. rewrite reorder_rev. pose proof (polygon_rev _ _ _ _ P) as P'. split; [assumption|].
  intros h. apply C86_nodes. assumption.
Qed.
Theorem C89_reorder_twice : forall lc, reorder (reorder lc) = lc.
Proof. intros. rewrite !reorder_rev. apply rev_involutive. Qed.

(** The back and front cells are the first and the second visible cell. *)
Theorem C89_back_front : forall h modif hc, (modif = false -> forall x, h x = false) ->
  back_cell h modif hc = Some (nth_error (shown h hc) 0) /\ front_cell h modif hc = Some (nth_error (shown h hc) 1).
Proof. intros. split; [apply back_cell_shown|apply front_cell_shown]; assumption. Qed.

(** Face::SwapCells exchanges them, moves no other cell, and undoes itself. With other than
    two visible cells nothing happens. *)
Theorem C89_swap : forall h hc,
  (forall a b, shown h hc = [a; b] -> shown h (swap_two h hc) = [b; a] /\
     (forall i x, nth_error hc i = Some x -> h x = true -> nth_error (swap_two h hc) i = Some x)) /\
  (length (shown h hc) <> 2 -> swap_two h hc = hc) /\
  Permutation hc (swap_two h hc) /\ swap_two h (swap_two h hc) = hc.
Proof.
  intros h hc.
  assert (NO : length (shown h hc) <> 2 -> swap_two h hc = hc).
  { intros N. unfold swap_two, count. fold (shown h hc). destruct (Nat.eqb_spec (length (shown h hc)) 2); [contradiction|reflexivity]. }
  assert (YES : forall a b, shown h hc = [a; b] -> shown h (swap_two h hc) = [b; a] /\
     (forall i x, nth_error hc i = Some x -> h x = true -> nth_error (swap_two h hc) i = Some x) /\
     Permutation hc (swap_two h hc) /\ swap_two h (swap_two h hc) = hc).
  { intros a b E. destruct (two_shown_split _ _ _ _ E) as (A & B & C & -> & FA & FB & FC & HA & HB).
    rewrite (swap_two_split h A a B b C) by assumption. split; [|split; [|split]].
    - rewrite shown_app, (shown_hidden h A) by assumption. cbn. rewrite HB. cbn. f_equal. fold (shown h (B ++ a :: C)).
      rewrite shown_app, (shown_hidden h B) by assumption. cbn. rewrite HA. cbn. fold (shown h C). rewrite (shown_hidden h C) by assumption. reflexivity.
    - intros i x X HX. destruct (Nat.lt_ge_cases i (length A)) as [L|L].
      { rewrite nth_error_app1 in * by assumption. assumption. }
      rewrite nth_error_app2 in * by assumption. remember (i - length A) as k eqn:EK. clear EK L i.
      destruct k as [|k]; cbn in *; [congruence|].
      destruct (Nat.lt_ge_cases k (length B)) as [L|L].
      { rewrite nth_error_app1 in * by assumption. assumption. }
      rewrite nth_error_app2 in * by assumption. destruct (k - length B) as [|k']; cbn in *; [congruence|assumption].
    - apply Permutation_app_head. transitivity (a :: b :: B ++ C); [apply perm_skip; symmetry; apply Permutation_middle|].
      transitivity (b :: a :: B ++ C); [apply perm_swap|]. apply perm_skip. apply Permutation_middle.
    - apply swap_two_split; assumption. }
  split; [intros a b E; destruct (YES a b E) as (S1 & S2 & _); auto|]. split; [assumption|].
  destruct (shown h hc) as [|a [|b [|c r]]] eqn:E; try (assert (NN : swap_two h hc = hc) by (apply NO; cbn; lia); rewrite !NN; split; reflexivity).
  destruct (YES a b eq_refl) as (_ & _ & S3 & S4). auto.
Qed.

(** The ends of an edge *)
Theorem C89_ends : forall h modif lc, (modif = false -> length lc = 2 /\ forall x, h x = false) -> shown h lc <> [] ->
  edge_beg h modif lc = Some (nth_error (shown h lc) 0) /\ edge_end h modif lc = Some (nth_error (shown h lc) 1).
Proof. intros h modif lc M N. split; [apply back_cell_shown; intros E; apply (M E)|apply edge_end_shown; assumption]. Qed.

(** getEnd reads past the array if the edge has nodes and all of them are hidden. *)
Theorem C89_ends_refuted : forall h lc, lc <> [] -> shown h lc = [] -> edge_end h true lc = None.
Proof. intros. apply edge_end_hidden; assumption. Qed.

Example C89_nonvacuous : polygon wlow (reorder wpent) (map wn [0; 4; 3; 2; 1]) /\
  reorder wpent = map we [4; 3; 2; 1; 0] /\
  (let h := hid_of [we 10] in swap_two h (map we [10; 1; 10; 2]) = map we [10; 2; 10; 1] /\
   back_cell h true (map we [10; 1; 10; 2]) = Some (Some (we 1)) /\ front_cell h true (map we [10; 1; 10; 2]) = Some (Some (we 2)) /\
   front_cell h true (map we [10; 1; 10]) = Some None /\ edge_end h true (map we [10; 10]) = None).
Proof. split; [poly|]. repeat split; reflexivity. Qed.

Print Assumptions C86_nodes.
Print Assumptions C86_nodes_visible.
Print Assumptions C86_nodes_edges.
Print Assumptions C86_mask.
Print Assumptions C86_mask_visible.
Print Assumptions C86_mask_hidden_refuted.
Print Assumptions C87_terminates.
Print Assumptions C87_permutes.
Print Assumptions C87_sound.
Print Assumptions C87_complete.
Print Assumptions C87_cell_refuted.
Print Assumptions C87_visible.
Print Assumptions C87_visible_refuted.
Print Assumptions C88_accepts.
Print Assumptions C88_exact.
Print Assumptions C88_accepts_visible.
Print Assumptions C88_check_refuted.
Print Assumptions C89_reorder.
Print Assumptions C89_reorder_twice.
Print Assumptions C89_back_front.
Print Assumptions C89_swap.
Print Assumptions C89_ends.
Print Assumptions C89_ends_refuted.
