(** C90-C93: adjacency requests. *)
From Coq Require Import List Arith Bool Lia Permutation.
From Verif Require Import Util Adj_Model Adj_Proofs Adj_Props Loop_Model Loop_Spec Loop_Proofs Loop_Props
  Query_Model Query_Spec Query_Proofs.
Import ListNotations.

(** * C90: getAdjElements returns exactly the adjacent elements *)

Theorem C90_exact : forall c os m ok types x y, history c os m -> fst x < 4 ->
  In y (fst (get_adj m ok types x)) <-> types (fst y) = true /\ ok y = true /\ adjacent m x y.
Proof.
  intros c os m ok types x y H X. pose proof (history_good _ _ _ H) as G.
  destruct (get_adj_spec m ok types x (g_links _ G) (g_slots _ G) X) as (E & _). rewrite E. split; [tauto|].
  intros (A & B & C). repeat split; auto. eapply adjacent_lt4; eauto using g_links, g_slots.
Qed.

(** No element is returned twice, unless the element itself was made from, or into, repeated
    elements. *)
Theorem C90_once : forall c os m ok types x, history c os m -> fst x < 4 ->
  NoDup (low m x) -> NoDup (high m x) -> NoDup (fst (get_adj m ok types x)).
Proof.
  intros c os m ok types x H X. pose proof (history_good _ _ _ H) as G.
  apply (get_adj_spec m ok types x (g_links _ G) (g_slots _ G) X).
Qed.

(** The mask only selects: the order does not change. *)
Theorem C90_mask : forall m ok types x,
  fst (get_adj m ok types x) = filter ok (fst (get_adj m all_ok types x)).
Proof. exact get_adj_mask. Qed.

Theorem C90_count : forall m ok types x, fst (nb_adj m ok types x) = length (fst (get_adj m ok types x)).
Proof. intros. apply nb_adj_len. Qed.

(** No element bears a temporary marker when it is released. *)
Theorem C90_markers : forall c os m ok types x, history c os m -> fst x < 4 ->
  (forall mk y, In mk (snd (get_adj m ok types x)) -> mk y = false) /\
  (forall mk y, In mk (snd (nb_adj m ok types x)) -> mk y = false).
Proof.
  intros c os m ok types x H X. pose proof (history_good _ _ _ H) as G. split; intros mk y I.
  - destruct (get_adj_spec m ok types x (g_links _ G) (g_slots _ G) X) as (_ & _ & F).
    rewrite Forall_forall in F. exact (F mk I y).
  - destruct (nb_adj_len m ok types x) as (_ & F). rewrite Forall_forall in F. exact (F mk I y).
Qed.

Definition only (i : nat) (t : nat) : bool := Nat.eqb i t.
Definition any (t : nat) : bool := true.
Definition qmesh : list op := example_mesh ++ [OBegin; ODelete (e_ 4)].
Example C90_nonvacuous :
  match run (empty_mesh false) example_mesh, run (empty_mesh false) qmesh with
  | Some m, Some m' =>
    fst (get_adj m all_ok (only 0) (c_ 0)) = [n_ 0; n_ 1; n_ 2; n_ 3] /\
    fst (get_adj m (fun y => Nat.even (snd y)) any (n_ 1)) = [e_ 0; f_ 0; c_ 0] /\
    fst (get_adj m all_ok (only 3) (n_ 3)) = [c_ 0] /\
    length (snd (get_adj m all_ok any (n_ 1))) = 2 /\
    fst (nb_adj m all_ok any (n_ 1)) = 8 /\
    fst (get_adj m' all_ok any (n_ 3)) = [n_ 3; e_ 3] /\
    NoDup (high m (n_ 1))
  | _, _ => False
  end.
Proof. vm_compute. repeat split; repeat constructor; cbn; intuition discriminate. Qed.
Example C90_cell_nodes_nonvacuous :
  match run (empty_mesh true) example_mesh with
  | Some m => fst (get_adj m all_ok (only 0) (c_ 1)) = [n_ 0; n_ 1; n_ 2] /\
              fst (get_adj m all_ok (only 3) (n_ 3)) = [c_ 0] /\ snd (get_adj m all_ok (only 3) (n_ 3)) = []
  | None => False
  end.
Proof. vm_compute. auto. Qed.

(** An edge made of the same node twice: the node is returned twice for the edge, but the
    requests over two or more dimensions still return it once. *)
Theorem C90_repeated_refuted : exists c os m, history c os m /\
  fst (get_adj m all_ok (only 0) (e_ 0)) = [n_ 0; n_ 0] /\ fst (get_adj m all_ok (only 0) (f_ 0)) = [n_ 0; n_ 1; n_ 2].
Proof.
  eexists false, [ONode; ONode; ONode; OCreate 1 false [n_ 0; n_ 0] []; OCreate 1 true [n_ 0; n_ 1] []; OCreate 1 true [n_ 1; n_ 2] [];
                  OCreate 2 true [e_ 0; e_ 1; e_ 2] []], _.
  split; [vm_compute; reflexivity|]. split; vm_compute; reflexivity.
Qed.

(** * C91: adjacency is symmetric *)

Theorem C91_symmetric : forall c os m x y, history c os m -> fst x < 4 -> fst y < 4 ->
  visible m x = true -> visible m y = true ->
  In y (fst (get_adj m all_ok (only (fst y)) x)) <-> In x (fst (get_adj m all_ok (only (fst x)) y)).
Proof.
  intros c os m x y H X Y VX VY. pose proof (history_good _ _ _ H) as G.
  rewrite !(C90_exact c os) by assumption. unfold only, all_ok. rewrite !Nat.eqb_refl.
  split; intros (_ & _ & A); repeat split; auto; apply adjacent_sym; auto using g_links.
Qed.
Example C91_nonvacuous :
  match run (empty_mesh false) qmesh with
  | Some m => visible m (c_ 1) = true /\ visible m (n_ 2) = true /\
     In (c_ 1) (fst (get_adj m all_ok (only 3) (n_ 2))) /\ ~ In (n_ 3) (fst (get_adj m all_ok (only 0) (c_ 1)))
  | None => False
  end.
Proof. vm_compute. intuition discriminate. Qed.

(** * C92: the requests that walk round a loop give the same elements *)

(** Nodes of a face: those of getAdjElements, once each. *)
Theorem C92_face_nodes : forall c os m f ns, history c os m -> fst f = 2 ->
  polygon (fun e => shown (hidden m) (low m e)) (shown (hidden m) (low m f)) ns ->
  face_nodes (low m) (hidden m) true (low m f) = Some ns /\
  Permutation ns (fst (get_adj m all_ok (only 0) f)).
Proof.
  intros c os m f ns H T P. pose proof (history_good _ _ _ H) as G.
  split; [apply C86_nodes_visible; assumption|].
  assert (A : forall y, In y (fst (get_adj m all_ok (only 0) f)) <-> In y ns).
  { intros y. rewrite (C90_exact c os) by (assumption || lia). rewrite (polygon_steps m f ns P). unfold only, all_ok, adjacent.
    rewrite Nat.eqb_sym, Nat.eqb_eq. split.
    - intros (Z & _ & B). rewrite Z, T in B. replace (2 - 0) with 2 in B by reflexivity.
      destruct B as [(-> & _)|[(_ & B & _)|[(_ & B & _)|[(_ & B & _)|(_ & _ & B)]]]]; try lia; assumption.
    - intros B. pose proof (steps_down_lev m 2 f y (g_links _ G) B ltac:(lia)) as Z. split; [lia|]. split; [reflexivity|].
      right. right. right. right. split; [lia|]. split; [lia|]. replace (fst f - fst y) with 2 by lia. assumption. }
  destruct P as (_ & ND). apply NoDup_Permutation; [assumption| |intros y; symmetry; apply A].
  destruct (get_adj_spec m all_ok (only 0) f (g_links _ G) (g_slots _ G)) as (_ & _ & _); [lia|].
  unfold get_adj. cbn [fold_left only Nat.eqb snd fst]. unfold adj_type. rewrite T. cbn [Nat.eqb Nat.add fst snd].
  destruct (away_ext m all_ok (low m) 1 ([], fresh) f) as (_ & new & B & C & _). rewrite B. exact C.
Qed.
Example C92_face_nodes_nonvacuous :
  match run (empty_mesh false) example_mesh with
  | Some m => polygon (fun e => shown (hidden m) (low m e)) (shown (hidden m) (low m (f_ 0))) [n_ 0; n_ 1; n_ 2]
  | None => False
  end.
Proof. vm_compute. split; [split; [lia|]|repeat constructor; cbn; intuition discriminate].
  repeat (constructor; [first [left; reflexivity|right; reflexivity]|]). constructor. Qed.

(** Nodes of a cell of dimension two, whose faces join vertex edges (one visible node each):
    the answer goes round the cell, and holds exactly the nodes of getAdjElements. *)
Theorem C92_cell2_nodes : forall c os m x es ns, history c os m -> fst x = 3 -> cn m = false ->
  polygon (fun e => shown (hidden m) (low m e)) (shown (hidden m) (low m x)) es ->
  Forall2 (fun e n => shown (hidden m) (low m e) = [n]) es ns ->
  cell2_nodes (low m) (hidden m) true (low m x) = Some ns /\
  forall y, In y ns <-> In y (fst (get_adj m all_ok (only 0) x)).
Proof.
  intros c os m x es ns H T C P F. pose proof (history_good _ _ _ H) as G. split.
  - unfold cell2_nodes. rewrite (C86_nodes_visible _ _ _ _ P). cbn [bind]. apply first_nodes_shown. assumption.
  - intros y. rewrite (C90_exact c os) by (assumption || lia). unfold only, all_ok, adjacent.
    assert (S : In y ns <-> steps m (low m) 3 x y).
    { transitivity (exists e, In e es /\ In y (shown (hidden m) (low m e))).
      - clear P. induction F as [|e n es ns E F IH]; [split; [intros []|intros (e & [] & _)]|]. cbn [In]. rewrite IH. split.
        + intros [<-|(k & A & B)]; [exists e; split; [auto|rewrite E; left; reflexivity]|exists k; auto].
        + intros (k & [<-|A] & B); [rewrite E in B; destruct B as [B|[]]; auto|right; exists k; auto].
      - split.
        + intros (e & A & B). apply (polygon_steps m x es P) in A. apply shown_visible in B. destruct B.
          eapply steps_snoc; eassumption.
        + intros A. inversion A as [|k a z b I V R]; subst. apply steps2 in R. destruct R as (e & A1 & A2 & A3 & A4).
          exists e. rewrite shown_visible. split; [|auto]. apply (polygon_steps m x es P), steps2. exists z. auto. }
    rewrite S, Nat.eqb_sym, Nat.eqb_eq, C. split.
    + intros B. pose proof (steps_down_lev m 3 x y (g_links _ G) B ltac:(lia)) as Z. split; [lia|]. split; [reflexivity|].
      right. right. right. right. split; [intros (Q & _); discriminate|]. split; [lia|]. replace (fst x - fst y) with 3 by lia. assumption.
    + intros (Z & _ & B). rewrite Z, T in B.
      destruct B as [(-> & _)|[(B & _)|[(B & _)|[(_ & B & _)|(_ & _ & B)]]]]; try lia; try discriminate. assumption.
Qed.
(** a triangle as a cell of dimension two *)
Definition triangle : list op :=
  [ONode; ONode; ONode; OCreate 1 true [n_ 0] []; OCreate 1 true [n_ 1] []; OCreate 1 true [n_ 2] [];
   OCreate 2 true [e_ 0; e_ 1] []; OCreate 2 true [e_ 1; e_ 2] []; OCreate 2 true [e_ 2; e_ 0] [];
   OCreate 3 true [f_ 0; f_ 1; f_ 2] []].
Lemma triangle_polygon m : run (empty_mesh false) triangle = Some m ->
  polygon (fun e => shown (hidden m) (low m e)) (shown (hidden m) (low m (c_ 0))) [e_ 0; e_ 1; e_ 2] /\
  Forall2 (fun e n => shown (hidden m) (low m e) = [n]) [e_ 0; e_ 1; e_ 2] [n_ 0; n_ 1; n_ 2].
Proof.
  intros H. vm_compute in H. injection H as <-. split; [|repeat constructor].
  vm_compute. split; [split; [lia|]|repeat constructor; cbn; intuition discriminate].
  repeat (constructor; [first [left; reflexivity|right; reflexivity]|]). constructor.
Qed.
Example C92_cell2_nonvacuous :
  match run (empty_mesh false) triangle with
  | Some m => cell2_nodes (low m) (hidden m) true (low m (c_ 0)) = Some [n_ 0; n_ 1; n_ 2] /\ cn m = false
  | None => False
  end.
Proof. vm_compute. auto. Qed.

(** With a mask, the nodes kept are those whose vertex edge passes the mask. *)
Theorem C92_cell2_mask : forall low h priv ok lc es ns, polygon low lc es ->
  Forall2 (fun e n => shown h (low e) = [n]) es ns ->
  cell2_nodes_mask low h false priv ok lc = Some (map snd (filter (fun p => ok (fst p)) (combine es ns))).
Proof.
  intros low h priv ok lc es ns P F. unfold cell2_nodes_mask. rewrite (C86_mask _ _ _ _ _ _ P). cbn [bind].
  apply first_nodes_shown. clear P. induction F as [|e n es ns E F IH]; [constructor|]. cbn [filter combine fst].
  destruct (ok e); [constructor; assumption|assumption].
Qed.
Theorem C92_cell2_mask_refuted : exists c os m x ok ns, history c os m /\ fst x = 3 /\
  cell2_nodes (low m) (hidden m) false (low m x) = Some ns /\ filter ok ns = [n_ 1] /\
  forall priv, cell2_nodes_mask (low m) (hidden m) false priv ok (low m x) = Some [].
Proof.
  eexists false, triangle, _, (c_ 0), (eqe (n_ 1)), [n_ 0; n_ 1; n_ 2].
  split; [vm_compute; reflexivity|]. split; [reflexivity|]. split; [vm_compute; reflexivity|].
  split; [vm_compute; reflexivity|]. intros []; vm_compute; reflexivity.
Qed.

(** Edges of a cell of dimension two: right if the first and the last face are visible ... *)
Theorem C92_cell2_edges : forall low h lc es, polygon low lc es -> cell2_edges low h false lc = Some es.
Proof. intros. apply ring_polygon. assumption. Qed.
Theorem C92_cell2_edges_visible : forall low h q lc es, h q = false -> h (last (q :: lc) q) = false ->
  polygon (fun e => shown h (low e)) (shown h (q :: lc)) es -> cell2_edges low h true (q :: lc) = Some es.
Proof.
  intros low h q lc es Q L P. rewrite cell2_edges_mask, (C86_mask_visible low h true (fun _ => true) q lc es Q (fun _ => L) P).
  rewrite filter_true. reflexivity.
Qed.
(** ... but not if the first one is hidden. A square is made of the triangle by hiding one
    side and putting in its place two others. *)
Definition square : list op :=
  [ONode; ONode; ONode; ONode; OCreate 1 true [n_ 0] []; OCreate 1 true [n_ 1] []; OCreate 1 true [n_ 2] []; OCreate 1 true [n_ 3] [];
   OCreate 2 true [e_ 0; e_ 2] [];
   OCreate 2 true [e_ 0; e_ 1] []; OCreate 2 true [e_ 1; e_ 2] []; OCreate 2 true [e_ 2; e_ 3] []; OCreate 2 true [e_ 3; e_ 0] [];
   OCreate 3 true [f_ 0; f_ 1; f_ 2; f_ 3; f_ 4] []; OBegin; OHide (f_ 0)].
Theorem C92_cell2_edges_refuted : exists c os m x es ans, history c os m /\ fst x = 3 /\
  polygon (fun e => shown (hidden m) (low m e)) (shown (hidden m) (low m x)) es /\
  cell2_edges (low m) (hidden m) true (low m x) = Some ans /\ ~ Permutation ans es /\ ~ NoDup ans.
Proof.
  eexists false, square, _, (c_ 0), [e_ 0; e_ 1; e_ 2; e_ 3], _.
  split; [vm_compute; reflexivity|]. split; [reflexivity|]. split.
  - vm_compute. split; [split; [lia|]|repeat constructor; cbn; intuition discriminate].
    repeat (constructor; [first [left; reflexivity|right; reflexivity]|]). constructor.
  - split; [vm_compute; reflexivity|]. split.
    + intros P. apply Permutation_length in P. discriminate.
    + intros N. inversion N as [|? ? N1 N2]; subst. cbn in N1. intuition.
Qed.

(** * C93: BridgeAdjacencies *)

(** Exactly the elements of the requested types behind a bridge that passes the mask; without
    a bridge of its own type, the elements adjacent to the element itself are left out. *)
Theorem C93_exact : forall c os m bt dt bok tok x y, history c os m -> fst x < 4 ->
  In y (fst (bridge m bt dt bok tok x)) <->
  dt (fst y) = true /\ tok y = true /\ through m bt bok x y /\ (bt (fst x) = false -> ~ adjacent m x y).
Proof.
  intros c os m bt dt bok tok x y H X. pose proof (history_good _ _ _ H) as G.
  apply (bridge_spec m bt dt bok tok x (g_links _ G) (g_slots _ G) X).
Qed.
Theorem C93_once : forall c os m bt dt bok tok x, history c os m -> fst x < 4 ->
  NoDup (fst (bridge m bt dt bok tok x)) /\ forall y, snd (bridge m bt dt bok tok x) y = false.
Proof.
  intros c os m bt dt bok tok x H X. pose proof (history_good _ _ _ H) as G.
  apply (bridge_spec m bt dt bok tok x (g_links _ G) (g_slots _ G) X).
Qed.
(** The neighbours through a bridge of another type, e.g. cells through faces, are mutual and
    never hold the element itself. *)
Theorem C93_mutual : forall c os m bt bok x y, history c os m -> fst x < 4 -> fst y = fst x -> bt (fst x) = false ->
  visible m x = true -> visible m y = true ->
  (In y (fst (bridge m bt (only (fst x)) bok all_ok x)) <-> In x (fst (bridge m bt (only (fst y)) bok all_ok y))) /\
  ~ In x (fst (bridge m bt (only (fst x)) bok all_ok x)).
Proof.
  intros c os m bt bok x y H X T B VX VY. pose proof (g_links _ (history_good _ _ _ H)) as L.
  assert (Y : fst y < 4) by congruence.
  assert (AD : forall a b, fst a = fst b -> adjacent m a b -> a = b).
  { intros a b E [(Q & _)|[(_ & Q & R & _)|[(_ & Q & R & _)|[(_ & Q & _)|(_ & Q & _)]]]]; [congruence|lia|lia|lia|lia]. }
  assert (TH : forall a b, visible m a = true -> visible m b = true -> through m bt bok a b -> through m bt bok b a).
  { intros a b VA VB (z & Z1 & Z2 & Z3 & Z4). exists z. split; [assumption|]. split; [assumption|].
    pose proof (adjacent_visible _ _ _ Z3). split; apply adjacent_sym; assumption. }
  rewrite !(C93_exact c os) by assumption. rewrite T. unfold only, all_ok. rewrite !Nat.eqb_refl. split.
  - split; intros (_ & _ & P & Q); (split; [reflexivity|]); (split; [reflexivity|]); (split; [apply TH; assumption|]);
      intros _ A; apply (Q B); apply adjacent_sym; assumption.
  - intros (_ & _ & _ & Q). apply (Q B). left. auto.
Qed.
Example C93_nonvacuous :
  match run (empty_mesh false) example_mesh with
  | Some m => fst (bridge m (only 2) (only 3) all_ok all_ok (c_ 0)) = [c_ 1] /\
              fst (bridge m (only 1) (only 0) (fun b => negb (eqe b (e_ 4))) all_ok (n_ 0)) = [n_ 1; n_ 2] /\
              fst (bridge m (only 1) (only 0) all_ok all_ok (n_ 0)) = [n_ 1; n_ 2; n_ 3] /\
              fst (bridge m (only 1) (only 2) all_ok (fun y => Nat.eqb (snd y) 1) (f_ 0)) = [f_ 1]
  | None => False
  end.
Proof. vm_compute. auto. Qed.

Print Assumptions C90_exact.
Print Assumptions C90_once.
Print Assumptions C90_mask.
Print Assumptions C90_count.
Print Assumptions C90_markers.
Print Assumptions C90_repeated_refuted.
Print Assumptions C91_symmetric.
Print Assumptions C92_face_nodes.
Print Assumptions C92_cell2_nodes.
Print Assumptions C92_cell2_mask.
Print Assumptions C92_cell2_mask_refuted.
Print Assumptions C92_cell2_edges.
Print Assumptions C92_cell2_edges_visible.
Print Assumptions C92_cell2_edges_refuted.
Print Assumptions C93_exact.
Print Assumptions C93_once.
Print Assumptions C93_mutual.
