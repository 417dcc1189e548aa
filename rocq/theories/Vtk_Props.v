(** Properties of cells in VTK files. *)
From Coq Require Import List Arith Bool Lia Permutation.
From Verif Require Import Vtk_Spec Vtk_Model Vtk_Proofs.
Import ListNotations.

(** * C177: order of nodes of a cell *)
(** The cell of the mesh has the shape [s]: some numbering of its nodes gives its outward faces, in any
    order, with any first node, stored in either direction. *)
Definition has_shape (s : shape) (fs : list face) (nodes : list nat) : Prop :=
  NoDup nodes /\ length nodes = shape_size s /\ same_surface (map outward fs) (shape_faces s nodes).
Theorem C177_restore : forall (s : shape) (fs : list face) (nodes : list nat), s = Tet \/ s = Hex \/ s = Pyramid -> has_shape s fs nodes ->
  exists r, restore s fs = Some r /\ Permutation nodes r /\ has_shape s fs r.
Proof.
  intros s fs nodes LS (N & L & H). assert (listed s) as L' by (unfold listed; tauto). destruct (restore_any s nodes fs L' N L H) as (r & R & P & LR & SR). exists r. split; [easy |]. split; [easy |].
  split; [now apply (Permutation_NoDup P) |]. split; [easy |]. now destruct LS as [-> | [-> | ->]].
Qed.
(** Prisms: the nodes are right, but all faces are seen from inside. *)
Theorem C177_wedge : forall (fs : list face) (nodes : list nat), has_shape Wedge fs nodes ->
  exists r, restore Wedge fs = Some r /\ Permutation nodes r /\ same_surface (map (fun f => rev (outward f)) fs) (shape_faces Wedge r).
Proof.
  intros fs nodes (N & L & H). assert (listed Wedge) as L' by (unfold listed; tauto). destruct (restore_any Wedge nodes fs L' N L H) as (r & R & P & LR & SR). exists r. split; [easy |]. split; [easy |].
  erewrite map_ext; [exact SR |]. intros a. symmetry. apply inward_rev.
Qed.
Lemma map_inj (f : nat -> nat) (inj : forall i j, f i = f j -> i = j) : forall a b, map f a = map f b -> a = b.
Proof. induction a as [| x a IH]; intros [| y b] E; try discriminate E; [easy |]. injection E as E1 E2. now rewrite (inj _ _ E1), (IH b E2). Qed.
Lemma rotated_unmap (f : nat -> nat) a b : (forall i j, f i = f j -> i = j) -> rotated (map f a) (map f b) -> rotated a b.
Proof.
  intros inj (u & v & A & B). apply map_eq_app in A as (a1 & a2 & -> & <- & <-). apply map_eq_app in B as (b1 & b2 & -> & B1 & B2). apply (map_inj f inj) in B1, B2. subst b1 b2. now exists a1, a2.
Qed.
Lemma rot_eqb_complete a b : rotated a b -> rot_eqb a b = true.
Proof.
  intros (u & v & -> & ->). unfold rot_eqb. apply existsb_exists. exists (length u). split; [apply in_seq; rewrite app_length; lia |]. rewrite skipn_app, skipn_all, Nat.sub_diag, firstn_app, firstn_all, Nat.sub_diag. cbn [skipn firstn app]. rewrite app_nil_r. unfold list_eqb. now destruct (list_eq_dec Nat.eq_dec (v ++ u) (v ++ u)).
Qed.
(** So every prism is written inside out. *)
Theorem C177_wedge_refuted : forall (fs : list face) (nodes r : list nat), has_shape Wedge fs nodes -> restore Wedge fs = Some r -> ~ has_shape Wedge fs r.
Proof.
  intros fs nodes r H R (N & L & S2). destruct (C177_wedge fs nodes H) as (r' & R' & _ & S1). rewrite R in R'. injection R' as <-.
  rewrite (shape_naming Wedge r L) in S1, S2. pose proof (naming_inj r N) as inj.
  destruct (surface_in_r _ _ (map (naming r) [0;1;2]) S1) as (x & I & RX); [now left |]. apply in_map_iff in I as (fc & <- & I).
  destruct (surface_in_l _ _ (outward fc) S2 (in_map outward _ _ I)) as (y & J & RY). apply in_map_iff in J as (t & <- & J). apply rotated_rev in RY. rewrite <- map_rev in RY.
  pose proof (rotated_trans _ _ _ (rotated_sym _ _ RX) RY) as RT. apply (rotated_unmap _ _ _ inj) in RT. apply rot_eqb_complete in RT.
  cbn [shape_loops] in J. repeat (destruct J as [<- | J]; [vm_compute in RT; discriminate |]). easy.
Qed.
Definition ex_hex : list face := [([15;14;10;11], true); ([17;16;12;13], true); ([11;12;13;10], false); ([17;16;15;14], false); ([13;10;14;17], true); ([12;16;15;11], true)].
Definition ex_wedge : list face := [([0;3;4;1], true); ([2;1;0], false); ([3;5;4], true); ([1;4;5;2], true); ([2;5;3;0], true)].
Lemma shape_check s fs nodes : length nodes = shape_size s -> list_eqb (nodup Nat.eq_dec nodes) nodes = true -> surf_eqb (map outward fs) (shape_faces s nodes) = true -> has_shape s fs nodes.
Proof. intros L N H. split; [| split; [easy | now apply surf_eqb_sound]]. apply list_eqb_eq in N. rewrite <- N. apply NoDup_nodup. Qed.
Example C177_nonvacuous : has_shape Hex ex_hex [10;11;12;13;14;15;16;17] /\ restore Hex ex_hex = Some [11;10;14;15;12;13;17;16] /\
  has_shape Wedge ex_wedge [0;1;2;3;4;5] /\ restore Wedge ex_wedge = Some [2;1;0;5;4;3] /\
  has_shape Pyramid (map (fun t => (t, true)) (shape_faces Pyramid [5;6;7;8;9])) [5;6;7;8;9] /\ has_shape Tet (map (fun t => (rev t, false)) (shape_faces Tet [5;6;7;8])) [5;6;7;8].
Proof. split; [apply shape_check; reflexivity |]. split; [reflexivity |]. split; [apply shape_check; reflexivity |]. split; [reflexivity |]. split; apply shape_check; reflexivity. Qed.

(** * C178: tables of faces *)
Lemma split_rename f : forall sizes nums nodes, (forall i, In i nums -> nth i nodes 0 = f i) ->
  split_faces nodes nums sizes = map (map f) (split_faces (seq 0 (S (list_max nums))) nums sizes).
Proof.
  intros sizes nums nodes E. assert (P : forall i, In i nums -> pick (seq 0 (S (list_max nums))) i = i). { intros i I. unfold pick. pose proof (proj1 (list_max_le nums (list_max nums)) (le_n _)) as F. rewrite Forall_forall in F. specialize (F i I). rewrite seq_nth; lia. }
  revert E P. generalize (seq 0 (S (list_max nums))). intros ids. revert nums. induction sizes as [| n sizes IH]; intros nums E P; cbn [split_faces map]; [easy |]. f_equal.
  - rewrite map_map. apply map_ext_in. intros i I. assert (In i nums) as I' by (rewrite <- (firstn_skipn n nums); apply in_or_app; now left). unfold pick at 1. rewrite (E i I'). now rewrite (P i I').
  - apply IH; intros i I; (assert (In i nums) as I' by (rewrite <- (firstn_skipn n nums); apply in_or_app; now right)); [now apply E | now apply P].
Qed.
(** The cell created from the file has the faces that belong to its type, for any nodes. *)
Theorem C178_load : forall (s : shape) (nodes : list nat), same_surface (load_faces s nodes) (shape_faces s nodes).
Proof.
  intros s nodes. unfold load_faces. rewrite (split_rename (pick nodes)) by easy. unfold shape_faces. apply surface_map. apply surf_eqb_sound. destruct s; reflexivity.
Qed.
(** A voxel has its nodes in the order of coordinates, the first coordinate changing first. *)
Definition voxel_hex (v : list nat) : list nat := map (pick v) [0;1;3;2;4;5;7;6].
Theorem C178_voxel : forall (v : list nat), length v = 8 -> same_surface (load_voxel v) (shape_faces Hex (voxel_hex v)).
Proof. intros v L. do 9 (destruct v as [| ? v]; try discriminate L). apply C178_load. Qed.
Lemma edges_map f l : loop_edges (map f l) = map (fun e => (f (fst e), f (snd e))) (loop_edges l).
Proof.
  destruct l as [| a r]; [easy |]. unfold loop_edges. cbn [map]. change (f a :: map f r) with (map f (a :: r)). change [f a] with (map f [a]). rewrite <- map_app. generalize (a :: r), (r ++ [a]). induction l as [| x l IH]; intros [| y m]; cbn; try easy. now rewrite IH.
Qed.
Definition pair_in (e : nat * nat) (l : list (nat * nat)) : bool := existsb (fun x => Nat.eqb (fst x) (fst e) && Nat.eqb (snd x) (snd e)) l.
Lemma pair_in_iff e l : pair_in e l = true <-> In e l.
Proof.
  unfold pair_in. rewrite existsb_exists. destruct e as (a, b). split.
  - intros ((x, y) & I & E). apply andb_prop in E as (E1 & E2). apply Nat.eqb_eq in E1, E2. cbn in *. now subst.
  - intros I. exists (a, b). cbn. now rewrite !Nat.eqb_refl.
Qed.
Fixpoint pairs_distinct (l : list (nat * nat)) : bool := match l with [] => true | e :: r => negb (pair_in e r) && pairs_distinct r end.
Lemma pairs_distinct_sound l : pairs_distinct l = true -> NoDup l.
Proof. induction l as [| e r IH]; cbn; [constructor |]. intros H. apply andb_prop in H as (H1 & H2). constructor; [| now apply IH]. intros I. apply pair_in_iff in I. now rewrite I in H1. Qed.
(** Faces of all types close up: every edge is passed once in each direction. *)
Theorem C178_closed : forall (s : shape) (nodes : list nat), closed (shape_faces s nodes).
Proof.
  intros s nodes. assert (C : closed (shape_loops s)).
  { unfold closed. set (l := flat_map loop_edges (shape_loops s)). apply NoDup_Permutation_bis.
    - apply pairs_distinct_sound. unfold l. destruct s; reflexivity.
    - now rewrite map_length.
    - assert (B : forallb (fun e => pair_in e (map (fun e => (snd e, fst e)) l)) l = true) by (unfold l; destruct s; reflexivity). rewrite forallb_forall in B. intros e I. apply pair_in_iff. now apply B. }
  unfold closed, shape_faces in *. assert (E : forall T, flat_map loop_edges (map (map (pick nodes)) T) = map (fun e => (pick nodes (fst e), pick nodes (snd e))) (flat_map loop_edges T)).
  { induction T as [| t T IH]; cbn [map flat_map]; [easy |]. now rewrite edges_map, IH, map_app. }
  rewrite E. apply (Permutation_map (fun e => (pick nodes (fst e), pick nodes (snd e)))) in C. rewrite map_map in C |- *. exact C.
Qed.
Example C178_nonvacuous : load_faces Wedge [7;8;9;4;5;6] = [[7;9;6;4]; [8;5;6;9]; [7;4;5;8]; [4;6;5]; [7;8;9]] /\ length (load_voxel [0;1;2;3;4;5;6;7]) = 6.
Proof. split; reflexivity. Qed.

(** * C179: section of cells *)
(** A cell that can be written: a known shape or any polyhedron. *)
Definition proper (c : cell) : Prop :=
  match c with Simple s fs => (s = Tet \/ s = Hex \/ s = Wedge \/ s = Pyramid) /\ exists nodes, has_shape s fs nodes | Poly _ => True end.
(** The faces read from the file are those of the cell (those of prisms are reversed). *)
Definition read_as (c : cell) (ls : list loop) : Prop :=
  match c with
  | Simple Wedge fs => same_surface (map (fun f => rev (outward f)) fs) ls
  | Simple _ fs => same_surface (map outward fs) ls
  | Poly fs => ls = map outward fs
  end.
Lemma surface_sym l m : same_surface l m -> same_surface m l.
Proof.
  intros (a & P & F). assert (G : Forall2 (fun x y => rotated y x) a m) by (clear P; induction F as [| x y a m R F IH]; constructor; [now apply rotated_sym | easy]).
  destruct (Permutation_Forall2 (P := fun x y => rotated y x) (Permutation_sym P) G) as (b & Q & E). exists b. split; [easy |]. clear - E. induction E; constructor; auto.
Qed.
Lemma outward_length f : length (outward f) = length (fst f).
Proof. destruct f as (l, []); cbn; [easy | apply rev_length]. Qed.
Lemma read_loops_spec fs rest : read_loops (length fs) (flat_map (fun f => length (fst f) :: outward f) fs ++ rest) = Some (map outward fs, rest).
Proof.
  induction fs as [| f fs IH]; [easy |]. cbn [length flat_map app read_loops map]. rewrite <- app_assoc. rewrite app_length, outward_length. destruct (Nat.leb_spec (length (fst f)) (length (fst f) + length (flat_map (fun f0 => length (fst f0) :: outward f0) fs ++ rest))); [| lia].
  rewrite <- (outward_length f), skipn_app, skipn_all, Nat.sub_diag, firstn_app, firstn_all, Nat.sub_diag. cbn [skipn firstn app]. now rewrite IH, app_nil_r.
Qed.
Lemma load_simple s r rest : length r = shape_size s -> load_cell (vtk_type s) (length r :: r ++ rest) = Some (load_faces s r, rest).
Proof.
  intros L. assert (E : Nat.leb (length r) (length (r ++ rest)) && Nat.eqb (length r) (shape_size s) = true) by (rewrite app_length, L, Nat.eqb_refl, andb_true_r; apply Nat.leb_le; lia).
  assert (F : firstn (length r) (r ++ rest) = r) by (rewrite firstn_app, firstn_all, Nat.sub_diag; cbn; apply app_nil_r).
  assert (K : skipn (length r) (r ++ rest) = rest) by (rewrite skipn_app, skipn_all, Nat.sub_diag; easy).
  destruct s; cbn [vtk_type]; unfold load_cell; cbv zeta; rewrite E, F, K; reflexivity.
Qed.
Lemma save_cell_spec c : proper c -> exists t v, save_cell c = Some (t, v) /\ (exists n w, v = n :: w /\ n = length w) /\ forall rest, exists ls, load_cell t (v ++ rest) = Some (ls, rest) /\ read_as c ls.
Proof.
  destruct c as [s fs | fs]; intros H; cbn [save_cell].
  - destruct H as (LS & nodes & N & L & H). destruct (restore_any s nodes fs LS N L H) as (r & R & P & LR & SR). rewrite R, LR, Nat.eqb_refl. exists (vtk_type s), (length r :: r). rewrite <- LR. split; [easy |]. split; [now exists (length r), r |].
    intros rest. exists (load_faces s r). split; [now apply load_simple |]. pose proof (surface_sym _ _ (C178_load s r)) as SL. destruct LS as [-> | [-> | [-> | ->]]]; cbn [read_as]; try (now apply (surface_trans _ _ _ SR)).
    apply (surface_trans _ (shape_faces Wedge r)); [| easy]. erewrite map_ext; [exact SR |]. intros a. symmetry. apply inward_rev.
  - exists 42, (poly_values fs). split; [easy |]. split.
    + unfold poly_values. eexists _, _. split; [reflexivity |]. cbn [length]. assert (E : forall l acc, fold_left (fun t (f : face) => t + length (fst f)) l acc + length l = acc + length (flat_map (fun f : face => length (fst f) :: outward f) l)).
      { induction l as [| f l IH]; intros acc; cbn [fold_left flat_map length app]; [lia |]. rewrite app_length, outward_length. specialize (IH (acc + length (fst f))). lia. }
      specialize (E fs 0). unfold face in *. lia.
    + intros rest. exists (map outward fs). split; [| easy]. unfold load_cell. cbv zeta. unfold poly_values. cbn [app]. apply read_loops_spec.
Qed.
(** Saving succeeds, and loading the values returns the cells. *)
Theorem C179_cells : forall (cells : list cell), (forall c, In c cells -> proper c) ->
  exists ts vs, save_cells cells = Some (ts, vs) /\ length ts = length cells /\ exists ls, load_cells ts vs = Some ls /\ Forall2 read_as cells ls.
Proof.
  intros cells H. assert (G : exists ts vs, save_cells cells = Some (ts, vs) /\ length ts = length cells /\ forall rest, exists ls, load_cells ts (vs ++ rest) = Some ls /\ Forall2 read_as cells ls).
  { induction cells as [| c cells IH]; cbn [save_cells].
    - exists [], []. split; [easy |]. split; [easy |]. intros rest. exists []. now split.
    - destruct (save_cell_spec c (H c (or_introl eq_refl))) as (t & v & E & _ & LC). destruct IH as (ts & vs & E' & LN & LCS); [intros c' I; apply H; now right |]. rewrite E, E'. exists (t :: ts), (v ++ vs). split; [easy |]. split; [cbn; now rewrite LN |].
      intros rest. rewrite <- app_assoc. destruct (LC (vs ++ rest)) as (ls & EL & RA). destruct (LCS rest) as (lss & ELS & RAS). exists (ls :: lss). cbn [load_cells]. rewrite EL, ELS. split; [easy | now constructor]. }
  destruct G as (ts & vs & E & L & G). exists ts, vs. split; [easy |]. split; [easy |]. destruct (G []) as (ls & EL & R). rewrite app_nil_r in EL. now exists ls.
Qed.
(** The first value of every cell is the number of values that follow, as the format demands. *)
Theorem C179_sizes : forall (c : cell) (t : nat) (v : list nat), proper c -> save_cell c = Some (t, v) -> exists w, v = length w :: w.
Proof. intros c t v P E. destruct (save_cell_spec c P) as (t' & v' & E' & (n & w & -> & ->) & _). rewrite E in E'. injection E' as <- ->. now exists w. Qed.
Example C179_nonvacuous : exists ts vs, save_cells [Simple Hex ex_hex; Poly ex_wedge; Simple Wedge ex_wedge] = Some (ts, vs) /\ ts = [12; 42; 13] /\ length vs = 41 /\
  proper (Simple Hex ex_hex) /\ proper (Simple Wedge ex_wedge) /\ proper (Poly ex_wedge).
Proof.
  eexists _, _. split; [vm_compute; reflexivity |]. split; [reflexivity |]. split; [reflexivity |]. cbn [proper]. split; [split; [tauto | eexists; apply C177_nonvacuous] |]. split; [split; [tauto | exists [0;1;2;3;4;5]; apply C177_nonvacuous] | easy].
Qed.

Print Assumptions C177_restore.
Print Assumptions C177_wedge.
Print Assumptions C177_wedge_refuted.
Print Assumptions C178_load.
Print Assumptions C178_voxel.
Print Assumptions C178_closed.
Print Assumptions C179_cells.
Print Assumptions C179_sizes.
