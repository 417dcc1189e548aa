(** Properties of geometric types. *)
From Coq Require Import List Arith Bool Lia Permutation.
From Verif Require Import Vtk_Spec Vtk_Model Vtk_Proofs Vtk_Props Gtype_Spec Gtype_Model Gtype_Proofs.
Import ListNotations.

(** The cell as ComputeGeometricType sees it: types of faces computed from their edges, types of edges from two nodes. *)
Definition face_of (test : bool) (f : loop) : gtype := face_type test (map (fun e => (edge_type 2, [fst e; snd e])) (loop_edges f)).
Definition cell_of (h : nat * nat -> nat) (test : bool) (l : list loop) : list sub := map (fun f => (face_of test f, map h (loop_edges f))) l.
(** * Types of faces *)
Lemma edges_fst f : map fst (loop_edges f) = f.
Proof.
  destruct f as [| a r]; [easy |]. unfold loop_edges. assert (L : length (a :: r) = length (r ++ [a])) by (rewrite app_length; cbn; lia). revert L. generalize (a :: r), (r ++ [a]). clear. induction l as [| x l IH]; intros [| y m] L; try discriminate L; [easy |]. cbn. rewrite IH; [easy |]. now injection L.
Qed.
Lemma edges_snd f : Permutation (map snd (loop_edges f)) f.
Proof.
  destruct f as [| a r]; [easy |]. unfold loop_edges. assert (L : length (a :: r) = length (r ++ [a])) by (rewrite app_length; cbn; lia). assert (E : map snd (combine (a :: r) (r ++ [a])) = r ++ [a]).
  { revert L. generalize (a :: r), (r ++ [a]). clear. induction l as [| x l IH]; intros [| y m] L; try discriminate L; [easy |]. cbn. rewrite IH; [easy |]. now injection L. }
  rewrite E. apply Permutation_sym, Permutation_cons_append.
Qed.
Lemma edges_length f : length (loop_edges f) = length f. Proof. rewrite <- (map_length fst), edges_fst. easy. Qed.
Lemma lines_dim (T : gtype) (d : nat) (l : list sub) : gdim1 T = d -> 0 < d < 5 -> l <> [] -> (forall x, In x l -> gdim1 (fst x) = d) -> dmax l = d /\ dmin l = d.
Proof.
  intros _ B NE H. assert (A1 : forall l m, (forall x, In x l -> gdim1 (fst x) = d) -> m = d -> fold_left (fun m (x : sub) => if m <? gdim1 (fst x) then gdim1 (fst x) else m) l m = d).
  { induction l0 as [| x l0 IH]; intros m Hx E; [easy |]. cbn [fold_left]. apply IH; [intros y I; apply Hx; now right |]. rewrite (Hx x (or_introl eq_refl)). now destruct (m <? d). }
  assert (A2 : forall l m, (forall x, In x l -> gdim1 (fst x) = d) -> m = d -> fold_left (fun m (x : sub) => if gdim1 (fst x) <? m then gdim1 (fst x) else m) l m = d).
  { induction l0 as [| x l0 IH]; intros m Hx E; [easy |]. cbn [fold_left]. apply IH; [intros y I; apply Hx; now right |]. rewrite (Hx x (or_introl eq_refl)). now destruct (d <? m). }
  destruct l as [| x l]; [easy |]. pose proof (H x (or_introl eq_refl)) as Hx. unfold dmax, dmin. cbn [fold_left]. rewrite Hx. split; [apply A1 | apply A2]; try (intros y I; apply H; now right).
  - destruct (Nat.ltb_spec 0 d); lia.
  - destruct (Nat.ltb_spec d 5); lia.
Qed.
Lemma visits_perm f : Permutation (visits (map (fun e => (edge_type 2, [fst e; snd e])) (loop_edges f))) (f ++ f).
Proof.
  assert (E : forall l : list (nat * nat), Permutation (visits (map (fun e => (edge_type 2, [fst e; snd e])) l)) (map fst l ++ map snd l)).
  { induction l as [| e l IH]; [easy |]. cbn. constructor. eapply perm_trans; [apply perm_skip, IH |]. apply Permutation_middle. }
  eapply perm_trans; [apply E |]. rewrite edges_fst. apply Permutation_app_head, edges_snd.
Qed.
Lemma closure_face f : NoDup f -> test_closure (map (fun e => (edge_type 2, [fst e; snd e])) (loop_edges f)) = true.
Proof.
  intros N. unfold test_closure. apply forallb_forall. intros x I. pose proof (visits_perm f) as P. rewrite (proj1 (Permutation_count_occ Nat.eq_dec _ _) P x). apply (Permutation_in _ P) in I. rewrite count_occ_app.
  assert (In x f) by (apply in_app_iff in I; tauto). rewrite (proj1 (NoDup_count_occ' Nat.eq_dec f) N x) by easy. easy.
Qed.
Lemma face_of_spec test f : NoDup f -> f <> [] -> face_of test f = if Nat.eqb (length f) 3 then GTri else if Nat.eqb (length f) 4 then GQuad else GPolygon.
Proof.
  intros N NE. unfold face_of, face_type. rewrite map_length, edges_length. destruct (Nat.eqb_spec (length f) 0) as [Z | Z]; [destruct f; [easy | discriminate Z] |].
  destruct (lines_dim GLine 2 (map (fun e => (edge_type 2, [fst e; snd e])) (loop_edges f))) as (-> & ->); [easy | lia | | |].
  - intros E. apply (f_equal (@length _)) in E. rewrite map_length, edges_length in E. easy.
  - intros x I. apply in_map_iff in I as (e & <- & _). easy.
  - cbn [Nat.eqb negb]. unfold polygon. rewrite (closure_face f N), orb_true_r, map_length, edges_length. easy.
Qed.
Lemma count_faces h test l : Forall (fun f => 3 <= length f /\ NoDup f) l -> count_type GTri (cell_of h test l) = sized 3 l /\ count_type GQuad (cell_of h test l) = sized 4 l.
Proof.
  unfold count_type, sized. induction 1 as [| f l (L & N) H (IH1 & IH2)]; [easy |]. cbn [cell_of map filter fst]. assert (NE : f <> []) by (intros ->; cbn in L; lia). rewrite (face_of_spec test f N NE).
  destruct (Nat.eqb_spec (length f) 3); [| destruct (Nat.eqb_spec (length f) 4)]; cbn [gtype_eqb length]; try (destruct (Nat.eqb_spec (length f) 4); [lia |]); unfold cell_of in *; rewrite <- ?IH1, <- ?IH2; easy.
Qed.
(** * Closure and common edges *)
Lemma surface_swap l e : surface l -> In e (edges l) -> In (swap e) (edges l).
Proof.
  intros (_ & _ & C) I. unfold closed in C. apply (Permutation_in _ C) in I. apply in_map_iff in I as (x & <- & I). now destruct x.
Qed.
Lemma edge_nodes f a b : 3 <= length f -> NoDup f -> In (a, b) (loop_edges f) -> a <> b.
Proof.
  intros L N I <-. destruct f as [| x r]; [easy |]. unfold loop_edges in I. assert (G : forall r u c, NoDup (u :: r) -> ~ In c r -> c <> last (u :: r) u -> ~ In (a, a) (combine (u :: r) (r ++ [c]))).
  { clear. induction r as [| y r IH]; intros u c N NI NL; cbn.
    - intros [E | []]. injection E as -> ->. now apply NL.
    - inversion N as [| ? ? NU N']; subst. intros [E | I]; [injection E as -> ->; apply NU; now left |]. apply (IH y c) in I; auto; [intros J; apply NI; now right |]. intros E. apply NL. rewrite E. destruct r as [| z r]; [easy |]. cbn. clear. revert z. induction r as [| w r IHr]; intros z; [easy |]. cbn in *. apply IHr. }
  destruct r as [| y r]; [| inversion N as [| ? ? NX N']; subst; apply (G (y :: r) x x) in I; auto].
  - cbn in L. lia.
  - intros E. apply NX. assert (J : forall (r : list nat) y d, In (last (y :: r) d) (y :: r)). { clear. induction r as [| z r IH]; intros y d; [now left |]. right. apply IH. } change (last (x :: y :: r) x) with (last (y :: r) x) in E. rewrite E. apply J.
Qed.
Lemma surface_nodes l a b : surface l -> In (a, b) (edges l) -> a <> b.
Proof.
  intros (A & _ & _) I. unfold edges in I. apply in_flat_map in I as (f & J & I). rewrite Forall_forall in A. destruct (A f J) as (L & N). now apply (edge_nodes f).
Qed.
Lemma handle_iff h : edge_handles h -> forall x y, h x = h y <-> x = y \/ x = swap y.
Proof. intros H (a, b) (c, d). rewrite (H a b c d). unfold swap. cbn. split; [intros [(-> & ->) | (-> & ->)]; auto | intros [E | E]; injection E as -> ->; auto]. Qed.
Lemma visits_cell h test l : visits (cell_of h test l) = map h (edges l).
Proof. unfold visits, cell_of, edges. induction l as [| f l IH]; [easy |]. cbn [map flat_map snd]. now rewrite IH, map_app. Qed.
Lemma count_map (h : nat * nat -> nat) (l : list (nat * nat)) x : count_occ Nat.eq_dec (map h l) x = length (filter (fun e => Nat.eqb (h e) x) l).
Proof. induction l as [| e l IH]; [easy |]. cbn. destruct (Nat.eq_dec (h e) x) as [-> | NE]; [rewrite Nat.eqb_refl; cbn; now rewrite IH |]. destruct (Nat.eqb_spec (h e) x); [easy | apply IH]. Qed.
Lemma closed_test h test l : edge_handles h -> surface l -> test_closure (cell_of h test l) = true.
Proof.
  intros H SF. unfold test_closure. rewrite visits_cell. apply forallb_forall. intros x I. apply in_map_iff in I as (e & <- & I). rewrite count_map. apply Nat.eqb_eq.
  assert (P : Permutation (filter (fun y => Nat.eqb (h y) (h e)) (edges l)) [e; swap e]).
  { apply NoDup_Permutation.
    - apply NoDup_filter. apply SF.
    - constructor; [| constructor; [easy | constructor]]. intros [E | []]. destruct e as (a, b). apply (surface_nodes l a b SF I). unfold swap in E. cbn in E. congruence.
    - intros y. rewrite filter_In, Nat.eqb_eq, (handle_iff h H). cbn [In]. split; [intros (_ & [-> | ->]); auto |]. intros [<- | [<- | []]]; [auto |]. split; [now apply surface_swap | auto]. }
  now rewrite (Permutation_length P).
Qed.
Definition sub_of (h : nat * nat -> nat) (test : bool) (f : loop) : sub := (face_of test f, map h (loop_edges f)).
Lemma marked_iff h f e : edge_handles h -> marked_in (h e) (map h (loop_edges f)) = true <-> In e (loop_edges f) \/ In (swap e) (loop_edges f).
Proof.
  intros H. unfold marked_in. rewrite existsb_exists. split.
  - intros (x & I & E). apply Nat.eqb_eq in E. subst x. apply in_map_iff in I as (y & E & I). apply (handle_iff h H) in E as [-> | ->]; auto.
  - intros [I | I]; exists (h e); (split; [| apply Nat.eqb_refl]); apply in_map_iff; [now exists e | exists (swap e)]. split; [| easy]. apply (handle_iff h H). now right.
Qed.
Lemma filter_map_len (h : nat * nat -> nat) (p : nat -> bool) (l : list (nat * nat)) : length (filter p (map h l)) = length (filter (fun e => p (h e)) l).
Proof. induction l as [| e l IH]; [easy |]. cbn. destruct (p (h e)); cbn; now rewrite IH. Qed.
Lemma common_near h test f g : edge_handles h -> NoDup (loop_edges f ++ loop_edges g) -> Nat.leb (common (sub_of h test f) (sub_of h test g)) 1 = true <-> near f g.
Proof.
  intros H N. unfold common, sub_of. cbn [snd]. rewrite filter_map_len. rewrite Nat.leb_le. assert (NG : NoDup (loop_edges g)) by (apply (Permutation_NoDup (Permutation_app_comm _ _)), nodup_left in N; exact N).
  assert (DJ : forall e, In e (loop_edges f) -> In e (loop_edges g) -> False).
  { intros e. clear - N. induction (loop_edges f) as [| x l IH]; [easy |]. inversion N as [| ? ? NI N']; subst. intros [-> | I] J; [apply NI; apply in_app_iff; now right | now apply IH]. }
  split.
  - intros L e1 e2 I1 I2 J1 J2. destruct (list_eq_dec Nat.eq_dec [fst e1; snd e1] [fst e2; snd e2]) as [E | NE]; [injection E as E1 E2; destruct e1, e2; cbn in *; congruence |]. exfalso.
    assert (2 <= length (filter (fun e => marked_in (h e) (map h (loop_edges f))) (loop_edges g))); [| lia].
    apply (NoDup_incl_length (l := [swap e1; swap e2])).
    + constructor; [| constructor; [easy | constructor]]. intros [E | []]. apply NE. destruct e1, e2. cbn in *. injection E as -> ->. easy.
    + intros x [<- | [<- | []]]; apply filter_In; (split; [easy |]); apply (marked_iff h f _ H); right; now rewrite swap_swap.
  - intros NR. destruct (filter (fun e => marked_in (h e) (map h (loop_edges f))) (loop_edges g)) as [| x [| y r]] eqn:E; [cbn; lia | cbn; lia |]. exfalso.
    assert (NF : NoDup (x :: y :: r)) by (rewrite <- E; now apply NoDup_filter). assert (IX : In x (x :: y :: r)) by now left. assert (IY : In y (x :: y :: r)) by (right; now left). rewrite <- E in IX, IY. apply filter_In in IX as (IX & MX), IY as (IY & MY). apply (marked_iff h f _ H) in MX, MY.
    destruct MX as [MX | MX]; [now apply (DJ x) |]. destruct MY as [MY | MY]; [now apply (DJ y) |]. assert (Q : swap x = swap y) by (apply NR; rewrite ?swap_swap; easy). inversion NF as [| ? ? NI _]; subst. apply NI. left. rewrite <- (swap_swap y), <- Q. apply swap_swap.
Qed.
Lemma check_near h test l : edge_handles h -> NoDup (edges l) -> check (cell_of h test l) = true <-> ForallOrdPairs near l.
Proof.
  intros H. induction l as [| f l IH]; intros N; [split; [constructor | easy] |]. cbn [cell_of map check]. fold (cell_of h test l). unfold edges in N. cbn [flat_map] in N. fold (edges l) in N. pose proof (nodup_left _ _ _ (Permutation_NoDup (Permutation_app_comm _ _) N)) as NL. specialize (IH NL). rewrite andb_true_iff, IH. clear IH NL.
  assert (F : forallb (fun b => Nat.leb (common (sub_of h test f) b) 1) (cell_of h test l) = true <-> Forall (near f) l).
  { rewrite forallb_forall, Forall_forall. assert (NN : forall g, In g l -> NoDup (loop_edges f ++ loop_edges g)).
    { intros g I. apply in_split in I as (l1 & l2 & ->). unfold edges in N. rewrite flat_map_app in N. cbn [flat_map] in N. apply (nodup_left _ _ (flat_map loop_edges l1 ++ flat_map loop_edges l2)). revert N. apply Permutation_NoDup. rewrite <- app_assoc. apply Permutation_app_head. rewrite !app_assoc. apply Permutation_app_tail. apply Permutation_app_comm. }
    split.
    - intros A g I. apply (common_near h test f g H (NN g I)). apply (A (sub_of h test g)). unfold cell_of. apply in_map_iff. now exists g.
    - intros A b I. unfold cell_of in I. apply in_map_iff in I as (g & <- & I). apply (common_near h test f g H (NN g I)). now apply A. }
  unfold sub_of in F at 1. rewrite F. split; [intros (A & B); now constructor | intros A; now inversion A].
Qed.
(** The type of a closed surface does not depend on the test of closure. *)
Lemma cell_spec h test l : edge_handles h -> surface l -> l <> [] ->
  cell_type test (cell_of h test l) = if check (cell_of h test l) then polyhedron (cell_of h test l) else GPolyhedron.
Proof.
  intros H SF NE. unfold cell_type. unfold cell_of at 1. rewrite map_length. destruct (Nat.eqb_spec (length l) 0) as [Z | _]; [destruct l; [easy | discriminate Z] |].
  destruct (lines_dim GTri 3 (cell_of h test l)) as (-> & ->); [easy | lia | | |].
  - destruct l; easy.
  - intros x I. unfold cell_of in I. apply in_map_iff in I as (f & <- & I). destruct SF as (A & _ & _). rewrite Forall_forall in A. destruct (A f I) as (L & N). cbn [fst]. rewrite face_of_spec; [| easy | intros ->; cbn in L; lia]. destruct (Nat.eqb (length f) 3); [easy |]. now destruct (Nat.eqb (length f) 4).
  - cbn [Nat.eqb negb]. now rewrite (closed_test h test l H SF), orb_true_r.
Qed.

(** * Shapes found by the search *)
Definition numbering (s : shape) (F : list loop) : option (list nat) :=
  match s with
  | Wedge => match restore Wedge (map (fun l => (l, true)) F) with Some [a; b; c; d; e; f] => Some [d; e; f; a; b; c] | _ => None end
  | _ => restore s (map (fun l => (l, true)) F)
  end.
Definition shaped (s : shape) (F : list loop) : bool :=
  match numbering s F with
  | Some r => Nat.eqb (length r) (shape_size s) && list_eqb (nodup Nat.eq_dec r) r && surf_eqb F (shape_faces s r)
  | None => false
  end.
Definition final (s : shape) (F : list loop) (n : nat) : bool := negb (Nat.eqb n (shape_size s)) || shaped s F.
Definition strict (s : shape) (F : list loop) (n : nat) : bool := Nat.eqb n (shape_size s) && shaped s F.
Lemma search_shape s (fin : list loop -> nat -> bool) f R : good_surface (f :: R) -> search fin 7 [seq 0 (length f)] (length f) (sized 3 R) (sized 4 R) = true ->
  exists F n, fin F n = true /\ length (nodes_of (f :: R)) = n /\ (shaped s F = true -> exists nodes, NoDup nodes /\ length nodes = shape_size s /\ same_surface (f :: R) (shape_faces s nodes)).
Proof.
  intros G SR. assert (NF : NoDup f) by (destruct G as (A & _); now inversion A). assert (EF : map (map (naming f)) [seq 0 (length f)] ++ R = f :: R) by (cbn [map app]; now rewrite naming_seq).
  destruct (search_sound fin 7 (f :: R) [seq 0 (length f)] R f SR NF) as (F & ns & N & B & IC & SS & FN).
  - constructor; [| constructor]. apply Forall_forall. intros i I. apply in_seq in I. lia.
  - cbn [map concat]. rewrite naming_seq, app_nil_r. apply incl_refl.
  - now rewrite EF.
  - rewrite EF. apply surface_refl.
  - exists F, (length ns). split; [easy |]. split.
    + apply Permutation_length. apply NoDup_Permutation; [apply NoDup_nodup | easy |]. intros x. unfold nodes_of. rewrite nodup_In. split.
      * intros I. apply in_concat in I as (l & IL & I). destruct (surface_in_l _ _ l SS IL) as (y & IY & RT). apply (Permutation_in _ (rotated_perm _ _ RT)) in I. apply in_map_iff in IY as (z & <- & IZ). apply in_map_iff in I as (i & <- & I). unfold bounded in B. rewrite Forall_forall in B. specialize (B z IZ). rewrite Forall_forall in B. specialize (B i I). unfold naming. destruct (Nat.ltb_spec i (length ns)); [| lia]. now apply nth_In.
      * intros I. apply IC in I. apply in_concat in I as (l & IL & I). destruct (surface_in_r _ _ l SS IL) as (y & IY & RT). apply in_concat. exists y. split; [easy |]. now apply (Permutation_in _ (Permutation_sym (rotated_perm _ _ RT))).
    + intros SH. unfold shaped in SH. destruct (numbering s F) as [r |]; [| easy]. apply andb_prop in SH as (SH & S3). apply andb_prop in SH as (S1 & S2). apply Nat.eqb_eq in S1. apply list_eqb_eq in S2. exists (map (naming ns) r). split; [| split].
      * apply FinFun.Injective_map_NoDup; [intros i j; now apply naming_inj |]. rewrite <- S2. apply NoDup_nodup.
      * now rewrite map_length.
      * rewrite (shape_rename s _ r S1). apply (surface_trans _ _ _ SS). apply surface_map. now apply surf_eqb_sound.
Qed.
Lemma surface_perm (l m : list loop) : Permutation l m -> same_surface l m. Proof. intros P. exists m. split; [easy | apply Forall2_refl_rot]. Qed.
Lemma sizes_all l : sized 3 l + sized 4 l = length l -> Forall (fun f => length f = 3 \/ length f = 4) l.
Proof.
  assert (LE : forall l, sized 3 l + sized 4 l <= length l). { induction l0 as [| f l0 IH]; [easy |]. unfold sized in *. cbn [filter length]. destruct (Nat.eqb_spec (length f) 3), (Nat.eqb_spec (length f) 4); cbn [length]; lia. }
  induction l as [| f l IH]; [constructor |]. intros E. specialize (LE l). unfold sized in *. cbn [filter length] in E. destruct (Nat.eqb_spec (length f) 3), (Nat.eqb_spec (length f) 4); cbn [length] in E; try lia; (constructor; [auto | apply IH; lia]).
Qed.
Lemma sizes_le l : sized 3 l + sized 4 l <= length l.
Proof. induction l as [| f l IH]; [easy |]. unfold sized in *. cbn [filter length]. destruct (Nat.eqb_spec (length f) 3), (Nat.eqb_spec (length f) 4); cbn [length]; lia. Qed.
Lemma good_of h test l : edge_handles h -> surface l -> check (cell_of h test l) = true -> sized 3 l + sized 4 l = length l -> good_surface l.
Proof.
  intros H SF CH SZ. pose proof SF as (A & B & C). split; [| split; [easy |]]; [| split; [| split]].
  - eapply Forall_impl; [| exact A]. now intros f (_ & N).
  - intros e. now apply surface_swap.
  - now apply (check_near h test l H B).
  - now apply sizes_all.
Qed.
Definition type_of (s : shape) : gtype := match s with Tet => GTet | Hex => GHex | Wedge => GPrism | Pyramid => GPyramid | _ => GPolyhedron end.
Definition sizes (s : shape) : nat * nat := match s with Tet => (4, 0) | Hex => (0, 6) | Wedge => (2, 3) | Pyramid => (4, 1) | _ => (0, 0) end.
Lemma type_inv h test l s : edge_handles h -> surface l -> (s = Tet \/ s = Hex \/ s = Wedge \/ s = Pyramid) -> cell_type test (cell_of h test l) = type_of s ->
  good_surface l /\ sized 3 l = fst (sizes s) /\ sized 4 l = snd (sizes s).
Proof.
  intros H SF LS T. destruct l as [| f l]; [destruct LS as [-> | [-> | [-> | ->]]]; discriminate T |]. rewrite (cell_spec h test _ H SF) in T by easy.
  destruct (check (cell_of h test (f :: l))) eqn:CH; [| destruct LS as [-> | [-> | [-> | ->]]]; discriminate T]. destruct (count_faces h test (f :: l)) as (C3 & C4); [apply SF |].
  unfold polyhedron in T. rewrite C3, C4 in T. cbv zeta in T. unfold cell_of in T. rewrite map_length in T. pose proof (sizes_le (f :: l)) as LE.
  assert (Q : sized 3 (f :: l) = fst (sizes s) /\ sized 4 (f :: l) = snd (sizes s) /\ sized 3 (f :: l) + sized 4 (f :: l) = length (f :: l)).
  { revert T LE. generalize (sized 3 (f :: l)), (sized 4 (f :: l)), (length (f :: l)). intros a b c T LE.
    destruct (Nat.eqb_spec a 4), (Nat.eqb_spec c 4), (Nat.eqb_spec b 6), (Nat.eqb_spec c 6), (Nat.eqb_spec b 1), (Nat.eqb_spec c (a + b)), (Nat.eqb_spec b 3), (Nat.eqb_spec a 2); cbn [andb] in T; destruct LS as [-> | [-> | [-> | ->]]]; cbn [type_of sizes fst snd] in *; try discriminate T; lia. }
  destruct Q as (Q1 & Q2 & Q3). split; [now apply (good_of h test) | easy].
Qed.
Lemma start l k : 0 < sized k l -> exists f R, Permutation l (f :: R) /\ length f = k.
Proof.
  unfold sized. intros P. destruct (filter (fun f => Nat.eqb (length f) k) l) as [| f r] eqn:E; [easy |]. assert (I : In f (f :: r)) by now left. rewrite <- E in I. apply filter_In in I as (I & L). apply Nat.eqb_eq in L. apply in_split in I as (l1 & l2 & ->). exists f, (l1 ++ l2). split; [apply Permutation_sym, Permutation_middle | easy].
Qed.
Lemma sized_perm k l m : Permutation l m -> sized k l = sized k m.
Proof. intros P. unfold sized. induction P as [| x l m P IH | x y l | l m n P IH Q IH']; cbn [filter]; [easy | | | congruence]. - destruct (Nat.eqb (length x) k); cbn [length]; lia. - destruct (Nat.eqb (length x) k), (Nat.eqb (length y) k); easy. Qed.
Lemma nodes_perm l m : Permutation l m -> length (nodes_of l) = length (nodes_of m).
Proof.
  intros P. apply Permutation_length. apply NoDup_Permutation; [apply NoDup_nodup | apply NoDup_nodup |]. intros x. unfold nodes_of. rewrite !nodup_In, !in_concat. split; intros (y & I & J); exists y; (split; [| easy]).
  - now apply (Permutation_in _ P).
  - now apply (Permutation_in _ (Permutation_sym P)).
Qed.
Lemma type_search s k (fin : list loop -> nat -> bool) l : good_surface l -> sized 3 l = fst (sizes s) -> sized 4 l = snd (sizes s) -> k = 3 \/ k = 4 -> 0 < sized k l ->
  search fin 7 [seq 0 k] k (fst (sizes s) - if Nat.eqb k 3 then 1 else 0) (snd (sizes s) - if Nat.eqb k 4 then 1 else 0) = true ->
  exists F n, fin F n = true /\ length (nodes_of l) = n /\ (shaped s F = true -> exists nodes, NoDup nodes /\ length nodes = shape_size s /\ same_surface l (shape_faces s nodes)).
Proof.
  intros G S3 S4 K PK SR. destruct (start l k PK) as (f & R & P & L). pose proof (sized_perm 3 _ _ P) as P3. pose proof (sized_perm 4 _ _ P) as P4. pose proof (sized_mid 3 [] f R) as E3. pose proof (sized_mid 4 [] f R) as E4. cbn [app] in E3, E4. rewrite L in E3, E4.
  assert (T3 : sized 3 R = fst (sizes s) - if Nat.eqb k 3 then 1 else 0) by (destruct (Nat.eqb k 3); lia). assert (T4 : sized 4 R = snd (sizes s) - if Nat.eqb k 4 then 1 else 0) by (destruct (Nat.eqb k 4); lia).
  rewrite <- T3, <- T4, <- L in SR. destruct (search_shape s fin f R) as (F & n & A & B & C); [now apply (good_invariant l); [apply surface_perm |] | easy |].
  exists F, n. split; [easy |]. split; [now rewrite (nodes_perm _ _ P) |]. intros SH. destruct (C SH) as (nodes & N & LN & SS). exists nodes. split; [easy |]. split; [easy |]. apply (surface_trans _ (f :: R)); [now apply surface_perm | easy].
Qed.
Lemma search_tet : search (strict Tet) 7 [seq 0 3] 3 3 0 = true. Proof. vm_compute. reflexivity. Qed.
Lemma search_pyramid : search (strict Pyramid) 7 [seq 0 4] 4 4 0 = true. Proof. vm_compute. reflexivity. Qed.
Lemma search_wedge : search (strict Wedge) 7 [seq 0 4] 4 2 2 = true. Proof. vm_compute. reflexivity. Qed.
Lemma search_hex : search (final Hex) 7 [seq 0 4] 4 0 5 = true. Proof. vm_compute. reflexivity. Qed.
Local Opaque search.

(** * C180: types of cells *)
(** Cells with the type of a tetrahedron, a pyramid or a prism have that shape. *)
Theorem C180_shape : forall (h : nat * nat -> nat) (test : bool) (fs : list face) (s : shape), edge_handles h -> surface (map outward fs) ->
  s = Tet \/ s = Wedge \/ s = Pyramid -> cell_type test (cell_of h test (map outward fs)) = type_of s -> exists nodes, has_shape s fs nodes.
Proof.
  intros h test fs s H SF LS T. destruct (type_inv h test _ s H SF ltac:(tauto) T) as (G & S3 & S4).
  assert (Q : exists F n, strict s F n = true /\ length (nodes_of (map outward fs)) = n /\ (shaped s F = true -> exists nodes, NoDup nodes /\ length nodes = shape_size s /\ same_surface (map outward fs) (shape_faces s nodes))).
  { destruct LS as [-> | [-> | ->]]; cbn [sizes fst snd] in *.
    - apply (type_search Tet 3); try lia; try easy; exact search_tet.
    - apply (type_search Wedge 4); try lia; try easy; exact search_wedge.
    - apply (type_search Pyramid 4); try lia; try easy; exact search_pyramid. }
  destruct Q as (F & n & A & _ & C). unfold strict in A. apply andb_prop in A as (_ & A). destruct (C A) as (nodes & N & L & SS). now exists nodes.
Qed.
(** Hexahedra: only if the cell has eight nodes. *)
Theorem C180_hex : forall (h : nat * nat -> nat) (test : bool) (fs : list face), edge_handles h -> surface (map outward fs) -> length (nodes_of (map outward fs)) = 8 ->
  cell_type test (cell_of h test (map outward fs)) = GHex -> exists nodes, has_shape Hex fs nodes.
Proof.
  intros h test fs H SF L8 T. destruct (type_inv h test _ Hex H SF ltac:(tauto) T) as (G & S3 & S4). cbn [sizes fst snd] in *.
  destruct (type_search Hex 4 (final Hex) (map outward fs) G S3 S4 ltac:(lia) ltac:(lia) search_hex) as (F & n & A & B & C).
  rewrite L8 in B. subst n. unfold final in A. cbn [shape_size Nat.eqb negb orb] in A. destruct (C A) as (nodes & N & L & SS). now exists nodes.
Qed.
Lemma nearb_sound f g : nearb f g = true -> near f g.
Proof.
  unfold nearb. rewrite forallb_forall. intros H e1 e2 I1 I2 J1 J2. assert (K1 : In e1 (filter (fun e => has (swap e) (loop_edges g)) (loop_edges f))) by (apply filter_In; split; [easy | now apply has_iff]). specialize (H e1 K1). cbv beta in H. rewrite forallb_forall in H. apply eq_pair_iff. apply H. apply filter_In. split; [easy | now apply has_iff].
Qed.
Fixpoint all_near (l : list loop) : bool := match l with [] => true | f :: r => forallb (nearb f) r && all_near r end.
Lemma all_near_sound l : all_near l = true -> ForallOrdPairs near l.
Proof. induction l as [| f l IH]; cbn [all_near]; [constructor |]. intros H. apply andb_prop in H as (H1 & H2). constructor; [| now apply IH]. apply Forall_forall. intros g I. apply nearb_sound. rewrite forallb_forall in H1. now apply H1. Qed.
Lemma near_map (f : nat -> nat) a b : (forall i j, f i = f j -> i = j) -> near a b -> near (map f a) (map f b).
Proof.
  intros inj H. assert (E : forall l, loop_edges (map f l) = map (fun e => (f (fst e), f (snd e))) (loop_edges l)) by (intros l; apply edges_map).
  intros e1 e2 I1 I2 J1 J2. rewrite E in *. apply in_map_iff in I1 as ((a1, b1) & <- & I1), I2 as ((a2, b2) & <- & I2), J1 as ((c1, d1) & E1 & J1), J2 as ((c2, d2) & E2 & J2). unfold swap in E1, E2. cbn [fst snd] in *. injection E1 as E1 E1'. injection E2 as E2 E2'. apply inj in E1, E1', E2, E2'. subst.
  specialize (H (a1, b1) (a2, b2) I1 I2 J1 J2). now injection H as -> ->.
Qed.
Lemma pairs_map (f : nat -> nat) l : (forall i j, f i = f j -> i = j) -> ForallOrdPairs near l -> ForallOrdPairs near (map (map f) l).
Proof.
  intros inj. induction 1 as [| a l A H IH]; [constructor |]. cbn [map]. constructor; [| easy]. apply Forall_forall. intros x I. apply in_map_iff in I as (b & <- & I). rewrite Forall_forall in A. apply near_map; auto.
Qed.
Lemma surface_shape s nodes : NoDup nodes -> length nodes = shape_size s -> surface (shape_faces s nodes) /\ ForallOrdPairs near (shape_faces s nodes).
Proof.
  intros N L. pose proof (naming_inj nodes N) as inj. split.
  - split; [| split; [| apply C178_closed]].
    + rewrite (shape_naming s nodes L). apply Forall_forall. intros f I. apply in_map_iff in I as (t & <- & I). rewrite map_length. split.
      * destruct s; cbn [shape_loops In] in I; repeat (destruct I as [<- | I]; [cbn; lia |]); easy.
      * apply FinFun.Injective_map_NoDup; [easy |]. destruct s; cbn [shape_loops In] in I; repeat (destruct I as [<- | I]; [repeat constructor; cbn; lia |]); easy.
    + rewrite (shape_naming s nodes L). change (NoDup (edges (map (map (naming nodes)) (shape_loops s)))). rewrite edges_ren. apply FinFun.Injective_map_NoDup; [intros (a, b) (c, d) E; cbn in E; injection E as E1 E2; apply inj in E1, E2; now subst |]. apply pairs_distinct_sound. destruct s; reflexivity.
  - rewrite (shape_naming s nodes L). apply pairs_map; [easy |]. apply all_near_sound. destruct s; reflexivity.
Qed.
Lemma surface_invariant l m : same_surface l m -> surface l -> surface m.
Proof.
  intros SS (A & B & C). pose proof (surface_edges _ _ SS) as P. split; [| split].
  - apply (forall_rot _ l); [| easy | easy]. intros a b R (L & N). split; [now rewrite <- (rotated_length _ _ R) | now apply (Permutation_NoDup (rotated_perm _ _ R))].
  - now apply (Permutation_NoDup P).
  - unfold closed in *. fold (edges l) in C. fold (edges m). apply (perm_trans (Permutation_sym P)). apply (perm_trans C). now apply Permutation_map.
Qed.
Lemma sized_same k l m : same_surface l m -> sized k l = sized k m /\ length l = length m.
Proof.
  intros (a & P & F). rewrite (sized_perm k _ _ P), (Permutation_length P). clear P. unfold sized. induction F as [| x y a m R F (IH1 & IH2)]; [easy |]. cbn [filter length]. rewrite (rotated_length _ _ R). destruct (Nat.eqb (length y) k); cbn [length]; split; lia.
Qed.
(** Cells of known shapes get their types; prisms with bases of five and six nodes are polyhedra. *)
Theorem C180_known : forall (h : nat * nat -> nat) (test : bool) (s : shape) (fs : list face) (nodes : list nat), edge_handles h -> has_shape s fs nodes ->
  surface (map outward fs) /\ cell_type test (cell_of h test (map outward fs)) = type_of s.
Proof.
  intros h test s fs nodes H (N & L & SS). destruct (surface_shape s nodes N L) as (SF & PN). pose proof (surface_sym _ _ SS) as SY. pose proof (surface_invariant _ _ SY SF) as SF'. split; [easy |].
  destruct (sized_same 3 _ _ SS) as (S3 & LL). destruct (sized_same 4 _ _ SS) as (S4 & _).
  assert (NE : map outward fs <> []). { intros E. rewrite E in LL. destruct s; discriminate LL. }
  rewrite (cell_spec h test _ H SF' NE). assert (CH : check (cell_of h test (map outward fs)) = true).
  { apply (check_near h test _ H); [apply SF' |]. destruct SY as (a & P & F). apply (pairs_rot a); [easy |]. now apply (pairs_perm near (shape_faces s nodes)); [apply near_sym | |]. }
  rewrite CH. destruct (count_faces h test (map outward fs)) as (C3 & C4); [apply SF' |]. unfold polyhedron. rewrite C3, C4, S3, S4. cbv zeta. unfold cell_of. rewrite map_length, LL.
  assert (SZ : forall k, sized k (shape_faces s nodes) = sized k (shape_loops s)). { intros k. unfold sized, shape_faces. generalize (shape_loops s). induction l as [| t l IH]; [easy |]. cbn [map filter]. rewrite map_length. destruct (Nat.eqb (length t) k); cbn [length]; now rewrite IH. }
  rewrite !SZ. unfold shape_faces. rewrite map_length. destruct s; reflexivity.
Qed.
Lemma in_shape s nodes : length nodes = shape_size s -> forall x, In x (concat (shape_faces s nodes)) <-> In x nodes.
Proof.
  intros L x. split.
  - intros I. apply in_concat in I as (y & IY & I). unfold shape_faces in IY. apply in_map_iff in IY as (t & <- & IT). apply in_map_iff in I as (i & <- & I). unfold pick. apply nth_In. rewrite L. now apply (loops_bound s t).
  - intros I. apply In_nth with (d := 0) in I as (i & LI & <-). rewrite L in LI. assert (B : forallb (fun j => existsb (Nat.eqb j) (concat (shape_loops s))) (seq 0 (shape_size s)) = true) by (destruct s; reflexivity). rewrite forallb_forall in B. specialize (B i ltac:(apply in_seq; lia)). apply existsb_exists in B as (j & J & E). apply Nat.eqb_eq in E. subst j.
    apply in_concat in J as (t & IT & J). apply in_concat. exists (map (pick nodes) t). split; [unfold shape_faces; now apply in_map | exact (in_map (pick nodes) t i J)].
Qed.
(** With the test of closure a cell that lacks a face is not taken for a polyhedron. *)
Lemma pair_place (x y : nat) : forall l c, In (x, y) (combine l (tl l ++ [c])) -> (exists u v, l = u ++ x :: y :: v) \/ (exists u, l = u ++ [x] /\ y = c).
Proof.
  induction l as [| a l IH]; intros c I; [easy |]. destruct l as [| b l]; cbn [tl app combine In] in I.
  - destruct I as [E | []]. injection E as -> ->. right. now exists [].
  - destruct I as [E | I]; [injection E as -> ->; left; now exists [], l |]. destruct (IH c I) as [(u & v & E) | (u & E & EC)]; [left; exists (a :: u), v; now rewrite E | right; exists (a :: u); now rewrite E].
Qed.
Lemma edge_rotate g x y : 2 <= length g -> In (x, y) (loop_edges g) -> exists xs, rotated g (x :: y :: xs).
Proof.
  intros L I. destruct g as [| a r]; [easy |]. destruct (pair_place x y (a :: r) a I) as [(u & v & E) | (u & E & ->)].
  - exists (v ++ u). rewrite E. now exists u, (x :: y :: v).
  - destruct u as [| b u]; [apply (f_equal (@length _)) in E; cbn in *; lia |]. injection E as <- ->. exists u. now exists (a :: u), [x].
Qed.
Lemma one_way g a b : 3 <= length g -> NoDup g -> In (a, b) (loop_edges g) -> ~ In (b, a) (loop_edges g).
Proof.
  intros L N I J. destruct (edge_rotate g a b ltac:(lia) I) as (xs & R). apply (Permutation_in _ (rotated_edges _ _ R)) in J. apply (Permutation_NoDup (rotated_perm _ _ R)) in N. rewrite (rotated_length _ _ R) in L.
  inversion N as [| ? ? N1 N2]; subst. inversion N2 as [| ? ? N3 N4]; subst. destruct xs as [| x xs]; [cbn in L; lia |]. unfold loop_edges in J. cbn [app combine In] in J. destruct J as [E | [E | J]].
  - injection E as -> _. apply N1. now left.
  - injection E as ->. apply N1. right. now left.
  - change (In (b, a) (combine (x :: xs) (xs ++ [a]))) in J. apply in_combine_l in J. now apply N3.
Qed.
Theorem C180_missing : forall (h : nat * nat -> nat) (f : loop) (l : list loop), edge_handles h -> surface (f :: l) -> l <> [] -> cell_type true (cell_of h true l) = GMultiPolygon.
Proof.
  intros h f l H SF NE. pose proof SF as (A & B & C). inversion A as [| ? ? (L & N) A']; subst. unfold cell_type. unfold cell_of at 1. rewrite map_length. destruct (Nat.eqb_spec (length l) 0) as [Z | _]; [destruct l; [easy | discriminate Z] |].
  destruct (lines_dim GTri 3 (cell_of h true l)) as (-> & ->); [easy | lia | | |].
  - destruct l; easy.
  - intros x I. unfold cell_of in I. apply in_map_iff in I as (g & <- & I). rewrite Forall_forall in A'. destruct (A' g I) as (Lg & Ng). cbn [fst]. rewrite face_of_spec; [| easy | intros ->; cbn in Lg; lia]. destruct (Nat.eqb (length g) 3); [easy |]. now destruct (Nat.eqb (length g) 4).
  - cbn [Nat.eqb negb orb]. assert (T : test_closure (cell_of h true l) = false); [| now rewrite T].
    destruct f as [| a [| b r]]; [cbn in L; lia | cbn in L; lia |]. assert (I : In (a, b) (loop_edges (a :: b :: r))) by (cbn; now left).
    assert (IE : In (a, b) (edges ((a :: b :: r) :: l))) by (unfold edges; cbn [flat_map]; apply in_app_iff; now left). pose proof (surface_swap _ _ SF IE) as J. unfold edges in J. cbn [flat_map] in J. apply in_app_iff in J as [J | J]; [now apply (one_way _ a b L N I) in J |]. fold (edges l) in J.
    destruct (test_closure (cell_of h true l)) eqn:T; [| easy]. exfalso. unfold test_closure in T. rewrite visits_cell, forallb_forall in T. specialize (T (h (swap (a, b)))). rewrite count_map in T. assert (K : In (h (swap (a, b))) (map h (edges l))) by (apply in_map_iff; now exists (swap (a, b))). specialize (T K). apply Nat.eqb_eq in T.
    assert (LE : length (filter (fun e => Nat.eqb (h e) (h (swap (a, b)))) (edges l)) <= length [swap (a, b)]); [| cbn [length] in LE; lia].
    cbn [flat_map] in B. apply NoDup_incl_length.
    + apply NoDup_filter. apply (Permutation_NoDup (Permutation_app_comm _ _)), nodup_left in B. exact B.
    + intros y IY. apply filter_In in IY as (IY & E). apply Nat.eqb_eq in E. apply (handle_iff h H) in E as [-> | ->]; [now left |]. exfalso. now apply (nodup_both _ _ _ (a, b) B).
Qed.
(** Handles of edges by the triangular order of pairs. *)
Definition ex_handle (e : nat * nat) : nat := let m := Nat.max (fst e) (snd e) in m * (m + 1) + Nat.min (fst e) (snd e).
Lemma ex_handles : edge_handles ex_handle.
Proof.
  intros a b c d. unfold ex_handle. cbv zeta. cbn [fst snd]. split; [| intros [(-> & ->) | (-> & ->)]; [easy | now rewrite Nat.max_comm, Nat.min_comm]].
  assert (Q : forall m n p q, n <= m -> q <= p -> m * (m + 1) + n = p * (p + 1) + q -> m = p /\ n = q).
  { intros m n p q L1 L2 E. assert (m = p) as -> by (destruct (Nat.lt_trichotomy m p) as [LT | [-> | LT]]; [exfalso; nia | easy | exfalso; nia]). split; [easy | lia]. }
  intros E. apply Q in E; lia.
Qed.
(** Six quadrilaterals with six nodes: closed, at most one common edge, but not a hexahedron; the nodes can not be restored. *)
Definition ex_six : list face := map (fun l => (l, true)) [[0;1;2;3]; [1;0;2;4]; [4;2;1;3]; [3;1;4;5]; [4;3;2;5]; [2;0;3;5]].
Theorem C180_hex_refuted : surface (map outward ex_six) /\ (forall (h : nat * nat -> nat) (test : bool), edge_handles h -> cell_type test (cell_of h test (map outward ex_six)) = GHex) /\
  (forall nodes, ~ has_shape Hex ex_six nodes) /\ restore Hex ex_six = None.
Proof.
  assert (SF : surface (map outward ex_six)).
  { split; [| split].
    - repeat (constructor; [split; [cbn; lia | repeat constructor; cbn; lia] |]). constructor.
    - apply pairs_distinct_sound. reflexivity.
    - unfold closed. apply NoDup_Permutation_bis; [apply pairs_distinct_sound; reflexivity | cbn; lia |]. set (l := flat_map loop_edges (map outward ex_six)). assert (B : forallb (fun e => pair_in e (map (fun e => (snd e, fst e)) l)) l = true) by reflexivity. rewrite forallb_forall in B. intros e I. apply pair_in_iff. now apply B. }
  split; [easy |]. split; [| split].
  - intros h test H. rewrite (cell_spec h test _ H SF) by easy. assert (CH : check (cell_of h test (map outward ex_six)) = true) by (apply (check_near h test _ H); [apply SF |]; apply all_near_sound; reflexivity).
    rewrite CH. destruct (count_faces h test (map outward ex_six)) as (C3 & C4); [apply SF |]. unfold polyhedron. rewrite C3, C4. reflexivity.
  - intros nodes (N & L & SS). assert (IC : incl nodes (seq 0 6)).
    { intros x I. apply In_nth with (d := 0) in I as (i & LI & <-). rewrite L in LI. cbn [shape_size] in LI.
      assert (exists t, In t (shape_loops Hex) /\ In i t) as (t & IT & J). { do 8 (destruct i as [| i]; [first [exists [0;4;7;3]; split; cbn; tauto | exists [1;2;6;5]; split; cbn; tauto] |]). lia. }
      destruct (surface_in_r _ _ (map (pick nodes) t) SS) as (y & IY & R); [unfold shape_faces; now apply in_map |]. apply (in_map (pick nodes)) in J. apply (Permutation_in _ (Permutation_sym (rotated_perm _ _ R))) in J. apply in_seq. unfold pick in J at 1.
      cbn [ex_six map outward snd fst In] in IY. repeat (destruct IY as [<- | IY]; [cbn [In] in J; lia |]). easy. }
    apply NoDup_incl_length in IC; [| easy]. rewrite L, seq_length in IC. cbn in IC. lia.
  - reflexivity.
Qed.
Example C180_nonvacuous : edge_handles ex_handle /\ surface (map outward ex_hex) /\ length (nodes_of (map outward ex_hex)) = 8 /\
  cell_type true (cell_of ex_handle true (map outward ex_hex)) = GHex /\ cell_type true (cell_of ex_handle true (map outward ex_wedge)) = GPrism /\ surface (map outward ex_wedge) /\
  cell_type false (cell_of ex_handle false (tl (map outward ex_wedge))) = GPolyhedron /\ cell_type true (cell_of ex_handle true (tl (map outward ex_wedge))) = GMultiPolygon.
Proof.
  destruct C177_nonvacuous as (HX & _ & HW & _). destruct (C180_known ex_handle true Hex _ _ ex_handles HX) as (S1 & T1). destruct (C180_known ex_handle true Wedge _ _ ex_handles HW) as (S2 & T2).
  split; [apply ex_handles |]. split; [easy |]. split; [reflexivity |]. split; [easy |]. split; [easy |]. split; [easy |]. split; reflexivity.
Qed.
(** So the nodes of every closed cell of these types are restored without failure, and the cell can be written to a VTK file. *)
Theorem C180_restored : forall (h : nat * nat -> nat) (test : bool) (fs : list face) (s : shape), edge_handles h -> surface (map outward fs) ->
  s = Tet \/ s = Wedge \/ s = Pyramid \/ s = Hex /\ length (nodes_of (map outward fs)) = 8 -> cell_type test (cell_of h test (map outward fs)) = type_of s ->
  exists r, restore s fs = Some r /\ Permutation (nodes_of (map outward fs)) r /\ proper (Simple s fs).
Proof.
  intros h test fs s H SF LS T. assert (Q : exists nodes, has_shape s fs nodes) by (destruct LS as [-> | [-> | [-> | (-> & L8)]]]; [apply (C180_shape h test); auto | apply (C180_shape h test); auto | apply (C180_shape h test); auto | now apply (C180_hex h test)]).
  destruct Q as (nodes & HS). pose proof HS as (N & L & SS). assert (LI : listed s) by (unfold listed; tauto). destruct (restore_any s nodes fs LI N L SS) as (r & R & P & _ & _). exists r. split; [easy |]. split; [| split; [tauto | now exists nodes]].
  apply (Permutation_trans (l' := nodes)); [| easy]. apply NoDup_Permutation; [apply NoDup_nodup | easy |]. intros x. unfold nodes_of. rewrite nodup_In. rewrite <- (in_shape s nodes L x). clear - SS. split; intros I; apply in_concat in I as (y & IY & I); apply in_concat.
  - destruct (surface_in_l _ _ y SS IY) as (z & IZ & RT). exists z. split; [easy |]. now apply (Permutation_in _ (rotated_perm _ _ RT)).
  - destruct (surface_in_r _ _ y SS IY) as (z & IZ & RT). exists z. split; [easy |]. now apply (Permutation_in _ (Permutation_sym (rotated_perm _ _ RT))).
Qed.
Print Assumptions C180_restored.
(** Faces: the type of a closed loop of edges is given by the number of its nodes. *)
Theorem C180_face : forall (test : bool) (f : loop), NoDup f -> f <> [] ->
  (face_of test f = GTri <-> length f = 3) /\ (face_of test f = GQuad <-> length f = 4) /\ (face_of test f = GPolygon <-> length f <> 3 /\ length f <> 4).
Proof.
  intros test f N NE. rewrite (face_of_spec test f N NE). destruct (Nat.eqb_spec (length f) 3); [| destruct (Nat.eqb_spec (length f) 4)]; repeat split; intros; try easy; try lia; congruence.
Qed.
Print Assumptions C180_face.
Print Assumptions C180_shape.
Print Assumptions C180_hex.
Print Assumptions C180_known.
Print Assumptions C180_missing.
Print Assumptions C180_hex_refuted.
