(** C62 (views), C63 (writing through views), C64 (assignment), C65 (storage). *)
From Coq Require Import List Arith Lia Bool Field QArith Qcanon.
From Verif Require Import OField Util Dense_Model Dense_Spec Dense_Proofs DenseView_Proofs DenseLaw_Proofs DenseBad_Proofs.
Import ListNotations.
Open Scope nat_scope.

Section Props.
Variable F : ofield.
Add Field Ff2 : (fth F).
Notation mtx := (mtx F).
Notation store := (store F).
Notation view := (view F).
Notation rd := (read F).

(** * C62 *)

(** Every entry of a properly formed view can be read. *)
Theorem C62_every_entry_readable : forall s v, stored_all F s -> proper F s v ->
  forall i j, i < rows F s v -> j < cols F s v -> exists a, rd s v i j = Some a.
Proof. exact (read_total F). Qed.

(** Transposing: twice is nothing, and it turns rows into columns. *)
Theorem C62_transpose : forall s v,
  rows F s (Tr F v) = cols F s v /\ cols F s (Tr F v) = rows F s v /\
  (forall i j, rd s (Tr F v) i j = rd s v j i) /\ shows F s (Tr F (Tr F v)) v.
Proof. intros s v. split; [reflexivity|split; [reflexivity|split; [reflexivity|apply tr_tr]]]. Qed.

(** The parts of a concatenation are the arguments. *)
Theorem C62_parts_of_concatenation : forall s v w,
  (cols F s v = cols F s w ->
    shows F s (Sub F (CatRows F v w) 0 (rows F s v) 0 (cols F s v)) v /\
    shows F s (Sub F (CatRows F v w) (rows F s v) (rows F s v + rows F s w) 0 (cols F s v)) w) /\
  (rows F s v = rows F s w ->
    shows F s (Sub F (CatCols F v w) 0 (rows F s v) 0 (cols F s v)) v /\
    shows F s (Sub F (CatCols F v w) 0 (rows F s v) (cols F s v) (cols F s v + cols F s w)) w) /\
  shows F s (Tr F (CatRows F v w)) (CatCols F (Tr F v) (Tr F w)).
Proof. intros s v w. split; [apply sub_cat_rows|split; [apply sub_cat_cols|apply tr_cat]]. Qed.

(** Concatenating the parts gives the whole. *)
Theorem C62_concatenation_of_parts : forall s v k,
  (k <= rows F s v -> shows F s (CatRows F (Sub F v 0 k 0 (cols F s v)) (Sub F v k (rows F s v) 0 (cols F s v))) v) /\
  (k <= cols F s v -> shows F s (CatCols F (Sub F v 0 (rows F s v) 0 k) (Sub F v 0 (rows F s v) k (cols F s v))) v).
Proof. intros s v k. split; [apply cat_sub_rows|apply cat_sub_cols]. Qed.

(** A block shows its argument at the offset and zero elsewhere. *)
Theorem C62_block : forall s v nr nc r c, r + rows F s v <= nr -> c + cols F s v <= nc ->
  shows F s (Sub F (Block F v nr nc r c) r (r + rows F s v) c (c + cols F s v)) v /\
  forall i j, i < nr -> j < nc -> ~ (r <= i < r + rows F s v /\ c <= j < c + cols F s v) -> rd s (Block F v nr nc r c) i j = Some f0.
Proof. exact (sub_block F). Qed.

(** A part of a part. *)
Theorem C62_part_of_part : forall s v r0 r1 c0 c1 p0 p1 q0 q1, p0 <= p1 <= r1 - r0 -> q0 <= q1 <= c1 - c0 ->
  shows F s (Sub F (Sub F v r0 r1 c0 c1) p0 p1 q0 q1) (Sub F v (r0 + p0) (r0 + p1) (c0 + q0) (c0 + q1)).
Proof. exact (sub_sub F). Qed.

(** Repack keeps the entries row by row, and can be undone. *)
Theorem C62_repack : forall s v n m, rows F s v * cols F s v = n * m ->
  rows F s (Repack F v n m) = n /\ cols F s (Repack F v n m) = m /\
  row_list F s (Repack F v n m) = row_list F s v /\
  shows F s (Repack F (Repack F v n m) (rows F s v) (cols F s v)) v.
Proof. intros s v n m E. split; [reflexivity|split; [reflexivity|split; [now apply row_list_repack|now apply repack_back]]]. Qed.

(** A matrix variable shows its array row by row. *)
Theorem C62_matrix_order : forall s x, stored F (sm F s x) -> row_list F s (Whole F x) = map Some (sp F (sm F s x)).
Proof. exact (row_list_whole F). Qed.

(** Sums, differences, negation and scaling act entry by entry. *)
Theorem C62_entrywise : forall s v w c a b k i j, rd s v i j = Some a -> rd s w i j = Some b -> read_coef F s c = Some k ->
  rd s (Sum F v w) i j = Some (fadd a b) /\ rd s (Diff F v w) i j = Some (fsub a b) /\ rd s (Neg F v) i j = Some (fopp a) /\
  rd s (Scale F v c) i j = Some (fmul a k) /\ rd s (DivBy F v c) i j = Some (fdiv a k).
Proof. intros s v w c a b k i j Ha Hb Hk. cbn [read]. rewrite Ha, Hb, Hk. repeat split. Qed.

(** The product has the entries of the matrix product. *)
Theorem C62_product : forall s v w, stored_all F s -> proper F s v -> proper F s w -> cols F s v = rows F s w -> 0 < cols F s v ->
  exists p, product F s v w = Some p /\ rows F s p = rows F s v /\ cols F s p = cols F s w /\
    forall i k, i < rows F s v -> k < cols F s w -> rd s p i k = Some (fsum (cols F s v) (fun j => fmul (val F s v i j) (val F s w j k))).
Proof.
  intros s v w St P Q E L. destruct (product_spec F s v w St P Q E L) as [f [H Hf]].
  eexists. split; [exact H|split; [reflexivity|split; [reflexivity|]]]. intros i k Li Lk. cbn [read].
  rewrite (proj2 (Nat.ltb_lt _ _) Li), (proj2 (Nat.ltb_lt _ _) Lk). cbn [andb]. now rewrite Hf.
Qed.

(** The transpose of a product. *)
Theorem C62_transpose_of_product : forall s v w, stored_all F s -> proper F s v -> proper F s w -> cols F s v = rows F s w -> 0 < cols F s v ->
  exists p q, product F s v w = Some p /\ product F s (Tr F w) (Tr F v) = Some q /\ shows F s (Tr F p) q.
Proof. exact (tr_product F). Qed.

(** The Kronecker product of products. *)
Theorem C62_kronecker : forall s v w v' w', stored_all F s -> proper F s v -> proper F s w -> proper F s v' -> proper F s w' ->
  cols F s v = rows F s v' -> cols F s w = rows F s w' -> 0 < cols F s v -> 0 < cols F s w ->
  exists p q r, product F s (Kron F v w) (Kron F v' w') = Some p /\ product F s v v' = Some q /\ product F s w w' = Some r /\
    shows F s p (Kron F q r).
Proof. exact (kron_product F). Qed.

(** * C63 *)

(** Writing through a window changes that entry of the window and no other. *)
Theorem C63_write_then_read : forall s v i j a, stored_all F s -> proper F s v -> window F v -> i < rows F s v -> j < cols F s v ->
  exists s', write F s v i j a = Some s' /\ same_shape F s s' /\ stored_all F s' /\
    rd s' v i j = Some a /\
    forall k l, k < rows F s v -> l < cols F s v -> (k, l) <> (i, j) -> rd s' v k l = rd s v k l.
Proof.
  intros s v i j a St P W Li Lj. destruct (write_spec F s v i j a St P W Li Lj) as [s' [E [Sh [St' [_ [R _]]]]]].
  exists s'. split; [exact E|split; [exact Sh|split; [exact St'|split]]].
  - rewrite R by assumption. now rewrite !Nat.eqb_refl.
  - intros k l Lk Ll N. rewrite R by assumption. destruct (Nat.eqb_spec k i) as [->|]; cbn [andb]; [|reflexivity].
    destruct (Nat.eqb_spec l j) as [->|]; [congruence|reflexivity].
Qed.

(** It changes exactly one entry of one matrix that the window is on. *)
Theorem C63_writes_one_entry : forall s v i j a, stored_all F s -> proper F s v -> window F v -> i < rows F s v -> j < cols F s v ->
  exists s' x k l, write F s v i j a = Some s' /\ uses F x v /\
    get F (sm F s x) k l = rd s v i j /\ get F (sm F s' x) k l = Some a /\
    forall y k' l', (y, k', l') <> (x, k, l) -> get F (sm F s' y) k' l' = get F (sm F s y) k' l'.
Proof.
  intros s v i j a St P W Li Lj. destruct (write_spec F s v i j a St P W Li Lj) as [s' [E [Sh [St' [_ [R [x [k [l [U [Lk [Ll [Ad Fe]]]]]]]]]]]]].
  exists s', x, k, l. split; [exact E|split; [exact U|split; [|split]]].
  - rewrite (read_addr F s v W i j _ Ad). reflexivity.
  - specialize (Fe (Cell x k l)). cbn [fetch] in Fe. rewrite Fe. destruct (place_eqb_spec (Cell x k l) (Cell x k l)); [reflexivity|congruence].
  - intros y k' l' N. specialize (Fe (Cell y k' l')). cbn [fetch] in Fe. rewrite Fe.
    destruct (place_eqb_spec (Cell y k' l') (Cell x k l)) as [Eq|]; [|reflexivity]. exfalso. apply N. congruence.
Qed.

(** Different entries of a window are different entries of the matrices. *)
Theorem C63_entries_distinct : forall s v i j i' j' a b, stored_all F s -> proper F s v -> window F v ->
  i < rows F s v -> j < cols F s v -> i' < rows F s v -> j' < cols F s v -> (i, j) <> (i', j') ->
  exists s1 s2, write F s v i j a = Some s1 /\ write F s1 v i' j' b = Some s2 /\ rd s2 v i j = Some a /\ rd s2 v i' j' = Some b.
Proof.
  intros s v i j i' j' a b St P W Li Lj Li' Lj' N.
  destruct (C63_write_then_read s v i j a St P W Li Lj) as [s1 [E1 [Sh1 [St1 [R1 _]]]]].
  destruct (C63_write_then_read s1 v i' j' b St1) as [s2 [E2 [Sh2 [St2 [R2 O2]]]]];
    rewrite ?(rows_shape F s s1), ?(cols_shape F s s1) by exact Sh1; try assumption.
  - now apply (proper_shape F s).
  - exists s1, s2. split; [exact E1|split; [exact E2|split; [|exact R2]]].
    rewrite O2; [exact R1| | |congruence]; rewrite ?(rows_shape F s s1), ?(cols_shape F s s1) by exact Sh1; assumption.
Qed.

(** Outside of its argument, a block is not a window: what is written to one entry
    is found in all such entries of all blocks. *)
Theorem C63_block_outside_shared : forall s v nr nc r c i j a v' nr' nc' r' c' i' j',
  i < nr -> j < nc -> ~ (r <= i < r + rows F s v /\ c <= j < c + cols F s v) ->
  i' < nr' -> j' < nc' -> ~ (r' <= i' < r' + rows F s v' /\ c' <= j' < c' + cols F s v') ->
  exists s' p, write F s (Block F v nr nc r c) i j a = Some s' /\
    addr F s' (Block F v' nr' nc' r' c') i' j' = Some p /\ fetch F s' p = Some a /\
    rd s' (Block F v' nr' nc' r' c') i' j' = Some f0.
Proof.
  intros s v nr nc r c i j a v' nr' nc' r' c' i' j' Li Lj N Li' Lj' N'.
  assert (B : forall s v nr nc r c i j, i < nr -> j < nc -> ~ (r <= i < r + rows F s v /\ c <= j < c + cols F s v) ->
    addr F s (Block F v nr nc r c) i j = Some Zero /\ rd s (Block F v nr nc r c) i j = Some f0).
  { clear. intros s v nr nc r c i j Li Lj N. cbn [addr read].
    rewrite (proj2 (Nat.ltb_lt _ _) Li), (proj2 (Nat.ltb_lt _ _) Lj). cbn [andb].
    destruct (Nat.ltb_spec i r); cbn [orb]; [split; reflexivity|].
    destruct (Nat.leb_spec (r + rows F s v) i); cbn [orb]; [split; reflexivity|].
    destruct (Nat.ltb_spec j c); cbn [orb]; [split; reflexivity|].
    destruct (Nat.leb_spec (c + cols F s v) j); cbn [orb]; [split; reflexivity|lia]. }
  exists (mk_store F (sm F s) a), Zero. unfold write. rewrite (proj1 (B s v nr nc r c i j Li Lj N)).
  split; [reflexivity|].
  destruct (B (mk_store F (sm F s) a) v' nr' nc' r' c' i' j' Li' Lj') as [H1 H2].
  - rewrite (rows_shape F s (mk_store F (sm F s) a)), (cols_shape F s (mk_store F (sm F s) a)) by (intro y; split; reflexivity). exact N'.
  - split; [exact H1|split; [reflexivity|exact H2]].
Qed.

(** * C64 *)

(** Assignment to a matrix: it takes the size and the values that the right hand
    side had, if it is not on the right hand side, or if the size stays and no
    entry of the right hand side is overtaken. *)
Theorem C64_assign_matrix : forall x v s, stored_all F s -> proper F s v ->
  (~ uses F x v \/ (rows F s v = mr F (sm F s x) /\ cols F s v = mc F (sm F s x) /\ no_overtaking F s (Whole F x) v)) ->
  exists s', assign_mtx F x v s = Some s' /\ stored_all F s' /\
    mr F (sm F s' x) = rows F s v /\ mc F (sm F s' x) = cols F s v /\
    (forall i j, i < rows F s v -> j < cols F s v -> get F (sm F s' x) i j = rd s v i j) /\
    (forall y, y <> x -> mr F (sm F s' y) = mr F (sm F s y) /\ mc F (sm F s' y) = mc F (sm F s y) /\
       forall i j, get F (sm F s' y) i j = get F (sm F s y) i j).
Proof. exact (assign_mtx_spec F). Qed.

(** A = A + B and the like. *)
Theorem C64_entrywise_in_place : forall x v s, stored_all F s -> proper F s v -> aligned F x v ->
  rows F s v = mr F (sm F s x) -> cols F s v = mc F (sm F s x) ->
  exists s', assign_mtx F x v s = Some s' /\
    forall i j, i < rows F s v -> j < cols F s v -> get F (sm F s' x) i j = rd s v i j.
Proof.
  intros x v s St P Al Er Ec. destruct (C64_assign_matrix x v s St P) as [s' [E [_ [_ [_ [H _]]]]]].
  - right. split; [exact Er|split; [exact Ec|now apply aligned_ok]].
  - exists s'. split; [exact E|exact H].
Qed.

(** A = A * B: the product is computed before. *)
Theorem C64_product_in_place : forall x w s, stored_all F s -> proper F s w -> mc F (sm F s x) = rows F s w -> 0 < mc F (sm F s x) ->
  exists p s', product F s (Whole F x) w = Some p /\ assign_mtx F x p s = Some s' /\
    mr F (sm F s' x) = mr F (sm F s x) /\ mc F (sm F s' x) = cols F s w /\
    forall i k, i < mr F (sm F s x) -> k < cols F s w ->
      get F (sm F s' x) i k = Some (fsum (mc F (sm F s x)) (fun j => fmul (val F s (Whole F x) i j) (val F s w j k))).
Proof.
  intros x w s St P E L. destruct (product_spec F s (Whole F x) w St I P E L) as [f [H Hf]].
  rewrite rows_Whole, cols_Whole in *. exists (Lit F (mr F (sm F s x)) (cols F s w) f).
  destruct (C64_assign_matrix x (Lit F (mr F (sm F s x)) (cols F s w) f) s St I) as [s' [Ea [_ [Er [Ec [G _]]]]]]; [left; cbn [uses]; tauto|].
  rewrite rows_Lit, cols_Lit in *. exists s'. split; [exact H|split; [exact Ea|split; [exact Er|split; [exact Ec|]]]].
  intros i k Li Lk. rewrite G by assumption. cbn [read]. rewrite (proj2 (Nat.ltb_lt _ _) Li), (proj2 (Nat.ltb_lt _ _) Lk). cbn [andb]. now rewrite Hf.
Qed.

(** x = y for two matrices. *)
Theorem C64_copy_matrix : forall x y s, stored_all F s ->
  exists s', assign_same F x y s = Some s' /\ stored_all F s' /\ sm F s' x = sm F s y /\ forall z, z <> x -> sm F s' z = sm F s z.
Proof.
  intros x y s St. destruct (assign_same_spec F x y s St) as [s' [E [St' [O H]]]]. exists s'. auto.
Qed.

(** Assignment to a window, and what it leaves alone. *)
Theorem C64_assign_window : forall s t v, stored_all F s -> proper F s t -> window F t -> proper F s v ->
  rows F s t = rows F s v -> cols F s t = cols F s v -> no_overtaking F s t v ->
  exists s', assign_view F t v s = Some s' /\ same_shape F s s' /\ stored_all F s' /\
    (forall i j, i < rows F s v -> j < cols F s v -> rd s' t i j = rd s v i j) /\
    (forall w k l, (forall i j, i < rows F s v -> j < cols F s v -> unaffected F s w k l t i j) -> rd s' w k l = rd s w k l).
Proof.
  intros s t v St Pt Wt Pv Er Ec N. unfold assign_view. rewrite (proj2 (Nat.eqb_eq _ _) Er), (proj2 (Nat.eqb_eq _ _) Ec). cbn [andb].
  destruct (copy_loop_spec F s t v St Pt Wt Pv Er Ec N) as [s' [E [Sh [St' [H1 H2]]]]]. exists s'. auto.
Qed.

(** += and -= on a window. *)
Theorem C64_update_window : forall op s t v, stored_all F s -> proper F s t -> window F t -> proper F s v ->
  rows F s t = rows F s v -> cols F s t = cols F s v -> no_overtaking F s t v ->
  exists s', update_view F op t v s = Some s' /\ same_shape F s s' /\ stored_all F s' /\
    (forall i j a b, i < rows F s v -> j < cols F s v -> rd s t i j = Some a -> rd s v i j = Some b -> rd s' t i j = Some (op a b)) /\
    (forall w k l, (forall i j, i < rows F s v -> j < cols F s v -> unaffected F s w k l t i j) -> rd s' w k l = rd s w k l).
Proof.
  intros op s t v St Pt Wt Pv Er Ec N.
  destruct (update_spec F op s t v St Pt Wt Pv Er Ec N) as [s' [E [Sh [St' [H1 H2]]]]].
  exists s'. split; [exact E|split; [exact Sh|split; [exact St'|split; [|exact H2]]]].
  intros i j a b Li Lj Ha Hb. rewrite H1 by assumption. now rewrite Ha, Hb.
Qed.

(** Sizes that differ are refused. *)
Theorem C64_sizes_checked : forall op s t v, rows F s t <> rows F s v \/ cols F s t <> cols F s v ->
  assign_view F t v s = None /\ update_view F op t v s = None.
Proof.
  intros op s t v H. unfold assign_view, update_view.
  assert (E : (rows F s t =? rows F s v) && (cols F s t =? cols F s v) = false).
  { destruct (Nat.eqb_spec (rows F s t) (rows F s v)); destruct (Nat.eqb_spec (cols F s t) (cols F s v)); try reflexivity. tauto. }
  rewrite E. split; reflexivity.
Qed.

(** When is nothing overtaken: no common matrix, ... *)
Theorem C64_apart : forall s t v, (forall x, ~ (uses F x t /\ uses F x v)) -> no_overtaking F s t v.
Proof. intros s t v D i j i' j' _ _ _ _ _. now apply unaffected_apart. Qed.

(** ... or two parts of one matrix of which the target starts first. *)
Theorem C64_overlapping_parts : forall s x r0 r1 c0 c1 p0 p1 q0 q1,
  r0 < p0 \/ (r0 = p0 /\ c0 <= q0) ->
  no_overtaking F s (Sub F (Whole F x) r0 r1 c0 c1) (Sub F (Whole F x) p0 p1 q0 q1).
Proof. exact (overlap_ok F). Qed.

(** A = A.Transpose() on a square matrix: the lower triangle is written to both sides. *)
Theorem C64_transpose_in_place : forall x s, stored_all F s -> mr F (sm F s x) = mc F (sm F s x) ->
  exists s', assign_mtx F x (Tr F (Whole F x)) s = Some s' /\ same_shape F s s' /\
    forall i j, i < mr F (sm F s x) -> j < mr F (sm F s x) -> get F (sm F s' x) i j = get F (sm F s x) (max i j) (min i j).
Proof. exact (assign_tr F). Qed.

(** It is the transpose only if the matrix was symmetric. *)
Theorem C64_transpose_in_place_refuted : forall x s, stored_all F s -> mr F (sm F s x) = mc F (sm F s x) ->
  exists s', assign_mtx F x (Tr F (Whole F x)) s = Some s' /\
    ((forall i j, i < mr F (sm F s x) -> j < mr F (sm F s x) -> get F (sm F s' x) i j = rd s (Tr F (Whole F x)) i j) <->
     (forall i j, i < mr F (sm F s x) -> j < mr F (sm F s x) -> get F (sm F s x) i j = get F (sm F s x) j i)).
Proof.
  intros x s St Sq. destruct (assign_tr F x s St Sq) as [s' [E [_ H]]]. exists s'. split; [exact E|]. cbn [read]. split.
  - intros T i j Li Lj. destruct (Nat.le_ge_cases i j) as [L|L].
    + specialize (T j i Lj Li). rewrite H in T by assumption. rewrite Nat.max_l, Nat.min_r in T by lia. now symmetry.
    + specialize (T i j Li Lj). rewrite H in T by assumption. rewrite Nat.max_l, Nat.min_r in T by lia. exact T.
  - intros Sy i j Li Lj. rewrite H by assumption. destruct (Nat.le_ge_cases i j) as [L|L].
    + rewrite Nat.max_r, Nat.min_l by lia. reflexivity.
    + rewrite Nat.max_l, Nat.min_r by lia. now apply Sy.
Qed.

(** Other matrices never get the size of the transpose. *)
Theorem C64_transpose_size_refuted : forall x s s', assign_mtx F x (Tr F (Whole F x)) s = Some s' ->
  mr F (sm F s' x) = mc F (sm F s x) /\ mc F (sm F s' x) = mc F (sm F s x).
Proof. exact (assign_tr_size F). Qed.

(** A += A.Transpose(): below the diagonal the sum is taken with the new entry. *)
Theorem C64_update_transpose_refuted : forall x s, stored_all F s -> mr F (sm F s x) = mc F (sm F s x) ->
  exists s', update_view F fadd (Whole F x) (Tr F (Whole F x)) s = Some s' /\
    forall i j a b, i < mr F (sm F s x) -> j < mr F (sm F s x) -> get F (sm F s x) i j = Some a -> get F (sm F s x) j i = Some b ->
      get F (sm F s' x) i j = Some (if i <=? j then fadd a b else fadd (fadd a b) a).
Proof.
  intros x s St Sq. destruct (update_tr F fadd x s St Sq) as [s' [E [_ H]]]. exists s'. split; [exact E|].
  intros i j a b Li Lj Ha Hb. rewrite (H i j a b Li Lj Ha Hb). destruct (i <=? j); [reflexivity|]. f_equal. ring.
Qed.

(** A = A / A(r,c): the entries after (r,c) are divided by one, they stay as they are. *)
Theorem C64_divide_by_entry_refuted : forall x r c s b, stored_all F s -> get F (sm F s x) r c = Some b -> b <> f0 ->
  exists s', assign_mtx F x (DivBy F (Whole F x) (Entry F x r c)) s = Some s' /\
    forall i j a, get F (sm F s x) i j = Some a ->
      (earlier r c i j -> get F (sm F s' x) i j = Some a) /\
      (~ earlier r c i j -> get F (sm F s' x) i j = Some (fdiv a b)).
Proof.
  intros x r c s b St Hb Nb. destruct (get_range _ _ _ _ _ Hb) as [Lr Lc].
  destruct (assign_coef F fdiv x r c s _ St Lr Lc (or_intror (conj eq_refl eq_refl))) as [s' [E [_ H]]].
  exists s'. split; [exact E|]. intros i j a Ha. rewrite (H i j a b Ha Hb).
  destruct (earlierb_spec r c i j); split; intro; try contradiction; [|reflexivity]. f_equal. field. split; [exact Nb|exact (pos_neq F _ (f1_pos F))].
Qed.

(** A = A * A(r,c): the entries after (r,c) are multiplied twice. *)
Theorem C64_multiply_by_entry_refuted : forall x r c s b, stored_all F s -> get F (sm F s x) r c = Some b ->
  exists s', assign_mtx F x (Scale F (Whole F x) (Entry F x r c)) s = Some s' /\
    forall i j a, get F (sm F s x) i j = Some a ->
      (earlier r c i j -> get F (sm F s' x) i j = Some (fmul a (fmul b b))) /\
      (~ earlier r c i j -> get F (sm F s' x) i j = Some (fmul a b)).
Proof.
  intros x r c s b St Hb. destruct (get_range _ _ _ _ _ Hb) as [Lr Lc].
  destruct (assign_coef F fmul x r c s _ St Lr Lc (or_introl (conj eq_refl eq_refl))) as [s' [E [_ H]]].
  exists s'. split; [exact E|]. intros i j a Ha. rewrite (H i j a b Ha Hb).
  destruct (earlierb_spec r c i j); split; intro; try contradiction; reflexivity.
Qed.

(** Moving all rows down by one inside of a matrix makes them all equal to the first. *)
Theorem C64_shift_down_refuted : forall x s, stored_all F s -> 0 < mr F (sm F s x) ->
  exists s', assign_view F (Sub F (Whole F x) 1 (mr F (sm F s x)) 0 (mc F (sm F s x)))
                           (Sub F (Whole F x) 0 (mr F (sm F s x) - 1) 0 (mc F (sm F s x))) s = Some s' /\
    forall i j, i < mr F (sm F s x) -> j < mc F (sm F s x) -> get F (sm F s' x) i j = get F (sm F s x) 0 j.
Proof. intros x s St L. destruct (shift_down F x s St L) as [s' [E [_ H]]]. exists s'. split; [exact E|exact H]. Qed.

(** * C65 *)

(** Removing rows, columns, or both keeps the others in order. *)
Theorem C65_remove_rows : forall first last A, stored F A -> first < mr F A -> last <= mr F A -> first <= last ->
  exists A', remove_rows F first last A = Some A' /\ stored F A' /\ mr F A' = mr F A - (last - first) /\ mc F A' = mc F A /\
    forall a b, a < mr F A' -> get F A' a b = get F A (if a <? first then a else a + (last - first)) b.
Proof. exact (remove_rows_spec F). Qed.

Theorem C65_remove_row : forall row A, stored F A -> row < mr F A ->
  exists A', remove_row F row A = Some A' /\ stored F A' /\ mr F A' = mr F A - 1 /\ mc F A' = mc F A /\
    forall a b, a < mr F A' -> get F A' a b = get F A (if a <? row then a else a + 1) b.
Proof.
  intros row A St L. rewrite remove_row_eq by exact L.
  destruct (remove_rows_spec F row (S row) A St) as [A' H]; [lia|lia|lia|]. exists A'. replace (S row - row) with 1 in H by lia. exact H.
Qed.

Theorem C65_remove_columns : forall fc lc A, stored F A -> fc < mc F A -> lc <= mc F A -> fc <= lc ->
  exists A', remove_cols F fc lc A = Some A' /\ stored F A' /\ mr F A' = mr F A /\ mc F A' = mc F A - (lc - fc) /\
    forall a b, a < mr F A' -> b < mc F A' -> get F A' a b = get F A a (if b <? fc then b else b + (lc - fc)).
Proof. exact (remove_cols_spec F). Qed.

Theorem C65_remove_subset : forall fr lr fc lc A, stored F A -> fr <= lr -> lr <= mr F A -> fc <= lc -> lc <= mc F A ->
  exists A', remove_subset F fr lr fc lc A = Some A' /\ stored F A' /\
    mr F A' = mr F A - (lr - fr) /\ mc F A' = mc F A - (lc - fc) /\
    forall a b, a < mr F A' -> b < mc F A' ->
      get F A' a b = get F A (if a <? fr then a else a + (lr - fr)) (if b <? fc then b else b + (lc - fc)).
Proof. exact (remove_subset_spec F). Qed.

(** The n(n+1)/2 places of a symmetric matrix are in one-to-one correspondence
    with the unordered pairs of indices. *)
Theorem C65_symmetric_places : forall n,
  (forall i j, i < n -> j < n -> sym_index n i j < n * (n + 1) / 2 /\ sym_index n i j = sym_index n j i) /\
  (forall i j k l, i < n -> j < n -> k < n -> l < n -> sym_index n i j = sym_index n k l -> (i = k /\ j = l) \/ (i = l /\ j = k)) /\
  (forall p, p < n * (n + 1) / 2 -> exists i j, i <= j < n /\ sym_index n i j = p).
Proof.
  intro n. split; [|split].
  - intros i j Li Lj. split; [now apply index_bound|apply index_sym].
  - apply index_inj.
  - apply index_onto.
Qed.

(** Writing (i,j) changes (i,j) and (j,i) and nothing else. *)
Theorem C65_symmetric_write : forall A i j v, length (ssp F A) = sn F A * (sn F A + 1) / 2 -> i < sn F A -> j < sn F A ->
  exists A', sym_set F A i j v = Some A' /\ sn F A' = sn F A /\
  forall k l, k < sn F A -> l < sn F A ->
    sym_get F A' k l = if ((k =? i) && (l =? j)) || ((k =? j) && (l =? i)) then Some v else sym_get F A k l.
Proof.
  intros A i j v St Li Lj. destruct (sym_set_spec F A i j v St Li Lj) as [A' [E [_ [H1 H2]]]]. exists A'. auto.
Qed.

(** Construction from another matrix takes the upper triangle. *)
Theorem C65_symmetric_from : forall n rd, (forall i j, i <= j < n -> rd i j <> None) ->
  exists A, sym_from F n rd = Some A /\ sn F A = n /\ length (ssp F A) = n * (n + 1) / 2 /\
  forall i j, i < n -> j < n -> sym_get F A i j = rd (min i j) (max i j).
Proof.
  intros n rd H. destruct (sym_from_spec F n rd H) as [A [E [H1 [H2 H3]]]]. exists A.
  split; [exact E|split; [exact H2|split; [|exact H3]]]. rewrite <- H2. exact H1.
Qed.

End Props.

(** * Examples, with rational entries *)
Open Scope Q_scope.
Definition q (z : Z) : Qc_ofield := Q2Qc (inject_Z z).
Notation mk := (mk_mtx Qc_ofield).
Definition ex_store : store Qc_ofield := mk_store Qc_ofield (fun x =>
  match x with
  | 0%nat => mk 2 2 (map q [2; 3; 5; 7]%Z)
  | 1%nat => mk 2 3 (map q [1; 2; 3; 4; 5; 6]%Z)
  | 2%nat => mk 3 3 (map q [1; 2; 3; 4; 5; 6; 7; 8; 9]%Z)
  | _ => mk 0 0 []
  end) (q 0).
Definition show (A : mtx Qc_ofield) : nat * nat * list Q := (mr _ A, mc _ A, map this (sp _ A)).
Definition after (x : nat) (o : option (store Qc_ofield)) : option (nat * nat * list Q) := option_map (fun s => show (sm _ s x)) o.

Lemma ex_stored : stored_all Qc_ofield ex_store.
Proof. intros [|[|[|x]]]; reflexivity. Qed.

Definition ex_view : view Qc_ofield :=
  CatCols _ (Sub _ (Tr _ (Whole _ 1)) 0 2 0 2) (Repack _ (Sub _ (Whole _ 2) 1 3 1 2) 2 1).

(** A view of a transposed part next to a repacked part, its conditions and entries. *)
Example C62_nonvacuous : proper _ ex_store ex_view /\ window _ ex_view /\
  map (option_map this) (row_list _ ex_store ex_view) = map Some [1#1; 4#1; 5#1; 2#1; 5#1; 8#1].
Proof.
  split; [|split].
  - cbn. lia.
  - cbn. repeat split. intros x [-> H]. discriminate.
  - vm_compute. reflexivity.
Qed.

Example C63_nonvacuous : after 2 (write _ ex_store ex_view 1 2 (q 77)) = Some (3%nat, 3%nat, [1#1; 2#1; 3#1; 4#1; 5#1; 6#1; 7#1; 77#1; 9#1]).
Proof. vm_compute. reflexivity. Qed.

(** B = A*B + B in place (B is 2x3). *)
Example C64_nonvacuous : exists p, product _ ex_store (Whole _ 0) (Whole _ 1) = Some p /\
  aligned _ 1 (Sum _ p (Whole _ 1)) /\ proper _ ex_store (Sum _ p (Whole _ 1)) /\
  after 1 (assign_mtx _ 1 (Sum _ p (Whole _ 1)) ex_store) = Some (2%nat, 3%nat, [15#1; 21#1; 27#1; 37#1; 50#1; 63#1]).
Proof.
  eexists. split; [reflexivity|]. split; [cbn; tauto|split; [cbn; tauto|]]. vm_compute. reflexivity.
Qed.

(** Transposing a square matrix in place loses the upper triangle. *)
Example C64_transpose_witness : after 2 (assign_mtx _ 2 (Tr _ (Whole _ 2)) ex_store) = Some (3%nat, 3%nat, [1#1; 4#1; 7#1; 4#1; 5#1; 8#1; 7#1; 8#1; 9#1]).
Proof. vm_compute. reflexivity. Qed.

(** A = A(0,2,0,2): the size changes before the entries are read. *)
Theorem C64_shrink_in_place_refuted : exists s x v, stored_all Qc_ofield s /\ proper _ s v /\ window _ v /\
  map (option_map this) (row_list _ s v) = map Some [1#1; 2#1; 4#1; 5#1] /\
  after x (assign_mtx _ x v s) = Some (2%nat, 2%nat, [1#1; 2#1; 3#1; 4#1]).
Proof.
  exists ex_store, 2%nat, (Sub _ (Whole _ 2) 0 2 0 2). split; [exact ex_stored|split; [cbn; lia|split; [exact I|split; vm_compute; reflexivity]]].
Qed.

(** S = T, then S = U for named sub-matrices: the second assignment goes to T. *)
Theorem C64_named_part_rebinds_refuted : exists s S T U, stored_all Qc_ofield s /\ window _ S /\ proper _ s S /\
  match assign_sub _ S T s with
  | Some (s1, S1) => match assign_sub _ S1 U s1 with
                     | Some (s2, _) => (map (option_map this) (row_list _ s2 S), map (option_map this) (row_list _ s2 T), map (option_map this) (row_list _ s U))
                     | None => ([], [], [])
                     end
  | None => ([], [], [])
  end = (map Some [1#1; 2#1], map Some [7#1; 8#1], map Some [7#1; 8#1]).
Proof.
  exists ex_store, (Sub _ (Whole _ 0) 0 1 0 2), (Sub _ (Whole _ 1) 0 1 0 2), (Sub _ (Whole _ 2) 2 3 0 2).
  split; [exact ex_stored|split; [exact I|split; [cbn; lia|]]]. vm_compute. reflexivity.
Qed.

Example C65_nonvacuous :
  option_map show (remove_subset _ 0 1 1 2 (sm _ ex_store 2)) = Some (2%nat, 2%nat, [4#1; 6#1; 7#1; 9#1]) /\
  option_map show (remove_rows _ 1 2 (sm _ ex_store 2)) = Some (2%nat, 3%nat, [1#1; 2#1; 3#1; 7#1; 8#1; 9#1]) /\
  option_map (fun A => map this (ssp Qc_ofield A)) (sym_from Qc_ofield 3 (get _ (sm _ ex_store 2))) = Some [1#1; 2#1; 3#1; 5#1; 6#1; 9#1].
Proof. repeat split; vm_compute; reflexivity. Qed.

Print Assumptions C62_every_entry_readable.
Print Assumptions C62_transpose.
Print Assumptions C62_parts_of_concatenation.
Print Assumptions C62_concatenation_of_parts.
Print Assumptions C62_block.
Print Assumptions C62_part_of_part.
Print Assumptions C62_repack.
Print Assumptions C62_matrix_order.
Print Assumptions C62_entrywise.
Print Assumptions C62_product.
Print Assumptions C62_transpose_of_product.
Print Assumptions C62_kronecker.
Print Assumptions C63_write_then_read.
Print Assumptions C63_writes_one_entry.
Print Assumptions C63_entries_distinct.
Print Assumptions C63_block_outside_shared.
Print Assumptions C64_assign_matrix.
Print Assumptions C64_entrywise_in_place.
Print Assumptions C64_product_in_place.
Print Assumptions C64_copy_matrix.
Print Assumptions C64_assign_window.
Print Assumptions C64_update_window.
Print Assumptions C64_sizes_checked.
Print Assumptions C64_apart.
Print Assumptions C64_overlapping_parts.
Print Assumptions C64_transpose_in_place.
Print Assumptions C64_transpose_in_place_refuted.
Print Assumptions C64_transpose_size_refuted.
Print Assumptions C64_update_transpose_refuted.
Print Assumptions C64_divide_by_entry_refuted.
Print Assumptions C64_multiply_by_entry_refuted.
Print Assumptions C64_shift_down_refuted.
Print Assumptions C65_remove_rows.
Print Assumptions C65_remove_row.
Print Assumptions C65_remove_columns.
Print Assumptions C65_remove_subset.
Print Assumptions C65_symmetric_places.
Print Assumptions C65_symmetric_write.
Print Assumptions C65_symmetric_from.
Print Assumptions C64_shrink_in_place_refuted.
Print Assumptions C64_named_part_rebinds_refuted.
