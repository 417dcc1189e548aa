(** Proofs: laws of the views, products, and assignments that go wrong. *)
From Coq Require Import List Arith Lia Bool Field.
From Verif Require Import OField Util Dense_Model Dense_Spec Dense_Proofs DenseView_Proofs.
Import ListNotations.
Open Scope nat_scope.

Section Dense.
Variable F : ofield.
Add Field Ff : (fth F).
Notation mtx := (mtx F).
Notation store := (store F).
Notation view := (view F).
Notation rd := (read F).
Notation row_list := (Dense_Spec.row_list F).
Notation val := (Dense_Spec.val F).

Ltac sz1 := rewrite ?rows_Whole, ?cols_Whole, ?rows_Sub, ?cols_Sub, ?rows_Block, ?cols_Block, ?rows_Tr, ?cols_Tr,
  ?rows_CatRows, ?cols_CatRows, ?rows_CatCols, ?cols_CatCols, ?rows_Repack, ?cols_Repack, ?rows_Sum, ?cols_Sum,
  ?rows_Diff, ?cols_Diff, ?rows_Neg, ?cols_Neg, ?rows_Scale, ?cols_Scale, ?rows_DivBy, ?cols_DivBy, ?rows_Kron, ?cols_Kron,
  ?rows_Lit, ?cols_Lit in *.
Ltac sz := sz1; sz1.
Ltac ltb := repeat match goal with
  | |- context [?a <? ?b] => destruct (Nat.ltb_spec a b)
  | |- context [?a <=? ?b] => destruct (Nat.leb_spec a b)
  end; cbn [andb orb]; try lia.

Lemma nth_error_ext_len : forall A (l1 l2 : list A), length l1 = length l2 ->
  (forall p, p < length l1 -> nth_error l1 p = nth_error l2 p) -> l1 = l2.
Proof.
  intros A l1 l2 L H. apply nth_error_ext. intro p. destruct (Nat.lt_ge_cases p (length l1)) as [Lp|Gp]; [now apply H|].
  rewrite (proj2 (nth_error_None l1 p)), (proj2 (nth_error_None l2 p)) by lia. reflexivity.
Qed.

(** ** Laws *)
Lemma tr_tr : forall s v, shows F s (Tr F (Tr F v)) v.
Proof. intros s v. repeat split. Qed.

Lemma tr_cat : forall s v w, shows F s (Tr F (CatRows F v w)) (CatCols F (Tr F v) (Tr F w)).
Proof. intros s v w. repeat split. Qed.

Lemma sub_cat_rows : forall s v w, cols F s v = cols F s w ->
  shows F s (Sub F (CatRows F v w) 0 (rows F s v) 0 (cols F s v)) v /\
  shows F s (Sub F (CatRows F v w) (rows F s v) (rows F s v + rows F s w) 0 (cols F s v)) w.
Proof.
  intros s v w Ec. split; (split; [sz; lia|split; [sz; lia|]]); intros i j Li Lj; sz; cbn [read]; ltb.
  - f_equal; lia.
  - f_equal; lia.
Qed.

Lemma cat_sub_rows : forall s v k, k <= rows F s v ->
  shows F s (CatRows F (Sub F v 0 k 0 (cols F s v)) (Sub F v k (rows F s v) 0 (cols F s v))) v.
Proof.
  intros s v k Lk. split; [sz; lia|split; [sz; lia|]]. intros i j Li Lj. sz. cbn [read]. sz. ltb; f_equal; lia.
Qed.

Lemma sub_cat_cols : forall s v w, rows F s v = rows F s w ->
  shows F s (Sub F (CatCols F v w) 0 (rows F s v) 0 (cols F s v)) v /\
  shows F s (Sub F (CatCols F v w) 0 (rows F s v) (cols F s v) (cols F s v + cols F s w)) w.
Proof.
  intros s v w Ec. split; (split; [sz; lia|split; [sz; lia|]]); intros i j Li Lj; sz; cbn [read]; ltb.
  - f_equal; lia.
  - f_equal; lia.
Qed.

Lemma cat_sub_cols : forall s v k, k <= cols F s v ->
  shows F s (CatCols F (Sub F v 0 (rows F s v) 0 k) (Sub F v 0 (rows F s v) k (cols F s v))) v.
Proof.
  intros s v k Lk. split; [sz; lia|split; [sz; lia|]]. intros i j Li Lj. sz. cbn [read]. sz. ltb; f_equal; lia.
Qed.

Lemma sub_sub : forall s v r0 r1 c0 c1 p0 p1 q0 q1, p0 <= p1 <= r1 - r0 -> q0 <= q1 <= c1 - c0 ->
  shows F s (Sub F (Sub F v r0 r1 c0 c1) p0 p1 q0 q1) (Sub F v (r0 + p0) (r0 + p1) (c0 + q0) (c0 + q1)).
Proof.
  intros s v r0 r1 c0 c1 p0 p1 q0 q1 Hp Hq. split; [sz; lia|split; [sz; lia|]]. intros i j Li Lj. sz. cbn [read]. ltb. f_equal; lia.
Qed.

Lemma sub_block : forall s v nr nc r c, r + rows F s v <= nr -> c + cols F s v <= nc ->
  shows F s (Sub F (Block F v nr nc r c) r (r + rows F s v) c (c + cols F s v)) v /\
  forall i j, i < nr -> j < nc -> ~ (r <= i < r + rows F s v /\ c <= j < c + cols F s v) -> rd s (Block F v nr nc r c) i j = Some f0.
Proof.
  intros s v nr nc r c Hr Hc. split.
  - split; [sz; lia|split; [sz; lia|]]. intros i j Li Lj. sz. cbn [read]. ltb. f_equal; lia.
  - intros i j Li Lj N. cbn [read]. ltb; reflexivity.
Qed.

Lemma flat_rows : forall (f : nat -> nat -> option F) n m p, p < n * m ->
  nth_error (flat_map (fun i => map (fun j => f i j) (seq 0 m)) (seq 0 n)) p = Some (f (p / m) (p mod m)).
Proof.
  intros f n m. 
  assert (H : forall a p, p < n * m -> nth_error (flat_map (fun i => map (fun j => f i j) (seq 0 m)) (seq a n)) p = Some (f (a + p / m) (p mod m))).
  { induction n as [|n IH]; intros a p L; [lia|]. cbn [seq flat_map].
    assert (Lm : length (map (fun j => f a j) (seq 0 m)) = m) by (now rewrite map_length, seq_length).
    destruct (Nat.lt_ge_cases p m) as [Lp|Gp].
    - rewrite nth_error_app1 by lia. rewrite Nat.div_small, Nat.mod_small, Nat.add_0_r by lia.
      rewrite nth_error_map, (nth_error_nth' _ 0) by (rewrite seq_length; lia). rewrite seq_nth by lia. reflexivity.
    - rewrite nth_error_app2 by lia. rewrite Lm. rewrite IH by lia.
      assert (E : p = p - m + 1 * m) by lia. rewrite E at 3 4. rewrite Nat.div_add, Nat.mod_add by lia. do 2 f_equal. lia. }
  intros p L. now rewrite H.
Qed.

Lemma flat_rows_length : forall (f : nat -> nat -> option F) n m,
  length (flat_map (fun i => map (fun j => f i j) (seq 0 m)) (seq 0 n)) = n * m.
Proof.
  intros f n m. generalize 0 at 2 as a. induction n as [|n IH]; intro a; [reflexivity|]. cbn [seq flat_map].
  rewrite app_length, map_length, seq_length, IH. lia.
Qed.

Lemma row_list_whole : forall s x, stored F (sm F s x) -> row_list s (Whole F x) = map Some (sp F (sm F s x)).
Proof.
  intros s x St. unfold Dense_Spec.row_list. sz. apply nth_error_ext_len.
  - rewrite flat_rows_length, map_length. symmetry. exact St.
  - intros p. rewrite flat_rows_length. intro Lp. rewrite flat_rows by exact Lp. cbn [read]. unfold get.
    pose proof (div_lt_size _ _ _ Lp) as [L1 L2]. rewrite (proj2 (Nat.ltb_lt _ _) L1), (proj2 (Nat.ltb_lt _ _) L2). cbn [andb].
    rewrite nth_error_map. replace (p / mc F (sm F s x) * mc F (sm F s x) + p mod mc F (sm F s x)) with p.
    + destruct (nth_error (sp F (sm F s x)) p) eqn:E; [reflexivity|]. apply nth_error_None in E. rewrite St in E. lia.
    + rewrite (Nat.div_mod_eq p (mc F (sm F s x))) at 1. lia.
Qed.

Lemma row_list_repack : forall s v n m, rows F s v * cols F s v = n * m -> row_list s (Repack F v n m) = row_list s v.
Proof.
  intros s v n m E. unfold Dense_Spec.row_list. sz. apply nth_error_ext_len.
  - now rewrite !flat_rows_length.
  - intros p. rewrite flat_rows_length. intro Lp. rewrite !flat_rows by lia. cbn [read].
    replace (p / m * m + p mod m) with p; [reflexivity|]. rewrite (Nat.div_mod_eq p m) at 1. lia.
Qed.

Lemma repack_back : forall s v n m, rows F s v * cols F s v = n * m ->
  shows F s (Repack F (Repack F v n m) (rows F s v) (cols F s v)) v.
Proof.
  intros s v n m E. split; [reflexivity|split; [reflexivity|]]. intros i j Li Lj. sz. cbn [read]. sz.
  assert (L : i * cols F s v + j < n * m) by nia.
  replace ((i * cols F s v + j) / m * m + (i * cols F s v + j) mod m) with (i * cols F s v + j).
  - f_equal.
    + rewrite Nat.div_add_l by lia. rewrite Nat.div_small by lia. lia.
    + rewrite Nat.add_comm, Nat.mod_add by lia. now apply Nat.mod_small.
  - rewrite (Nat.div_mod_eq (i * cols F s v + j) m) at 1. lia.
Qed.

(** ** Products *)
Lemma fold_sum : forall (f : nat -> F) n, 0 < n -> fold_left (fun acc j => fadd acc (f j)) (seq 1 (n - 1)) (f 0) = fsum n f.
Proof.
  intros f n L. destruct n as [|n]; [lia|]. replace (S n - 1) with n by lia. clear L.
  induction n as [|n IH]; [cbn [seq fold_left fsum]; ring|].
  rewrite seq_S, fold_left_app. cbn [fold_left]. rewrite IH. cbn [fsum]. f_equal.
Qed.

Lemma val_read : forall s v i j, stored_all F s -> proper F s v -> i < rows F s v -> j < cols F s v -> rd s v i j = Some (val s v i j).
Proof. intros s v i j St P Li Lj. unfold Dense_Spec.val. destruct (read_total F s v St P i j Li Lj) as [a ->]. reflexivity. Qed.

Lemma product_spec : forall s v w, stored_all F s -> proper F s v -> proper F s w -> cols F s v = rows F s w -> 0 < cols F s v ->
  exists f, product F s v w = Some (Lit F (rows F s v) (cols F s w) f) /\
    forall i k, i < rows F s v -> k < cols F s w -> f i k = fsum (cols F s v) (fun j => fmul (val s v i j) (val s w j k)).
Proof.
  intros s v w St P Q E L. unfold product. rewrite (proj2 (Nat.eqb_eq _ _) E). eexists. split; [reflexivity|].
  intros i k Li Lk. cbv beta zeta.
  transitivity (fsum (cols F s v) (fun j => match lift2 F fmul (rd s v i j) (rd s w j k) with Some a => a | None => f0 end)).
  - exact (fold_sum (fun j => match lift2 F fmul (rd s v i j) (rd s w j k) with Some a => a | None => f0 end) _ L).
  - apply fsum_ext. intros j Lj. rewrite (val_read s v i j) by (assumption || lia). rewrite (val_read s w j k) by (assumption || lia). reflexivity.
Qed.

Lemma fsum_grid : forall n m (f : nat -> nat -> F), fsum (n * m) (fun p => f (p / m) (p mod m)) = fsum n (fun i => fsum m (fun j => f i j)).
Proof.
  intros n m f. induction n as [|n IH]; [reflexivity|]. cbn [fsum]. rewrite <- IH.
  replace (S n * m) with (n * m + m) by lia.
  assert (H : forall k, k <= m -> fsum (n * m + k) (fun p => f (p / m) (p mod m)) = fadd (fsum (n * m) (fun p => f (p / m) (p mod m))) (fsum k (fun j => f n j))).
  { induction k as [|k IHk]; intro Lk; [rewrite Nat.add_0_r; cbn [fsum]; ring|].
    rewrite Nat.add_succ_r. cbn [fsum]. rewrite IHk by lia.
    replace ((n * m + k) / m) with n by (rewrite Nat.div_add_l, Nat.div_small by lia; lia).
    replace ((n * m + k) mod m) with k by (rewrite Nat.add_comm, Nat.mod_add, Nat.mod_small by lia; reflexivity). ring. }
  now apply H.
Qed.

(** (A x B)(C x D) = AC x BD *)
Lemma kron_product : forall s v w v' w', stored_all F s -> proper F s v -> proper F s w -> proper F s v' -> proper F s w' ->
  cols F s v = rows F s v' -> cols F s w = rows F s w' -> 0 < cols F s v -> 0 < cols F s w ->
  exists p q r, product F s (Kron F v w) (Kron F v' w') = Some p /\ product F s v v' = Some q /\ product F s w w' = Some r /\
    shows F s p (Kron F q r).
Proof.
  intros s v w v' w' St P Q P' Q' E E' L L'.
  destruct (product_spec s (Kron F v w) (Kron F v' w') St) as [f [Hf Ff]]; [split; assumption|split; assumption|sz; congruence|sz; nia|].
  destruct (product_spec s v v' St P P' E L) as [g [Hg Fg]].
  destruct (product_spec s w w' St Q Q' E' L') as [h [Hh Fh]].
  eexists _, _, _. split; [exact Hf|split; [exact Hg|split; [exact Hh|]]].
  split; [now sz|split; [now sz|]]. intros i k Li Lk. sz. cbn [read]. sz.
  assert (A1 : rows F s w <> 0) by nia. assert (A2 : cols F s w' <> 0) by nia.
  assert (B1 : i / rows F s w < rows F s v) by (apply Nat.div_lt_upper_bound; lia).
  assert (B2 : i mod rows F s w < rows F s w) by (now apply Nat.mod_upper_bound).
  assert (B3 : k / cols F s w' < cols F s v') by (apply Nat.div_lt_upper_bound; lia).
  assert (B4 : k mod cols F s w' < cols F s w') by (now apply Nat.mod_upper_bound).
  rewrite (proj2 (Nat.ltb_lt _ _) Li), (proj2 (Nat.ltb_lt _ _) Lk), (proj2 (Nat.ltb_lt _ _) B1), (proj2 (Nat.ltb_lt _ _) B2), (proj2 (Nat.ltb_lt _ _) B3), (proj2 (Nat.ltb_lt _ _) B4).
  cbn [andb lift2]. f_equal. rewrite Ff, Fg, Fh by (sz; assumption). sz.
  rewrite <- fsum_mul_r.
  set (K := fun a b => fmul (fmul (val s v (i / rows F s w) a) (val s w (i mod rows F s w) b))
                     (fmul (val s v' a (k / cols F s w')) (val s w' b (k mod cols F s w')))).
  transitivity (fsum (cols F s v * cols F s w) (fun p => K (p / cols F s w) (p mod cols F s w))).
  - apply fsum_ext. intros p Lp. pose proof (div_lt_size _ _ _ Lp) as [L1 L2]. unfold Dense_Spec.val at 1 2. cbn [read].
    rewrite <- E'.
    rewrite (val_read s v), (val_read s w), (val_read s v'), (val_read s w') by (assumption || lia). reflexivity.
  - rewrite fsum_grid. apply fsum_ext. intros a _. rewrite <- fsum_mul_l. apply fsum_ext. intros b _. unfold K. ring.
Qed.

(** (AB)^T = B^T A^T *)
Lemma tr_product : forall s v w, stored_all F s -> proper F s v -> proper F s w -> cols F s v = rows F s w -> 0 < cols F s v ->
  exists p q, product F s v w = Some p /\ product F s (Tr F w) (Tr F v) = Some q /\ shows F s (Tr F p) q.
Proof.
  intros s v w St P Q E L.
  destruct (product_spec s v w St P Q E L) as [f [Hf Ff]].
  destruct (product_spec s (Tr F w) (Tr F v) St Q P) as [g [Hg Fg]]; [sz; congruence|sz; lia|].
  eexists _, _. split; [exact Hf|split; [exact Hg|]]. split; [now sz|split; [now sz|]].
  intros i k Li Lk. sz. cbn [read]. rewrite (proj2 (Nat.ltb_lt _ _) Li), (proj2 (Nat.ltb_lt _ _) Lk). cbn [andb]. f_equal.
  rewrite Ff, Fg by (sz; assumption). sz. rewrite E. apply fsum_ext. intros j Lj. unfold Dense_Spec.val. cbn [read]. ring.
Qed.

(** ** x = y *)
Lemma assign_same_spec : forall x y s, stored_all F s ->
  exists s', assign_same F x y s = Some s' /\ stored_all F s' /\ (forall z, z <> x -> sm F s' z = sm F s z) /\ sm F s' x = sm F s y.
Proof.
  intros x y s St. unfold assign_same. destruct (Nat.eqb_spec x y) as [->|N].
  - exists s. split; [reflexivity|split; [exact St|split; [auto|reflexivity]]].
  - set (A := sm F s x). set (B := sm F s y). cbv zeta.
    set (a := if mr F A * mc F A =? mr F B * mc F B then sp F A else resize F (sp F A) (mr F B * mc F B)).
    assert (La : length a = mr F B * mc F B).
    { unfold a. destruct (Nat.eqb_spec (mr F A * mc F A) (mr F B * mc F B)) as [<-|]; [apply St|apply resize_length]. }
    destruct (forM_ind (list F) (fun c a => length a = mr F B * mc F B /\ forall i, i < c -> nth_error a i = nth_error (sp F B) i) 0 (mr F B * mc F B)
      (fun i a => match nth_error (sp F B) i with Some e => if i <? length a then Some (lset a i e) else None | None => None end) a) as [a' [E [L H]]].
    + lia.
    + split; [exact La|]. intros. lia.
    + intros k b Lk [Lb Hb].
      destruct (nth_error (sp F B) k) as [e|] eqn:Ee; [|apply nth_error_None in Ee; pose proof (St y : length (sp F B) = mr F B * mc F B); lia].
      rewrite (proj2 (Nat.ltb_lt k (length b))) by lia. eexists. split; [reflexivity|]. split; [now rewrite lset_length|].
      intros i Li. rewrite nth_error_lset. destruct (Nat.eqb_spec k i) as [Eq|Nq]; cbn [andb].
      * subst i. rewrite (proj2 (Nat.ltb_lt k (length b))) by lia. now symmetry.
      * apply Hb. lia.
    + rewrite E. assert (Ea : a' = sp F B).
      { apply nth_error_ext_len; [rewrite L; symmetry; apply (St y)|]. intros p Lp. apply H. lia. }
      eexists. split; [reflexivity|]. rewrite Ea. cbn [sm put_mtx].
      assert (Eb : {| mr := mr F B; mc := mc F B; sp := sp F B |} = B) by (now destruct B).
      rewrite Eb. split; [|split].
      * intro z. cbn [sm put_mtx]. destruct (z =? x); apply St.
      * intros z Nz. now rewrite (proj2 (Nat.eqb_neq z x) Nz).
      * now rewrite Nat.eqb_refl.
Qed.

End Dense.
