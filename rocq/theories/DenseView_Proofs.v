(** Proofs about views on dense matrices and assignment through them. *)
From Coq Require Import List Arith Lia Bool.
From Verif Require Import OField Util Dense_Model Dense_Spec Dense_Proofs.
Import ListNotations.
Open Scope nat_scope.

Section Dense.
Variable F : ofield.
Notation mtx := (mtx F).
Notation store := (store F).
Notation view := (view F).
Notation rd := (read F).

(** Sizes of the views. *)
Lemma rows_Whole : forall s x, rows F s (Whole F x) = mr F (sm F s x).
Proof. reflexivity. Qed.
Lemma cols_Whole : forall s x, cols F s (Whole F x) = mc F (sm F s x).
Proof. reflexivity. Qed.
Lemma rows_Sub : forall s v r0 r1 c0 c1, rows F s (Sub F v r0 r1 c0 c1) = r1 - r0.
Proof. reflexivity. Qed.
Lemma cols_Sub : forall s v r0 r1 c0 c1, cols F s (Sub F v r0 r1 c0 c1) = c1 - c0.
Proof. reflexivity. Qed.
Lemma rows_Block : forall s v nr nc r c, rows F s (Block F v nr nc r c) = nr.
Proof. reflexivity. Qed.
Lemma cols_Block : forall s v nr nc r c, cols F s (Block F v nr nc r c) = nc.
Proof. reflexivity. Qed.
Lemma rows_Tr : forall s v, rows F s (Tr F v) = cols F s v.
Proof. reflexivity. Qed.
Lemma cols_Tr : forall s v, cols F s (Tr F v) = rows F s v.
Proof. reflexivity. Qed.
Lemma rows_CatRows : forall s v w, rows F s (CatRows F v w) = rows F s v + rows F s w.
Proof. reflexivity. Qed.
Lemma cols_CatRows : forall s v w, cols F s (CatRows F v w) = cols F s v.
Proof. reflexivity. Qed.
Lemma rows_CatCols : forall s v w, rows F s (CatCols F v w) = rows F s v.
Proof. reflexivity. Qed.
Lemma cols_CatCols : forall s v w, cols F s (CatCols F v w) = cols F s v + cols F s w.
Proof. reflexivity. Qed.
Lemma rows_Repack : forall s v n m, rows F s (Repack F v n m) = n.
Proof. reflexivity. Qed.
Lemma cols_Repack : forall s v n m, cols F s (Repack F v n m) = m.
Proof. reflexivity. Qed.
Lemma rows_Sum : forall s v w, rows F s (Sum F v w) = rows F s v.
Proof. reflexivity. Qed.
Lemma cols_Sum : forall s v w, cols F s (Sum F v w) = cols F s v.
Proof. reflexivity. Qed.
Lemma rows_Diff : forall s v w, rows F s (Diff F v w) = rows F s v.
Proof. reflexivity. Qed.
Lemma cols_Diff : forall s v w, cols F s (Diff F v w) = cols F s v.
Proof. reflexivity. Qed.
Lemma rows_Neg : forall s v, rows F s (Neg F v) = rows F s v.
Proof. reflexivity. Qed.
Lemma cols_Neg : forall s v, cols F s (Neg F v) = cols F s v.
Proof. reflexivity. Qed.
Lemma rows_Scale : forall s v c, rows F s (Scale F v c) = rows F s v.
Proof. reflexivity. Qed.
Lemma cols_Scale : forall s v c, cols F s (Scale F v c) = cols F s v.
Proof. reflexivity. Qed.
Lemma rows_DivBy : forall s v c, rows F s (DivBy F v c) = rows F s v.
Proof. reflexivity. Qed.
Lemma cols_DivBy : forall s v c, cols F s (DivBy F v c) = cols F s v.
Proof. reflexivity. Qed.
Lemma rows_Kron : forall s v w, rows F s (Kron F v w) = rows F s v * rows F s w.
Proof. reflexivity. Qed.
Lemma cols_Kron : forall s v w, cols F s (Kron F v w) = cols F s v * cols F s w.
Proof. reflexivity. Qed.
Lemma rows_Lit : forall s n m f, rows F s (Lit F n m f) = n.
Proof. reflexivity. Qed.
Lemma cols_Lit : forall s n m f, cols F s (Lit F n m f) = m.
Proof. reflexivity. Qed.
Ltac sz := rewrite ?rows_Whole, ?cols_Whole, ?rows_Sub, ?cols_Sub, ?rows_Block, ?cols_Block, ?rows_Tr, ?cols_Tr, ?rows_CatRows, ?cols_CatRows, ?rows_CatCols, ?cols_CatCols, ?rows_Repack, ?cols_Repack, ?rows_Sum, ?cols_Sum, ?rows_Diff, ?cols_Diff, ?rows_Neg, ?cols_Neg, ?rows_Scale, ?cols_Scale, ?rows_DivBy, ?cols_DivBy, ?rows_Kron, ?cols_Kron, ?rows_Lit, ?cols_Lit in *.

Ltac ltb := repeat match goal with
  | |- context [?a <? ?b] => destruct (Nat.ltb_spec a b)
  | |- context [?a <=? ?b] => destruct (Nat.leb_spec a b)
  end; cbn [andb orb]; try lia.

Lemma shape_sym : forall s s', same_shape F s s' -> same_shape F s' s.
Proof. intros s s' H x. destruct (H x). split; congruence. Qed.
Lemma shape_trans : forall s s' s'', same_shape F s s' -> same_shape F s' s'' -> same_shape F s s''.
Proof. intros s s' s'' H H' x. destruct (H x), (H' x). split; congruence. Qed.
Lemma shape_refl : forall s, same_shape F s s.
Proof. intros s x. split; reflexivity. Qed.

Lemma size_shape : forall s s', same_shape F s s' -> forall v, rows F s' v = rows F s v /\ cols F s' v = cols F s v.
Proof.
  intros s s' Sh. induction v; sz;
  repeat match goal with H : _ /\ _ |- _ => destruct H as [? ?] end; split; try congruence; try apply Sh.
Qed.
Lemma rows_shape : forall s s' v, same_shape F s s' -> rows F s' v = rows F s v.
Proof. intros. now apply size_shape. Qed.
Lemma cols_shape : forall s s' v, same_shape F s s' -> cols F s' v = cols F s v.
Proof. intros. now apply size_shape. Qed.

Lemma proper_shape : forall s s' v, same_shape F s s' -> proper F s v -> proper F s' v.
Proof.
  intros s s' v Sh. induction v; cbn [proper]; rewrite ?(rows_shape s s'), ?(cols_shape s s') by exact Sh; try tauto.
  - intros [H1 H2]. split; [auto|]. destruct c as [|x i j]; [exact I|]. destruct (Sh x) as [-> ->]. exact H2.
  - intros [H1 H2]. split; [auto|]. destruct c as [|x i j]; [exact I|]. destruct (Sh x) as [-> ->]. exact H2.
Qed.

Lemma div_lt_size : forall r c p, p < r * c -> p / c < r /\ p mod c < c.
Proof.
  intros r c p L. assert (c <> 0) by nia. split.
  - apply Nat.div_lt_upper_bound; nia.
  - now apply Nat.mod_upper_bound.
Qed.

(** Reading is defined for every entry. *)
Lemma read_total : forall s v, stored_all F s -> proper F s v ->
  forall i j, i < rows F s v -> j < cols F s v -> exists a, rd s v i j = Some a.
Proof.
  intros s v St. induction v as [x|v IH r0 r1 c0 c1|v IH nr nc r c|v IH|v IHv w IHw|v IHv w IHw|v IH n m|v IHv w IHw|v IHv w IHw|v IH|v IH c|v IH c|v IHv w IHw|n m f];
    cbn [proper read]; intros P i j Li Lj; sz.
  - apply get_total; [apply St|exact Li|exact Lj].
  - destruct P as [P [[? ?] [? ?]]]. ltb. apply IH; [exact P|lia|lia].
  - destruct P as [P [? ?]]. ltb; try (now eexists). apply IH; [exact P|lia|lia].
  - now apply IH.
  - destruct P as [P [Q E]]. ltb; [apply IHv|apply IHw]; try assumption; lia.
  - destruct P as [P [Q E]]. ltb; [apply IHv|apply IHw]; try assumption; lia.
  - destruct P as [P E]. assert (L : i * m + j < rows F s v * cols F s v) by nia.
    apply div_lt_size in L. apply IH; [exact P| |]; apply L.
  - destruct P as [P [Q [E1 E2]]]. destruct (IHv P i j Li Lj) as [a ->]. destruct (IHw Q i j) as [b ->]; [lia|lia|]. now eexists.
  - destruct P as [P [Q [E1 E2]]]. destruct (IHv P i j Li Lj) as [a ->]. destruct (IHw Q i j) as [b ->]; [lia|lia|]. now eexists.
  - destruct (IH P i j Li Lj) as [a ->]. now eexists.
  - destruct P as [P Q]. destruct (IH P i j Li Lj) as [a ->]. destruct c as [c|x k l]; cbn [read_coef lift2]; [now eexists|].
    destruct (get_total F (sm F s x) k l (St x) (proj1 Q) (proj2 Q)) as [b ->]. now eexists.
  - destruct P as [P Q]. destruct (IH P i j Li Lj) as [a ->]. destruct c as [c|x k l]; cbn [read_coef lift2]; [now eexists|].
    destruct (get_total F (sm F s x) k l (St x) (proj1 Q) (proj2 Q)) as [b ->]. now eexists.
  - destruct P as [P Q].
    assert (Z1 : rows F s w <> 0) by nia. assert (Z2 : cols F s w <> 0) by nia.
    destruct (IHv P (i / rows F s w) (j / cols F s w)) as [a ->]; [apply Nat.div_lt_upper_bound; lia|apply Nat.div_lt_upper_bound; lia|].
    destruct (IHw Q (i mod rows F s w) (j mod cols F s w)) as [b ->]; [apply Nat.mod_upper_bound; lia|apply Nat.mod_upper_bound; lia|].
    now eexists.
  - ltb. now eexists.
Qed.

(** Views look only at the matrices they use. *)
Lemma size_uses : forall s s' v, (forall x, uses F x v -> mr F (sm F s' x) = mr F (sm F s x) /\ mc F (sm F s' x) = mc F (sm F s x)) ->
  rows F s' v = rows F s v /\ cols F s' v = cols F s v.
Proof.
  intros s s' v. induction v; cbn [uses]; intro H; sz; try (split; reflexivity);
  repeat match goal with
  | IH : ?P -> _ /\ _ |- _ => destruct IH as [? ?]; [intros y Hy; apply H; auto|]
  end; try (split; congruence). apply (H x). reflexivity.
Qed.

Lemma read_uses : forall s s' v, (forall x, uses F x v -> sm F s' x = sm F s x) -> forall i j, rd s' v i j = rd s v i j.
Proof.
  intros s s' v. induction v as [x|v IH r0 r1 c0 c1|v IH nr nc r c|v IH|v IHv w IHw|v IHv w IHw|v IH n m|v IHv w IHw|v IHv w IHw|v IH|v IH c|v IH c|v IHv w IHw|n m f];
    cbn [uses read]; intros H i j.
  1: now rewrite (H x eq_refl).
  all: try (destruct (size_uses s s' v) as [Er Ec]; [intros y Hy; rewrite (H y) by auto; split; reflexivity|]).
  all: try (destruct (size_uses s s' w) as [Er' Ec']; [intros y Hy; rewrite (H y) by auto; split; reflexivity|]).
  all: rewrite ?Er, ?Ec, ?Er', ?Ec'.
  all: try (rewrite ?IH by auto; reflexivity).
  all: try (rewrite ?IHv, ?IHw by auto; reflexivity).
  - rewrite IH by auto. f_equal. destruct c as [c|x k l]; [reflexivity|]. cbn [read_coef]. now rewrite (H x) by auto.
  - rewrite IH by auto. f_equal. destruct c as [c|x k l]; [reflexivity|]. cbn [read_coef]. now rewrite (H x) by auto.
Qed.

Lemma proper_uses : forall s s' v, (forall x, uses F x v -> mr F (sm F s' x) = mr F (sm F s x) /\ mc F (sm F s' x) = mc F (sm F s x)) ->
  proper F s v -> proper F s' v.
Proof.
  intros s s' v. induction v as [x|v IH r0 r1 c0 c1|v IH nr nc r c|v IH|v IHv w IHw|v IHv w IHw|v IH n m|v IHv w IHw|v IHv w IHw|v IH|v IH c|v IH c|v IHv w IHw|n m f];
    cbn [uses proper]; intros H.
  all: try exact (fun x => x).
  all: try (destruct (size_uses s s' v) as [Er Ec]; [intros y Hy; apply H; auto|]).
  all: try (destruct (size_uses s s' w) as [Er' Ec']; [intros y Hy; apply H; auto|]).
  all: rewrite ?Er, ?Ec, ?Er', ?Ec'.
  all: try (pose proof (IH ltac:(intros; apply H; auto))).
  all: try (pose proof (IHv ltac:(intros; apply H; auto))).
  all: try (pose proof (IHw ltac:(intros; apply H; auto))).
  all: try tauto.
  - intros [P Q]. split; [auto|]. destruct c as [c|x k l]; [exact I|]. destruct (H x (or_intror eq_refl)) as [-> ->]. exact Q.
  - intros [P Q]. split; [auto|]. destruct c as [c|x k l]; [exact I|]. destruct (H x (or_intror eq_refl)) as [-> ->]. exact Q.
Qed.

(** ** Places *)
Lemma addr_shape : forall s s' v, same_shape F s s' -> forall i j, addr F s' v i j = addr F s v i j.
Proof.
  intros s s' v Sh. induction v; cbn [addr]; intros i j;
  rewrite ?(rows_shape s s'), ?(cols_shape s s') by exact Sh; repeat match goal with H : forall i j, _ = _ |- _ => rewrite ?H; clear H end; try reflexivity.
  destruct (Sh x) as [-> ->]. reflexivity.
Qed.

Lemma window_addr : forall s v, proper F s v -> window F v -> forall i j, i < rows F s v -> j < cols F s v ->
  exists x k l, addr F s v i j = Some (Cell x k l) /\ uses F x v /\ k < mr F (sm F s x) /\ l < mc F (sm F s x).
Proof.
  intros s v. induction v as [x|v IH r0 r1 c0 c1|v IH nr nc r c|v IH|v IHv w IHw|v IHv w IHw|v IH n m|v IHv w IHw|v IHv w IHw|v IH|v IH c|v IH c|v IHv w IHw|n m f];
    cbn [proper window addr uses]; intros P W i j Li Lj; sz; try contradiction.
  - ltb. exists x, i, j. auto.
  - destruct P as [P [[? ?] [? ?]]]. ltb. apply IH; [exact P|exact W|lia|lia].
  - now apply IH.
  - destruct P as [P [Q E]]. destruct W as [Wv [Ww D]]. ltb.
    + destruct (IHv P Wv i j) as [x [k [l [H1 [H2 H3]]]]]; [lia|lia|]. exists x, k, l. auto.
    + destruct (IHw Q Ww (i - rows F s v) j) as [x [k [l [H1 [H2 H3]]]]]; [lia|lia|]. exists x, k, l. auto.
  - destruct P as [P [Q E]]. destruct W as [Wv [Ww D]]. ltb.
    + destruct (IHv P Wv i j) as [x [k [l [H1 [H2 H3]]]]]; [lia|lia|]. exists x, k, l. auto.
    + destruct (IHw Q Ww i (j - cols F s v)) as [x [k [l [H1 [H2 H3]]]]]; [lia|lia|]. exists x, k, l. auto.
  - destruct P as [P E]. assert (L : i * m + j < rows F s v * cols F s v) by nia.
    apply div_lt_size in L. apply IH; [exact P|exact W| |]; apply L.
Qed.

Lemma addr_uses : forall s v i j x k l, addr F s v i j = Some (Cell x k l) -> uses F x v.
Proof.
  intros s v. induction v; cbn [addr uses]; intros i j y k l E; try discriminate.
  - destruct (_ && _); [|discriminate]. now injection E as -> -> ->.
  - destruct (_ && _); [|discriminate]. eauto.
  - destruct (_ && _); [|discriminate]. destruct (_ || _); [discriminate|]. eauto.
  - eauto.
  - destruct (_ <? _); eauto.
  - destruct (_ <? _); eauto.
  - eauto.
Qed.

Lemma window_inj : forall s v, proper F s v -> window F v -> forall i j i' j',
  i < rows F s v -> j < cols F s v -> i' < rows F s v -> j' < cols F s v ->
  addr F s v i j = addr F s v i' j' -> i = i' /\ j = j'.
Proof.
  intros s v. induction v as [x|v IH r0 r1 c0 c1|v IH nr nc r c|v IH|v IHv w IHw|v IHv w IHw|v IH n m|v IHv w IHw|v IHv w IHw|v IH|v IH c|v IH c|v IHv w IHw|n m f];
    cbn [proper window addr]; intros P W i j i' j' Li Lj Li' Lj' E; sz; try contradiction.
  - revert E. ltb. intro E. injection E as -> ->. auto.
  - destruct P as [P [[? ?] [? ?]]]. revert E. ltb. intro E. apply IH in E; try assumption; lia.
  - apply IH in E; try assumption. lia.
  - destruct P as [P [Q Ec]]. destruct W as [Wv [Ww D]]. revert E. ltb; intro E.
    + apply IHv in E; try assumption; lia.
    + exfalso. destruct (window_addr s v P Wv i j) as [x [k [l [H1 [H2 _]]]]]; [lia|lia|].
      destruct (window_addr s w Q Ww (i' - rows F s v) j') as [x' [k' [l' [H1' [H2' _]]]]]; [lia|lia|].
      rewrite H1, H1' in E. injection E as -> -> ->. exact (D x' (conj H2 H2')).
    + exfalso. destruct (window_addr s v P Wv i' j') as [x [k [l [H1 [H2 _]]]]]; [lia|lia|].
      destruct (window_addr s w Q Ww (i - rows F s v) j) as [x' [k' [l' [H1' [H2' _]]]]]; [lia|lia|].
      rewrite H1, H1' in E. injection E as -> -> ->. exact (D x (conj H2 H2')).
    + apply IHw in E; try assumption; lia.
  - destruct P as [P [Q Ec]]. destruct W as [Wv [Ww D]]. revert E. ltb; intro E.
    + apply IHv in E; try assumption; lia.
    + exfalso. destruct (window_addr s v P Wv i j) as [x [k [l [H1 [H2 _]]]]]; [lia|lia|].
      destruct (window_addr s w Q Ww i' (j' - cols F s v)) as [x' [k' [l' [H1' [H2' _]]]]]; [lia|lia|].
      rewrite H1, H1' in E. injection E as -> -> ->. exact (D x' (conj H2 H2')).
    + exfalso. destruct (window_addr s v P Wv i' j') as [x [k [l [H1 [H2 _]]]]]; [lia|lia|].
      destruct (window_addr s w Q Ww i (j - cols F s v)) as [x' [k' [l' [H1' [H2' _]]]]]; [lia|lia|].
      rewrite H1, H1' in E. injection E as -> -> ->. exact (D x (conj H2 H2')).
    + apply IHw in E; try assumption; lia.
  - destruct P as [P Es].
    assert (L : i * m + j < rows F s v * cols F s v) by nia.
    assert (L' : i' * m + j' < rows F s v * cols F s v) by nia.
    pose proof (div_lt_size _ _ _ L) as [? ?]. pose proof (div_lt_size _ _ _ L') as [? ?].
    apply IH in E; try assumption. destruct E as [E1 E2].
    apply (cell_inj m); [exact Lj|exact Lj'|].
    rewrite (Nat.div_mod_eq (i * m + j) (cols F s v)), (Nat.div_mod_eq (i' * m + j') (cols F s v)). congruence.
Qed.

(** What is read is what is at the place. *)
Lemma read_addr : forall s v, window F v -> forall i j p, addr F s v i j = Some p -> rd s v i j = fetch F s p.
Proof.
  intros s v. induction v; cbn [window addr read]; intros W i j p E; try contradiction.
  - destruct (_ && _); [|discriminate]. injection E as <-. reflexivity.
  - destruct (_ && _); [|discriminate]. auto.
  - auto.
  - destruct W as [? [? _]]. destruct (_ <? _); auto.
  - destruct W as [? [? _]]. destruct (_ <? _); auto.
  - auto.
Qed.

Lemma put_spec : forall s x k l a, stored_all F s -> k < mr F (sm F s x) -> l < mc F (sm F s x) ->
  exists s', put F s (Cell x k l) a = Some s' /\ same_shape F s s' /\ stored_all F s' /\
    (forall y, y <> x -> sm F s' y = sm F s y) /\ sz F s' = sz F s /\
    forall k' l', get F (sm F s' x) k' l' = if (k' =? k) && (l' =? l) then Some a else get F (sm F s x) k' l'.
Proof.
  intros s x k l a St Lk Ll. cbn [put].
  destruct (set_total F (sm F s x) k l a (St x) Lk Ll) as [A E]. rewrite E.
  apply set_spec in E. destruct E as [E1 [E2 [E3 [_ [_ E4]]]]].
  eexists. split; [reflexivity|]. cbn [sm sz]. split; [|split; [|split; [|split; [reflexivity|]]]].
  - intro y. cbn [sm]. destruct (Nat.eqb_spec y x) as [->|]; [split; assumption|split; reflexivity].
  - intro y. cbn [sm]. destruct (Nat.eqb_spec y x) as [->|]; [apply E3, St|apply St].
  - intros y N. now rewrite (proj2 (Nat.eqb_neq y x) N).
  - intros k' l'. rewrite Nat.eqb_refl. apply E4.
Qed.

Definition place_eqb (p q : place) : bool :=
  match p, q with
  | Cell x k l, Cell y k' l' => (x =? y) && (k =? k') && (l =? l')
  | Zero, Zero => true
  | _, _ => false
  end.
Lemma place_eqb_spec : forall p q, reflect (p = q) (place_eqb p q).
Proof.
  intros [x k l|] [y k' l'|]; cbn [place_eqb]; try (constructor; congruence).
  destruct (Nat.eqb_spec x y) as [->|]; cbn [andb]; [|constructor; congruence].
  destruct (Nat.eqb_spec k k') as [->|]; cbn [andb]; [|constructor; congruence].
  destruct (Nat.eqb_spec l l') as [->|]; constructor; congruence.
Qed.

Lemma put_fetch : forall s x k l a, stored_all F s -> k < mr F (sm F s x) -> l < mc F (sm F s x) ->
  exists s', put F s (Cell x k l) a = Some s' /\ same_shape F s s' /\ stored_all F s' /\
    forall q, fetch F s' q = if place_eqb q (Cell x k l) then Some a else fetch F s q.
Proof.
  intros s x k l a St Lk Ll. destruct (put_spec s x k l a St Lk Ll) as [s' [E [H1 [H2 [H3 [H4 H5]]]]]].
  exists s'. split; [exact E|split; [exact H1|split; [exact H2|]]].
  intros [y k' l'|]; cbn [fetch place_eqb]; [|congruence].
  destruct (Nat.eqb_spec y x) as [->|N]; cbn [andb]; [apply H5|now rewrite H3].
Qed.

Lemma write_spec : forall s v i j a, stored_all F s -> proper F s v -> window F v -> i < rows F s v -> j < cols F s v ->
  exists s', write F s v i j a = Some s' /\ same_shape F s s' /\ stored_all F s' /\
    (forall x, ~ uses F x v -> sm F s' x = sm F s x) /\
    (forall k l, k < rows F s v -> l < cols F s v -> rd s' v k l = if (k =? i) && (l =? j) then Some a else rd s v k l) /\
    (exists x k l, uses F x v /\ k < mr F (sm F s x) /\ l < mc F (sm F s x) /\ addr F s v i j = Some (Cell x k l) /\
       forall q, fetch F s' q = if place_eqb q (Cell x k l) then Some a else fetch F s q).
Proof.
  intros s v i j a St P W Li Lj.
  destruct (window_addr s v P W i j Li Lj) as [x [k [l [E [U [Lk Ll]]]]]].
  destruct (put_fetch s x k l a St Lk Ll) as [s' [E' [Sh [St' H]]]].
  destruct (put_spec s x k l a St Lk Ll) as [s2 [E2 [_ [_ [O _]]]]]. rewrite E' in E2. injection E2 as <-.
  exists s'. split; [unfold write; now rewrite E|]. split; [exact Sh|split; [exact St'|split; [|split]]].
  - intros y N. apply O. intro Eq. subst y. exact (N U).
  - intros k' l' Lk' Ll'. destruct (window_addr s v P W k' l' Lk' Ll') as [y [a' [b' [Ey _]]]].
    rewrite (read_addr s' v W k' l' (Cell y a' b')) by (now rewrite (addr_shape s s')).
    rewrite (read_addr s v W k' l' (Cell y a' b') Ey). rewrite H.
    destruct (place_eqb_spec (Cell y a' b') (Cell x k l)) as [Eq|N].
    + rewrite Eq, <- E in Ey. apply window_inj in Ey; try assumption. destruct Ey as [-> ->]. now rewrite !Nat.eqb_refl.
    + destruct (Nat.eqb_spec k' i) as [->|]; cbn [andb]; [|reflexivity].
      destruct (Nat.eqb_spec l' j) as [->|]; [|reflexivity]. congruence.
  - exists x, k, l. auto.
Qed.

(** ** Assignment *)
Section Loop.
Variables (t v : view) (s0 : store).
(** The value assigned to (i,j) may depend on what is at t(i,j) at that time. *)
Variable f : store -> nat -> nat -> option F.
Hypothesis Pt : proper F s0 t.
Hypothesis Wt : window F t.
Hypothesis Er : rows F s0 t = rows F s0 v.
Hypothesis Ec : cols F s0 t = cols F s0 v.
Variable g : nat -> nat -> F.
(** g is the value computed at the start, and the computation is not overtaken. *)
Hypothesis F0 : forall i j, i < rows F s0 v -> j < cols F s0 v -> f s0 i j = Some (g i j).
Hypothesis Fk : forall i j i' j' s1 s2 a, i < rows F s0 v -> j < cols F s0 v -> i' < rows F s0 v -> j' < cols F s0 v ->
  earlier i' j' i j -> stored_all F s1 -> same_shape F s0 s1 -> write F s1 t i' j' a = Some s2 -> f s2 i j = f s1 i j.

Definition loop_inv (r c : nat) (s : store) : Prop :=
  same_shape F s0 s /\ stored_all F s /\
  (forall i j, i < rows F s0 v -> j < cols F s0 v -> ~ earlier i j r c -> f s i j = Some (g i j)) /\
  (forall i j, i < rows F s0 v -> j < cols F s0 v -> earlier i j r c -> rd s t i j = Some (g i j)) /\
  (forall w k l, (forall i j, i < rows F s0 v -> j < cols F s0 v -> unaffected F s0 w k l t i j) -> rd s w k l = rd s0 w k l).

Lemma loop_step : forall i j s, i < rows F s0 v -> j < cols F s0 v -> loop_inv i j s ->
  exists s', (match f s i j with None => None | Some a => write F s t i j a end) = Some s' /\ loop_inv i (S j) s'.
Proof.
  intros i j s Li Lj [Sh [St [H1 [H2 H3]]]].
  rewrite (H1 i j Li Lj) by (unfold earlier; lia).
  assert (Pt' : proper F s t) by (now apply (proper_shape s0)).
  destruct (write_spec s t i j (g i j) St Pt' Wt) as [s' [E [Sh' [St' [O [R _]]]]]];
    [rewrite (rows_shape s0) by exact Sh; lia|rewrite (cols_shape s0) by exact Sh; lia|].
  exists s'. split; [exact E|]. split; [now apply (shape_trans s0 s)|split; [exact St'|split; [|split]]].
  - intros k l Lk Ll N. rewrite (Fk k l i j s s' (g i j)); try assumption.
    + apply H1; try assumption. unfold earlier in *. lia.
    + unfold earlier in *. lia.
  - intros k l Lk Ll H. rewrite R by (rewrite ?(rows_shape s0), ?(cols_shape s0) by exact Sh; lia).
    destruct (Nat.eqb_spec k i) as [Ek|Nk]; cbn [andb].
    + destruct (Nat.eqb_spec l j) as [El|Nl]; [now subst|]. apply H2; try assumption. unfold earlier in *. lia.
    + apply H2; try assumption. unfold earlier in *. lia.
  - intros w k l U. rewrite (U i j Li Lj s s' (g i j) St Sh E). now apply H3.
Qed.

Lemma loop_run : forall body, stored_all F s0 ->
  (forall i s, i < rows F s0 v -> same_shape F s0 s -> body i s = forM 0 (cols F s0 v) (fun j s => match f s i j with None => None | Some a => write F s t i j a end) s) ->
  exists s', forM 0 (rows F s0 v) body s0 = Some s' /\ loop_inv (rows F s0 v) 0 s'.
Proof.
  intros body St Hb. apply (forM_ind store (fun i s => loop_inv i 0 s)).
  - lia.
  - split; [apply shape_refl|split; [exact St|split; [|split]]].
    + intros i j Li Lj _. now apply F0.
    + intros i j Li Lj H. unfold earlier in H. lia.
    + reflexivity.
  - intros i s Li H. rewrite (Hb i s) by (try apply H; lia).
    destruct (forM_ind store (fun j s => loop_inv i j s) 0 (cols F s0 v)
      (fun j s => match f s i j with None => None | Some a => write F s t i j a end) s) as [s' [E H']].
    + lia.
    + exact H.
    + intros j s1 Lj H1. apply loop_step; [lia|lia|exact H1].
    + exists s'. split; [exact E|]. destruct H' as [A1 [A2 [A3 [A4 A5]]]]. split; [exact A1|split; [exact A2|split; [|split; [|exact A5]]]].
      * intros k l Lk Ll N. apply A3; try assumption. unfold earlier in *. lia.
      * intros k l Lk Ll N. apply A4; try assumption. unfold earlier in *. lia.
Qed.
End Loop.

Definition assigned (s s' : store) (t v : view) : Prop :=
  (forall i j, i < rows F s v -> j < cols F s v -> rd s' t i j = rd s v i j) /\
  (forall w k l, (forall i j, i < rows F s v -> j < cols F s v -> unaffected F s w k l t i j) -> rd s' w k l = rd s w k l).

Lemma copy_loop_spec : forall s t v, stored_all F s -> proper F s t -> window F t -> proper F s v ->
  rows F s t = rows F s v -> cols F s t = cols F s v -> no_overtaking F s t v ->
  exists s', copy_loop F t v s = Some s' /\ same_shape F s s' /\ stored_all F s' /\ assigned s s' t v.
Proof.
  intros s t v St Pt Wt Pv Er Ec N.
  set (g := fun i j => match rd s v i j with Some a => a | None => f0 end).
  assert (G : forall i j, i < rows F s v -> j < cols F s v -> rd s v i j = Some (g i j)).
  { intros i j Li Lj. unfold g. destruct (read_total s v St Pv i j Li Lj) as [a ->]. reflexivity. }
  destruct (loop_run t v s (fun s i j => rd s v i j) Pt Wt Er Ec g) with (body := fun i s => forM 0 (cols F s v) (fun j s =>
    match rd s v i j with None => None | Some a => write F s t i j a end) s) as [s' [E [H1 [H2 [H3 [H4 H5]]]]]].
  - exact G.
  - intros i j i' j' s1 s2 a L1 L2 L3 L4 H St1 Sh1 Ew. apply (N i j i' j' L1 L2 L3 L4 H s1 s2 a St1 Sh1 Ew).
  - exact St.
  - intros i s1 Li Sh. now rewrite (cols_shape s s1).
  - exists s'. split; [exact E|split; [exact H1|split; [exact H2|split; [|exact H5]]]].
    intros i j Li Lj. rewrite G by assumption. apply H4; try assumption. unfold earlier. lia.
Qed.

Lemma update_spec : forall op s t v, stored_all F s -> proper F s t -> window F t -> proper F s v ->
  rows F s t = rows F s v -> cols F s t = cols F s v -> no_overtaking F s t v ->
  exists s', update_view F op t v s = Some s' /\ same_shape F s s' /\ stored_all F s' /\
  (forall i j, i < rows F s v -> j < cols F s v -> rd s' t i j = lift2 F op (rd s t i j) (rd s v i j)) /\
  (forall w k l, (forall i j, i < rows F s v -> j < cols F s v -> unaffected F s w k l t i j) -> rd s' w k l = rd s w k l).
Proof.
  intros op s t v St Pt Wt Pv Er Ec N. unfold update_view.
  rewrite (proj2 (Nat.eqb_eq _ _) Er), (proj2 (Nat.eqb_eq _ _) Ec). cbn [andb].
  set (g := fun i j => match lift2 F op (rd s t i j) (rd s v i j) with Some a => a | None => f0 end).
  assert (G : forall i j, i < rows F s v -> j < cols F s v -> lift2 F op (rd s t i j) (rd s v i j) = Some (g i j)).
  { intros i j Li Lj. unfold g. destruct (read_total s v St Pv i j Li Lj) as [a ->].
    destruct (read_total s t St Pt i j) as [b ->]; [lia|lia|]. reflexivity. }
  rewrite Er.
  destruct (loop_run t v s (fun s i j => lift2 F op (rd s t i j) (rd s v i j)) Pt Wt Er Ec g) with (body := fun i s => forM 0 (cols F s t) (fun j s =>
    match lift2 F op (rd s t i j) (rd s v i j) with None => None | Some a => write F s t i j a end) s) as [s' [E [H1 [H2 [H3 [H4 H5]]]]]].
  - exact G.
  - intros i j i' j' s1 s2 a L1 L2 L3 L4 H St1 Sh1 Ew. rewrite (N i j i' j' L1 L2 L3 L4 H s1 s2 a St1 Sh1 Ew). f_equal.
    assert (Pt' : proper F s1 t) by (now apply (proper_shape s)).
    destruct (write_spec s1 t i' j' a St1 Pt' Wt) as [s2' [E [_ [_ [_ [R _]]]]]];
      [rewrite (rows_shape s) by exact Sh1; lia|rewrite (cols_shape s) by exact Sh1; lia|].
    rewrite Ew in E. injection E as <-. rewrite R by (rewrite ?(rows_shape s), ?(cols_shape s) by exact Sh1; lia).
    destruct (Nat.eqb_spec i i') as [Ei|]; cbn [andb]; [|reflexivity].
    destruct (Nat.eqb_spec j j'); [unfold earlier in H; lia|reflexivity].
  - exact St.
  - intros i s1 Li Sh. now rewrite (cols_shape s s1), Ec.
  - exists s'. split; [exact E|split; [exact H1|split; [exact H2|split; [|exact H5]]]].
    intros i j Li Lj. rewrite G by assumption. apply H4; try assumption. unfold earlier. lia.
Qed.

(** ** When nothing is overtaken *)
Lemma write_changes : forall s t i j a s', write F s t i j a = Some s' ->
  forall x, ~ uses F x t -> sm F s' x = sm F s x.
Proof.
  intros s t i j a s' E x N. unfold write in E. destruct (addr F s t i j) as [[y k l|]|] eqn:Ea; [| |discriminate].
  - cbn [put] in E. destruct (set F (sm F s y) k l a); [|discriminate]. injection E as <-. cbn [sm].
    destruct (Nat.eqb_spec x y) as [->|]; [|reflexivity]. exfalso. apply N. now apply (addr_uses s t i j y k l).
  - cbn [put] in E. now injection E as <-.
Qed.

Lemma unaffected_apart : forall s t v, (forall x, ~ (uses F x t /\ uses F x v)) -> forall i j i' j', unaffected F s v i j t i' j'.
Proof.
  intros s t v D i j i' j' s1 s2 a St Sh E. apply read_uses. intros x U. apply (write_changes _ _ _ _ _ _ E).
  intro U'. exact (D x (conj U' U)).
Qed.

Lemma aligned_unaffected : forall s x v, aligned F x v -> forall i j i' j', (i', j') <> (i, j) -> unaffected F s v i j (Whole F x) i' j'.
Proof.
  intros s x v. 
  assert (D : forall v, ~ uses F x v -> forall i j i' j', (i', j') <> (i, j) -> unaffected F s v i j (Whole F x) i' j').
  { intros w N i j i' j' _. apply unaffected_apart. intros y [U U']. cbn [uses] in U. now subst. }
  assert (Cc : forall s1 s2 i' j' a c, write F s1 (Whole F x) i' j' a = Some s2 ->
     match c with Val _ _ => True | Entry _ y _ _ => x <> y end -> read_coef F s2 c = read_coef F s1 c).
  { intros s1 s2 i' j' a [c|y k l] E N; [reflexivity|]. cbn [read_coef].
    rewrite (write_changes _ _ _ _ _ _ E y); [reflexivity|]. cbn [uses]. congruence. }
  induction v as [y|v IH r0 r1 c0 c1|v IH nr nc r c|v IH|v IHv w IHw|v IHv w IHw|v IH n m|v IHv w IHw|v IHv w IHw|v IH|v IH c|v IH c|v IHv w IHw|n m f];
    intros Al i j i' j' N; try (now apply D); cbn [aligned] in Al; intros s1 s2 a St Sh E; cbn [read].
  - unfold write in E. cbn [addr] in E. destruct (_ && _); [|discriminate]. cbn [put] in E.
    destruct (set F (sm F s1 x) i' j' a) as [A|] eqn:Es; [|discriminate]. injection E as <-. cbn [sm].
    destruct (Nat.eqb_spec y x) as [->|]; [|reflexivity].
    apply set_spec in Es. destruct Es as [_ [_ [_ [_ [_ Es]]]]]. rewrite Es.
    destruct (Nat.eqb_spec i i') as [->|]; cbn [andb]; [|reflexivity].
    destruct (Nat.eqb_spec j j') as [->|]; [congruence|reflexivity].
  - rewrite (IHv (proj1 Al) i j i' j' N s1 s2 a St Sh E), (IHw (proj2 Al) i j i' j' N s1 s2 a St Sh E). reflexivity.
  - rewrite (IHv (proj1 Al) i j i' j' N s1 s2 a St Sh E), (IHw (proj2 Al) i j i' j' N s1 s2 a St Sh E). reflexivity.
  - rewrite (IH Al i j i' j' N s1 s2 a St Sh E). reflexivity.
  - rewrite (IH (proj1 Al) i j i' j' N s1 s2 a St Sh E), (Cc s1 s2 i' j' a c E (proj2 Al)). reflexivity.
  - rewrite (IH (proj1 Al) i j i' j' N s1 s2 a St Sh E), (Cc s1 s2 i' j' a c E (proj2 Al)). reflexivity.
Qed.

Lemma aligned_ok : forall s x v, aligned F x v -> no_overtaking F s (Whole F x) v.
Proof.
  intros s x v Al i j i' j' _ _ _ _ H. apply aligned_unaffected; [exact Al|]. intro E. injection E as -> ->. unfold earlier in H. lia.
Qed.

(** Overlapping sub-blocks of one matrix: safe if the target comes first. *)
Lemma overlap_ok : forall s x r0 r1 c0 c1 p0 p1 q0 q1,
  r0 < p0 \/ (r0 = p0 /\ c0 <= q0) ->
  no_overtaking F s (Sub F (Whole F x) r0 r1 c0 c1) (Sub F (Whole F x) p0 p1 q0 q1).
Proof.
  intros s x r0 r1 c0 c1 p0 p1 q0 q1 H i j i' j' Li Lj Li' Lj' He s1 s2 a St Sh E.
  unfold write in E. cbn [addr] in E. destruct ((i' <? _) && _); [|discriminate]. destruct (_ && _); [|discriminate].
  cbn [put] in E. destruct (set F (sm F s1 x) _ _ a) as [A|] eqn:Es; [|discriminate]. injection E as <-.
  cbn [read sm]. rewrite Nat.eqb_refl. destruct (_ && _); [|reflexivity].
  apply set_spec in Es. destruct Es as [_ [_ [_ [_ [_ Es]]]]]. rewrite Es.
  destruct (Nat.eqb_spec (i + p0) (i' + r0)) as [E1|]; cbn [andb]; [|reflexivity].
  destruct (Nat.eqb_spec (j + q0) (j' + c0)) as [E2|]; [|reflexivity].
  exfalso. unfold earlier in He. lia.
Qed.

(** ** Matrix::operator= *)
Lemma resize_length : forall l k, length (resize F l k) = k.
Proof. intros l k. unfold resize. rewrite app_length, firstn_length, repeat_length. lia. Qed.

(** The state in which the loop of operator= starts. *)
Lemma assign_start : forall x v s, stored_all F s -> (~ uses F x v \/ (rows F s v = mr F (sm F s x) /\ cols F s v = mc F (sm F s x))) ->
  exists s1, assign_mtx F x v s = copy_loop F (Whole F x) v s1 /\ stored_all F s1 /\
    mr F (sm F s1 x) = rows F s v /\ mc F (sm F s1 x) = cols F s v /\
    (forall y, y <> x -> sm F s1 y = sm F s y) /\ sz F s1 = sz F s /\
    rows F s1 v = rows F s v /\ cols F s1 v = cols F s v /\ (forall i j, rd s1 v i j = rd s v i j) /\
    (rows F s v = mr F (sm F s x) /\ cols F s v = mc F (sm F s x) -> forall y, sm F s1 y = sm F s y).
Proof.
  intros x v s St H. unfold assign_mtx. cbv zeta.
  set (sa := if mc F (sm F s x) * mr F (sm F s x) =? cols F s v * rows F s v then s
             else put_mtx F x s (mk_mtx F (mr F (sm F s x)) (mc F (sm F s x)) (resize F (sp F (sm F s x)) (cols F s v * rows F s v)))).
  assert (Oa : forall y, y <> x -> sm F sa y = sm F s y).
  { intros y N. unfold sa. destruct (_ =? _); [reflexivity|]. cbn [sm put_mtx]. now rewrite (proj2 (Nat.eqb_neq y x) N). }
  assert (Ra : mr F (sm F sa x) = mr F (sm F s x)) by (unfold sa; destruct (_ =? _); [reflexivity|]; cbn [sm put_mtx]; now rewrite Nat.eqb_refl).
  assert (Ca : mc F (sm F sa x) = mc F (sm F s x)) by (unfold sa; destruct (_ =? _); [reflexivity|]; cbn [sm put_mtx]; now rewrite Nat.eqb_refl).
  assert (La : length (sp F (sm F sa x)) = rows F s v * cols F s v).
  { unfold sa. destruct (Nat.eqb_spec (mc F (sm F s x) * mr F (sm F s x)) (cols F s v * rows F s v)) as [E|].
    - rewrite (St x). lia.
    - cbn [sm put_mtx]. rewrite Nat.eqb_refl. cbn [sp]. rewrite resize_length. lia. }
  assert (Za : sz F sa = sz F s) by (unfold sa; now destruct (_ =? _)).
  assert (Va : rows F sa v = rows F s v /\ cols F sa v = cols F s v).
  { apply size_uses. intros y _. destruct (Nat.eq_dec y x) as [->|N]; [now split|]. now rewrite Oa. }
  destruct Va as [Va1 Va2]. rewrite Va1.
  set (sb := put_mtx F x sa (mk_mtx F (rows F s v) (mc F (sm F sa x)) (sp F (sm F sa x)))).
  assert (Vb : rows F sb v = rows F s v /\ cols F sb v = cols F s v).
  { rewrite <- Va1, <- Va2 at 1. apply size_uses. intros y U. unfold sb. cbn [sm put_mtx].
    destruct (Nat.eqb_spec y x) as [->|]; [|split; reflexivity]. cbn [mr mc].
    destruct H as [H|[H1 H2]]; [contradiction|]. split; [lia|reflexivity]. }
  destruct Vb as [Vb1 Vb2]. rewrite Vb2.
  set (sc := put_mtx F x sb (mk_mtx F (mr F (sm F sb x)) (cols F s v) (sp F (sm F sb x)))).
  assert (Sx : sm F sc x = mk_mtx F (rows F s v) (cols F s v) (sp F (sm F sa x))).
  { unfold sc, sb. cbn [sm put_mtx]. now rewrite !Nat.eqb_refl. }
  assert (Oc : forall y, y <> x -> sm F sc y = sm F s y).
  { intros y N. unfold sc, sb. cbn [sm put_mtx]. rewrite (proj2 (Nat.eqb_neq y x) N). now apply Oa. }
  assert (Same : rows F s v = mr F (sm F s x) /\ cols F s v = mc F (sm F s x) -> forall y, sm F sc y = sm F s y).
  { intros [H1 H2] y. destruct (Nat.eq_dec y x) as [->|N]; [|now apply Oc]. rewrite Sx.
    assert (Esa : sa = s) by (unfold sa; rewrite H1, H2, Nat.eqb_refl; reflexivity).
    rewrite Esa, H1, H2. now destruct (sm F s x). }
  assert (Eq : forall y, uses F y v -> sm F sc y = sm F s y).
  { intros y U. destruct H as [H|H]; [|now apply Same]. apply Oc. intros ->. contradiction. }
  exists sc. split; [reflexivity|]. split; [|split; [now rewrite Sx|split; [now rewrite Sx|split; [exact Oc|split; [exact Za|]]]]].
  - intro y. destruct (Nat.eq_dec y x) as [->|N].
    + unfold Dense_Spec.stored. rewrite Sx. cbn [sp mr mc]. exact La.
    + rewrite Oc by exact N. apply St.
  - destruct (size_uses s sc v) as [S1 S2]; [intros y U; now rewrite Eq|].
    split; [exact S1|split; [exact S2|split; [|exact Same]]]. now apply read_uses.
Qed.

Lemma whole_ext : forall s1 s2 v, (forall y, sm F s1 y = sm F s2 y) -> forall i j, rd s1 v i j = rd s2 v i j.
Proof. intros s1 s2 v H i j. apply read_uses. intros x _. apply H. Qed.

Lemma assign_mtx_spec : forall x v s, stored_all F s -> proper F s v ->
  (~ uses F x v \/ (rows F s v = mr F (sm F s x) /\ cols F s v = mc F (sm F s x) /\ no_overtaking F s (Whole F x) v)) ->
  exists s', assign_mtx F x v s = Some s' /\ stored_all F s' /\
    mr F (sm F s' x) = rows F s v /\ mc F (sm F s' x) = cols F s v /\
    (forall i j, i < rows F s v -> j < cols F s v -> get F (sm F s' x) i j = rd s v i j) /\
    (forall y, y <> x -> mr F (sm F s' y) = mr F (sm F s y) /\ mc F (sm F s' y) = mc F (sm F s y) /\
       forall i j, get F (sm F s' y) i j = get F (sm F s y) i j).
Proof.
  intros x v s St P H.
  destruct (assign_start x v s St) as [s1 [E [St1 [R1 [C1 [O1 [Z1 [Rv [Cv [Rd Sm]]]]]]]]]]; [tauto|].
  rewrite E.
  assert (P1 : proper F s1 v).
  { apply (proper_uses s s1 v); [|exact P]. intros y U. destruct H as [H|[H1 [H2 _]]].
    - rewrite O1; [split; reflexivity|]. intros ->. contradiction.
    - rewrite Sm by (split; assumption). split; reflexivity. }
  destruct (copy_loop_spec s1 (Whole F x) v St1) as [s' [E' [Sh [St' [As Fr]]]]]; cbn [proper window]; sz; try exact I; try exact P1.
  - congruence.
  - congruence.
  - destruct H as [H|[H1 [H2 H3]]].
    + intros i j i' j' _ _ _ _ _. apply unaffected_apart. intros y [U U']. cbn [uses] in U. now subst.
    + intros i j i' j' L1 L2 L3 L4 He sa sb a Sa Sha Ew. rewrite Rv in *. rewrite Cv in *. apply (H3 i j i' j' L1 L2 L3 L4 He sa sb a Sa); [|exact Ew].
      apply (shape_trans s s1); [|exact Sha]. intro y. rewrite Sm by (split; assumption). split; reflexivity.
  - exists s'. split; [exact E'|split; [exact St'|]]. destruct (Sh x) as [Sx1 Sx2].
    split; [congruence|split; [congruence|split]].
    + intros i j Li Lj. rewrite <- Rd. apply As; congruence.
    + intros y N. destruct (Sh y) as [Sy1 Sy2]. rewrite <- (O1 y N). split; [exact Sy1|split; [exact Sy2|]].
      intros i j. apply (Fr (Whole F y) i j). intros k l _ _. apply unaffected_apart. intros z [U U']. cbn [uses] in U, U'. congruence.
Qed.

End Dense.
