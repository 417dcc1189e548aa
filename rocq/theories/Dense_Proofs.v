(** Proofs about dense storage, views and assignment. *)
From Coq Require Import List Arith Lia Bool.
From Verif Require Import OField Util Dense_Model Dense_Spec.
Import ListNotations.
Open Scope nat_scope.

Section Dense.
Variable F : ofield.
Notation mtx := (mtx F).
Notation store := (store F).
Notation view := (view F).

(** ** Loops *)
Lemma forM_ind : forall S (P : nat -> S -> Prop) lo hi body s,
  lo <= hi -> P lo s -> (forall k s, lo <= k < hi -> P k s -> exists s', body k s = Some s' /\ P (Datatypes.S k) s') ->
  exists s', forM lo hi body s = Some s' /\ P hi s'.
Proof.
  intros S P lo hi body s Le P0 St. unfold forM. remember (hi - lo) as d eqn:Ed.
  revert lo s Le P0 St Ed. induction d as [|d IH]; intros lo s Le P0 St Ed; cbn [seq fold_left].
  - exists s. split; [reflexivity|]. now replace hi with lo by lia.
  - destruct (St lo s ltac:(lia) P0) as [s1 [E P1]]. rewrite E.
    destruct (IH (Datatypes.S lo) s1) as [s' [E' P']]; [lia|exact P1| |lia|].
    + intros k s0 Lk. apply St. lia.
    + exists s'. split; assumption.
Qed.

(** The same for a property kept by any successful run. *)
Lemma forM_keep : forall S (P : S -> Prop) lo hi body s s',
  P s -> (forall k s s', P s -> body k s = Some s' -> P s') -> forM lo hi body s = Some s' -> P s'.
Proof.
  intros S P lo hi body s s' P0 St. unfold forM. generalize (seq lo (hi - lo)) as l. intro l. revert s P0.
  induction l as [|k l IH]; intros s P0 E; cbn [fold_left] in E.
  - now injection E as <-.
  - destruct (body k s) as [s1|] eqn:B.
    + apply (IH s1); [now apply (St k s)|exact E].
    + exfalso. clear - E. induction l; cbn [fold_left] in E; [discriminate|auto].
Qed.

(** ** Storage *)
Notation stored := (Dense_Spec.stored F).

Lemma cell_lt : forall n m i j, i < n -> j < m -> i * m + j < n * m.
Proof. intros n m i j Li Lj. nia. Qed.

Lemma cell_inj : forall m i j i' j', j < m -> j' < m -> i * m + j = i' * m + j' -> i = i' /\ j = j'.
Proof. intros m i j i' j' Lj Lj' E. assert (i = i') by nia. split; [assumption|nia]. Qed.

Lemma get_total : forall A i j, stored A -> i < mr F A -> j < mc F A -> exists a, get F A i j = Some a.
Proof.
  intros A i j St Li Lj. unfold get. rewrite (proj2 (Nat.ltb_lt _ _) Li), (proj2 (Nat.ltb_lt _ _) Lj). cbn [andb].
  destruct (nth_error (sp F A) _) eqn:E; [now eexists|]. apply nth_error_None in E. rewrite St in E.
  pose proof (cell_lt _ _ _ _ Li Lj). lia.
Qed.

Lemma get_range : forall A i j a, get F A i j = Some a -> i < mr F A /\ j < mc F A.
Proof.
  intros A i j a E. unfold get in E. destruct (Nat.ltb_spec i (mr F A)); destruct (Nat.ltb_spec j (mc F A)); try discriminate. split; assumption.
Qed.

Lemma set_total : forall A i j v, stored A -> i < mr F A -> j < mc F A -> exists A', set F A i j v = Some A'.
Proof.
  intros A i j v St Li Lj. unfold set. rewrite (proj2 (Nat.ltb_lt _ _) Li), (proj2 (Nat.ltb_lt _ _) Lj). cbn [andb].
  rewrite St, (proj2 (Nat.ltb_lt _ _) (cell_lt _ _ _ _ Li Lj)). now eexists.
Qed.

Lemma set_spec : forall A i j v A', set F A i j v = Some A' ->
  mr F A' = mr F A /\ mc F A' = mc F A /\ (stored A -> stored A') /\ i < mr F A /\ j < mc F A /\
  forall k l, get F A' k l = if (k =? i) && (l =? j) then Some v else get F A k l.
Proof.
  intros A i j v A' E. unfold set in E.
  destruct (Nat.ltb_spec i (mr F A)) as [Li|]; [|discriminate].
  destruct (Nat.ltb_spec j (mc F A)) as [Lj|]; [|discriminate].
  destruct (Nat.ltb_spec (i * mc F A + j) (length (sp F A))) as [Lc|]; [|discriminate]. cbn [andb] in E.
  injection E as <-. cbn [mr mc]. split; [reflexivity|split; [reflexivity|split; [|split; [exact Li|split; [exact Lj|]]]]].
  - unfold Dense_Spec.stored. cbn [sp mr mc]. now rewrite lset_length.
  - intros k l. unfold get. cbn [mr mc sp].
    destruct (Nat.ltb_spec k (mr F A)) as [Lk|]; cbn [andb].
    + destruct (Nat.ltb_spec l (mc F A)) as [Ll|].
      * rewrite nth_error_lset. destruct (Nat.eqb_spec k i) as [->|Nk]; cbn [andb].
        -- destruct (Nat.eqb_spec l j) as [->|Nl].
           ++ rewrite Nat.eqb_refl. rewrite (proj2 (Nat.ltb_lt _ _) Lc). reflexivity.
           ++ destruct (Nat.eqb_spec (i * mc F A + l) (i * mc F A + j)); [lia|]. 
              destruct (Nat.eqb_spec (i * mc F A + j) (i * mc F A + l)); [lia|reflexivity].
        -- destruct (Nat.eqb_spec (i * mc F A + j) (k * mc F A + l)) as [Q|];
             [apply cell_inj in Q; try assumption; lia|].
           destruct (Nat.eqb_spec (k * mc F A + l) (i * mc F A + j)) as [Q|];
             [apply cell_inj in Q; try assumption; lia|reflexivity].
      * destruct (Nat.eqb_spec k i); destruct (Nat.eqb_spec l j); cbn [andb]; try reflexivity; lia.
    + destruct (Nat.eqb_spec k i); [lia|reflexivity].
Qed.


Lemma copy_cell_spec : forall i j k l A B, stored A -> stored B -> k < mr F A -> l < mc F A -> i < mr F B -> j < mc F B ->
  exists B', copy_cell F i j k l A B = Some B' /\ mr F B' = mr F B /\ mc F B' = mc F B /\ stored B' /\
    forall a b, get F B' a b = if (a =? i) && (b =? j) then get F A k l else get F B a b.
Proof.
  intros i j k l A B SA SB Lk Ll Li Lj. unfold copy_cell.
  destruct (get_total A k l SA Lk Ll) as [v E]. rewrite E.
  destruct (set_total B i j v SB Li Lj) as [B' E']. rewrite E'. exists B'.
  apply set_spec in E'. destruct E' as [H1 [H2 [H3 [_ [_ H4]]]]].
  repeat (split; [auto|]). exact H4.
Qed.

(** ** Removal *)
Lemma firstn_get : forall (A : mtx) k, stored A -> k <= mr F A ->
  let A' := mk_mtx F k (mc F A) (resize F (sp F A) (k * mc F A)) in
  stored A' /\ forall a b, get F A' a b = if a <? k then get F A a b else None.
Proof.
  intros A k St Lk A'. unfold A', Dense_Spec.stored, get, resize in *. cbn [mr mc sp].
  rewrite St. replace (k * mc F A - mr F A * mc F A) with 0 by nia. cbn [repeat]. rewrite app_nil_r. split.
  - rewrite firstn_length, St. nia.
  - intros a b. destruct (Nat.ltb_spec a k) as [La|]; cbn [andb]; [|reflexivity].
    rewrite (proj2 (Nat.ltb_lt a (mr F A))) by lia. cbn [andb].
    destruct (Nat.ltb_spec b (mc F A)) as [Lb|]; [|reflexivity].
    rewrite nth_error_firstn_if. rewrite (proj2 (Nat.ltb_lt _ _)); [reflexivity|]. now apply cell_lt.
Qed.

Lemma shift_rows : forall first last A, stored A -> first <= last -> last <= mr F A ->
  let shift := last - first in
  exists A', forM last (mr F A) (fun k A => forM 0 (mc F A) (fun l A => copy_cell F (k - shift) l k l A A) A) A = Some A' /\
    mr F A' = mr F A /\ mc F A' = mc F A /\ stored A' /\
    forall a b, a < mr F A - shift -> get F A' a b = get F A (if a <? first then a else a + shift) b.
Proof.
  intros first last A St Lf Ll shift.
  destruct (forM_ind mtx (fun c T => mr F T = mr F A /\ mc F T = mc F A /\ stored T /\
     (forall a b, a < c - shift -> get F T a b = get F A (if a <? first then a else a + shift) b) /\
     (forall a b, c - shift <= a -> get F T a b = get F A a b))
     last (mr F A) (fun k A => forM 0 (mc F A) (fun l A => copy_cell F (k - shift) l k l A A) A) A)
    as [A' [E [H1 [H2 [H3 [H4 H5]]]]]].
  - exact Ll.
  - do 3 (split; [auto|]). split.
    + intros a b La. unfold shift in *. rewrite (proj2 (Nat.ltb_lt a first)) by lia. reflexivity.
    + intros a b La. reflexivity.
  - intros k T Lk [H1 [H2 [H3 [H4 H5]]]]. rewrite H2.
    destruct (forM_ind mtx (fun c U => mr F U = mr F A /\ mc F U = mc F A /\ stored U /\
      forall a b, get F U a b = if (a =? k - shift) && (b <? c) then get F A k b else get F T a b)
      0 (mc F A) (fun l A => copy_cell F (k - shift) l k l A A) T) as [U [E [U1 [U2 [U3 U4]]]]].
    + lia.
    + repeat (split; [auto|]). intros a b. rewrite andb_false_r. reflexivity.
    + intros l U Ll' [U1 [U2 [U3 U4]]].
      destruct (copy_cell_spec (k - shift) l k l U U U3 U3) as [U' [E [V1 [V2 [V3 V4]]]]]; try lia.
      exists U'. split; [exact E|]. split; [congruence|split; [congruence|split; [exact V3|]]].
      intros a b. rewrite V4, !U4. rewrite Nat.ltb_irrefl, andb_false_r.
      assert (Tk : get F T k l = get F A k l) by (apply H5; lia).
      destruct (Nat.eqb_spec a (k - shift)) as [->|]; cbn [andb]; [|reflexivity].
      destruct (Nat.eqb_spec b l) as [->|].
      * rewrite (proj2 (Nat.ltb_lt l (S l))) by lia. exact Tk.
      * destruct (Nat.ltb_spec b l); destruct (Nat.ltb_spec b (S l)); try lia; reflexivity.
    + exists U. split; [exact E|]. split; [exact U1|split; [exact U2|split; [exact U3|]]]. split.
      * intros a b La. rewrite U4. destruct (Nat.eqb_spec a (k - shift)) as [->|N]; cbn [andb].
        -- destruct (Nat.ltb_spec b (mc F A)) as [Lb|Gb].
           ++ destruct (Nat.ltb_spec (k - shift) first); [unfold shift in *; lia|].
              now replace (k - shift + shift) with k by (unfold shift; lia).
           ++ unfold get. rewrite H2. rewrite (proj2 (Nat.ltb_ge b (mc F A)) Gb), !andb_false_r. reflexivity.
        -- apply H4. lia.
      * intros a b La. rewrite U4. rewrite (proj2 (Nat.eqb_neq a (k - shift))) by (unfold shift in *; lia). cbn [andb]. apply H5. lia.
  - exists A'. split; [exact E|]. repeat (split; [assumption|]). exact H4.
Qed.

Lemma remove_rows_spec : forall first last A, stored A -> first < mr F A -> last <= mr F A -> first <= last ->
  exists A', remove_rows F first last A = Some A' /\ stored A' /\ mr F A' = mr F A - (last - first) /\ mc F A' = mc F A /\
    forall a b, a < mr F A' -> get F A' a b = get F A (if a <? first then a else a + (last - first)) b.
Proof.
  intros first last A St L1 L2 L3. unfold remove_rows.
  rewrite (proj2 (Nat.ltb_lt _ _) L1), (proj2 (Nat.leb_le _ _) L2), (proj2 (Nat.leb_le _ _) L3). cbn [andb].
  destruct (shift_rows first last A St L3 L2) as [B [E [B1 [B2 [B3 B4]]]]]. cbv zeta in E, B4. cbv zeta. rewrite E.
  destruct (firstn_get B (mr F B - (last - first)) B3 ltac:(lia)) as [G1 G2]. cbv zeta in G1, G2.
  eexists. split; [reflexivity|]. split; [exact G1|]. cbn [mr mc]. split; [congruence|split; [exact B2|]].
  intros a b La. rewrite G2. rewrite (proj2 (Nat.ltb_lt _ _) La). apply B4. lia.
Qed.

Lemma remove_row_eq : forall row A, row < mr F A -> remove_row F row A = remove_rows F row (S row) A.
Proof.
  intros row A L. unfold remove_row, remove_rows.
  rewrite (proj2 (Nat.ltb_lt _ _) L), (proj2 (Nat.leb_le (S row) (mr F A))), (proj2 (Nat.leb_le row (S row))) by lia.
  cbn [andb]. cbv zeta. replace (S row - row) with 1 by lia. reflexivity.
Qed.

Lemma new_mtx_stored : forall n m, stored (new_mtx F n m).
Proof. intros n m. unfold Dense_Spec.stored, new_mtx. cbn [mr mc sp]. apply repeat_length. Qed.

(** Copying one row without the columns [fc,lc). *)
Lemma row_without : forall fc lc k k' A T, stored A -> stored T -> fc <= lc -> lc <= mc F A -> k < mr F A ->
  k' < mr F T -> mc F T = mc F A - (lc - fc) ->
  exists T', match forM 0 fc (fun l T => copy_cell F k' l k l A T) T with
    | None => None
    | Some T => forM lc (mc F A) (fun l T => copy_cell F k' (l - (lc - fc)) k l A T) T
    end = Some T' /\ mr F T' = mr F T /\ mc F T' = mc F T /\ stored T' /\
    forall a b, get F T' a b = if (a =? k') && (b <? mc F T) then get F A k (if b <? fc then b else b + (lc - fc)) else get F T a b.
Proof.
  intros fc lc k k' A T SA ST L1 L2 Lk Lk' Ec.
  destruct (forM_ind mtx (fun c U => mr F U = mr F T /\ mc F U = mc F T /\ stored U /\
      forall a b, get F U a b = if (a =? k') && (b <? c) then get F A k b else get F T a b)
      0 fc (fun l T => copy_cell F k' l k l A T) T) as [U [E [U1 [U2 [U3 U4]]]]].
  - lia.
  - repeat (split; [auto|]). intros a b. now rewrite andb_false_r.
  - intros l U Ll [U1 [U2 [U3 U4]]].
    destruct (copy_cell_spec k' l k l A U SA U3) as [U' [E [V1 [V2 [V3 V4]]]]]; try lia.
    exists U'. split; [exact E|]. split; [congruence|split; [congruence|split; [exact V3|]]].
    intros a b. rewrite V4, U4. destruct (Nat.eqb_spec a k'); cbn [andb]; [|reflexivity].
    destruct (Nat.eqb_spec b l) as [->|]; [now rewrite (proj2 (Nat.ltb_lt l (S l))) by lia|].
    destruct (Nat.ltb_spec b l); destruct (Nat.ltb_spec b (S l)); try lia; reflexivity.
  - rewrite E.
    destruct (forM_ind mtx (fun c U' => mr F U' = mr F T /\ mc F U' = mc F T /\ stored U' /\
      forall a b, get F U' a b = if (a =? k') && (b <? c - (lc - fc)) then get F A k (if b <? fc then b else b + (lc - fc)) else get F T a b)
      lc (mc F A) (fun l T => copy_cell F k' (l - (lc - fc)) k l A T) U) as [U' [E' [V1 [V2 [V3 V4]]]]].
    + exact L2.
    + repeat (split; [assumption|]). intros a b. rewrite U4.
      replace (lc - (lc - fc)) with fc by lia.
      destruct (Nat.eqb_spec a k'); cbn [andb]; [|reflexivity]. destruct (Nat.ltb_spec b fc); reflexivity.
    + intros l V Ll [V1 [V2 [V3 V4]]].
      destruct (copy_cell_spec k' (l - (lc - fc)) k l A V SA V3) as [V' [E' [W1 [W2 [W3 W4]]]]]; try lia.
      exists V'. split; [exact E'|]. split; [congruence|split; [congruence|split; [exact W3|]]].
      intros a b. rewrite W4, V4. destruct (Nat.eqb_spec a k'); cbn [andb]; [|reflexivity].
      destruct (Nat.eqb_spec b (l - (lc - fc))) as [->|].
      * rewrite (proj2 (Nat.ltb_lt (l - (lc - fc)) (S l - (lc - fc)))) by lia.
        destruct (Nat.ltb_spec (l - (lc - fc)) fc); [lia|]. f_equal. lia.
      * destruct (Nat.ltb_spec b (l - (lc - fc))); destruct (Nat.ltb_spec b (S l - (lc - fc))); try lia; reflexivity.
    + exists U'. split; [exact E'|]. repeat (split; [assumption|]). intros a b. rewrite V4. now rewrite Ec.
Qed.

Lemma remove_subset_spec : forall fr lr fc lc A, stored A -> fr <= lr -> lr <= mr F A -> fc <= lc -> lc <= mc F A ->
  exists A', remove_subset F fr lr fc lc A = Some A' /\ stored A' /\
    mr F A' = mr F A - (lr - fr) /\ mc F A' = mc F A - (lc - fc) /\
    forall a b, a < mr F A' -> b < mc F A' ->
      get F A' a b = get F A (if a <? fr then a else a + (lr - fr)) (if b <? fc then b else b + (lc - fc)).
Proof.
  intros fr lr fc lc A SA L1 L2 L3 L4. unfold remove_subset. cbv zeta.
  set (T0 := new_mtx F (mr F A - (lr - fr)) (mc F A - (lc - fc))).
  destruct (forM_ind mtx (fun c T => mr F T = mr F T0 /\ mc F T = mc F T0 /\ stored T /\
     forall a b, a < c -> b < mc F T0 -> get F T a b = get F A a (if b <? fc then b else b + (lc - fc)))
     0 fr (fun k T => match forM 0 fc (fun l T => copy_cell F k l k l A T) T with
        | None => None
        | Some T => forM lc (mc F A) (fun l T => copy_cell F k (l - (lc - fc)) k l A T) T end) T0) as [T [E [H1 [H2 [H3 H4]]]]].
  - lia.
  - split; [reflexivity|split; [reflexivity|split; [apply new_mtx_stored|]]]. intros a b La. lia.
  - intros k T Lk [H1 [H2 [H3 H4]]].
    destruct (row_without fc lc k k A T SA H3 L3 L4) as [T' [E [V1 [V2 [V3 V4]]]]]; [lia|unfold T0 in H1; cbn [mr new_mtx] in H1; lia|exact H2|].
    exists T'. split; [exact E|]. split; [congruence|split; [congruence|split; [exact V3|]]].
    intros a b La Lb. rewrite V4, H2, (proj2 (Nat.ltb_lt _ _) Lb), andb_true_r.
    destruct (Nat.eqb_spec a k) as [->|]; [reflexivity|]. apply H4; [lia|exact Lb].
  - rewrite E.
    destruct (forM_ind mtx (fun c U => mr F U = mr F T0 /\ mc F U = mc F T0 /\ stored U /\
      forall a b, a < c - (lr - fr) -> b < mc F T0 ->
        get F U a b = get F A (if a <? fr then a else a + (lr - fr)) (if b <? fc then b else b + (lc - fc)))
      lr (mr F A) (fun k T => match forM 0 fc (fun l T => copy_cell F (k - (lr - fr)) l k l A T) T with
        | None => None
        | Some T => forM lc (mc F A) (fun l T => copy_cell F (k - (lr - fr)) (l - (lc - fc)) k l A T) T end) T) as [U [E' [U1 [U2 [U3 U4]]]]].
    + exact L2.
    + repeat (split; [assumption|]). intros a b La Lb. rewrite (proj2 (Nat.ltb_lt a fr)) by lia. apply H4; [lia|exact Lb].
    + intros k U Lk [U1 [U2 [U3 U4]]].
      destruct (row_without fc lc k (k - (lr - fr)) A U SA U3 L3 L4) as [U' [E' [V1 [V2 [V3 V4]]]]];
        [lia|unfold T0 in U1; cbn [mr new_mtx] in U1; lia|exact U2|].
      exists U'. split; [exact E'|]. split; [congruence|split; [congruence|split; [exact V3|]]].
      intros a b La Lb. rewrite V4, U2, (proj2 (Nat.ltb_lt _ _) Lb), andb_true_r.
      destruct (Nat.eqb_spec a (k - (lr - fr))) as [->|].
      * destruct (Nat.ltb_spec (k - (lr - fr)) fr); [lia|]. now replace (k - (lr - fr) + (lr - fr)) with k by lia.
      * apply U4; [lia|exact Lb].
    + exists U. split; [exact E'|]. split; [exact U3|].
      assert (M1 : mr F T0 = mr F A - (lr - fr)) by reflexivity.
      assert (M2 : mc F T0 = mc F A - (lc - fc)) by reflexivity.
      split; [congruence|split; [congruence|]].
      intros a b La Lb. apply U4; lia.
Qed.

Lemma remove_cols_spec : forall fc lc A, stored A -> fc < mc F A -> lc <= mc F A -> fc <= lc ->
  exists A', remove_cols F fc lc A = Some A' /\ stored A' /\ mr F A' = mr F A /\ mc F A' = mc F A - (lc - fc) /\
    forall a b, a < mr F A' -> b < mc F A' -> get F A' a b = get F A a (if b <? fc then b else b + (lc - fc)).
Proof.
  intros fc lc A SA L1 L2 L3. unfold remove_cols.
  rewrite (proj2 (Nat.ltb_lt _ _) L1), (proj2 (Nat.leb_le _ _) L2), (proj2 (Nat.leb_le _ _) L3). cbn [andb]. cbv zeta.
  set (T0 := new_mtx F (mr F A) (mc F A - (lc - fc))).
  destruct (forM_ind mtx (fun c T => mr F T = mr F T0 /\ mc F T = mc F T0 /\ stored T /\
     forall a b, a < c -> b < mc F T0 -> get F T a b = get F A a (if b <? fc then b else b + (lc - fc)))
     0 (mr F A) (fun k T => match forM 0 fc (fun l T => copy_cell F k l k l A T) T with
        | None => None
        | Some T => forM lc (mc F A) (fun l T => copy_cell F k (l - (lc - fc)) k l A T) T end) T0) as [T [E [H1 [H2 [H3 H4]]]]].
  - lia.
  - split; [reflexivity|split; [reflexivity|split; [apply new_mtx_stored|]]]. intros a b La. lia.
  - intros k T Lk [H1 [H2 [H3 H4]]].
    destruct (row_without fc lc k k A T SA H3 L3 L2) as [T' [E [V1 [V2 [V3 V4]]]]]; [lia|unfold T0 in H1; cbn [mr new_mtx] in H1; lia|exact H2|].
    exists T'. split; [exact E|]. split; [congruence|split; [congruence|split; [exact V3|]]].
    intros a b La Lb. rewrite V4, H2, (proj2 (Nat.ltb_lt _ _) Lb), andb_true_r.
    destruct (Nat.eqb_spec a k) as [->|]; [reflexivity|]. apply H4; [lia|exact Lb].
  - exists T. split; [exact E|]. split; [exact H3|].
    assert (M1 : mr F T0 = mr F A) by reflexivity.
    assert (M2 : mc F T0 = mc F A - (lc - fc)) by reflexivity.
    split; [congruence|split; [congruence|]]. intros a b La Lb. apply H4; lia.
Qed.

(** ** Packed symmetric storage *)
Definition tri (i : nat) : nat := i * (i + 1) / 2.
Lemma tri_S : forall i, tri (S i) = tri i + S i.
Proof.
  intro i. unfold tri. replace (S i * (S i + 1)) with (i * (i + 1) + S i * 2) by lia.
  rewrite Nat.div_add by lia. reflexivity.
Qed.
Lemma tri_0 : tri 0 = 0.
Proof. reflexivity. Qed.
Lemma tri_le : forall i n, i <= n -> tri i <= n * i.
Proof.
  induction i as [|i IH]; intros n L; [rewrite tri_0; lia|]. rewrite tri_S. specialize (IH n ltac:(lia)). nia.
Qed.

(** First position of row i (entries from the diagonal on). *)
Fixpoint row_start (n i : nat) : nat := match i with O => 0 | S i => row_start n i + (n - i) end.

Lemma row_start_tri : forall n i, i <= n -> row_start n i + tri i = n * i + i.
Proof.
  intros n i. induction i as [|i IH]; intro L; cbn [row_start]; [rewrite tri_0; lia|]. rewrite tri_S.
  specialize (IH ltac:(lia)). nia.
Qed.

Lemma row_start_n : forall n, row_start n n = n * (n + 1) / 2.
Proof.
  intro n. pose proof (row_start_tri n n (Nat.le_refl n)) as E. fold (tri n).
  assert (H : tri n + tri n = n * n + n).
  { clear. induction n as [|n IH]; [reflexivity|]. rewrite tri_S. nia. }
  lia.
Qed.

Lemma row_start_mono : forall n i k, i <= k -> row_start n i <= row_start n k.
Proof. intros n i k L. induction L; cbn [row_start]; lia. Qed.

Lemma index_upper : forall n i j, i <= j < n -> sym_index n i j = row_start n i + (j - i).
Proof.
  intros n i j L. unfold sym_index. rewrite (proj2 (Nat.ltb_ge j i)) by lia. fold (tri i).
  pose proof (row_start_tri n i ltac:(lia)). pose proof (tri_le i n ltac:(lia)). lia.
Qed.

Lemma index_sym : forall n i j, sym_index n i j = sym_index n j i.
Proof.
  intros n i j. unfold sym_index. destruct (Nat.ltb_spec j i); destruct (Nat.ltb_spec i j); try lia; try reflexivity.
  now replace i with j by lia.
Qed.

Lemma index_min : forall n i j, sym_index n i j = sym_index n (min i j) (max i j).
Proof.
  intros n i j. destruct (Nat.le_ge_cases i j).
  - now rewrite Nat.min_l, Nat.max_r by lia.
  - rewrite Nat.min_r, Nat.max_l by lia. apply index_sym.
Qed.

Lemma index_bound : forall n i j, i < n -> j < n -> sym_index n i j < n * (n + 1) / 2.
Proof.
  intros n i j Li Lj. rewrite index_min, index_upper by lia. rewrite <- row_start_n.
  pose proof (row_start_mono n (S (min i j)) n ltac:(lia)) as H. cbn [row_start] in H. lia.
Qed.

Lemma index_inj : forall n i j k l, i < n -> j < n -> k < n -> l < n ->
  sym_index n i j = sym_index n k l -> (i = k /\ j = l) \/ (i = l /\ j = k).
Proof.
  intros n i j k l Li Lj Lk Ll E. rewrite (index_min n i j), (index_min n k l) in E.
  rewrite !index_upper in E by lia.
  assert (M : min i j = min k l).
  { destruct (Nat.lt_trichotomy (min i j) (min k l)) as [L|[L|L]]; [|exact L|]; exfalso.
    - pose proof (row_start_mono n (S (min i j)) (min k l) ltac:(lia)) as H. cbn [row_start] in H. lia.
    - pose proof (row_start_mono n (S (min k l)) (min i j) ltac:(lia)) as H. cbn [row_start] in H. lia. }
  rewrite M in E. lia.
Qed.

Lemma index_onto : forall n p, p < n * (n + 1) / 2 -> exists i j, i <= j < n /\ sym_index n i j = p.
Proof.
  intros n p. rewrite <- row_start_n. intro L.
  assert (H : forall k, k <= n -> p < row_start n k -> exists i j, i <= j < n /\ sym_index n i j = p).
  { induction k as [|k IH]; intros Lk Lp; cbn [row_start] in Lp; [lia|].
    destruct (Nat.lt_ge_cases p (row_start n k)) as [H|H]; [apply IH; lia|].
    exists k, (k + (p - row_start n k)). split; [lia|]. rewrite index_upper by lia. lia. }
  exact (H n (Nat.le_refl n) L).
Qed.

Definition sstored (A : smtx F) : Prop := length (ssp F A) = sn F A * (sn F A + 1) / 2.

Lemma sym_get_total : forall A i j, sstored A -> i < sn F A -> j < sn F A -> exists a, sym_get F A i j = Some a.
Proof.
  intros A i j St Li Lj. unfold sym_get. rewrite (proj2 (Nat.ltb_lt _ _) Li), (proj2 (Nat.ltb_lt _ _) Lj). cbn [andb].
  destruct (nth_error (ssp F A) _) eqn:E; [now eexists|]. apply nth_error_None in E. rewrite St in E.
  pose proof (index_bound (sn F A) i j Li Lj). lia.
Qed.

Lemma sym_set_spec : forall A i j v, sstored A -> i < sn F A -> j < sn F A ->
  exists A', sym_set F A i j v = Some A' /\ sstored A' /\ sn F A' = sn F A /\
  forall k l, k < sn F A -> l < sn F A ->
    sym_get F A' k l = if ((k =? i) && (l =? j)) || ((k =? j) && (l =? i)) then Some v else sym_get F A k l.
Proof.
  intros A i j v St Li Lj. unfold sym_set. rewrite (proj2 (Nat.ltb_lt _ _) Li), (proj2 (Nat.ltb_lt _ _) Lj). cbn [andb].
  pose proof (index_bound (sn F A) i j Li Lj) as Lb. rewrite <- St in Lb. rewrite (proj2 (Nat.ltb_lt _ _) Lb).
  eexists. split; [reflexivity|]. unfold sstored. cbn [sn ssp]. rewrite lset_length. split; [exact St|split; [reflexivity|]].
  intros k l Lk Ll. unfold sym_get. cbn [sn ssp]. rewrite (proj2 (Nat.ltb_lt _ _) Lk), (proj2 (Nat.ltb_lt _ _) Ll). cbn [andb].
  rewrite nth_error_lset.
  destruct (Nat.eqb_spec (sym_index (sn F A) i j) (sym_index (sn F A) k l)) as [E|N]; cbn [andb].
  - rewrite <- E, (proj2 (Nat.ltb_lt _ _) Lb).
    destruct (index_inj _ _ _ _ _ Li Lj Lk Ll E) as [[-> ->]|[-> ->]]; rewrite !Nat.eqb_refl; cbn [andb orb]; [reflexivity|].
    now rewrite orb_true_r.
  - destruct ((k =? i) && (l =? j)) eqn:C1.
    { apply andb_true_iff in C1. rewrite !Nat.eqb_eq in C1. destruct C1 as [-> ->]. congruence. }
    destruct ((k =? j) && (l =? i)) eqn:C2; [|reflexivity].
    apply andb_true_iff in C2. rewrite !Nat.eqb_eq in C2. destruct C2 as [-> ->]. rewrite (index_sym _ j i) in N. congruence.
Qed.

Lemma sym_from_spec : forall n rd, (forall i j, i <= j < n -> rd i j <> None) ->
  exists A, sym_from F n rd = Some A /\ sstored A /\ sn F A = n /\
  forall i j, i < n -> j < n -> sym_get F A i j = rd (min i j) (max i j).
Proof.
  intros n rd Tot. unfold sym_from.
  destruct (forM_ind (smtx F) (fun c A => sstored A /\ sn F A = n /\
    forall i j, min i j < c -> i < n -> j < n -> sym_get F A i j = rd (min i j) (max i j)) 0 n
    (fun i A => forM i n (fun j A => match rd i j with None => None | Some v => sym_set F A i j v end) A)
    (mk_smtx F n (repeat f0 (n * (n + 1) / 2)))) as [A [E [H1 [H2 H3]]]].
  - lia.
  - split; [apply repeat_length|split; [reflexivity|]]. intros. lia.
  - intros i A Li [H1 [H2 H3]].
    destruct (forM_ind (smtx F) (fun c B => sstored B /\ sn F B = n /\
      forall k l, (min k l < i \/ (min k l = i /\ max k l < c)) -> k < n -> l < n -> sym_get F B k l = rd (min k l) (max k l))
      i n (fun j A => match rd i j with None => None | Some v => sym_set F A i j v end) A) as [B [E [B1 [B2 B3]]]].
    + lia.
    + split; [exact H1|split; [exact H2|]]. intros k l H Lk Ll. apply H3; lia.
    + intros j B Lj [B1 [B2 B3]]. destruct (rd i j) as [v|] eqn:R; [|exfalso; apply (Tot i j); [lia|exact R]].
      destruct (sym_set_spec B i j v B1) as [B' [E [C1 [C2 C3]]]]; try lia.
      exists B'. split; [exact E|split; [exact C1|split; [congruence|]]].
      intros k l H Lk Ll. rewrite C3 by lia.
      destruct (Nat.eqb_spec k i) as [->|]; destruct (Nat.eqb_spec l j) as [->|]; cbn [andb orb].
      * rewrite Nat.min_l, Nat.max_r by lia. now symmetry.
      * destruct (Nat.eqb_spec i j) as [E1|]; cbn [andb].
        -- destruct (Nat.eqb_spec l i) as [E2|]; [lia|]. apply B3; lia.
        -- apply B3; lia.
      * destruct (Nat.eqb_spec k j) as [E1|]; cbn [andb].
        -- destruct (Nat.eqb_spec j i) as [E2|]; [lia|]. apply B3; lia.
        -- apply B3; lia.
      * destruct (Nat.eqb_spec k j) as [->|]; cbn [andb].
        -- destruct (Nat.eqb_spec l i) as [->|].
           ++ rewrite Nat.min_r, Nat.max_l by lia. now symmetry.
           ++ apply B3; lia.
        -- apply B3; lia.
    + exists B. split; [exact E|split; [exact B1|split; [exact B2|]]]. intros k l H Lk Ll. apply B3; lia.
  - exists A. split; [exact E|split; [exact H1|split; [exact H2|]]]. intros i j Li Lj. apply H3; lia.
Qed.

End Dense.
