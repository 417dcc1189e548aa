(** Proofs: what self-referencing assignments compute. *)
From Coq Require Import List Arith Lia Bool Field.
From Verif Require Import OField Util Dense_Model Dense_Spec Dense_Proofs DenseView_Proofs.
Import ListNotations.
Open Scope nat_scope.

Lemma nested_ind : forall S (P : nat -> nat -> S -> Prop) n m (outer : nat -> S -> option S) (inner : nat -> nat -> S -> option S) s,
  P 0 0 s ->
  (forall i s, i < n -> P i 0 s -> outer i s = forM 0 m (inner i) s) ->
  (forall i j s, i < n -> j < m -> P i j s -> exists s', inner i j s = Some s' /\ P i (Datatypes.S j) s') ->
  (forall i s, i < n -> P i m s -> P (Datatypes.S i) 0 s) ->
  exists s', forM 0 n outer s = Some s' /\ P n 0 s'.
Proof.
  intros S P n m outer inner s P0 Ho Hi He.
  apply (forM_ind S (fun i s => P i 0 s)); [lia|exact P0|].
  intros i t Li Pi. rewrite (Ho i t) by (try assumption; lia).
  destruct (forM_ind S (fun j s => P i j s) 0 m (inner i) t) as [t' [E Pt]]; [lia|exact Pi| |].
  - intros j u Lj Pu. apply Hi; [lia|lia|exact Pu].
  - exists t'. split; [exact E|]. apply He; [lia|exact Pt].
Qed.

Definition earlierb (i' j' i j : nat) : bool := (i' <? i) || ((i' =? i) && (j' <? j)).
Lemma earlierb_spec : forall i' j' i j, reflect (earlier i' j' i j) (earlierb i' j' i j).
Proof.
  intros i' j' i j. apply iff_reflect. unfold earlierb, earlier. rewrite orb_true_iff, andb_true_iff, !Nat.ltb_lt, Nat.eqb_eq. tauto.
Qed.

Section Dense.
Variable F : ofield.
Notation mtx := (mtx F).
Notation store := (store F).
Notation view := (view F).
Notation rd := (read F).

Section Self.
Variables (x : nat) (s0 : store).
Notation n := (mr F (sm F s0 x)).
Notation m := (mc F (sm F s0 x)).
Variable o : nat -> nat -> F.
Hypothesis St0 : stored_all F s0.
Hypothesis O : forall k l, k < n -> l < m -> get F (sm F s0 x) k l = Some (o k l).

(** The matrix x shows e, everything else is as at the start. *)
Definition showing (e : nat -> nat -> F) (s : store) : Prop :=
  same_shape F s0 s /\ stored_all F s /\ (forall y, y <> x -> sm F s y = sm F s0 y) /\
  forall k l, k < n -> l < m -> get F (sm F s x) k l = Some (e k l).

Lemma showing_write : forall e s i j a, showing e s -> i < n -> j < m ->
  exists s', write F s (Whole F x) i j a = Some s' /\ showing (fun k l => if (k =? i) && (l =? j) then a else e k l) s'.
Proof.
  clear St0 O o. intros e s i j a [Sh [St [Ot H]]] Li Lj. destruct (Sh x) as [S1 S2].
  destruct (write_spec F s (Whole F x) i j a St) as [s' [E [Sh' [St' [O' [R _]]]]]]; try exact I; rewrite ?rows_Whole, ?cols_Whole; try lia.
  exists s'. split; [exact E|]. split; [now apply (shape_trans F s0 s)|split; [exact St'|split]].
  - intros y N. rewrite O' by (cbn [uses]; congruence). now apply Ot.
  - intros k l Lk Ll. specialize (R k l). rewrite rows_Whole, cols_Whole in R. cbn [read] in R. rewrite R by lia.
    destruct (_ && _); [reflexivity|now apply H].
Qed.

Lemma showing_ext : forall e e' s, showing e s -> (forall k l, k < n -> l < m -> e k l = e' k l) -> showing e' s.
Proof.
  clear St0 O o. intros e e' s [Sh [St [Ot H]]] E. split; [exact Sh|split; [exact St|split; [exact Ot|]]].
  intros k l Lk Ll. rewrite H by assumption. now rewrite E.
Qed.

(** A loop over all entries, each assigned a value computed from the entries as they are. *)
Lemma self_loop : forall (f : store -> nat -> nat -> option F) (E : nat -> nat -> nat -> nat -> F) (outer : nat -> store -> option store) (g : nat -> nat -> F),
  (forall k l, k < n -> l < m -> E 0 0 k l = o k l) ->
  (forall i s, same_shape F s0 s -> outer i s = forM 0 m (fun j s => match f s i j with None => None | Some a => write F s (Whole F x) i j a end) s) ->
  (forall i j s, i < n -> j < m -> showing (E i j) s -> exists a, f s i j = Some a /\
     forall k l, k < n -> l < m -> E i (S j) k l = if (k =? i) && (l =? j) then a else E i j k l) ->
  (forall i k l, i < n -> k < n -> l < m -> E i m k l = E (S i) 0 k l) ->
  (forall k l, k < n -> l < m -> E n 0 k l = g k l) ->
  exists s', forM 0 n outer s0 = Some s' /\ showing g s'.
Proof.
  intros f E outer g E0 Ho Hs He Eg.
  destruct (nested_ind store (fun i j s => showing (E i j) s) n m outer
    (fun i j s => match f s i j with None => None | Some a => write F s (Whole F x) i j a end) s0) as [s' [Es H]].
  - split; [apply shape_refl|split; [exact St0|split; [reflexivity|]]]. intros k l Lk Ll. rewrite E0 by assumption. now apply O.
  - intros i s Li H. apply Ho. apply H.
  - intros i j s Li Lj H. destruct (Hs i j s Li Lj H) as [a [Ea Ha]]. rewrite Ea.
    destruct (showing_write (E i j) s i j a H Li Lj) as [s' [Es H']]. exists s'. split; [exact Es|].
    apply (showing_ext _ _ _ H'). intros k l Lk Ll. now rewrite Ha.
  - intros i s Li H. apply (showing_ext _ _ _ H). intros k l Lk Ll. now apply He.
  - exists s'. split; [exact Es|]. apply (showing_ext _ _ _ H). exact Eg.
Qed.

(** A(i,j) = h (A(i,j), A(j,i)) over a square matrix. *)
Lemma mirror_loop : forall (f : store -> nat -> nat -> option F) (h : F -> F -> F) (outer : nat -> store -> option store), n = m ->
  (forall i s, same_shape F s0 s -> outer i s = forM 0 m (fun j s => match f s i j with None => None | Some a => write F s (Whole F x) i j a end) s) ->
  (forall i j s a b, get F (sm F s x) i j = Some a -> get F (sm F s x) j i = Some b -> f s i j = Some (h a b)) ->
  exists s', forM 0 n outer s0 = Some s' /\
    showing (fun k l => if k <=? l then h (o k l) (o l k) else h (o k l) (h (o l k) (o k l))) s'.
Proof.
  intros f h outer Sq Ho Hf.
  apply (self_loop f (fun i j k l => if earlierb k l i j then (if k <=? l then h (o k l) (o l k) else h (o k l) (h (o l k) (o k l))) else o k l) outer).
  - intros k l Lk Ll. destruct (earlierb_spec k l 0 0) as [H|]; [unfold earlier in H; lia|reflexivity].
  - exact Ho.
  - intros i j s Li Lj [_ [_ [_ H]]]. eexists. split.
    + apply Hf; [apply H; assumption|apply H; lia].
    + intros k l Lk Ll.
      destruct (earlierb_spec i j i j) as [Hx|Hx]; [unfold earlier in Hx; lia|].
      destruct (Nat.eqb_spec k i) as [Ek|Nk]; cbn [andb].
      * subst k. destruct (Nat.eqb_spec l j) as [El|Nl].
        -- subst l. destruct (earlierb_spec i j i (S j)) as [Hy|Hy]; [|unfold earlier in Hy; lia].
           destruct (earlierb_spec j i i j) as [Hz|Hz]; unfold earlier in Hz.
           ++ destruct (Nat.leb_spec i j); [lia|]. destruct (Nat.leb_spec j i); [|lia]. reflexivity.
           ++ destruct (Nat.leb_spec i j); [reflexivity|lia].
        -- destruct (earlierb_spec i l i (S j)) as [Hy|Hy]; destruct (earlierb_spec i l i j) as [Hz|Hz]; unfold earlier in *; try lia; reflexivity.
      * destruct (earlierb_spec k l i (S j)) as [Hy|Hy]; destruct (earlierb_spec k l i j) as [Hz|Hz]; unfold earlier in *; try lia; reflexivity.
  - intros i k l Li Lk Ll. destruct (earlierb_spec k l i m) as [Hy|Hy]; destruct (earlierb_spec k l (S i) 0) as [Hz|Hz]; unfold earlier in *; try lia; reflexivity.
  - intros k l Lk Ll. destruct (earlierb_spec k l n 0) as [Hy|Hy]; unfold earlier in *; [reflexivity|lia].
Qed.

(** A(i,j) = h (A(i,j), A(r,c)) *)
Lemma coef_loop : forall (f : store -> nat -> nat -> option F) (h : F -> F -> F) (outer : nat -> store -> option store) r c, r < n -> c < m ->
  (forall i s, same_shape F s0 s -> outer i s = forM 0 m (fun j s => match f s i j with None => None | Some a => write F s (Whole F x) i j a end) s) ->
  (forall i j s a b, get F (sm F s x) i j = Some a -> get F (sm F s x) r c = Some b -> f s i j = Some (h a b)) ->
  exists s', forM 0 n outer s0 = Some s' /\
    showing (fun k l => if earlierb r c k l then h (o k l) (h (o r c) (o r c)) else h (o k l) (o r c)) s'.
Proof.
  intros f h outer r c Lr Lc Ho Hf.
  apply (self_loop f (fun i j k l => if earlierb k l i j then (if earlierb r c k l then h (o k l) (h (o r c) (o r c)) else h (o k l) (o r c)) else o k l) outer).
  - intros k l Lk Ll. destruct (earlierb_spec k l 0 0) as [H|]; [unfold earlier in H; lia|reflexivity].
  - exact Ho.
  - intros i j s Li Lj [_ [_ [_ H]]]. eexists. split.
    + apply Hf; [apply H; assumption|apply H; assumption].
    + intros k l Lk Ll.
      destruct (earlierb_spec i j i j) as [Hx|Hx]; [unfold earlier in Hx; lia|].
      destruct (earlierb_spec r c r c) as [Hx'|Hx']; [unfold earlier in Hx'; lia|].
      destruct (Nat.eqb_spec k i) as [Ek|Nk]; cbn [andb].
      * subst k. destruct (Nat.eqb_spec l j) as [El|Nl].
        -- subst l. destruct (earlierb_spec i j i (S j)) as [Hy|Hy]; [|unfold earlier in Hy; lia].
           destruct (earlierb r c i j); reflexivity.
        -- destruct (earlierb_spec i l i (S j)) as [Hy|Hy]; destruct (earlierb_spec i l i j) as [Hz|Hz]; unfold earlier in *; try lia; reflexivity.
      * destruct (earlierb_spec k l i (S j)) as [Hy|Hy]; destruct (earlierb_spec k l i j) as [Hz|Hz]; unfold earlier in *; try lia; reflexivity.
  - intros i k l Li Lk Ll. destruct (earlierb_spec k l i m) as [Hy|Hy]; destruct (earlierb_spec k l (S i) 0) as [Hz|Hz]; unfold earlier in *; try lia; reflexivity.
  - intros k l Lk Ll. destruct (earlierb_spec k l n 0) as [Hy|Hy]; unfold earlier in *; [reflexivity|lia].
Qed.

End Self.

(** ** A = A^T for a square matrix *)
Lemma entry_value : forall s x, stored_all F s -> forall k l, k < mr F (sm F s x) -> l < mc F (sm F s x) ->
  get F (sm F s x) k l = Some (match get F (sm F s x) k l with Some a => a | None => f0 end).
Proof. intros s x St k l Lk Ll. destruct (get_total F (sm F s x) k l (St x) Lk Ll) as [a ->]. reflexivity. Qed.

Lemma assign_tr : forall x s, stored_all F s -> mr F (sm F s x) = mc F (sm F s x) ->
  exists s', assign_mtx F x (Tr F (Whole F x)) s = Some s' /\ same_shape F s s' /\
    forall i j, i < mr F (sm F s x) -> j < mr F (sm F s x) -> get F (sm F s' x) i j = get F (sm F s x) (max i j) (min i j).
Proof.
  intros x s St Sq.
  destruct (assign_start F x (Tr F (Whole F x)) s St) as [s1 [E [St1 [R1 [C1 [O1 [Z1 [Rv [Cv [Rd Sm]]]]]]]]]].
  { right. rewrite rows_Tr, cols_Tr, rows_Whole, cols_Whole. lia. }
  rewrite rows_Tr, cols_Tr, rows_Whole, cols_Whole in *.
  assert (Sm' : forall y, sm F s1 y = sm F s y) by (apply Sm; lia). rewrite E.
  destruct (mirror_loop x s1 (fun k l => match get F (sm F s x) k l with Some a => a | None => f0 end) St1)
    with (f := fun s i j => rd s (Tr F (Whole F x)) i j) (h := fun _ b : F => b)
         (outer := fun i s => forM 0 (cols F s (Tr F (Whole F x))) (fun j s => match rd s (Tr F (Whole F x)) i j with None => None | Some a => write F s (Whole F x) i j a end) s)
    as [s' [E' [Sh [_ [_ H]]]]].
  - intros k l Lk Ll. rewrite Sm' in *. now apply entry_value.
  - rewrite Sm'. exact Sq.
  - intros i t Sh. rewrite cols_Tr, rows_Whole. rewrite (proj1 (Sh x)), Sm'. now rewrite Sq.
  - intros i j t a b Ha Hb. cbn [read]. exact Hb.
  - exists s'. split; [|split].
    + unfold copy_loop. rewrite rows_Tr, cols_Whole. rewrite Sm', <- Sq, <- (Sm' x). exact E'.
    + intro y. rewrite <- Sm'. apply Sh.
    + intros i j Li Lj. rewrite Sm' in H. rewrite H by lia. 
      destruct (Nat.leb_spec i j).
      * rewrite Nat.max_r, Nat.min_l by lia. symmetry. apply entry_value; [exact St|lia|lia].
      * rewrite Nat.max_l, Nat.min_r by lia. symmetry. apply entry_value; [exact St|lia|lia].
Qed.

Lemma write_shape : forall s t i j a s', write F s t i j a = Some s' -> same_shape F s s'.
Proof.
  intros s t i j a s' E. unfold write in E. destruct (addr F s t i j) as [[y k l|]|]; [| |discriminate]; cbn [put] in E.
  - destruct (set F (sm F s y) k l a) as [A|] eqn:Es; [|discriminate]. injection E as <-.
    apply set_spec in Es. intro z. cbn [sm]. destruct (Nat.eqb_spec z y) as [->|]; [|split; reflexivity].
    split; apply Es.
  - injection E as <-. intro z. split; reflexivity.
Qed.

Lemma copy_shape : forall t v s s', copy_loop F t v s = Some s' -> same_shape F s s'.
Proof.
  intros t v s s' E. unfold copy_loop in E. revert E. apply (forM_keep store (fun u => same_shape F s u)); [apply shape_refl|].
  intros i u u' Hu. apply (forM_keep store (fun u => same_shape F s u)); [exact Hu|].
  intros j w w' Hw Ew. destruct (rd w v i j) as [a|]; [|discriminate]. apply (shape_trans F s w); [exact Hw|]. now apply (write_shape w t i j a).
Qed.

Lemma assign_tr_size : forall x s s', assign_mtx F x (Tr F (Whole F x)) s = Some s' ->
  mr F (sm F s' x) = mc F (sm F s x) /\ mc F (sm F s' x) = mc F (sm F s x).
Proof.
  intros x s s' E. unfold assign_mtx in E. apply copy_shape in E. destruct (E x) as [-> ->].
  rewrite !rows_Tr, !cols_Tr, !rows_Whole, !cols_Whole. cbn [sm put_mtx]. rewrite !Nat.eqb_refl. cbn [mr mc].
  destruct (_ =? _); cbn [sm put_mtx]; rewrite ?Nat.eqb_refl; cbn [mc]; split; reflexivity.
Qed.

(** ** A += A^T *)
Lemma update_tr : forall op x s, stored_all F s -> mr F (sm F s x) = mc F (sm F s x) ->
  exists s', update_view F op (Whole F x) (Tr F (Whole F x)) s = Some s' /\ same_shape F s s' /\
    forall i j a b, i < mr F (sm F s x) -> j < mr F (sm F s x) -> get F (sm F s x) i j = Some a -> get F (sm F s x) j i = Some b ->
      get F (sm F s' x) i j = Some (if i <=? j then op a b else op a (op b a)).
Proof.
  intros op x s St Sq.
  destruct (mirror_loop x s (fun k l => match get F (sm F s x) k l with Some a => a | None => f0 end) St)
    with (f := fun s i j => lift2 F op (rd s (Whole F x) i j) (rd s (Tr F (Whole F x)) i j)) (h := op)
         (outer := fun i s => forM 0 (cols F s (Whole F x)) (fun j s => match lift2 F op (rd s (Whole F x) i j) (rd s (Tr F (Whole F x)) i j) with None => None | Some a => write F s (Whole F x) i j a end) s)
    as [s' [E' [Sh [_ [_ H]]]]].
  - intros k l Lk Ll. now apply entry_value.
  - exact Sq.
  - intros i t Sh. rewrite cols_Whole. now rewrite (proj2 (Sh x)).
  - intros i j t a b Ha Hb. cbn [read]. now rewrite Ha, Hb.
  - exists s'. split; [|split; [exact Sh|]].
    + unfold update_view. rewrite rows_Tr, cols_Tr, rows_Whole, cols_Whole, Sq, Nat.eqb_refl. cbn [andb]. rewrite <- Sq. exact E'.
    + intros i j a b Li Lj Ha Hb. rewrite H by lia. now rewrite Ha, Hb.
Qed.

(** ** A = A * A(r,c) and A = A / A(r,c) *)
Lemma assign_coef : forall op x r c s v, stored_all F s -> r < mr F (sm F s x) -> c < mc F (sm F s x) ->
  (v = Scale F (Whole F x) (Entry F x r c) /\ op = @fmul F \/ v = DivBy F (Whole F x) (Entry F x r c) /\ op = @fdiv F) ->
  exists s', assign_mtx F x v s = Some s' /\ same_shape F s s' /\
    forall i j a b, get F (sm F s x) i j = Some a -> get F (sm F s x) r c = Some b ->
      get F (sm F s' x) i j = Some (if earlierb r c i j then op a (op b b) else op a b).
Proof.
  intros op x r c s v St Lr Lc Hv.
  assert (Rv0 : forall t, rows F t v = mr F (sm F t x)) by (destruct Hv as [[-> _]|[-> _]]; reflexivity).
  assert (Cv0 : forall t, cols F t v = mc F (sm F t x)) by (destruct Hv as [[-> _]|[-> _]]; reflexivity).
  assert (Rd0 : forall t i j, rd t v i j = lift2 F op (get F (sm F t x) i j) (get F (sm F t x) r c)) by (destruct Hv as [[-> ->]|[-> ->]]; reflexivity).
  destruct (assign_start F x v s St) as [s1 [E [St1 [R1 [C1 [O1 [Z1 [Rv [Cv [Rd Sm]]]]]]]]]].
  { right. rewrite Rv0, Cv0. lia. }
  rewrite Rv0, Cv0 in *.
  assert (Sm' : forall y, sm F s1 y = sm F s y) by (apply Sm; lia). rewrite E.
  destruct (coef_loop x s1 (fun k l => match get F (sm F s x) k l with Some a => a | None => f0 end) St1)
    with (f := fun s i j => rd s v i j) (h := op) (r := r) (c := c)
         (outer := fun i s => forM 0 (cols F s v) (fun j s => match rd s v i j with None => None | Some a => write F s (Whole F x) i j a end) s)
    as [s' [E' [Sh [_ [_ H]]]]].
  - intros k l Lk Ll. rewrite Sm' in *. now apply entry_value.
  - now rewrite Sm'.
  - now rewrite Sm'.
  - intros i t Sh. rewrite Cv0. now rewrite (proj2 (Sh x)).
  - intros i j t a b Ha Hb. now rewrite Rd0, Ha, Hb.
  - exists s'. split; [|split].
    + unfold copy_loop. rewrite Rv0. exact E'.
    + intro y. rewrite <- Sm'. apply Sh.
    + intros i j a b Ha Hb. rewrite Sm' in H. destruct (get_range _ _ _ _ _ Ha). rewrite H by assumption.
      rewrite Ha, Hb. now destruct (earlierb r c i j).
Qed.

(** ** Rows moved down by one *)
Lemma shift_down : forall x s, stored_all F s -> 0 < mr F (sm F s x) ->
  exists s', assign_view F (Sub F (Whole F x) 1 (mr F (sm F s x)) 0 (mc F (sm F s x)))
                           (Sub F (Whole F x) 0 (mr F (sm F s x) - 1) 0 (mc F (sm F s x))) s = Some s' /\ same_shape F s s' /\
    forall i j, i < mr F (sm F s x) -> j < mc F (sm F s x) -> get F (sm F s' x) i j = get F (sm F s x) 0 j.
Proof.
  intros x s St Ln. set (n := mr F (sm F s x)) in *. set (m := mc F (sm F s x)).
  unfold assign_view. rewrite !rows_Sub, !cols_Sub. rewrite Nat.sub_0_r, !Nat.eqb_refl. cbn [andb].
  unfold copy_loop. rewrite rows_Sub, Nat.sub_0_r.
  set (o := fun k l => match get F (sm F s x) k l with Some a => a | None => f0 end).
  assert (Oo : forall k l, k < n -> l < m -> get F (sm F s x) k l = Some (o k l)) by (intros; now apply entry_value).
  pose (E := fun i j k l => if k =? 0 then o 0 l else if earlierb (k - 1) l i j then o 0 l else o k l).
  destruct (nested_ind store (fun i j t => showing x s (E i j) t) (n - 1) m
    (fun i s => forM 0 (cols F s (Sub F (Whole F x) 0 (n - 1) 0 m)) (fun j s => match rd s (Sub F (Whole F x) 0 (n - 1) 0 m) i j with None => None | Some a => write F s (Sub F (Whole F x) 1 n 0 m) i j a end) s)
    (fun i j s => match rd s (Sub F (Whole F x) 0 (n - 1) 0 m) i j with None => None | Some a => write F s (Sub F (Whole F x) 1 n 0 m) i j a end) s) as [s' [Es H]].
  - split; [apply shape_refl|split; [exact St|split; [reflexivity|]]]. intros k l Lk Ll. unfold E.
    destruct (earlierb_spec (k - 1) l 0 0) as [Hx|_]; [unfold earlier in Hx; lia|]. destruct (Nat.eqb_spec k 0) as [->|]; now apply Oo.
  - intros i t Li H. rewrite cols_Sub, Nat.sub_0_r. reflexivity.
  - intros i j t Li Lj H. cbn [read]. rewrite !Nat.sub_0_r, !Nat.add_0_r.
    rewrite (proj2 (Nat.ltb_lt i (n - 1))), (proj2 (Nat.ltb_lt j m)) by lia. cbn [andb].
    destruct H as [Sh [St' [Ot H]]]. rewrite H by (fold n m; lia).
    destruct (showing_write x s (E i j) t (S i) j (E i j i j)) as [t' [Et Ht]]; [split; [exact Sh|split; [exact St'|split; [exact Ot|exact H]]]|fold n; lia|exact Lj|].
    exists t'. split.
    + unfold write in *. cbn [addr] in *. rewrite Nat.sub_0_r, Nat.add_0_r. rewrite (proj2 (Nat.ltb_lt i (n - 1))), (proj2 (Nat.ltb_lt j m)) by lia. cbn [andb].
      replace (i + 1) with (S i) by lia. exact Et.
    + apply (showing_ext _ _ _ _ _ Ht). intros k l Lk Ll. unfold E.
      destruct (Nat.eqb_spec k (S i)) as [Ek|Nk]; cbn [andb].
      * subst k. replace (S i - 1) with i by lia. destruct (Nat.eqb_spec (S i) 0) as [?|_]; [lia|]. destruct (Nat.eqb_spec l j) as [El|Nl].
        -- subst l. destruct (earlierb_spec i j i (S j)) as [Hy|Hy]; [|unfold earlier in Hy; lia].
           destruct (Nat.eqb_spec i 0) as [|]; [reflexivity|].
           destruct (earlierb_spec (i - 1) j i j) as [Hz|Hz]; unfold earlier in Hz; [reflexivity|lia].
        -- destruct (earlierb_spec i l i (S j)) as [Hy|Hy]; destruct (earlierb_spec i l i j) as [Hz|Hz]; unfold earlier in *; try lia; reflexivity.
      * destruct (Nat.eqb_spec k 0) as [|Nz]; [reflexivity|].
        destruct (earlierb_spec (k - 1) l i (S j)) as [Hy|Hy]; destruct (earlierb_spec (k - 1) l i j) as [Hz|Hz]; unfold earlier in *; try lia; reflexivity.
  - intros i t Li H. apply (showing_ext _ _ _ _ _ H). intros k l Lk Ll. unfold E. destruct (k =? 0); [reflexivity|]. fold m in Ll.
    destruct (earlierb_spec (k - 1) l i m) as [Hy|Hy]; destruct (earlierb_spec (k - 1) l (S i) 0) as [Hz|Hz]; unfold earlier in *; try lia; reflexivity.
  - exists s'. split; [exact Es|]. destruct H as [Sh [_ [_ H]]]. split; [exact Sh|].
    intros i j Li Lj. rewrite H by assumption. rewrite Oo by (unfold n, m in *; lia). unfold E. destruct (Nat.eqb_spec i 0) as [|]; [reflexivity|].
    destruct (earlierb_spec (i - 1) j (n - 1) 0) as [Hy|Hy]; unfold earlier in Hy; [reflexivity|lia].
Qed.

End Dense.
