(** Lemmas about the search tree. *)
From Coq Require Import List Bool Arith ZArith QArith Qabs Lia Lqa Permutation.
From Verif Require Import Util KD_Model KD_Spec.
Import ListNotations.
Open Scope Q_scope.

Lemma qlt_true : forall a b, qlt a b = true <-> a < b.
Proof.
  intros a b. unfold qlt. rewrite negb_true_iff. split; intros H.
  - apply Qnot_le_lt. intros L. apply Qle_bool_iff in L. congruence.
  - destruct (Qle_bool b a) eqn:E; auto. apply Qle_bool_iff in E. exfalso. apply (Qlt_not_le _ _ H E).
Qed.
Lemma qlt_false : forall a b, qlt a b = false <-> b <= a.
Proof.
  intros a b. unfold qlt. rewrite negb_false_iff. apply Qle_bool_iff.
Qed.
Ltac qcase a b := let E := fresh "E" in destruct (qlt a b) eqn:E; [apply qlt_true in E|apply qlt_false in E].

Lemma qmin_l : forall a b, qmin a b <= a.
Proof. intros a b. unfold qmin. qcase b a; lra. Qed.
Lemma qmin_r : forall a b, qmin a b <= b.
Proof. intros a b. unfold qmin. qcase b a; lra. Qed.
Lemma qmax_l : forall a b, a <= qmax a b.
Proof. intros a b. unfold qmax. qcase a b; lra. Qed.
Lemma qmax_r : forall a b, b <= qmax a b.
Proof. intros a b. unfold qmax. qcase a b; lra. Qed.

(** ** Box tests *)
Definition in_box (m : Q) (p : point) (b : box) : Prop :=
  forall i, (i < 3)%nat -> fst (b i) - m <= p i <= snd (b i) + m.

Lemma bbox_point_ok : forall p b, bbox_point p b = true <-> in_box margin p b.
Proof.
  intros p b. unfold bbox_point, in_box. rewrite forallb_forall. split.
  - intros H i Hi. assert (In i [0;1;2]%nat) as Hin by (cbn; lia). specialize (H i Hin).
    apply negb_true_iff, orb_false_iff in H as [H1 H2]. apply qlt_false in H1. apply qlt_false in H2. auto.
  - intros H i Hi. assert (i < 3)%nat as L by (cbn in Hi; lia). destruct (H i L) as [H1 H2].
    apply negb_true_iff, orb_false_iff. split; apply qlt_false; auto.
Qed.

Lemma closest_le : forall p b y i, fst (b i) <= y i <= snd (b i) ->
  (bbox_closest_point p b i - p i) * (bbox_closest_point p b i - p i) <= (y i - p i) * (y i - p i).
Proof.
  intros p b y i [H1 H2]. unfold bbox_closest_point. qcase (p i) (fst (b i)).
  - nra.
  - qcase (snd (b i)) (p i); [nra|].
    setoid_replace ((p i - p i) * (p i - p i)) with 0 by ring. generalize (y i - p i). clear. intros z. nra.
Qed.
Lemma bbox_sphere_ok : forall p r b y, 0 <= r -> in_box 0 y b -> dist2 y p <= r * r ->
  bbox_sphere p r b = true.
Proof.
  intros p r b y Hr Hb Hd. unfold bbox_sphere. apply andb_true_iff. split; apply Qle_bool_iff; auto.
  unfold dist2 in *.
  assert (forall i, (i < 3)%nat -> fst (b i) <= y i <= snd (b i)) as H.
  { intros i Hi. specialize (Hb i Hi). lra. }
  pose proof (closest_le p b y 0%nat (H 0%nat ltac:(lia))).
  pose proof (closest_le p b y 1%nat (H 1%nat ltac:(lia))).
  pose proof (closest_le p b y 2%nat (H 2%nat ltac:(lia))). lra.
Qed.
(** the test is exact for boxes that are not empty *)
Lemma bbox_sphere_point : forall p r b, (forall i, (i < 3)%nat -> fst (b i) <= snd (b i)) ->
  bbox_sphere p r b = true -> 0 <= r /\ exists y, in_box 0 y b /\ dist2 y p <= r * r.
Proof.
  intros p r b Hb H. unfold bbox_sphere in H. apply andb_true_iff in H as [H1 H2].
  apply Qle_bool_iff in H1. apply Qle_bool_iff in H2. split; auto.
  exists (bbox_closest_point p b). split; auto. intros i Hi. unfold bbox_closest_point. specialize (Hb i Hi).
  qcase (p i) (fst (b i)); [lra|]. qcase (snd (b i)) (p i); lra.
Qed.

Definition tiny : Q := 1 # 1000000000000000.

Lemma div_le : forall a d t, 0 < d -> a <= t * d -> a / d <= t.
Proof. intros a d t Hd H. apply Qle_shift_div_r; auto. Qed.
Lemma le_div : forall a d t, 0 < d -> t * d <= a -> t <= a / d.
Proof. intros a d t Hd H. apply Qle_shift_div_l; auto. Qed.
Lemma div_neg : forall a d, d < 0 -> a / d == (- a) / (- d).
Proof. intros a d H. field. lra. Qed.

Lemma axis_between : forall lo hi p d t, ~ (qabs d < tiny) -> lo <= p + t * d <= hi ->
  let t1 := (lo - p) / d in let t2 := (hi - p) / d in
  (t1 <= t <= t2) \/ (t2 <= t <= t1).
Proof.
  intros lo hi p d t Hd [H1 H2] t1 t2. unfold qabs, tiny in Hd.
  destruct (Qlt_le_dec 0 d) as [L|L].
  - left. split; [apply div_le|apply le_div]; auto; lra.
  - right. assert (d < 0) as N.
    { destruct (Qlt_le_dec d 0); auto. exfalso. apply Hd. qcase d 0; lra. }
    unfold t1, t2. split; rewrite div_neg by auto; [apply div_le|apply le_div]; lra.
Qed.

Lemma segment_axis_ok : forall p1 p2 b t tn tf i, 0 <= t <= 1 -> tn <= t <= tf ->
  fst (b i) - margin + tiny <= on_segment p1 p2 t i <= snd (b i) + margin - tiny ->
  exists tn' tf', segment_axis p1 p2 b (Some (tn, tf)) i = Some (tn', tf') /\ tn' <= t <= tf'.
Proof.
  intros p1 p2 b t tn tf i Ht Hi Hx. unfold segment_axis. unfold on_segment in Hx.
  fold tiny. qcase (qabs (p2 i - p1 i)) tiny.
  - assert (- tiny <= t * (p2 i - p1 i) <= tiny) as Hs.
    { unfold qabs in E. qcase (p2 i - p1 i) 0; nra. }
    assert (qlt (p1 i) (fst (b i) - margin) = false) as -> by (apply qlt_false; lra).
    assert (qlt (snd (b i) + margin) (p1 i) = false) as -> by (apply qlt_false; lra).
    cbn. eauto.
  - assert (0 < tiny) as T by (unfold tiny; lra).
    destruct (axis_between (fst (b i) - margin) (snd (b i) + margin) (p1 i) (p2 i - p1 i) t) as [B|B]; [lra|lra| |];
    cbv zeta in B; set (t1 := (fst (b i) - margin - p1 i) / (p2 i - p1 i)) in *;
    set (t2 := (snd (b i) + margin - p1 i) / (p2 i - p1 i)) in *; clearbody t1 t2.
    all: cbv zeta; match goal with |- context[if qlt ?x ?y then (?x, ?y) else _] => qcase x y end.
    all: match goal with |- context[if qlt ?x ?y then ?y else ?x] => qcase x y end.
    all: match goal with |- context[if qlt ?x ?y then ?x else ?y] => qcase x y end.
    all: repeat match goal with |- context[qlt ?x ?y] =>
           let X := fresh in assert (qlt x y = false) as X by (apply qlt_false; lra); rewrite X; clear X end.
    all: do 2 eexists; split; [reflexivity|lra].
Qed.
Lemma segment_bbox_ok : forall p1 p2 b t, 0 <= t <= 1 ->
  in_box (margin - tiny) (on_segment p1 p2 t) b -> segment_bbox p1 p2 b = true.
Proof.
  intros p1 p2 b t Ht Hb. unfold segment_bbox.
  assert (forall i, (i < 3)%nat -> fst (b i) - margin + tiny <= on_segment p1 p2 t i <= snd (b i) + margin - tiny) as H.
  { intros i Hi. specialize (Hb i Hi). lra. }
  cbn [fold_left].
  destruct (segment_axis_ok p1 p2 b t (inject_Z (-100000000000000000000)) (inject_Z 100000000000000000000) 0%nat Ht)
    as (a0 & c0 & -> & B0); [unfold inject_Z; lra|apply H; lia|].
  destruct (segment_axis_ok p1 p2 b t a0 c0 1%nat Ht B0) as (a1 & c1 & -> & B1); [apply H; lia|].
  destruct (segment_axis_ok p1 p2 b t a1 c1 2%nat Ht B1) as (a2 & c2 & -> & B2); [apply H; lia|].
  reflexivity.
Qed.

(** ** The tree *)
Section Tree.
Variable A : Type.
Variable nodes : A -> list point.
Variable dims : nat.
Variable rnd : Q -> Q.
Variable srt : nat -> list A -> list A.
Hypothesis srt_perm : forall dim l, Permutation (srt dim l) l.

Fixpoint elements (t : tree A) : list A :=
  match t with Leaf e _ => [e] | Node _ l r => elements l ++ elements r end.

(** every box contains the boxes of the elements below *)
Definition box_le (b c : box) : Prop := forall i, fst (c i) <= fst (b i) /\ snd (b i) <= snd (c i).
Fixpoint boxed (t : tree A) : Prop :=
  match t with
  | Leaf e b => b = leaf_axis A nodes dims rnd e
  | Node b l r => boxed l /\ boxed r /\
      forall e, In e (elements l ++ elements r) -> box_le (leaf_axis A nodes dims rnd e) b
  end.
Lemma tbox_le : forall t e, boxed t -> In e (elements t) -> box_le (leaf_axis A nodes dims rnd e) (tbox t).
Proof.
  intros [e0 b|b l r] e H Hin.
  - cbn in *. destruct Hin as [<-|[]]. rewrite H. intros i. split; lra.
  - cbn in *. apply H, Hin.
Qed.

Lemma build_ok : forall fuel dim l, l <> [] -> (length l <= fuel)%nat ->
  exists t, build A nodes dims rnd srt fuel dim l = Some t /\ Permutation (elements t) l /\ boxed t.
Proof.
  induction fuel as [|f IH]; intros dim l Hl Hf; [destruct l; [congruence|cbn in Hf; lia]|].
  cbn [build]. destruct l as [|e [|e' r]]; [congruence| |].
  - eexists. split; [reflexivity|]. cbn. auto.
  - cbv zeta. set (l := e :: e' :: r) in *. pose proof (srt_perm dim l) as P. set (s := srt dim l) in *.
    assert (length s = length l) as Ls by apply Permutation_length, P.
    assert (2 <= length l)%nat as L2 by (unfold l; cbn; lia).
    set (h := (length s / 2)%nat). assert (1 <= h < length s)%nat as Hh by (unfold h; lia). clearbody h.
    destruct (IH ((dim + 1) mod 3)%nat (firstn h s)) as (t1 & -> & P1 & B1).
    { intros E. apply (f_equal (@length A)) in E. rewrite firstn_length_le in E by lia. cbn in E. lia. }
    { rewrite firstn_length_le by lia. lia. }
    destruct (IH ((dim + 1) mod 3)%nat (skipn h s)) as (t2 & -> & P2 & B2).
    { intros E. apply (f_equal (@length A)) in E. rewrite skipn_length in E. cbn in E. lia. }
    { rewrite skipn_length. lia. }
    eexists. split; [reflexivity|]. cbn [elements boxed]. split.
    + rewrite P1, P2, firstn_skipn. exact P.
    + split; auto. split; auto. intros x Hx. apply in_app_iff in Hx as [Hx|Hx].
      * pose proof (tbox_le t1 x B1 Hx) as H. intros i. specialize (H i). unfold join. cbn [fst snd].
        pose proof (qmin_l (fst (tbox t1 i)) (fst (tbox t2 i))).
        pose proof (qmax_l (snd (tbox t1 i)) (snd (tbox t2 i))). lra.
      * pose proof (tbox_le t2 x B2 Hx) as H. intros i. specialize (H i). unfold join. cbn [fst snd].
        pose proof (qmin_r (fst (tbox t1 i)) (fst (tbox t2 i))).
        pose proof (qmax_r (snd (tbox t1 i)) (snd (tbox t2 i))). lra.
Qed.

(** the box of an element contains its rounded nodes *)
Lemma leaf_fold : forall i xs b, 
  let r := fold_left (fun b x => (qmin (fst b) (rnd (x i)), qmax (snd b) (rnd (x i)))) xs b in
  fst r <= fst b /\ snd b <= snd r /\ forall x : point, In x xs -> fst r <= rnd (x i) <= snd r.
Proof.
  intros i xs. induction xs as [|y ys IH]; intros b; cbn [fold_left]; cbv zeta.
  - split; [lra|]. split; [lra|]. intros x [].
  - destruct (IH (qmin (fst b) (rnd (y i)), qmax (snd b) (rnd (y i)))) as (H1 & H2 & H3).
    cbn [fst snd] in H1, H2. pose proof (qmin_l (fst b) (rnd (y i))). pose proof (qmin_r (fst b) (rnd (y i))).
    pose proof (qmax_l (snd b) (rnd (y i))). pose proof (qmax_r (snd b) (rnd (y i))).
    split; [lra|]. split; [lra|]. intros x [<-|Hx]; [lra|apply H3, Hx].
Qed.

Lemma spanned_box : forall e p m, 0 <= m -> (forall x i, In x (nodes e) -> (i < dims)%nat -> Qabs (rnd (x i) - x i) <= m) ->
  spanned (nodes e) dims p -> in_box m p (leaf_axis A nodes dims rnd e).
Proof.
  intros e p m Hm Hr Hs i Hi. specialize (Hs i Hi). unfold leaf_axis. destruct (Nat.ltb_spec i dims) as [L|L].
  - destruct Hs as (x & y & Hx & Hy & H1 & H2).
    destruct (leaf_fold i (nodes e) (big, - big)) as (_ & _ & H). 
    pose proof (H x Hx) as Bx. pose proof (H y Hy) as By.
    pose proof (Hr x i Hx L) as Ex. pose proof (Hr y i Hy L) as Ey.
    apply Qabs_Qle_condition in Ex. apply Qabs_Qle_condition in Ey. lra.
  - cbn [fst snd]. unfold big. lra.
Qed.
Lemma in_box_le : forall m p b c, in_box m p b -> box_le b c -> in_box m p c.
Proof. intros m p b c H L i Hi. specialize (H i Hi). specialize (L i). lra. Qed.

(** *** Point search *)
Lemma search_sound : forall inside t p c, SubSearchCell A inside t p = Some c ->
  In c (elements t) /\ inside c p = true.
Proof.
  intros inside t p c. induction t as [e b|b l IHl r IHr]; cbn [SubSearchCell elements].
  - destruct (inside e p) eqn:E; [|discriminate]. intros H. injection H as <-. split; [left; auto|auto].
  - destruct (bbox_point p b); [|discriminate]. destruct (SubSearchCell A inside l p) eqn:E.
    + intros H. injection H as <-. destruct (IHl eq_refl). split; auto. apply in_app_iff. auto.
    + intros H. destruct (IHr H). split; auto. apply in_app_iff. auto.
Qed.
Lemma search_complete : forall inside t p e, boxed t -> In e (elements t) -> inside e p = true ->
  in_box margin p (leaf_axis A nodes dims rnd e) -> SubSearchCell A inside t p <> None.
Proof.
  intros inside t p e. induction t as [e0 b|b l IHl r IHr]; cbn [SubSearchCell elements boxed]; intros B Hin Hi Hb.
  - destruct Hin as [->|[]]. rewrite Hi. discriminate.
  - destruct B as (Bl & Br & B). assert (bbox_point p b = true) as ->.
    { apply bbox_point_ok. eapply in_box_le; [exact Hb|apply B, Hin]. }
    apply in_app_iff in Hin as [Hin|Hin].
    + specialize (IHl Bl Hin Hi Hb). destruct (SubSearchCell A inside l p); congruence.
    + specialize (IHr Br Hin Hi Hb). destruct (SubSearchCell A inside l p); [discriminate|auto].
Qed.

(** *** Intersections *)
Variable eqb : A -> A -> bool.
Hypothesis eqb_ok : forall x y, eqb x y = true <-> x = y.
Variable hit : A -> bool.
Variable cross : box -> bool.

Lemma mem_ok : forall e l, existsb (eqb e) l = true <-> In e l.
Proof.
  intros e l. rewrite existsb_exists. split.
  - intros (x & Hx & E). apply eqb_ok in E as <-. exact Hx.
  - intros H. exists e. split; auto. apply eqb_ok. reflexivity.
Qed.
Lemma intersect_ok : forall t hits, boxed t ->
  (forall e b, In e (elements t) -> hit e = true -> box_le (leaf_axis A nodes dims rnd e) b -> cross b = true) ->
  NoDup hits -> let r := sub_intersect A eqb hit cross t hits in
  NoDup r /\ forall x, In x r <-> In x hits \/ (In x (elements t) /\ hit x = true).
Proof.
  intros t. induction t as [e b|b l IHl r IHr]; intros hits B Hc Hn; cbn [sub_intersect elements]; cbv zeta.
  - destruct (existsb (eqb e) hits) eqn:E.
    + split; auto. intros x. split; auto. intros [H|[[<-|[]] _]]; auto. apply mem_ok, E.
    + assert (~ In e hits) as N by (rewrite <- mem_ok; congruence). destruct (hit e) eqn:Eh.
      * split.
        { apply (Permutation_NoDup (l := e :: hits)); [apply Permutation_cons_append|]. constructor; auto. }
        intros x. rewrite in_app_iff. cbn. intuition congruence.
      * split; auto. intros x. cbn. intuition congruence.
  - cbn [boxed] in B. destruct B as (Bl & Br & B).
    destruct (cross b) eqn:E.
    + destruct (IHl hits Bl) as (N1 & I1); auto.
      { intros e c He. apply Hc. cbn [elements]. apply in_app_iff. auto. }
      destruct (IHr (sub_intersect A eqb hit cross l hits) Br) as (N2 & I2); auto.
      { intros e c He. apply Hc. cbn [elements]. apply in_app_iff. auto. }
      split; auto. intros x. rewrite I2, I1, in_app_iff. tauto.
    + split; auto. intros x. split; auto. intros [H|[H Hh]]; auto.
      rewrite (Hc x b H Hh (B x H)) in E. discriminate.
Qed.
(** nothing but hits is reported, whatever the boxes *)
Lemma intersect_sound : forall t hits x, In x (sub_intersect A eqb hit cross t hits) ->
  In x hits \/ (In x (elements t) /\ hit x = true).
Proof.
  intros t. induction t as [e b|b l IHl r IHr]; intros hits x; cbn [sub_intersect elements].
  - destruct (existsb (eqb e) hits); auto. destruct (hit e) eqn:E; auto. rewrite in_app_iff. cbn.
    intros [H|[<-|[]]]; auto.
  - destruct (cross b); auto. intros H. destruct (IHr _ _ H) as [H1|[H1 H2]].
    + destruct (IHl _ _ H1) as [H3|[H3 H4]]; auto. right. split; auto. apply in_app_iff. auto.
    + right. split; auto. apply in_app_iff. auto.
Qed.
End Tree.

(** ** Results as cells or faces *)
Lemma push_new_ok : forall acc x, NoDup acc -> NoDup (push_new Nat.eqb acc x) /\
  forall y, In y (push_new Nat.eqb acc x) <-> In y acc \/ y = x.
Proof.
  intros acc x Hn. unfold push_new. destruct (existsb (Nat.eqb x) acc) eqn:E.
  - split; auto. intros y. split; auto. intros [H| ->]; auto.
    apply existsb_exists in E as (z & Hz & E). apply Nat.eqb_eq in E as <-. exact Hz.
  - assert (~ In x acc) as N.
    { intros H. assert (existsb (Nat.eqb x) acc = true); [|congruence]. apply existsb_exists. exists x.
      rewrite Nat.eqb_refl. auto. }
    split.
    + apply (Permutation_NoDup (l := x :: acc)); [apply Permutation_cons_append|]. constructor; auto.
    + intros y. rewrite in_app_iff. cbn. intuition.
Qed.
Lemma push_all_ok : forall l acc, NoDup acc -> NoDup (fold_left (push_new Nat.eqb) l acc) /\
  forall y, In y (fold_left (push_new Nat.eqb) l acc) <-> In y acc \/ In y l.
Proof.
  induction l as [|x r IH]; intros acc Hn; cbn [fold_left].
  - split; auto. intros y. cbn. tauto.
  - destruct (push_new_ok acc x Hn) as (N1 & I1). destruct (IH _ N1) as (N2 & I2). split; auto.
    intros y. rewrite I2, I1. cbn. intuition.
Qed.
Lemma collect_cells_ok : forall is_cell cells temp, NoDup (collect_cells is_cell cells temp) /\
  forall c, In c (collect_cells is_cell cells temp) <->
    exists e, In e temp /\ if is_cell e then c = e else In c (cells e).
Proof.
  intros is_cell cells temp. unfold collect_cells.
  assert (forall acc, NoDup acc ->
    let r := fold_left (fun acc e => if is_cell e then push_new Nat.eqb acc e
                          else fold_left (push_new Nat.eqb) (cells e) acc) temp acc in
    NoDup r /\ forall c, In c r <-> In c acc \/ exists e, In e temp /\ if is_cell e then c = e else In c (cells e)) as G.
  { induction temp as [|e r IH]; intros acc Hn; cbn [fold_left]; cbv zeta.
    - split; auto. intros c. split; auto. intros [H|(e & [] & _)]; auto.
    - set (acc' := if is_cell e then push_new Nat.eqb acc e else fold_left (push_new Nat.eqb) (cells e) acc).
      assert (NoDup acc' /\ forall c, In c acc' <-> In c acc \/ if is_cell e then c = e else In c (cells e)) as [N1 I1].
      { unfold acc'. destruct (is_cell e); [apply push_new_ok|apply push_all_ok]; auto. }
      destruct (IH acc' N1) as (N2 & I2). split; auto. intros c. rewrite I2, I1. split.
      + intros [[H|H]|(x & Hx & H)]; auto; right; [exists e|exists x]; cbn; auto.
      + intros [H|(x & [<-|Hx] & H)]; eauto. }
  destruct (G [] (NoDup_nil nat)) as (N & I). split; auto. intros c. rewrite I. split; auto. intros [[]|H]; auto.
Qed.
Lemma collect_faces_in : forall is_cell faces temp c, In c (collect_faces is_cell faces temp) <->
    exists e, In e temp /\ if is_cell e then In c (faces e) else c = e.
Proof.
  intros is_cell faces temp c. unfold collect_faces.
  assert (forall acc, 
    let r := fold_left (fun acc e => if is_cell e then fold_left (push_new Nat.eqb) (faces e) acc else acc ++ [e]) temp acc in
    In c r <-> In c acc \/ exists e, In e temp /\ if is_cell e then In c (faces e) else c = e) as G.
  { induction temp as [|e r IH]; intros acc; cbn [fold_left]; cbv zeta.
    - split; auto. intros [H|(e & [] & _)]; auto.
    - cbv zeta in IH. rewrite IH.
      assert (In c (if is_cell e then fold_left (push_new Nat.eqb) (faces e) acc else acc ++ [e]) <->
        In c acc \/ if is_cell e then In c (faces e) else c = e) as I1.
      { destruct (is_cell e).
        - clear. revert acc. induction (faces e) as [|x l IHl]; intros acc; cbn [fold_left].
          + cbn. tauto.
          + rewrite IHl. unfold push_new. destruct (existsb (Nat.eqb x) acc) eqn:E.
            * apply existsb_exists in E as (z & Hz & E). apply Nat.eqb_eq in E as <-. cbn. intuition congruence.
            * rewrite in_app_iff. cbn. tauto.
        - rewrite in_app_iff. cbn. intuition. }
      rewrite I1. split.
      + intros [[H|H]|(x & Hx & H)]; auto; right; [exists e|exists x]; cbn; auto.
      + intros [H|(x & [<-|Hx] & H)]; eauto. }
  rewrite (G []). split; auto. intros [[]|H]; auto.
Qed.
Lemma collect_faces_nodup : forall is_cell faces temp, NoDup temp ->
  (forall e, In e temp -> is_cell e = true) \/ (forall e, In e temp -> is_cell e = false) ->
  NoDup (collect_faces is_cell faces temp).
Proof.
  intros is_cell faces temp Hn [H|H]; unfold collect_faces.
  - assert (forall acc, NoDup acc -> NoDup (fold_left (fun acc e =>
      if is_cell e then fold_left (push_new Nat.eqb) (faces e) acc else acc ++ [e]) temp acc)) as G.
    { clear Hn. induction temp as [|e r IH]; intros acc Ha; cbn [fold_left]; auto.
      rewrite (H e (or_introl eq_refl)). apply IH; [auto using in_cons|]. apply push_all_ok, Ha. }
    apply G. constructor.
  - assert (forall acc, fold_left (fun acc e =>
      if is_cell e then fold_left (push_new Nat.eqb) (faces e) acc else acc ++ [e]) temp acc = acc ++ temp) as G.
    { clear Hn. induction temp as [|e r IH]; intros acc; cbn [fold_left]; [rewrite app_nil_r; auto|].
      rewrite (H e (or_introl eq_refl)), IH by auto using in_cons. rewrite <- app_assoc. reflexivity. }
    rewrite G. exact Hn.
Qed.

(** ** Error of the conversion to float *)
Lemma round_even_err : forall x, Qabs (inject_Z (round_even x) - x) <= 1 # 2.
Proof.
  intros [n d]. apply Qabs_Qle_condition. unfold round_even, Qle, Qminus, Qplus, Qopp, inject_Z. cbn [Qnum Qden].
  set (f := (n / Z.pos d)%Z). pose proof (Z.mod_pos_bound n (Z.pos d) (Pos2Z.is_pos d)) as B.
  pose proof (Z.div_mod n (Z.pos d) ltac:(lia)) as M. fold f in M.
  replace (n - f * Z.pos d)%Z with (n mod Z.pos d)%Z by lia. set (m := (n mod Z.pos d)%Z) in *.
  assert (forall g, (- Z.pos d <= 2 * (g * Z.pos d - n) <= Z.pos d)%Z ->
    ((- (1)) * Z.pos (1 * d) <= (g * Z.pos d + - n * 1) * 2 /\ (g * Z.pos d + - n * 1) * 2 <= 1 * Z.pos (1 * d))%Z) as G.
  { intros g Hg. rewrite Pos.mul_1_l. lia. }
  destruct (Z.ltb_spec (2 * m) (Z.pos d)); [apply G; lia|].
  destruct (Z.ltb_spec (Z.pos d) (2 * m)); [apply G; lia|].
  destruct (Z.even f); apply G; lia.
Qed.
Lemma qpow2_pos : forall e, 0 < qpow2 e.
Proof.
  intros e. unfold qpow2. destruct (Z.leb_spec 0 e) as [H|H].
  - unfold Qlt, inject_Z. cbn. pose proof (Z.pow_pos_nonneg 2 e ltac:(lia) H). lia.
  - apply Qinv_lt_0_compat. unfold Qlt, inject_Z. cbn. pose proof (Z.pow_pos_nonneg 2 (- e) ltac:(lia) ltac:(lia)). lia.
Qed.
Lemma inject_pow_pos : forall e, (0 <= e)%Z -> 0 < inject_Z (2 ^ e).
Proof. intros e H. unfold Qlt, inject_Z. cbn. pose proof (Z.pow_pos_nonneg 2 e ltac:(lia) H). lia. Qed.
Lemma qpow2_add : forall a b, qpow2 (a + b) == qpow2 a * qpow2 b.
Proof.
  intros a b. unfold qpow2.
  assert (forall x y, (0 <= x)%Z -> (0 <= y)%Z -> inject_Z (2 ^ (x + y)) == inject_Z (2 ^ x) * inject_Z (2 ^ y)) as P.
  { intros x y Hx Hy. rewrite <- inject_Z_mult, Z.pow_add_r by lia. reflexivity. }
  destruct (Z.leb_spec 0 a), (Z.leb_spec 0 b), (Z.leb_spec 0 (a + b)); try lia.
  - apply P; lia.
  - pose proof (P (a + b)%Z (- b)%Z ltac:(lia) ltac:(lia)) as H2. replace (a + b + - b)%Z with a in H2 by lia.
    rewrite H2. pose proof (inject_pow_pos (- b) ltac:(lia)). field. lra.
  - pose proof (P a (- (a + b))%Z ltac:(lia) ltac:(lia)) as H2. replace (a + - (a + b))%Z with (- b)%Z in H2 by lia.
    rewrite H2. pose proof (inject_pow_pos a ltac:(lia)). pose proof (inject_pow_pos (- (a + b)) ltac:(lia)). field. split; lra.
  - pose proof (P (a + b)%Z (- a)%Z ltac:(lia) ltac:(lia)) as H2. replace (a + b + - a)%Z with b in H2 by lia.
    rewrite H2. pose proof (inject_pow_pos (- a) ltac:(lia)). field. lra.
  - pose proof (P b (- (a + b))%Z ltac:(lia) ltac:(lia)) as H2. replace (b + - (a + b))%Z with (- a)%Z in H2 by lia.
    rewrite H2. pose proof (inject_pow_pos b ltac:(lia)). pose proof (inject_pow_pos (- (a + b)) ltac:(lia)). field. split; lra.
  - pose proof (P (- a)%Z (- b)%Z ltac:(lia) ltac:(lia)) as H2. replace (- a + - b)%Z with (- (a + b))%Z in H2 by lia.
    rewrite H2. pose proof (inject_pow_pos (- a) ltac:(lia)). pose proof (inject_pow_pos (- b) ltac:(lia)). field. split; lra.
Qed.
Lemma qpow2_0 : qpow2 0 == 1.
Proof. reflexivity. Qed.

(** 2^e is at most |x|, or e = -1000 *)
Lemma exponent_le : forall x M, Qabs x <= M -> 1 <= M -> 
  qpow2 (Z.log2 (Z.abs (Qnum x) * 2 ^ 1000 / Zpos (Qden x)) - 1000) <= M.
Proof.
  intros [n d] M Hx HM. cbn [Qnum Qden].
  set (F := (Z.abs n * 2 ^ 1000 / Z.pos d)%Z).
  assert (0 <= F)%Z as F0 by (apply Z.div_pos; [apply Z.mul_nonneg_nonneg; [lia|apply Z.pow_nonneg; lia]|lia]).
  destruct (Z.eq_dec F 0) as [E|E].
  - rewrite E. change (Z.log2 0) with 0%Z. assert (qpow2 (0 - 1000) <= 1); [|lra].
    unfold qpow2. change (0 <=? 0 - 1000)%Z with false. cbv iota.
    apply Qle_shift_inv_r; [apply inject_pow_pos; lia|]. rewrite Qmult_1_l.
    unfold Qle, inject_Z. cbn [Qnum Qden]. pose proof (Z.pow_pos_nonneg 2 (- (0 - 1000)) ltac:(lia) ltac:(lia)). lia.
  - pose proof (Z.log2_spec F ltac:(lia)) as [L _].
    assert (qpow2 (Z.log2 F - 1000) * inject_Z (2 ^ 1000) <= Qabs (n # d) * inject_Z (2 ^ 1000)) as G.
    { pose proof (qpow2_add (Z.log2 F - 1000) 1000) as Q. replace (Z.log2 F - 1000 + 1000)%Z with (Z.log2 F) in Q by lia.
      change (qpow2 1000) with (inject_Z (2 ^ 1000)) in Q. rewrite <- Q.
      unfold qpow2. destruct (Z.leb_spec 0 (Z.log2 F)) as [_|H]; [|pose proof (Z.log2_nonneg F); lia].
      unfold Qle, Qabs, Qmult, inject_Z. cbn [Qnum Qden]. rewrite Pos.mul_1_r.
      assert (F * Z.pos d <= Z.abs n * 2 ^ 1000)%Z.
      { unfold F. pose proof (Z.mul_div_le (Z.abs n * 2 ^ 1000) (Z.pos d) ltac:(lia)). lia. }
      assert (2 ^ Z.log2 F * Z.pos d <= F * Z.pos d)%Z by (apply Z.mul_le_mono_nonneg_r; lia). lia. }
    pose proof (inject_pow_pos 1000 ltac:(lia)) as P.
    apply Qmult_le_r in G; [|exact P]. lra.
Qed.
Lemma rnd32_err : forall x M, Qabs x <= M -> 1 <= M -> Qabs (rnd32 x - x) <= M * (1 # 16777216).
Proof.
  intros x M Hx HM. unfold rnd32. destruct (Z.eqb_spec (Qnum x) 0) as [E|E].
  - assert (x == 0) as E0. { destruct x as [n d]. cbn in E. subst n. reflexivity. }
    rewrite E0. change (Qabs (0 - 0)) with 0. lra.
  - cbv zeta. pose proof (exponent_le x M Hx HM) as L.
    set (e := (Z.log2 (Z.abs (Qnum x) * 2 ^ 1000 / Z.pos (Qden x)) - 1000)%Z) in *. clearbody e.
    pose proof (round_even_err (x * qpow2 (23 - e))) as R. set (k := inject_Z (round_even (x * qpow2 (23 - e)))) in *. clearbody k.
    assert (qpow2 (23 - e) * qpow2 (e - 23) == 1) as U.
    { rewrite <- qpow2_add. replace (23 - e + (e - 23))%Z with 0%Z by lia. reflexivity. }
    assert (qpow2 (e - 23) == qpow2 e * (1 # 8388608)) as V.
    { unfold Z.sub. rewrite qpow2_add. reflexivity. }
    pose proof (qpow2_pos (e - 23)) as P1. pose proof (qpow2_pos e) as P2.
    apply Qabs_Qle_condition in R. apply Qabs_Qle_condition.
    assert (k * qpow2 (e - 23) - x == (k - x * qpow2 (23 - e)) * qpow2 (e - 23)) as ->.
    { setoid_replace ((k - x * qpow2 (23 - e)) * qpow2 (e - 23)) with
        (k * qpow2 (e - 23) - x * (qpow2 (23 - e) * qpow2 (e - 23))) by ring. rewrite U. ring. }
    set (u := k - x * qpow2 (23 - e)) in *. set (v := qpow2 (e - 23)) in *. clearbody u v. clear - R V P1 P2 L.
    split; nra.
Qed.
