(** C80-C82: the search tree finds what a search over all elements would find. *)
From Coq Require Import List Bool Arith ZArith QArith Qabs Lia Lqa Permutation.
From Verif Require Import Util KD_Model KD_Spec KD_Proofs.
Import ListNotations.
Open Scope Q_scope.

(** ** C80: search of the cell that contains a point *)
(** The tree is built for every set but the empty one; for the empty set the assertion fails. *)
Theorem C80_build_total : forall A nodes dims rnd srt (l : list A),
  (forall dim l, Permutation (srt dim l) l) ->
  (SearchKDTree A nodes dims rnd srt l <> None <-> l <> []).
Proof.
  intros A nodes dims rnd srt l Hs. unfold SearchKDTree. split.
  - intros H ->. apply H. reflexivity.
  - intros H. destruct (build_ok A nodes dims rnd srt Hs (length l) 0 l H (le_n _)) as (t & -> & _). discriminate.
Qed.

(** What is found is one of the given elements and contains the point. *)
Theorem C80_search_sound : forall A nodes dims rnd srt inside (l : list A) t p c,
  (forall dim l, Permutation (srt dim l) l) ->
  SearchKDTree A nodes dims rnd srt l = Some t -> SubSearchCell A inside t p = Some c ->
  In c l /\ inside c p = true.
Proof.
  intros A nodes dims rnd srt inside l t p c Hs Hb Hc. unfold SearchKDTree in Hb.
  assert (l <> []) as Hl. { intros ->. discriminate. }
  destruct (build_ok A nodes dims rnd srt Hs (length l) 0 l Hl (le_n _)) as (t' & Hb' & P & _).
  rewrite Hb in Hb'. injection Hb' as <-. destruct (search_sound _ _ _ _ _ Hc) as (H1 & H2). split; auto.
  eapply Permutation_in; eauto.
Qed.

(** A point that lies in one of the elements is found in some element, as long as the float copies
    of the coordinates are not off by more than the margin of the box test. *)
Theorem C80_search_complete : forall A nodes dims rnd srt inside (l : list A) t p e,
  (forall dim l, Permutation (srt dim l) l) ->
  SearchKDTree A nodes dims rnd srt l = Some t ->
  In e l -> inside e p = true -> spanned (nodes e) dims p ->
  (forall x i, In x (nodes e) -> (i < dims)%nat -> Qabs (rnd (x i) - x i) <= 1 # 1000) ->
  exists c, SubSearchCell A inside t p = Some c /\ In c l /\ inside c p = true.
Proof.
  intros A nodes dims rnd srt inside l t p e Hs Hb He Hi Hp Hr.
  assert (l <> []) as Hl. { intros ->. destruct He. }
  pose proof Hb as Hb0. unfold SearchKDTree in Hb.
  destruct (build_ok A nodes dims rnd srt Hs (length l) 0 l Hl (le_n _)) as (t' & Hb' & P & B).
  rewrite Hb in Hb'. injection Hb' as <-.
  assert (SubSearchCell A inside t p <> None) as H.
  { apply (search_complete A nodes dims rnd inside t p e); auto.
    - eapply Permutation_in; [apply Permutation_sym, P|exact He].
    - apply spanned_box; auto. unfold margin. lra. }
  destruct (SubSearchCell A inside t p) as [c|] eqn:E; [|congruence]. exists c. split; auto.
  eapply C80_search_sound; eauto.
Qed.

(** With binary32 rounding it suffices that the coordinates are below 16000. *)
Theorem C80_search_float : forall A nodes dims srt inside (l : list A) t p e,
  (forall dim l, Permutation (srt dim l) l) ->
  SearchKDTree A nodes dims rnd32 srt l = Some t ->
  In e l -> inside e p = true -> spanned (nodes e) dims p ->
  (forall x i, In x (nodes e) -> (i < dims)%nat -> Qabs (x i) <= inject_Z 16000) ->
  exists c, SubSearchCell A inside t p = Some c /\ In c l /\ inside c p = true.
Proof.
  intros A nodes dims srt inside l t p e Hs Hb He Hi Hp Hx.
  apply (C80_search_complete A nodes dims rnd32 srt inside l t p e); auto.
  intros x i Hin Hd. eapply Qle_trans; [apply (rnd32_err _ (inject_Z 16000)); auto|];
  unfold inject_Z, Qle; cbn; lia.
Qed.

(** For larger coordinates the cell may be missed: two cells near x = 100000, the point in the
    middle of the first one.  All numbers are doubles. *)
Definition far (k : Z) : Q := inject_Z 100000 + (k # 2048).
Definition far_cell (e : nat) : list point :=
  match e with
  | O => [fun i => if (i =? 0)%nat then far 10 else 0; fun i => if (i =? 0)%nat then far 12 else 1]
  | _ => [fun i => if (i =? 0)%nat then far 12 else 0; fun i => if (i =? 0)%nat then far 2048 else 1]
  end.
Definition far_inside (e : nat) (p : point) : bool :=
  match e with
  | O => Qle_bool (far 10) (p 0%nat) && Qle_bool (p 0%nat) (far 12)
         && Qle_bool 0 (p 1%nat) && Qle_bool (p 1%nat) 1 && Qle_bool 0 (p 2%nat) && Qle_bool (p 2%nat) 1
  | _ => Qle_bool (far 12) (p 0%nat) && Qle_bool (p 0%nat) (far 2048)
         && Qle_bool 0 (p 1%nat) && Qle_bool (p 1%nat) 1 && Qle_bool 0 (p 2%nat) && Qle_bool (p 2%nat) 1
  end.
Definition far_p : point := fun i => if (i =? 0)%nat then far 11 else 1 # 2.
Theorem C80_far_refuted :
  exists t, SearchKDTree nat far_cell 3 rnd32 (fun _ l => l) [0;1]%nat = Some t /\
  far_inside 0 far_p = true /\ spanned (far_cell 0) 3 far_p /\
  SubSearchCell nat far_inside t far_p = None.
Proof.
  eexists. split; [reflexivity|]. split; [vm_compute; reflexivity|]. split.
  - intros i Hi. assert (i < 3)%nat as L by lia. apply Nat.ltb_lt in L. rewrite L.
    exists (fun i => if (i =? 0)%nat then far 10 else 0), (fun i => if (i =? 0)%nat then far 12 else 1).
    split; [left; auto|]. split; [right; left; auto|]. unfold far_p.
    destruct (i =? 0)%nat; split; unfold Qle; cbn; lia.
  - vm_compute. reflexivity.
Qed.

(** Points of the convex hull of the nodes are spanned by the nodes. *)
Theorem C80_hull_spanned : forall ws xs dims p,
  length ws = length xs -> (forall w, In w ws -> 0 <= w) -> fold_right Qplus 0 ws == 1 ->
  (forall i, (i < 3)%nat -> if (i <? dims)%nat then p i == combine_points ws xs i
     else - inject_Z 100000002004087734272 <= p i <= inject_Z 100000002004087734272) ->
  spanned xs dims p.
Proof.
  intros ws xs dims p Hl Hw Hs Hp i Hi. specialize (Hp i Hi). destruct (i <? dims)%nat; auto.
  assert (forall ws xs, length ws = length xs -> (forall w, In w ws -> 0 <= w) -> 0 < fold_right Qplus 0 ws ->
    (exists x, In x xs /\ x i * fold_right Qplus 0 ws <= combine_points ws xs i) /\
    (exists x, In x xs /\ combine_points ws xs i <= x i * fold_right Qplus 0 ws)) as G.
  { clear. induction ws as [|w r IH]; intros [|x xs] Hl Hw Hpos; cbn [length] in Hl; try lia; cbn [fold_right combine_points] in *.
    { exfalso. lra. }
    pose proof (Hw w (or_introl eq_refl)) as W.
    assert (0 <= fold_right Qplus 0 r) as R0.
    { assert (forall v, In v r -> 0 <= v) as V by auto using in_cons. clear - V.
      induction r as [|v r IH]; cbn; [lra|]. pose proof (V v (or_introl eq_refl)).
      assert (0 <= fold_right Qplus 0 r) by auto using in_cons. lra. }
    destruct (Qlt_le_dec 0 (fold_right Qplus 0 r)) as [Rp|Rz].
    - destruct (IH xs ltac:(lia) ltac:(auto using in_cons) Rp) as ((a & Ha & La) & (b & Hb & Lb)). split.
      + destruct (Qlt_le_dec (x i) (a i)).
        * exists x. split; [left; auto|]. nra.
        * exists a. split; [right; auto|]. nra.
      + destruct (Qlt_le_dec (b i) (x i)).
        * exists x. split; [left; auto|]. nra.
        * exists b. split; [right; auto|]. nra.
    - assert (combine_points r xs i == 0) as Z.
      { assert (forall v, In v r -> v == 0) as V.
        { assert (forall v, In v r -> 0 <= v) as V by auto using in_cons. clear - V Rz.
          induction r as [|u r IH]; [intros v []|]. cbn [fold_right] in Rz.
          pose proof (V u (or_introl eq_refl)) as U.
          assert (0 <= fold_right Qplus 0 r) as P.
          { assert (forall v, In v r -> 0 <= v) as V2 by auto using in_cons. clear - V2.
            induction r as [|v r IH]; cbn; [lra|]. pose proof (V2 v (or_introl eq_refl)).
            assert (0 <= fold_right Qplus 0 r) by auto using in_cons. lra. }
          intros v [<-|Hv]; [lra|]. apply IH; auto using in_cons. lra. }
        assert (length r = length xs) as Hl2 by lia. clear - V Hl2. revert xs Hl2.
        induction r as [|v r IH]; intros [|y ys] Hl2; cbn; try reflexivity.
        rewrite (V v (or_introl eq_refl)), IH; auto using in_cons. ring. }
      assert (fold_right Qplus 0 r == 0) as Z2 by lra.
      split; exists x; (split; [left; auto|]); rewrite Z, Z2; lra. }
  destruct (G ws xs Hl Hw ltac:(lra)) as ((a & Ha & La) & (b & Hb & Lb)). exists a, b.
  rewrite Hs in La, Lb. split; auto. split; auto. lra.
Qed.

(** ** C81: elements crossed by a segment *)
(** Only elements that pass the element test are reported, whatever the tree looks like. *)
Theorem C81_only_hits : forall A nodes dims rnd srt eqb hit cross (l : list A) t x,
  (forall dim l, Permutation (srt dim l) l) ->
  SearchKDTree A nodes dims rnd srt l = Some t -> In x (sub_intersect A eqb hit cross t []) ->
  In x l /\ hit x = true.
Proof.
  intros A nodes dims rnd srt eqb hit cross l t x Hs Hb Hx. unfold SearchKDTree in Hb.
  assert (l <> []) as Hl. { intros ->. discriminate. }
  destruct (build_ok A nodes dims rnd srt Hs (length l) 0 l Hl (le_n _)) as (t' & Hb' & P & _).
  rewrite Hb in Hb'. injection Hb' as <-.
  destruct (intersect_sound _ _ _ _ _ _ _ Hx) as [[]|[H1 H2]]. split; auto. eapply Permutation_in; eauto.
Qed.

(** The elements reported are exactly those that pass the element test, each once, when every such
    element has a point of the segment between its nodes and float copies are accurate. *)
Theorem C81_segment_exact : forall A nodes dims rnd srt eqb hit p1 p2 (l : list A) t,
  (forall dim l, Permutation (srt dim l) l) -> (forall x y, eqb x y = true <-> x = y) ->
  SearchKDTree A nodes dims rnd srt l = Some t ->
  (forall e, In e l -> hit e = true -> exists s, 0 <= s <= 1 /\ spanned (nodes e) dims (on_segment p1 p2 s)) ->
  (forall e x i, In e l -> In x (nodes e) -> (i < dims)%nat -> Qabs (rnd (x i) - x i) <= 999 # 1000000) ->
  NoDup (sub_intersect A eqb hit (segment_bbox p1 p2) t []) /\
  forall x, In x (sub_intersect A eqb hit (segment_bbox p1 p2) t []) <-> In x l /\ hit x = true.
Proof.
  intros A nodes dims rnd srt eqb hit p1 p2 l t Hs He Hb Hh Hr. unfold SearchKDTree in Hb.
  assert (l <> []) as Hl. { intros ->. discriminate. }
  destruct (build_ok A nodes dims rnd srt Hs (length l) 0 l Hl (le_n _)) as (t' & Hb' & P & B).
  rewrite Hb in Hb'. injection Hb' as <-.
  destruct (intersect_ok A nodes dims rnd eqb He hit (segment_bbox p1 p2) t [] B) as (N & I).
  - intros e b Hin Hhit Hle. assert (In e l) as Hel by (eapply Permutation_in; eauto).
    destruct (Hh e Hel Hhit) as (s & Hs01 & Hsp). apply (segment_bbox_ok p1 p2 b s Hs01).
    eapply in_box_le; [|exact Hle]. apply spanned_box; auto.
    + unfold margin, tiny. lra.
    + intros x i Hx Hi. eapply Qle_trans; [eapply Hr; eauto|]. unfold margin, tiny. lra.
  - constructor.
  - split; auto. intros x. rewrite I. split.
    + intros [[]|[H1 H2]]. split; auto. eapply Permutation_in; eauto.
    + intros [H1 H2]. right. split; auto. eapply Permutation_in; [apply Permutation_sym, P|auto].
Qed.

(** The same for binary32 and coordinates up to 16000. *)
Theorem C81_segment_float : forall A nodes dims srt eqb hit p1 p2 (l : list A) t,
  (forall dim l, Permutation (srt dim l) l) -> (forall x y, eqb x y = true <-> x = y) ->
  SearchKDTree A nodes dims rnd32 srt l = Some t ->
  (forall e, In e l -> hit e = true -> exists s, 0 <= s <= 1 /\ spanned (nodes e) dims (on_segment p1 p2 s)) ->
  (forall e x i, In e l -> In x (nodes e) -> (i < dims)%nat -> Qabs (x i) <= inject_Z 16000) ->
  NoDup (sub_intersect A eqb hit (segment_bbox p1 p2) t []) /\
  forall x, In x (sub_intersect A eqb hit (segment_bbox p1 p2) t []) <-> In x l /\ hit x = true.
Proof.
  intros A nodes dims srt eqb hit p1 p2 l t Hs He Hb Hh Hr.
  apply (C81_segment_exact A nodes dims rnd32 srt eqb hit p1 p2 l t); auto.
  intros e x i H1 H2 H3. eapply Qle_trans; [apply (rnd32_err _ (inject_Z 16000)); eauto|];
  unfold inject_Z, Qle; cbn; lia.
Qed.

(** Asked for cells, the search returns each cell that was hit or is next to a face that was hit, once. *)
Theorem C81_cells_exact : forall is_cell cells temp,
  NoDup (collect_cells is_cell cells temp) /\
  forall c, In c (collect_cells is_cell cells temp) <->
    exists e, In e temp /\ if is_cell e then c = e else In c (cells e).
Proof. exact collect_cells_ok. Qed.

(** Asked for faces, it returns each face that was hit or belongs to a cell that was hit; each once
    when the tree holds faces only or cells only. *)
Theorem C81_faces_exact : forall is_cell faces temp,
  (forall c, In c (collect_faces is_cell faces temp) <->
    exists e, In e temp /\ if is_cell e then In c (faces e) else c = e) /\
  (NoDup temp -> (forall e, In e temp -> is_cell e = true) \/ (forall e, In e temp -> is_cell e = false) ->
   NoDup (collect_faces is_cell faces temp)).
Proof.
  intros is_cell faces temp. split; [intros c; apply collect_faces_in|apply collect_faces_nodup].
Qed.

(** A tree with a cell and one of its faces reports the face twice. *)
Theorem C81_faces_mixed_refuted : exists is_cell faces temp, NoDup temp /\
  ~ NoDup (collect_faces is_cell faces temp).
Proof.
  exists (fun e => (e =? 0)%nat), (fun _ => [1;2;3;4]%nat), [0;2]%nat. split.
  - repeat constructor; cbn; intuition lia.
  - vm_compute. intros H. inversion_clear H as [|? ? ? H1]. inversion_clear H1 as [|? ? H2 ?]. apply H2. cbn. auto.
Qed.

(** ** C82: elements touched by a sphere *)
(** Exact when the float copies are the coordinates. *)
Theorem C82_sphere_exact : forall A nodes dims rnd srt eqb hit c r (l : list A) t,
  (forall dim l, Permutation (srt dim l) l) -> (forall x y, eqb x y = true <-> x = y) ->
  SearchKDTree A nodes dims rnd srt l = Some t -> 0 <= r ->
  (forall e, In e l -> hit e = true -> exists p, spanned (nodes e) dims p /\ dist2 p c <= r * r) ->
  (forall e x i, In e l -> In x (nodes e) -> (i < dims)%nat -> rnd (x i) == x i) ->
  NoDup (sub_intersect A eqb hit (bbox_sphere c r) t []) /\
  forall x, In x (sub_intersect A eqb hit (bbox_sphere c r) t []) <-> In x l /\ hit x = true.
Proof.
  intros A nodes dims rnd srt eqb hit c r l t Hs He Hb Hr0 Hh Hr. unfold SearchKDTree in Hb.
  assert (l <> []) as Hl. { intros ->. discriminate. }
  destruct (build_ok A nodes dims rnd srt Hs (length l) 0 l Hl (le_n _)) as (t' & Hb' & P & B).
  rewrite Hb in Hb'. injection Hb' as <-.
  destruct (intersect_ok A nodes dims rnd eqb He hit (bbox_sphere c r) t [] B) as (N & I).
  - intros e b Hin Hhit Hle. assert (In e l) as Hel by (eapply Permutation_in; eauto).
    destruct (Hh e Hel Hhit) as (y & Hsp & Hd). apply (bbox_sphere_ok c r b y Hr0); auto.
    eapply in_box_le; [|exact Hle]. apply spanned_box; auto; [lra|].
    intros x i Hx Hi. rewrite (Hr e x i Hel Hx Hi). setoid_replace (x i - x i) with 0 by ring. cbn. lra.
  - constructor.
  - split; auto. intros x. rewrite I. split.
    + intros [[]|[H1 H2]]. split; auto. eapply Permutation_in; eauto.
    + intros [H1 H2]. right. split; auto. eapply Permutation_in; [apply Permutation_sym, P|auto].
Qed.

(** With binary32 boxes and no margin an element that the sphere touches may be missed: a face at
    distance 0.1 (the double) from the centre of a sphere of radius 0.1. *)
Definition tenth : Q := 3602879701896397 # 36028797018963968.
Definition sph_face (e : nat) : list point :=
  map (fun yz i => match i with O => tenth + inject_Z (Z.of_nat e) | 1%nat => inject_Z (fst yz) | _ => inject_Z (snd yz) end)
    [(0,0);(1,0);(1,1);(0,1)]%Z.
Theorem C82_sphere_float_refuted :
  exists t p, SearchKDTree nat sph_face 3 rnd32 (fun _ l => l) [0;1]%nat = Some t /\
  spanned (sph_face 0) 3 p /\ dist2 p (fun _ => 0) <= tenth * tenth /\
  sub_intersect nat Nat.eqb (fun e => (e =? 0)%nat) (bbox_sphere (fun _ => 0) tenth) t [] = [].
Proof.
  eexists. exists (fun i => if (i =? 0)%nat then tenth else 0). split; [reflexivity|]. split; [|split].
  - intros i Hi. assert (i < 3)%nat as L by lia. apply Nat.ltb_lt in L. rewrite L.
    eexists. eexists. split; [left; reflexivity|]. split; [left; reflexivity|].
    destruct i as [|[|[|i]]]; try lia; split; unfold Qle; cbn; lia.
  - unfold Qle. cbn. lia.
  - vm_compute. reflexivity.
Qed.

(** ** Examples *)
(** three unit cells in a row *)
Definition row_cell (e : nat) : list point :=
  [fun i => if (i =? 0)%nat then inject_Z (Z.of_nat e) else 0;
   fun i => if (i =? 0)%nat then inject_Z (Z.of_nat e + 1) else 1].
Definition row_inside (e : nat) (p : point) : bool :=
  Qle_bool (inject_Z (Z.of_nat e)) (p 0%nat) && Qle_bool (p 0%nat) (inject_Z (Z.of_nat e + 1)).
Example C80_nonvacuous :
  exists t, SearchKDTree nat row_cell 3 rnd32 (fun _ l => rev l) [0;1;2]%nat = Some t /\
  SubSearchCell nat row_inside t (fun i => if (i =? 0)%nat then 3 # 2 else 1 # 2) = Some 1%nat /\
  SubSearchCell nat row_inside t (fun i => if (i =? 0)%nat then 7 # 2 else 1 # 2) = None /\
  spanned (row_cell 1) 3 (fun i => if (i =? 0)%nat then 3 # 2 else 1 # 2) /\
  (forall x i, In x (row_cell 1) -> (i < 3)%nat -> Qabs (x i) <= inject_Z 16000).
Proof.
  eexists. split; [reflexivity|]. split; [vm_compute; reflexivity|]. split; [vm_compute; reflexivity|]. split.
  - intros i Hi. assert (i < 3)%nat as L by lia. apply Nat.ltb_lt in L. rewrite L.
    eexists. eexists. split; [left; reflexivity|]. split; [right; left; reflexivity|].
    destruct i as [|[|[|i]]]; try lia; split; unfold Qle; cbn; lia.
  - intros x i [<-|[<-|[]]] Hi; destruct (i =? 0)%nat; unfold Qle; cbn; lia.
Qed.
(** the segment from (1/2,...) to (3/2,...) crosses cells 0 and 1 *)
Definition row_p1 : point := fun _ => 1 # 2.
Definition row_p2 : point := fun i => if (i =? 0)%nat then 3 # 2 else 1 # 2.
Example C81_nonvacuous :
  exists t, SearchKDTree nat row_cell 3 rnd32 (fun _ l => rev l) [0;1;2]%nat = Some t /\
  sub_intersect nat Nat.eqb (fun e => (e <? 2)%nat) (segment_bbox row_p1 row_p2) t [] = [0;1]%nat /\
  (forall e, In e [0;1;2]%nat -> (e <? 2)%nat = true ->
     exists s, 0 <= s <= 1 /\ spanned (row_cell e) 3 (on_segment row_p1 row_p2 s)).
Proof.
  eexists. split; [reflexivity|]. split; [vm_compute; reflexivity|].
  intros e He Hh. apply Nat.ltb_lt in Hh. exists (1 # 2). split; [lra|].
  intros i Hi. assert (i < 3)%nat as L by lia. apply Nat.ltb_lt in L. rewrite L.
  eexists. eexists. split; [left; reflexivity|]. split; [right; left; reflexivity|].
  destruct e as [|[|e]]; try lia; destruct i as [|[|[|i]]]; try lia; split; unfold Qle; cbn; lia.
Qed.
Example C82_nonvacuous :
  exists t, SearchKDTree nat row_cell 3 rnd32 (fun _ l => rev l) [0;1;2]%nat = Some t /\
  sub_intersect nat Nat.eqb (fun e => (0 <? e)%nat) (bbox_sphere (fun i => if (i =? 0)%nat then 3 else 1 # 2) (3 # 2)) t [] = [2;1]%nat /\
  (forall e x i, In e [0;1;2]%nat -> In x (row_cell e) -> (i < 3)%nat -> rnd32 (x i) == x i) /\
  (forall e, In e [0;1;2]%nat -> (0 <? e)%nat = true -> exists p, spanned (row_cell e) 3 p /\
     dist2 p (fun i => if (i =? 0)%nat then 3 else 1 # 2) <= (3 # 2) * (3 # 2)).
Proof.
  eexists. split; [reflexivity|]. split; [vm_compute; reflexivity|]. split.
  - intros e x i He [<-|[<-|[]]] Hi; destruct (i =? 0)%nat;
    destruct He as [<-|[<-|[<-|[]]]]; vm_compute; reflexivity.
  - intros e He Hh. apply Nat.ltb_lt in Hh.
    exists (fun i => if (i =? 0)%nat then inject_Z (Z.of_nat e + 1) else 1 # 2). split.
    + intros i Hi. assert (i < 3)%nat as L by lia. apply Nat.ltb_lt in L. rewrite L.
      eexists. eexists. split; [left; reflexivity|]. split; [right; left; reflexivity|].
      destruct He as [<-|[<-|[<-|[]]]]; try lia; destruct i as [|[|[|i]]]; try lia; split; unfold Qle; cbn; lia.
    + destruct He as [<-|[<-|[<-|[]]]]; try lia; unfold Qle; cbn; lia.
Qed.

Print Assumptions C80_build_total.
Print Assumptions C80_search_sound.
Print Assumptions C80_search_complete.
Print Assumptions C80_search_float.
Print Assumptions C80_far_refuted.
Print Assumptions C80_hull_spanned.
Print Assumptions C81_only_hits.
Print Assumptions C81_segment_exact.
Print Assumptions C81_segment_float.
Print Assumptions C81_cells_exact.
Print Assumptions C81_faces_exact.
Print Assumptions C81_faces_mixed_refuted.
Print Assumptions C82_sphere_exact.
Print Assumptions C82_sphere_float_refuted.
