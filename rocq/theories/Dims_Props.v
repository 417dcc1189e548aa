(** Properties of the number of dimensions of a mesh. *)
From Coq Require Import Ascii String List Arith Bool ZArith Lia.
From Verif Require Import Dims_Spec Dims_Model Dims_Proofs.
Import ListNotations.
Local Open Scope string_scope.
Local Open Scope nat_scope.

(** * C181: change of the number of dimensions *)
(** The mesh has coordinates: a tag of real values with one list of [s_dim] values for every node. *)
Definition has_coords (s : state) : Prop :=
  exists vals, find_tag (s_coords s) (s_tags s) = Some (mkTag (s_coords s) true (Some (s_dim s)) (Dense vals)) /\ length vals = s_last s /\
    (forall k, k < s_last s -> s_valid s k = true -> length (nth k vals []) = s_dim s).
(** No tag of the user has one of the two names the coordinates may get. *)
Definition names_free (s : state) : Prop := forall n, n = "COORD" \/ n = "PROTECTED_COORD" -> n = s_coords s \/ find_tag n (s_tags s) = None.
Definition node (s : state) (k : nat) : Prop := k < s_last s /\ s_valid s k = true.
Lemma resized_same d x : length x = d -> resized d x = x.
Proof. intros L. unfold resized. apply (nth_ext _ _ 0%Z 0%Z); [now rewrite map_length, seq_length |]. intros i LI. rewrite map_length, seq_length in LI. now rewrite nth_map_seq. Qed.
Lemma resized_length d x : length (resized d x) = d. Proof. unfold resized. now rewrite map_length, seq_length. Qed.
Lemma coords_some s k : has_coords s -> node s k -> exists x, coords s k = Some x /\ length x = s_dim s.
Proof.
  intros (vals & F & L & C) (LK & V). unfold coords, values. rewrite F. cbn [t_place]. exists (nth k vals []). split; [| now apply C]. apply nth_error_nth'. lia.
Qed.
Lemma no_nodes s k : 0 <? number_of_nodes s = false -> ~ node s k.
Proof.
  intros Z (L & V). apply Nat.ltb_ge in Z. unfold number_of_nodes in Z. assert (I : In k (filter (s_valid s) (seq 0 (s_last s)))) by (apply filter_In; split; [apply in_seq; lia | easy]). destruct (filter (s_valid s) (seq 0 (s_last s))); [easy | cbn in Z; lia].
Qed.
Lemma created name d last tags : find_tag name tags = None -> create_tag name d last tags = Some (tags ++ [mkTag name true (Some d) (Dense (repeat (zeros d) last))])%list.
Proof. intros F. unfold create_tag. now rewrite F. Qed.
Lemma free_deleted s n : names_free s -> n = "COORD" \/ n = "PROTECTED_COORD" -> find_tag n (delete_tag (s_coords s) (s_tags s)) = None.
Proof. intros NF N. destruct (string_dec n (s_coords s)) as [-> | NE]; [apply find_deleted |]. rewrite find_delete by easy. destruct (NF n N); [easy | easy]. Qed.
Theorem C181_coords : forall (s : state) (dims : nat), has_coords s -> names_free s -> 2 <= dims <= 3 ->
  exists s', set_dimensions s dims = Done s' /\ s_dim s' = dims /\ has_coords s' /\ names_free s' /\
    (forall k, node s' k <-> node s k) /\
    (forall k, node s k -> coords s' k = option_map (resized dims) (coords s k)) /\
    (forall n, n <> s_coords s -> n <> s_coords s' -> find_tag n (s_tags s') = find_tag n (s_tags s)).
Proof.
  intros s dims HC NF B. pose proof HC as (vals & F & L & C). unfold set_dimensions. destruct (Nat.eqb_spec (s_dim s) dims) as [E | NE].
  - exists s. split; [easy |]. split; [easy |]. split; [easy |]. split; [easy |]. split; [easy |]. split; [| easy]. intros k K. destruct (coords_some s k HC K) as (x & -> & LX). cbn. rewrite resized_same; [easy | lia].
  - destruct (Nat.ltb_spec dims 2); [lia |]. destruct (Nat.ltb_spec 3 dims); [lia |]. cbn [orb]. destruct (0 <? number_of_nodes s) eqn:Z.
    + unfold values at 1. rewrite F. cbn [t_place]. rewrite (created "COORD" dims (s_last s)) by (apply free_deleted; auto). set (tags := delete_tag (s_coords s) (s_tags s)). assert (FT : find_tag "COORD" tags = None) by (apply free_deleted; auto).
      unfold values. rewrite find_snoc, FT. cbn [t_name]. rewrite String.eqb_refl. cbn [t_place]. set (new := restore_coords _ _ _ _).
      set (s' := mkState _ _ _ _ _). exists s'. split; [easy |]. split; [easy |].
      assert (F' : find_tag "COORD" (s_tags s') = Some (mkTag "COORD" true (Some dims) (Dense new))) by (unfold s'; cbn [s_tags]; rewrite find_set, find_snoc, FT; cbn [t_name]; now rewrite String.eqb_refl).
      assert (SG : forall k, node s k -> nth k new [] = resized dims (nth k vals []) /\ length new = s_last s).
      { intros k (LK & V). destruct (restore_spec s dims vals (repeat (zeros dims) (s_last s)) k LK V) as (E1 & E2). split; [| exact E2]. unfold new. rewrite E1. apply segment_resized; [easy | now apply C]. }
      assert (LN : length new = s_last s) by (unfold new, restore_coords; now rewrite map_length, seq_length).
      split; [| split; [| split; [| split]]].
      * exists new. split; [easy |]. split; [easy |]. intros k LK V. rewrite (proj1 (SG k (conj LK V))). apply resized_length.
      * intros n [-> | ->]; [now left |]. right. unfold s'. cbn [s_tags]. rewrite find_set_other by easy. rewrite find_snoc. replace (find_tag "PROTECTED_COORD" tags) with (@None tagd) by (symmetry; apply free_deleted; auto). easy.
      * easy.
      * intros k K. destruct (SG k K) as (E1 & E2). destruct K as (LK & V). unfold coords, values. cbn [s' s_coords]. rewrite F', F. cbn [t_place]. rewrite (nth_error_nth' new []) by (change (length new) with (length new); lia). rewrite (nth_error_nth' vals []) by lia. cbn. now rewrite E1.
      * intros n N1 N2. unfold s'. cbn [s_tags s_coords] in *. rewrite find_set_other by easy. rewrite find_snoc. unfold tags. rewrite find_delete by easy. destruct (find_tag n (s_tags s)); [easy |]. cbn [t_name]. destruct (String.eqb_spec "COORD" n); [| easy]. now subst.
    + rewrite (created "PROTECTED_COORD" dims (s_last s)) by (apply free_deleted; auto). set (tags := delete_tag (s_coords s) (s_tags s)). assert (FT : find_tag "PROTECTED_COORD" tags = None) by (apply free_deleted; auto).
      set (s' := mkState _ _ _ _ _). exists s'. split; [easy |]. split; [easy |]. pose proof (no_nodes s) as NN. specialize (fun k => NN k Z) as NN'.
      split; [| split; [| split; [| split]]].
      * exists (repeat (zeros dims) (s_last s)). split; [| split; [apply repeat_length |]].
        -- unfold s'. cbn [s_tags s_coords s_dim]. rewrite find_snoc, FT. cbn [t_name]. now rewrite String.eqb_refl.
        -- intros k LK V. exfalso. now apply (NN k Z).
      * intros n [-> | ->]; [| now left]. right. unfold s'. cbn [s_tags]. rewrite find_snoc. replace (find_tag "COORD" tags) with (@None tagd) by (symmetry; apply free_deleted; auto). easy.
      * easy.
      * intros k K. exfalso. now apply (NN k Z).
      * intros n N1 N2. unfold s'. cbn [s_tags s_coords] in *. rewrite find_snoc. unfold tags. rewrite find_delete by easy. destruct (find_tag n (s_tags s)); [easy |]. cbn [t_name]. destruct (String.eqb_spec "PROTECTED_COORD" n); [| easy]. now subst.
Qed.
(** Other numbers of dimensions are refused. *)
Theorem C181_refused : forall (s : state) (dims : nat), dims < 2 \/ 3 < dims -> dims <> s_dim s -> set_dimensions s dims = Thrown.
Proof.
  intros s dims B NE. unfold set_dimensions. destruct (Nat.eqb_spec (s_dim s) dims); [congruence |]. destruct (Nat.ltb_spec dims 2), (Nat.ltb_spec 3 dims); cbn [orb]; try easy; lia.
Qed.
(** Going to three dimensions and back changes no coordinate; going to two dimensions and back clears the third. *)
Theorem C181_there_and_back : forall (s : state) (d d' : nat), has_coords s -> names_free s -> s_dim s = d -> 2 <= d <= 3 -> 2 <= d' <= 3 ->
  exists s1 s2, set_dimensions s d' = Done s1 /\ set_dimensions s1 d = Done s2 /\
    forall k x, node s k -> coords s k = Some x -> coords s2 k = Some (if d' <? d then (firstn d' x ++ [0%Z])%list else x).
Proof.
  intros s d d' HC NF D B B'. destruct (C181_coords s d' HC NF B') as (s1 & E1 & D1 & HC1 & NF1 & N1 & X1 & _). destruct (C181_coords s1 d HC1 NF1 B) as (s2 & E2 & D2 & HC2 & NF2 & N2 & X2 & _).
  exists s1, s2. split; [easy |]. split; [easy |]. intros k x K CX. rewrite (X2 k (proj2 (N1 k) K)), (X1 k K), CX. cbn [option_map]. destruct (coords_some s k HC K) as (x' & CX' & LX). rewrite CX in CX'. injection CX' as <-. rewrite D in LX. f_equal.
  assert (d = 2 \/ d = 3) as [-> | ->] by lia; assert (d' = 2 \/ d' = 3) as [-> | ->] by lia; destruct x as [| x1 [| x2 [| x3 [| x4 x]]]]; try discriminate LX; reflexivity.
Qed.
(** Refuted: coordinates are kept in a reserved tag.  Any change in a mesh with nodes moves them to a tag
    listed among the data of the user, the former name is gone. *)
Theorem C181_name_refuted : forall (s : state) (dims k : nat), has_coords s -> names_free s -> 2 <= dims <= 3 -> dims <> s_dim s -> node s k -> reserved (s_coords s) = true ->
  exists s', set_dimensions s dims = Done s' /\ reserved (s_coords s') = false /\ find_tag (s_coords s) (s_tags s') = None.
Proof.
  intros s dims k HC NF B NE K RS. destruct HC as (vals & F & L & C). unfold set_dimensions. destruct (Nat.eqb_spec (s_dim s) dims); [congruence |]. destruct (Nat.ltb_spec dims 2); [lia |]. destruct (Nat.ltb_spec 3 dims); [lia |]. cbn [orb].
  destruct (0 <? number_of_nodes s) eqn:Z; [| now destruct (no_nodes s k Z)]. unfold values at 1. rewrite F. cbn [t_place]. assert (FT : find_tag "COORD" (delete_tag (s_coords s) (s_tags s)) = None) by (apply free_deleted; auto). rewrite (created "COORD" dims (s_last s)) by easy.
  unfold values. rewrite find_snoc, FT. cbn [t_name]. rewrite String.eqb_refl. cbn [t_place]. eexists. split; [reflexivity |]. cbn [s_coords s_tags]. split; [reflexivity |]. assert (NC : s_coords s <> "COORD") by (intros E; rewrite E in RS; discriminate RS).
  rewrite find_set_other by easy. rewrite find_snoc, find_deleted. cbn [t_name]. destruct (String.eqb_spec "COORD" (s_coords s)); [congruence | easy].
Qed.
(** Refuted: data of the user are not touched.  A tag COORD of the user is overwritten with coordinates if it
    has their type and size, otherwise the function fails. *)
Theorem C181_user_refuted : forall (s : state) (dims k : nat) (real : bool) (size : option nat) (user : list (list Z)), has_coords s -> s_coords s <> "COORD" ->
  find_tag "COORD" (s_tags s) = Some (mkTag "COORD" real size (Dense user)) -> 2 <= dims <= 3 -> dims <> s_dim s -> node s k ->
  (real = true -> size = Some dims -> exists s' now, set_dimensions s dims = Done s' /\ values "COORD" (s_tags s') = Some now /\
     forall j, node s j -> Some (nth j now []) = option_map (resized dims) (coords s j)) /\
  (real = false \/ size <> Some dims -> set_dimensions s dims = Failed).
Proof.
  intros s dims k real size user HC NC FU B NE K. destruct HC as (vals & F & L & C). unfold set_dimensions. destruct (Nat.eqb_spec (s_dim s) dims); [congruence |]. destruct (Nat.ltb_spec dims 2); [lia |]. destruct (Nat.ltb_spec 3 dims); [lia |]. cbn [orb].
  destruct (0 <? number_of_nodes s) eqn:Z; [| now destruct (no_nodes s k Z)]. assert (VC : values (s_coords s) (s_tags s) = Some vals) by (unfold values; now rewrite F). rewrite VC. unfold create_tag. rewrite find_delete by (intros E; now apply NC). rewrite FU. cbn [t_real t_size t_place]. split.
  - intros -> ->. rewrite Nat.eqb_refl. cbn [andb]. unfold values. rewrite find_delete by (intros E; now apply NC). rewrite FU. cbn [t_place]. eexists. eexists. split; [reflexivity |]. cbn [s_tags]. rewrite find_set, find_delete by (intros E; now apply NC). rewrite FU. cbn [option_map t_place]. split; [reflexivity |].
    intros j (LJ & V). unfold coords, values. rewrite F. cbn [t_place]. rewrite (nth_error_nth' vals []) by lia. cbn [option_map]. f_equal. rewrite (proj1 (restore_spec s dims vals user j LJ V)). apply segment_resized; [easy | now apply C].
  - intros [-> | NS]; [easy |]. destruct real; [| easy]. cbn [andb]. destruct size as [m |]; [| easy]. destruct (Nat.eqb_spec m dims); [congruence | easy].
Qed.
Definition ex_mesh : state := mkState 3 "PROTECTED_COORD" 3 (fun k => negb (Nat.eqb k 1)) [mkTag "PROTECTED_COORD" true (Some 3) (Dense [[1;2;3]; []; [7;8;9]]%Z); mkTag "P" true (Some 1) (Dense [[5]; [6]; [7]]%Z)].
Example C181_nonvacuous : has_coords ex_mesh /\ names_free ex_mesh /\ node ex_mesh 2 /\ reserved (s_coords ex_mesh) = true /\
  exists s', set_dimensions ex_mesh 2 = Done s' /\ coords s' 2 = Some [7;8]%Z /\ map t_name (s_tags s') = ["P"; "COORD"] /\ exists s2, set_dimensions s' 3 = Done s2 /\ coords s2 0 = Some [1;2;0]%Z.
Proof.
  split; [| split; [| split; [| split]]].
  - eexists. split; [reflexivity |]. split; [reflexivity |]. intros [| [| [| k]]] L V; cbn in *; easy || lia.
  - intros n [-> | ->]; [right | left]; reflexivity.
  - split; [cbn; lia | reflexivity].
  - reflexivity.
  - eexists. split; [reflexivity |]. split; [reflexivity |]. split; [reflexivity |]. eexists. split; reflexivity.
Qed.
Print Assumptions C181_coords.
Print Assumptions C181_refused.
Print Assumptions C181_there_and_back.
Print Assumptions C181_name_refuted.
Print Assumptions C181_user_refuted.
