(** Properties of options for files and of the selection of the file format. *)
From Coq Require Import Ascii String List Bool Arith Lia.
From Verif Require Import Util Split_Model Split_Props Front_Model Fopt_Spec Fopt_Model Fopt_Proofs.
Import ListNotations.
Local Open Scope list_scope.

(** * C172: options *)
(** After any calls of SetFileOption the last value given for a key is returned. *)
Theorem C172_get : forall (h : list (text * text)) (key : text) (r : option text), last_set key h r ->
  get_option key (run h) = match r with Some v => v | None => [] end.
Proof.
  intros h key r R. pose proof (run_last key h r R) as H. unfold get_option. destruct (find _ (run h)) as [p |] eqn:F.
  - apply find_some in F as (I & E). apply same_iff in E. destruct r as [v |]; [destruct H as (_ & H); now apply H | now destruct (H p I)].
  - destruct r as [v |]; [| easy]. destruct H as ((p & I & E) & _). pose proof (find_none _ _ F p I) as N. cbv beta in N. rewrite E in N. now rewrite same_refl in N.
Qed.
(** Every key has exactly one last value or none. *)
Theorem C172_last : forall (h : list (text * text)) (key : text), exists r, last_set key h r /\ forall r', last_set key h r' -> r' = r.
Proof. intros h key. destruct (last_exists key h) as (r & R). exists r. split; [easy |]. intros r' R'. now apply (last_unique key h). Qed.

(** The rule [name] is among the comma separated words last given for the tag [t]. *)
Definition rule (h : list (text * text)) (name t : text) : Prop :=
  exists v words, last_set (lit "Tag:" ++ t) h (Some v) /\ cut_into v (lit ",") words /\ In name words.
Theorem C172_tags : forall (h : list (text * text)) (name t : text), In t (tag_options name (run h)) <-> rule h name t.
Proof.
  intros h name t. unfold tag_options. rewrite in_flat_map. split.
  - intros (p & I & J). destruct (cut_key (fst p)) as (prefix, self) eqn:CK. destruct (same prefix (lit "Tag")) eqn:S; [| easy]. apply same_iff in S. subst prefix.
    destruct (C37_split_string (snd p) [] (lit ",")) as (ws & E & CI). cbn [app] in E. rewrite E in J. destruct (has name ws) eqn:H; [| easy]. destruct J as [<- | []]. apply has_iff in H.
    apply cut_key_tag in CK. destruct (last_exists (lit "Tag:" ++ self) h) as (r & R). pose proof (run_last _ h r R) as L. destruct r as [v |].
    + destruct L as (_ & L). exists v, ws. split; [easy |]. split; [| easy]. now rewrite <- (L p I CK).
    + now destruct (L p I).
  - intros (v & ws & R & CI & H). pose proof (run_last _ h _ R) as ((p & I & E) & L). exists p. split; [easy |]. destruct p as (k, w). cbn [fst snd] in *. subst k. assert (cut_key (lit "Tag:" ++ t) = (lit "Tag", t)) as -> by now apply cut_key_tag.
    rewrite same_refl. destruct (C37_split_string w [] (lit ",")) as (ws' & E' & CI'). cbn [app] in E'. rewrite E'. pose proof (L _ I eq_refl) as L'. cbn [fst snd] in L'. subst w. rewrite (C37_pieces_unique _ _ _ _ CI' CI).
    apply has_iff in H. rewrite H. now left.
Qed.
Definition ex_h : list (text * text) := [(lit "Tag:P", lit "noload,nosave"); (lit "VERBOSITY", lit "1"); (lit "Tag:Q:x", lit "saveonly,,nosave"); (lit "Tag:P", lit "noderivatives"); (lit "VERBOSITY", lit "2")].
Example C172_nonvacuous : get_option (lit "VERBOSITY") (run ex_h) = lit "2" /\ get_option (lit "x") (run ex_h) = [] /\
  tag_options (lit "nosave") (run ex_h) = [lit "Q:x"] /\ In (lit "P") (tag_options (lit "noderivatives") (run ex_h)) /\ tag_options (lit "noload") (run ex_h) = [].
Proof. repeat split; try reflexivity. left. reflexivity. Qed.

(** * C173: tags left out of files *)
Lemma skip_iff name no only : skip name no only = true <-> In name no \/ only <> [] /\ ~ In name only.
Proof.
  unfold skip. rewrite <- !has_iff. destruct only as [| x l]; cbn [negb andb].
  - destruct (has name no); split; try easy; [now left | intros [H | (H & _)]; easy].
  - destruct (has name (x :: l)); cbn [negb]; destruct (has name no); split; try easy; try (now left); try (intros [H | (_ & H)]; easy); now right.
Qed.
Lemma none_iff (A : Type) (l : list A) : l <> [] <-> exists x, In x l.
Proof. destruct l as [| x l]; split; try easy; [intros (y & []) | intros _; exists x; now left]. Qed.
(** Data of a tag are not loaded exactly if the tag has the rule noload, or if some tags have the
    rule loadonly and this one has not; likewise for saving. *)
Theorem C173_load : forall (h : list (text * text)) (t : text),
  load_skip t (run h) = true <-> rule h (lit "noload") t \/ (exists u, rule h (lit "loadonly") u) /\ ~ rule h (lit "loadonly") t.
Proof.
  intros h t. unfold load_skip. rewrite skip_iff, none_iff, !C172_tags. split; (intros [H | ((u & U) & N)]; [now left | right; split; [exists u; now apply C172_tags | easy]]).
Qed.
Theorem C173_save : forall (h : list (text * text)) (t : text),
  save_skip t (run h) = true <-> rule h (lit "nosave") t \/ (exists u, rule h (lit "saveonly") u) /\ ~ rule h (lit "saveonly") t.
Proof.
  intros h t. unfold save_skip. rewrite skip_iff, none_iff, !C172_tags. split; (intros [H | ((u & U) & N)]; [now left | right; split; [exists u; now apply C172_tags | easy]]).
Qed.
(** An option set again replaces the rules of the tag and no others. *)
Theorem C173_replace : forall (h : list (text * text)) (t u v name : text), u <> t -> (rule (h ++ [(lit "Tag:" ++ u, v)]) name t <-> rule h name t).
Proof.
  intros h t u v name N. assert (K : lit "Tag:" ++ u <> lit "Tag:" ++ t) by (intros E; now apply app_inv_head in E). split; intros (w & ws & R & CI & I); exists w, ws; (split; [| easy]).
  - apply last_inv in R as [(E & _) | (_ & R)]; easy.
  - now constructor.
Qed.
Example C173_nonvacuous : save_skip (lit "P") (run ex_h) = true /\ save_skip (lit "Q:x") (run ex_h) = true /\ load_skip (lit "P") (run ex_h) = false /\
  save_skip (lit "Q:x") (run (ex_h ++ [(lit "Tag:Q:x", lit "saveonly")])) = false.
Proof. repeat split; reflexivity. Qed.

(** * C174: formats *)
(** The extension of format [f] is somewhere in the name, in any case of letters. *)
Definition named (f : format) (file : text) : Prop := part (extension f) (map lower_char file).
Definition parallel (f : format) : bool := match f with ECL | PVTK | PVTU | PMF | XML => true | _ => false end.
Lemma named_iff f file : contains (map lower_char file) (extension f) = true <-> named f file.
Proof. apply contains_iff. Qed.

(** A name with one extension: all functions agree on the format; without: all refuse. *)
Theorem C174_single : forall (file : text) (f : format), named f file -> (forall g, named g file -> g = f) ->
  load_format file = (match f with GMV => None | _ => Some f end) /\
  save_format file = (match f with ECL | MKF | MSH => None | _ => Some f end) /\
  parallel_format file = Some (parallel f).
Proof.
  intros file f N U. set (b := fun g => contains (map lower_char file) (extension g)).
  assert (B : forall g, b g = match g, f with ECL, ECL | PVTK, PVTK | PVTU, PVTU | VTK, VTK | MKF, MKF | MSH, MSH | XML, XML | VTU, VTU | PMF, PMF | GMV, GMV => true | _, _ => false end).
  { intros g. destruct (b g) eqn:E.
    - apply named_iff in E. apply U in E. subst g. now destruct f.
    - destruct g, f; try easy; apply named_iff in N; unfold b in E; congruence. }
  unfold load_format, save_format, parallel_format, choose. fold b. cbn [find]. rewrite !B. now destruct f.
Qed.
Theorem C174_unknown : forall (file : text), (forall g, ~ named g file) -> load_format file = None /\ save_format file = None /\ parallel_format file = None.
Proof.
  intros file U. unfold load_format, save_format, parallel_format, choose. cbn [find].
  assert (B : forall g, contains (map lower_char file) (extension g) = false). { intros g. apply not_true_is_false. intros E. apply named_iff in E. now apply (U g). }
  now rewrite !B.
Qed.
(** When a saved mesh is loaded by the function for the same format. *)
Theorem C174_same : forall (file : text) (f : format), save_format file = Some f ->
  (load_format file = Some f <->
   ~ named ECL file /\ (f = PVTK \/ f = PVTU \/ f = VTK \/ f <> GMV /\ ~ named MKF file /\ ~ named MSH file /\ (f = XML -> ~ named VTK file))).
Proof.
  intros file f. rewrite <- !named_iff. unfold load_format, save_format, choose. cbn [find].
  set (b := fun g => contains (map lower_char file) (extension g)). change (contains (map lower_char file) (extension ?g)) with (b g).
  repeat match goal with |- context [contains (map lower_char file) (extension ?g)] => change (contains (map lower_char file) (extension g)) with (b g) end.
  destruct (b ECL), (b PVTK), (b PVTU), (b XML), (b VTK), (b VTU), (b GMV), (b PMF), (b MKF), (b MSH); intros E; try discriminate E; injection E as <-; intuition congruence.
Qed.
(** Not in general: this file is written as XML and read as VTK, and names of folders count. *)
Theorem C174_same_refuted : save_format (lit "pressure.vtk.xml") = Some XML /\ load_format (lit "pressure.vtk.xml") = Some VTK /\
  save_format (lit "run.vtk/mesh.pmf") = Some VTK /\ parallel_format (lit "run.vtk/mesh.pmf") = Some false.
Proof. repeat split. Qed.
(** The header lists .gmv among formats for reading; such files are always refused. *)
Theorem C174_gmv_refuted : forall (file : text), load_format file <> Some GMV /\ (named GMV file -> (forall g, named g file -> g = GMV) -> load_format file = None).
Proof.
  intros file. split; [| intros N U; exact (proj1 (C174_single file GMV N U))]. unfold load_format, choose. intros E. apply find_some in E as (E & _). cbn in E. intuition discriminate.
Qed.
(** The case of letters does not matter. *)
Theorem C174_case : forall (a b : text), map lower_char a = map lower_char b -> load_format a = load_format b /\ save_format a = save_format b /\ parallel_format a = parallel_format b.
Proof. intros a b E. unfold load_format, save_format, parallel_format, choose. now rewrite E. Qed.
Example C174_nonvacuous : named PVTK (lit "data/Mesh.PVTK") /\ (forall g, named g (lit "data/Mesh.PVTK") -> g = PVTK) /\ load_format (lit "data/Mesh.PVTK") = Some PVTK /\ parallel_format (lit "data/Mesh.PVTK") = Some true.
Proof. split; [now apply named_iff |]. split; [intros g N; apply named_iff in N; now destruct g |]. split; reflexivity. Qed.

Print Assumptions C172_get.
Print Assumptions C172_last.
Print Assumptions C172_tags.
Print Assumptions C173_load.
Print Assumptions C173_save.
Print Assumptions C173_replace.
Print Assumptions C174_single.
Print Assumptions C174_unknown.
Print Assumptions C174_same.
Print Assumptions C174_same_refuted.
Print Assumptions C174_gmv_refuted.
Print Assumptions C174_case.
