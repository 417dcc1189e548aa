(** Properties C126-C129: reading and writing of XML trees. *)
From Coq Require Import Ascii String.
From Coq Require Import List Arith Bool Lia.
From Verif Require Import Util Mtx_Model Expr_Model Word_Model Xml_Model Word_Spec Xml_Spec Xml_Proofs.
Import ListNotations.
Open Scope nat_scope.

(** * C126: a tree that is written is read back *)
Theorem C126_round_trip : forall files t off rest, tree_ok t -> is_root t ->
  exists n, forall fuel, n <= fuel -> read_xml files fuel (write_xml off t ++ rest) = Done (t, Intro, nl :: rest).
Proof. intros files t off rest H1 H2. exists (dsize (doc_of off t)). intros fuel Hf. apply round_trip; assumption. Qed.
Print Assumptions C126_round_trip.

Definition b_tree : tree := Node (text_of "b-2") [(text_of "_x:1", text_of "a <> 'b'/"); (text_of "y", [])] 2 [] [].
Definition a_tree : tree := Node (text_of "a") [(text_of "k", text_of "v")] 1 [b_tree; Node (text_of "c") [] 1 [] (text_of "1 2 ]] > <x>"); b_tree] (text_of " text ").
Lemma first_check : forall stop t, stop <> [] -> read_until stop [] (t ++ stop) = (t ++ stop, []) ->
  (forall k, k < length t -> firstn (length stop) (skipn k (t ++ stop)) <> stop) -> ends_first stop t.
Proof.
  intros stop t Hs _ H u v E. destruct v as [ | a v ]; [ reflexivity | exfalso ].
  assert (L : length t + length stop = length u + (length stop + S (length v))) by (rewrite <- !app_length, E, !app_length; reflexivity).
  apply (H (length u)); [ lia | ]. rewrite E, skipn_app, skipn_all, Nat.sub_diag. cbn [skipn app]. rewrite firstn_app, Nat.sub_diag, firstn_all. cbn [firstn]. apply app_nil_r.
Qed.
Ltac firsts := apply first_check; [ discriminate | reflexivity | intros k Hk; cbn in Hk; do 20 (destruct k as [ | k ]; [ try lia; let Q := fresh in intro Q; vm_compute in Q; discriminate Q | ]); lia ].
Ltac chars := repeat (constructor; [ unfold alpha, digit, printable, ch; cbn; try tauto; lia | ]); try constructor.
Lemma b_ok : tree_ok b_tree.
Proof.
  cbn [tree_ok b_tree]. split; [ | split; [ | split; [ right; auto | split; [ exact I | firsts ] ] ] ].
  - split; [ unfold alpha; cbn; lia | chars ].
  - constructor; [ | constructor; [ | constructor ] ]; cbn [fst snd]; (split; [ | split; [ discriminate | chars ] ]).
    + split; [ right; reflexivity | chars ].
    + split; [ left; unfold alpha; cbn; lia | constructor ].
Qed.
Lemma a_ok : tree_ok a_tree.
Proof.
  unfold a_tree. split; [ | split; [ | split; [ left; reflexivity | split; [ | firsts ] ] ] ].
  - split; [ unfold alpha; cbn; lia | constructor ].
  - constructor; [ | constructor ]. split; [ split; [ left; unfold alpha; cbn; lia | constructor ] | split; [ discriminate | chars ] ].
  - split; [ exact b_ok | split; [ | split; [ exact b_ok | exact I ] ] ].
    cbn [tree_ok]. split; [ split; [ unfold alpha; cbn; lia | constructor ] | split; [ constructor | split; [ left; reflexivity | split; [ exact I | firsts ] ] ] ].
Qed.
Example C126_nonvacuous : exists n, forall fuel, n <= fuel -> read_xml (fun _ => None) fuel (write_xml 3 a_tree ++ text_of "<more>") = Done (a_tree, Intro, nl :: text_of "<more>").
Proof. exact (C126_round_trip (fun _ => None) a_tree 3 (text_of "<more>") a_ok eq_refl). Qed.
Example C126_computed : read_xml (fun _ => None) 20 (write_xml 0 a_tree) = Done (a_tree, Intro, [nl]).
Proof. vm_compute. reflexivity. Qed.

(** contents with the end mark inside: the contents are cut at the mark, what follows is read as more text *)
Theorem C126_end_mark_refuted : exists t t', is_root t /\ read_xml (fun _ => None) 50 (write_xml 0 t) = Done (t', Intro, [nl]) /\
  t = Node (text_of "a") [] 1 [] (text_of "x]]> <b/>") /\ t' = Node (text_of "a") [] 1 [Node (text_of "b") [] 2 [] []] (text_of "x]]>").
Proof. eexists. eexists. split; [ | split; [ | split; reflexivity ] ]; [ reflexivity | vm_compute; reflexivity ]. Qed.
(** a name that starts with an underscore can be opened but not closed: what follows is lost *)
Theorem C126_underscore_refuted : exists t t' rest, is_root t /\ read_xml (fun _ => None) 50 (write_xml 0 t) = Done (t', Failure, rest) /\
  t = Node (text_of "r") [] 1 [Node (text_of "_a") [] 1 [] []; Node (text_of "b") [] 2 [] []] [] /\ t' = Node (text_of "r") [] 1 [Node (text_of "_a") [] 1 [] []] [].
Proof. eexists. eexists. eexists. split; [ | split; [ | split; reflexivity ] ]; [ reflexivity | vm_compute; reflexivity ]. Qed.
(** a value with a character that is not printable ASCII, here a line break: the attribute is cut and reading fails *)
Theorem C126_value_refuted : exists t t' rest, is_root t /\ read_xml (fun _ => None) 50 (write_xml 0 t) = Done (t', Failure, rest) /\
  t = Node (text_of "a") [(text_of "k", text_of "x" ++ nl :: text_of "y")] 1 [] (text_of "z") /\ t' = Node (text_of "a") [(text_of "k", text_of "x")] 0 [] [].
Proof. eexists. eexists. eexists. split; [ | split; [ | split; reflexivity ] ]; [ reflexivity | vm_compute; reflexivity ]. Qed.
(** a root without contents: the tree is right, but the reader reports a failure *)
Theorem C126_stub_root_refuted : forall files g n l close fuel, misc_ok g -> doc_ok files (Stub n l close) -> 1 <= fuel ->
  read_xml files fuel (misc_text g ++ doc_text (Stub n l close)) = Done (doc_tree (Stub n l close), Failure, []).
Proof.
  intros files g n l close fuel Hg [Ho Hi] Hf. unfold read_xml. cbn [doc_text].
  assert (O : open_tag files Intro (misc_text g ++ open_text n l close ++ text_of "/>") = (mk_tag n (kept l) 2, Intro, [])).
  { unfold open_text. cbn [app]. change (ch "<") with lt_. rewrite misc_skipped by exact Hg.
    pose proof (open_tag_read files n l close (text_of "/>") 2 [] Ho (or_intror (conj eq_refl eq_refl))) as O. rewrite Hi in O. exact O. }
  rewrite O. destruct fuel as [ | fuel ]; [ lia | ]. reflexivity.
Qed.
Print Assumptions C126_stub_root_refuted.

(** * C127: documents with any spacing, comments, text, data blocks and included files *)
Theorem C127_documents : forall files g d rest, misc_ok g -> is_elem d -> doc_ok files d ->
  exists n, forall fuel, n <= fuel -> read_xml files fuel (misc_text g ++ doc_text d ++ rest) = Done (doc_tree d, Intro, rest).
Proof. intros files g d rest Hg He Hd. exists (dsize d). intros fuel Hf. apply document; assumption. Qed.
Print Assumptions C127_documents.

(** reading, writing and reading again gives the same tree *)
Theorem C127_stable : forall files g d rest, misc_ok g -> is_elem d -> doc_ok files d -> tree_ok (doc_tree d) ->
  exists t n, forall fuel, n <= fuel -> read_xml files fuel (misc_text g ++ doc_text d ++ rest) = Done (t, Intro, rest) /\
                                        read_xml files fuel (write_xml 0 t) = Done (t, Intro, [nl]).
Proof.
  intros files g d rest Hg He Hd Ht. destruct (C127_documents files g d rest Hg He Hd) as [m Hm].
  destruct (C126_round_trip files (doc_tree d) 0 [] Ht) as [q Hq]; [ destruct d; [ contradiction He | reflexivity ] | ].
  exists (doc_tree d), (m + q). intros fuel Hf. split; [ apply Hm; lia | ]. rewrite <- (app_nil_r (write_xml 0 (doc_tree d))). apply Hq. lia.
Qed.
Print Assumptions C127_stable.

Definition my_files (n : text) : option text := if text_eqb n (text_of "part.xml") then Some (text_of " one <c/> two") else None.
Definition no_misc : misc := ([], []).
Definition d_attr (b n v : string) : attribute := {| before := text_of b; attr_name := text_of n; eq_left := text_of " "; eq_right := []; value := text_of v |}.
Definition my_doc : doc :=
  Elem (text_of "a") [d_attr " " "k" "v"; d_attr "" "Include" "part.xml"] (text_of " ")
    (Raw (text_of " ") (text_of "one") (Child ([], text_of " ") (Stub (text_of "c") [] []) (Raw (text_of " ") (text_of "two") Nil)))
    (Data ([([], Dashes (text_of " > - -> "))], text_of " ") (text_of "x<y>]") (Child no_misc (Elem (text_of "b") [] [] Nil Nil no_misc) Nil))
    ([(text_of " ", Question (text_of "?"))], []).
Lemma my_doc_ok : doc_ok my_files my_doc.
Proof.
  assert (W : spaces (text_of " ")) by (constructor; [ unfold space; cbn; tauto | constructor ]).
  assert (N : misc_ok no_misc) by (split; constructor).
  assert (O : forall s : string, List.In s ["a"; "b"; "c"]%string -> tag_name_ok (text_of s)).
  { intros s [<- | [<- | [<- | []]]]; (split; [ unfold alpha; cbn; lia | constructor ]). }
  assert (R : forall s : string, List.In s ["one"; "two"]%string -> raw_ok (text_of s)).
  { intros s [<- | [<- | []]]; (split; [ discriminate | split; [ | split; unfold space; cbn; lia ] ]); intros c [<- | []]; cbn; lia. }
  assert (P : forall s : string, List.In s ["a"; "b"; "c"]%string -> open_ok (text_of s) [] []).
  { intros s Hs. split; [ apply O; exact Hs | split; [ split; [ constructor | exact I ] | constructor ] ]. }
  unfold my_doc. cbn [doc_ok parts_ok]. split; [ | split; [ vm_compute; reflexivity | split; [ | split ] ] ].
  - split; [ apply O; cbn; tauto | split; [ split; [ | discriminate ] | exact W ] ].
    constructor; [ | constructor; [ | constructor ] ].
    + split; [ exact W | split; [ split; [ left; unfold alpha; cbn; lia | constructor ] | split; [ exact W | split; [ constructor | chars ] ] ] ].
    + split; [ constructor | split; [ split; [ left; unfold alpha; cbn; lia | ] | split; [ exact W | split; [ constructor | chars ] ] ] ].
      repeat (constructor; [ left; unfold alpha; cbn; lia | ]); constructor.
  - split; [ exact W | split; [ apply R; cbn; tauto | split; [ exact I | ] ] ].
    split; [ split; [ constructor | exact W ] | split; [ split; [ apply P; cbn; tauto | reflexivity ] | ] ].
    split; [ exact W | split; [ apply R; cbn; tauto | split; exact I ] ].
  - split; [ split; [ | exact W ] | split; [ firsts | ] ].
    + constructor; [ | constructor ]. split; [ constructor | ]. cbn [snd comment_ok]. firsts.
    + split; [ exact N | split; [ | exact I ] ]. split; [ apply P; cbn; tauto | split; [ reflexivity | split; [ exact I | split; [ exact I | exact N ] ] ] ].
  - split; [ | constructor ]. constructor; [ | constructor ]. split; [ exact W | ]. cbn [snd comment_ok]. firsts.
Qed.
Example C127_nonvacuous : exists n, forall fuel, n <= fuel -> read_xml my_files fuel (misc_text no_misc ++ doc_text my_doc ++ text_of "!") =
  Done (Node (text_of "a") [(text_of "k", text_of "v")] 1 [Node (text_of "c") [] 2 [] []; Node (text_of "b") [] 1 [] []] (text_of "onetwox<y>]"), Intro, text_of "!").
Proof. apply (C127_documents my_files no_misc my_doc (text_of "!")); [ split; constructor | exact I | exact my_doc_ok ]. Qed.
Example C127_computed : doc_text my_doc = text_of "<a k =""v""Include =""part.xml"" ><!-- > - -> --> <![CDATA[x<y>]]]><b></b> <???></a>".
Proof. vm_compute. reflexivity. Qed.

(** text after a comment is refused: it is lost, and the rest of the file is not read *)
Theorem C127_text_after_comment_refuted :
  read_xml (fun _ => None) 50 (text_of "<a><!--c-->xy<b/></a>") = Done (Node (text_of "a") [] 1 [] [], Failure, text_of "<b/></a>") /\
  read_xml (fun _ => None) 50 (text_of "<a>xy<!--c--><b/></a>") = Done (Node (text_of "a") [] 1 [Node (text_of "b") [] 2 [] []] (text_of "xy"), Intro, []).
Proof. split; vm_compute; reflexivity. Qed.
(** a space before the > of an end tag is taken as a part of the name *)
Theorem C127_end_tag_space_refuted : exists rest,
  read_xml (fun _ => None) 50 (text_of "<a><b></b ><c/></a>") = Done (Node (text_of "a") [] 1 [Node (text_of "b") [] 1 [] []] [], Failure, rest).
Proof. eexists. vm_compute. reflexivity. Qed.
(** a value without quotes at the end of a tag takes the > with it, a value in single quotes too *)
Theorem C127_unquoted_refuted :
  (exists rest, read_xml (fun _ => None) 50 (text_of "<a k=5></a>") = Done (Node (text_of "a") [(text_of "k", text_of "5")] 0 [] [], Failure, rest)) /\
  (exists rest, read_xml (fun _ => None) 50 (text_of "<a k='5'></a>") = Done (Node (text_of "a") [(text_of "k", text_of "'5'")] 0 [] [], Failure, rest)) /\
  read_xml (fun _ => None) 50 (text_of "<a k=5 ></a>") = Done (Node (text_of "a") [(text_of "k", text_of "5")] 1 [] [], Intro, []).
Proof. split; [ | split ]; [ eexists; vm_compute; reflexivity | eexists; vm_compute; reflexivity | vm_compute; reflexivity ]. Qed.
(** a document type is read as a tag whose name misses the first letter *)
Theorem C127_doctype_refuted : exists rest,
  read_xml (fun _ => None) 50 (text_of "<!DOCTYPE mesh><a></a>") = Done (Node (text_of "OCTYPE") [] 0 [] [], Failure, rest).
Proof. eexists. vm_compute. reflexivity. Qed.

(** * C128: reading ends, with a tree or an exception *)
Theorem C128_ends : forall inp fuel, length inp < fuel -> read_xml (fun _ => None) fuel inp <> NoFuel.
Proof. exact xml_ends. Qed.
Print Assumptions C128_ends.
Example C128_nonvacuous : read_xml (fun _ => None) 10 (text_of "<a><b/>x&") = Done (Node (text_of "a") [] 1 [Node (text_of "b") [] 2 [] []] (text_of "x"), Failure, []).
Proof. vm_compute. reflexivity. Qed.

(** a file that ends inside of a data block of less than three characters: an exception *)
Theorem C128_truncated_refuted : forall t fuel, length t < 3 -> 1 <= fuel -> read_xml (fun _ => None) fuel (text_of "<a><![CDATA[" ++ t) = Throws.
Proof.
  intros t fuel Ht Hf. destruct fuel as [ | fuel ]; [ lia | ]. unfold read_xml.
  assert (O : open_tag (fun _ => None) Intro (text_of "<a><![CDATA[" ++ t) = (mk_tag (text_of "a") [] 1, Intro, text_of "<![CDATA[" ++ t)) by reflexivity.
  rewrite O. cbn [read_sub].
  assert (O2 : open_tag (fun _ => None) Intro (text_of "<![CDATA[" ++ t) = (mk_tag cdata [] 4, EndTag, t)) by reflexivity.
  rewrite O2. cbn [tag_finish Nat.eqb]. destruct (read_until (str "]]>") [] t) as [d r] eqn:E. apply until_length in E. cbn [length] in E.
  replace (length d <? 3) with true by (symmetry; apply Nat.ltb_lt; unfold text in *; lia). reflexivity.
Qed.
Print Assumptions C128_truncated_refuted.

(** a file that includes itself is read for ever *)
Definition loop_text : text := text_of "<a Include=""a.xml"">".
Definition loop_files (n : text) : option text := if text_eqb n (text_of "a.xml") then Some loop_text else None.
Theorem C128_self_include_refuted : forall fuel, read_xml loop_files fuel loop_text = NoFuel.
Proof.
  assert (O : open_tag loop_files Intro loop_text = (mk_tag (text_of "a") [] 1, Intro, loop_text)) by (vm_compute; reflexivity).
  assert (H : forall fuel root, read_sub loop_files fuel Intro loop_text root = NoFuel).
  { induction fuel as [ | fuel IH ]; intro root; [ reflexivity | ]. cbn [read_sub]. rewrite O. cbn [tag_finish Nat.eqb]. rewrite IH. reflexivity. }
  intro fuel. unfold read_xml. rewrite O, H. reflexivity.
Qed.
Print Assumptions C128_self_include_refuted.

(** * C129: a failure can be seen by the caller *)
(** a file that is cut off anywhere inside of a document is noticed: an exception, or the reader is in the failed state *)
Theorem C129_cut_off : forall files g d p q fuel, misc_ok g -> is_elem d -> doc_ok files d -> misc_text g ++ doc_text d = p ++ q -> q <> [] ->
  match read_xml files fuel p with Done (_, s, _) => s = Failure | _ => True end.
Proof. exact truncated. Qed.
Print Assumptions C129_cut_off.
(** what follows a document that was read without failure has no influence *)
Theorem C129_prefix : forall files fuel p q t s r, read_xml files fuel p = Done (t, s, r) -> s <> Failure -> read_xml files fuel (p ++ q) = Done (t, s, r ++ q).
Proof. exact xml_ext. Qed.
Print Assumptions C129_prefix.
Example C129_nonvacuous : forall fuel, match read_xml my_files fuel (firstn 50 (doc_text my_doc)) with Done (_, s, _) => s = Failure | _ => True end.
Proof.
  intro fuel. apply (C129_cut_off my_files no_misc my_doc _ (skipn 50 (doc_text my_doc)));
    [ split; constructor | exact I | exact my_doc_ok | cbn [misc_text no_misc]; symmetry; apply firstn_skipn | vm_compute; discriminate ].
Qed.
Example C129_computed : exists t, read_xml my_files 20 (firstn 50 (doc_text my_doc)) = Done (t, Failure, []).
Proof. eexists. vm_compute. reflexivity. Qed.

(** the tree of a file with a wrong end tag misses all that follows, but the reader is in no failed state *)
Theorem C129_mismatch_refuted : forall files n m fuel, tag_name_ok n -> tag_name_ok m -> n <> m -> 2 <= fuel ->
  read_xml files fuel (text_of "<a>" ++ open_text n [] [] ++ text_of ">" ++ text_of "</" ++ m ++ text_of ">" ++ text_of "</a>") =
  Done (Node (text_of "a") [] 1 [Node n [] 1 [] []] [], Intro, []).
Proof.
  intros files n m fuel Hn Hm Hne Hf.
  assert (Oa : open_ok (text_of "a") [] []) by (split; [ split; [ unfold alpha; cbn; lia | constructor ] | split; [ split; [ constructor | exact I ] | constructor ] ]).
  assert (On : open_ok n [] []) by (split; [ exact Hn | split; [ split; [ constructor | exact I ] | constructor ] ]).
  unfold read_xml. set (rest := text_of "</" ++ m ++ text_of ">" ++ text_of "</a>").
  pose proof (open_tag_read files (text_of "a") [] [] (text_of ">") 1 (open_text n [] [] ++ text_of ">" ++ rest) Oa (or_introl (conj eq_refl eq_refl))) as O1.
  change (open_text (text_of "a") [] [] ++ text_of ">" ++ open_text n [] [] ++ text_of ">" ++ rest) with (text_of "<a>" ++ open_text n [] [] ++ text_of ">" ++ rest) in O1.
  rewrite O1. change (kept []) with (@nil (list nat * list nat)). change (included files [] ++ open_text n [] [] ++ text_of ">" ++ rest) with (open_text n [] [] ++ text_of ">" ++ rest).
  destruct fuel as [ | [ | fuel ] ]; [ lia | lia | ]. remember (S fuel) as k eqn:Ek. cbn [read_sub].
  rewrite (open_tag_read files n [] [] (text_of ">") 1 rest On (or_introl (conj eq_refl eq_refl))). change (kept []) with (@nil (list nat * list nat)). change (included files [] ++ rest) with rest. cbn [tag_finish Nat.eqb].
  match goal with |- context [read_sub files k Intro rest ?x] =>
    assert (F : read_sub files k Intro rest x = Done (true, x, ReadCloseTagSlash, slash :: m ++ text_of ">" ++ text_of "</a>")) end.
  { apply (finish_sub files k no_misc); [ split; constructor | lia ]. }
  rewrite F. unfold close_tag. cbn [tag_finish Nat.eqb tag_name read_finish_tag]. rewrite finish_any by exact Hm. rewrite text_eqb_ne by congruence. reflexivity.
Qed.
Print Assumptions C129_mismatch_refuted.
(** a bad character in the name of an attribute directly before the > : the attribute is dropped without failure *)
Theorem C129_bad_attribute_refuted :
  read_xml (fun _ => None) 50 (text_of "<a k%></a>") = Done (Node (text_of "a") [] 1 [] [], Intro, []).
Proof. vm_compute. reflexivity. Qed.
Print Assumptions C126_end_mark_refuted.
Print Assumptions C126_underscore_refuted.
Print Assumptions C126_value_refuted.
Print Assumptions C127_text_after_comment_refuted.
Print Assumptions C127_end_tag_space_refuted.
Print Assumptions C127_unquoted_refuted.
Print Assumptions C127_doctype_refuted.
Print Assumptions C129_bad_attribute_refuted.
