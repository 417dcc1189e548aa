(** Lemmas about the XML reader. *)
From Coq Require Import Ascii String.
From Coq Require Import List Arith Bool Lia.
From Verif Require Import Util Mtx_Model Expr_Model Word_Model Xml_Model Word_Spec Xml_Spec.
Import ListNotations.
Open Scope nat_scope.

(** * Characters *)
Lemma space_iff : forall c, is_space c = true <-> space c.
Proof.
  intro c. unfold is_space, space. rewrite orb_true_iff, andb_true_iff, Nat.leb_le, Nat.leb_le, Nat.eqb_eq. cbn [In]. lia.
Qed.
Lemma space_false : forall c, ~ space c -> is_space c = false.
Proof. intros c H. destruct (is_space c) eqn:E; [ | reflexivity ]. exfalso. apply H. apply space_iff. exact E. Qed.
Lemma alpha_iff : forall c, is_alpha c = true <-> alpha c.
Proof. intro c. unfold is_alpha, alpha. rewrite orb_true_iff, !andb_true_iff, !Nat.leb_le. lia. Qed.
Lemma digit_iff : forall c, is_digit c = true <-> digit c.
Proof. intro c. unfold is_digit, digit. rewrite !andb_true_iff, !Nat.leb_le. lia. Qed.
Lemma print_iff : forall c, is_print c = true <-> printable c.
Proof. intro c. unfold is_print, printable. rewrite !andb_true_iff, !Nat.leb_le. lia. Qed.
Lemma text_eqb_iff : forall a b, text_eqb a b = true <-> a = b.
Proof. intros a b. unfold text_eqb. destruct (list_eq_dec Nat.eq_dec a b); split; congruence. Qed.
Lemma text_eqb_refl : forall a, text_eqb a a = true.
Proof. intro a. apply text_eqb_iff. reflexivity. Qed.
Lemma text_eqb_ne : forall a b, a <> b -> text_eqb a b = false.
Proof. intros a b H. destruct (text_eqb a b) eqn:E; [ | reflexivity ]. apply text_eqb_iff in E. contradiction. Qed.
Ltac neq c v := replace (c =? v) with false by (symmetry; apply Nat.eqb_neq; lia).

(** * ReadUntil *)
Lemma ends_with_iff : forall stop ret, ends_with stop ret = true <-> exists u, rev ret = u ++ stop.
Proof.
  intros stop ret. unfold ends_with. rewrite andb_true_iff, text_eqb_iff, Nat.leb_le. split.
  - intros [H _]. exists (rev (skipn (length stop) ret)). rewrite <- H at 2. rewrite <- rev_app_distr, firstn_skipn. reflexivity.
  - intros [u H]. assert (E : ret = rev stop ++ rev u) by (rewrite <- (rev_involutive ret), H, rev_app_distr; reflexivity).
    split.
    + rewrite E, firstn_app, rev_length, Nat.sub_diag, firstn_all2 by (rewrite rev_length; lia). cbn [firstn]. rewrite app_nil_r, rev_involutive. reflexivity.
    + rewrite E, app_length, rev_length. lia.
Qed.
Lemma read_until_all : forall stop r x ret,
  (forall u v, rev ret ++ x = u ++ stop ++ v -> v = []) -> (exists u, rev ret ++ x = u ++ stop) -> x <> [] ->
  read_until stop ret (x ++ r) = (rev ret ++ x, r).
Proof.
  intros stop r. induction x as [ | c x IH ]; intros ret H1 H2 H3; [ congruence | ].
  cbn [app read_until]. destruct (ends_with stop (c :: ret)) eqn:E.
  - apply ends_with_iff in E. destruct E as [u E]. cbn [rev] in E.
    assert (x = []). { apply (H1 u). rewrite app_assoc, <- E, <- app_assoc. reflexivity. }
    subst x. reflexivity.
  - assert (Hx : x <> []).
    { intro; subst x. destruct H2 as [u H2]. assert (ends_with stop (c :: ret) = true) by (apply ends_with_iff; exists u; exact H2). congruence. }
    rewrite IH.
    + cbn [rev]. rewrite <- app_assoc. reflexivity.
    + intros u v H. apply (H1 u). rewrite <- H. cbn [rev]. rewrite <- app_assoc. reflexivity.
    + destruct H2 as [u H2]. exists u. rewrite <- H2. cbn [rev]. rewrite <- app_assoc. reflexivity.
    + exact Hx.
Qed.
Lemma read_until_ok : forall stop t r, stop <> [] -> ends_first stop t -> read_until stop [] (t ++ stop ++ r) = (t ++ stop, r).
Proof.
  intros stop t r Hs H. rewrite app_assoc. rewrite read_until_all.
  - reflexivity.
  - intros u v E. cbn [rev app] in E. exact (H u v E).
  - exists t. reflexivity.
  - destruct t; [ exact Hs | discriminate ].
Qed.

(** * Spaces and comments *)
Lemma expect_spaces : forall s r, spaces s -> expect_open_tag (s ++ r) = expect_open_tag r.
Proof.
  intros s r H. induction H as [ | c s Hc Hs IH ]; [ reflexivity | ].
  cbn [app expect_open_tag]. rewrite (proj2 (space_iff c) Hc). unfold space in Hc. cbn [In] in Hc.
  unfold lt_. neq c 60. exact IH.
Qed.
Lemma intro_spaces : forall s r, spaces s -> read_open_tag OIntro (s ++ r) = read_open_tag OIntro r.
Proof.
  intros s r H. induction H as [ | c s Hc Hs IH ]; [ reflexivity | ].
  cbn [app read_open_tag]. rewrite (proj2 (space_iff c) Hc). unfold space in Hc. cbn [In] in Hc.
  unfold lt_. neq c 60. exact IH.
Qed.
Lemma skip_dashes : forall r t ret, ends_first (text_of "-->") (rev ret ++ t) ->
  read_open_tag (InExcl (nth 0 ret 0) (nth 1 ret 0)) (t ++ text_of "-->" ++ r) = read_open_tag OIntro r.
Proof.
  intros r. induction t as [ | c t IH ]; intros ret H.
  - reflexivity.
  - cbn [app read_open_tag]. destruct ((c =? gt) && (nth 0 ret 0 =? minus) && (nth 1 ret 0 =? minus)) eqn:E.
    + exfalso. rewrite !andb_true_iff, !Nat.eqb_eq in E. destruct E as [[Ec E0] E1].
      destruct ret as [ | p [ | q ret ] ]; [ discriminate E0 | discriminate E1 | ]. cbn [nth] in E0, E1. subst c p q.
      assert (V : t ++ text_of "-->" = []).
      { apply (H (rev ret)). cbn [rev]. rewrite <- !app_assoc. reflexivity. }
      destruct t; discriminate V.
    + rewrite <- (IH (c :: ret)); [ reflexivity | ]. intros u v E'. apply (H u). rewrite <- E'. cbn [rev]. rewrite <- !app_assoc. reflexivity.
Qed.
Lemma skip_question : forall r t ret, ends_first (text_of "?>") (rev ret ++ t) ->
  read_open_tag (InQuest (nth 0 ret 0)) (t ++ text_of "?>" ++ r) = read_open_tag OIntro r.
Proof.
  intros r. induction t as [ | c t IH ]; intros ret H.
  - reflexivity.
  - cbn [app read_open_tag]. destruct ((c =? gt) && (nth 0 ret 0 =? quest)) eqn:E.
    + exfalso. rewrite !andb_true_iff, !Nat.eqb_eq in E. destruct E as [Ec E0].
      destruct ret as [ | p ret ]; [ discriminate E0 | ]. cbn [nth] in E0. subst c p.
      assert (V : t ++ text_of "?>" = []).
      { apply (H (rev ret)). cbn [rev]. rewrite <- !app_assoc. reflexivity. }
      destruct t; discriminate V.
    + rewrite <- (IH (c :: ret)); [ reflexivity | ]. intros u v E'. apply (H u). rewrite <- E'. cbn [rev]. rewrite <- !app_assoc. reflexivity.
Qed.
Lemma comment_skipped : forall c r, comment_ok c -> exists r', comment_text c ++ r = lt_ :: r' /\ read_open_tag OWait r' = read_open_tag OIntro r.
Proof.
  intros [t | t] r H; cbn [comment_text]; cbn [comment_ok] in H.
  - exists (excl :: minus :: minus :: t ++ text_of "-->" ++ r). split; [ rewrite <- !app_assoc; reflexivity | ].
    exact (skip_dashes r t [] H).
  - exists (quest :: t ++ text_of "?>" ++ r). split; [ rewrite <- !app_assoc; reflexivity | ].
    exact (skip_question r t [] H).
Qed.
(** what comes after spaces and comments is read as if it were alone *)
Lemma intro_comments : forall l x, Forall (fun p => spaces (fst p) /\ comment_ok (snd p)) l ->
  read_open_tag OIntro (flat_map (fun p => fst p ++ comment_text (snd p)) l ++ x) = read_open_tag OIntro x.
Proof.
  intros l x H. induction H as [ | [s c] l [Hs Hc] Hl IH ]; [ reflexivity | ].
  cbn [flat_map fst snd] in *. rewrite <- !app_assoc, intro_spaces by exact Hs.
  destruct (comment_skipped c (flat_map (fun p => fst p ++ comment_text (snd p)) l ++ x) Hc) as [r' [E1 E2]].
  rewrite E1. cbn [read_open_tag]. unfold lt_. cbn [Nat.eqb]. rewrite E2. exact IH.
Qed.
Lemma misc_skipped : forall files g x, misc_ok g -> open_tag files Intro (misc_text g ++ lt_ :: x) = open_tag files Intro (lt_ :: x).
Proof.
  intros files [l s] x [Hl Hs]. unfold misc_text. cbn [fst snd] in *. rewrite <- app_assoc.
  destruct Hl as [ | [s0 c] l [Hs0 Hc] Hl ].
  - cbn [flat_map app]. unfold open_tag. rewrite expect_spaces by exact Hs. reflexivity.
  - cbn [flat_map fst snd] in *. rewrite <- !app_assoc. unfold open_tag. rewrite expect_spaces by exact Hs0.
    destruct (comment_skipped c (flat_map (fun p => fst p ++ comment_text (snd p)) l ++ s ++ lt_ :: x) Hc) as [r' [E1 E2]].
    rewrite E1. cbn [expect_open_tag]. unfold lt_ at 1 2. cbn [Nat.eqb].
    rewrite E2, intro_comments, intro_spaces by assumption. reflexivity.
Qed.

(** * Tags *)
Lemma tag_name_read : forall n ret r, Forall (fun c => printable c /\ c <> ch " " /\ c <> ch "/" /\ c <> ch ">") n ->
  (forall c, hd_error (rev ret) = Some c -> alpha c) -> ret <> [] ->
  read_open_tag (InTag ret) (n ++ r) = read_open_tag (InTag (rev n ++ ret)) r.
Proof.
  intros n ret r H. revert ret. induction H as [ | c n Hc Hn IH ]; intros ret Hr Hne; [ reflexivity | ].
  destruct Hc as [Hp [H1 [H2 H3]]].
  assert (K : hd_error (rev (c :: ret)) = hd_error (rev ret)).
  { cbn [rev]. destruct (rev ret) eqn:E; [ | reflexivity ]. exfalso. apply Hne. rewrite <- (rev_involutive ret), E. reflexivity. }
  cbn [app read_open_tag].
  rewrite (space_false c) by (unfold space, printable in *; cbn in H1 |- *; lia).
  unfold slash, gt. cbn in H2, H3. neq c 47. neq c 62. cbn [orb].
  rewrite (proj2 (print_iff c) Hp), orb_true_r.
  rewrite text_eqb_ne.
  2:{ intro E. assert (A : alpha excl). { apply Hr. rewrite <- K, E. reflexivity. } unfold alpha, excl in A. lia. }
  rewrite IH.
  - cbn [rev]. rewrite <- app_assoc. reflexivity.
  - intros d Hd. apply Hr. rewrite <- K. exact Hd.
  - discriminate.
Qed.
Lemma tag_name_opened : forall n r, tag_name_ok n -> read_open_tag OWait (n ++ r) = read_open_tag (InTag (rev n)) r.
Proof.
  intros [ | c n ] r H; [ contradiction | ]. destruct H as [Ha Hn].
  cbn [app read_open_tag]. unfold quest, excl, slash. unfold alpha in Ha. neq c 63. neq c 33. neq c 47.
  rewrite (proj2 (alpha_iff c) Ha). cbn [orb].
  rewrite tag_name_read; [ reflexivity | exact Hn | | discriminate ].
  intros d Hd. cbn in Hd. injection Hd as <-. exact Ha.
Qed.
Lemma not_cdata : forall n, tag_name_ok n -> text_eqb n cdata = false.
Proof.
  intros [ | c n ] H; [ contradiction | ]. apply text_eqb_ne. intro E. injection E as Ec _. destruct H as [Ha _]. subst c. unfold alpha in Ha. cbn in Ha. lia.
Qed.

(** * Attributes *)
Lemma attr_spaces : forall s r, spaces s -> read_attr_name AWait (s ++ r) = read_attr_name AWait r.
Proof.
  intros s r H. induction H as [ | c s Hc Hs IH ]; [ reflexivity | ].
  cbn [app read_attr_name]. rewrite (proj2 (space_iff c) Hc). exact IH.
Qed.
Lemma attr_name_chars : forall n ret r, Forall (fun c => alpha c \/ digit c \/ In c (text_of "_-.:")) n ->
  read_attr_name (AName ret) (n ++ r) = read_attr_name (AName (rev n ++ ret)) r.
Proof.
  intros n ret r H. revert ret. induction H as [ | c n Hc Hn IH ]; intros ret; [ reflexivity | ].
  assert (E : name_char c = true).
  { unfold name_char. destruct Hc as [Hc | [Hc | Hc]].
    - rewrite (proj2 (alpha_iff c) Hc). reflexivity.
    - rewrite (proj2 (digit_iff c) Hc), orb_true_r. reflexivity.
    - cbn in Hc. destruct Hc as [<- | [<- | [<- | [<- | []]]]]; reflexivity. }
  assert (B : ~ space c /\ c <> 61).
  { unfold space, alpha, digit in *. cbn in Hc |- *. lia. }
  destruct B as [B1 B2].
  cbn [app read_attr_name]. unfold equal. neq c 61. rewrite (space_false c B1), E, IH. cbn [rev]. rewrite <- app_assoc. reflexivity.
Qed.
(** a name, the spaces up to the equality sign, and the rest: what AttributeValue sees *)
Lemma attr_name_done : forall n s r, attr_name_ok n -> spaces s ->
  exists s', spaces s' /\ read_attr_name AWait (n ++ s ++ equal :: r) = (n, WaitAttributeValue, s' ++ equal :: r).
Proof.
  intros [ | c n ] s r H Hs; [ contradiction | ]. destruct H as [Hc Hn].
  assert (C : is_alpha c || (c =? underscore) = true).
  { apply orb_true_iff. destruct Hc as [Hc | Hc]; [ left; apply alpha_iff; exact Hc | right; apply Nat.eqb_eq; exact Hc ]. }
  assert (B : ~ space c /\ c <> 60).
  { unfold space, alpha in *. cbn in Hc |- *. lia. }
  destruct B as [B1 B2].
  cbn [app read_attr_name]. rewrite (space_false c B1). unfold lt_. neq c 60. rewrite C, attr_name_chars by exact Hn.
  assert (R : rev (rev n ++ [c]) = c :: n) by (rewrite rev_app_distr, rev_involutive; reflexivity).
  destruct Hs as [ | d s Hd Hs ].
  - exists []. split; [ constructor | ]. cbn [app read_attr_name]. unfold equal at 1 2. cbn [Nat.eqb]. rewrite R. reflexivity.
  - exists s. split; [ exact Hs | ]. cbn [app read_attr_name]. rewrite (proj2 (space_iff d) Hd). unfold space in Hd. cbn [In] in Hd.
    unfold equal at 1. neq d 61. rewrite R. reflexivity.
Qed.
Lemma value_spaces : forall s ret r, spaces s -> read_attr_value VWait ret (s ++ r) = read_attr_value VWait ret r.
Proof.
  intros s ret r H. induction H as [ | c s Hc Hs IH ]; [ reflexivity | ].
  cbn [app read_attr_value]. rewrite (proj2 (space_iff c) Hc). exact IH.
Qed.
Lemma value_spaces' : forall s r, spaces s -> read_attr_value VRead [] (s ++ r) = read_attr_value VRead [] r.
Proof.
  intros s r H. induction H as [ | c s Hc Hs IH ]; [ reflexivity | ].
  cbn [app read_attr_value]. rewrite (proj2 (space_iff c) Hc). exact IH.
Qed.
Lemma value_chars : forall v ret r, value_ok v -> read_attr_value VQuote ret (v ++ r) = read_attr_value VQuote (rev v ++ ret) r.
Proof.
  intros v ret r H. revert ret. induction H as [ | c v [Hp Hq] Hv IH ]; intro ret; [ reflexivity | ].
  cbn [app read_attr_value]. unfold quote. cbn in Hq. neq c 34. rewrite (proj2 (print_iff c) Hp), IH. cbn [rev]. rewrite <- app_assoc. reflexivity.
Qed.
Lemma value_done : forall s1 s2 v r, spaces s1 -> spaces s2 -> value_ok v ->
  read_attr_value VWait [] (s1 ++ equal :: s2 ++ quote :: v ++ quote :: r) = (v, WaitAttribute, r).
Proof.
  intros s1 s2 v r H1 H2 Hv. rewrite value_spaces by exact H1. cbn [read_attr_value]. change (is_space equal) with false. unfold equal at 1 2. cbn [Nat.eqb].
  rewrite value_spaces' by exact H2. cbn [read_attr_value]. change (is_space quote) with false. unfold quote at 1 2. cbn [Nat.eqb andb].
  rewrite value_chars by exact Hv. rewrite app_nil_r. cbn [read_attr_value]. unfold quote at 1 2. cbn [Nat.eqb]. rewrite rev_involutive. reflexivity.
Qed.
Lemma attributes_step : forall fuel a r attrs inc, attr_ok a ->
  read_attributes (S fuel) WaitAttribute (attr_text a ++ r) attrs inc =
  if is_include a then read_attributes fuel WaitAttribute r attrs (value a)
  else read_attributes fuel WaitAttribute r (attrs ++ [(attr_name a, value a)]) inc.
Proof.
  intros fuel a r attrs inc [H1 [H2 [H3 [H4 H5]]]].
  destruct (attr_name_done (attr_name a) (eq_left a) (eq_right a ++ quote :: value a ++ quote :: r) H2 H3) as [s' [Hs' E]].
  assert (T : attr_text a ++ r = before a ++ attr_name a ++ eq_left a ++ equal :: eq_right a ++ quote :: value a ++ quote :: r).
  { unfold attr_text. rewrite <- !app_assoc. reflexivity. }
  rewrite T. cbn [read_attributes attribute_name]. rewrite attr_spaces by exact H1. rewrite E. cbn [attribute_value].
  rewrite value_done by assumption. unfold is_include, text_eqb. change include_name with (text_of "Include").
  destruct (list_eq_dec Nat.eq_dec (attr_name a) (text_of "Include")); reflexivity.
Qed.
Definition last_include (l : list attribute) (inc : list nat) : list nat :=
  match rev (filter is_include l) with [] => inc | a :: _ => value a end.
Lemma attributes_loop : forall l fuel close x attrs inc, Forall attr_ok l -> spaces close -> (hd 0 x = gt \/ hd 0 x = slash) -> x <> [] ->
  length l < fuel ->
  read_attributes fuel WaitAttribute (flat_map attr_text l ++ close ++ x) attrs inc = (attrs ++ kept l, last_include l inc, EndTag, x).
Proof.
  induction l as [ | a l IH ]; intros fuel close x attrs inc Hl Hc Hx Hx0 Hf; (destruct fuel as [ | fuel ]; [ cbn [length] in Hf; lia | ]).
  - cbn [flat_map app read_attributes attribute_name]. rewrite attr_spaces by exact Hc.
    destruct x as [ | c x ]; [ congruence | ]. cbn [hd] in Hx.
    assert (E : read_attr_name AWait (c :: x) = ([], EndTag, c :: x)) by (destruct Hx; subst c; reflexivity).
    rewrite E. rewrite app_nil_r. reflexivity.
  - inversion Hl as [ | ? ? Ha Hl' ]; subst. cbn [flat_map]. rewrite <- app_assoc, attributes_step by exact Ha. cbn [length] in Hf.
    unfold kept, last_include. cbn [filter]. destruct (is_include a) eqn:Ei; cbn [negb].
    + rewrite IH by (try assumption; lia). f_equal. f_equal. f_equal. unfold last_include. cbn [rev].
      destruct (rev (filter is_include l)); reflexivity.
    + rewrite IH by (try assumption; lia). unfold kept, last_include. cbn [map]. rewrite <- app_assoc. reflexivity.
Qed.
Lemma attr_text_length : forall a, 1 <= length (attr_text a).
Proof. intros a. unfold attr_text. rewrite !app_length. cbn [length]. lia. Qed.
Lemma attrs_text_length : forall l, length l <= length (flat_map attr_text l).
Proof.
  induction l as [ | a l IH ]; [ reflexivity | ]. cbn [flat_map length]. rewrite app_length. pose proof (attr_text_length a). lia.
Qed.
Lemma included_push : forall files l x, push_stream files (last_include l []) x = included files l ++ x.
Proof.
  intros files l x. unfold push_stream, last_include, included. destruct (rev (filter is_include l)) as [ | a q ]; [ reflexivity | ].
  destruct (value a); [ reflexivity | ]. destruct (files (n :: l0)); reflexivity.
Qed.
(** an opening tag *)
Lemma open_tag_read : forall files n l close x fin x', open_ok n l close ->
  (x = text_of ">" /\ fin = 1 \/ x = text_of "/>" /\ fin = 2) ->
  open_tag files Intro (open_text n l close ++ x ++ x') = (mk_tag n (kept l) fin, Intro, included files l ++ x').
Proof.
  intros files n l close x fin x' [Hn [[Hl Hl'] Hc]] Hx.
  unfold open_tag, open_text. cbn [app expect_open_tag]. change (ch "<") with lt_. rewrite Nat.eqb_refl.
  rewrite <- !app_assoc, tag_name_opened by exact Hn.
  assert (X : (hd 0 (x ++ x') = gt \/ hd 0 (x ++ x') = slash) /\ x ++ x' <> []).
  { destruct Hx as [[-> _] | [-> _]]; (split; [ | discriminate ]); [ left | right ]; reflexivity. }
  destruct X as [X1 X2].
  assert (Q : exists st r, read_open_tag (InTag (rev n)) (flat_map attr_text l ++ close ++ x ++ x') = (n, st, r) /\ st <> ReadCloseTagSlash /\
              read_attributes (S (length r)) st r [] [] = (kept l, last_include l [], EndTag, x ++ x')).
  { assert (E0 : exists b c t, flat_map attr_text l ++ close ++ x ++ x' = t /\
             ((space c /\ b = true /\ t = c :: tl t) \/ (l = [] /\ close = [] /\ t = x ++ x'))).
    { destruct l as [ | a l ].
      - destruct Hc as [ | c close Hcc Hc ].
        + exists true, 0, (x ++ x'). split; [ reflexivity | right; auto ].
        + exists true, c, ((c :: close) ++ x ++ x'). split; [ reflexivity | left; auto ].
      - inversion Hl as [ | ? ? Ha ? ]; subst. destruct Ha as [Hb _]. destruct (before a) as [ | c b ] eqn:Eb; [ congruence | ].
        inversion Hb; subst. exists true, c, (flat_map attr_text (a :: l) ++ close ++ x ++ x'). split; [ reflexivity | left ]. split; [ assumption | ]. split; [ reflexivity | ].
        cbn [flat_map]. assert (Ea : exists q, attr_text a = c :: q) by (unfold attr_text; rewrite Eb; eexists; reflexivity).
        destruct Ea as [q ->]. reflexivity. }
    destruct E0 as [b [c [t [Et E0]]]]. rewrite Et. destruct E0 as [[Hsp [_ Eq]] | [El [Ecl Eq]]].
    - exists WaitAttribute, (tl t). repeat split; [ | discriminate | ].
      + rewrite Eq at 1. cbn [read_open_tag]. rewrite (proj2 (space_iff c) Hsp), rev_involutive. reflexivity.
      + assert (L : length l <= length (tl t)).
        { assert (length t = S (length (tl t))) by (rewrite Eq at 1; reflexivity).
          assert (length l < length t). { rewrite <- Et, !app_length. pose proof (attrs_text_length l).
            destruct x as [ | ? x0 ]; [ destruct Hx as [[Hx _] | [Hx _]]; discriminate Hx | ]. cbn [length]. lia. }
          lia. }
        assert (F : read_attributes (S (length (tl t))) WaitAttribute t [] [] = (kept l, last_include l [], EndTag, x ++ x')).
        { rewrite <- Et at 2. rewrite attributes_loop by (try assumption; lia). reflexivity. }
        rewrite <- F. rewrite Eq at 4. cbn [read_attributes attribute_name read_attr_name]. rewrite (proj2 (space_iff c) Hsp). reflexivity.
    - exists EndTag, (x ++ x'). rewrite Eq. repeat split; [ | discriminate | ].
      + destruct Hx as [[-> _] | [-> _]]; cbn [text_of map list_ascii_of_string app]; cbn [read_open_tag];
          change (is_space (ch ">")) with false; change (is_space (ch "/")) with false; cbn; rewrite rev_involutive; reflexivity.
      + subst l. reflexivity. }
  destruct Q as [st [r [Q1 [Q2 Q3]]]]. rewrite Q1, not_cdata by exact Hn.
  assert (G : read_close_tag (x ++ x') = (fin, Intro, x')) by (destruct Hx as [[-> ->] | [-> ->]]; reflexivity).
  rewrite Q3, G, included_push. destruct st; try reflexivity. congruence.
Qed.
(** an end tag *)
Lemma finish_chars : forall name n ret r, Forall (fun c => printable c /\ c <> ch " " /\ c <> ch "/" /\ c <> ch ">") n -> ret <> [] ->
  read_finish name (FName ret) (n ++ r) = read_finish name (FName (rev n ++ ret)) r.
Proof.
  intros name n ret r H. revert ret. induction H as [ | c n [Hp [H1 [H2 H3]]] Hn IH ]; intros ret Hr; [ reflexivity | ].
  cbn [app read_finish]. unfold gt. cbn in H3. neq c 62. rewrite (proj2 (print_iff c) Hp). destruct ret as [ | d ret ]; [ congruence | ].
  cbn [negb andb]. rewrite orb_true_r, IH by discriminate. cbn [rev]. rewrite <- app_assoc. reflexivity.
Qed.
Lemma finish_any : forall name n r, tag_name_ok n -> read_finish name FSlash (slash :: n ++ text_of ">" ++ r) = (text_eqb n name, Intro, r).
Proof.
  intros name [ | c n ] r H; [ contradiction | ]. destruct H as [Ha Hn]. cbn [read_finish]. unfold slash at 1 2 3. cbn [Nat.eqb quest excl].
  cbn [app read_finish]. unfold gt. unfold alpha in Ha. neq c 62. rewrite (proj2 (alpha_iff c) Ha). cbn [orb].
  rewrite finish_chars by (assumption || discriminate). cbn [text_of list_ascii_of_string map app read_finish]. unfold gt. cbn [ch nat_of_ascii].
  replace (ch ">" =? 62) with true by reflexivity. rewrite rev_app_distr, rev_involutive. cbn [rev app]. reflexivity.
Qed.
Lemma finish_read : forall n r, tag_name_ok n -> read_finish n FSlash (slash :: n ++ text_of ">" ++ r) = (true, Intro, r).
Proof. intros n r H. rewrite finish_any by exact H. rewrite text_eqb_refl. reflexivity. Qed.

(** * Documents *)
Definition ends_ok (x : list nat) : Prop := exists s r, spaces s /\ x = s ++ lt_ :: r.
Definition follow (next : parts) (x : list nat) : Prop := match next with Raw _ _ _ => True | _ => ends_ok x end.
Lemma comment_starts : forall c r, exists r', comment_text c ++ r = lt_ :: r'.
Proof. intros [t | t] r; cbn [comment_text]; eexists; reflexivity. Qed.
Lemma misc_ends : forall g x, misc_ok g -> ends_ok (misc_text g ++ lt_ :: x).
Proof.
  intros [l s] x [Hl Hs]. unfold misc_text. cbn [fst snd] in *. rewrite <- app_assoc. destruct Hl as [ | [s0 c] l [Hs0 Hc] Hl ].
  - exists s, x. split; [ exact Hs | reflexivity ].
  - cbn [flat_map fst snd] in *. rewrite <- !app_assoc.
    destruct (comment_starts c (flat_map (fun p => fst p ++ comment_text (snd p)) l ++ s ++ lt_ :: x)) as [r' E].
    exists s0, r'. split; [ exact Hs0 | ]. rewrite E. reflexivity.
Qed.
Lemma doc_starts : forall d x, exists r, doc_text d ++ x = lt_ :: r.
Proof. intros [n l c | n l c f b g] x; cbn [doc_text]; unfold open_text; eexists; reflexivity. Qed.
Lemma parts_follow : forall files ps next x, parts_ok files ps next -> not_raw ps next -> follow next x -> ends_ok (parts_text ps ++ x).
Proof.
  intros files [ | g d ps | sp t ps | g t ps ] next x H Hr Hx.
  - cbn [parts_text app]. destruct next; try exact Hx. contradiction Hr.
  - destruct H as [Hg _]. cbn [parts_text]. rewrite <- !app_assoc. destruct (doc_starts d (parts_text ps ++ x)) as [r ->]. apply misc_ends. exact Hg.
  - contradiction Hr.
  - destruct H as [Hg _]. cbn [parts_text]. rewrite <- !app_assoc. apply (misc_ends g). exact Hg.
Qed.
Lemma parts_follow_any : forall files ps x, parts_ok files ps Nil -> ends_ok x -> follow ps (parts_text ps ++ x).
Proof.
  intros files ps x H Hx. destruct ps as [ | g d ps | sp t ps | g t ps ]; cbn [follow]; try exact I;
    apply (parts_follow files _ Nil); try exact H; try exact I; exact Hx.
Qed.

Definition grow (root : tree) (ps : parts) : tree := match root with Node n a f cs t => Node n a f (cs ++ elements ps) (t ++ texts ps) end.
Fixpoint dsize (d : doc) : nat := match d with Stub _ _ _ => 1 | Elem _ _ _ f b _ => 2 + psize f + psize b end
with psize (ps : parts) : nat := match ps with Nil => 0 | Child _ d ps' => dsize d + psize ps' | Raw _ _ ps' => S (psize ps') | Data _ _ ps' => S (psize ps') end.
Scheme doc_ind2 := Induction for doc Sort Prop with parts_ind2 := Induction for parts Sort Prop.
Combined Scheme doc_parts_ind from doc_ind2, parts_ind2.

Lemma sub_spaces : forall files k s x root, spaces s -> read_sub files k Intro (s ++ x) root = read_sub files k Intro x root.
Proof.
  intros files [ | k ] s x root H; [ reflexivity | ]. cbn [read_sub]. unfold open_tag. rewrite expect_spaces by exact H. reflexivity.
Qed.
Lemma finish_found : forall files g y, misc_ok g -> open_tag files Intro (misc_text g ++ text_of "</" ++ y) = (mk_tag [] [] 3, ReadCloseTagSlash, slash :: y).
Proof. intros files g y H. change (text_of "</" ++ y) with (lt_ :: slash :: y). rewrite misc_skipped by exact H. reflexivity. Qed.
Lemma data_found : forall files g y, misc_ok g -> open_tag files Intro (misc_text g ++ text_of "<![CDATA[" ++ y) = (mk_tag cdata [] 4, EndTag, y).
Proof. intros files g y H. change (text_of "<![CDATA[" ++ y) with (lt_ :: cdata ++ y). rewrite misc_skipped by exact H. reflexivity. Qed.
Lemma drop_spaces_app : forall s t, spaces s -> drop_spaces (s ++ t) = drop_spaces t.
Proof. intros s t H. induction H as [ | c s Hc Hs IH ]; [ reflexivity | ]. cbn [app drop_spaces]. rewrite (proj2 (space_iff c) Hc). exact IH. Qed.
Lemma last_rev : forall (t : list nat) d, last t d = hd d (rev t).
Proof.
  intros t d. induction t as [ | a t IH ] using rev_ind; [ reflexivity | ]. rewrite last_last, rev_app_distr. reflexivity.
Qed.
Lemma spaces_rev : forall s, spaces s -> spaces (rev s).
Proof. intros s H. apply Forall_rev. exact H. Qed.
Lemma raw_trimmed : forall t s, t <> [] -> ~ space (last t 0) -> spaces s -> raw_data (t ++ s ++ [lt_]) = t.
Proof.
  intros t s Ht Hl Hs. unfold raw_data. rewrite app_assoc, removelast_last, rev_app_distr, drop_spaces_app by (apply spaces_rev; exact Hs).
  rewrite last_rev in Hl. assert (E : drop_spaces (rev t) = rev t).
  { destruct (rev t) as [ | c q ]; [ reflexivity | ]. cbn [hd] in Hl. cbn [drop_spaces]. rewrite (space_false c Hl). reflexivity. }
  rewrite E. apply rev_involutive.
Qed.
Lemma single_first : forall t, ~ In lt_ t -> ends_first [lt_] t.
Proof.
  intros t H u v E. destruct v as [ | a v ] using rev_ind; [ reflexivity | ]. exfalso. clear IHv.
  assert (E' : (t ++ [lt_]) = ((u ++ [lt_] ++ v) ++ [a])) by (rewrite E, <- !app_assoc; reflexivity).
  apply app_inj_tail in E'. destruct E' as [E' _]. apply H. rewrite E'. apply in_or_app. right. left. reflexivity.
Qed.
Lemma not_in_app_spaces : forall t s, without ["<"%char] t -> spaces s -> ~ In lt_ (t ++ s).
Proof.
  intros t s Ht Hs H. apply in_app_or in H. destruct H as [H | H].
  - apply (Ht "<"%char); [ left; reflexivity | exact H ].
  - unfold spaces in Hs. rewrite Forall_forall in Hs. apply Hs in H. unfold space, lt_ in H. cbn in H. lia.
Qed.
Lemma raw_read : forall files k sp t s r root, spaces sp -> raw_ok t -> spaces s ->
  read_sub files (S k) Intro (sp ++ t ++ s ++ lt_ :: r) root = read_sub files k Intro (s ++ lt_ :: r) (add_contents root t).
Proof.
  intros files k sp t s r root Hsp [H1 [H2 [H3 H4]]] Hs. rewrite (sub_spaces files k s) by exact Hs.
  assert (O : open_tag files Intro (sp ++ t ++ s ++ lt_ :: r) = (mk_tag [] [] 5, Intro, t ++ s ++ lt_ :: r)).
  { unfold open_tag. rewrite expect_spaces by exact Hsp. destruct t as [ | c t ]; [ congruence | ]. cbn [hd] in H3. cbn [app expect_open_tag].
    rewrite (space_false c H3). assert (c <> lt_) by (intro; subst c; apply (H2 "<"%char); left; reflexivity).
    replace (c =? lt_) with false by (symmetry; apply Nat.eqb_neq; assumption). reflexivity. }
  cbn [read_sub]. rewrite O. cbn [tag_finish Nat.eqb].
  assert (U : read_until [lt_] [] (t ++ s ++ lt_ :: r) = ((t ++ s) ++ [lt_], r)).
  { change (lt_ :: r) with ([lt_] ++ r). rewrite app_assoc. apply read_until_ok; [ discriminate | ]. apply single_first. apply not_in_app_spaces; assumption. }
  rewrite U, rev_app_distr. cbn [rev app]. rewrite Nat.eqb_refl. rewrite <- app_assoc, raw_trimmed by assumption. reflexivity.
Qed.
Lemma data_read : forall files k g t r root, misc_ok g -> ends_first (text_of "]]>") t ->
  read_sub files (S k) Intro (misc_text g ++ text_of "<![CDATA[" ++ t ++ text_of "]]>" ++ r) root = read_sub files k Intro r (add_contents root t).
Proof.
  intros files k g t r root Hg Ht. cbn [read_sub]. rewrite data_found by exact Hg. cbn [tag_finish Nat.eqb].
  change (str "]]>") with (text_of "]]>"). rewrite read_until_ok by (discriminate || exact Ht).
  rewrite app_length. change (length (text_of "]]>")) with 3. replace (length t + 3 <? 3) with false by (symmetry; apply Nat.ltb_ge; lia).
  replace (length t + 3 - 3) with (length t) by lia. rewrite firstn_app, Nat.sub_diag, firstn_all. cbn [firstn]. rewrite app_nil_r. reflexivity.
Qed.
Lemma finish_sub : forall files k g y root, misc_ok g -> 1 <= k ->
  read_sub files k Intro (misc_text g ++ text_of "</" ++ y) root = Done (true, root, ReadCloseTagSlash, slash :: y).
Proof.
  intros files [ | k ] g y root Hg Hk; [ lia | ]. cbn [read_sub]. rewrite finish_found by exact Hg. reflexivity.
Qed.

Definition doc_reads (files : text -> option text) (d : doc) : Prop := forall g x root n o, misc_ok g -> doc_ok files d ->
  (forall k, n <= k -> read_sub files k Intro x (add_child root (doc_tree d)) = o) ->
  forall k, n + dsize d <= k -> read_sub files k Intro (misc_text g ++ doc_text d ++ x) root = o.
Definition parts_read (files : text -> option text) (ps : parts) : Prop := forall next x root n o, parts_ok files ps next -> follow next x ->
  (forall k, n <= k -> read_sub files k Intro x (grow root ps) = o) ->
  forall k, n + psize ps <= k -> read_sub files k Intro (parts_text ps ++ x) root = o.

(** the inside of an element and its end tag *)
Lemma inside_read : forall files f b, parts_read files f -> parts_read files b ->
  forall g name x root k, parts_ok files f b -> parts_ok files b Nil -> misc_ok g -> 1 + psize f + psize b <= k ->
  read_sub files k Intro (parts_text f ++ parts_text b ++ misc_text g ++ text_of "</" ++ name ++ text_of ">" ++ x) root =
  Done (true, grow (grow root f) b, ReadCloseTagSlash, slash :: name ++ text_of ">" ++ x).
Proof.
  intros files f b IHf IHb g name x root k Hf Hb Hg Hk.
  assert (E : ends_ok (misc_text g ++ text_of "</" ++ name ++ text_of ">" ++ x)) by (apply (misc_ends g); exact Hg).
  apply (IHf b _ root (1 + psize b)); [ exact Hf | apply (parts_follow_any files); assumption | | lia ].
  intros k1 Hk1. apply (IHb Nil _ _ 1); [ exact Hb | exact E | | lia ].
  intros k2 Hk2. apply finish_sub; [ exact Hg | lia ].
Qed.
Lemma reads : forall files, (forall d, doc_reads files d) /\ (forall ps, parts_read files ps).
Proof.
  intro files. apply doc_parts_ind.
  - intros n l c g x root m o Hg [Ho Hi] Ho' k Hk. cbn [dsize] in Hk. destruct k as [ | k ]; [ lia | ]. cbn [doc_text].
    cbn [read_sub]. rewrite <- app_assoc.
    assert (O : open_tag files Intro (misc_text g ++ open_text n l c ++ text_of "/>" ++ x) = (mk_tag n (kept l) 2, Intro, x)).
    { unfold open_text. cbn [app]. change (ch "<") with lt_. rewrite misc_skipped by exact Hg.
      pose proof (open_tag_read files n l c (text_of "/>") 2 x Ho (or_intror (conj eq_refl eq_refl))) as O. rewrite Hi in O. exact O. }
    rewrite O. cbn [tag_finish Nat.eqb close_tag node tag_name tag_attrs]. apply Ho'. lia.
  - intros n l c f IHf b IHb last g x root m o Hg [Ho [Hi [Hf [Hb Hl]]]] Ho' k Hk. cbn [dsize] in Hk. destruct k as [ | k ]; [ lia | ]. cbn [doc_text].
    cbn [read_sub]. rewrite <- !app_assoc.
    set (rest := parts_text b ++ misc_text last ++ text_of "</" ++ n ++ text_of ">" ++ x).
    assert (O : open_tag files Intro (misc_text g ++ open_text n l c ++ text_of ">" ++ rest) = (mk_tag n (kept l) 1, Intro, parts_text f ++ rest)).
    { unfold open_text. cbn [app]. change (ch "<") with lt_. rewrite misc_skipped by exact Hg.
      pose proof (open_tag_read files n l c (text_of ">") 1 rest Ho (or_introl (conj eq_refl eq_refl))) as O. rewrite Hi in O. exact O. }
    rewrite O. cbn [tag_finish Nat.eqb node tag_name tag_attrs]. unfold rest.
    rewrite (inside_read files f b IHf IHb) by (try assumption; lia).
    unfold close_tag. cbn [tag_finish Nat.eqb tag_name read_finish_tag].
    rewrite finish_read by (destruct Ho; assumption). cbn [grow app]. apply Ho'. lia.
  - intros next x root n o _ _ H k Hk. cbn [parts_text app]. rewrite <- (H k) by (cbn [psize] in Hk; lia).
    f_equal. destruct root. cbn [grow elements texts]. rewrite !app_nil_r. reflexivity.
  - intros g d IHd ps IHps next x root n o [Hg [Hd Hps]] Hx H k Hk. cbn [parts_text psize] in *. rewrite <- !app_assoc.
    apply (IHd g _ root (n + psize ps)); [ exact Hg | exact Hd | | lia ].
    intros k1 Hk1. apply (IHps next x _ n); [ exact Hps | exact Hx | | lia ].
    intros k2 Hk2. rewrite <- (H k2) by lia. f_equal. destruct root. cbn [grow add_child elements texts]. rewrite <- app_assoc. reflexivity.
  - intros sp t ps IHps next x root n o [Hsp [Ht [Hr Hps]]] Hx H k Hk. cbn [parts_text psize] in *. rewrite <- !app_assoc.
    destruct (parts_follow files ps next x Hps Hr Hx) as [s [r [Hs E]]]. destruct k as [ | k ]; [ lia | ].
    rewrite E, raw_read by assumption. rewrite <- E. apply (IHps next x _ n); [ exact Hps | exact Hx | | lia ].
    intros k2 Hk2. rewrite <- (H k2) by lia. f_equal. destruct root. cbn [grow add_contents elements texts]. rewrite <- app_assoc. reflexivity.
  - intros g t ps IHps next x root n o [Hg [Ht Hps]] Hx H k Hk. cbn [parts_text psize] in *. rewrite <- !app_assoc. destruct k as [ | k ]; [ lia | ].
    rewrite data_read by assumption. apply (IHps next x _ n); [ exact Hps | exact Hx | | lia ].
    intros k2 Hk2. rewrite <- (H k2) by lia. f_equal. destruct root. cbn [grow add_contents elements texts]. rewrite <- app_assoc. reflexivity.
Qed.
Lemma document : forall files g d x fuel, misc_ok g -> is_elem d -> doc_ok files d -> dsize d <= fuel ->
  read_xml files fuel (misc_text g ++ doc_text d ++ x) = Done (doc_tree d, Intro, x).
Proof.
  intros files g [n l c | n l c f b last] x fuel Hg He Hok Hf; [ contradiction He | ]. destruct Hok as [Ho [Hi [Hff [Hb Hl]]]].
  unfold read_xml. cbn [doc_text dsize] in *. rewrite <- !app_assoc.
  set (rest := parts_text b ++ misc_text last ++ text_of "</" ++ n ++ text_of ">" ++ x).
  assert (O : open_tag files Intro (misc_text g ++ open_text n l c ++ text_of ">" ++ rest) = (mk_tag n (kept l) 1, Intro, parts_text f ++ rest)).
  { unfold open_text. cbn [app]. change (ch "<") with lt_. rewrite misc_skipped by exact Hg.
    pose proof (open_tag_read files n l c (text_of ">") 1 rest Ho (or_introl (conj eq_refl eq_refl))) as O. rewrite Hi in O. exact O. }
  rewrite O. unfold rest. destruct (reads files) as [_ P].
  rewrite (inside_read files f b (P f) (P b)) by (try assumption; lia).
  unfold close_tag. cbn [tag_finish Nat.eqb tag_name read_finish_tag]. rewrite finish_read by (destruct Ho; assumption). reflexivity.
Qed.

(** * Written trees *)
Section TreeInd.
  Variable P : tree -> Prop.
  Hypothesis step : forall n l f cs d, Forall P cs -> P (Node n l f cs d).
  Fixpoint tree_ind2 (t : tree) : P t :=
    match t with
    | Node n l f cs d => step n l f cs d ((fix go (cs : list tree) : Forall P cs := match cs with [] => Forall_nil P | c :: cs' => Forall_cons c (tree_ind2 c) (go cs') end) cs)
    end.
End TreeInd.
Definition attr_of (off : nat) (a : list nat * list nat) : attribute := {| before := nl :: tabs (off + 1); attr_name := fst a; eq_left := []; eq_right := []; value := snd a |}.
Definition newline_tabs (off : nat) : misc := ([], nl :: tabs off).
Definition data_part (off : nat) (d : list nat) : parts := match d with [] => Nil | _ => Data (newline_tabs off) d Nil end.
Fixpoint doc_of (off : nat) (t : tree) : doc :=
  match t with
  | Node n l f cs d =>
      if f =? 2 then Stub n (map (attr_of off) l) []
      else Elem n (map (attr_of off) l) [] Nil
             ((fix go (cs : list tree) : parts := match cs with [] => data_part (off + 1) d | c :: cs' => Child (newline_tabs (off + 1)) (doc_of (off + 1) c) (go cs') end) cs)
             (newline_tabs off)
  end.
Definition parts_of (off : nat) (d : list nat) : list tree -> parts :=
  fix go (cs : list tree) : parts := match cs with [] => data_part off d | c :: cs' => Child (newline_tabs off) (doc_of off c) (go cs') end.
Lemma write_attrs_doc : forall off l, write_attrs off l = flat_map attr_text (map (attr_of off) l).
Proof.
  intros off l. induction l as [ | [n v] l IH ]; [ reflexivity | ]. cbn [write_attrs map flat_map]. rewrite IH.
  unfold attr_text, attr_of. cbn [before attr_name eq_left eq_right value fst snd app]. rewrite <- !app_assoc. cbn [app]. rewrite <- !app_assoc. reflexivity.
Qed.
Lemma write_parts : forall off d cs, Forall (fun c => write_xml off c = tabs off ++ doc_text (doc_of off c) ++ [nl]) cs ->
  nl :: flat_map (write_xml off) cs ++ (match d with [] => [] | _ => tabs off ++ str "<![CDATA[" ++ d ++ str "]]>" ++ [nl] end) =
  parts_text (parts_of off d cs) ++ [nl].
Proof.
  intros off d cs H. induction H as [ | c cs Hc Hcs IH ].
  - cbn [flat_map app parts_of]. destruct d as [ | a d ]; [ reflexivity | ]. unfold data_part. cbn [parts_text]. unfold newline_tabs, misc_text. cbn [fst snd flat_map app].
    rewrite app_nil_r, <- !app_assoc. cbn [app]. rewrite <- !app_assoc. reflexivity.
  - cbn [flat_map parts_of parts_text]. rewrite Hc. fold (parts_of off d). rewrite <- !app_assoc. rewrite <- IH.
    unfold newline_tabs, misc_text. cbn [fst snd flat_map app]. reflexivity.
Qed.
Lemma write_doc : forall t off, write_xml off t = tabs off ++ doc_text (doc_of off t) ++ [nl].
Proof.
  induction t as [ n l f cs d IH ] using tree_ind2. intro off. cbn [write_xml doc_of]. f_equal. rewrite write_attrs_doc.
  fold (parts_of (off + 1) d).
  destruct (f =? 2).
  - cbn [doc_text]. unfold open_text. rewrite app_nil_r. rewrite <- !app_assoc. cbn [app]. rewrite <- !app_assoc. reflexivity.
  - assert (W : nl :: flat_map (write_xml (off + 1)) cs ++ (match d with [] => [] | _ => tabs (off + 1) ++ str "<![CDATA[" ++ d ++ str "]]>" ++ [nl] end) = parts_text (parts_of (off + 1) d cs) ++ [nl]).
    { apply write_parts. rewrite Forall_forall in IH |- *. intros c Hc. apply IH. exact Hc. }
    cbn [doc_text]. unfold open_text. rewrite app_nil_r. rewrite <- !app_assoc. cbn [app]. rewrite <- !app_assoc. f_equal. f_equal. f_equal.
    change (text_of ">") with [gt]. cbn [app]. f_equal.
    rewrite app_assoc, app_comm_cons, W. rewrite <- !app_assoc. reflexivity.
Qed.
Lemma kept_of : forall off l, Forall (fun a => attr_name_ok (fst a) /\ fst a <> text_of "Include" /\ value_ok (snd a)) l -> kept (map (attr_of off) l) = l.
Proof.
  intros off l H. unfold kept. induction H as [ | [n v] l [_ [Hn _]] Hl IH ]; [ reflexivity | ]. cbn [fst] in Hn. cbn [map filter].
  unfold is_include at 1. cbn [attr_of attr_name fst]. destruct (list_eq_dec Nat.eq_dec n (text_of "Include")); [ contradiction | ].
  cbn [negb map]. rewrite IH. reflexivity.
Qed.
Lemma no_include : forall files off l, Forall (fun a => attr_name_ok (fst a) /\ fst a <> text_of "Include" /\ value_ok (snd a)) l -> included files (map (attr_of off) l) = [].
Proof.
  intros files off l H. unfold included. replace (filter is_include (map (attr_of off) l)) with (@nil attribute); [ reflexivity | ].
  induction H as [ | [n v] l [_ [Hn _]] Hl IH ]; [ reflexivity | ]. cbn [fst] in Hn. cbn [map filter].
  unfold is_include at 1. cbn [attr_of attr_name fst]. destruct (list_eq_dec Nat.eq_dec n (text_of "Include")); [ contradiction | ]. exact IH.
Qed.
Lemma tabs_spaces : forall n, spaces (tabs n).
Proof. induction n as [ | n IH ]; [ constructor | ]. constructor; [ unfold space, tab; cbn; tauto | exact IH ]. Qed.
Lemma nl_space : space nl.
Proof. unfold space, nl. cbn. tauto. Qed.
Lemma newline_ok : forall off, misc_ok (newline_tabs off).
Proof. intro off. split; [ constructor | ]. constructor; [ exact nl_space | apply tabs_spaces ]. Qed.
Lemma open_of : forall off n l, tag_name_ok n -> Forall (fun a => attr_name_ok (fst a) /\ fst a <> text_of "Include" /\ value_ok (snd a)) l ->
  open_ok n (map (attr_of off) l) [].
Proof.
  intros off n l Hn Hl. split; [ exact Hn | ]. split; [ | constructor ]. split.
  - rewrite Forall_map. rewrite Forall_forall in Hl |- *. intros a Ha. destruct (Hl a Ha) as [H1 [_ H2]].
    repeat split; cbn [attr_of before attr_name eq_left eq_right value]; try assumption; try constructor; [ exact nl_space | apply tabs_spaces ].
  - destruct l; [ exact I | discriminate ].
Qed.
Lemma texts_of : forall off d cs, texts (parts_of off d cs) = d.
Proof. intros off d cs. induction cs as [ | c cs IH ]; [ | exact IH ]. cbn [parts_of]. destruct d; [ reflexivity | ]. cbn [data_part texts]. apply app_nil_r. Qed.
Lemma elements_of : forall off d cs, Forall (fun c => doc_tree (doc_of off c) = c) cs -> elements (parts_of off d cs) = cs.
Proof.
  intros off d cs H. induction H as [ | c cs Hc Hcs IH ]; [ destruct d; reflexivity | ]. cbn [parts_of elements]. fold (parts_of off d). rewrite Hc, IH. reflexivity.
Qed.
Fixpoint all_ok (cs : list tree) : Prop := match cs with [] => True | c :: cs' => tree_ok c /\ all_ok cs' end.
Lemma all_ok_iff : forall cs, all_ok cs <-> Forall tree_ok cs.
Proof.
  induction cs as [ | c cs IH ]; cbn [all_ok]; [ split; [ constructor | trivial ] | ]. rewrite IH. split.
  - intros [H1 H2]. constructor; assumption.
  - intro H. inversion H; subst. split; assumption.
Qed.
Lemma tree_of : forall t off, tree_ok t -> doc_tree (doc_of off t) = t.
Proof.
  induction t as [ n l f cs d IH ] using tree_ind2. intros off [Hn [Hl [Hf [Hc Hd]]]]. fold all_ok in Hc. apply all_ok_iff in Hc.
  cbn [doc_of]. fold (parts_of (off + 1) d). destruct Hf as [-> | [-> [-> ->]]]; cbn [Nat.eqb doc_tree].
  - rewrite kept_of by exact Hl. cbn [elements texts app]. rewrite texts_of, elements_of; [ reflexivity | ].
    rewrite Forall_forall in *. intros c H. apply IH; [ exact H | apply Hc; exact H ].
  - rewrite kept_of by exact Hl. reflexivity.
Qed.
Lemma parts_of_ok : forall files off d cs, Forall (fun c => doc_ok files (doc_of off c)) cs -> ends_first (text_of "]]>") d -> parts_ok files (parts_of off d cs) Nil.
Proof.
  intros files off d cs H Hd. induction H as [ | c cs Hc Hcs IH ].
  - cbn [parts_of]. destruct d; [ exact I | ]. cbn [data_part parts_ok]. split; [ apply newline_ok | ]. split; [ exact Hd | exact I ].
  - cbn [parts_of parts_ok]. split; [ apply newline_ok | ]. split; [ exact Hc | exact IH ].
Qed.
Lemma doc_of_ok : forall files t off, tree_ok t -> doc_ok files (doc_of off t).
Proof.
  intros files. induction t as [ n l f cs d IH ] using tree_ind2. intros off [Hn [Hl [Hf [Hc Hd]]]]. fold all_ok in Hc. apply all_ok_iff in Hc.
  cbn [doc_of]. fold (parts_of (off + 1) d). destruct Hf as [-> | [-> [-> ->]]]; cbn [Nat.eqb doc_ok].
  - split; [ apply open_of; assumption | ]. split; [ apply no_include; exact Hl | ]. split; [ exact I | ]. split; [ | apply newline_ok ].
    apply parts_of_ok; [ | exact Hd ]. rewrite Forall_forall in *. intros c H. apply IH; [ exact H | apply Hc; exact H ].
  - split; [ apply open_of; assumption | ]. apply no_include. exact Hl.
Qed.
Lemma round_trip : forall files t off x fuel, tree_ok t -> is_root t -> dsize (doc_of off t) <= fuel ->
  read_xml files fuel (write_xml off t ++ x) = Done (t, Intro, nl :: x).
Proof.
  intros files t off x fuel Ht Hr Hf. rewrite write_doc, <- !app_assoc.
  assert (G : misc_ok ([], tabs off)) by (split; [ constructor | apply tabs_spaces ]).
  change (tabs off) with (misc_text ([], tabs off)). change ([nl] ++ x) with (nl :: x).
  rewrite document; [ rewrite tree_of by exact Ht; reflexivity | exact G | | apply doc_of_ok; exact Ht | exact Hf ].
  destruct t as [n l f cs d]. cbn [is_root] in Hr. subst f. exact I.
Qed.

(** * Reading ends *)
Lemma expect_length : forall inp b st r, expect_open_tag inp = (b, st, r) -> length r <= length inp /\ (b = true -> length r < length inp) /\
  (b = false -> st = Failure \/ (r <> [] /\ hd 0 r <> lt_)).
Proof.
  induction inp as [ | c inp IH ]; intros b st r H; cbn [expect_open_tag] in H.
  - injection H as <- <- <-. repeat split; cbn; try lia; try discriminate. intros _. left. reflexivity.
  - destruct (c =? lt_) eqn:E.
    + injection H as <- <- <-. cbn [length]. repeat split; try lia; discriminate.
    + destruct (is_space c).
      * apply IH in H. cbn [length]. destruct H as [H1 [H2 H3]]. split; [ lia | ]. split; [ intro K; apply H2 in K; lia | exact H3 ].
      * injection H as <- <- <-. split; [ lia | ]. split; [ discriminate | ]. intros _. right. split; [ discriminate | ]. cbn [hd]. apply Nat.eqb_neq. exact E.
Qed.
Lemma open_name_length : forall inp st n s r, read_open_tag st inp = (n, s, r) -> length r <= length inp.
Proof.
  induction inp as [ | c inp IH ]; intros st n s r H; cbn [read_open_tag] in H.
  - injection H as <- <- <-. lia.
  - cbn [length]. destruct st;
      repeat match type of H with (if ?b then _ else _) = _ => destruct b end;
      try (apply IH in H; lia); injection H as <- <- <-; cbn [length]; lia.
Qed.
Lemma close_length : forall inp f s r, read_close_tag inp = (f, s, r) -> length r <= length inp /\ (f = 0 \/ f = 1 \/ f = 2).
Proof.
  intros inp f s r H. unfold read_close_tag in H. destruct inp as [ | c inp ]; [ injection H as <- <- <-; auto | ]. cbn [length].
  destruct (c =? gt); [ injection H as <- <- <-; auto | ]. destruct (c =? slash).
  - destruct inp as [ | d inp ]; [ injection H as <- <- <-; cbn [length]; auto | ]. cbn [length]. destruct (d =? gt); injection H as <- <- <-; auto.
  - injection H as <- <- <-. auto.
Qed.
Lemma attr_name_length : forall inp st n s r, read_attr_name st inp = (n, s, r) -> length r <= length inp.
Proof.
  induction inp as [ | c inp IH ]; intros st n s r H; cbn [read_attr_name] in H.
  - injection H as <- <- <-. lia.
  - cbn [length]. destruct st;
      repeat match type of H with (if ?b then _ else _) = _ => destruct b end;
      try (apply IH in H; lia); injection H as <- <- <-; cbn [length]; lia.
Qed.
Lemma attr_value_length : forall inp st ret n s r, read_attr_value st ret inp = (n, s, r) -> length r <= length inp.
Proof.
  induction inp as [ | c inp IH ]; intros st ret n s r H; cbn [read_attr_value] in H.
  - injection H as <- <- <-. lia.
  - cbn [length]. destruct st; cbv zeta in H;
      repeat match type of H with (if ?b then _ else _) = _ => destruct b end;
      try (apply IH in H; lia); injection H as <- <- <-; cbn [length]; lia.
Qed.
Lemma attributes_length : forall fuel st inp attrs inc a i s r, read_attributes fuel st inp attrs inc = (a, i, s, r) -> length r <= length inp.
Proof.
  induction fuel as [ | fuel IH ]; intros st inp attrs inc a i s r H; cbn [read_attributes] in H.
  - injection H as <- <- <- <-. lia.
  - destruct (attribute_name st inp) as [[n s1] r1] eqn:E1.
    assert (L1 : length r1 <= length inp).
    { unfold attribute_name in E1. destruct st; try (injection E1 as <- <- <-; lia). apply attr_name_length in E1. exact E1. }
    assert (C : (let '(val, st2, r2) := attribute_value s1 r1 in
                 if text_eqb n include_name then read_attributes fuel st2 r2 attrs val else read_attributes fuel st2 r2 (attrs ++ [(n, val)]) inc) = (a, i, s, r) \/ r = r1).
    { destruct s1; try (left; exact H); right; injection H as <- <- <- <-; reflexivity. }
    destruct C as [C | ->]; [ | exact L1 ].
    destruct (attribute_value s1 r1) as [[v s2] r2] eqn:E2.
    assert (L2 : length r2 <= length r1).
    { unfold attribute_value in E2. destruct s1; try (injection E2 as <- <- <-; lia). apply attr_value_length in E2. exact E2. }
    destruct (text_eqb n include_name); apply IH in C; lia.
Qed.
Lemma open_finish : forall files inp st t s r, open_tag files st inp = (t, s, r) -> tag_finish t <= 5.
Proof.
  intros files inp st t s r H. unfold open_tag in H.
  repeat match type of H with
  | match ?x with _ => _ end = _ => destruct x eqn:?
  | (let '(_, _) := ?x in _) = _ => destruct x eqn:?
  end; injection H as <- <- <-; cbn [tag_finish]; try lia;
  match goal with E : read_close_tag _ = _ |- _ => apply close_length in E; destruct E as [_ [E | [E | E]]]; subst; lia end.
Qed.
Definition no_files (_ : text) : option text := None.
Lemma open_length : forall inp st t s r, open_tag no_files st inp = (t, s, r) -> length r <= length inp /\
  (tag_finish t = 1 \/ tag_finish t = 2 \/ tag_finish t = 4 -> length r < length inp) /\ (tag_finish t = 5 -> r <> [] /\ hd 0 r <> lt_).
Proof.
  intros inp st t s r H. unfold open_tag in H. destruct st; try (injection H as <- <- <-; cbn [tag_finish]; repeat split; try lia; intros [K | [K | K]]; discriminate K).
  destruct (expect_open_tag inp) as [[b s1] r1] eqn:E1. apply expect_length in E1. destruct E1 as [L1 [L2 L3]].
  assert (Q : (s1 = Failure /\ (t, s, r) = (mk_tag [] [] 0, s1, r1)) \/ (s1 <> Failure /\ (if b then
            let '(name, st2, r2) := read_open_tag OWait r1 in
            if text_eqb name cdata then (mk_tag name [] 4, st2, r2)
            else match st2 with
                 | ReadCloseTagSlash => (mk_tag [] [] 3, st2, r2)
                 | _ =>
                     let '(attrs, inc, _, r3) := read_attributes (S (length r2)) st2 r2 [] [] in
                     let '(fin, st4, r4) := read_close_tag r3 in
                     (mk_tag name attrs fin, st4, push_stream no_files inc r4)
                 end
          else (mk_tag [] [] 5, s1, r1)) = (t, s, r))).
  { destruct s1; try (right; split; [ discriminate | exact H ]); left; split; [ reflexivity | symmetry; exact H ]. }
  clear H. destruct Q as [[_ H] | [Hs H]].
  - injection H as -> -> ->. cbn [tag_finish]. repeat split; try lia; intros [K | [K | K]]; discriminate K.
  - destruct b.
    + assert (L1' := L2 eq_refl). destruct (read_open_tag OWait r1) as [[n s2] r2] eqn:E2. apply open_name_length in E2.
      destruct (text_eqb n cdata).
      * injection H as <- <- <-. cbn [tag_finish]. repeat split; try lia; discriminate.
      * assert (Q : (t, s, r) = (mk_tag [] [] 3, s2, r2) \/ (let '(attrs, inc, _, r3) := read_attributes (S (length r2)) s2 r2 [] [] in
                     let '(fin, st4, r4) := read_close_tag r3 in
                     (mk_tag n attrs fin, st4, push_stream no_files inc r4)) = (t, s, r)).
        { destruct s2; try (right; exact H); left; symmetry; exact H. }
        destruct Q as [Q | Q].
        -- injection Q as -> -> ->. cbn [tag_finish]. repeat split; try lia; try discriminate.
        -- destruct (read_attributes (S (length r2)) s2 r2 [] []) as [[[a i] s3] r3] eqn:E3. apply attributes_length in E3.
           destruct (read_close_tag r3) as [[f s4] r4] eqn:E4. apply close_length in E4. destruct E4 as [E4 Ef].
           injection Q as <- <- <-. replace (push_stream no_files i r4) with r4 by (unfold push_stream, no_files; destruct i; reflexivity).
           cbn [tag_finish]. repeat split; try lia.
    + injection H as <- <- <-. cbn [tag_finish].
      split; [ exact L1 | ]. split; [ intros [K | [K | K]]; discriminate K | ]. intros _. destruct (L3 eq_refl) as [K | K]; [ contradiction | exact K ].
Qed.
Lemma finish_length : forall name inp st b s r, read_finish name st inp = (b, s, r) -> length r <= length inp.
Proof.
  intro name. induction inp as [ | c inp IH ]; intros st b s r H; cbn [read_finish] in H.
  - injection H as <- <- <-. lia.
  - cbn [length]. destruct st;
      repeat match type of H with (if ?b then _ else _) = _ => destruct b end;
      try (apply IH in H; lia); injection H as <- <- <-; cbn [length]; lia.
Qed.
Lemma close_tag_length : forall t st inp b s r, close_tag t st inp = (b, s, r) -> length r <= length inp.
Proof.
  intros t st inp b s r H. unfold close_tag in H.
  repeat match type of H with (if ?b then _ else _) = _ => destruct b; [ injection H as <- <- <-; lia | ] end.
  unfold read_finish_tag in H. destruct st; try (injection H as <- <- <-; lia); apply finish_length in H; exact H.
Qed.
Lemma until_length : forall stop inp ret d r, read_until stop ret inp = (d, r) -> length d + length r = length ret + length inp.
Proof.
  intros stop. induction inp as [ | c inp IH ]; intros ret d r H; cbn [read_until] in H.
  - injection H as <- <-. rewrite rev_length. cbn [length]. lia.
  - destruct (ends_with stop (c :: ret)); [ injection H as <- <- | apply IH in H ].
    + cbn [rev]. rewrite app_length, rev_length. cbn [length]. lia.
    + cbn [length] in *. lia.
Qed.
Lemma until_starts : forall stop inp ret d r, read_until stop ret inp = (d, r) -> exists q, d = rev ret ++ q.
Proof.
  intros stop. induction inp as [ | c inp IH ]; intros ret d r H; cbn [read_until] in H.
  - injection H as <- <-. exists []. symmetry. apply app_nil_r.
  - destruct (ends_with stop (c :: ret)); [ injection H as <- <- | apply IH in H ].
    + exists [c]. reflexivity.
    + destruct H as [q ->]. exists (c :: q). cbn [rev]. rewrite <- app_assoc. reflexivity.
Qed.
Lemma raw_length : forall r1 d r2, read_until [lt_] [] r1 = (d, r2) -> r1 <> [] -> hd 0 r1 <> lt_ ->
  length (match rev d with c :: _ => if c =? lt_ then lt_ :: r2 else r2 | [] => r2 end) < length r1.
Proof.
  intros [ | c r1 ] d r2 H Hne Hc; [ congruence | ]. cbn [hd] in Hc. assert (L := until_length _ _ _ _ _ H). cbn [read_until] in H.
  assert (E : ends_with [lt_] [c] = false).
  { destruct (ends_with [lt_] [c]) eqn:E; [ | reflexivity ]. apply ends_with_iff in E. destruct E as [u E]. cbn [rev app] in E.
    change [c] with ([] ++ [c]) in E. apply app_inj_tail in E. destruct E as [_ E]. congruence. }
  rewrite E in H. apply until_starts in H. destruct H as [q ->]. cbn [rev app length] in *.
  destruct (rev q) as [ | a p ] eqn:Eq; cbn [app].
  - assert (q = []) by (rewrite <- (rev_involutive q), Eq; reflexivity). subst q. cbn [length] in L.
    replace (c =? lt_) with false by (symmetry; apply Nat.eqb_neq; exact Hc). lia.
  - assert (length q = S (length p)) by (rewrite <- (rev_length q), Eq; reflexivity). destruct (a =? lt_); cbn [length]; lia.
Qed.
Lemma sub_ends : forall fuel st inp root, length inp < fuel ->
  read_sub no_files fuel st inp root <> NoFuel /\
  (forall b t s r, read_sub no_files fuel st inp root = Done (b, t, s, r) -> length r <= length inp).
Proof.
  induction fuel as [ | fuel IH ]; intros st inp root Hf; [ lia | ]. cbn [read_sub].
  destruct (open_tag no_files st inp) as [[t s1] r1] eqn:E1. assert (F := open_finish _ _ _ _ _ _ E1). apply open_length in E1. destruct E1 as [L1 [L2 L3]].
  destruct (tag_finish t =? 3) eqn:F3.
  { split; [ discriminate | ]. intros b t0 s r H. injection H as <- <- <- <-. exact L1. }
  destruct (tag_finish t =? 5) eqn:F5.
  { apply Nat.eqb_eq in F5. destruct (L3 F5) as [N1 N2]. destruct (read_until [lt_] [] r1) as [d r2] eqn:E2.
    assert (L := raw_length _ _ _ E2 N1 N2).
    destruct (IH Intro _ (add_contents root (raw_data d)) (Nat.lt_le_trans _ _ _ L (Nat.le_trans _ _ _ L1 (proj1 (Nat.lt_succ_r _ _) Hf)))) as [A B].
    split; [ exact A | ]. intros b t0 s r H. apply B in H. unfold text in *. lia. }
  destruct (tag_finish t =? 4) eqn:F4.
  { apply Nat.eqb_eq in F4. assert (L4 := L2 (or_intror (or_intror F4))). destruct (read_until (str "]]>") [] r1) as [d r2] eqn:E2.
    apply until_length in E2. cbn [length] in E2. destruct (length d <? 3); [ split; discriminate | ].
    destruct (IH Intro r2 (add_contents root (firstn (length d - 3) d))) as [A B]; [ unfold text in *; lia | ].
    split; [ exact A | ]. intros b t0 s r H. apply B in H. unfold text in *. lia. }
  destruct (tag_finish t =? 0) eqn:F0.
  { split; [ discriminate | ]. intros b t0 s r H. injection H as <- <- <- <-. exact L1. }
  assert (Q : tag_finish t = 1 \/ tag_finish t = 2 \/ 2 < tag_finish t).
  { apply Nat.eqb_neq in F0. lia. }
  assert (C : forall (X : sub), X <> NoFuel -> (forall b t0 s r, X = Done (b, t0, s, r) -> length r < length inp) ->
    let Y := match X with
        | Done (true, c, st2, r2) =>
            let '(ok, st3, r3) := close_tag t st2 r2 in
            if ok then read_sub no_files fuel st3 r3 (add_child root c) else Done (false, add_child root c, st3, r3)
        | Done (false, c, st2, r2) => Done (false, add_child root c, st2, r2)
        | Throws => Throws
        | NoFuel => NoFuel
        end in Y <> NoFuel /\ (forall b t0 s r, Y = Done (b, t0, s, r) -> length r <= length inp)).
  { intros X X1 X2. destruct X as [ [[[b c] s2] r2] | | ]; [ | split; discriminate | congruence ].
    assert (K := X2 b c s2 r2 eq_refl). destruct b.
    - destruct (close_tag t s2 r2) as [[ok s3] r3] eqn:E3. apply close_tag_length in E3. destruct ok.
      + destruct (IH s3 r3 (add_child root c)) as [A B]; [ unfold text in *; lia | ]. split; [ exact A | ].
        intros b t0 s r H. apply B in H. unfold text in *. lia.
      + split; [ discriminate | ]. intros b t0 s r H. injection H as <- <- <- <-. unfold text in *. lia.
    - split; [ discriminate | ]. intros b t0 s r H. injection H as <- <- <- <-. unfold text in *. lia. }
  destruct (tag_finish t =? 1) eqn:F1.
  - apply Nat.eqb_eq in F1. assert (L4 := L2 (or_introl F1)).
    destruct (IH s1 r1 (node t)) as [A B]; [ unfold text in *; lia | ]. apply C; [ exact A | ]. intros b t0 s r H. apply B in H. unfold text in *. lia.
  - apply (C (Done (true, node t, s1, r1))); [ discriminate | ]. intros b t0 s r H. injection H as <- <- <- <-.
    apply Nat.eqb_neq in F1, F0, F3, F4, F5. destruct Q as [Q | [Q | Q]]; [ contradiction | | ].
    + apply L2. right. left. exact Q.
    + lia.
Qed.
Lemma xml_ends : forall inp fuel, length inp < fuel -> read_xml no_files fuel inp <> NoFuel.
Proof.
  intros inp fuel Hf. unfold read_xml. destruct (open_tag no_files Intro inp) as [[t s1] r1] eqn:E1. apply open_length in E1. destruct E1 as [L1 _].
  destruct (sub_ends fuel s1 r1 (node t)) as [A _]; [ unfold text in *; lia | ].
  destruct (read_sub no_files fuel s1 r1 (node t)) as [ [[[b c] s2] r2] | | ]; [ | discriminate | congruence ].
  destruct (close_tag t s2 r2) as [[ok s3] r3]. discriminate.
Qed.

(** * Files that are cut off *)
(** either more text does not change what was read, or the end of the file was met *)
Definition ext {A} (q : text) (a b : A * rstate * text) : Prop := (fst b = fst a /\ snd b = snd a ++ q) \/ (snd (fst a) = Failure /\ snd a = []).
Lemma ext_here : forall A (x : A) s r q, ext q (x, s, r) (x, s, r ++ q).
Proof. intros. left. split; reflexivity. Qed.
Lemma expect_ext : forall q inp, ext q (expect_open_tag inp) (expect_open_tag (inp ++ q)).
Proof.
  intro q. induction inp as [ | c inp IH ]; [ right; split; reflexivity | ]. cbn [app expect_open_tag].
  destruct (c =? lt_); [ left; split; reflexivity | ]. destruct (is_space c); [ exact IH | left; split; reflexivity ].
Qed.
Ltac ext_step IH := repeat match goal with |- ext _ (if ?b then _ else _) _ => destruct b end; try apply IH; left; split; reflexivity.
Lemma open_name_ext : forall q inp st, ext q (read_open_tag st inp) (read_open_tag st (inp ++ q)).
Proof. intro q. induction inp as [ | c inp IH ]; intro st; [ right; split; reflexivity | ]. cbn [app read_open_tag]. destruct st; ext_step IH. Qed.
Lemma attr_name_ext : forall q inp st, ext q (read_attr_name st inp) (read_attr_name st (inp ++ q)).
Proof. intro q. induction inp as [ | c inp IH ]; intro st; [ right; split; reflexivity | ]. cbn [app read_attr_name]. destruct st; ext_step IH. Qed.
Lemma attr_value_ext : forall q inp st ret, ext q (read_attr_value st ret inp) (read_attr_value st ret (inp ++ q)).
Proof. intro q. induction inp as [ | c inp IH ]; intros st ret; [ right; split; reflexivity | ]. cbn [app read_attr_value]. destruct st; cbv zeta; ext_step IH. Qed.
Lemma finish_ext : forall q name inp st, ext q (read_finish name st inp) (read_finish name st (inp ++ q)).
Proof. intros q name. induction inp as [ | c inp IH ]; intro st; [ right; split; reflexivity | ]. cbn [app read_finish]. destruct st; ext_step IH. Qed.
Lemma close_ext : forall q inp, ext q (read_close_tag inp) (read_close_tag (inp ++ q)).
Proof.
  intros q [ | c inp ]; [ right; split; reflexivity | ]. cbn [app read_close_tag]. destruct (c =? gt); [ left; split; reflexivity | ].
  destruct (c =? slash); [ | left; split; reflexivity ]. destruct inp as [ | d inp ]; [ right; split; reflexivity | ]. cbn [app].
  destruct (d =? gt); left; split; reflexivity.
Qed.
Lemma finish_tag_ext : forall q name st inp, ext q (read_finish_tag name st inp) (read_finish_tag name st (inp ++ q)).
Proof. intros q name st inp. unfold read_finish_tag. destruct st; try (left; split; reflexivity); apply finish_ext. Qed.
Lemma close_tag_ext : forall q t st inp, ext q (close_tag t st inp) (close_tag t st (inp ++ q)).
Proof.
  intros q t st inp. unfold close_tag. destruct (tag_finish t =? 3); [ left; split; reflexivity | ]. destruct (tag_finish t =? 2); [ left; split; reflexivity | ].
  destruct (tag_finish t =? 0); [ left; split; reflexivity | ]. apply finish_tag_ext.
Qed.

Definition in_tag (st : rstate) : Prop := st = WaitAttribute \/ st = EndTag \/ st = Failure.
Lemma attr_name_state : forall inp st n s r, read_attr_name st inp = (n, s, r) -> (s = WaitAttributeValue /\ length r < length inp \/ (s = WaitAttributeValue /\ exists ret, st = AName ret /\ length r <= length inp)) \/ s = EndTag \/ s = Failure.
Proof.
  induction inp as [ | c inp IH ]; intros st n s r H; cbn [read_attr_name] in H; [ injection H as <- <- <-; auto | ].
  cbn [length]. destruct st;
    repeat match type of H with (if ?b then _ else _) = _ => destruct b end;
    try (injection H as <- <- <-; cbn [length]; auto; fail);
    try (apply IH in H; destruct H as [[[H L] | [H [x [_ L]]]] | H]; [ left; left; split; [ exact H | lia ] | left; left; split; [ exact H | lia ] | right; exact H ]).
  all: injection H as <- <- <-; left; right; split; [ reflexivity | exists ret; split; [ reflexivity | cbn [length]; lia ] ].
Qed.
Lemma attr_value_state : forall inp st ret n s r, read_attr_value st ret inp = (n, s, r) -> in_tag s.
Proof.
  unfold in_tag. induction inp as [ | c inp IH ]; intros st ret n s r H; cbn [read_attr_value] in H; [ injection H as <- <- <-; auto | ].
  destruct st; cbv zeta in H; repeat match type of H with (if ?b then _ else _) = _ => destruct b end; try (apply IH in H; exact H); injection H as <- <- <-; auto.
Qed.
Lemma open_name_state : forall inp st n s r, read_open_tag st inp = (n, s, r) -> in_tag s \/ s = ReadCloseTagSlash.
Proof.
  unfold in_tag. induction inp as [ | c inp IH ]; intros st n s r H; cbn [read_open_tag] in H; [ injection H as <- <- <-; auto | ].
  destruct st; repeat match type of H with (if ?b then _ else _) = _ => destruct b end; try (apply IH in H; exact H); injection H as <- <- <-; auto.
Qed.
Lemma attributes_fuel : forall f1 f2 st inp attrs inc, in_tag st -> length inp < f1 -> length inp < f2 ->
  read_attributes f1 st inp attrs inc = read_attributes f2 st inp attrs inc.
Proof.
  induction f1 as [ | f1 IH ]; intros f2 st inp attrs inc Hs H1 H2; [ lia | ]. destruct f2 as [ | f2 ]; [ lia | ]. cbn [read_attributes].
  destruct Hs as [-> | [-> | ->]]; try reflexivity. cbn [attribute_name]. destruct (read_attr_name AWait inp) as [[n s1] r1] eqn:E1.
  destruct (attr_name_state _ _ _ _ _ E1) as [[[-> L] | [-> [x [K _]]]] | [-> | ->]]; try reflexivity; [ | discriminate K ].
  cbn [attribute_value]. destruct (read_attr_value VWait [] r1) as [[v s2] r2] eqn:E2. assert (S2 := attr_value_state _ _ _ _ _ _ E2). apply attr_value_length in E2.
  destruct (text_eqb n include_name); apply IH; try exact S2; unfold text in *; lia.
Qed.
Lemma attributes_ext : forall q fuel st inp attrs inc, in_tag st -> length (inp ++ q) < fuel ->
  ext q (read_attributes fuel st inp attrs inc) (read_attributes fuel st (inp ++ q) attrs inc).
Proof.
  intro q. induction fuel as [ | fuel IH ]; intros st inp attrs inc Hs Hf; [ lia | ]. cbn [read_attributes].
  destruct Hs as [-> | [-> | ->]]; try (left; split; reflexivity). cbn [attribute_name].
  destruct (attr_name_ext q inp AWait) as [[X1 X2] | [X1 X2]].
  - destruct (read_attr_name AWait inp) as [[n s1] r1] eqn:E1. destruct (read_attr_name AWait (inp ++ q)) as [[n' s1'] r1'] eqn:E1'. cbn [fst snd] in X1, X2.
    injection X1 as -> ->. subst r1'.
    destruct (attr_name_state _ _ _ _ _ E1) as [[[-> L] | [-> [x [K _]]]] | [-> | ->]]; try (left; split; reflexivity); [ | discriminate K ].
    cbn [attribute_value]. destruct (attr_value_ext q r1 VWait []) as [[Y1 Y2] | [Y1 Y2]].
    + destruct (read_attr_value VWait [] r1) as [[v s2] r2] eqn:E2. destruct (read_attr_value VWait [] (r1 ++ q)) as [[v' s2'] r2'] eqn:E2'. cbn [fst snd] in Y1, Y2.
      injection Y1 as -> ->. subst r2'. assert (S2 := attr_value_state _ _ _ _ _ _ E2). apply attr_value_length in E2. rewrite app_length in Hf.
      destruct (text_eqb n include_name); apply IH; try exact S2; rewrite app_length; unfold text in *; lia.
    + destruct (read_attr_value VWait [] r1) as [[v s2] r2] eqn:E2. cbn [fst snd] in Y1, Y2. subst s2 r2. right.
      destruct (text_eqb n include_name); destruct fuel; split; reflexivity.
  - destruct (read_attr_name AWait inp) as [[n s1] r1] eqn:E1. cbn [fst snd] in X1, X2. subst s1 r1. right. split; reflexivity.
Qed.
Lemma push_ext : forall files inc x q, push_stream files inc (x ++ q) = push_stream files inc x ++ q.
Proof. intros files inc x q. unfold push_stream. destruct inc; [ reflexivity | ]. destruct (files (n :: inc)); [ apply app_assoc | reflexivity ]. Qed.
Lemma open_name_cdata : forall inp st n s r, read_open_tag st inp = (n, s, r) -> match st with InTag ret => rev ret <> cdata | _ => True end -> n = cdata -> s = EndTag.
Proof.
  induction inp as [ | c inp IH ]; intros st n s r H K E; cbn [read_open_tag] in H.
  - injection H as <- <- <-. destruct st; try discriminate E. contradiction.
  - destruct st;
      repeat match type of H with (if text_eqb _ _ then _ else _) = _ => destruct (text_eqb (rev (c :: ret)) cdata) eqn:? | (if ?b then _ else _) = _ => destruct b end;
      try (injection H as <- <- <-; try discriminate E; try contradiction; reflexivity);
      try (eapply IH; [ exact H | exact I | exact E ]).
    + eapply IH; [ exact H | discriminate | exact E ].
    + eapply IH; [ exact H | | exact E ]. cbn. intro Q. apply (f_equal (@length nat)) in Q. discriminate Q.
    + eapply IH; [ exact H | | exact E ]. intro Q. rewrite Q, text_eqb_refl in Heqb. discriminate Heqb.
    + eapply IH; [ exact H | exact K | exact E ].
Qed.
Definition text1 (x : tag * rstate * text) (q : text) (y : tag * rstate * text) : Prop :=
  (fst y = fst x /\ snd y = snd x ++ q) \/ (tag_finish (fst (fst x)) = 0 /\ snd (fst x) = Failure).
Lemma open_ext : forall files q st inp, text1 (open_tag files st inp) q (open_tag files st (inp ++ q)).
Proof.
  intros files q st inp. unfold open_tag. destruct st; try (left; split; reflexivity).
  destruct (expect_ext q inp) as [[X1 X2] | [X1 X2]].
  2:{ destruct (expect_open_tag inp) as [[b s1] r1]. cbn [fst snd] in X1, X2. subst s1 r1. right. split; reflexivity. }
  destruct (expect_open_tag inp) as [[b s1] r1]. destruct (expect_open_tag (inp ++ q)) as [[b' s1'] r1']. cbn [fst snd] in X1, X2. injection X1 as -> ->. subst r1'.
  assert (G : text1
    (if b then
            let '(name, st2, r2) := read_open_tag OWait r1 in
            if text_eqb name cdata then (mk_tag name [] 4, st2, r2)
            else match st2 with
                 | ReadCloseTagSlash => (mk_tag [] [] 3, st2, r2)
                 | _ =>
                     let '(attrs, inc, _, r3) := read_attributes (S (length r2)) st2 r2 [] [] in
                     let '(fin, st4, r4) := read_close_tag r3 in
                     (mk_tag name attrs fin, st4, push_stream files inc r4)
                 end
          else (mk_tag [] [] 5, s1, r1)) q
    (if b then
            let '(name, st2, r2) := read_open_tag OWait (r1 ++ q) in
            if text_eqb name cdata then (mk_tag name [] 4, st2, r2)
            else match st2 with
                 | ReadCloseTagSlash => (mk_tag [] [] 3, st2, r2)
                 | _ =>
                     let '(attrs, inc, _, r3) := read_attributes (S (length r2)) st2 r2 [] [] in
                     let '(fin, st4, r4) := read_close_tag r3 in
                     (mk_tag name attrs fin, st4, push_stream files inc r4)
                 end
          else (mk_tag [] [] 5, s1, r1 ++ q))).
  2:{ destruct s1; try exact G. left. split; reflexivity. }
  destruct b; [ | left; split; reflexivity ].
  destruct (read_open_tag OWait r1) as [[n s2] r2] eqn:E2. assert (C := open_name_cdata _ _ _ _ _ E2 I). assert (S2 := open_name_state _ _ _ _ _ E2).
  destruct (open_name_ext q r1 OWait) as [[Y1 Y2] | [Y1 Y2]]; rewrite E2 in Y1, Y2; cbn [fst snd] in Y1, Y2.
  2:{ subst s2 r2. rewrite (text_eqb_ne n cdata) by (intro Q; discriminate (C Q)). right. split; reflexivity. }
  destruct (read_open_tag OWait (r1 ++ q)) as [[n' s2'] r2']. cbn [fst snd] in Y1, Y2. injection Y1 as -> ->. subst r2'.
  destruct (text_eqb n cdata); [ left; split; reflexivity | ].
  destruct S2 as [S2 | ->]; [ | left; split; reflexivity ].
  assert (G : text1
    (let '(attrs, inc, _, r3) := read_attributes (S (length r2)) s2 r2 [] [] in
                     let '(fin, st4, r4) := read_close_tag r3 in
                     (mk_tag n attrs fin, st4, push_stream files inc r4)) q
    (let '(attrs, inc, _, r3) := read_attributes (S (length (r2 ++ q))) s2 (r2 ++ q) [] [] in
                     let '(fin, st4, r4) := read_close_tag r3 in
                     (mk_tag n attrs fin, st4, push_stream files inc r4))).
  { rewrite (attributes_fuel (S (length r2)) (S (length (r2 ++ q)))) by (try exact S2; rewrite ?app_length; unfold text in *; lia).
    destruct (attributes_ext q (S (length (r2 ++ q))) s2 r2 [] [] S2 (Nat.lt_succ_diag_r _)) as [[Z1 Z2] | [Z1 Z2]].
    - destruct (read_attributes (S (length (r2 ++ q))) s2 r2 [] []) as [[[a i] s3] r3]. destruct (read_attributes (S (length (r2 ++ q))) s2 (r2 ++ q) [] []) as [[[a' i'] s3'] r3'].
      cbn [fst snd] in Z1, Z2. injection Z1 as -> -> ->. subst r3'.
      destruct (close_ext q r3) as [[W1 W2] | [W1 W2]].
      + destruct (read_close_tag r3) as [[f s4] r4]. destruct (read_close_tag (r3 ++ q)) as [[f' s4'] r4']. cbn [fst snd] in W1, W2. injection W1 as -> ->. subst r4'.
        rewrite push_ext. left. split; reflexivity.
      + right. destruct (read_close_tag r3) as [[f s4] r4] eqn:E4. cbn [fst snd] in W1, W2. subst s4 r4. cbn [fst snd tag_finish].
        split; [ | reflexivity ]. unfold read_close_tag in E4. destruct r3 as [ | c r3 ]; [ injection E4 as <- ; reflexivity | ].
        destruct (c =? gt); [ discriminate E4 | ]. destruct (c =? slash); [ | injection E4 as <-; reflexivity ].
        destruct r3 as [ | d r3 ]; [ injection E4 as <-; reflexivity | ]. destruct (d =? gt); [ discriminate E4 | injection E4 as <-; reflexivity ].
    - destruct (read_attributes (S (length (r2 ++ q))) s2 r2 [] []) as [[[a i] s3] r3]. cbn [fst snd] in Z1, Z2. subst s3 r3. right. split; reflexivity. }
  destruct s2; try exact G. left. split; reflexivity.
Qed.
Lemma until_ext : forall stop q inp ret, let '(d, r) := read_until stop ret inp in
  read_until stop ret (inp ++ q) = (d, r ++ q) \/ (r = [] /\ (ends_with stop ret = false -> ends_with stop (rev d) = false)).
Proof.
  intros stop q. induction inp as [ | c inp IH ]; intro ret; cbn [app read_until].
  - right. split; [ reflexivity | ]. rewrite rev_involutive. trivial.
  - destruct (ends_with stop (c :: ret)) eqn:E; [ left; reflexivity | ]. specialize (IH (c :: ret)).
    destruct (read_until stop (c :: ret) inp) as [d r]. destruct IH as [IH | [IH1 IH2]]; [ left; exact IH | right; split; [ exact IH1 | ] ].
    intros _. apply IH2. exact E.
Qed.
Definition cut_off (x : sub) (q : text) (y : sub) : Prop :=
  match x with
  | Done (b, t, s, r) => y = Done (b, t, s, r ++ q) \/ (b = false /\ s = Failure)
  | Throws => True
  | NoFuel => True
  end.
Lemma sub_nothing : forall files fuel root, read_sub files fuel Intro [] root = NoFuel \/ read_sub files fuel Intro [] root = Done (false, root, Failure, []).
Proof. intros files [ | fuel ] root; [ left | right ]; reflexivity. Qed.
Lemma sub_ext : forall files q fuel st inp root, cut_off (read_sub files fuel st inp root) q (read_sub files fuel st (inp ++ q) root).
Proof.
  intros files q. induction fuel as [ | fuel IH ]; intros st inp root; [ exact I | ]. cbn [read_sub].
  destruct (open_ext files q st inp) as [[X1 X2] | [X1 X2]].
  2:{ destruct (open_tag files st inp) as [[t s1] r1]. cbn [fst snd] in X1, X2. rewrite X1. cbn [Nat.eqb]. right. split; [ reflexivity | exact X2 ]. }
  destruct (open_tag files st inp) as [[t s1] r1]. destruct (open_tag files st (inp ++ q)) as [[t' s1'] r1']. cbn [fst snd] in X1, X2. injection X1 as -> ->. subst r1'.
  destruct (tag_finish t =? 3); [ left; reflexivity | ].
  destruct (tag_finish t =? 5).
  { assert (U := until_ext [lt_] q r1 []). destruct (read_until [lt_] [] r1) as [d r2]. destruct U as [U | [-> U]].
    - rewrite U. destruct (rev d) as [ | c p ]; [ apply IH | ]. destruct (c =? lt_); [ | apply IH ]. change (lt_ :: r2 ++ q) with ((lt_ :: r2) ++ q). apply IH.
    - specialize (U eq_refl). match goal with |- cut_off (read_sub _ _ _ ?m _) _ _ => assert (Em : m = []) end.
      2:{ rewrite Em. destruct (sub_nothing files fuel (add_contents root (raw_data d))) as [-> | ->]; [ exact I | right; split; reflexivity ]. }
      destruct (rev d) as [ | c p ]; [ reflexivity | ]. destruct (c =? lt_) eqn:Ec; [ | reflexivity ]. exfalso. apply Nat.eqb_eq in Ec. subst c.
        assert (ends_with [lt_] (lt_ :: p) = true) by (apply ends_with_iff; exists (rev p); reflexivity). congruence. }
  destruct (tag_finish t =? 4).
  { assert (U := until_ext (str "]]>") q r1 []). destruct (read_until (str "]]>") [] r1) as [d r2]. destruct U as [U | [-> U]].
    - rewrite U. destruct (length d <? 3); [ exact I | apply IH ].
    - destruct (length d <? 3); [ exact I | ].
      destruct (sub_nothing files fuel (add_contents root (firstn (length d - 3) d))) as [-> | ->]; [ exact I | right; split; reflexivity ]. }
  destruct (tag_finish t =? 0); [ left; reflexivity | ].
  assert (C : forall X X' : sub, cut_off X q X' -> cut_off
    (match X with
        | Done (true, c, st2, r2) =>
            let '(ok, st3, r3) := close_tag t st2 r2 in
            if ok then read_sub files fuel st3 r3 (add_child root c) else Done (false, add_child root c, st3, r3)
        | Done (false, c, st2, r2) => Done (false, add_child root c, st2, r2)
        | Throws => Throws
        | NoFuel => NoFuel
        end) q
    (match X' with
        | Done (true, c, st2, r2) =>
            let '(ok, st3, r3) := close_tag t st2 r2 in
            if ok then read_sub files fuel st3 r3 (add_child root c) else Done (false, add_child root c, st3, r3)
        | Done (false, c, st2, r2) => Done (false, add_child root c, st2, r2)
        | Throws => Throws
        | NoFuel => NoFuel
        end)).
  { intros X X' H. destruct X as [ [[[b c] s2] r2] | | ]; [ | exact I | exact I ]. cbn [cut_off] in H. destruct H as [-> | [-> ->]]; [ | right; split; reflexivity ].
    destruct b; [ | left; reflexivity ].
    destruct (close_tag_ext q t s2 r2) as [[Y1 Y2] | [Y1 Y2]].
    - destruct (close_tag t s2 r2) as [[ok s3] r3]. destruct (close_tag t s2 (r2 ++ q)) as [[ok' s3'] r3']. cbn [fst snd] in Y1, Y2. injection Y1 as -> ->. subst r3'.
      destruct ok; [ apply IH | left; reflexivity ].
    - destruct (close_tag t s2 r2) as [[ok s3] r3]. cbn [fst snd] in Y1, Y2. subst s3 r3. destruct ok; [ | right; split; reflexivity ].
      destruct fuel; [ exact I | ]. cbn. right. split; reflexivity. }
  apply C. destruct (tag_finish t =? 1); [ apply IH | left; reflexivity ].
Qed.
Lemma xml_ext : forall files fuel p q t s r, read_xml files fuel p = Done (t, s, r) -> s <> Failure -> read_xml files fuel (p ++ q) = Done (t, s, r ++ q).
Proof.
  intros files fuel p q t s r H Hs. unfold read_xml in *. destruct (open_ext files q Intro p) as [[X1 X2] | [X1 X2]].
  - destruct (open_tag files Intro p) as [[t1 s1] r1]. destruct (open_tag files Intro (p ++ q)) as [[t1' s1'] r1']. cbn [fst snd] in X1, X2. injection X1 as -> ->. subst r1'.
    assert (U := sub_ext files q fuel s1 r1 (node t1)). destruct (read_sub files fuel s1 r1 (node t1)) as [ [[[b c] s2] r2] | | ]; [ | discriminate H | discriminate H ].
    cbn [cut_off] in U. destruct U as [-> | [-> ->]].
    + destruct (close_tag_ext q t1 s2 r2) as [[Y1 Y2] | [Y1 Y2]].
      * destruct (close_tag t1 s2 r2) as [[ok s3] r3]. destruct (close_tag t1 s2 (r2 ++ q)) as [[ok' s3'] r3']. cbn [fst snd] in Y1, Y2. injection Y1 as -> ->. subst r3'.
        injection H as <- <- <-. reflexivity.
      * destruct (close_tag t1 s2 r2) as [[ok s3] r3]. cbn [fst snd] in Y1, Y2. injection H as <- <- <-. congruence.
    + exfalso. apply Hs. unfold close_tag, read_finish_tag in H. destruct (tag_finish t1 =? 3), (tag_finish t1 =? 2), (tag_finish t1 =? 0); injection H as <- <- <-; reflexivity.
  - destruct (open_tag files Intro p) as [[t1 s1] r1]. cbn [fst snd] in X1, X2. subst s1. exfalso. apply Hs.
    assert (U : read_sub files fuel Failure r1 (node t1) = NoFuel \/ read_sub files fuel Failure r1 (node t1) = Done (false, node t1, Failure, r1)) by (destruct fuel; [ left | right ]; reflexivity).
    destruct U as [U | U]; rewrite U in H; [ discriminate H | ]. unfold close_tag in H. rewrite X1 in H. cbn [Nat.eqb] in H. injection H as <- <- <-. reflexivity.
Qed.
Lemma sub_more : forall files fuel st inp root x, read_sub files fuel st inp root = Done x -> forall fuel', fuel <= fuel' -> read_sub files fuel' st inp root = Done x.
Proof.
  intros files. induction fuel as [ | fuel IH ]; intros st inp root x H fuel' Hf; [ discriminate H | ]. destruct fuel' as [ | fuel' ]; [ lia | ].
  cbn [read_sub] in *. destruct (open_tag files st inp) as [[t s1] r1].
  destruct (tag_finish t =? 3); [ exact H | ].
  destruct (tag_finish t =? 5); [ destruct (read_until [lt_] [] r1); apply IH; [ exact H | lia ] | ].
  destruct (tag_finish t =? 4); [ destruct (read_until (str "]]>") [] r1); destruct (length t0 <? 3); [ discriminate H | apply IH; [ exact H | lia ] ] | ].
  destruct (tag_finish t =? 0); [ exact H | ].
  destruct (tag_finish t =? 1).
  - destruct (read_sub files fuel s1 r1 (node t)) as [ y | | ] eqn:E; [ | discriminate H | discriminate H ].
    rewrite (IH _ _ _ _ E fuel') by lia. destruct y as [[[b c] s2] r2]. destruct b; [ | exact H ].
    destruct (close_tag t s2 r2) as [[ok s3] r3]. destruct ok; [ apply IH; [ exact H | lia ] | exact H ].
  - destruct (close_tag t s1 r1) as [[ok s3] r3]. destruct ok; [ apply IH; [ exact H | lia ] | exact H ].
Qed.
Lemma xml_more : forall files fuel inp x, read_xml files fuel inp = Done x -> forall fuel', fuel <= fuel' -> read_xml files fuel' inp = Done x.
Proof.
  intros files fuel inp x H fuel' Hf. unfold read_xml in *. destruct (open_tag files Intro inp) as [[t s1] r1].
  destruct (read_sub files fuel s1 r1 (node t)) as [ y | | ] eqn:E; [ | discriminate H | discriminate H ].
  rewrite (sub_more _ _ _ _ _ _ E fuel') by lia. exact H.
Qed.
Lemma truncated : forall files g d p q fuel, misc_ok g -> is_elem d -> doc_ok files d -> misc_text g ++ doc_text d = p ++ q -> q <> [] ->
  match read_xml files fuel p with Done (_, s, _) => s = Failure | _ => True end.
Proof.
  intros files g d p q fuel Hg He Hd E Hq. destruct (read_xml files fuel p) as [ [[t s] r] | | ] eqn:H; [ | exact I | exact I ].
  assert (D : s = Failure \/ s <> Failure) by (destruct s; auto; right; discriminate). destruct D as [D | D]; [ exact D | exfalso ].
  apply (xml_ext files fuel p q t s r) in H; [ | exact D ].
  apply xml_more with (fuel' := fuel + dsize d) in H; [ | lia ]. rewrite <- E in H.
  assert (K := document files g d [] (fuel + dsize d) Hg He Hd). rewrite app_nil_r in K. rewrite K in H by lia.
  injection H as _ _ H. symmetry in H. apply app_eq_nil in H. destruct H as [_ H]. contradiction.
Qed.
