From Coq Require Import List Bool Arith Lia Permutation.
From Verif Require Import Util Storage_Model.
Import ListNotations.

(** Kept folded so that arithmetic tactics only use it where asked. *)
Definition positive (n : nat) : Prop := 0 < n.

Section S.
Variable V : Type.
Variable dflt : V.
Variable chunk : nat.
Variable minsz : nat.
Hypothesis chunk_pos : positive chunk.

Notation st := (st V).
Notation lk s := (links V s).
Notation bk s := (back V s).
Notation es s := (espace V s).
Notation el s := (elinks V s).
Notation occ s := (occupied V s).
Notation rup := (roundup chunk).
Notation atl := (at_least minsz).
Notation adr s id := (nth id (links V s) None).
Notation own s a := (nth a (back V s) None).

(** ** Arithmetic of chunk rounding *)
Lemma roundup_ge : forall n, n <= rup n.
Proof.
  pose proof chunk_pos as Hcp; unfold positive in Hcp.
  intro n. unfold roundup.
  pose proof (Nat.div_mod n chunk ltac:(lia)).
  pose proof (Nat.mod_upper_bound n chunk ltac:(lia)).
  destruct (Nat.eqb_spec (n mod chunk) 0); nia.
Qed.

Lemma roundup_lt : forall n, rup n < n + chunk.
Proof.
  pose proof chunk_pos as Hcp; unfold positive in Hcp.
  intro n. unfold roundup.
  pose proof (Nat.div_mod n chunk ltac:(lia)).
  pose proof (Nat.mod_upper_bound n chunk ltac:(lia)).
  destruct (Nat.eqb_spec (n mod chunk) 0); nia.
Qed.

Lemma atl_ge : forall n, n <= atl n.
Proof. intro n. unfold at_least. destruct (Nat.ltb_spec n minsz); lia. Qed.

Lemma roundup_mul : forall n, exists k, rup n = k * chunk.
Proof. intro n. unfold roundup. eauto. Qed.

Lemma roundup_mono : forall n m, n <= m -> rup n <= rup m.
Proof.
  pose proof chunk_pos as Hcp; unfold positive in Hcp.
  intros n m H. destruct (roundup_mul n) as [k Hk], (roundup_mul m) as [j Hj].
  pose proof (roundup_ge m). pose proof (roundup_lt n). rewrite Hk, Hj in *.
  assert (k <= j); [|nia]. destruct (le_lt_dec k j); auto. exfalso. nia.
Qed.

(** ** Resizing *)
Lemma resize_length : forall A (l : list A) n x, length (resize l n x) = n.
Proof.
  intros. unfold resize. rewrite app_length, firstn_length, repeat_length. lia.
Qed.

Lemma nth_resize : forall A (l : list A) n x i,
  nth i (resize l n x) x = if i <? n then nth i l x else x.
Proof.
  intros. unfold resize. destruct (Nat.ltb_spec i n).
  - destruct (Nat.lt_ge_cases i (length l)).
    + rewrite app_nth1 by (rewrite firstn_length; lia).
      rewrite <- (firstn_skipn n l) at 2.
      rewrite app_nth1; auto. rewrite firstn_length; lia.
    + rewrite app_nth2 by (rewrite firstn_length; lia).
      rewrite (nth_overflow l) by lia. apply nth_repeat.
  - apply nth_overflow. rewrite app_length, firstn_length, repeat_length. lia.
Qed.

(** ** Invariant *)
Record tables (s : st) : Prop := {
  t_lk : forall id a, adr s id = Some a -> own s a = Some id;
  t_bk : forall a id, own s a = Some id -> adr s id = Some a
}.

Record datainv (s : st) : Prop := {
  d_len : forall c, In c (cols V s) -> length c = rup (length (bk s));
  d_dead : forall c a, In c (cols V s) -> own s a = None -> nth a c dflt = dflt;
  d_splen : length (sparse V s) = if needsp V s then length (bk s) else 0;
  d_spdead : forall a, own s a = None -> nth a (sparse V s) dflt = dflt
}.

Record frees (s : st) : Prop := {
  f_elnd : NoDup (el s);
  f_el : forall id, In id (el s) <-> id < length (lk s) /\ adr s id = None
}.

Record spaces (s : st) : Prop := {
  p_nd : NoDup (es s);
  p_es : forall a, In a (es s) <-> a < occ s /\ own s a = None;
  p_occ : forall a id, own s a = Some id -> a < occ s;
  p_len : length (bk s) = atl (rup (occ s))
}.

Record inv (s : st) : Prop := {
  i_t : tables s; i_d : datainv s; i_f : frees s; i_p : spaces s
}.

Lemma nth_Some_lt : forall A (l : list (option A)) i x,
  nth i l None = Some x -> i < length l.
Proof.
  intros A l i x H. destruct (Nat.lt_ge_cases i (length l)); auto.
  rewrite nth_overflow in H by lia. discriminate.
Qed.

Lemma nth_error_opt : forall A (l : list (option A)) i x,
  nth_error l i = Some (Some x) <-> nth i l None = Some x.
Proof.
  intros A l i x. split; intro H.
  - now apply nth_error_nth with (d := None) in H.
  - rewrite <- H. apply nth_error_nth'. eapply nth_Some_lt; eauto.
Qed.

Lemma frees_le : forall s, frees s -> length (el s) <= length (lk s).
Proof.
  intros s [Hn He].
  rewrite <- (seq_length (length (lk s)) 0).
  apply NoDup_incl_length; auto. intros x Hx. apply in_seq.
  apply He in Hx. lia.
Qed.

(** ** Reads through the tables *)
Definition rdc (s : st) (c id : nat) : option V :=
  match adr s id, nth_error (cols V s) c with
  | Some a, Some col => Some (nth a col dflt)
  | _, _ => None
  end.

Definition rds (s : st) (id : nat) : option V :=
  match adr s id with
  | Some a => if needsp V s then Some (nth a (sparse V s) dflt) else None
  | None => None
  end.

Lemma read_rdc : forall s c id, tables s -> read V dflt s c id = rdc s c id.
Proof.
  intros s c id T. unfold read, rdc.
  destruct (adr s id) as [a|] eqn:E.
  - rewrite (proj2 (nth_error_opt _ _ _ _) E).
    destruct (nth_error (cols V s) c); auto.
    apply (t_lk _ T) in E. apply nth_Some_lt in E.
    destruct (Nat.ltb_spec a (length (bk s))); auto; lia.
  - destruct (nth_error (lk s) id) as [[a|]|] eqn:F; auto.
    apply nth_error_opt in F. congruence.
Qed.

Lemma read_rds : forall s id, tables s -> datainv s ->
  read_sparse V s id = rds s id.
Proof.
  intros s id T D. unfold read_sparse, rds.
  destruct (adr s id) as [a|] eqn:E.
  - rewrite (proj2 (nth_error_opt _ _ _ _) E).
    apply (t_lk _ T) in E. apply nth_Some_lt in E.
    pose proof (d_splen _ D) as Hl.
    destruct (needsp V s).
    + apply nth_error_nth'. lia.
    + apply nth_error_None. lia.
  - destruct (nth_error (lk s) id) as [[a|]|] eqn:F; auto.
    apply nth_error_opt in F. congruence.
Qed.

(** ** Reallocation *)
Lemma realloc_own : forall s n a,
  (forall b id, own s b = Some id -> b < atl n) ->
  own (realloc V dflt chunk minsz s n) a = own s a.
Proof.
  intros s n a H. cbn [back realloc]. rewrite nth_resize.
  destruct (Nat.ltb_spec a (atl n)); auto.
  destruct (own s a) as [id|] eqn:E; auto. apply H in E. lia.
Qed.

Lemma realloc_tables : forall s n,
  (forall b id, own s b = Some id -> b < atl n) ->
  tables s -> tables (realloc V dflt chunk minsz s n).
Proof.
  intros s n H T. split; intros x y.
  - rewrite realloc_own by auto. apply (t_lk _ T).
  - rewrite realloc_own by auto. apply (t_bk _ T).
Qed.

Lemma realloc_data : forall s n,
  (forall b id, own s b = Some id -> b < atl n) ->
  datainv s -> datainv (realloc V dflt chunk minsz s n).
Proof.
  intros s n H D. split.
  - intros c Hc. cbn [realloc cols] in Hc. apply in_map_iff in Hc.
    destruct Hc as (c0 & <- & _). unfold resize_col.
    cbn [back realloc]. now rewrite !resize_length.
  - intros c a Hc Ha. rewrite realloc_own in Ha by auto.
    cbn [realloc cols] in Hc. apply in_map_iff in Hc.
    destruct Hc as (c0 & <- & Hc0). unfold resize_col. rewrite nth_resize.
    destruct (a <? _); auto. eapply d_dead; eauto.
  - cbn [realloc sparse needsp back]. destruct (needsp V s); auto.
    now rewrite !resize_length.
  - intros a Ha. rewrite realloc_own in Ha by auto.
    cbn [realloc sparse]. destruct (needsp V s).
    + rewrite nth_resize. destruct (a <? _); auto. now apply d_spdead.
    + now destruct a.
Qed.

Lemma realloc_rdc : forall s n c id,
  (forall b i, own s b = Some i -> b < atl n) ->
  tables s -> rdc (realloc V dflt chunk minsz s n) c id = rdc s c id.
Proof.
  intros s n c id H T. unfold rdc. cbn [realloc links cols].
  destruct (adr s id) as [a|] eqn:E; auto.
  rewrite nth_error_map. destruct (nth_error (cols V s) c) as [col|]; auto.
  cbn [option_map]. unfold resize_col. rewrite nth_resize.
  apply (t_lk _ T) in E. apply H in E.
  pose proof (roundup_ge (atl n)).
  destruct (Nat.ltb_spec a (rup (atl n))); auto; lia.
Qed.

Lemma realloc_rds : forall s n id,
  (forall b i, own s b = Some i -> b < atl n) ->
  tables s -> rds (realloc V dflt chunk minsz s n) id = rds s id.
Proof.
  intros s n id H T. unfold rds. cbn [realloc links sparse needsp].
  destruct (adr s id) as [a|] eqn:E; auto.
  destruct (needsp V s); auto. rewrite nth_resize.
  apply (t_lk _ T) in E. apply H in E.
  destruct (Nat.ltb_spec a (atl n)); auto; lia.
Qed.

(** ** MoveStorage *)
Lemma move_ok : forall s old new id,
  tables s -> datainv s -> frees s ->
  own s old = Some id -> own s new = None -> new < length (bk s) ->
  exists s', move V dflt s old new = Some s' /\
    tables s' /\ datainv s' /\ frees s' /\
    (forall c i, rdc s' c i = rdc s c i) /\ (forall i, rds s' i = rds s i) /\
    (forall i, adr s' i = None <-> adr s i = None) /\
    length (lk s') = length (lk s) /\ length (bk s') = length (bk s) /\
    (forall a, own s' a = if a =? new then Some id
                          else if a =? old then None else own s a) /\
    es s' = es s /\ el s' = el s /\ modif V s' = modif V s /\
    length (cols V s') = length (cols V s) /\ needsp V s' = needsp V s.
Proof.
  intros s old new id T D F Ho Hn Hlt.
  pose proof (nth_Some_lt _ _ _ _ Ho) as Hol.
  pose proof (t_bk _ T _ _ Ho) as Ha.
  pose proof (nth_Some_lt _ _ _ _ Ha) as Hil.
  assert (Hne : old <> new) by (intro; subst; congruence).
  assert (HB : forall a, nth a (lset (lset (bk s) old None) new (Some id)) None =
     if a =? new then Some id else if a =? old then None else own s a).
  { intro a. rewrite !nth_lset, lset_length.
    destruct (Nat.eqb_spec new a); destruct (Nat.eqb_spec a new);
    destruct (Nat.eqb_spec old a); destruct (Nat.eqb_spec a old);
    destruct (Nat.ltb_spec a (length (bk s))); subst; cbn [andb]; auto; try lia. }
  assert (HL : forall i, nth i (lset (lk s) id (Some new)) None =
     if i =? id then Some new else adr s i).
  { intro i. rewrite nth_lset.
    destruct (Nat.eqb_spec id i); destruct (Nat.eqb_spec i id);
    destruct (Nat.ltb_spec i (length (lk s))); subst; cbn [andb]; auto; try lia. }
  unfold move. rewrite Ho.
  destruct (Nat.ltb_spec old (length (bk s))); [|lia].
  destruct (Nat.ltb_spec new (length (bk s))); [|lia].
  destruct (Nat.ltb_spec id (length (lk s))); [|lia]. cbn [negb orb].
  eexists. split; [reflexivity|].
  assert (Hlen : forall c, In c (cols V s) -> length (bk s) <= length c).
  { intros c Hc. rewrite (d_len _ D c Hc). apply roundup_ge. }
  assert (HC : forall c a, In c (cols V s) ->
     nth a (lset (lset c new (nth old c dflt)) old dflt) dflt =
     if a =? new then nth old c dflt else if a =? old then dflt else nth a c dflt).
  { intros c a Hc. specialize (Hlen c Hc). rewrite !nth_lset, lset_length.
    destruct (Nat.eqb_spec new a); destruct (Nat.eqb_spec a new);
    destruct (Nat.eqb_spec old a); destruct (Nat.eqb_spec a old);
    destruct (Nat.ltb_spec a (length c)); subst; cbn [andb]; auto; try lia. }
  assert (HS : needsp V s = true -> forall a,
     nth a (swap_cells V dflt (sparse V s) new old) dflt =
     if a =? new then nth old (sparse V s) dflt
     else if a =? old then dflt else nth a (sparse V s) dflt).
  { intros Hsp a. pose proof (d_splen _ D) as Hl. rewrite Hsp in Hl.
    unfold swap_cells. rewrite !nth_lset, lset_length, Hl.
    rewrite (d_spdead _ D new Hn).
    destruct (Nat.eqb_spec new a); destruct (Nat.eqb_spec a new);
    destruct (Nat.eqb_spec old a); destruct (Nat.eqb_spec a old);
    destruct (Nat.ltb_spec a (length (bk s))); subst; cbn [andb]; auto; try lia. }
  split; [|split; [|split; [|split; [|split; [|split; [|split; [|split; [|split]]]]]]]].
  - split; cbn [links back].
    + intros i a. rewrite HL, HB. destruct (Nat.eqb_spec i id) as [->|Hi].
      * intros [= <-]. now rewrite Nat.eqb_refl.
      * intro E. pose proof (t_lk _ T _ _ E).
        destruct (Nat.eqb_spec a new); [subst; congruence|].
        destruct (Nat.eqb_spec a old); [subst; congruence|]. auto.
    + intros a i. rewrite HL, HB. destruct (Nat.eqb_spec a new) as [->|Hi].
      * intros [= <-]. now rewrite Nat.eqb_refl.
      * destruct (Nat.eqb_spec a old); [discriminate|].
        intro E. pose proof (t_bk _ T _ _ E).
        destruct (Nat.eqb_spec i id); [subst; congruence|]. auto.
  - split; cbn [cols back sparse needsp].
    + intros c Hc. apply in_map_iff in Hc. destruct Hc as (c0 & <- & Hc).
      rewrite !lset_length. now apply d_len.
    + intros c a Hc. rewrite HB. apply in_map_iff in Hc. destruct Hc as (c0 & <- & Hc).
      rewrite HC by auto. destruct (a =? new); [discriminate|].
      destruct (a =? old); auto. intro; now apply (d_dead _ D).
    + unfold swap_cells. rewrite !lset_length. apply (d_splen _ D).
    + intros a. rewrite HB. destruct (needsp V s) eqn:Hsp.
      * rewrite HS by auto. destruct (a =? new); [discriminate|].
        destruct (a =? old); auto. apply (d_spdead _ D).
      * intros _. pose proof (d_splen _ D) as Hl. rewrite Hsp in Hl.
        apply nth_overflow. unfold swap_cells. rewrite !lset_length. lia.
  - split; cbn [elinks links].
    + apply F.
    + intro i. rewrite HL, lset_length, (f_el _ F).
      destruct (Nat.eqb_spec i id); [subst; rewrite Ha|tauto].
      split; intros [? ?]; discriminate.
  - intros c i. unfold rdc. cbn [links cols]. rewrite HL, nth_error_map.
    destruct (nth_error (cols V s) c) as [col|] eqn:E; cbn [option_map].
    + apply nth_error_In in E.
      destruct (Nat.eqb_spec i id) as [->|Hi].
      * rewrite Ha, HC by auto. now rewrite Nat.eqb_refl.
      * destruct (adr s i) as [a|] eqn:G; auto.
        pose proof (t_lk _ T _ _ G). rewrite HC by auto.
        destruct (Nat.eqb_spec a new); [subst; congruence|].
        destruct (Nat.eqb_spec a old); [subst; congruence|]. auto.
    + destruct (i =? id); destruct (adr s i); auto.
  - intros i. unfold rds. cbn [links sparse needsp]. rewrite HL.
    destruct (Nat.eqb_spec i id) as [->|Hi].
    + rewrite Ha. destruct (needsp V s) eqn:Hsp; auto.
      rewrite HS by auto. now rewrite Nat.eqb_refl.
    + destruct (adr s i) as [a|] eqn:G; auto.
      destruct (needsp V s) eqn:Hsp; auto. pose proof (t_lk _ T _ _ G).
      rewrite HS by auto.
      destruct (Nat.eqb_spec a new); [subst; congruence|].
      destruct (Nat.eqb_spec a old); [subst; congruence|]. auto.
  - intro i. cbn [links]. rewrite HL. destruct (Nat.eqb_spec i id); [|tauto].
    subst. rewrite Ha. split; discriminate.
  - cbn [links]. apply lset_length.
  - cbn [back]. now rewrite !lset_length.
  - exact HB.
  - cbn [back espace elinks modif cols needsp]. rewrite map_length. auto 10.
Qed.

(** ** ReorderEmpty *)
Lemma skip_free_spec : forall b e,
  skip_free b e <= e /\
  (forall a, skip_free b e <= a < e -> nth a b None = None) /\
  (forall c, skip_free b e = S c -> nth c b None <> None).
Proof.
  intros b. induction e as [|c IH]; cbn [skip_free].
  - repeat split; try lia; intros; try lia; discriminate.
  - destruct (nth c b None) eqn:E.
    + repeat split; try lia. intros d [= <-]. congruence.
    + destruct IH as (H1 & H2 & H3). repeat split; auto.
      intros a Ha. destruct (Nat.eq_dec a c); subst; auto. apply H2. lia.
Qed.

Record loopinv (s : st) (e : nat) : Prop := {
  l_nd : NoDup (es s);
  l_in : forall a, S a < e -> own s a = None -> In a (es s);
  l_free : forall a, In a (es s) -> S a < e -> own s a = None;
  l_top : forall a, e <= a -> own s a = None;
  l_e : e <= length (bk s)
}.

Lemma compact_ok : forall fuel s e,
  tables s -> datainv s -> frees s -> loopinv s e ->
  length (es s) + e < fuel ->
  exists s', compact V dflt fuel s e = Some s' /\
    tables s' /\ datainv s' /\ frees s' /\
    (exists m, m <= e /\ forall a, own s' a = None <-> m <= a) /\
    (forall c i, rdc s' c i = rdc s c i) /\ (forall i, rds s' i = rds s i) /\
    (forall i, adr s' i = None <-> adr s i = None) /\
    length (lk s') = length (lk s) /\ length (bk s') = length (bk s) /\
    el s' = el s /\ modif V s' = modif V s /\
    length (cols V s') = length (cols V s) /\ needsp V s' = needsp V s.
Proof.
  induction fuel as [|f IH]; intros s e T D F LI Hf; [lia|].
  cbn [compact]. destruct e as [|c].
  { exists s. repeat (split; [solve [auto]|]). split.
    - exists 0. split; [lia|]. intro a. split; intro; [lia|]. apply (l_top _ _ LI); lia.
    - repeat split; auto; tauto. }
  destruct (es s) as [|last r] eqn:Ees.
  { exists s. repeat (split; [solve [auto]|]). split.
    - assert (Hall : forall a, a < c -> own s a <> None).
      { intros a Ha E. apply (l_in _ _ LI) in E; [|lia]. rewrite Ees in E. destruct E. }
      destruct (own s c) as [i|] eqn:Ec.
      + exists (S c). split; [lia|]. intro a. split; intro H.
        * destruct (le_lt_dec (S c) a); auto. exfalso.
          destruct (Nat.eq_dec a c); [subst; congruence|].
          apply (Hall a); auto; lia.
        * now apply (l_top _ _ LI).
      + exists c. split; [lia|]. intro a. split; intro H.
        * destruct (le_lt_dec c a); auto. exfalso. apply (Hall a); auto.
        * destruct (Nat.eq_dec a c); [subst; auto|]. apply (l_top _ _ LI). lia.
    - repeat split; auto; tauto. }
  assert (Hpop : forall s0, es s0 = es s ->
     tables s0 -> tables (pop_space V s0)) by (intros s0 _ [A B]; split; auto).
  assert (Hpopd : forall s0, datainv s0 -> datainv (pop_space V s0))
    by (intros s0 [A B C E]; split; auto).
  assert (Hpopf : forall s0, frees s0 -> frees (pop_space V s0))
    by (intros s0 [A B]; split; auto).
  assert (Hnd : ~ In last r /\ NoDup r).
  { pose proof (l_nd _ _ LI) as N. rewrite Ees in N. now inversion N. }
  destruct Hnd as [Hnl Hnr].
  destruct (Nat.leb_spec c last) as [Hcl|Hcl].
  - (* pop *)
    destruct (IH (pop_space V s) (S c)) as (s' & E & R); auto.
    + split; cbn [pop_space back espace]; rewrite ?Ees; cbn [tl]; auto.
      * intros a Ha Hd. apply (l_in _ _ LI) in Hd; auto. rewrite Ees in Hd.
        destruct Hd as [->|Hd]; auto. lia.
      * intros a Ha. apply (l_free _ _ LI). rewrite Ees. now right.
      * apply (l_top _ _ LI).
      * apply (l_e _ _ LI).
    + cbn [pop_space espace]. rewrite Ees. cbn [tl length] in *. lia.
    + exists s'. split; auto.
  - destruct (own s c) as [id|] eqn:Ec.
    + (* move *)
      assert (Hfree : own s last = None).
      { apply (l_free _ _ LI); [rewrite Ees; now left|lia]. }
      pose proof (l_e _ _ LI) as He.
      destruct (move_ok s c last id T D F Ec Hfree ltac:(lia))
        as (s1 & E1 & T1 & D1 & F1 & Rc & Rs & Ri & Ll & Lb & Ho & Hes & Hel & Hm & Hc & Hn).
      rewrite E1.
      destruct (IH (pop_space V s1) (S c)) as (s' & E & Q1 & Q2 & Q3 & Q4 & Q5 & Q6 & Q7 & Q8 & Q9 & Q10 & Q11 & Q12 & Q13); auto.
      * split; cbn [pop_space back espace]; rewrite ?Hes, ?Ees, ?Lb; cbn [tl]; auto.
        -- intros a Ha. rewrite Ho. destruct (Nat.eqb_spec a last); [discriminate|].
           destruct (Nat.eqb_spec a c); [lia|]. intro Hd.
           apply (l_in _ _ LI) in Hd; auto. rewrite Ees in Hd.
           destruct Hd as [->|Hd]; auto. lia.
        -- intros a Ha Hlt. rewrite Ho. destruct (Nat.eqb_spec a last); [subst; tauto|].
           destruct (Nat.eqb_spec a c); [lia|].
           apply (l_free _ _ LI); auto. rewrite Ees. now right.
        -- intros a Ha. rewrite Ho. destruct (Nat.eqb_spec a last); [lia|].
           destruct (Nat.eqb_spec a c); [lia|]. now apply (l_top _ _ LI).
      * cbn [pop_space espace]. rewrite Hes, Ees. cbn [tl length] in *. lia.
      * exists s'. split; auto. repeat (split; [solve [auto]|]).
        split. { intros c0 i. rewrite Q5. apply Rc. }
        split. { intro i. rewrite Q6. apply Rs. }
        split. { intro i. rewrite Q7. apply Ri. }
        repeat split; etransitivity; eauto.
    + (* cend-- *)
      destruct (IH s c) as (s' & E & Q1 & Q2 & Q3 & (m & Hm & Q4) & R); auto.
      * split.
        -- apply LI.
        -- intros a Ha. apply (l_in _ _ LI). lia.
        -- intros a Ha Hlt. apply (l_free _ _ LI); auto.
        -- intros a Ha. destruct (Nat.eq_dec a c); [subst; auto|]. apply (l_top _ _ LI). lia.
        -- pose proof (l_e _ _ LI). lia.
      * rewrite Ees. cbn [length] in *. lia.
      * exists s'. repeat (split; [solve [auto]|]). split; [|exact R].
        exists m. split; auto.
Qed.

(** Counting: if the live addresses are exactly those below [m], then [m] is the
    number of live ids. *)
Lemma live_count : forall (s : st) L m,
  tables s -> NoDup L -> (forall id, In id L <-> adr s id <> None) ->
  (forall a, own s a = None <-> m <= a) -> length L = m.
Proof.
  intros s L m T N HL Hm.
  set (f := fun id => match adr s id with Some a => a | None => 0 end).
  assert (P : Permutation (map f L) (seq 0 m)).
  { apply NoDup_Permutation.
    - revert HL. assert (G : forall l, NoDup l -> (forall i, In i l -> adr s i <> None) ->
         NoDup (map f l)).
      { induction l as [|i l IHl]; intros Nl Hl; cbn [map]; constructor.
        - intro Hin. apply in_map_iff in Hin. destruct Hin as (j & Hj & Hjl).
          inversion Nl; subst.
          assert (adr s i <> None) by (apply Hl; now left).
          assert (adr s j <> None) by (apply Hl; now right).
          unfold f in Hj. destruct (adr s i) eqn:Ei; [|tauto].
          destruct (adr s j) eqn:Ej; [|tauto]. subst.
          apply (t_lk _ T) in Ei, Ej. assert (i = j) by congruence. subst. tauto.
        - apply IHl; [now inversion Nl|]. intros; apply Hl; now right. }
      intro HL. apply G; auto. intros; now apply HL.
    - apply seq_NoDup.
    - intro a. rewrite in_map_iff, in_seq. split.
      + intros (i & <- & Hi). apply HL in Hi. unfold f.
        destruct (adr s i) as [a|] eqn:E; [|tauto].
        apply (t_lk _ T) in E. split; [lia|]. cbn.
        destruct (le_lt_dec m a) as [G|G]; auto. apply Hm in G. congruence.
      + intros [_ Ha]. cbn in Ha. destruct (own s a) as [i|] eqn:E.
        * pose proof (t_bk _ T _ _ E) as E2. exists i. split.
          -- unfold f. now rewrite E2.
          -- apply HL. congruence.
        * apply Hm in E. lia. }
  apply Permutation_length in P. now rewrite map_length, seq_length in P.
Qed.

(** The list of live ids. *)
Definition lives (s : st) : list nat :=
  filter (fun i => match adr s i with Some _ => true | None => false end)
         (seq 0 (length (lk s))).

Lemma lives_in : forall s id, In id (lives s) <-> adr s id <> None.
Proof.
  intros s id. unfold lives. rewrite filter_In, in_seq. split.
  - intros [_ H]. destruct (adr s id); congruence.
  - intro H. destruct (adr s id) as [a|] eqn:E; [|tauto].
    apply nth_Some_lt in E. split; auto. lia.
Qed.

Lemma lives_nodup : forall s, NoDup (lives s).
Proof. intro s. apply NoDup_filter, seq_NoDup. Qed.

Lemma nodup_app : forall A (l1 l2 : list A),
  NoDup l1 -> NoDup l2 -> (forall x, In x l1 -> ~ In x l2) -> NoDup (l1 ++ l2).
Proof.
  induction l1 as [|a l IH]; intros l2 N1 N2 H; cbn [app]; auto.
  inversion N1; subst. constructor.
  - rewrite in_app_iff. intros [G|G]; [tauto|]. apply (H a); [now left|auto].
  - apply IH; auto. intros x Hx. apply H. now right.
Qed.

Lemma lives_count : forall s, frees s ->
  length (lives s) + length (el s) = length (lk s).
Proof.
  intros s F. rewrite <- (seq_length (length (lk s)) 0) at 1.
  rewrite <- app_length. apply Permutation_length. apply NoDup_Permutation.
  - apply nodup_app; [apply lives_nodup|apply F|].
    intros x Hx Hy. apply lives_in in Hx. apply (f_el _ F) in Hy. tauto.
  - apply seq_NoDup.
  - intro x. rewrite in_app_iff, lives_in, (f_el _ F), in_seq. split.
    + intros [H|H]; [|lia]. destruct (adr s x) eqn:E; [|tauto].
      apply nth_Some_lt in E. lia.
    + intros [_ H]. cbn in H. destruct (adr s x); [left; congruence|right; auto].
Qed.

Lemma reorder_ok : forall s, inv s ->
  exists s', reorder V dflt chunk minsz s = Some s' /\ inv s' /\
    (forall c i, rdc s' c i = rdc s c i) /\ (forall i, rds s' i = rds s i) /\
    (forall i, adr s' i = None <-> adr s i = None) /\
    (forall a, own s' a = None <-> length (lives s) <= a) /\
    modif V s' = modif V s /\
    length (cols V s') = length (cols V s) /\ needsp V s' = needsp V s.
Proof.
  intros s [T D F P]. unfold reorder.
  set (e := skip_free (bk s) (length (bk s))).
  destruct (skip_free_spec (bk s) (length (bk s))) as (S1 & S2 & S3). fold e in S1, S2, S3.
  destruct (compact_ok (S (length (es s) + length (bk s))) s e T D F)
    as (s1 & E & T1 & D1 & F1 & (m & Hm & Hown) & Rc & Rs & Ri & Ll & Lb & Hel & Hmo & Hc & Hn).
  { split.
    - apply P.
    - intros a Ha Hd. apply (p_es _ P). split; auto.
      destruct e as [|c]; [lia|]. specialize (S3 c eq_refl).
      destruct (own s c) as [i|] eqn:Ec; [|tauto].
      apply (p_occ _ P) in Ec. lia.
    - intros a Ha _. apply (p_es _ P) in Ha. tauto.
    - intros a Ha. destruct (Nat.lt_ge_cases a (length (bk s))).
      + apply S2. lia.
      + now apply nth_overflow.
    - auto. }
  { lia. }
  rewrite E.
  set (s2 := St V (lk s1) (bk s1) [] (el s1) (modif V s1) (cols V s1) (sparse V s1) (needsp V s1)).
  assert (T2 : tables s2) by (destruct T1; split; auto).
  assert (D2 : datainv s2) by (destruct D1; split; auto).
  assert (F2 : frees s2) by (destruct F1; split; auto).
  assert (Hcount : length (lives s) = m).
  { apply (live_count s1 (lives s) m T1); auto.
    - apply lives_nodup.
    - intro id. rewrite lives_in, Ri. tauto. }
  assert (Hocc : occ s2 = m).
  { unfold occupied, s2. cbn [links elinks espace length].
    pose proof (lives_count _ F). rewrite Ll, Hel. lia. }
  assert (Hb : forall b id, own s2 b = Some id -> b < atl (capacity V chunk s2)).
  { intros b id Hb. unfold capacity. rewrite Hocc.
    pose proof (roundup_ge m). pose proof (atl_ge (rup m)).
    destruct (le_lt_dec m b) as [G|G]; [|lia]. apply Hown in G.
    cbn [s2 back] in Hb. congruence. }
  exists (realloc V dflt chunk minsz s2 (capacity V chunk s2)).
  split; [reflexivity|].
  assert (T3 := realloc_tables s2 _ Hb T2).
  assert (Hown3 : forall a, own (realloc V dflt chunk minsz s2 (capacity V chunk s2)) a = own s2 a)
    by (intro; apply realloc_own; auto).
  split; [split; auto|].
  - now apply realloc_data.
  - destruct F2; split; auto.
  - split.
    + cbn [realloc espace s2]. constructor.
    + intro a. rewrite Hown3. unfold occupied. cbn [realloc links elinks espace s2].
      fold (occ s2). unfold occupied in Hocc. cbn [links elinks espace s2] in Hocc.
      rewrite Hocc. cbn [In back s2]. split; [tauto|]. rewrite Hown. lia.
    + intros a id. rewrite Hown3. unfold occupied. cbn [realloc links elinks espace s2].
      unfold occupied in Hocc. cbn [links elinks espace s2] in Hocc. rewrite Hocc.
      cbn [back s2]. intro G. destruct (le_lt_dec m a) as [K|K]; auto.
      apply Hown in K. congruence.
    + cbn [realloc back]. rewrite resize_length. reflexivity.
  - split. { intros c i. rewrite realloc_rdc by auto. apply Rc. }
    split. { intro i. rewrite realloc_rds by auto. apply Rs. }
    split. { intro i. apply Ri. }
    split. { intro a. rewrite Hown3, Hcount. apply Hown. }
    cbn [realloc modif cols needsp s2]. rewrite map_length. auto.
Qed.

(** ** TieElement *)
Lemma nth_app_one : forall A (l : list (option A)) x i,
  nth i (l ++ [x]) None = if i =? length l then x else nth i l None.
Proof.
  intros. destruct (Nat.eqb_spec i (length l)).
  - subst. rewrite app_nth2 by lia. now rewrite Nat.sub_diag.
  - destruct (Nat.lt_ge_cases i (length l)).
    + now rewrite app_nth1.
    + rewrite !nth_overflow; auto; rewrite ?app_length; cbn [length]; lia.
Qed.

Lemma nth_lset_lt : forall A (l : list A) i j x d, i < length l ->
  nth j (lset l i x) d = if j =? i then x else nth j l d.
Proof.
  intros. rewrite nth_lset.
  destruct (Nat.eqb_spec i j); destruct (Nat.eqb_spec j i);
  destruct (Nat.ltb_spec j (length l)); subst; cbn [andb]; auto; lia.
Qed.

(** Picking the address. *)
Definition pick_addr (s : st) : nat * list nat :=
  match es s with
  | a :: r => if modif V s then (occ s, es s) else (a, r)
  | [] => (occ s, [])
  end.

Definition pick_id (s : st) (addr : nat) : nat * list (option nat) * list nat :=
  match el s with
  | i :: r => (i, lset (lk s) i (Some addr), r)
  | [] => (length (lk s), lk s ++ [Some addr], [])
  end.

Lemma pick_addr_ok : forall s addr r, inv s -> pick_addr s = (addr, r) ->
  own s addr = None /\ NoDup r /\ ~ In addr r /\
  (forall a, a <> addr -> (In a r <-> In a (es s))) /\
  ((addr < occ s /\ S (length r) = length (es s)) \/
   (addr = occ s /\ length r = length (es s))).
Proof.
  intros s addr r [T D F P] H. unfold pick_addr in H.
  assert (Ho : own s (occ s) = None).
  { destruct (own s (occ s)) eqn:E; auto. apply (p_occ _ P) in E. lia. }
  assert (Hni : ~ In (occ s) (es s)).
  { intro G. apply (p_es _ P) in G. lia. }
  pose proof (p_nd _ P) as N.
  destruct (es s) as [|a l] eqn:E.
  - injection H as <- <-. repeat split; auto.
  - destruct (modif V s).
    + injection H as <- <-. repeat split; auto; tauto.
    + injection H as <- <-. inversion N; subst.
      assert (G : In a (es s)) by (rewrite E; now left).
      apply (p_es _ P) in G. destruct G as [G1 G2].
      split; [|split; [|split; [|split]]]; auto.
      intros b Hb. cbn [In]. split; [tauto|]. intros [?|?]; [congruence|auto].
Qed.

Lemma pick_id_ok : forall s addr id ls l, inv s ->
  pick_id s addr = (id, ls, l) ->
  adr s id = None /\ id < length ls /\
  (forall i, nth i ls None = if i =? id then Some addr else adr s i) /\
  NoDup l /\ (forall i, In i l <-> i < length ls /\ nth i ls None = None) /\
  length ls - length l = S (length (lk s) - length (el s)).
Proof.
  intros s addr id ls l [T D F P] H. unfold pick_id in H.
  pose proof (f_elnd _ F) as N. pose proof (f_el _ F) as Hel.
  pose proof (frees_le _ F) as Hle.
  destruct (el s) as [|i r] eqn:E.
  - injection H as <- <- <-.
    split; [now apply nth_overflow|].
    split; [rewrite app_length; cbn [length]; lia|].
    split; [intro i; apply nth_app_one|].
    split; [constructor|]. split.
    + intro i. rewrite nth_app_one, app_length. cbn [length In].
      split; [tauto|]. destruct (Nat.eqb_spec i (length (lk s))); [intros [_ ?]; discriminate|].
      intros [H1 H2]. apply (Hel i). split; auto. lia.
    + rewrite app_length. cbn [length]. lia.
  - injection H as <- <- <-. inversion N; subst.
    assert (G : i < length (lk s) /\ adr s i = None) by (apply Hel; now left).
    destruct G as [G1 G2].
    split; auto. split; [now rewrite lset_length|].
    split; [intro j; now apply nth_lset_lt|].
    split; auto. split.
    + intro j. rewrite nth_lset_lt, lset_length by auto. split.
      * intro Hj. destruct (Nat.eqb_spec j i); [subst; tauto|].
        apply Hel. now right.
      * destruct (Nat.eqb_spec j i); [intros [_ ?]; discriminate|].
        intro Hj. apply Hel in Hj. destruct Hj; [congruence|auto].
    + rewrite lset_length. cbn [length] in *. lia.
Qed.

Lemma tie_unfold : forall s addr r id ls l,
  pick_addr s = (addr, r) -> pick_id s addr = (id, ls, l) ->
  tie V dflt chunk minsz s =
  if negb (id <? length ls) then None else
  let s1 := St V ls (bk s) r l (modif V s) (cols V s) (sparse V s) (needsp V s) in
  let s2 := if capacity V chunk s1 =? capacity V chunk s then s1
            else realloc V dflt chunk minsz s1 (capacity V chunk s1) in
  if addr <? length (bk s2)
  then Some (St V (lk s2) (lset (bk s2) addr (Some id)) (es s2) (el s2) (modif V s2)
                (cols V s2) (sparse V s2) (needsp V s2), id)
  else None.
Proof.
  intros s addr r id ls l H1 H2. unfold tie. unfold pick_addr in H1. rewrite H1.
  unfold pick_id in H2. rewrite H2. reflexivity.
Qed.

Lemma tie_ok : forall s, inv s ->
  exists s' id, tie V dflt chunk minsz s = Some (s', id) /\ inv s' /\
    adr s id = None /\
    (forall i, i <> id -> adr s' i = adr s i) /\ adr s' id <> None /\
    (forall c i, i <> id -> rdc s' c i = rdc s c i) /\
    (forall i, i <> id -> rds s' i = rds s i) /\
    (forall c, rdc s' c id = if c <? length (cols V s) then Some dflt else None) /\
    rds s' id = (if needsp V s then Some dflt else None) /\
    modif V s' = modif V s /\
    length (cols V s') = length (cols V s) /\ needsp V s' = needsp V s.
Proof.
  intros s I. pose proof I as [T D F P].
  destruct (pick_addr s) as [addr r] eqn:E1.
  destruct (pick_id s addr) as [[id ls] l] eqn:E2.
  destruct (pick_addr_ok _ _ _ I E1) as (A1 & A2 & A3 & A4 & A5).
  destruct (pick_id_ok _ _ _ _ _ I E2) as (B1 & B2 & B3 & B4 & B5 & B6).
  rewrite (tie_unfold _ _ _ _ _ _ E1 E2).
  destruct (Nat.ltb_spec id (length ls)); [|lia]. cbn [negb].
  set (s1 := St V ls (bk s) r l (modif V s) (cols V s) (sparse V s) (needsp V s)).
  cbv zeta.
  pose proof (frees_le _ F) as Hle.
  assert (Hocc1 : occ s <= occ s1 /\ addr < occ s1 /\
     (addr < occ s -> occ s1 = occ s) /\ (addr = occ s -> occ s1 = S (occ s))).
  { unfold occupied, s1. cbn [links elinks espace]. rewrite B6.
    unfold occupied in A5. lia. }
  destruct Hocc1 as (O1 & O2 & O3 & O4).
  set (s2 := if capacity V chunk s1 =? capacity V chunk s then s1
            else realloc V dflt chunk minsz s1 (capacity V chunk s1)).
  assert (Hb1 : forall b i, own s1 b = Some i -> b < atl (capacity V chunk s1)).
  { intros b i Hb. cbn [s1 back] in Hb. apply (p_occ _ P) in Hb. unfold capacity.
    pose proof (roundup_ge (occ s1)). pose proof (atl_ge (rup (occ s1))). lia. }
  assert (Hown2 : forall a, own s2 a = own s a).
  { intro a. unfold s2. destruct (_ =? _); auto. rewrite realloc_own by auto. reflexivity. }
  assert (Hlen2 : length (bk s2) = atl (rup (occ s1))).
  { unfold s2. destruct (Nat.eqb_spec (capacity V chunk s1) (capacity V chunk s)) as [G|G].
    - cbn [s1 back]. rewrite (p_len _ P). unfold capacity in G. now rewrite G.
    - cbn [realloc back]. now rewrite resize_length. }
  assert (Hlk2 : lk s2 = ls /\ es s2 = r /\ el s2 = l /\ modif V s2 = modif V s /\
     needsp V s2 = needsp V s /\ length (cols V s2) = length (cols V s)).
  { unfold s2. destruct (_ =? _); cbn; rewrite ?map_length; auto 10. }
  destruct Hlk2 as (L1 & L2 & L3 & L4 & L5 & L6).
  (* datainv of s1 (tables do not matter for it) *)
  assert (D1 : datainv s1) by (destruct D; split; auto).
  assert (D2 : datainv s2).
  { unfold s2. destruct (_ =? _); auto. now apply realloc_data. }
  assert (Hcol2 : forall c a, a < length (bk s) ->
     option_map (fun col => nth a col dflt) (nth_error (cols V s2) c) =
     option_map (fun col => nth a col dflt) (nth_error (cols V s) c)).
  { intros c a Ha. unfold s2. destruct (_ =? _); auto.
    cbn [realloc cols s1]. rewrite nth_error_map.
    destruct (nth_error (cols V s) c) as [col|] eqn:Ec; auto. cbn [option_map].
    unfold resize_col. rewrite nth_resize.
    assert (a < rup (atl (capacity V chunk s1))); [|destruct (Nat.ltb_spec a (rup (atl (capacity V chunk s1)))); auto; lia].
    pose proof (roundup_ge (atl (capacity V chunk s1))). unfold capacity in *.
    enough (length (bk s) <= atl (rup (occ s1))) by lia.
    rewrite (p_len _ P). unfold at_least. pose proof (roundup_mono _ _ O1).
    destruct (Nat.ltb_spec (rup (occ s)) minsz); destruct (Nat.ltb_spec (rup (occ s1)) minsz); lia. }
  assert (Hsp2 : needsp V s = true -> forall a, a < length (bk s) ->
     nth a (sparse V s2) dflt = nth a (sparse V s) dflt).
  { intros Hs a Ha. unfold s2. destruct (_ =? _); auto.
    cbn [realloc sparse s1 needsp]. rewrite Hs, nth_resize.
    unfold capacity in *.
    assert (length (bk s) <= atl (rup (occ s1))).
    { rewrite (p_len _ P). unfold at_least. pose proof (roundup_mono _ _ O1).
      destruct (Nat.ltb_spec (rup (occ s)) minsz); destruct (Nat.ltb_spec (rup (occ s1)) minsz); lia. }
    destruct (Nat.ltb_spec a (atl (rup (occ s1)))); auto; lia. }
  assert (Hal : addr < length (bk s2)).
  { rewrite Hlen2. pose proof (roundup_ge (occ s1)). pose proof (atl_ge (rup (occ s1))). lia. }
  destruct (Nat.ltb_spec addr (length (bk s2))); [|lia].
  clearbody s2.
  set (s3 := St V (lk s2) (lset (bk s2) addr (Some id)) (es s2) (el s2) (modif V s2)
                (cols V s2) (sparse V s2) (needsp V s2)).
  assert (Hown3 : forall a, own s3 a = if a =? addr then Some id else own s a).
  { intro a. unfold s3. cbn [back]. rewrite nth_lset_lt by auto. now rewrite Hown2. }
  assert (Hadr3 : forall i, adr s3 i = if i =? id then Some addr else adr s i).
  { intro i. unfold s3. cbn [links]. rewrite L1. apply B3. }
  assert (Hocc3 : occ s3 = occ s1).
  { unfold occupied, s3, s1. cbn [links elinks espace]. now rewrite L1, L2, L3. }
  assert (Htab3 : tables s3).
  { split; intros x y; rewrite Hown3, Hadr3.
    - destruct (Nat.eqb_spec x id) as [->|Hx].
      + intros [= <-]. now rewrite Nat.eqb_refl.
      + intro G. pose proof (t_lk _ T _ _ G) as G2.
        destruct (Nat.eqb_spec y addr); [subst; congruence|auto].
    - destruct (Nat.eqb_spec x addr) as [->|Hx].
      + intros [= <-]. now rewrite Nat.eqb_refl.
      + intro G. pose proof (t_bk _ T _ _ G) as G2.
        destruct (Nat.eqb_spec y id); [subst; congruence|auto]. }
  exists s3, id. split; [reflexivity|].
  split; [split; auto|].
  - destruct D2 as [DA DB DC DD]. split; unfold s3; cbn [cols back sparse needsp].
    + intros c Hc. rewrite lset_length. auto.
    + intros c a Hc Ha. apply DB; auto. rewrite Hown2.
      rewrite nth_lset_lt, Hown2 in Ha by auto. destruct (a =? addr); [discriminate|auto].
    + now rewrite lset_length.
    + intros a Ha. apply DD. rewrite Hown2.
      rewrite nth_lset_lt, Hown2 in Ha by auto. destruct (a =? addr); [discriminate|auto].
  - split; unfold s3; cbn [links elinks]; [now rewrite L3|intro i; rewrite L1, L3; apply B5].
  - split.
    + unfold s3; cbn [espace]. now rewrite L2.
    + intro a. rewrite Hocc3, Hown3. unfold s3; cbn [espace]. rewrite L2.
      destruct (Nat.eqb_spec a addr) as [->|Ha].
      * split; [tauto|intros [_ ?]; discriminate].
      * rewrite A4 by auto. rewrite (p_es _ P).
        split; intros [G1 G2]; split; auto; [lia|].
        destruct A5 as [[A5 _]|[A5 _]]; [rewrite <- O3; auto|].
        rewrite O4 in G1 by auto. lia.
    + intros a i. rewrite Hocc3, Hown3. destruct (Nat.eqb_spec a addr); [lia|].
      intro G. apply (p_occ _ P) in G. lia.
    + rewrite Hocc3. unfold s3; cbn [back]. now rewrite lset_length.
  - split; auto. split.
    { intros i Hi. rewrite Hadr3. destruct (Nat.eqb_spec i id); [tauto|auto]. }
    split. { rewrite Hadr3, Nat.eqb_refl. discriminate. }
    split.
    { intros c i Hi. unfold rdc. rewrite Hadr3. destruct (Nat.eqb_spec i id); [tauto|].
      destruct (adr s i) as [a|] eqn:G; auto.
      apply (t_lk _ T) in G. apply nth_Some_lt in G. unfold s3. cbn [cols].
      specialize (Hcol2 c a G). unfold option_map in Hcol2.
      destruct (nth_error (cols V s2) c), (nth_error (cols V s) c); auto. }
    split.
    { intros i Hi. unfold rds. rewrite Hadr3. destruct (Nat.eqb_spec i id); [tauto|].
      destruct (adr s i) as [a|] eqn:G; auto.
      apply (t_lk _ T) in G. apply nth_Some_lt in G. unfold s3. cbn [sparse needsp].
      rewrite L5. destruct (needsp V s); auto. now rewrite Hsp2. }
    split.
    { intro c. unfold rdc. rewrite Hadr3, Nat.eqb_refl. unfold s3. cbn [cols].
      destruct (nth_error (cols V s2) c) as [col|] eqn:G.
      - assert (c < length (cols V s2)) by (apply nth_error_Some; congruence).
        destruct (Nat.ltb_spec c (length (cols V s))); [|lia].
        rewrite (d_dead _ D2); auto. { eapply nth_error_In; eauto. } now rewrite Hown2.
      - apply nth_error_None in G.
        destruct (Nat.ltb_spec c (length (cols V s))); [lia|auto]. }
    split.
    { unfold rds. rewrite Hadr3, Nat.eqb_refl. unfold s3. cbn [sparse needsp]. rewrite L5.
      destruct (needsp V s); auto. rewrite (d_spdead _ D2); auto. now rewrite Hown2. }
    unfold s3. cbn [modif cols needsp]. auto.
Qed.

(** ** Destroy *)
Lemma destroy_ok : forall s id, inv s -> modif V s = false -> adr s id <> None ->
  exists s', destroy V dflt s id = Some s' /\ inv s' /\
    (forall i, adr s' i = if i =? id then None else adr s i) /\
    (forall c i, i <> id -> rdc s' c i = rdc s c i) /\
    (forall i, i <> id -> rds s' i = rds s i) /\
    modif V s' = modif V s /\
    length (cols V s') = length (cols V s) /\ needsp V s' = needsp V s.
Proof.
  intros s id [T D F P] Hm Hl.
  destruct (adr s id) as [addr|] eqn:Ea; [|tauto]. clear Hl.
  pose proof (t_lk _ T _ _ Ea) as Hb. pose proof (nth_Some_lt _ _ _ _ Hb) as Hbl.
  pose proof (nth_Some_lt _ _ _ _ Ea) as Hil.
  unfold destroy, untie. rewrite (proj2 (nth_error_opt _ _ _ _) Ea). cbn [modif links back].
  rewrite Hm, (proj2 (nth_error_opt _ _ _ _) Ea).
  destruct (Nat.ltb_spec addr (length (bk s))); [|lia]. cbn [espace elinks cols sparse needsp].
  eexists. split; [reflexivity|].
  set (s' := St V _ _ _ _ _ _ _ _).
  assert (HA : forall i, adr s' i = if i =? id then None else adr s i)
    by (intro; unfold s'; cbn [links]; now apply nth_lset_lt).
  assert (HO : forall a, own s' a = if a =? addr then None else own s a)
    by (intro; unfold s'; cbn [back]; now apply nth_lset_lt).
  pose proof (frees_le _ F) as Hle.
  assert (Hne : ~ In id (el s)) by (intro G; apply (f_el _ F) in G; destruct G; congruence).
  assert (Hne2 : ~ In addr (es s)) by (intro G; apply (p_es _ P) in G; destruct G; congruence).
  assert (Hlt : length (el s) < length (lk s)).
  { assert (Q : length (id :: el s) <= length (seq 0 (length (lk s)))).
    { apply NoDup_incl_length; [constructor; auto; apply F|].
      intros x [<-|Hx]; apply in_seq; [lia|]. apply (f_el _ F) in Hx. lia. }
    rewrite seq_length in Q. cbn [length] in Q. lia. }
  assert (HQ : occ s' = occ s).
  { unfold occupied, s'. cbn [links elinks espace length]. rewrite lset_length. lia. }
  assert (Hcell : forall c, In c (cols V s) -> length (bk s) <= length c).
  { intros c Hc. rewrite (d_len _ D c Hc). apply roundup_ge. }
  split; [split|].
  - split; intros x y; rewrite HA, HO.
    + destruct (Nat.eqb_spec x id); [discriminate|]. intro G.
      pose proof (t_lk _ T _ _ G). destruct (Nat.eqb_spec y addr); [subst; congruence|auto].
    + destruct (Nat.eqb_spec x addr); [discriminate|]. intro G.
      pose proof (t_bk _ T _ _ G). destruct (Nat.eqb_spec y id); [subst; congruence|auto].
  - split.
    + intros c Hc. unfold s' in *. cbn [cols back] in *. apply in_map_iff in Hc.
      destruct Hc as (c0 & <- & Hc). rewrite !lset_length. now apply d_len.
    + intros c a Hc. rewrite HO. unfold s' in Hc. cbn [cols] in Hc. apply in_map_iff in Hc.
      destruct Hc as (c0 & <- & Hc). specialize (Hcell c0 Hc).
      rewrite nth_lset_lt by lia. destruct (a =? addr); auto.
      intro; now apply (d_dead _ D).
    + unfold s'. cbn [sparse needsp back]. rewrite !lset_length. apply (d_splen _ D).
    + intros a. rewrite HO. unfold s'. cbn [sparse]. rewrite nth_lset.
      destruct (Nat.eqb_spec addr a); destruct (Nat.eqb_spec a addr); subst;
      try congruence; cbn [andb].
      * destruct (Nat.ltb_spec a (length (sparse V s))); auto.
        intros _. now apply nth_overflow.
      * apply (d_spdead _ D).
  - split; unfold s'; cbn [elinks].
    + constructor; auto. apply F.
    + intro i. cbn [In links]. rewrite lset_length, nth_lset_lt, (f_el _ F) by auto.
      destruct (Nat.eqb_spec i id) as [->|Hi]; [tauto|].
      split; [intros [?|?]; [congruence|auto]|auto].
  - split.
    + unfold s'. cbn [espace]. constructor; auto. apply P.
    + intro a. rewrite HQ, HO. unfold s'. cbn [espace In]. rewrite (p_es _ P).
      pose proof (p_occ _ P _ _ Hb).
      destruct (Nat.eqb_spec a addr) as [->|Hi]; [tauto|].
      split; [intros [?|?]; [congruence|auto]|auto].
    + intros a i. rewrite HQ, HO. destruct (a =? addr); [discriminate|]. apply (p_occ _ P).
    + rewrite HQ. unfold s'. cbn [back]. rewrite lset_length. apply (p_len _ P).
  - split; auto. split.
    { intros c i Hi. unfold rdc. rewrite HA. destruct (Nat.eqb_spec i id); [tauto|].
      destruct (adr s i) as [a|] eqn:G; auto. unfold s'. cbn [cols]. rewrite nth_error_map.
      destruct (nth_error (cols V s) c) as [col|] eqn:Ec; auto. cbn [option_map].
      apply nth_error_In in Ec. specialize (Hcell _ Ec).
      pose proof (t_lk _ T _ _ G). rewrite nth_lset_lt by lia.
      destruct (Nat.eqb_spec a addr); [subst; congruence|auto]. }
    split.
    { intros i Hi. unfold rds. rewrite HA. destruct (Nat.eqb_spec i id); [tauto|].
      destruct (adr s i) as [a|] eqn:G; auto. unfold s'. cbn [sparse needsp].
      pose proof (t_lk _ T _ _ G). rewrite nth_lset.
      destruct (Nat.eqb_spec addr a); [subst; congruence|auto]. }
    unfold s'. cbn [modif cols needsp]. rewrite map_length. auto.
Qed.

(** ** Writes, new tags, modification flag *)
Lemma write_ok : forall s c id v, inv s -> adr s id <> None -> c < length (cols V s) ->
  exists s', write V s c id v = Some s' /\ inv s' /\
    (forall i, adr s' i = adr s i) /\
    (forall d i, rdc s' d i = if (d =? c) && (i =? id) then Some v else rdc s d i) /\
    (forall i, rds s' i = rds s i) /\
    modif V s' = modif V s /\
    length (cols V s') = length (cols V s) /\ needsp V s' = needsp V s.
Proof.
  intros s c id v [T D F P] Hl Hc.
  destruct (adr s id) as [a|] eqn:Ea; [|tauto].
  destruct (nth_error (cols V s) c) as [col|] eqn:Ec; [|apply nth_error_None in Ec; lia].
  pose proof (t_lk _ T _ _ Ea) as Hb. pose proof (nth_Some_lt _ _ _ _ Hb) as Hbl.
  unfold write. rewrite (proj2 (nth_error_opt _ _ _ _) Ea), Ec.
  destruct (Nat.ltb_spec a (length (bk s))); [|lia].
  assert (Hcl : length (bk s) <= length col).
  { rewrite (d_len _ D col); [apply roundup_ge|eapply nth_error_In; eauto]. }
  eexists. split; [reflexivity|].
  split; [split|].
  - destruct T; split; auto.
  - destruct D as [DA DB DC DD]. split; cbn [cols back sparse needsp]; auto.
    + intros x Hx. apply In_lset in Hx. destruct Hx as [->|Hx]; auto.
      rewrite lset_length. apply DA. eapply nth_error_In; eauto.
    + intros x b Hx Hd. apply In_lset in Hx. destruct Hx as [->|Hx]; auto.
      rewrite nth_lset_lt by lia. destruct (Nat.eqb_spec b a); [subst; congruence|].
      apply DB; auto. eapply nth_error_In; eauto.
  - destruct F; split; auto.
  - destruct P; split; auto.
  - split; auto. split.
    { intros d i. unfold rdc. cbn [links cols]. rewrite nth_error_lset.
      destruct (Nat.eqb_spec c d); destruct (Nat.eqb_spec d c); subst; try congruence; cbn [andb].
      - destruct (Nat.ltb_spec d (length (cols V s))); [|lia].
        destruct (Nat.eqb_spec i id) as [->|Hi].
        + rewrite Ea. rewrite nth_lset_lt by lia. now rewrite Nat.eqb_refl.
        + destruct (adr s i) as [b|] eqn:G; auto. rewrite Ec.
          rewrite nth_lset_lt by lia. destruct (Nat.eqb_spec b a); auto.
          subst. apply (t_lk _ T) in G. congruence.
      - reflexivity. }
    cbn [modif cols needsp]. rewrite lset_length. unfold rds. auto.
Qed.

Lemma write_sparse_ok : forall s id v, inv s -> adr s id <> None -> needsp V s = true ->
  exists s', write_sparse V s id v = Some s' /\ inv s' /\
    (forall i, adr s' i = adr s i) /\
    (forall d i, rdc s' d i = rdc s d i) /\
    (forall i, rds s' i = if i =? id then Some v else rds s i) /\
    modif V s' = modif V s /\
    length (cols V s') = length (cols V s) /\ needsp V s' = needsp V s.
Proof.
  intros s id v [T D F P] Hl Hn.
  destruct (adr s id) as [a|] eqn:Ea; [|tauto].
  pose proof (t_lk _ T _ _ Ea) as Hb. pose proof (nth_Some_lt _ _ _ _ Hb) as Hbl.
  unfold write_sparse. rewrite (proj2 (nth_error_opt _ _ _ _) Ea).
  pose proof (d_splen _ D) as Hs. rewrite Hn in Hs.
  destruct (Nat.ltb_spec a (length (sparse V s))); [|lia].
  eexists. split; [reflexivity|].
  split; [split|].
  - destruct T; split; auto.
  - destruct D as [DA DB DC DD]. split; cbn [cols back sparse needsp]; auto.
    + now rewrite lset_length.
    + intros b Hd. rewrite nth_lset_lt by lia.
      destruct (Nat.eqb_spec b a); [subst; congruence|]. now apply DD.
  - destruct F; split; auto.
  - destruct P; split; auto.
  - split; auto. split; auto. split.
    { intro i. unfold rds. cbn [links sparse needsp]. rewrite Hn.
      destruct (Nat.eqb_spec i id) as [->|Hi].
      - rewrite Ea, nth_lset_lt by lia. now rewrite Nat.eqb_refl.
      - destruct (adr s i) as [b|] eqn:G; auto. rewrite nth_lset_lt by lia.
        destruct (Nat.eqb_spec b a); auto. subst. apply (t_lk _ T) in G. congruence. }
    auto.
Qed.

Lemma new_dense_ok : forall s, inv s ->
  let s' := new_dense V dflt chunk minsz s in
  inv s' /\ (forall i, adr s' i = adr s i) /\
  (forall c i, rdc s' c i =
     if (c =? length (cols V s)) && (match adr s i with Some _ => true | None => false end)
     then Some dflt else rdc s c i) /\
  (forall i, rds s' i = rds s i) /\ length (cols V s') = S (length (cols V s)).
Proof.
  intros s [T D F P] s'.
  assert (Hz : forall a n, nth a (resize_col V dflt chunk [] n) dflt = dflt).
  { intros a n. unfold resize_col. rewrite nth_resize. destruct (_ <? _); auto. now destruct a. }
  split; [split|].
  - destruct T; split; auto.
  - destruct D as [DA DB DC DD]. split; cbn [s' new_dense cols back sparse needsp]; auto.
    + intros c Hc. apply in_app_iff in Hc. destruct Hc as [Hc|[<-|[]]]; auto.
      unfold resize_col. rewrite resize_length, (p_len _ P). reflexivity.
    + intros c a Hc Ha. apply in_app_iff in Hc. destruct Hc as [Hc|[<-|[]]]; auto.
  - destruct F; split; auto.
  - destruct P; split; auto.
  - split; auto. split.
    { intros c i. unfold rdc. cbn [s' new_dense links cols].
      destruct (adr s i) as [a|]; rewrite ?andb_false_r; auto. rewrite andb_true_r.
      destruct (Nat.eqb_spec c (length (cols V s))).
      - subst. rewrite nth_error_app2, Nat.sub_diag by lia. cbn [nth_error].
        f_equal. apply Hz.
      - destruct (Nat.lt_ge_cases c (length (cols V s))).
        + now rewrite nth_error_app1.
        + rewrite (proj2 (nth_error_None (cols V s) c)) by lia.
          now rewrite (proj2 (nth_error_None (cols V s ++ _) c)) by (rewrite app_length; cbn [length]; lia). }
    split; auto. cbn [s' new_dense cols]. rewrite app_length. cbn [length]. lia.
Qed.

Lemma new_sparse_ok : forall s, inv s -> 
  let s' := new_sparse V dflt chunk minsz s in
  inv s' /\ (forall i, adr s' i = adr s i) /\
  (forall c i, rdc s' c i = rdc s c i) /\
  (forall i, rds s' i =
     if needsp V s then rds s i
     else match adr s i with Some _ => Some dflt | None => None end).
Proof.
  intros s [T D F P] s'.
  assert (Hsp : needsp V s = true -> sparse V s = [] -> length (bk s) = 0).
  { intros Hn Hs. pose proof (d_splen _ D) as Hl. rewrite Hn, Hs in Hl. now symmetry. }
  pose proof (d_splen _ D) as Hl.
  assert (Hlen : length (sparse V s') = length (bk s)).
  { cbn [s' new_sparse sparse]. unfold capacity.
    destruct (sparse V s) eqn:E.
    - rewrite repeat_length. now rewrite (p_len _ P).
    - destruct (needsp V s); auto. discriminate. }
  assert (Hnth : forall a, nth a (sparse V s') dflt = nth a (sparse V s) dflt).
  { intro a. cbn [s' new_sparse sparse]. destruct (sparse V s); auto.
    rewrite nth_repeat. now destruct a. }
  split; [split|].
  - destruct T; split; auto.
  - destruct D as [DA DB DC DD]. split; auto.
    intros a Ha. rewrite Hnth. now apply DD.
  - destruct F; split; auto.
  - destruct P; split; auto.
  - split; auto. split; auto. intro i. unfold rds.
    change (adr s' i) with (adr s i). change (needsp V s') with true.
    destruct (adr s i) as [a|]; [|now destruct (needsp V s)].
    rewrite Hnth. destruct (needsp V s) eqn:Hn; auto.
    rewrite (nth_overflow (sparse V s)) by lia. reflexivity.
Qed.

Lemma set_modif_ok : forall s b, inv s ->
  inv (set_modif V s b) /\ (forall i, adr (set_modif V s b) i = adr s i) /\
  (forall c i, rdc (set_modif V s b) c i = rdc s c i) /\
  (forall i, rds (set_modif V s b) i = rds s i).
Proof.
  intros s b [[A B] [C D E G] [H I] [J K L M]]. split; [|auto].
  split; split; auto.
Qed.

Lemma init_ok : inv (init V dflt chunk minsz).
Proof.
  pose proof chunk_pos as Hcp; unfold positive in Hcp.
  assert (Hr : rup 0 = 0).
  { unfold roundup. rewrite Nat.div_0_l, Nat.mod_0_l by lia. reflexivity. }
  assert (Hnone : forall a, own (init V dflt chunk minsz) a = None).
  { intro a. cbn [init realloc back]. rewrite nth_resize. destruct (_ <? _); auto. now destruct a. }
  assert (Hadr : forall a, adr (init V dflt chunk minsz) a = None) by (intro a; now destruct a).
  split; split.
  - intros id a. rewrite Hadr. discriminate.
  - intros id a. rewrite Hnone. discriminate.
  - intros c [].
  - intros c a [].
  - reflexivity.
  - intros a _. now destruct a.
  - constructor.
  - intro id. cbn. split; [tauto|lia].
  - constructor.
  - intro a. cbn. split; [tauto|lia].
  - intros a id. rewrite Hnone. discriminate.
  - cbn [init realloc back]. rewrite resize_length. cbn. now rewrite Hr.
Qed.

(** ** Steps that are refused *)
Lemma destroy_refused : forall s id,
  modif V s = true \/ adr s id = None -> destroy V dflt s id = None.
Proof.
  intros s id H. unfold destroy, untie. cbn [modif].
  destruct (nth_error (lk s) id) as [[a|]|] eqn:E; auto.
  destruct (_ <? _); auto. destruct H as [->|H]; auto.
  apply nth_error_opt in E. congruence.
Qed.

Lemma write_refused : forall s c id v,
  adr s id = None \/ length (cols V s) <= c -> write V s c id v = None.
Proof.
  intros s c id v H. unfold write.
  destruct (nth_error (lk s) id) as [[a|]|] eqn:E; auto.
  apply nth_error_opt in E. destruct H as [H|H]; [congruence|].
  now rewrite (proj2 (nth_error_None _ _) H).
Qed.

Lemma write_sparse_refused : forall s id v, inv s ->
  adr s id = None \/ needsp V s = false -> write_sparse V s id v = None.
Proof.
  intros s id v I H. unfold write_sparse.
  destruct (nth_error (lk s) id) as [[a|]|] eqn:E; auto.
  apply nth_error_opt in E. destruct H as [H|H]; [congruence|].
  pose proof (d_splen _ (i_d _ I)) as Hl. rewrite H in Hl. rewrite Hl.
  now destruct a.
Qed.
End S.
