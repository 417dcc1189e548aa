(** Properties of the removal of links to deleted elements (C156-C158). *)
From Coq Require Import List Bool Arith Lia.
From Verif Require Import Util SetTree_Model SetTree_Proofs SetTree_Props ESet_Model Purge_Model Purge_Proofs.
Import ListNotations.

(** * C156: reference data *)

(** Every array of references that is not adjacency keeps its length; the entries that
    point at a marked element become invalid, all the others stay. Other data and adjacency
    stay as they are. *)
Theorem C156_references mk l : length (purge_tags mk l) = length l /\
  forall i t, nth_error l i = Some t -> exists t', nth_error (purge_tags mk l) i = Some t' /\
    is_reference t' = is_reference t /\ is_adjacency t' = is_adjacency t /\
    (is_reference t = false \/ is_adjacency t = true -> t' = t) /\
    (is_reference t = true -> is_adjacency t = false -> length (arrays t') = length (arrays t) /\
     forall j k, length (nth j (arrays t') []) = length (nth j (arrays t) []) /\
       nth k (nth j (arrays t') []) 0 = let h := nth k (nth j (arrays t) []) 0 in if mk h then 0 else h).
Proof.
  unfold purge_tags. split; [apply map_length |]. intros i t E. exists (purge_tag mk t). split; [now rewrite nth_error_map, E |].
  unfold purge_tag. split; [now destruct (is_reference t) eqn:R, (is_adjacency t) eqn:A | split; [now destruct (is_reference t) eqn:R, (is_adjacency t) eqn:A |]]. split.
  - intros [-> | A]; [easy |]. rewrite A. now destruct (is_reference t).
  - intros -> ->. cbn [arrays]. split; [apply map_length |]. intros j k.
    assert (Q : nth j (map (purge_array mk) (arrays t)) [] = purge_array mk (nth j (arrays t) [])) by apply (map_nth (purge_array mk) (arrays t) []).
    rewrite Q. unfold purge_array. split; [apply map_length |].
    pose proof (map_nth (fun h => if negb (h =? 0) && mk h then 0 else h) (nth j (arrays t) []) 0 k) as P. cbn [Nat.eqb negb andb] in P. rewrite P. cbv zeta.
    destruct (Nat.eqb_spec (nth k (nth j (arrays t) []) 0) 0) as [-> |]; cbn [negb andb]; [now destruct (mk 0) | easy].
Qed.
(** No such array refers to a marked element afterwards. *)
Theorem C156_none_left mk l t a h : In t (purge_tags mk l) -> is_reference t = true -> is_adjacency t = false -> In a (arrays t) -> In h a -> h <> 0 -> mk h = false.
Proof.
  intros Ht R A Ia Ih Nh. unfold purge_tags in Ht. apply in_map_iff in Ht. destruct Ht as (t0 & <- & _). unfold purge_tag in *.
  destruct (is_reference t0) eqn:R0; [| congruence]. destruct (is_adjacency t0) eqn:A0; [congruence |]. cbn [arrays] in Ia.
  apply in_map_iff in Ia. destruct Ia as (a0 & <- & _). unfold purge_array in Ih. apply in_map_iff in Ih. destruct Ih as (h0 & <- & _).
  destruct (negb (h0 =? 0) && mk h0) eqn:M; [contradiction |]. apply andb_false_iff in M. destruct M as [M | M]; [| easy]. apply negb_false_iff, Nat.eqb_eq in M. contradiction.
Qed.
Example C156_nonvacuous : purge_tags (fun h => h =? 5) [Tag true false [[5; 3; 0; 5]; []]; Tag true true [[5]]; Tag false false [[5]]] =
  [Tag true false [[0; 3; 0; 0]; []]; Tag true true [[5]]; Tag false false [[5]]].
Proof. reflexivity. Qed.

(** * C157: hierarchy of sets *)

(** What remains of the lists of children. *)
Definition remaining (mk : nat -> bool) (g : forest) : forest :=
  Forest (fun p => if mk p then [] else filter (fun x => negb (mk x)) (ch g p)) (stale g).
(** The loop passes over all sets. *)
Definition covers (l : list nat) (g : forest) : Prop :=
  ~ In 0 l /\ forall p, p <> 0 -> (ch g p <> [] -> In p l) /\ forall x, In x (ch g p) -> In x l.

Lemma observed_any t c mk g : inv t (any c) -> (forall p, p <> 0 -> c p = ch (remaining mk g) p) -> observed t (remaining mk g).
Proof.
  intros I E. pose proof (inv_observed _ _ I) as [O1 O2]. cbn [any ch] in *. split.
  - intros p Hp. rewrite <- E by easy. now apply O1.
  - intros x. rewrite O2. unfold detached. cbn [any ch]. split; intros H p Hp; specialize (H p Hp); [rewrite <- E | rewrite E]; easy.
Qed.
Lemma step_ranked f t g o t' : inv t g -> allowed g o -> ranked t -> step f t o = Some t' -> ranked t'.
Proof.
  intros I A K. destruct o as [h | p c | p a c | p c | p a c | q h]; cbn [step allowed] in *.
  - intros [= <-]. now apply (ranked_zero t _ h).
  - destruct A as (A1 & A2 & A3 & A4). assert (P : par t c = 0) by now apply (inv_detached t g c I). assert (Z : sib t c = 0) by (destruct I as (_ & _ & _ & I4 & _); auto).
    unfold add_child. destruct (chi t p =? 0); [| now apply add_sibling_ranked]. destruct (_ =? _); [| discriminate]. intros [= <-]. now apply (ranked_same t).
  - destruct A as (A1 & A5 & A2 & A3 & A4). assert (P : par t c = 0) by now apply (inv_detached t g c I). assert (Z : sib t c = 0) by (destruct I as (_ & _ & _ & I4 & _); auto).
    now apply add_sibling_ranked.
  - now apply rem_child_ranked.
  - now apply rem_sibling_ranked.
  - unfold destroy. destruct (detach f t h) as [t1 |] eqn:D; [| discriminate]. apply drop_children_ranked. eapply detach_ranked; eauto.
Qed.
Lemma run_ranked ops : forall g, exists n, forall f, n <= f -> forall t, inv t g -> ranked t -> allowed_run g ops ->
  exists t', run f t ops = Some t' /\ inv t' (ideal_run g ops) /\ ranked t'.
Proof.
  induction ops as [| o ops IH]; intros g.
  - exists 0. intros f _ t I K _. exists t. auto.
  - destruct (IH (ideal g o)) as (n & Hn). exists (Nat.max n (depth g o)). intros f Hf t I K (A1 & A2).
    destruct (step_ok t g o f I A1) as (t' & E & I' & _); [lia |]. cbn [run]. rewrite E. apply Hn; auto; [lia |]. exact (step_ranked f t g o t' I A1 K E).
Qed.
Lemma ranked_none : ranked no_links.
Proof. exists (fun _ => 0). now intros x. Qed.

(** If no child of a marked set is marked, and no set without a parent has a marked sibling
    with one, then the call passes, every unmarked set keeps exactly its unmarked children
    in their order, and marked sets and their former children are without links to a parent. *)
Theorem C157_hierarchy ops mk sets : allowed_run no_sets ops -> covers sets (ideal_run no_sets ops) ->
  (forall p x, p <> 0 -> mk p = true -> In x (ch (ideal_run no_sets ops) p) -> mk x = false) ->
  exists n0, forall f0, n0 <= f0 -> exists t, run f0 no_links ops = Some t /\
    ((forall x, par t x = 0 -> sib t x <> 0 -> mk (sib t x) = true -> par t (sib t x) = 0) ->
     exists n, forall f, n <= f -> exists t', unlink_all mk f t sets = Some t' /\ observed t' (remaining mk (ideal_run no_sets ops))).
Proof.
  intros A (C0 & C) H. destruct (run_ranked ops no_sets) as (n0 & Hn). exists n0. intros f0 Hf0.
  destruct (Hn f0 Hf0 no_links inv_none ranked_none A) as (t & E & I & (rk & K)). exists t. split; [easy |]. intros D.
  destruct (unlink_all_final mk rk t (ideal_run no_sets ops) sets I K D H C0) as (n & Q); [now apply C | intros p x Hp; now apply C |].
  exists n. intros f Hf. destruct (Q f Hf) as (t' & c & Q1 & Q2 & Q3). exists t'. split; [easy |]. eapply observed_any; eauto.
Qed.

(** Sets deleted with DeleteSet during a modification. *)
Fixpoint delete_sets (f : nat) (t : tree) (mk : nat -> bool) (xs : list nat) : option (tree * (nat -> bool)) :=
  match xs with
  | [] => Some (t, mk)
  | x :: r => match delete_set f t mk x with Some (t', mk') => delete_sets f t' mk' r | None => None end
  end.
Definition among (xs : list nat) (h : nat) : bool := existsb (Nat.eqb h) xs.

Lemma delete_sets_ok f xs : forall t g mk, inv t g -> ranked t -> ~ In 0 xs -> (forall p, p <> 0 -> length (ch g p) <= f) ->
  (forall h, mk h = true -> par t h = 0) ->
  exists t' mk' g', delete_sets f t mk xs = Some (t', mk') /\ inv t' g' /\ ranked t' /\ (forall h, mk' h = true -> par t' h = 0) /\
    (forall h, mk' h = mk h || among xs h) /\ (forall p, p <> 0 -> ch g' p = filter (fun x => negb (among xs x)) (ch g p)).
Proof.
  induction xs as [| x xs IH]; intros t g mk I K Z Hf M; cbn [delete_sets].
  - exists t, mk, g. split; [easy |]. split; [easy |]. split; [easy |]. split; [easy |]. split; [intros h; now rewrite orb_false_r |]. intros p Hp. cbn [among existsb negb]. induction (ch g p) as [| y l IH]; [easy |]. cbn [filter]. now rewrite <- IH.
  - cbn [In] in Z. unfold delete_set.
    assert (Q : exists t1 g1, detach f t x = Some t1 /\ inv t1 g1 /\ (forall y, par t1 y = put (par t) x 0 y) /\ forall p, p <> 0 -> ch g1 p = filter (fun y => negb (y =? x)) (ch g p)).
    { unfold detach. destruct (Nat.eqb_spec (par t x) 0) as [P | P].
      - exists t, g. split; [easy |]. split; [easy |]. split; [intros y; unfold put; destruct (Nat.eqb_spec y x); congruence |]. intros p Hp.
        assert (D : ~ In x (ch g p)) by (apply (inv_detached t g x I); easy). clear - D. induction (ch g p) as [| y l IH]; [easy |]. cbn [filter In] in *. destruct (Nat.eqb_spec y x) as [-> |]; [tauto |]. cbn [negb]. f_equal. apply IH. tauto.
      - pose proof I as (_ & _ & I3 & _). assert (In x (ch g (par t x))) as D by now apply I3.
        destruct (rem_child_ok t g (par t x) x f I P D (Hf _ P)) as (t1 & E & I1 & Ep & _). exists t1, (i_rem g (par t x) x). split; [easy |]. split; [easy |]. split; [easy |].
        intros p Hp. cbn [i_rem with_stale with_ch ch]. destruct (Nat.eqb_spec p (par t x)) as [-> | Np]; [reflexivity |].
        assert (D2 : ~ In x (ch g p)) by (intros W; apply I3 in W; congruence). clear - D2. induction (ch g p) as [| y l IH]; [easy |]. cbn [filter In] in *. destruct (Nat.eqb_spec y x) as [-> |]; [tauto |]. cbn [negb]. f_equal. apply IH. tauto. }
    destruct Q as (t1 & g1 & E & I1 & Ep & Ec). rewrite E.
    destruct (IH t1 g1 (fun h => (h =? x) || mk h)) as (t' & mk' & g' & A1 & A2 & A3 & A4 & A5 & A6); auto.
    + eapply detach_ranked; eauto.
    + intros p Hp. rewrite Ec by easy. apply (Nat.le_trans _ (length (ch g p))); [| now apply Hf]. clear. induction (ch g p) as [| y l IH]; [cbn; lia |]. cbn [filter]. destruct (negb (y =? x)); cbn [length]; lia.
    + intros h. rewrite Ep. unfold put. destruct (Nat.eqb_spec h x); [easy |]. cbn [orb]. apply M.
    + exists t', mk', g'. split; [easy |]. split; [easy |]. split; [easy |]. split; [easy |]. split.
      * intros h. rewrite A5. cbn [among existsb]. fold (among xs h). destruct (h =? x), (mk h); easy.
      * intros p Hp. rewrite A6, Ec by easy. clear. induction (ch g p) as [| y l IH]; [easy |]. cbn [filter]. replace (among (x :: xs) y) with ((y =? x) || among xs y) by reflexivity.
        destruct (y =? x); cbn [negb orb filter]; [easy |]. destruct (among xs y); cbn [negb]; now rewrite IH.
Qed.
(** Then the call always passes: exactly the sets that were not deleted remain linked. *)
Theorem C157_after_delete_set ops xs sets : allowed_run no_sets ops -> covers sets (ideal_run no_sets ops) -> ~ In 0 xs ->
  exists n0, forall f0, n0 <= f0 -> exists t t1 mk, run f0 no_links ops = Some t /\ delete_sets f0 t (fun _ => false) xs = Some (t1, mk) /\
    (forall h, mk h = true <-> In h xs) /\
    exists n, forall f, n <= f -> exists t', unlink_all mk f t1 sets = Some t' /\ observed t' (remaining mk (ideal_run no_sets ops)).
Proof.
  intros A (C0 & C) Z. destruct (run_ranked ops no_sets) as (n0 & Hn). set (g := ideal_run no_sets ops) in *.
  exists (Nat.max n0 (list_max (map (fun p => length (ch g p)) sets))). intros f0 Hf0.
  destruct (Hn f0 ltac:(lia) no_links inv_none ranked_none A) as (t & E & I & K). fold g in I.
  destruct (delete_sets_ok f0 xs t g (fun _ => false)) as (t1 & mk & g1 & E1 & I1 & K1 & M1 & M2 & Ch); auto; [| easy |].
  { intros p Hp. destruct (ch g p) as [| x r] eqn:Ec; [cbn [length]; lia |]. rewrite <- Ec. assert (In p sets) as P by (apply C; [easy | now rewrite Ec]).
    assert (length (ch g p) <= list_max (map (fun p => length (ch g p)) sets)); [| lia].
    pose proof (proj1 (list_max_le (map (fun p => length (ch g p)) sets) _) (Nat.le_refl _)) as Q. rewrite Forall_forall in Q. apply Q. apply in_map_iff. now exists p. }
  exists t, t1, mk. split; [easy |]. split; [easy |]. cbn [orb] in M2.
  assert (Mi : forall h, mk h = true <-> In h xs).
  { intros h. rewrite M2. unfold among. rewrite existsb_exists. split; [intros (y & Y1 & Y2); apply Nat.eqb_eq in Y2; congruence | intros Y; exists h; split; [easy | apply Nat.eqb_refl]]. }
  split; [easy |]. destruct K1 as (rk & K1).
  destruct (unlink_all_final mk rk t1 g1 sets I1 K1) as (n & Q).
  - intros x _ _ Mx. now apply M1.
  - intros p x Hp _ Hx. destruct (mk x) eqn:Mx; [| easy]. apply M1 in Mx. destruct I1 as (_ & _ & I3 & _). apply I3 in Hx; [congruence | easy].
  - easy.
  - intros p Hp Hc. apply C; [easy |]. intros W. rewrite Ch, W in Hc by easy. now apply Hc.
  - intros p x Hp Hx. rewrite Ch in Hx by easy. apply filter_In in Hx. now apply (C p Hp).
  - exists n. intros f Hf. destruct (Q f Hf) as (t' & c & Q1 & Q2 & Q3). exists t'. split; [easy |]. apply (observed_any t' c); [easy |].
    intros p Hp. rewrite Q3, Ch by easy. cbn [remaining ch]. destruct (mk p); [easy |]. clear - M2. induction (ch g p) as [| y l IH]; [easy |]. cbn [filter]. rewrite (M2 y).
    destruct (among xs y) eqn:Y; cbn [negb filter]; [easy |]. rewrite M2, Y. cbn [negb]. now rewrite IH.
Qed.
Example C157_nonvacuous :
  option_map (fun t => option_map (fun r => option_map (fun t' => (walk 9 t' (chi t' 1), walk 9 t' (chi t' 3), par t' 5)) (unlink_all (snd r) 9 (fst r) [1; 2; 3; 4; 5; 6])) (delete_sets 9 t (fun _ => false) [2; 3]))
    (run 9 no_links [AddChild 1 2; AddChild 1 3; AddChild 1 4; AddChild 3 5; AddChild 3 6]) = Some (Some (Some (Some [4], Some [], 0))).
Proof. reflexivity. Qed.
(** the sets 2 and 4 marked under an unmarked parent, 5 marked without children *)
Example C157_nonvacuous_marked :
  option_map (fun t => option_map (fun t' => (walk 9 t' (chi t' 1), par t' 2, par t' 4)) (unlink_all (fun h => (h =? 2) || (h =? 4)) 9 t [1; 2; 3; 4]))
    (run 9 no_links [AddChild 1 2; AddChild 1 3; AddChild 1 4]) = Some (Some (Some [3], 0, 0)).
Proof. reflexivity. Qed.

(** A marked set with a marked second child: the first child leaves and then asks its former
    sibling to leave as well, an assertion fails. *)
Theorem C157_marked_child_refuted : exists t, run 9 no_links [AddChild 5 1; AddChild 5 2] = Some t /\
  forall f, unlink_all (fun h => (h =? 5) || (h =? 2)) f t [1; 2; 5] = None.
Proof.
  eexists. split; [reflexivity |]. intros f. cbn [unlink_all]. destruct f as [| [| f]]; [reflexivity | reflexivity |]. reflexivity.
Qed.
(** The outcome depends on the numbers of the sets. *)
Theorem C157_marked_child_order : exists t, run 9 no_links [AddChild 5 1; AddChild 5 2] = Some t /\
  option_map (fun t' => (chi t' 5, par t' 1, par t' 2)) (unlink_all (fun h => (h =? 5) || (h =? 2)) 9 t [2; 1; 5]) = Some (0, 0, 0).
Proof. eexists. split; reflexivity. Qed.
(** A set that left its parent earlier keeps its sibling: marking the sibling makes the call fail. *)
Theorem C157_former_sibling_refuted : exists t, run 9 no_links [AddChild 5 1; AddChild 5 2; RemChild 5 1] = Some t /\
  forall f, unlink_all (fun h => h =? 2) f t [1; 2; 5] = None.
Proof. eexists. split; [reflexivity |]. intros f. destruct f as [| [| f]]; reflexivity. Qed.
(** The children of a deleted set keep their siblings: put under another set they bring them
    along, although these have no parent. *)
Theorem C157_orphans_refuted : exists t t1 mk t2 t3, run 9 no_links [AddChild 5 1; AddChild 5 2] = Some t /\
  delete_sets 9 t (fun _ => false) [5] = Some (t1, mk) /\ unlink_all mk 9 t1 [1; 2; 5; 6] = Some t2 /\
  par t2 1 = 0 /\ par t2 2 = 0 /\ add_child 9 t2 6 1 = Some t3 /\ walk 9 t3 (chi t3 6) = Some [1; 2] /\ par t3 2 = 0.
Proof. do 5 eexists. repeat split; reflexivity. Qed.

(** * C158: elements of a set *)

(** Exactly the marked elements leave the set; the others stay in their positions, the freed
    positions are recorded once each, and the size is the number of elements if it was. *)
Theorem C158_elements mk s f : length (lc s) < f -> exists s', purge_set mk (fun _ => false) f s = Some s' /\
  length (lc s') = length (lc s) /\ srtd s' = srtd s /\
  (forall i, nth i (lc s') 0 = let h := nth i (lc s) 0 in if negb (h =? 0) && mk h then 0 else h) /\
  (exists new, holes s' = new ++ holes s /\ NoDup new /\ forall i, In i new <-> nth i (lc s) 0 <> 0 /\ mk (nth i (lc s) 0) = true).
Proof.
  intros Hf. eexists. split; [now apply purge_set_ok |]. cbn [lc holes srtd]. split; [apply map_length |]. split; [easy |]. split.
  - intros i. pose proof (map_nth (fun h => if negb (h =? 0) && mk h then 0 else h) (lc s) 0 i) as P. exact P.
  - exists (gone mk 0 (lc s)). split; [easy |]. split.
    + assert (G : forall l i, NoDup (gone mk i l)); [| apply G]. induction l as [| h l IH]; intros i; cbn [gone]; [constructor |]. destruct (negb (h =? 0) && mk h); [| apply IH].
      apply nodup_snoc; [apply IH |]. intros Q. apply gone_in in Q. lia.
    + intros i. rewrite gone_in. rewrite Nat.sub_0_r. split; [tauto |]. intros (A & B). repeat split; try lia; auto.
      destruct (Nat.lt_ge_cases i (length (lc s))); [easy |]. rewrite nth_overflow in A by lia. contradiction.
Qed.
Definition members (s : eset) : list nat := filter (fun h => negb (h =? 0)) (lc s).
Theorem C158_members mk s f s' : length (lc s) < f -> purge_set mk (fun _ => false) f s = Some s' ->
  members s' = filter (fun h => negb (mk h)) (members s) /\ (size s = length (members s) -> length (holes s) <= length (lc s) -> size s' = length (members s')).
Proof.
  intros Hf E. rewrite purge_set_ok in E by easy. injection E as <-. unfold members, size. cbn [lc holes].
  assert (M : filter (fun h => negb (h =? 0)) (wipe mk (lc s)) = filter (fun h => negb (mk h)) (filter (fun h => negb (h =? 0)) (lc s))).
  { generalize (lc s). intros l. induction l as [| h l IH]; [easy |]. cbn [wipe map]. fold (wipe mk l). destruct (Nat.eqb_spec h 0) as [-> | N]; cbn [negb andb filter Nat.eqb]; [easy |].
    destruct (Nat.eqb_spec h 0); [contradiction |]. cbn [negb filter]. destruct (mk h); cbn [filter negb Nat.eqb]; [easy |]. destruct (Nat.eqb_spec h 0); [contradiction |]. cbn [negb]. now rewrite IH. }
  split; [exact M |]. rewrite M.
  assert (G : forall l i, length (gone mk i l) + length (filter (fun h => negb (mk h)) (filter (fun h => negb (h =? 0)) l)) = length (filter (fun h => negb (h =? 0)) l)).
  { induction l as [| h l IH]; intros i; [easy |]. cbn [gone filter]. destruct (Nat.eqb_spec h 0); cbn [negb andb]; [apply IH |]. cbn [filter]. destruct (mk h); cbn [negb]; [rewrite app_length |]; cbn [length]; specialize (IH (S i)); lia. }
  intros S L. rewrite app_length. unfold wipe. rewrite map_length. specialize (G (lc s) 0). lia.
Qed.
Example C158_nonvacuous : purge_set (fun h => h <? 5) (fun _ => false) 9 (ESet [0; 3; 7; 0; 4; 9; 2] [3; 0] 0) = Some (ESet [0; 0; 7; 0; 0; 9; 0] [6; 4; 1; 3; 0] 0).
Proof. reflexivity. Qed.

Print Assumptions C156_references.
Print Assumptions C156_none_left.
Print Assumptions C157_hierarchy.
Print Assumptions C157_after_delete_set.
Print Assumptions C157_marked_child_refuted.
Print Assumptions C157_marked_child_order.
Print Assumptions C157_former_sibling_refuted.
Print Assumptions C157_orphans_refuted.
Print Assumptions C158_elements.
Print Assumptions C158_members.
