(** Property C26: the hierarchy of sets. *)
From Coq Require Import List Bool Arith Lia.
From Verif Require Import SetTree_Model SetTree_Proofs.
Import ListNotations.

(** ** Histories. The first argument of the calls on a sibling, and of Destroy,
    is the parent involved (0: none); it is not passed to the code. *)
Inductive op :=
| Create (h : nat)
| AddChild (p c : nat)
| AddSibling (p a c : nat)    (* a.AddSibling(c), a a child of p *)
| RemChild (p c : nat)
| RemSibling (p a c : nat)    (* a.RemSibling(c), a a child of p *)
| Destroy (q h : nat).        (* h a child of q *)

Definition step (f : nat) (t : tree) (o : op) : option tree :=
  match o with
  | Create h => Some (create t h)
  | AddChild p c => add_child f t p c
  | AddSibling _ a c => add_sibling f t a c
  | RemChild p c => rem_child f t p c
  | RemSibling _ a c => rem_sibling f t a c
  | Destroy _ h => destroy f t h
  end.
Fixpoint run (f : nat) (t : tree) (ops : list op) : option tree :=
  match ops with
  | [] => Some t
  | o :: r => match step f t o with Some t' => run f t' r | None => None end
  end.

(** what the calls should do to the lists of children *)
Definition ideal (g : forest) (o : op) : forest :=
  match o with
  | Create h => with_stale g h false
  | AddChild p c | AddSibling p _ c => i_add g p c
  | RemChild p c | RemSibling p _ c => i_rem g p c
  | Destroy q h => i_destroy g q h
  end.
Definition ideal_run (g : forest) (ops : list op) : forest := fold_left ideal ops g.

(** what the caller must respect. [stale g c = false]: c was not removed from in
    front of a sibling. *)
Definition allowed (g : forest) (o : op) : Prop :=
  match o with
  | Create h => h <> 0 /\ detached g h /\ ch g h = []
  | AddChild p c => p <> 0 /\ c <> 0 /\ detached g c /\ stale g c = false
  | AddSibling p a c => p <> 0 /\ In a (ch g p) /\ c <> 0 /\ detached g c /\ stale g c = false
  | RemChild p c => p <> 0 /\ In c (ch g p)
  | RemSibling p a c => p <> 0 /\ exists l1 l2, ch g p = l1 ++ a :: l2 /\ In c l2
  | Destroy q h => h <> 0 /\ (if q =? 0 then detached g h else In h (ch g q))
  end.
Fixpoint allowed_run (g : forest) (ops : list op) : Prop :=
  match ops with [] => True | o :: r => allowed g o /\ allowed_run (ideal g o) r end.

(** everything the user can observe; [f]: any bound on the recursion large enough *)
Definition observed (t : tree) (g : forest) : Prop :=
  (forall p, p <> 0 ->
     NoDup (ch g p) /\
     (forall x, par t x = p <-> In x (ch g p)) /\
     exists n, forall f, n <= f -> walk f t (chi t p) = Some (ch g p) /\
                                   count_children f t p = Some (length (ch g p))) /\
  (forall x, par t x = 0 <-> detached g x).

Lemma inv_observed : forall t g, inv t g -> observed t g.
Proof.
  intros t g I. pose proof I as [I1 [I2 [I3 _]]]. split.
  - intros p Hp. split; [auto|]. split; [intros x; now apply I3|].
    exists (S (length (ch g p))). intros f Hf. pose proof (I1 p Hp) as C. split.
    + now apply chain_walk.
    + unfold count_children. destruct (ch g p) as [|x l]; cbn [length] in *.
      * cbn in C. now rewrite C.
      * assert (chi t p <> 0) by (cbn in C; destruct C as [-> [C _]]; exact C).
        destruct (Nat.eqb_spec (chi t p) 0); [contradiction|]. apply (chain_count l t _ x f C). lia.
  - intros x. symmetry. now apply inv_detached.
Qed.

(** recursion depth a call needs *)
Definition depth (g : forest) (o : op) : nat :=
  match o with
  | Create _ => 0
  | AddChild p _ | AddSibling p _ _ | RemChild p _ | RemSibling p _ _ => length (ch g p)
  | Destroy q h => S (length (ch g q) + length (ch g h))
  end.

Lemma step_ok : forall t g o f, inv t g -> allowed g o -> depth g o <= f -> exists t',
  step f t o = Some t' /\ inv t' (ideal g o) /\
  ((exists p c, (o = AddChild p c \/ exists a, o = AddSibling p a c) /\
      forall x, par t' x = put (par t) c p x) \/
   (forall x, par t' x = par t x \/ par t' x = 0)).
Proof.
  intros t g o f I A Hf. destruct o as [h|p c|p a c|p c|p a c|q h]; cbn [allowed ideal step depth] in *.
  - destruct A as [A1 [A2 A3]]. destruct (create_ok t g h I A1 A2 A3) as [K1 K2].
    exists (create t h). auto.
  - destruct A as [A1 [A2 [A3 A4]]].
    destruct (add_child_ok t g p c f I A1 A2 A3 A4 Hf) as [t' [E [K1 K2]]]. exists t'. eauto 10.
  - destruct A as [A1 [A5 [A2 [A3 A4]]]].
    destruct (add_sibling_child t g p a c f I A1 A2 A3 A4 A5 Hf) as [t' [E [K1 K2]]]. exists t'. eauto 10.
  - destruct A as [A1 A2]. destruct (rem_child_ok t g p c f I A1 A2 Hf) as [t' [E [K1 [K2 _]]]]. exists t'.
    split; [exact E|]. split; [exact K1|]. right. intros x. rewrite K2. unfold put. destruct (x =? c); auto.
  - destruct A as [A1 [l1 [l2 [A2 A3]]]].
    destruct (rem_sibling_child t g p a c l1 l2 f I A1 A2 A3 Hf) as [t' [E [K1 K2]]]. exists t'.
    split; [exact E|]. split; [exact K1|]. right. intros x. rewrite K2. unfold put. destruct (x =? c); auto.
  - destruct A as [A1 A2]. destruct (destroy_ok t g q h I A1 A2 f) as [t' [E [K1 K2]]]; [lia|]. exists t'. auto.
Qed.

Lemma run_ok : forall ops t g, inv t g -> allowed_run g ops -> exists n, forall f, n <= f ->
  exists t', run f t ops = Some t' /\ inv t' (ideal_run g ops).
Proof.
  assert (N : forall ops g, exists n, forall f, n <= f -> forall t, inv t g -> allowed_run g ops ->
    exists t', run f t ops = Some t' /\ inv t' (ideal_run g ops)).
  { induction ops as [|o ops IH]; intros g.
    - exists 0. intros f _ t I _. exists t. auto.
    - destruct (IH (ideal g o)) as [n Hn]. exists (Nat.max n (depth g o)). intros f Hf t I [A1 A2].
      destruct (step_ok t g o f I A1) as [t' [E [I' _]]]; [lia|]. cbn [run]. rewrite E.
      apply Hn; auto. lia. }
  intros ops t g I A. destruct (N ops g) as [n Hn]. exists n. intros f Hf. now apply Hn.
Qed.

(** ** C26 *)

(** Under any allowed history no assertion fails, no recursion is endless, the
    loop over GetChild and GetSibling lists the ideal children, CountChildren
    counts them, GetParent agrees and no set has two parents. *)
Theorem C26_history : forall ops, allowed_run no_sets ops -> exists n, forall f, n <= f ->
  exists t, run f no_links ops = Some t /\ observed t (ideal_run no_sets ops).
Proof.
  intros ops A. destruct (run_ok ops no_links no_sets inv_none A) as [n Hn]. exists n. intros f Hf.
  destruct (Hn f Hf) as [t [E I]]. exists t. split; [exact E|]. now apply inv_observed.
Qed.
Print Assumptions C26_history.

Definition ex_ops : list op :=
  [AddChild 1 2; AddChild 1 3; AddSibling 1 2 4; AddChild 3 5; RemChild 1 4; AddChild 5 4;
   RemSibling 1 2 3; Destroy 1 2; Create 2; AddChild 3 2; Destroy 0 3].
Example C26_nonvacuous : allowed_run no_sets ex_ops /\
  option_map (fun t => (walk 9 t (chi t 5), par t 4, par t 5, sib t 5)) (run 9 no_links ex_ops) =
    Some (Some [4], 5, 0, 2) /\
  stale (ideal_run no_sets ex_ops) 5 = true /\ stale (ideal_run no_sets ex_ops) 2 = false.
Proof.
  split; [|repeat split].
  cbn -[Nat.eqb]. unfold detached. cbn -[Nat.eqb In].
  repeat match goal with
  | |- _ /\ _ => split
  | |- _ <> _ => discriminate
  | |- True => exact I
  | |- forall p, p <> 0 -> ~ _ => intros [|[|[|[|[|[|?]]]]]] ?; cbn; intuition discriminate
  | |- exists l1 l2, _ => exists [], [3]; cbn; auto
  | |- In _ _ => cbn; auto
  | |- _ = _ => reflexivity
  | |- if ?b then _ else _ => change b with true || change b with false; cbv iota
  end.
Qed.

(** A set that has a parent is not taken, a set that is not a child is not removed. *)
Theorem C26_rejected : forall t g p c f, inv t g -> p <> 0 ->
  (~ detached g c -> add_child f t p c = None) /\
  (forall a, ~ detached g c -> add_sibling f t a c = None) /\
  (~ In c (ch g p) -> rem_child f t p c = None).
Proof.
  intros t g p c f I Hp.
  assert (D : ~ detached g c -> par t c <> 0).
  { intros D E. apply D. now apply (inv_detached t g c I). }
  assert (S : forall a, ~ detached g c -> add_sibling f t a c = None).
  { intros a Hd. specialize (D Hd). clear Hd. revert a. induction f as [|f IH]; intros a; cbn [add_sibling]; [reflexivity|].
    destruct (par t a =? 0); [reflexivity|]. destruct (sib t a =? 0); [|apply IH].
    destruct (Nat.eqb_spec (par t c) 0); [contradiction|reflexivity]. }
  split; [|split; [exact S|]].
  - intros Hd. unfold add_child. destruct (chi t p =? 0); [|auto].
    destruct (Nat.eqb_spec (par t c) 0); [apply D in Hd; contradiction|reflexivity].
  - intros Hn. destruct I as [I1 _]. pose proof (I1 p Hp) as C. unfold rem_child.
    destruct (ch g p) as [|x l]; cbn [chain] in C; [rewrite C; reflexivity|].
    destruct C as [-> [Nx C]]. cbn [In] in Hn. destruct (Nat.eqb_spec x 0); [contradiction|].
    destruct (Nat.eqb_spec x c); [intuition|]. assert (~ In c l) as Hl by intuition. clear Hn. rename Hl into Hn. clear - C Hn.
    revert l x C Hn. induction f as [|f IH]; intros l x C Hn; cbn [rem_sibling]; [reflexivity|].
    destruct l as [|y l]; cbn [chain] in C; [rewrite C; reflexivity|]. destruct C as [-> [Ny C]].
    destruct (Nat.eqb_spec y 0); [contradiction|]. cbn [In] in Hn.
    destruct (Nat.eqb_spec y c); [intuition|]. apply (IH l); [exact C|intuition].
Qed.
Print Assumptions C26_rejected.
Example C26_rejected_nonvacuous :
  option_map (fun t => (add_child 9 t 4 3, add_sibling 9 t 5 3, rem_child 9 t 4 3))
    (run 9 no_links [AddChild 1 2; AddChild 1 3; AddChild 4 5]) = Some (None, None, None).
Proof. reflexivity. Qed.

(** Following GetParent ends, if no set is put under itself or under one of
    its descendants. *)
Fixpoint no_loops (g : forest) (ops : list op) : Prop :=
  match ops with
  | [] => True
  | o :: r => (forall p c, o = AddChild p c \/ (exists a, o = AddSibling p a c) -> ~ below g c p) /\
              no_loops (ideal g o) r
  end.
Theorem C26_forest : forall ops, allowed_run no_sets ops -> no_loops no_sets ops ->
  exists n, forall f, n <= f -> exists t, run f no_links ops = Some t /\ forall x, ends (par t) x.
Proof.
  assert (N : forall ops g, exists n, forall f, n <= f -> forall t, inv t g -> (forall x, ends (par t) x) ->
    allowed_run g ops -> no_loops g ops ->
    exists t', run f t ops = Some t' /\ forall x, ends (par t') x).
  { induction ops as [|o ops IH]; intros g.
    - exists 0. intros f _ t I E _ _. exists t. auto.
    - destruct (IH (ideal g o)) as [n Hn]. exists (Nat.max n (depth g o)). intros f Hf t I E [A1 A2] [L1 L2].
      destruct (step_ok t g o f I A1) as [t' [Et [I' P]]]; [lia|]. cbn [run]. rewrite Et.
      apply Hn; auto; [lia|]. destruct P as [[p [c [Ho P]]]|P].
      + apply (ends_add t t' g p c I P); auto.
      + intros x. apply (ends_cut (par t)); auto. }
  intros ops A L. destruct (N ops no_sets) as [n Hn]. exists n. intros f Hf. apply Hn; auto.
  - apply inv_none.
  - intros x. constructor. constructor.
Qed.
Print Assumptions C26_forest.
Example C26_forest_nonvacuous : no_loops no_sets [AddChild 1 2; AddChild 2 3; RemChild 1 2; AddChild 3 1].
Proof.
  assert (K : forall g c p, (forall x, In x (ch g c) -> x <> p /\ ch g x = []) -> c <> p -> ~ below g c p).
  { intros g c p H N B. induction B as [|p x Hp B IH Hx]; [contradiction|].
    assert (C : forall y, below g c y -> y = c \/ In y (ch g c)).
    { clear - H. intros y By. induction By as [|q y Hq By IHy Hy]; [auto|]. destruct IHy as [->|IHy]; [auto|].
      apply H in IHy. destruct IHy as [_ IHy]. rewrite IHy in Hy. contradiction. }
    destruct (C p B) as [->|D].
    - apply H in Hx. now apply (proj1 Hx).
    - apply H in D. destruct D as [_ D]. now rewrite D in Hx. }
  cbn [no_loops]. repeat split; intros p c [E|[a E]]; try discriminate; injection E as <- <-;
    apply K; cbn; try discriminate; intuition (subst; try discriminate; auto).
Qed.

(** Nothing in the code prevents it: a set may become its own child. *)
Theorem C26_own_child_refuted :
  ~ (forall ops f t x, allowed_run no_sets ops -> run f no_links ops = Some t -> ends (par t) x).
Proof.
  intros H. assert (A : allowed_run no_sets [AddChild 1 1]).
  { cbn. unfold detached. cbn. intuition discriminate. }
  specialize (H _ 1 _ 1 A eq_refl).
  set (t := set_chi (set_par no_links 1 1) 1 1) in H.
  assert (K : forall x, ends (par t) x -> x <> 1).
  { intros x E. induction E as [|x E IH]; [discriminate|]. intros ->. now apply IH. }
  now apply (K 1).
Qed.
Print Assumptions C26_own_child_refuted.

(** Re-attaching a set removed from in front of siblings takes them along: if
    following the siblings of c gives d, then the children of q become its old
    children, c and all of d. *)
Theorem C26_reattach : forall t q c l d f, q <> 0 -> c <> 0 -> par t c = 0 ->
  chain (sib t) (chi t q) l -> (forall x, In x l -> par t x = q) -> NoDup l ->
  chain (sib t) (sib t c) d -> ~ In c l -> ~ In c d -> (forall x, In x l -> ~ In x d) ->
  length l <= f ->
  exists t', add_child f t q c = Some t' /\ forall f', length l + length d + 1 < f' ->
    walk f' t' (chi t' q) = Some (l ++ c :: d).
Proof.
  intros t q c l d f Hq Hc Pc C Pl N Cd Hcl Hcd Hld Hf. unfold add_child.
  destruct l as [|x0 l0] eqn:El.
  - cbn in C. rewrite C, Pc. cbn [Nat.eqb]. eexists. split; [reflexivity|]. intros f' Hf'.
    apply chain_walk; [|cbn in *; lia]. cbn. rewrite put_eq. auto.
  - rewrite <- El in *. assert (chi t q <> 0) by (rewrite El in C; cbn in C; destruct C as [-> [C _]]; exact C).
    destruct (Nat.eqb_spec (chi t q) 0); [contradiction|].
    destruct (exists_last (l := l)) as [l1 [a Ea]]; [congruence|]. rewrite Ea in C.
    rewrite (add_sibling_ok l1 t (chi t q) a c q f C); auto.
    + eexists. split; [reflexivity|]. intros f' Hf'. apply chain_walk.
      * cbn [set_par set_sib sib chi]. rewrite Ea, <- app_assoc. cbn [app].
        rewrite Ea in N. apply (chain_replace l1 (sib t) (chi t q) a [] c (c :: d) N C).
        cbn [chain]. rewrite put_ne.
        -- split; [reflexivity|]. split; [exact Hc|]. apply chain_put; auto. apply Hld. rewrite Ea, in_app_iff. cbn. auto.
        -- intros ->. apply Hcl. rewrite Ea, in_app_iff. cbn. auto.
      * rewrite app_length. cbn. lia.
    + intros x Hx. apply Pl. now rewrite Ea.
    + rewrite Ea, app_length in Hf. cbn in Hf. lia.
Qed.
Print Assumptions C26_reattach.
Example C26_reattach_nonvacuous :
  option_map (fun t => (walk 9 t (chi t 4), par t 3, par t 2))
    (run 9 no_links [AddChild 1 2; AddChild 1 3; AddChild 4 5; RemChild 1 2; AddChild 4 2]) =
  Some (Some [5; 2; 3], 1, 4).
Proof. reflexivity. Qed.

(** So a set gets two parents: its GetParent is p, yet q lists it. *)
Theorem C26_reattach_refuted :
  ~ (forall t g q c f t' x, inv t g -> q <> 0 -> c <> 0 -> detached g c -> add_child f t q c = Some t' ->
     (exists l, walk f t' (chi t' q) = Some l /\ In x l) -> par t' x = q).
Proof.
  intros H.
  assert (A : allowed_run no_sets [AddChild 1 2; AddChild 1 3; RemChild 1 2]).
  { cbn. unfold detached. cbn. repeat split; try discriminate; auto;
      intros [|[|?]] ?; cbn; intuition discriminate. }
  destruct (run_ok _ no_links no_sets inv_none A) as [n Hn].
  destruct (Hn (n + 9) ltac:(lia)) as [t [E I]].
  replace (n + 9) with (S (S (n + 7))) in E by lia.
  cbn -[Nat.add] in E. injection E as <-.
  pose proof (fun t' => H _ _ 4 2 5 t' 3 I ltac:(discriminate) ltac:(discriminate)) as H1. clear H.
  assert (D : detached (ideal_run no_sets [AddChild 1 2; AddChild 1 3; RemChild 1 2]) 2).
  { intros p _. cbn. destruct p as [|[|?]]; cbn; intuition discriminate. }
  specialize (H1 _ D eq_refl). cbn in H1.
  assert (K : 1 = 4); [|discriminate]. apply H1. eexists. split; [reflexivity|]. cbn. auto.
Qed.
Print Assumptions C26_reattach_refuted.

(** Removing the first of several children and adding it again closes a ring:
    the loop over the children and CountChildren do not end. *)
Theorem C26_ring : forall t g p c d r f, inv t g -> p <> 0 -> ch g p = c :: d :: r ->
  length (ch g p) <= f ->
  exists t1 t2, rem_child f t p c = Some t1 /\ add_child f t1 p c = Some t2 /\
    forall f', walk f' t2 (chi t2 p) = None /\ count_children f' t2 p = None.
Proof.
  intros t g p c d r f I Hp E Hf.
  assert (Hc : In c (ch g p)) by (rewrite E; now left).
  pose proof (inv_nz t g p c I Hp Hc) as Nc.
  pose proof I as [I1 [I2 [I3 _]]]. pose proof (I1 p Hp) as C. pose proof (I2 p Hp) as N.
  rewrite E in C, N. cbn [chain] in C. destruct C as [C1 [_ [C2 [C3 C4]]]].
  assert (E1 : rem_child f t p c = Some (set_chi (set_par t c 0) p d)).
  { unfold rem_child. rewrite C1. destruct (Nat.eqb_spec c 0); [contradiction|]. rewrite Nat.eqb_refl.
    rewrite (inv_par t g p c I Hp Hc), Nat.eqb_refl. cbn [set_par sib]. now rewrite C2. }
  set (t1 := set_chi (set_par t c 0) p d) in *.
  destruct (exists_last (l := d :: r)) as [l [a Ea]]; [discriminate|].
  assert (Nca : ~ In c (l ++ [a])) by (rewrite <- Ea; inversion N; auto).
  assert (E2 : add_child f t1 p c = Some (set_par (set_sib t1 a c) c p)).
  { unfold add_child. assert (chi t1 p = d) by (cbn; apply put_eq). rewrite H.
    destruct (Nat.eqb_spec d 0); [contradiction|].
    apply (add_sibling_ok l t1 d a c p f); auto.
    - rewrite <- Ea. cbn. auto.
    - intros x Hx. cbn. rewrite put_ne by (intros ->; contradiction). apply I3; auto.
      rewrite E. right. now rewrite Ea.
    - cbn. apply put_eq.
    - rewrite E in Hf. change (c :: d :: r) with ([c] ++ d :: r) in Hf.
      rewrite Ea, !app_length in Hf. cbn in Hf. lia. }
  set (t2 := set_par (set_sib t1 a c) c p) in *.
  exists t1, t2. split; [exact E1|]. split; [exact E2|].
  (* every element of the ring has a sibling in the ring *)
  assert (Ring : forall x, In x (c :: d :: r) -> x <> 0 /\ In (sib t2 x) (c :: d :: r)).
  { intros x Hx. split; [apply (inv_nz t g p x I Hp); now rewrite E|].
    destruct (Nat.eq_dec x a) as [->|Nx].
    - cbn. rewrite put_eq. now left.
    - cbn [t2 set_par set_sib sib]. rewrite put_ne by auto. cbn [t1 set_chi set_par sib].
      assert (C : chain (sib t) c (c :: l ++ [a])) by (rewrite <- Ea; cbn [chain]; auto).
      rewrite Ea in Hx |- *. clear - C Hx Nx. 
      assert (G : forall l h, chain (sib t) h (l ++ [a]) -> In x (l ++ [a]) -> In (sib t x) (l ++ [a])).
      { clear - Nx. induction l as [|y l IH]; intros h C Hx; cbn [app] in *.
        - destruct Hx as [Hx|[]]. congruence.
        - cbn [chain] in C. destruct C as [-> [Ny C]]. destruct Hx as [<-|Hx].
          + right. destruct l as [|z l]; cbn [app chain] in *; destruct C as [-> _]; now left.
          + right. eauto. }
      apply (G (c :: l) c C Hx). }
  assert (W : forall f' x, In x (c :: d :: r) -> walk f' t2 x = None /\ count_siblings f' t2 x = None).
  { induction f' as [|f' IH]; intros x Hx; [auto|]. destruct (Ring x Hx) as [R1 R2]. cbn [walk count_siblings].
    destruct (Nat.eqb_spec x 0); [contradiction|]. destruct (Ring _ R2) as [R3 _].
    destruct (Nat.eqb_spec (sib t2 x) 0); [contradiction|]. destruct (IH _ R2) as [-> ->]. auto. }
  assert (Ch : chi t2 p = d) by (cbn; apply put_eq).
  intros f'. unfold count_children. rewrite Ch. destruct (Nat.eqb_spec d 0); [contradiction|].
  apply W. right. now left.
Qed.
Print Assumptions C26_ring.
Example C26_ring_nonvacuous :
  option_map (fun t => (count_children 100 t 1, sib t 2, sib t 3))
    (run 9 no_links [AddChild 1 2; AddChild 1 3; RemChild 1 2; AddChild 1 2]) = Some (None, 3, 2).
Proof. reflexivity. Qed.

(** DeleteSetTree deletes exactly the sets of the tree, every set after its
    descendants, takes the root out of its parent and leaves the rest. *)
Theorem C26_delete_tree : forall t g q r, inv t g -> fits t r -> NoDup (handles r) ->
  (if q =? 0 then detached g (root r) else In (root r) (ch g q) /\ ~ In q (handles r)) ->
  exists n, forall f, n <= f -> exists t', delete_tree f t (root r) = Some (t', handles r) /\
    (forall x, ~ In x (handles r) -> par t' x = par t x) /\
    (forall p, p <> 0 -> ~ In p (handles r) -> exists k, forall f', k <= f' ->
       walk f' t' (chi t' p) = Some (if p =? q then but (root r) (ch g p) else ch g p)).
Proof.
  intros t g q r I F N Hq. exists (weight r + length (ch g q)). intros f Hf.
  destruct (delete_tree_ok t g q r f I F N Hq Hf) as [t' [E [P C]]]. exists t'.
  split; [exact E|]. split; [exact P|]. intros p Hp Hn. eexists. intros f' Hf'.
  apply chain_walk; [now apply C|exact Hf'].
Qed.
Print Assumptions C26_delete_tree.
Example C26_delete_tree_nonvacuous :
  option_map (fun t => option_map (fun r => (snd r, walk 9 (fst r) (chi (fst r) 1))) (delete_tree 20 t 3))
    (run 9 no_links [AddChild 1 2; AddChild 1 3; AddChild 1 4; AddChild 3 5; AddChild 3 6; AddChild 5 7]) =
  Some (Some ([7; 5; 6; 3], Some [2; 4])) /\
  handles (Rose 3 [Rose 5 [Rose 7 []]; Rose 6 []]) = [7; 5; 6; 3].
Proof. repeat split. Qed.
