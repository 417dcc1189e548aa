(** The hierarchy of sets refines lists of children. *)
From Coq Require Import List Bool Arith Lia.
From Verif Require Import SetTree_Model.
Import ListNotations.

(** following [s] from [h] meets the sets of [l] and ends *)
Fixpoint chain (s : nat -> nat) (h : nat) (l : list nat) : Prop :=
  match l with
  | [] => h = 0
  | x :: r => h = x /\ x <> 0 /\ chain s (s x) r
  end.

Lemma put_eq : forall f h v, put f h v h = v.
Proof. intros. unfold put. now rewrite Nat.eqb_refl. Qed.
Lemma put_ne : forall f h v x, x <> h -> put f h v x = f x.
Proof. intros. unfold put. now destruct (Nat.eqb_spec x h). Qed.

Lemma chain_put : forall l s a v h, ~ In a l -> (chain (put s a v) h l <-> chain s h l).
Proof.
  induction l as [|x l IH]; intros s a v h Hn; cbn [chain]; [reflexivity|]. cbn [In] in Hn.
  rewrite put_ne by intuition. rewrite IH by intuition. reflexivity.
Qed.

Lemma chain_app : forall l s h r, chain s h (l ++ r) ->
  exists h', chain s h' r /\ (l = [] -> h' = h) /\ (forall q a, l = q ++ [a] -> h' = s a).
Proof.
  induction l as [|x l IH]; intros s h r H; cbn [app chain] in H.
  - exists h. split; [exact H|]. split; [reflexivity|]. intros q a E. destruct q; discriminate.
  - destruct H as [-> [_ H]]. destruct (IH _ _ _ H) as [h' [H1 [H2 H3]]]. exists h'. split; [exact H1|].
    split; [discriminate|]. intros q a E. destruct q as [|y q]; cbn [app] in E; injection E as -> ->.
    + now rewrite H2.
    + now apply (H3 q).
Qed.

Lemma chain_replace : forall l s h a r v r', NoDup (l ++ [a]) ->
  chain s h (l ++ a :: r) -> chain (put s a v) v r' -> chain (put s a v) h (l ++ a :: r').
Proof.
  induction l as [|x l IH]; intros s h a r v r' N H1 H2; cbn [app chain] in *.
  - destruct H1 as [-> [H1 _]]. rewrite put_eq. auto.
  - destruct H1 as [-> [Hx H1]]. inversion N as [|? ? N1 N2]; subst.
    rewrite put_ne by (intros ->; apply N1, in_app_iff; cbn; auto).
    split; [reflexivity|]. split; [exact Hx|]. eapply IH; eauto.
Qed.

Lemma chain_nz : forall l s h x, chain s h l -> In x l -> x <> 0.
Proof.
  induction l as [|y l IH]; intros s h x H Hx; [contradiction|]. cbn [chain] in H.
  destruct H as [-> [H1 H2]]. destruct Hx as [<-|Hx]; eauto.
Qed.

Lemma chain_walk : forall l t h f, chain (sib t) h l -> length l < f -> walk f t h = Some l.
Proof.
  induction l as [|x l IH]; intros t h f H Hf; (destruct f as [|f]; [lia|]); cbn [chain walk] in *.
  - now subst.
  - destruct H as [-> [H1 H2]]. destruct (Nat.eqb_spec x 0); [contradiction|].
    cbn [length] in Hf. rewrite (IH t (sib t x) f H2) by lia. reflexivity.
Qed.

Lemma chain_count : forall l t h x f, chain (sib t) h (x :: l) -> length l < f ->
  count_siblings f t h = Some (S (length l)).
Proof.
  induction l as [|y l IH]; intros t h x f H Hf; (destruct f as [|f]; [lia|]); cbn [count_siblings].
  - cbn [chain] in H. destruct H as [-> [_ H]]. rewrite H. reflexivity.
  - cbn [chain] in H. destruct H as [-> [_ H]]. pose proof H as [H1 [H2 _]].
    rewrite H1. destruct (Nat.eqb_spec y 0); [contradiction|]. rewrite H1 in H.
    cbn [length] in Hf. rewrite (IH t y y f H) by lia. reflexivity.
Qed.

Lemma add_sibling_ok : forall l t h a c p f, chain (sib t) h (l ++ [a]) ->
  (forall x, In x (l ++ [a]) -> par t x = p) -> p <> 0 -> par t c = 0 -> length l < f ->
  add_sibling f t h c = Some (set_par (set_sib t a c) c p).
Proof.
  induction l as [|x l IH]; intros t h a c p f H Hp Np Hc Hf; (destruct f as [|f]; [lia|]);
    cbn [add_sibling app chain length] in *.
  - destruct H as [-> [_ H]]. rewrite H, Hp by (cbn; auto).
    destruct (Nat.eqb_spec p 0); [contradiction|]. cbn [Nat.eqb]. rewrite Hc. cbn [Nat.eqb].
    cbn [set_sib par]. now rewrite Hp by (cbn; auto).
  - destruct H as [-> [Nx H]]. rewrite Hp by (cbn; auto). destruct (Nat.eqb_spec p 0); [contradiction|].
    destruct (Nat.eqb_spec (sib t x) 0) as [E|E].
    + exfalso. rewrite E in H. destruct l; cbn in H; destruct H as [<- [H _]]; now apply H.
    + apply IH; auto; try lia. intros y Hy. apply Hp. now right.
Qed.

Lemma rem_sibling_ok : forall l t h a c r p f, chain (sib t) h (l ++ a :: c :: r) ->
  NoDup (l ++ a :: c :: r) ->
  (forall x, In x (l ++ a :: c :: r) -> par t x = p) -> length l < f ->
  rem_sibling f t h c = Some (set_sib (set_par t c 0) a (sib t c)).
Proof.
  induction l as [|x l IH]; intros t h a c r p f H N Hp Hf; (destruct f as [|f]; [lia|]);
    cbn [rem_sibling app chain length] in *.
  - destruct H as [-> [_ [H [Hc _]]]]. rewrite H. destruct (Nat.eqb_spec c 0); [contradiction|].
    rewrite Nat.eqb_refl, !Hp by (cbn; auto). now rewrite Nat.eqb_refl.
  - destruct H as [-> [Nx H]]. inversion N as [|? ? N1 N2]; subst.
    assert (E : exists y q, l ++ a :: c :: r = y :: q /\ y <> 0 /\ sib t x = y /\ y <> c).
    { destruct l as [|y l]; cbn [app chain] in *.
      - exists a, (c :: r). destruct H as [H1 [H2 _]]. repeat split; auto.
        intros ->. inversion N2; subst. apply H3. now left.
      - exists y, (l ++ a :: c :: r). destruct H as [H1 [H2 _]]. repeat split; auto.
        intros ->. inversion N2; subst. apply H3. apply in_app_iff. cbn. auto. }
    destruct E as [y [q [Eq [E1 [E2 E3]]]]].
    destruct (Nat.eqb_spec (sib t x) 0); [congruence|]. destruct (Nat.eqb_spec (sib t x) c); [congruence|].
    apply (IH t (sib t x) a c r p); auto; [|lia]. intros z Hz. apply Hp. now right.
Qed.

(** ** the ideal forest: children in order; [stale]: a detached set that still
    points at a sibling *)
Record forest := Forest { ch : nat -> list nat; stale : nat -> bool }.
Definition no_sets : forest := Forest (fun _ => []) (fun _ => false).
Definition with_ch (g : forest) (p : nat) (l : list nat) : forest :=
  Forest (fun x => if x =? p then l else ch g x) (stale g).
Definition with_stale (g : forest) (c : nat) (b : bool) : forest :=
  Forest (ch g) (fun x => if x =? c then b else stale g x).
Definition but (c : nat) (l : list nat) : list nat := filter (fun x => negb (x =? c)) l.

Definition i_add (g : forest) (p c : nat) : forest := with_ch g p (ch g p ++ [c]).
Definition i_rem (g : forest) (p c : nat) : forest :=
  with_stale (with_ch g p (but c (ch g p))) c (negb (last (ch g p) 0 =? c)).
Definition i_drop (g : forest) (h : nat) : forest :=
  Forest (ch (with_ch g h []))
    (fun x => if existsb (Nat.eqb x) (ch g h) then negb (last (ch g h) 0 =? x) else stale g x).
Definition i_destroy (g : forest) (q h : nat) : forest :=
  i_drop (if q =? 0 then g else i_rem g q h) h.

Definition inv (t : tree) (g : forest) : Prop :=
  (forall p, p <> 0 -> chain (sib t) (chi t p) (ch g p)) /\
  (forall p, p <> 0 -> NoDup (ch g p)) /\
  (forall p x, p <> 0 -> (par t x = p <-> In x (ch g p))) /\
  (forall x, x <> 0 -> par t x = 0 -> stale g x = false -> sib t x = 0) /\
  par t 0 = 0.

Lemma inv_ext : forall t g g', (forall x, ch g' x = ch g x) -> (forall x, stale g' x = stale g x) ->
  inv t g -> inv t g'.
Proof.
  intros t g g' E1 E2 [I1 [I2 [I3 [I4 I5]]]]. repeat split; auto.
  - intros p Hp. rewrite E1. auto.
  - intros p Hp. rewrite E1. auto.
  - intros Hx. rewrite E1. now apply I3.
  - rewrite E1. now apply I3.
  - intros x. rewrite E2. auto.
Qed.

Lemma inv_none : inv no_links no_sets.
Proof.
  split; [intros; reflexivity|]. split; [intros; constructor|]. split; [|split; auto].
  intros p x Hp. cbn. intuition.
Qed.

(** children have the parent, so chains of different parents are disjoint *)
Lemma inv_par : forall t g p x, inv t g -> p <> 0 -> In x (ch g p) -> par t x = p.
Proof. intros t g p x [_ [_ [I3 _]]] Hp Hx. now apply I3. Qed.
Lemma inv_nz : forall t g p x, inv t g -> p <> 0 -> In x (ch g p) -> x <> 0.
Proof. intros t g p x [I1 _] Hp Hx. eapply chain_nz; eauto. Qed.

Definition detached (g : forest) (c : nat) : Prop := forall p, p <> 0 -> ~ In c (ch g p).
Lemma inv_detached : forall t g c, inv t g -> (detached g c <-> par t c = 0).
Proof.
  intros t g c [_ [_ [I3 _]]]. split.
  - intros H. destruct (Nat.eq_dec (par t c) 0) as [|N]; auto. exfalso. apply (H (par t c)); auto. now apply I3.
  - intros H p Hp K. apply I3 in K; auto. congruence.
Qed.

Lemma nodup_snoc : forall (l : list nat) c, NoDup l -> ~ In c l -> NoDup (l ++ [c]).
Proof.
  induction l as [|x l IH]; intros c N H; cbn [app]; [repeat constructor; auto|].
  inversion N; subst. cbn [In] in H. constructor.
  - rewrite in_app_iff. cbn. intuition.
  - apply IH; intuition.
Qed.

(** the common effect of attaching [c] after [a], or first when [o] = None *)
Lemma attach_inv : forall t g p c t', inv t g -> p <> 0 -> c <> 0 -> detached g c -> stale g c = false ->
  (t' = (match ch g p with
         | [] => set_chi (set_par t c p) p c
         | _ => set_par (set_sib t (last (ch g p) 0) c) c p
         end)) ->
  inv t' (i_add g p c).
Proof.
  intros t g p c t' I Hp Hc Hd Hs ->. pose proof (proj1 (inv_detached t g c I) Hd) as Pc.
  pose proof I as [I1 [I2 [I3 [I4 I5]]]].
  assert (Sc : sib t c = 0) by auto.
  set (t' := match ch g p with [] => _ | _ => _ end).
  assert (Epar : forall x, par t' x = put (par t) c p x)
    by (intros x; unfold t'; destruct (ch g p); reflexivity).
  assert (Echi : forall q, q <> p -> chi t' q = chi t q).
  { intros q Hq. unfold t'. destruct (ch g p); cbn; [now rewrite put_ne|reflexivity]. }
  assert (Eq : chain (sib t') (chi t' p) (ch g p ++ [c]) /\
    (forall q, q <> p -> q <> 0 -> chain (sib t') (chi t' q) (ch g q)) /\
    forall x, par t x = 0 -> sib t' x = sib t x).
  { unfold t'. destruct (ch g p) as [|x0 l0] eqn:El.
    - cbn [app set_chi set_par sib chi]. rewrite put_eq. split; [cbn; auto|]. split.
      + intros q Hq Hq0. rewrite put_ne by auto. auto.
      + auto.
    - rewrite <- El in *. destruct (exists_last (l := ch g p)) as [l [a Ea]]; [congruence|].
      assert (EL : last (ch g p) 0 = a) by (rewrite Ea; apply last_last).
      cbn [set_sib set_par sib chi]. rewrite EL.
      pose proof (I1 p Hp) as C. pose proof (I2 p Hp) as N. rewrite Ea in C, N.
      assert (Ap : par t a = p) by (apply I3; auto; rewrite Ea; apply in_app_iff; cbn; auto).
      split; [|split].
      + rewrite Ea, <- app_assoc. cbn [app].
        apply (chain_replace l (sib t) (chi t p) a [] c [c] N C). cbn [chain].
        rewrite put_ne; [auto|]. intros ->. congruence.
      + intros q Hq Hq0. apply chain_put; [|auto]. intros K. apply (inv_par t g q a I) in K; auto. congruence.
      + intros x Hx. rewrite put_ne; [reflexivity|]. intros ->. congruence. }
  destruct Eq as [E1 [E2 E3]].
  split; [|split; [|split; [|split]]]; cbn [i_add with_ch ch stale].
  - intros q Hq. destruct (Nat.eqb_spec q p) as [->|Nq]; [exact E1|now apply E2].
  - intros q Hq. destruct (Nat.eqb_spec q p) as [->|Nq]; [|auto]. apply nodup_snoc; auto.
  - intros q x Hq. rewrite Epar. destruct (Nat.eqb_spec q p) as [->|Nq].
    + rewrite in_app_iff. cbn [In]. destruct (Nat.eq_dec x c) as [->|Nx].
      * rewrite put_eq. intuition.
      * rewrite put_ne, I3 by auto. intuition congruence.
    + destruct (Nat.eq_dec x c) as [->|Nx].
      * rewrite put_eq. split; [congruence|]. intros K. exfalso. now apply (Hd q).
      * rewrite put_ne by auto. now apply I3.
  - intros x Hx. rewrite Epar. destruct (Nat.eq_dec x c) as [->|Nx].
    + rewrite put_eq. congruence.
    + rewrite put_ne by auto. intros P S. rewrite E3 by auto. auto.
  - rewrite Epar, put_ne by auto. exact I5.
Qed.

Lemma add_child_ok : forall t g p c f, inv t g -> p <> 0 -> c <> 0 -> detached g c -> stale g c = false ->
  length (ch g p) <= f ->
  exists t', add_child f t p c = Some t' /\ inv t' (i_add g p c) /\ (forall x, par t' x = put (par t) c p x).
Proof.
  intros t g p c f I Hp Hc Hd Hs Hf. pose proof I as [I1 [I2 [I3 [I4 I5]]]].
  pose proof (proj1 (inv_detached t g c I) Hd) as Pc.
  unfold add_child. pose proof (I1 p Hp) as C.
  destruct (ch g p) as [|x0 l0] eqn:El.
  - cbn [chain] in C. rewrite C, Pc. cbn [Nat.eqb]. eexists. split; [reflexivity|]. split; [|reflexivity].
    apply (attach_inv t g p c); auto. now rewrite El.
  - rewrite <- El in *. destruct (exists_last (l := ch g p)) as [l [a Ea]]; [congruence|].
    assert (Nz : chi t p <> 0) by (rewrite El in C; cbn in C; destruct C as [-> [C _]]; exact C).
    destruct (Nat.eqb_spec (chi t p) 0); [contradiction|].
    exists (set_par (set_sib t a c) c p). rewrite Ea in C.
    split; [|split; [|reflexivity]].
    + apply (add_sibling_ok l t (chi t p) a c p f C); auto.
      * intros x Hx. apply I3; auto. now rewrite Ea.
      * rewrite Ea, app_length in Hf. cbn in Hf. lia.
    + apply (attach_inv t g p c); auto. rewrite El, <- El, Ea, last_last. reflexivity.
Qed.

(** AddSibling of any child of p does the same as AddChild of p *)
Lemma add_sibling_child : forall t g p b c f, inv t g -> p <> 0 -> c <> 0 -> detached g c -> stale g c = false ->
  In b (ch g p) -> length (ch g p) <= f ->
  exists t', add_sibling f t b c = Some t' /\ inv t' (i_add g p c) /\ (forall x, par t' x = put (par t) c p x).
Proof.
  intros t g p b c f I Hp Hc Hd Hs Hb Hf. pose proof I as [I1 [I2 [I3 [I4 I5]]]].
  pose proof (proj1 (inv_detached t g c I) Hd) as Pc.
  apply in_split in Hb. destruct Hb as [l1 [l2 E]].
  pose proof (I1 p Hp) as C. rewrite E in C. destruct (chain_app _ _ _ _ C) as [h' [C' _]].
  assert (h' = b) by (cbn in C'; tauto). subst h'.
  destruct (exists_last (l := b :: l2)) as [l [a Ea]]; [discriminate|].
  assert (EL : last (ch g p) 0 = a) by (rewrite E, Ea, app_assoc; apply last_last).
  exists (set_par (set_sib t a c) c p). rewrite Ea in C'.
  split; [|split; [|reflexivity]].
  - apply (add_sibling_ok l t b a c p f C'); auto.
    + intros x Hx. apply I3; auto. rewrite E, Ea. apply in_app_iff. auto.
    + rewrite E, Ea, !app_length in Hf. cbn in Hf. lia.
  - apply (attach_inv t g p c); auto. rewrite EL. destruct (ch g p) eqn:K; [|reflexivity].
    symmetry in E. apply app_eq_nil in E. now destruct E.
Qed.

Lemma but_app : forall c l r, ~ In c l -> ~ In c r -> but c (l ++ c :: r) = l ++ r.
Proof.
  intros c l r Hl Hr. unfold but. rewrite filter_app. cbn [filter]. rewrite Nat.eqb_refl. cbn [negb].
  assert (K : forall q, ~ In c q -> filter (fun x => negb (x =? c)) q = q).
  { clear. induction q as [|x q IH]; intros H; cbn [filter]; [reflexivity|]. cbn [In] in H.
    destruct (Nat.eqb_spec x c); [intuition|]. cbn [negb]. now rewrite IH by intuition. }
  now rewrite !K.
Qed.
Lemma in_but : forall c l x, In x (but c l) <-> In x l /\ x <> c.
Proof. intros. unfold but. rewrite filter_In, negb_true_iff, Nat.eqb_neq. reflexivity. Qed.

Lemma last_mid : forall (l : list nat) c r, NoDup (l ++ c :: r) -> c <> 0 ->
  (last (l ++ c :: r) 0 =? c) = match r with [] => true | _ => false end.
Proof.
  intros l c r N Hc. destruct r as [|x r].
  - rewrite last_last. apply Nat.eqb_refl.
  - apply Nat.eqb_neq. destruct (exists_last (l := x :: r)) as [q [a E]]; [discriminate|].
    rewrite E in *. rewrite app_comm_cons, app_assoc, last_last. intros ->.
    apply NoDup_remove_2 in N. apply N. rewrite !in_app_iff. cbn. auto.
Qed.

Lemma detach_inv : forall t g p c l r t', inv t g -> p <> 0 -> ch g p = l ++ c :: r ->
  (forall x, par t' x = put (par t) c 0 x) ->
  (t' = match l with
        | [] => set_chi (set_par t c 0) p (sib t c)
        | _ => set_sib (set_par t c 0) (last l 0) (sib t c)
        end) ->
  inv t' (i_rem g p c).
Proof.
  intros t g p c l r t' I Hp E Epar Et. pose proof I as [I1 [I2 [I3 [I4 I5]]]].
  pose proof (I1 p Hp) as C. pose proof (I2 p Hp) as N. rewrite E in C, N.
  assert (Hc : c <> 0) by (eapply chain_nz; [exact C|apply in_app_iff; cbn; auto]).
  assert (Pc : par t c = p) by (apply I3; auto; rewrite E; apply in_app_iff; cbn; auto).
  pose proof (NoDup_remove_2 _ _ _ N) as Nc. rewrite in_app_iff in Nc.
  assert (B : but c (ch g p) = l ++ r) by (rewrite E; apply but_app; intuition).
  assert (Q : chain (sib t') (chi t' p) (l ++ r) /\
     (forall q, q <> p -> q <> 0 -> chain (sib t') (chi t' q) (ch g q)) /\
     (forall x, par t x = 0 \/ x = c -> sib t' x = sib t x)).
  { subst t'. destruct l as [|x0 l0] eqn:El.
    - cbn [app chain] in *. cbn [set_chi set_par sib chi]. rewrite put_eq. split; [apply C|]. split; [|auto].
      intros q Hq Hq0. rewrite put_ne by auto. auto.
    - rewrite <- El in *. destruct (exists_last (l := l)) as [q [a Ea]]; [congruence|].
      assert (La : last l 0 = a) by (rewrite Ea; apply last_last).
      cbn [set_sib set_par sib chi]. rewrite La.
      assert (Ap : par t a = p) by (apply I3; auto; rewrite E, Ea, !in_app_iff; cbn; auto).
      assert (Ac : a <> c) by (intros ->; apply Nc; left; rewrite Ea, in_app_iff; cbn; auto).
      rewrite Ea, <- app_assoc in C, N. cbn [app] in C, N. split; [|split].
      + rewrite Ea, <- app_assoc. cbn [app].
        apply (chain_replace q (sib t) (chi t p) a (c :: r)).
        * clear - N. induction q as [|y q IH]; [repeat constructor; auto|]. cbn [app] in *. inversion N; subst.
          constructor; [|auto]. rewrite in_app_iff in *. cbn in *. intuition.
        * exact C.
        * apply chain_put.
          -- intros K. clear - N K. induction q as [|y q IH]; cbn [app] in N; inversion N; subst; auto.
             apply H1. now right.
          -- destruct (chain_app _ _ _ _ C) as [h' [C' _]]. cbn in C'. tauto.
      + intros z Hz Hz0. apply chain_put; [|auto]. intros K. apply (inv_par t g z a I) in K; auto. congruence.
      + intros x Hx. rewrite put_ne; [reflexivity|]. intros ->. destruct Hx; congruence. }
  destruct Q as [Q1 [Q2 Q3]].
  split; [|split; [|split; [|split]]]; cbn [i_rem with_ch with_stale ch stale].
  - intros q Hq. destruct (Nat.eqb_spec q p) as [->|Nq]; [now rewrite B|auto].
  - intros q Hq. destruct (Nat.eqb_spec q p) as [->|Nq]; [|auto]. unfold but. now apply NoDup_filter, I2.
  - intros q x Hq. rewrite Epar. destruct (Nat.eqb_spec q p) as [->|Nq].
    + rewrite in_but. destruct (Nat.eq_dec x c) as [->|Nx].
      * rewrite put_eq. intuition congruence.
      * rewrite put_ne, I3 by auto. intuition.
    + destruct (Nat.eq_dec x c) as [->|Nx].
      * rewrite put_eq. split; [congruence|]. intros K. apply (inv_par t g q c I) in K; auto. congruence.
      * rewrite put_ne by auto. now apply I3.
  - intros x Hx. rewrite Epar. destruct (Nat.eqb_spec x c) as [->|Nx].
    + intros _ S. rewrite E, last_mid in S by auto. destruct r; [|discriminate].
      rewrite Q3 by auto. destruct (chain_app _ _ _ _ C) as [h' [C' _]]. cbn in C'. tauto.
    + rewrite put_ne by auto. intros P S. rewrite Q3 by auto. auto.
  - rewrite Epar, put_ne by auto. exact I5.
Qed.

Lemma rem_child_ok : forall t g p c f, inv t g -> p <> 0 -> In c (ch g p) -> length (ch g p) <= f ->
  exists t', rem_child f t p c = Some t' /\ inv t' (i_rem g p c) /\ (forall x, par t' x = put (par t) c 0 x) /\
    (forall q, q <> p -> chi t' q = chi t q) /\ (forall x, par t x <> p -> sib t' x = sib t x).
Proof.
  intros t g p c f I Hp Hc Hf. pose proof I as [I1 [I2 [I3 [I4 I5]]]].
  apply in_split in Hc. destruct Hc as [l [r E]].
  pose proof (I1 p Hp) as C. pose proof (I2 p Hp) as N. rewrite E in C, N.
  assert (Hn : c <> 0) by (eapply chain_nz; [exact C|apply in_app_iff; cbn; auto]).
  assert (Pc : par t c = p) by (apply I3; auto; rewrite E; apply in_app_iff; cbn; auto).
  unfold rem_child. destruct l as [|x0 l0] eqn:El.
  - cbn [app chain] in C. destruct C as [C1 [C2 C3]]. rewrite C1, Pc.
    destruct (Nat.eqb_spec c 0); [contradiction|]. rewrite !Nat.eqb_refl.
    eexists. split; [reflexivity|]. split; [|split].
    + now apply (detach_inv t g p c [] r).
    + reflexivity.
    + split; [|reflexivity]. intros q Hq. cbn. now apply put_ne.
  - cbn [app chain] in C. destruct C as [C1 [C2 C3]]. rewrite C1.
    destruct (Nat.eqb_spec x0 0); [contradiction|].
    cbn [app] in N. inversion N as [|? ? N1 N2]; subst x l1.
    destruct (Nat.eqb_spec x0 c) as [->|Nx]; [exfalso; apply N1, in_app_iff; cbn; auto|].
    destruct (exists_last (l := x0 :: l0)) as [q [a Ea]]; [discriminate|].
    assert (CC : chain (sib t) x0 (q ++ a :: c :: r)).
    { change (a :: c :: r) with ([a] ++ c :: r). rewrite app_assoc, <- Ea. cbn. auto. }
    assert (EE : ch g p = q ++ a :: c :: r).
    { rewrite E. change (a :: c :: r) with ([a] ++ c :: r). now rewrite app_assoc, <- Ea. }
    rewrite (rem_sibling_ok q t x0 a c r p f); auto.
    + eexists. split; [reflexivity|]. split; [|split; [reflexivity|split; [reflexivity|]]].
      2: { intros x Hx. cbn. apply put_ne. intros ->. apply Hx, I3; auto. rewrite EE.
           apply in_app_iff. cbn. auto. }
      apply (detach_inv t g p c (x0 :: l0) r); auto.
      assert (La : last (x0 :: l0) 0 = a) by (rewrite Ea; apply last_last).
      now rewrite La.
    + rewrite <- EE. now apply I2.
    + intros x Hx. apply I3; auto. now rewrite EE.
    + rewrite EE, app_length in Hf. cbn in Hf. lia.
Qed.

Lemma rem_sibling_child : forall t g p b c l1 l2 f, inv t g -> p <> 0 ->
  ch g p = l1 ++ b :: l2 -> In c l2 -> length (ch g p) <= f ->
  exists t', rem_sibling f t b c = Some t' /\ inv t' (i_rem g p c) /\ (forall x, par t' x = put (par t) c 0 x).
Proof.
  intros t g p b c l1 l2 f I Hp E Hc Hf. pose proof I as [I1 [I2 [I3 [I4 I5]]]].
  apply in_split in Hc. destruct Hc as [m [r ->]].
  pose proof (I1 p Hp) as C. pose proof (I2 p Hp) as N. rewrite E in C, N.
  destruct (chain_app _ _ _ _ C) as [h' [C' _]].
  assert (h' = b) by (cbn in C'; tauto). subst h'.
  destruct (exists_last (l := b :: m)) as [q [a Ea]]; [discriminate|].
  assert (EE : b :: m ++ c :: r = q ++ a :: c :: r).
  { change (a :: c :: r) with ([a] ++ c :: r). now rewrite app_assoc, <- Ea. }
  assert (E2 : ch g p = (l1 ++ b :: m) ++ c :: r) by (rewrite E, <- app_assoc; reflexivity).
  rewrite EE in C'.
  rewrite (rem_sibling_ok q t b a c r p f C').
  - eexists. split; [reflexivity|]. split; [|reflexivity].
    apply (detach_inv t g p c (l1 ++ b :: m) r); auto.
    assert (La : last (l1 ++ b :: m) 0 = a) by (rewrite Ea, app_assoc; apply last_last).
    rewrite La. destruct (l1 ++ b :: m) eqn:K; [|reflexivity]. apply app_eq_nil in K. now destruct K.
  - rewrite <- EE. clear - N. induction l1 as [|y l1 IH]; [exact N|]. cbn [app] in N. inversion N; auto.
  - intros x Hx. apply I3; auto. rewrite E, EE. apply in_app_iff. auto.
  - rewrite E, EE, !app_length in Hf. cbn in Hf. lia.
Qed.

Lemma drop_children_ok : forall n t g h f, inv t g -> h <> 0 -> length (ch g h) = n -> n < f ->
  exists t', drop_children f t h = Some t' /\ inv t' (i_drop g h) /\
    (forall x, par t' x = par t x \/ par t' x = 0).
Proof.
  induction n as [|n IH]; intros t g h f I Hh Hn Hf; (destruct f as [|f]; [lia|]); cbn [drop_children];
    pose proof I as [I1 [I2 _]]; pose proof (I1 h Hh) as C; pose proof (I2 h Hh) as N.
  - destruct (ch g h) as [|x l] eqn:E; [|discriminate]. cbn in C. rewrite C. cbn [Nat.eqb].
    exists t. split; [reflexivity|]. split; [|auto].
    apply (inv_ext t g); auto; cbn [i_drop with_ch ch stale]; intros x.
    + destruct (Nat.eqb_spec x h) as [->|]; auto.
    + now rewrite E.
  - destruct (ch g h) as [|c l] eqn:E; [discriminate|]. cbn in C. destruct C as [C1 [C2 C3]].
    rewrite C1. destruct (Nat.eqb_spec c 0); [contradiction|].
    destruct (rem_child_ok t g h c (S f) I Hh) as [t1 [E1 [I' [P1 _]]]].
    { rewrite E. now left. }
    { rewrite E. cbn in *. lia. }
    rewrite E1.
    assert (B : but c (ch g h) = l).
    { rewrite E. inversion N as [|? ? NN1 NN2]. apply (but_app c [] l); auto. }
    destruct (IH t1 (i_rem g h c) h f I' Hh) as [t2 [E2 [I2' P2]]].
    { cbn [i_rem with_ch with_stale ch]. rewrite Nat.eqb_refl, B. now injection Hn. }
    { lia. }
    exists t2. split; [exact E2|]. split.
    + apply (inv_ext t2 (i_drop (i_rem g h c) h)); auto.
      * intros x. cbn [i_drop i_rem with_ch with_stale ch stale]. destruct (x =? h); reflexivity.
      * intros x. cbn [i_drop i_rem with_ch with_stale ch stale]. rewrite Nat.eqb_refl, B, E.
        cbn [existsb]. destruct (Nat.eqb_spec x c) as [->|Nx]; cbn [orb].
        -- inversion N as [|? ? NN1 NN2]. destruct (existsb (Nat.eqb c) l) eqn:K; [|reflexivity].
           apply existsb_exists in K. destruct K as [y [K1 K2]]. apply Nat.eqb_eq in K2. subst y. contradiction.
        -- destruct (existsb (Nat.eqb x) l) eqn:K; [|reflexivity].
           destruct l as [|y l]; [discriminate|]. reflexivity.
    + intros x. destruct (P2 x) as [->|]; auto. rewrite P1. unfold put. destruct (x =? c); auto.
Qed.

Lemma detach_ok : forall t g q h f, inv t g -> h <> 0 ->
  (if q =? 0 then detached g h else In h (ch g q)) -> length (ch g q) <= f ->
  exists t', detach f t h = Some t' /\ inv t' (if q =? 0 then g else i_rem g q h) /\
    (forall x, par t' x = put (par t) h 0 x) /\ (forall z, z <> q -> chi t' z = chi t z) /\
    (forall x, par t x <> q \/ q = 0 -> sib t' x = sib t x).
Proof.
  intros t g q h f I Hh Hq Hf. unfold detach. destruct (Nat.eqb_spec q 0) as [->|Nq].
  - apply (inv_detached t g h I) in Hq. rewrite Hq. cbn [Nat.eqb]. exists t. split; [reflexivity|].
    split; [exact I|]. split; [|split; auto]. intros x. unfold put. destruct (Nat.eqb_spec x h); congruence.
  - pose proof (inv_par t g q h I Nq Hq) as P. rewrite P. destruct (Nat.eqb_spec q 0); [contradiction|].
    destruct (rem_child_ok t g q h f I Nq Hq Hf) as [t' [E [I' [P1 [P2 P3]]]]]. exists t'.
    split; [exact E|]. split; [exact I'|]. split; [exact P1|]. split; [exact P2|].
    intros x [K|K]; [auto|contradiction].
Qed.

Lemma destroy_ok : forall t g q h, inv t g -> h <> 0 ->
  (if q =? 0 then detached g h else In h (ch g q)) ->
  forall f, length (ch g q) + length (ch g h) < f ->
  exists t', destroy f t h = Some t' /\ inv t' (i_destroy g q h) /\
    (forall x, par t' x = par t x \/ par t' x = 0).
Proof.
  intros t g q h I Hh Hq f Hf. unfold destroy.
  destruct (detach_ok t g q h f I Hh Hq) as [t1 [E1 [I1 [P1 _]]]]; [lia|]. rewrite E1.
  destruct (drop_children_ok _ t1 (if q =? 0 then g else i_rem g q h) h f I1 Hh eq_refl) as [t2 [E2 [I2 P2]]].
  { destruct (q =? 0); [lia|]. cbn [i_rem with_ch with_stale ch].
    destruct (Nat.eqb_spec h q) as [->|]; [|lia].
    assert (length (but q (ch g q)) <= length (ch g q)); [|lia].
    unfold but. clear. induction (ch g q) as [|x l IH]; cbn [filter]; [auto|].
    destruct (negb (x =? q)); cbn; lia. }
  exists t2. split; [exact E2|]. split; [exact I2|].
  intros x. destruct (P2 x) as [->|]; auto. rewrite P1. unfold put. destruct (x =? h); auto.
Qed.

Lemma create_ok : forall t g h, inv t g -> h <> 0 -> detached g h -> ch g h = [] ->
  inv (create t h) (with_stale g h false) /\ (forall x, par (create t h) x = par t x).
Proof.
  intros t g h I Hh Hd Hc. pose proof (proj1 (inv_detached t g h I) Hd) as P.
  pose proof I as [I1 [I2 [I3 [I4 I5]]]].
  assert (EP : forall x, par (create t h) x = par t x).
  { intros x. cbn. unfold put. destruct (Nat.eqb_spec x h); congruence. }
  split; [|exact EP].
  split; [|split; [|split; [|split]]]; cbn [with_stale ch stale].
  - intros p Hp. cbn [create set_par set_sib set_chi sib chi]. apply chain_put; [now apply Hd|].
    unfold put. destruct (Nat.eqb_spec p h) as [->|]; [|auto]. rewrite Hc. reflexivity.
  - auto.
  - intros p x Hp. rewrite EP. auto.
  - intros x Hx. rewrite EP. cbn [create set_par set_sib set_chi sib]. unfold put.
    destruct (Nat.eqb_spec x h); auto.
  - now rewrite EP.
Qed.

(** ** ancestors *)
Inductive ends (f : nat -> nat) : nat -> Prop :=
| ends_0 : ends f 0
| ends_S : forall x, ends f (f x) -> ends f x.

Inductive below (g : forest) (c : nat) : nat -> Prop :=
| below_self : below g c c
| below_child : forall p x, p <> 0 -> below g c p -> In x (ch g p) -> below g c x.

Lemma ends_cut : forall f f' x, (forall y, f' y = f y \/ f' y = 0) -> ends f x -> ends f' x.
Proof.
  intros f f' x H E. induction E as [|x E IH]; [constructor|]. constructor.
  destruct (H x) as [->| ->]; [exact IH|constructor].
Qed.
Lemma ends_add : forall t t' g p c, inv t g -> (forall x, par t' x = put (par t) c p x) ->
  ~ below g c p -> (forall x, ends (par t) x) -> forall x, ends (par t') x.
Proof.
  intros t t' g p c I P B E.
  assert (K : forall x, ends (par t) x -> ~ below g c x -> ends (par t') x).
  { intros x Ex. induction Ex as [|x Ex IH]; intros Hb; [constructor|]. constructor. rewrite P.
    destruct (Nat.eq_dec x c) as [->|Nx]; [exfalso; apply Hb; constructor|]. rewrite put_ne by auto.
    destruct (Nat.eq_dec (par t x) 0) as [->|N0]; [constructor|]. apply IH. intros Kb. apply Hb.
    apply (below_child g c (par t x)); auto. destruct I as [_ [_ [I3 _]]]. now apply I3. }
  intros x. pose proof (E p) as Ep. specialize (E x). induction E as [|x E IH]; [constructor|]. constructor. rewrite P.
  destruct (Nat.eq_dec x c) as [->|Nx].
  - rewrite put_eq. apply K; auto.
  - now rewrite put_ne.
Qed.

(** ** DeleteSetTree *)
Inductive rose := Rose (h : nat) (cs : list rose).
Definition root (r : rose) : nat := match r with Rose h _ => h end.
Fixpoint handles (r : rose) : list nat :=
  match r with Rose h cs => flat_map handles cs ++ [h] end.

Lemma rose_ind2 : forall P : rose -> Prop,
  (forall h cs, Forall P cs -> P (Rose h cs)) -> forall r, P r.
Proof.
  intros P H. fix IH 1. intros [h cs]. apply H. induction cs; constructor; auto.
Qed.

(** the links below the root are those of the tree *)
Inductive fits (t : tree) : rose -> Prop :=
| Fits : forall h cs, h <> 0 -> chain (sib t) (chi t h) (map root cs) ->
    (forall r, In r cs -> par t (root r) = h) -> Forall (fits t) cs -> fits t (Rose h cs).

Lemma root_in : forall r, In (root r) (handles r).
Proof. intros [h cs]. cbn. apply in_app_iff. cbn. auto. Qed.

Lemma fits_ext : forall r t t', (forall x, In x (handles r) -> chi t' x = chi t x) ->
  (forall x, In x (handles r) -> x <> root r -> par t' x = par t x /\ sib t' x = sib t x) ->
  NoDup (handles r) -> fits t r -> fits t' r.
Proof.
  induction r as [h cs IH] using rose_ind2. intros t t' Hc Hps N F.
  inversion F as [? ? F1 F2 F3 F4]; subst. cbn [handles root] in *.
  assert (Nh : forall r x, In r cs -> In x (handles r) -> x <> h).
  { intros r x Hr Hx ->. apply (NoDup_remove_2 (flat_map handles cs) [] h) in N. apply N.
    rewrite app_nil_r. apply in_flat_map. eauto. }
  assert (Q : forall r x, In r cs -> In x (handles r) -> par t' x = par t x /\ sib t' x = sib t x).
  { intros r x Hr Hx. apply Hps; [apply in_app_iff; left; apply in_flat_map; eauto|eauto]. }
  constructor; auto.
  - rewrite Hc by (apply in_app_iff; cbn; auto).
    assert (K : forall l h0, incl l cs -> chain (sib t) h0 (map root l) -> chain (sib t') h0 (map root l)).
    { induction l as [|r l IHl]; intros h0 Hi; cbn [map chain]; auto. intros [A1 [A2 A3]].
      split; [exact A1|]. split; [exact A2|].
      destruct (Q r (root r)) as [_ ->]; [apply Hi; now left|apply root_in|].
      apply IHl; auto. intros y Hy. apply Hi. now right. }
    apply K; auto. apply incl_refl.
  - intros r Hr. destruct (Q r (root r) Hr (root_in r)) as [-> _]. auto.
  - rewrite Forall_forall in *. intros r Hr. apply (IH r Hr t t').
    + intros x Hx. apply Hc. apply in_app_iff. left. apply in_flat_map. eauto.
    + intros x Hx _. eauto.
    + clear - N Hr. apply in_split in Hr. destruct Hr as [a [b ->]]. rewrite flat_map_app in N. cbn [flat_map] in N.
      rewrite <- !app_assoc in N.
      assert (S1 : forall (u v : list nat), NoDup (u ++ v) -> NoDup v).
      { induction u; intros v H; [exact H|]. inversion H; auto. }
      assert (S2 : forall (u v : list nat), NoDup (u ++ v) -> NoDup u).
      { induction u; intros v H; [constructor|]. inversion H; subst. constructor; [|eauto].
        rewrite in_app_iff in H2. intuition. }
      apply S1 in N. eapply S2; eauto.
    + auto.
Qed.

(** links of everything outside the tree are kept *)
Definition outside (t t' : tree) (l : list nat) : Prop :=
  forall x, ~ In x l -> par t' x = par t x /\ sib t' x = sib t x /\ chi t' x = chi t x.

Fixpoint weight (r : rose) : nat :=
  match r with Rose _ cs => 2 + list_sum (map (fun c => S (weight c)) cs) end.

Lemma nodup_mid : forall (a b c : list nat), NoDup (a ++ b ++ c) -> NoDup b /\ NoDup (a ++ c).
Proof.
  induction a as [|x a IH]; intros b c H; cbn [app] in *.
  - split.
    + induction b; [constructor|]. inversion H; subst. constructor; [|auto]. rewrite in_app_iff in H2. intuition.
    + induction b; [exact H|]. inversion H; auto.
  - inversion H as [|? ? H1 H2]; subst. destruct (IH b c H2) as [A B]. split; auto.
    constructor; auto. rewrite !in_app_iff in *. intuition.
Qed.

Lemma destroy_bare : forall t h f, par t h = 0 -> chi t h = 0 -> destroy (S f) t h = Some t.
Proof. intros t h f P C. unfold destroy, detach. rewrite P. cbn [Nat.eqb drop_children]. now rewrite C. Qed.

Lemma delete_detached : forall r t f, weight r <= f -> fits t r -> par t (root r) = 0 ->
  NoDup (handles r) ->
  exists t', delete_tree f t (root r) = Some (t', handles r) /\ outside t t' (handles r) /\
    par t' (root r) = 0.
Proof.
  induction r as [h cs IH] using rose_ind2. intros t f Hf F P N.
  inversion F as [? ? F1 F2 F3 F4]; subst. cbn [root handles weight] in *.
  destruct f as [|f]; [lia|]. cbn [delete_tree]. unfold detach at 1. rewrite P. cbn [Nat.eqb].
  assert (Loop : forall l t0 f0, incl l cs -> NoDup (flat_map handles l) ->
    (forall r, In r l -> ~ In h (handles r)) ->
    1 + list_sum (map (fun c => S (weight c)) l) <= f0 -> Forall (fits t0) l ->
    forall h0, chain (sib t0) h0 (map root l) ->
    exists t1, delete_loop f0 t0 h0 = Some (t1, flat_map handles l) /\ outside t0 t1 (flat_map handles l)).
  { clear F F2 F3 F4 P t Hf.
    induction l as [|r l IHl]; intros t0 f0 Hi Nl Hnh Hw Fl h0 C; (destruct f0 as [|f0]; [lia|]);
      cbn [delete_loop map flat_map chain list_sum] in *.
    - subst h0. exists t0. split; [reflexivity|]. intros x _. auto.
    - destruct C as [-> [C1 C2]]. destruct (Nat.eqb_spec (root r) 0); [contradiction|].
      inversion Fl as [|? ? Fr Fl']; subst.
      change (sib (set_par t0 (root r) 0) (root r)) with (sib t0 (root r)).
      set (t1 := set_sib (set_par t0 (root r) 0) (root r) 0).
      assert (Nr : NoDup (handles r)) by (apply (nodup_mid [] (handles r) (flat_map handles l)); exact Nl).
      assert (Nl2 : NoDup (flat_map handles l)) by (apply (nodup_mid [] (handles r) (flat_map handles l)); exact Nl).
      assert (Dis : forall x, In x (handles r) -> In x (flat_map handles l) -> False).
      { intros x Hx Hy. clear - Nl Hx Hy. induction (handles r) as [|y q IHq]; [contradiction|].
        cbn [app] in Nl. inversion Nl; subst. destruct Hx as [->|Hx]; [apply H1, in_app_iff; auto|auto]. }
      assert (F1' : fits t1 r).
      { apply (fits_ext r t0); auto. intros x Hx Nx. unfold t1. cbn. now rewrite !put_ne. }
      rewrite Forall_forall in IH.
      change (1 + (S (weight r) + list_sum (map (fun c : rose => S (weight c)) l)) <= S f0) in Hw.
      destruct (IH r (Hi r (or_introl eq_refl)) t1 f0) as [t2 [E2 [O2 P2]]]; auto.
      { lia. }
      { unfold t1. cbn. apply put_eq. }
      rewrite E2.
      assert (O02 : outside t0 t2 (handles r)).
      { intros x Hx. destruct (O2 x Hx) as [-> [-> ->]]. unfold t1. cbn.
        rewrite !put_ne by (intros ->; apply Hx, root_in). auto. }
      assert (SL : forall r', In r' l -> forall x, In x (handles r') ->
        par t2 x = par t0 x /\ sib t2 x = sib t0 x /\ chi t2 x = chi t0 x).
      { intros r' Hr' x Hx. apply O02. intros K. apply (Dis x K). apply in_flat_map. eauto. }
      destruct (IHl t2 f0) with (h0 := sib t0 (root r)) as [t3 [E3 O3]]; auto.
      { intros y Hy. apply Hi. now right. }
      { intros r' Hr'. apply Hnh. now right. }
      { lia. }
      { rewrite Forall_forall in *. intros r' Hr'. apply (fits_ext r' t0).
        - intros x Hx. now apply (SL r').
        - intros x Hx _. destruct (SL r' Hr' x Hx) as [A [B _]]. auto.
        - clear - Nl2 Hr'. apply in_split in Hr'. destruct Hr' as [a [b ->]].
          rewrite flat_map_app in Nl2. cbn [flat_map] in Nl2. now apply nodup_mid in Nl2.
        - auto. }
      { clear - C2 SL. revert C2. generalize (sib t0 (root r)). induction l as [|r' l IHl]; intros h0 C; cbn [map chain] in *; auto.
        destruct C as [A1 [A2 A3]]. split; [exact A1|]. split; [exact A2|].
        destruct (SL r' (or_introl eq_refl) (root r') (root_in r')) as [_ [-> _]].
        apply IHl; auto. intros r2 Hr2. apply SL. now right. }
      rewrite E3. exists t3. split; [reflexivity|].
      intros x Hx. rewrite in_app_iff in Hx. destruct (O3 x) as [-> [-> ->]]; [intuition|].
      apply O02. intuition. }
  assert (Nh : forall r, In r cs -> ~ In h (handles r)).
  { intros r Hr K. apply (NoDup_remove_2 (flat_map handles cs) [] h) in N. apply N.
    rewrite app_nil_r. apply in_flat_map. eauto. }
  assert (Ncs : NoDup (flat_map handles cs)).
  { apply (NoDup_remove_1 (flat_map handles cs) [] h) in N. now rewrite app_nil_r in N. }
  destruct (Loop cs (set_chi t h 0) f) with (h0 := chi t h) as [t2 [E2 O2]]; auto.
  { apply incl_refl. }
  { lia. }
  { rewrite Forall_forall in *. intros r Hr. apply (fits_ext r t); auto.
    - intros x Hx. cbn. apply put_ne. intros ->. now apply (Nh r).
    - clear - Ncs Hr. apply in_split in Hr. destruct Hr as [a [b ->]].
      rewrite flat_map_app in Ncs. cbn [flat_map] in Ncs. now apply nodup_mid in Ncs. }
  rewrite E2.
  assert (Hn : ~ In h (flat_map handles cs)).
  { intros K. apply in_flat_map in K. destruct K as [r [K1 K2]]. now apply (Nh r). }
  destruct (O2 h Hn) as [Q1 [Q2 Q3]]. cbn in Q1, Q2, Q3. rewrite put_eq in Q3.
  rewrite destroy_bare by congruence. exists t2. split; [reflexivity|]. split; [|congruence].
  intros x Hx. rewrite in_app_iff in Hx. cbn [In] in Hx. destruct (O2 x) as [A [B C]]; [intuition|].
  rewrite A, B, C. cbn. rewrite put_ne by intuition. auto.
Qed.

Lemma fits_inner : forall r t x, fits t r -> In x (handles r) -> x = root r \/ In (par t x) (handles r).
Proof.
  induction r as [h cs IH] using rose_ind2. intros t x F Hx.
  inversion F as [? ? F1 F2 F3 F4]; subst. cbn [root handles] in *.
  apply in_app_iff in Hx. destruct Hx as [Hx|[<-|[]]]; [|auto]. right.
  apply in_flat_map in Hx. destruct Hx as [r [Hr Hx]]. rewrite Forall_forall in *.
  destruct (IH r Hr t x (F4 r Hr) Hx) as [->|K].
  - rewrite F3 by auto. apply in_app_iff. cbn. auto.
  - apply in_app_iff. left. apply in_flat_map. eauto.
Qed.

Lemma delete_tree_ok : forall t g q r f, inv t g -> fits t r -> NoDup (handles r) ->
  (if q =? 0 then detached g (root r) else In (root r) (ch g q) /\ ~ In q (handles r)) ->
  weight r + length (ch g q) <= f ->
  exists t', delete_tree f t (root r) = Some (t', handles r) /\
    (forall x, ~ In x (handles r) -> par t' x = par t x) /\
    (forall p, p <> 0 -> ~ In p (handles r) -> chain (sib t') (chi t' p)
       (if p =? q then but (root r) (ch g p) else ch g p)).
Proof.
  intros t g q r f I F N Hq Hf.
  assert (Hh : root r <> 0) by (inversion F; cbn; auto).
  assert (Hq' : if q =? 0 then detached g (root r) else In (root r) (ch g q)) by (destruct (q =? 0); tauto).
  destruct (detach_ok t g q (root r) f I Hh Hq') as [t1 [E1 [I1 [P1 [C1 S1]]]]]; [lia|].
  assert (Nq : ~ In q (handles r) \/ q = 0) by (destruct (Nat.eqb_spec q 0); tauto).
  assert (F1 : fits t1 r).
  { assert (Z : forall x, In x (handles r) -> x <> 0).
    { clear - F. revert F. induction r as [h cs IH] using rose_ind2. intros F x Hx.
      inversion F as [? ? A1 A2 A3 A4]; subst. cbn [handles] in Hx. apply in_app_iff in Hx.
      destruct Hx as [Hx|[<-|[]]]; [|exact A1]. apply in_flat_map in Hx. destruct Hx as [r [Hr Hx]].
      rewrite Forall_forall in *. eapply IH; eauto. }
    apply (fits_ext r t); auto.
    - intros x Hx. apply C1. intros ->. destruct Nq as [Nq| ->]; [contradiction|]. now apply (Z 0).
    - intros x Hx Nx. rewrite P1, put_ne by auto. split; [reflexivity|]. apply S1.
      destruct Nq as [Nq|Nq]; [left|auto]. intros K.
      destruct (fits_inner r t x F Hx) as [|K2]; [contradiction|]. congruence. }
  assert (P0 : par t1 (root r) = 0) by (rewrite P1; apply put_eq).
  destruct (delete_detached r t1 f) as [t2 [E2 [O2 _]]]; auto; [lia|].
  exists t2. split.
  { rewrite <- E2. destruct f as [|f]; [destruct r; cbn in Hf; lia|]. cbn [delete_tree]. rewrite E1.
    unfold detach. rewrite P0. reflexivity. }
  split.
  - intros x Hx. destruct (O2 x Hx) as [-> _]. rewrite P1. apply put_ne. intros ->. apply Hx, root_in.
  - intros p Hp Hn. destruct (O2 p Hn) as [_ [_ ->]].
    destruct I1 as [J1 [_ [J3 _]]]. pose proof (J1 p Hp) as C.
    assert (Ech : ch (if q =? 0 then g else i_rem g q (root r)) p =
                  if p =? q then but (root r) (ch g p) else ch g p).
    { destruct (Nat.eqb_spec q 0) as [->|]; cbn [i_rem with_ch with_stale ch].
      - destruct (Nat.eqb_spec p 0); [contradiction|reflexivity].
      - destruct (Nat.eqb_spec p q) as [->|]; reflexivity. }
    rewrite <- Ech. specialize (J3 p).
    assert (K : forall x, In x (ch (if q =? 0 then g else i_rem g q (root r)) p) -> ~ In x (handles r)).
    { intros x Hx Hr. apply J3 in Hx; auto. destruct (fits_inner r t1 x F1 Hr) as [->|K]; congruence. }
    revert C K. clear - O2. generalize (chi t1 p).
    induction (ch (if q =? 0 then g else i_rem g q (root r)) p) as [|x l IH]; intros h C K; cbn [chain] in *; auto.
    destruct C as [A1 [A2 A3]]. split; [exact A1|]. split; [exact A2|].
    destruct (O2 x) as [_ [-> _]]; [apply K; now left|]. apply IH; auto. intros y Hy. apply K. now right.
Qed.
