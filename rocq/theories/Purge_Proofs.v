(** Lemmas about the removal of links to deleted elements. *)
From Coq Require Import List Bool Arith Lia.
From Verif Require Import Util SetTree_Model SetTree_Proofs ESet_Model Purge_Model.
Import ListNotations.

(** * Hierarchy of sets *)
Definition any (c : nat -> list nat) : forest := Forest c (fun _ => true).
Definition upd (c : nat -> list nat) (p : nat) (l : list nat) : nat -> list nat := fun q => if q =? p then l else c q.

Lemma inv_any t g c : (forall p, p <> 0 -> ch g p = c p) -> inv t g -> inv t (any c).
Proof.
  intros E (I1 & I2 & I3 & I4 & I5). unfold inv, any. cbn [ch stale]. split; [| split; [| split; [| split]]]; try easy.
  - intros p Hp. rewrite <- E by easy. auto.
  - intros p Hp. rewrite <- E by easy. auto.
  - intros p x Hp. rewrite <- E by easy. auto.
Qed.
Definition cut (t : tree) (p x : nat) (l : list nat) : tree :=
  match l with [] => set_chi (set_par t x 0) p (sib t x) | _ => set_sib (set_par t x 0) (last l 0) (sib t x) end.

Lemma rem_child_exact t c p x l r f : inv t (any c) -> p <> 0 -> c p = l ++ x :: r -> length (c p) <= f -> rem_child f t p x = Some (cut t p x l).
Proof.
  intros (I1 & I2 & I3 & _) Hp E Hf. cbn [any ch] in *. pose proof (I1 p Hp) as C. pose proof (I2 p Hp) as N.
  assert (P : forall y, In y (c p) -> par t y = p) by (intros y Hy; now apply I3). rewrite E in *.
  unfold rem_child, cut. destruct l as [| x0 l0].
  - cbn [app chain] in C. destruct C as (C1 & C2 & C3). rewrite C1. destruct (Nat.eqb_spec x 0); [easy |]. rewrite Nat.eqb_refl, P by now left. now rewrite Nat.eqb_refl.
  - pose proof C as C'. cbn [app chain] in C'. destruct C' as (C1 & C2 & C3). rewrite C1. destruct (Nat.eqb_spec x0 0); [easy |].
    destruct (Nat.eqb_spec x0 x) as [-> | Nx]; [exfalso; cbn [app] in N; inversion N; subst; apply H1; rewrite in_app_iff; right; now left |].
    destruct (exists_last (l := x0 :: l0)) as (q & a & Ea); [discriminate |].
    assert (L : last (x0 :: l0) 0 = a) by (rewrite Ea; apply last_last). rewrite L.
    assert (EE : (x0 :: l0) ++ x :: r = q ++ a :: x :: r) by (rewrite Ea, <- app_assoc; reflexivity).
    rewrite <- C1. apply (rem_sibling_ok q t (chi t p) a x r p f).
    + now rewrite <- EE.
    + now rewrite <- EE.
    + intros y Hy. apply P. now rewrite EE.
    + rewrite EE, app_length in Hf. cbn [length] in Hf. lia.
Qed.

Section Unlink.
  Variable mk : nat -> bool.
  Variable c0 : nat -> list nat.
  Definition um (x : nat) : bool := negb (mk x).
  (** the links to siblings descend *)
  Variable rk : nat -> nat.
  Hypothesis H0 : forall p x, p <> 0 -> mk p = true -> In x (c0 p) -> mk x = false.

  Record J (t : tree) (c : nat -> list nat) : Prop := {
    J_inv : inv t (any c);
    J_sub : forall p x, p <> 0 -> In x (c p) -> In x (c0 p);
    J_keep : forall p, p <> 0 -> mk p = false -> filter um (c p) = filter um (c0 p);
    J_rank : forall x, sib t x <> 0 -> rk (sib t x) < rk x }.
  (** a set without a parent does not point at a marked set with one, but maybe at [e] *)
  Definition W (t : tree) (e : nat) : Prop :=
    forall x, par t x = 0 -> sib t x <> 0 -> mk (sib t x) = true -> par t (sib t x) = 0 \/ sib t x = e.
  (** what may change *)
  Record R (t t' : tree) : Prop := {
    R_par : forall x, par t' x = par t x \/ (par t' x = 0 /\ (mk (par t x) = true \/ mk x = true));
    R_chi : forall p, chi t' p = chi t p \/ mk p = true \/ (chi t p <> 0 /\ mk (chi t p) = true);
    R_sib : forall x, sib t' x = sib t x \/ mk x = true \/ par t x = 0 \/ mk (par t x) = true \/ (sib t x <> 0 /\ mk (sib t x) = true) }.
  Lemma R_refl t : R t t.
  Proof. split; now left. Qed.
  Lemma R_trans t t1 t2 : R t t1 -> R t1 t2 -> R t t2.
  Proof.
    intros [A1 A2 A3] [B1 B2 B3]. split.
    - intros x. destruct (B1 x) as [-> | [E D]]; [apply A1 |]. destruct (A1 x) as [F | [F D']]; [rewrite F in D; now right | right; now split].
    - intros p. destruct (A2 p) as [E | D]; [| now right]. rewrite <- E. apply B2.
    - intros x. destruct (A3 x) as [E | D]; [| now right]. destruct (B3 x) as [F | [F | [F | [F | F]]]].
      + left. congruence.
      + now right; left.
      + destruct (A1 x) as [G | [G [K | K]]]; [rewrite <- G; auto | auto | auto].
      + destruct (A1 x) as [G | [G [K | K]]]; [rewrite <- G; auto | auto | auto].
      + rewrite E in F. auto 6.
  Qed.
  Definition D1 (t : tree) (x : nat) : Prop := par t x = 0 \/ mk (par t x) = false.
  Definition D2 (t : tree) (x : nat) : Prop := mk x = false -> chi t x = 0 \/ mk (chi t x) = false.
  Definition D3 (t : tree) (x : nat) : Prop := mk x = false -> par t x <> 0 -> mk (par t x) = false -> sib t x = 0 \/ mk (sib t x) = false.
  Lemma D1_R t t' x : R t t' -> D1 t x -> D1 t' x.
  Proof. intros [A _ _] D. unfold D1 in *. destruct (A x) as [-> | [-> _]]; [easy | now left]. Qed.
  Lemma D2_R t t' x : R t t' -> D2 t x -> D2 t' x.
  Proof. intros [_ A _] D M. specialize (D M). destruct (A x) as [-> | [K | [K1 K2]]]; [easy | congruence | destruct D; congruence]. Qed.
  Lemma D3_R t t' x : R t t' -> D3 t x -> D3 t' x.
  Proof.
    intros [A _ B] D M P Q. destruct (A x) as [E | [E _]]; [| congruence]. rewrite E in P, Q. specialize (D M P Q).
    destruct (B x) as [-> | [K | [K | [K | [K1 K2]]]]]; try easy; try congruence. destruct D; congruence.
  Qed.

  Lemma J_len t c p : J t c -> p <> 0 -> length (c p) <= length (c0 p).
  Proof. intros [I S _ _] Hp. apply NoDup_incl_length; [destruct I as (_ & I & _); now apply I | intros x; now apply S]. Qed.

  (** one child leaves *)
  Lemma cut_ok t c p l x r : J t c -> p <> 0 -> c p = l ++ x :: r -> mk p = true \/ mk x = true ->
    J (cut t p x l) (upd c p (l ++ r)) /\ R t (cut t p x l) /\
    (forall y, par t y = 0 \/ y = x -> sib (cut t p x l) y = sib t y) /\ (forall y, par (cut t p x l) y = put (par t) x 0 y) /\ x <> 0 /\ par t x = p.
  Proof.
    intros [I S K A] Hp E M. pose proof I as (I1 & I2 & I3 & _ & I5). cbn [any ch] in *.
    pose proof (I1 p Hp) as C. pose proof (I2 p Hp) as N. rewrite E in C, N.
    assert (Hx : x <> 0) by (eapply chain_nz; [exact C | rewrite in_app_iff; right; now left]).
    assert (Px : par t x = p) by (apply I3; [easy | rewrite E, in_app_iff; right; now left]).
    pose proof (NoDup_remove_2 _ _ _ N) as Nx.
    assert (Ep : forall y, par (cut t p x l) y = put (par t) x 0 y) by (intros y; now destruct l).
    assert (Es : forall y, sib (cut t p x l) y = sib t y \/ (sib (cut t p x l) y = sib t x /\ sib t y = x /\ par t y = p /\ y <> x)).
    { intros y. destruct l as [| z q]; [now left |]. unfold cut. cbn [set_sib set_par sib]. unfold put. destruct (Nat.eqb_spec y (last (z :: q) 0)) as [Ey | ]; [right | now left].
      destruct (exists_last (l := z :: q)) as (u & a & Ea); [discriminate |]. rewrite Ea, last_last in Ey. subst y. split; [easy |].
      destruct (chain_app _ _ _ _ C) as (h & C1 & _ & C3). specialize (C3 u a Ea). cbn [chain] in C1. split; [destruct C1; congruence |].
      split; [apply I3; [easy |]; rewrite E, Ea, !in_app_iff; cbn [In]; tauto |]. intros ->. apply Nx. rewrite Ea, !in_app_iff. cbn [In]. tauto. }
    assert (E0 : forall y, par t y = 0 \/ y = x -> sib (cut t p x l) y = sib t y).
    { intros y D. destruct (Es y) as [F | (_ & _ & F & G)]; [easy |]. destruct D; congruence. }
    split; [split | split; [split | auto]].
    - apply (inv_any _ (i_rem (any c) p x)).
      + intros q Hq. cbn [i_rem with_stale with_ch ch any]. unfold upd. destruct (q =? p); [| easy]. rewrite E. rewrite in_app_iff in Nx. apply but_app; tauto.
      + now apply (detach_inv t (any c) p x l r).
    - intros q y Hq Hy. unfold upd in Hy. destruct (Nat.eqb_spec q p) as [-> |]; [| auto]. apply S; [easy |]. rewrite E. rewrite in_app_iff in *. cbn [In]. tauto.
    - intros q Hq Mq. unfold upd. destruct (Nat.eqb_spec q p) as [-> |]; [| auto]. rewrite <- K by easy. rewrite E, !filter_app. cbn [filter].
      assert (U : um x = false) by (unfold um; destruct M; [congruence | now rewrite H]). now rewrite U.
    - intros y D. destruct (Es y) as [F | (F & G & P & _)]; rewrite F in *; [now apply A |].
      pose proof (A x D). assert (rk (sib t y) < rk y) by (apply A; congruence). rewrite G in *. lia.
    - intros y. rewrite Ep. unfold put. destruct (Nat.eqb_spec y x) as [-> |]; [right | now left]. rewrite Px. now split.
    - intros q. destruct l as [| z u]; [| now left]. cbn [cut set_chi set_par chi]. unfold put. destruct (Nat.eqb_spec q p) as [-> |]; [right | now left].
      cbn [app chain] in C. destruct C as (-> & _). tauto.
    - intros y. destruct (Es y) as [F | (F & G & P & _)]; [now left | right]. rewrite P, G. tauto.
  Qed.

  Lemma leave_ok t c x f : J t c -> W t 0 -> x <> 0 -> (forall p, p <> 0 -> length (c0 p) <= f) ->
    exists t' c', leave_parent mk f t x = Some t' /\ J t' c' /\ W t' 0 /\ R t t' /\ D1 t' x.
  Proof.
    intros Jt Wt Hx Hf. unfold leave_parent, D1. destruct (Nat.eqb_spec (par t x) 0) as [Z | Z]; [exists t, c; pose proof (R_refl t); auto 6 |].
    destruct (mk (par t x)) eqn:M; [| exists t, c; pose proof (R_refl t); auto 6].
    pose proof Jt as [I S _ _]. pose proof I as (I1 & _ & I3 & _). cbn [any ch] in *. set (p := par t x) in *.
    assert (In x (c p)) as K by now apply I3. apply in_split in K. destruct K as (l & r & E).
    exists (cut t p x l), (upd c p (l ++ r)). split; [apply (rem_child_exact t c p x l r f); try easy; eapply Nat.le_trans; [now apply (J_len t) | auto] |].
    destruct (cut_ok t c p l x r) as (A & B & C & D & _); auto. split; [easy |]. split; [| split; [easy |]].
    - intros y P Q T. rewrite D in P. unfold put in P. destruct (Nat.eqb_spec y x) as [Ey | Ny]; [rewrite Ey in * |].
      + rewrite C in * by now right. exfalso. assert (In (sib t x) r).
        { pose proof (I1 p Z) as G. rewrite E in G. destruct (chain_app _ _ _ _ G) as (h & G1 & _). cbn [chain] in G1. destruct G1 as (-> & _ & G1). destruct r as [| s r]; cbn [chain] in G1; [easy |]. left. now destruct G1. }
        rewrite (H0 p (sib t x)) in T; try easy. apply S; [easy |]. rewrite E, in_app_iff. right. now right.
      + rewrite C in * by now left. left. rewrite D. unfold put. destruct (_ =? _); [easy |]. destruct (Wt y P Q T); [easy | contradiction].
    - left. rewrite D. apply put_eq.
  Qed.

  Lemma drop_first_ok f : forall t c p, J t c -> W t (chi t p) -> p <> 0 -> length (c p) < f ->
    exists t' c', drop_first mk f t p = Some t' /\ J t' c' /\ W t' 0 /\ R t t' /\ D2 t' p.
  Proof.
    induction f as [| f IH]; intros t c p Jt Wt Hp Hf; [lia |]. pose proof Jt as [I _ _ _]. pose proof I as (I1 & _). cbn [any ch] in *. pose proof (I1 p Hp) as C.
    unfold D2. cbn [drop_first]. destruct (Nat.eqb_spec (chi t p) 0) as [Z | Z].
    { exists t, c. rewrite Z in Wt. pose proof (R_refl t). split; [easy |]. split; [easy |]. split; [easy |]. split; [easy |]. intros _. now left. }
    destruct (mk (chi t p)) eqn:M.
    2: { exists t, c. pose proof (R_refl t). split; [easy |]. split; [easy |]. split; [| split; [easy | intros _; now right]].
         intros x P Q T. destruct (Wt x P Q T) as [G | G]; [now left | congruence]. }
    destruct (c p) as [| h r] eqn:E; cbn [chain] in C; [contradiction |]. destruct C as (Eh & Nh & C). rewrite Eh in *.
    rewrite (rem_child_exact t c p h [] r) by (cbn [app]; auto; rewrite E; cbn [length] in *; lia).
    destruct (cut_ok t c p [] h r) as (A & B & D & F & _); auto. cbn [app] in A.
    destruct (IH (cut t p h []) (upd c p r) p A) as (t' & c' & K1 & K2 & K3 & K4 & K5); auto.
    - intros y P Q T. rewrite F in P. unfold put in P. destruct (Nat.eqb_spec y h) as [Ey | Ny]; [rewrite Ey in * |].
      + right. cbn [cut set_chi set_par chi sib]. now rewrite put_eq.
      + rewrite D in * by now left. left. rewrite F. unfold put. destruct (Nat.eqb_spec (sib t y) h); [easy |]. destruct (Wt y P Q T); [easy | contradiction].
    - unfold upd. rewrite Nat.eqb_refl. cbn [length] in Hf. lia.
    - exists t', c'. split; [easy |]. split; [easy |]. split; [easy |]. split; [eapply R_trans; eauto | easy].
  Qed.

  Lemma drop_next_attached f : forall t c x p, J t c -> W t (sib t x) -> p <> 0 -> par t x = p -> (exists l r, c p = l ++ x :: r /\ length r < f) ->
    exists t' c', drop_next mk f t x = Some t' /\ J t' c' /\ W t' 0 /\ R t t' /\ (sib t' x = 0 \/ mk (sib t' x) = false).
  Proof.
    induction f as [| f IH]; intros t c x p Jt Wt Hp Px (l & r & E & Hf); [lia |]. pose proof Jt as [I _ _ _]. pose proof I as (I1 & I2 & I3 & _). cbn [any ch] in *. pose proof (I1 p Hp) as C. pose proof (I2 p Hp) as N. rewrite E in C, N.
    cbn [drop_next]. destruct (Nat.eqb_spec (sib t x) 0) as [Z | Z].
    { exists t, c. rewrite Z in Wt. pose proof (R_refl t). auto 8. }
    destruct (mk (sib t x)) eqn:M.
    2: { exists t, c. pose proof (R_refl t). split; [easy |]. split; [easy |]. split; [| auto].
         intros y P Q T. destruct (Wt y P Q T) as [G | G]; [now left | congruence]. }
    destruct (chain_app _ _ _ _ C) as (h & C1 & _). cbn [chain] in C1. destruct C1 as (-> & Nx & C1).
    destruct r as [| s r]; cbn [chain] in C1; [contradiction |]. destruct C1 as (Es & Ns & C1). rewrite Es in *.
    assert (Ps : par t s = p) by (apply I3; [easy |]; rewrite E, in_app_iff; right; right; now left).
    cbn [rem_sibling]. rewrite Es. destruct (Nat.eqb_spec s 0); [easy |]. rewrite Nat.eqb_refl, Ps, Px, Nat.eqb_refl.
    assert (E2 : c p = (l ++ [x]) ++ s :: r) by (now rewrite <- app_assoc).
    change (sib (set_par t s 0) s) with (sib t s).
    assert (Ec : set_sib (set_par t s 0) x (sib t s) = cut t p s (l ++ [x])).
    { unfold cut. rewrite last_last. destruct (l ++ [x]) eqn:Q; [| reflexivity]. now destruct l. }
    rewrite Ec. destruct (cut_ok t c p (l ++ [x]) s r) as (A & B & D & F & _); auto.
    assert (Nxs : x <> s). { intros ->. apply NoDup_remove_2 in N. apply N. rewrite in_app_iff. right. now left. }
    assert (Sx : sib (cut t p s (l ++ [x])) x = sib t s) by (rewrite <- Ec; cbn [set_sib sib]; apply put_eq).
    destruct (IH (cut t p s (l ++ [x])) (upd c p ((l ++ [x]) ++ r)) x p A) as (t' & c' & K1 & K2 & K3 & K4 & K5); auto.
    - intros y P Q T. rewrite F in P. unfold put in P. destruct (Nat.eqb_spec y s) as [Ey | Ny]; [rewrite Ey in * |].
      + right. rewrite Sx. apply D. now right.
      + rewrite D in * by now left. left. rewrite F. unfold put. destruct (Nat.eqb_spec (sib t y) s); [easy |]. destruct (Wt y P Q T); [easy | contradiction].
    - rewrite F. now rewrite put_ne.
    - exists l, r. unfold upd. rewrite Nat.eqb_refl, <- app_assoc. split; [easy |]. cbn [length] in Hf. lia.
    - exists t', c'. split; [easy |]. split; [easy |]. split; [easy |]. split; [eapply R_trans; eauto | easy].
  Qed.

  Lemma drop_next_detached f : forall t c x, J t c -> W t 0 -> x <> 0 -> par t x = 0 -> 0 < f ->
    (sib t x <> 0 -> S (rk (sib t x)) < f) ->
    exists t' c', drop_next mk f t x = Some t' /\ J t' c' /\ W t' 0 /\ R t t' /\ (sib t' x = 0 \/ mk (sib t' x) = false).
  Proof.
    induction f as [| f IH]; intros t c x Jt Wt Hx Px Hf B; [lia |]. cbn [drop_next].
    destruct (Nat.eqb_spec (sib t x) 0) as [Z | Z]; [exists t, c; pose proof (R_refl t); auto 8 |].
    destruct (mk (sib t x)) eqn:M; [| exists t, c; pose proof (R_refl t); auto 8].
    set (s := sib t x) in *. assert (Ps : par t s = 0) by (destruct (Wt x Px Z M); [easy | contradiction]).
    pose proof Jt as [I S K A].
    pose proof (A x Z) as Ax. fold s in Ax.
    cbn [rem_sibling]. fold s. destruct (Nat.eqb_spec s 0); [easy |]. rewrite Nat.eqb_refl, Ps, Px, Nat.eqb_refl. change (sib (set_par t s 0) s) with (sib t s).
    set (t1 := set_sib (set_par t s 0) x (sib t s)).
    assert (Ep : forall y, par t1 y = par t y) by (intros y; unfold t1; cbn; unfold put; destruct (Nat.eqb_spec y s); congruence).
    assert (Sx : sib t1 x = sib t s) by (unfold t1; cbn; apply put_eq).
    assert (Sy : forall y, y <> x -> sib t1 y = sib t y) by (intros y Hy; unfold t1; cbn; now apply put_ne).
    assert (J1 : J t1 c).
    { split; [| easy | easy |].
      - destruct I as (I1 & I2 & I3 & _ & I5). unfold inv. cbn [any ch stale] in *. split; [| split; [easy | split; [| split; [easy |]]]].
        + intros p Hp. unfold t1. cbn [set_sib set_par chi sib]. apply chain_put; [| auto]. intros Q. apply I3 in Q; [congruence | easy].
        + intros p y Hp. rewrite Ep. auto.
        + now rewrite Ep.
      - intros y. destruct (Nat.eq_dec y x) as [-> | Ny]; [| rewrite Sy by easy; apply A]. rewrite Sx. intros Q. pose proof (A s Q). lia. }
    assert (W1 : W t1 0).
    { intros y. rewrite !Ep. destruct (Nat.eq_dec y x) as [-> | Ny]; [rewrite Sx | rewrite Sy by easy; apply Wt]. intros _ Q T. now apply Wt. }
    assert (R1 : R t t1).
    { split; [intros y; left; apply Ep | now left |]. intros y. destruct (Nat.eq_dec y x) as [-> | Ny]; [auto | left; now apply Sy]. }
    specialize (B Z). fold s in B.
    destruct (IH t1 c x J1 W1 Hx) as (t' & c' & K1 & K2 & K3 & K4 & K5); [now rewrite Ep | lia | |].
    - rewrite Sx. intros Q. pose proof (A s Q). lia.
    - exists t', c'. split; [easy |]. split; [easy |]. split; [easy |]. split; [eapply R_trans; eauto | easy].
  Qed.

  Lemma unlink_ok t c x f : J t c -> W t 0 -> x <> 0 -> (forall p, p <> 0 -> S (length (c0 p)) < f) -> S (rk x) < f ->
    exists t' c', unlink mk f t x = Some t' /\ J t' c' /\ W t' 0 /\ R t t' /\ D1 t' x /\ D2 t' x /\ D3 t' x.
  Proof.
    intros Jt Wt Hx Hf Hr. unfold unlink.
    destruct (leave_ok t c x f Jt Wt Hx) as (t1 & c1 & E1 & J1 & W1 & R1 & Q1); [intros p Hp; specialize (Hf p Hp); lia |]. rewrite E1.
    destruct (drop_first_ok f t1 c1 x J1) as (t2 & c2 & E2 & J2 & W2 & R2 & Q2); [| easy | |].
    { intros y P Q T. destruct (W1 y P Q T); [now left | contradiction]. }
    { pose proof (J_len t1 c1 x J1 Hx). specialize (Hf x Hx). lia. }
    rewrite E2.
    assert (K : exists t' c', drop_next mk f t2 x = Some t' /\ J t' c' /\ W t' 0 /\ R t2 t' /\ (sib t' x = 0 \/ mk (sib t' x) = false)).
    { destruct (Nat.eq_dec (par t2 x) 0) as [Z | Z].
      - apply (drop_next_detached f t2 c2 x); auto.
        + lia.
        + intros Q. pose proof (J_rank _ _ J2 x Q). lia.
      - apply (drop_next_attached f t2 c2 x (par t2 x)); auto.
        + intros y P Q T. destruct (W2 y P Q T); [now left | contradiction].
        + pose proof J2 as [I _ _ _]. destruct I as (_ & _ & I3 & _). cbn [any ch] in I3. assert (In x (c2 (par t2 x))) as Q by now apply I3.
          apply in_split in Q. destruct Q as (l & r & Q). exists l, r. split; [easy |]. pose proof (J_len t2 c2 _ J2 Z) as L. rewrite Q, app_length in L. cbn [length] in L. specialize (Hf _ Z). lia. }
    destruct K as (t3 & c3 & E3 & J3 & W3 & R3 & Q3). exists t3, c3. split; [easy |]. split; [easy |]. split; [easy |].
    split; [eapply R_trans; [exact R1 |]; eapply R_trans; eauto |]. split; [eapply D1_R; [exact R3 |]; eapply D1_R; eauto |]. split; [eapply D2_R; eauto |]. intros _ _ _. exact Q3.
  Qed.
  Lemma unlink_all_ok f l : (forall p, p <> 0 -> S (length (c0 p)) < f) -> (forall x, In x l -> S (rk x) < f) -> forall t c, J t c -> W t 0 -> ~ In 0 l ->
    exists t' c', unlink_all mk f t l = Some t' /\ J t' c' /\ W t' 0 /\ R t t' /\ forall x, In x l -> D1 t' x /\ D2 t' x /\ D3 t' x.
  Proof.
    intros Hf Hr. induction l as [| x l IH]; intros t c Jt Wt Hl; cbn [unlink_all].
    - exists t, c. pose proof (R_refl t). split; [easy |]. split; [easy |]. split; [easy |]. split; [easy |]. intros x [].
    - cbn [In] in Hl. destruct (unlink_ok t c x f Jt Wt) as (t1 & c1 & E1 & J1 & W1 & R1 & Q1 & Q2 & Q3); [tauto | easy | apply Hr; now left |]. rewrite E1.
      destruct (IH (fun y Hy => Hr y (or_intror Hy)) t1 c1 J1 W1) as (t2 & c2 & E2 & J2 & W2 & R2 & Q); [tauto |]. exists t2, c2. split; [easy |]. split; [easy |]. split; [easy |]. split; [eapply R_trans; eauto |].
      intros y [<- | Hy]; [| auto]. split; [eapply D1_R; eauto |]. split; [eapply D2_R; eauto | eapply D3_R; eauto].
  Qed.
  Lemma final t c l : J t c -> (forall x, In x l -> D1 t x /\ D2 t x /\ D3 t x) ->
    (forall p, p <> 0 -> c0 p <> [] -> In p l) -> (forall p x, p <> 0 -> In x (c0 p) -> In x l) ->
    forall p, p <> 0 -> c p = if mk p then [] else filter um (c0 p).
  Proof.
    intros Jt D Hc Hx p Hp. pose proof Jt as [I S K _]. pose proof I as (I1 & _ & I3 & _). cbn [any ch] in *. destruct (mk p) eqn:M.
    - destruct (c p) as [| x r] eqn:E; [easy |]. exfalso. assert (In x (c p)) as Q by (rewrite E; now left). destruct (D x) as (D1x & _); [eapply Hx; [exact Hp |]; now apply S |].
      apply I3 in Q; [| easy]. unfold D1 in D1x. rewrite Q in D1x. destruct D1x; congruence.
    - rewrite <- K by easy. assert (F : Forall (fun x => mk x = false) (c p)).
      { pose proof (I1 p Hp) as C. destruct (c p) as [| x0 r0] eqn:E; [constructor |]. rewrite <- E in C.
        assert (P : forall l1 l2 h, c p = l1 ++ l2 -> chain (sib t) h l2 -> h = 0 \/ mk h = false -> Forall (fun x => mk x = false) l2).
        { intros l1 l2. revert l1. induction l2 as [| y l2 IH]; intros l1 h E1 C1 G; [constructor |]. cbn [chain] in C1. destruct C1 as (-> & Ny & C1).
          assert (My : mk y = false) by (destruct G; [contradiction | easy]). constructor; [easy |]. apply (IH (l1 ++ [y]) (sib t y)); [now rewrite <- app_assoc | easy |].
          assert (Iy : In y (c p)) by (rewrite E1, in_app_iff; right; now left). assert (Py : par t y = p) by now apply I3.
          destruct (D y) as (_ & _ & D3y); [eapply Hx; [exact Hp |]; now apply S |]. apply D3y; congruence. }
        rewrite <- E. apply (P [] (c p) (chi t p)); [easy | easy |]. destruct (D p) as (_ & D2p & _); [apply Hc; [easy |]; intros Q | now apply D2p].
        assert (In x0 (c0 p)) as Z by (apply S; [easy |]; rewrite E; now left). now rewrite Q in Z. }
      symmetry. clear - F. induction F as [| x r Q F IH]; [easy |]. cbn [filter]. unfold um at 1. rewrite Q. cbn [negb]. now rewrite IH.
  Qed.
End Unlink.

(** the result for a mesh whose detached sets do not point at marked ones with a parent *)
Lemma unlink_all_final mk rk t g l : inv t g -> (forall x, sib t x <> 0 -> rk (sib t x) < rk x) ->
  (forall x, par t x = 0 -> sib t x <> 0 -> mk (sib t x) = true -> par t (sib t x) = 0) ->
  (forall p x, p <> 0 -> mk p = true -> In x (ch g p) -> mk x = false) ->
  ~ In 0 l -> (forall p, p <> 0 -> ch g p <> [] -> In p l) -> (forall p x, p <> 0 -> In x (ch g p) -> In x l) ->
  exists n, forall f, n <= f -> exists t' c, unlink_all mk f t l = Some t' /\ inv t' (any c) /\
    forall p, p <> 0 -> c p = if mk p then [] else filter (fun x => negb (mk x)) (ch g p).
Proof.
  intros I Hr Hd H0 Hl Hc Hx.
  exists (S (S (S (list_max (map (fun p => length (ch g p)) l) + list_max (map rk l))))). intros f Hf.
  assert (B : forall p, p <> 0 -> S (length (ch g p)) < f).
  { intros p Hp. destruct (ch g p) as [| x r] eqn:E; [cbn [length]; lia |]. rewrite <- E. assert (In p l) as P by (apply Hc; [easy | now rewrite E]).
    assert (length (ch g p) <= list_max (map (fun p => length (ch g p)) l)); [| lia].
    pose proof (proj1 (list_max_le (map (fun p => length (ch g p)) l) _) (Nat.le_refl _)) as Q. rewrite Forall_forall in Q. apply Q. apply in_map_iff. now exists p. }
  assert (B2 : forall x, In x l -> S (rk x) < f).
  { intros x Ix. assert (rk x <= list_max (map rk l)); [| lia].
    pose proof (proj1 (list_max_le (map rk l) _) (Nat.le_refl _)) as Q. rewrite Forall_forall in Q. apply Q. apply in_map_iff. now exists x. }
  assert (J0 : J mk (ch g) rk t (ch g)) by (split; [exact (inv_any t g (ch g) (fun p _ => eq_refl) I) | easy | easy | easy]).
  assert (W0 : W mk t 0) by (intros x P Q T; left; auto).
  destruct (unlink_all_ok mk (ch g) rk H0 f l B B2 t (ch g) J0 W0 Hl) as (t' & c & E & J' & _ & _ & D).
  exists t', c. split; [easy |]. split; [apply (J_inv _ _ _ _ _ J') |]. apply (final mk (ch g) rk t' c l J' D Hc Hx).
Qed.

(** * The links to siblings never close a circle *)
Definition ranked (t : tree) : Prop := exists rk : nat -> nat, forall x, sib t x <> 0 -> rk (sib t x) < rk x.
Lemma ranked_skip t t' a : ranked t -> (forall x, sib t' x = put (sib t) a (sib t (sib t a)) x) -> sib t a <> 0 -> ranked t'.
Proof.
  intros (rk & H) E Na. exists rk. intros x. rewrite E. unfold put. destruct (Nat.eqb_spec x a) as [-> | N]; [| apply H]. intros Q. pose proof (H _ Q). pose proof (H _ Na). lia.
Qed.
Lemma ranked_same t t' : ranked t -> (forall x, sib t' x = sib t x) -> ranked t'.
Proof. intros (rk & H) E. exists rk. intros x. rewrite E. apply H. Qed.
Lemma ranked_zero t t' a : ranked t -> (forall x, sib t' x = put (sib t) a 0 x) -> ranked t'.
Proof. intros (rk & H) E. exists rk. intros x. rewrite E. unfold put. destruct (x =? a); [contradiction | apply H]. Qed.
Lemma ranked_add t t' a c : ranked t -> (forall x, sib t' x = put (sib t) a c x) -> sib t c = 0 -> a <> c -> ranked t'.
Proof.
  intros (rk & H) E Z N. exists (fun x => if x =? c then 0 else S (rk x)). intros x. rewrite E. unfold put. destruct (Nat.eqb_spec x a) as [-> | Nx].
  - intros _. rewrite Nat.eqb_refl. destruct (Nat.eqb_spec a c); [contradiction | lia].
  - intros Q. destruct (Nat.eqb_spec x c) as [-> | Nc]; [contradiction |]. destruct (sib t x =? c); [lia |]. pose proof (H x Q). lia.
Qed.
Lemma rem_sibling_ranked f : forall t a s t', ranked t -> rem_sibling f t a s = Some t' -> ranked t'.
Proof.
  induction f as [| f IH]; intros t a s t' K E; cbn [rem_sibling] in E; [discriminate |]. destruct (Nat.eqb_spec (sib t a) 0); [discriminate |].
  destruct (Nat.eqb_spec (sib t a) s) as [Q |]; [| eauto]. destruct (_ =? _); [| discriminate]. injection E as <-. apply (ranked_skip t _ a K); [| easy]. intros x. cbn. now rewrite Q.
Qed.
Lemma rem_child_ranked f t p c t' : ranked t -> rem_child f t p c = Some t' -> ranked t'.
Proof.
  intros K. unfold rem_child. destruct (chi t p =? 0); [discriminate |]. destruct (chi t p =? c); [| apply rem_sibling_ranked; easy].
  destruct (_ =? _); [| discriminate]. intros [= <-]. now apply (ranked_same t).
Qed.
Lemma add_sibling_ranked f : forall t a s t', ranked t -> sib t s = 0 -> par t s = 0 -> add_sibling f t a s = Some t' -> ranked t'.
Proof.
  induction f as [| f IH]; intros t a s t' K Z P E; cbn [add_sibling] in E; [discriminate |]. destruct (Nat.eqb_spec (par t a) 0) as [| Pa]; [discriminate |].
  destruct (Nat.eqb_spec (sib t a) 0); [| eauto]. destruct (_ =? _); [| discriminate]. injection E as <-. apply (ranked_add t _ a s K); [easy | easy |]. intros ->. contradiction.
Qed.
Lemma drop_children_ranked f : forall t h t', ranked t -> drop_children f t h = Some t' -> ranked t'.
Proof.
  induction f as [| f IH]; intros t h t' K E; cbn [drop_children] in E; [discriminate |]. destruct (chi t h =? 0); [now injection E as <- |].
  destruct (rem_child (S f) t h (chi t h)) as [t1 |] eqn:Q; [| discriminate]. apply rem_child_ranked in Q; eauto.
Qed.
Lemma detach_ranked f t h t' : ranked t -> detach f t h = Some t' -> ranked t'.
Proof. intros K. unfold detach. destruct (par t h =? 0); [now intros [= <-] |]. now apply rem_child_ranked. Qed.

(** * Elements of a set *)
Lemma lset_split (a : list nat) h b v : lset (a ++ h :: b) (length a) v = a ++ v :: b.
Proof. induction a as [| x a IH]; cbn [app length lset]; [easy |]. now rewrite IH. Qed.
Lemma next_pos_split (a z b : list nat) : Forall (fun h => h = 0) z -> (match b with [] => True | h :: _ => h <> 0 end) ->
  next_pos (fun _ => false) (z ++ b) (length a) = length (a ++ z).
Proof.
  intros F. revert a. induction F as [| h z -> F IH]; intros a Hb.
  - cbn [app]. rewrite app_nil_r. destruct b as [| h b]; cbn [next_pos]; [easy |]. destruct (Nat.eqb_spec h 0); [contradiction |]. easy.
  - cbn [app next_pos]. cbn [Nat.eqb orb]. specialize (IH (a ++ [0]) Hb). rewrite app_length in IH. cbn [length] in IH. rewrite Nat.add_1_r in IH. rewrite IH, <- app_assoc. reflexivity.
Qed.
Lemma zeros_first (l : list nat) : exists z b, l = z ++ b /\ Forall (fun h => h = 0) z /\ match b with [] => True | h :: _ => h <> 0 end.
Proof.
  induction l as [| h l (z & b & -> & F & B)]; [exists [], []; auto |]. destruct (Nat.eq_dec h 0) as [-> | N].
  - exists (0 :: z), b. auto.
  - exists [], (h :: z ++ b). auto.
Qed.
Definition wipe (mk : nat -> bool) (l : list nat) : list nat := map (fun h => if negb (h =? 0) && mk h then 0 else h) l.
Lemma wipe_zeros mk z : Forall (fun h => h = 0) z -> wipe mk z = z.
Proof. induction 1 as [| h z -> F IH]; [easy |]. cbn. unfold wipe in IH. now rewrite IH. Qed.
Lemma wipe_app mk a b : wipe mk (a ++ b) = wipe mk a ++ wipe mk b.
Proof. apply map_app. Qed.
Fixpoint gone (mk : nat -> bool) (i : nat) (l : list nat) : list nat :=
  match l with [] => [] | h :: r => if negb (h =? 0) && mk h then gone mk (S i) r ++ [i] else gone mk (S i) r end.
Lemma gone_zeros mk z b i : Forall (fun h => h = 0) z -> gone mk i (z ++ b) = gone mk (i + length z) b.
Proof.
  intros F. revert i. induction F as [| h z -> F IH]; intros i; cbn [app gone length]; [now rewrite Nat.add_0_r |]. cbn [Nat.eqb negb andb]. rewrite IH. f_equal. lia.
Qed.
Lemma erase_marked_ok mk : forall n b f a hs k, length b = n -> length b < f -> (match b with [] => True | h :: _ => h <> 0 end) ->
  erase_marked mk (fun _ => false) f (ESet (a ++ b) hs k) (length a) = Some (ESet (a ++ wipe mk b) (gone mk (length a) b ++ hs) k).
Proof.
  intros n. induction n as [n IH] using lt_wf_ind. intros b f a hs k Hn Hf Hb. destruct f as [| f]; [lia |]. cbn [erase_marked lc].
  destruct b as [| h b].
  - cbn [wipe map gone app]. now rewrite !app_nil_r, Nat.eqb_refl.
  - rewrite app_length. cbn [length] in *. destruct (Nat.eqb_spec (length a) (length a + S (length b))); [lia |].
    rewrite app_nth2, Nat.sub_diag by lia. cbn [nth].
    destruct (zeros_first b) as (z & q & -> & F & Q). rewrite app_length in *.
    assert (G : forall v : nat, iter_next (fun _ => false) (a ++ v :: z ++ q) (length a) = length (a ++ v :: z)).
    { intros v. unfold iter_next. replace (skipn (S (length a)) (a ++ v :: z ++ q)) with (z ++ q).
      - pose proof (next_pos_split (a ++ [v]) z q F Q) as P. rewrite app_length in P. cbn [length] in P. rewrite Nat.add_1_r in P. rewrite P. now rewrite <- app_assoc.
      - rewrite skipn_app, skipn_all2 by lia. replace (S (length a) - length a) with 1 by lia. reflexivity. }
    assert (K : forall v hs', erase_marked mk (fun _ => false) f (ESet (a ++ v :: z ++ q) hs' k) (length (a ++ v :: z)) =
       Some (ESet (a ++ v :: wipe mk (z ++ q)) (gone mk (S (length a)) (z ++ q) ++ hs') k)).
    { intros v hs'. replace (a ++ v :: z ++ q) with ((a ++ v :: z) ++ q) by (rewrite <- app_assoc; reflexivity). rewrite (IH (length q)); try easy; try lia.
      rewrite gone_zeros by easy. rewrite wipe_app, (wipe_zeros mk z) by easy. rewrite <- app_assoc. cbn [app]. rewrite app_length. cbn [length]. replace (S (length a) + length z) with (length a + S (length z)) by lia. reflexivity. }
    cbn [wipe map gone]. fold (wipe mk (z ++ q)). destruct (Nat.eqb_spec h 0); [contradiction |]. cbn [negb andb]. destruct (mk h).
    + unfold erase. cbn [lc]. rewrite nth_error_app2, Nat.sub_diag by lia. cbn [nth_error]. destruct (Nat.eqb_spec h 0); [contradiction |].
      unfold drop_at. cbn [lc holes srtd]. rewrite lset_split. rewrite (G 0). rewrite (K 0). now rewrite <- app_assoc.
    + rewrite (G h). apply (K h).
Qed.
Lemma purge_set_ok mk s f : length (lc s) < f ->
  purge_set mk (fun _ => false) f s = Some (ESet (wipe mk (lc s)) (gone mk 0 (lc s) ++ holes s) (srtd s)).
Proof.
  intros Hf. unfold purge_set, iter_begin. destruct s as [l hs k]. cbn [lc holes srtd] in *. destruct (zeros_first l) as (z & q & -> & F & Q).
  pose proof (next_pos_split [] z q F Q) as P. cbn [length app] in P. rewrite P, (erase_marked_ok mk (length q)) by (rewrite ?app_length in *; auto; lia).
  rewrite gone_zeros by easy. now rewrite wipe_app, (wipe_zeros mk z).
Qed.
Lemma gone_in mk l : forall i k, In k (gone mk i l) <-> i <= k /\ k < i + length l /\ nth (k - i) l 0 <> 0 /\ mk (nth (k - i) l 0) = true.
Proof.
  induction l as [| h l IH]; intros i k; cbn [gone length]; [cbn; lia |].
  assert (E : In k (gone mk (S i) l) <-> i < k /\ k < i + S (length l) /\ nth (k - i) (h :: l) 0 <> 0 /\ mk (nth (k - i) (h :: l) 0) = true).
  { rewrite IH. destruct (Nat.lt_ge_cases i k) as [L | L]; [| split; intros; lia]. replace (k - i) with (S (k - S i)) by lia. cbn [nth]. intuition lia. }
  destruct (Nat.eqb_spec h 0) as [Z | Z]; cbn [negb andb].
  - rewrite E. destruct (Nat.eq_dec k i) as [-> | N]; [rewrite Nat.sub_diag; cbn [nth]; intuition lia | intuition lia].
  - destruct (mk h) eqn:M.
    + rewrite in_app_iff, E. cbn [In]. destruct (Nat.eq_dec k i) as [-> | N]; [rewrite Nat.sub_diag; cbn [nth]; intuition lia | intuition lia].
    + rewrite E. destruct (Nat.eq_dec k i) as [-> | N]; [rewrite Nat.sub_diag; cbn [nth]; intuition (congruence || lia) | intuition lia].
Qed.
