From Coq Require Import List Arith ZArith Bool Lia Permutation.
From Verif Require Import Adj_Model.
Import ListNotations.
Local Open Scope nat_scope.

(** * Basic facts *)
Lemma elem_dec : forall x y : elem, {x = y} + {x <> y}.
Proof. decide equality; apply Nat.eq_dec. Defined.
Lemma eqe_spec x y : eqe x y = true <-> x = y.
Proof.
  unfold eqe. rewrite andb_true_iff, !Nat.eqb_eq. destruct x as [a b], y as [c d]; cbn.
  split; [intros (-> & ->); reflexivity|intros H; inversion H; auto].
Qed.
Lemma eqe_refl x : eqe x x = true.
Proof. apply eqe_spec. reflexivity. Qed.
Lemma eqe_neq x y : eqe x y = false <-> x <> y.
Proof. rewrite <- eqe_spec. destruct (eqe x y); split; congruence. Qed.
Lemma eqe_sym x y : eqe x y = eqe y x.
Proof. destruct (eqe x y) eqn:E; symmetry; [apply eqe_spec in E; subst; apply eqe_refl|]. apply eqe_neq in E. apply eqe_neq. congruence. Qed.
Lemma upd_same {A} (f : elem -> A) x v : upd f x v x = v.
Proof. unfold upd. rewrite eqe_refl. reflexivity. Qed.
Lemma upd_other {A} (f : elem -> A) x v y : y <> x -> upd f x v y = f y.
Proof. unfold upd. intros N. apply eqe_neq in N. rewrite N. reflexivity. Qed.
Lemma updn_same {A} (f : nat -> A) x v : updn f x v x = v.
Proof. unfold updn. rewrite Nat.eqb_refl. reflexivity. Qed.
Lemma updn_other {A} (f : nat -> A) x v y : y <> x -> updn f x v y = f y.
Proof. unfold updn. intros N. apply Nat.eqb_neq in N. rewrite N. reflexivity. Qed.
Lemma has_spec l x : has l x = true <-> In x l.
Proof.
  unfold has. rewrite existsb_exists. split.
  - intros (y & I & E). apply eqe_spec in E. subst. assumption.
  - intros I. exists x. split; [assumption|apply eqe_refl].
Qed.
Lemma has_false l x : has l x = false <-> ~ In x l.
Proof. rewrite <- has_spec. destruct (has l x); split; congruence. Qed.

Notation cnt := (count_occ elem_dec).
Lemma cnt_pos l x : In x l <-> cnt l x > 0.
Proof. apply count_occ_In. Qed.
Lemma cnt_zero l x : ~ In x l -> cnt l x = 0.
Proof. intros N. pose proof (cnt_pos l x). destruct (cnt l x); [reflexivity|]. exfalso. apply N. apply H. lia. Qed.
Lemma cnt_filter p l x : cnt (filter p l) x = if p x then cnt l x else 0.
Proof.
  induction l as [|y r IH]; cbn; [destruct (p x); reflexivity|].
  destruct (p y) eqn:P; cbn; destruct (elem_dec y x) as [->|N]; rewrite IH; try rewrite P; try reflexivity.
Qed.
Lemma erase_in h l x : In x (erase h l) <-> In x l /\ x <> h.
Proof. unfold erase. rewrite filter_In, negb_true_iff, eqe_neq. reflexivity. Qed.
Lemma erase_id h l : ~ In h l -> erase h l = l.
Proof.
  unfold erase. induction l as [|y r IH]; intros N; [reflexivity|]. cbn.
  assert (E : eqe y h = false) by (apply eqe_neq; intros ->; apply N; left; reflexivity).
  rewrite E. cbn. f_equal. apply IH. intros I. apply N. right. assumption.
Qed.
Lemma filter_filter {A} (p q : A -> bool) l : filter p (filter q l) = filter (fun x => q x && p x) l.
Proof.
  induction l as [|x r IH]; [reflexivity|]. cbn. destruct (q x); cbn; [|assumption].
  destruct (p x); [f_equal|]; assumption.
Qed.
Lemma filter_sub {A} (p q : A -> bool) l : (forall x, p x = true -> q x = true) -> filter p (filter q l) = filter p l.
Proof.
  intros H. rewrite filter_filter. apply filter_ext. intros x. destruct (p x) eqn:P.
  - rewrite (H _ P). reflexivity.
  - apply andb_false_r.
Qed.
Lemma filter_all {A} (p : A -> bool) l : (forall x, In x l -> p x = true) -> filter p l = l.
Proof.
  induction l as [|x r IH]; intros H; [reflexivity|]. cbn. rewrite (H x (or_introl eq_refl)). f_equal.
  apply IH. intros y I. apply H. right. assumption.
Qed.
Lemma filter_nothing {A} (p : A -> bool) l : (forall x, In x l -> p x = false) -> filter p l = [].
Proof.
  induction l as [|x r IH]; intros H; [reflexivity|]. cbn. rewrite (H x (or_introl eq_refl)).
  apply IH. intros y I. apply H. right. assumption.
Qed.
Lemma filter_ext_in' {A} (p q : A -> bool) l : (forall x, In x l -> p x = q x) -> filter p l = filter q l.
Proof. apply filter_ext_in. Qed.

(** * Swapping back *)
(** what SwapBackCell may do to one upper list *)
Definition swapped (vis : elem -> bool) (h : elem) (l l' : list elem) : Prop :=
  Permutation l l' /\
  (forall p, p h = false -> (forall z, p z = true -> vis z = true) -> filter p l' = filter p l) /\
  (vis h = false -> l' = l).
Lemma swapped_refl vis h l : swapped vis h l l.
Proof. split; [reflexivity|]. split; reflexivity. Qed.
Lemma swapped_trans vis h a b c : swapped vis h a b -> swapped vis h b c -> swapped vis h a c.
Proof.
  intros (A1 & A2 & A3) (B1 & B2 & B3). split; [etransitivity; eassumption|]. split.
  - intros p P Q. rewrite B2, A2 by assumption. reflexivity.
  - intros V. rewrite B3, A3 by assumption. reflexivity.
Qed.
Lemma put_next_spec vis h l y l' : put_next vis h l = Some (y, l') ->
  exists a b, l = a ++ y :: b /\ l' = a ++ h :: b /\ (forall z, In z a -> vis z = false) /\ vis y = true.
Proof.
  revert l'. induction l as [|x r IH]; intros l'; cbn [put_next]; [discriminate|].
  destruct (vis x) eqn:V.
  - intros H. inversion H; subst. exists [], r. cbn. repeat split; auto. intros z [].
  - destruct (put_next vis h r) as [[y' r']|]; [|discriminate]. intros H. inversion H; subst.
    destruct (IH _ eq_refl) as (a & b & -> & -> & A & Y). exists (x :: a), b. cbn. repeat split; auto.
    intros z [<-|Z]; auto.
Qed.
Lemma swap_first_spec vis h l : length (filter vis l) = 2 -> swapped vis h l (swap_first vis h l).
Proof.
  intros L.
  assert (G : swap_first vis h l = l \/ exists a b c y, l = a ++ h :: b ++ y :: c /\
      swap_first vis h l = a ++ y :: b ++ h :: c /\ vis h = true /\ vis y = true /\
      (forall z, In z a -> vis z = false) /\ (forall z, In z b -> vis z = false)).
  { clear L. induction l as [|x r IH]; cbn [swap_first]; [auto|]. destruct (vis x) eqn:V.
    - destruct (eqe x h) eqn:E; [|auto]. apply eqe_spec in E. subst x.
      destruct (put_next vis h r) as [[y r']|] eqn:P; [|auto]. right.
      apply put_next_spec in P. destruct P as (b & c & -> & -> & B & Y).
      exists [], b, c, y. cbn. repeat split; auto. intros z [].
    - destruct IH as [->|(a & b & c & y & -> & -> & H1 & H2 & H3 & H4)]; [auto|].
      right. exists (x :: a), b, c, y. cbn. repeat split; auto. intros z [<-|Z]; auto. }
  destruct G as [->|(a & b & c & y & -> & -> & H1 & H2 & H3 & H4)]; [apply swapped_refl|].
  split; [|split].
  - apply Permutation_app_head.
    transitivity (h :: y :: b ++ c).
    { constructor. symmetry. apply Permutation_middle. }
    transitivity (y :: h :: b ++ c); [constructor|]. constructor. apply Permutation_middle.
  - intros p P Q. rewrite !filter_app in *. cbn [filter] in *. rewrite !filter_app in *. cbn [filter] in *. rewrite P.
    assert (B : filter p b = []).
    { apply filter_nothing. intros z Z. destruct (p z) eqn:PZ; [|reflexivity]. apply Q in PZ. rewrite (H4 _ Z) in PZ. discriminate. }
    rewrite B. cbn [app]. destruct (p y); reflexivity.
  - congruence.
Qed.
Lemma set_conn_eta m : set_conn m (low m) (high m) = m.
Proof. destruct m. reflexivity. Qed.
Lemma swap_back_spec m h : exists hh, swap_back m h = set_conn m (low m) hh /\
  forall x, swapped (visible m) h (high m x) (hh x).
Proof.
  unfold swap_back. generalize (low m h) as fs. intros fs. revert m.
  induction fs as [|f r IH]; intros m; cbn [fold_left].
  - exists (high m). rewrite set_conn_eta. split; [reflexivity|]. intros x. apply swapped_refl.
  - destruct (visible m f && (length (filter (visible m) (high m f)) =? 2)) eqn:C; [|apply IH].
    apply andb_true_iff in C. destruct C as (_ & C). apply Nat.eqb_eq in C.
    destruct (IH (set_high m f (swap_first (visible m) h (high m f)))) as (hh & E & S1).
    exists hh. split; [exact E|]. intros x. eapply swapped_trans; [|exact (S1 x)].
    cbn [set_high set_conn high]. unfold upd. destruct (eqe x f) eqn:Q; [|apply swapped_refl].
    apply eqe_spec in Q. subst x. apply swap_first_spec. assumption.
Qed.

(** * The loops of Disconnect *)
Lemma cut_spec h us : forall m, exists ll del, cut h us m = (set_conn m ll (high m), del) /\
  (forall y, ll y = if has us y then erase h (low m y) else low m y) /\
  NoDup del /\ (forall u, In u del <-> In u us /\ In h (low m u)).
Proof.
  induction us as [|u r IH]; intros m; cbn [cut].
  - exists (low m), []. rewrite set_conn_eta. split; [reflexivity|]. split; [reflexivity|]. split; [constructor|]. intros u. cbn. tauto.
  - destruct (IH (set_low m u (erase h (low m u)))) as (ll & del & E & L & N & D).
    rewrite E. exists ll, (if has (low m u) h then u :: del else del). split; [reflexivity|].
    cbn [set_low set_conn low high] in *.
    assert (X : forall v, In v del <-> In v r /\ In h (low m v) /\ v <> u).
    { intros v. rewrite D. destruct (elem_dec v u) as [->|Q].
      - rewrite upd_same, erase_in. tauto.
      - rewrite upd_other by assumption. tauto. }
    split; [|split].
    + intros y. rewrite L. cbn [has existsb]. fold (has r y). destruct (elem_dec y u) as [->|Q].
      * rewrite upd_same, eqe_refl. cbn. destruct (has r u); [|reflexivity].
        apply erase_id. rewrite erase_in. tauto.
      * rewrite upd_other by assumption. apply eqe_neq in Q. rewrite Q. reflexivity.
    + destruct (has (low m u) h); [|assumption]. constructor; [|assumption]. rewrite X. tauto.
    + intros v. destruct (has (low m u) h) eqn:F; cbn [In]; rewrite X.
      * apply has_spec in F. destruct (elem_dec v u) as [->|Q]; [tauto|]. intuition congruence.
      * apply has_false in F. split; [tauto|]. intros ([->|I] & J); [contradiction|].
        repeat split; auto. intros ->. contradiction.
Qed.
Lemma unlink_spec h ls : forall m, exists hh, unlink h ls m = set_conn m (low m) hh /\
  (forall y, hh y = if has ls y then erase h (high m y) else high m y).
Proof.
  unfold unlink. induction ls as [|u r IH]; intros m; cbn [fold_left].
  - exists (high m). rewrite set_conn_eta. split; reflexivity.
  - destruct (IH (set_high m u (erase h (high m u)))) as (hh & E & L). exists hh. split; [exact E|].
    intros y. rewrite L. cbn [set_high set_conn high has existsb]. fold (has r y). destruct (elem_dec y u) as [->|Q].
    + rewrite upd_same, eqe_refl. cbn. destruct (has r u); [|reflexivity]. apply erase_id. rewrite erase_in. tauto.
    + rewrite upd_other by assumption. apply eqe_neq in Q. rewrite Q. reflexivity.
Qed.

(** * Invariants *)
Definition lev (c : bool) (x y : elem) : Prop := fst y = S (fst x) \/ (fst x = 3 /\ fst y = 0 /\ c = true).
(** [E]: elements in the middle of their destruction; nothing refers to them from above *)
Record links (E : list elem) (m : mesh) : Prop := {
  l_sym : forall x y, ~ In x E -> cnt (low m y) x = cnt (high m x) y;
  l_cut : forall x y, In x E -> ~ In x (low m y);
  l_ok : forall x y, In x (low m y) -> alive m x = true /\ alive m y = true /\ lev (cn m) x y;
  l_dead : forall x, alive m x = false -> low m x = [] /\ high m x = [] /\ hid m x = false /\ nw m x = false }.
Record slots (m : mesh) : Prop := {
  s_rng : forall x, alive m x = true -> fst x < 4 /\ snd x < next m (fst x);
  s_free : forall t i, In i (free m t) <-> i < next m t /\ alive m (t, i) = false;
  s_nodup : forall t, NoDup (free m t) }.

Lemma links_in E m x y : links E m -> ~ In x E -> (In x (low m y) <-> In y (high m x)).
Proof. intros L N. rewrite !cnt_pos, (l_sym _ _ L x y N). reflexivity. Qed.
Lemma links_high E m x y : links E m -> ~ In x E -> In y (high m x) ->
  alive m x = true /\ alive m y = true /\ lev (cn m) x y.
Proof. intros L N I. apply (l_ok _ _ L). apply (links_in E); assumption. Qed.

(** what a destruction does to the state *)
Record killed (E : list elem) (m m' : mesh) : Prop := {
  k_alive : forall x, alive m' x = true -> alive m x = true;
  k_low : forall x, alive m' x = true -> low m' x = filter (alive m') (low m x);
  k_high : forall x, alive m' x = true -> ~ In x E -> high m' x = filter (alive m') (high m x);
  k_stale : forall x, In x E -> high m' x = high m x;
  k_dead : forall x, alive m' x = false -> low m' x = [] /\ (~ In x E -> high m' x = []) /\ hid m' x = false /\ nw m' x = false;
  k_hid : forall x, alive m' x = true -> hid m' x = hid m x;
  k_nw : forall x, nw m' x = true -> nw m x = true;
  k_mode : hon m' = hon m /\ non m' = non m /\ cn m' = cn m;
  k_next : forall t, next m' t = next m t;
  k_count : forall t, hcount m' t = hcount m t /\ hcount0 m' t = hcount0 m t;
  k_slots : slots m -> slots m' }.
Lemma killed_refl E m : links E m -> killed E m m.
Proof.
  intros L. constructor; auto.
  - intros x A. symmetry. apply filter_all. intros y I. apply (l_ok _ _ L _ _ I).
  - intros x A N. symmetry. apply filter_all. intros y I. apply (links_high E m x y L N I).
  - intros x A. destruct (l_dead _ _ L x A) as (H1 & H2 & H3). auto.
Qed.
Lemma killed_trans E m m1 m2 : killed E m m1 -> killed E m1 m2 -> killed E m m2.
Proof.
  intros A B. constructor.
  - intros x X. apply (k_alive _ _ _ A), (k_alive _ _ _ B), X.
  - intros x X. rewrite (k_low _ _ _ B x X), (k_low _ _ _ A x (k_alive _ _ _ B x X)).
    apply filter_sub. apply (k_alive _ _ _ B).
  - intros x X N. rewrite (k_high _ _ _ B x X N), (k_high _ _ _ A x (k_alive _ _ _ B x X) N).
    apply filter_sub. apply (k_alive _ _ _ B).
  - intros x X. rewrite (k_stale _ _ _ B x X). apply (k_stale _ _ _ A x X).
  - apply (k_dead _ _ _ B).
  - intros x X. rewrite (k_hid _ _ _ B x X). apply (k_hid _ _ _ A). apply (k_alive _ _ _ B), X.
  - intros x X. apply (k_nw _ _ _ A), (k_nw _ _ _ B), X.
  - destruct (k_mode _ _ _ A) as (A1 & A2 & A3), (k_mode _ _ _ B) as (B1 & B2 & B3).
    repeat split; congruence.
  - intros t. rewrite (k_next _ _ _ B). apply (k_next _ _ _ A).
  - intros t. destruct (k_count _ _ _ A t), (k_count _ _ _ B t). split; congruence.
  - intros S0. apply (k_slots _ _ _ B), (k_slots _ _ _ A), S0.
Qed.
Lemma killed_links E m m' : (forall x, In x E -> alive m' x = true) -> links E m -> killed E m m' -> links E m'.
Proof.
  intros EA L K. constructor.
  - intros x y N. destruct (alive m' y) eqn:Y.
    + rewrite (k_low _ _ _ K y Y), cnt_filter. destruct (alive m' x) eqn:X.
      * rewrite (k_high _ _ _ K x X N), cnt_filter, Y. apply (l_sym _ _ L x y N).
      * destruct (k_dead _ _ _ K x X) as (_ & H & _). rewrite (H N). reflexivity.
    + destruct (k_dead _ _ _ K y Y) as (-> & _). cbn [count_occ]. symmetry. apply cnt_zero. intros I.
      destruct (alive m' x) eqn:X.
      * rewrite (k_high _ _ _ K x X N) in I. apply filter_In in I. destruct I. congruence.
      * destruct (k_dead _ _ _ K x X) as (_ & H & _). rewrite (H N) in I. destruct I.
  - intros x y X I. destruct (alive m' y) eqn:Y.
    + rewrite (k_low _ _ _ K y Y) in I. apply filter_In in I. apply (l_cut _ _ L x y X). tauto.
    + destruct (k_dead _ _ _ K y Y) as (H & _). rewrite H in I. destruct I.
  - intros x y I. destruct (alive m' y) eqn:Y.
    + rewrite (k_low _ _ _ K y Y) in I. apply filter_In in I. destruct I as (I & X).
      destruct (l_ok _ _ L x y I) as (_ & _ & V). destruct (k_mode _ _ _ K) as (_ & _ & ->). auto.
    + destruct (k_dead _ _ _ K y Y) as (H & _). rewrite H in I. destruct I.
  - intros x X. destruct (k_dead _ _ _ K x X) as (H1 & H2 & H3 & H4).
    split; [assumption|]. split; [|auto]. apply H2. intros I. rewrite (EA x I) in X. discriminate.
Qed.

Lemma slots_ext m m' : alive m' = alive m -> (forall t, next m' t = next m t) -> (forall t, free m' t = free m t) -> slots m -> slots m'.
Proof.
  intros A N F S0. constructor.
  - intros x. rewrite A, N. apply (s_rng _ S0).
  - intros t i. rewrite A, N, F. apply (s_free _ S0).
  - intros t. rewrite F. apply (s_nodup _ S0).
Qed.
Lemma slots_untie m h m' : slots m -> alive m h = true -> untie m h = Some m' -> slots m'.
Proof.
  unfold untie. intros S0 A U. destruct (non m); [discriminate|]. inversion U; subst; clear U.
  destruct (s_rng _ S0 h A) as (R1 & R2). constructor; cbn [set_marks set_slots alive next free].
  - intros x. unfold upd. destruct (eqe x h); [discriminate|]. apply (s_rng _ S0).
  - intros t i. unfold upd, updn, eqe. cbn [fst snd]. destruct (Nat.eqb_spec t (fst h)) as [->|T]; cbn [andb].
    + cbn [In]. rewrite (s_free _ S0). destruct (Nat.eqb_spec i (snd h)) as [->|I]; [tauto|].
      intuition congruence.
    + apply (s_free _ S0).
  - intros t. unfold updn. destruct (Nat.eqb_spec t (fst h)) as [->|T]; [|apply (s_nodup _ S0)].
    constructor; [|apply (s_nodup _ S0)]. rewrite (s_free _ S0). destruct h; cbn [fst snd]. intuition congruence.
Qed.

(** * Destruction of one element, given what happens above *)
Lemma cnt_perm l l' x : Permutation l l' -> cnt l x = cnt l' x.
Proof. intros P. rewrite Permutation_count_occ in P. apply P. Qed.
Lemma links_cut E h m ll hh : links E m -> ~ In h E -> (forall y, ll y = erase h (low m y)) ->
  (forall x, Permutation (high m x) (hh x)) -> links (h :: E) (set_conn m ll hh).
Proof.
  intros L N LL P. constructor; cbn [set_conn low high alive cn hid nw].
  - intros x y NI. cbn [In] in NI. rewrite LL. unfold erase. rewrite cnt_filter.
    assert (Q : eqe x h = false) by (apply eqe_neq; intros ->; tauto). rewrite Q. cbn.
    rewrite (l_sym _ _ L) by tauto. apply cnt_perm. apply P.
  - intros x y [<-|I]; rewrite LL, erase_in; [tauto|]. intros (J & _). apply (l_cut _ _ L x y I J).
  - intros x y. rewrite LL, erase_in. intros (J & _). apply (l_ok _ _ L x y J).
  - intros x A. destruct (l_dead _ _ L x A) as (H1 & H2 & H3). rewrite LL, H1. split; [reflexivity|]. split; [|assumption].
    apply Permutation_nil. rewrite <- H2. apply P.
Qed.
Lemma no_self E m h : links E m -> ~ In h (low m h).
Proof. intros L I. destruct (l_ok _ _ L h h I) as (_ & _ & [V|(V & W & _)]); lia. Qed.

Lemma finish E h m ll hh m3 l5 h5 m' :
  links E m -> slots m -> ~ In h E -> alive m h = true -> (forall x, In x E -> alive m x = true) ->
  (forall y, ll y = erase h (low m y)) -> (forall x, Permutation (high m x) (hh x)) ->
  (forall p x, p h = false -> filter p (hh x) = filter p (high m x)) ->
  (forall x, In x E -> hh x = high m x) ->
  killed (h :: E) (set_conn m ll hh) m3 -> (forall x, In x (h :: E) -> alive m3 x = true) ->
  (forall y, l5 y = if eqe y h then [] else low m3 y) ->
  (forall x, h5 x = if eqe x h then [] else if has (low m3 h) x then erase h (high m3 x) else high m3 x) ->
  untie (set_conn m3 l5 h5) h = Some m' ->
  killed E m m' /\ (forall x, alive m' x = alive m3 x && negb (eqe x h)).
Proof.
  intros L S0 N A EA LL P F HE K AE L5 H5 U.
  assert (L3 : links (h :: E) m3).
  { eapply killed_links; [exact AE| |exact K]. apply links_cut; assumption. }
  assert (S3 : slots m3).
  { apply (k_slots _ _ _ K). eapply slots_ext; [| | |exact S0]; reflexivity. }
  assert (S5 : slots (set_conn m3 l5 h5)) by (eapply slots_ext; [| | |exact S3]; reflexivity).
  pose proof (slots_untie _ _ _ S5 (AE h (or_introl eq_refl)) U) as S'.
  unfold untie in U. cbn [set_conn non] in U. destruct (non m3) eqn:NN; [discriminate|].
  inversion U; subst m'; clear U.
  match goal with |- killed E m ?q /\ _ => set (m' := q) in * end.
  assert (AL : forall x, alive m' x = alive m3 x && negb (eqe x h)).
  { intros x. cbn. unfold upd. destruct (eqe x h); [rewrite andb_false_r; reflexivity|rewrite andb_true_r; reflexivity]. }
  assert (ALh : alive m' h = false) by (rewrite AL, eqe_refl; apply andb_false_r).
  assert (A3 : forall x, alive m' x = true -> alive m3 x = true /\ x <> h).
  { intros x X. rewrite AL in X. apply andb_true_iff in X. destruct X as (X1 & X2). apply negb_true_iff, eqe_neq in X2. auto. }
  split; [|exact AL]. constructor.
  - intros x X. apply (k_alive _ _ _ K x). apply A3. assumption.
  - intros x X. destruct (A3 x X) as (X3 & XN). cbn [m' set_marks set_slots set_conn low]. rewrite L5.
    apply eqe_neq in XN. rewrite XN, (k_low _ _ _ K x X3). cbn [set_conn low]. rewrite LL. unfold erase. rewrite filter_filter.
    apply filter_ext. intros y. rewrite AL. apply andb_comm.
  - intros x X NX. destruct (A3 x X) as (X3 & XN). cbn [m' set_marks set_slots set_conn high]. rewrite H5.
    assert (XN' := XN). apply eqe_neq in XN. rewrite XN.
    assert (Q : (if has (low m3 h) x then erase h (high m3 x) else high m3 x) = erase h (high m3 x)).
    { destruct (has (low m3 h) x) eqn:Q; [reflexivity|]. symmetry. apply erase_id. apply has_false in Q.
      intros I. apply Q. apply (links_in _ _ x h L3); [|assumption]. cbn. intuition congruence. }
    rewrite Q, (k_high _ _ _ K x X3) by (cbn; intuition congruence). cbn [set_conn high].
    rewrite <- (F (alive m') x ALh). unfold erase. rewrite filter_filter. apply filter_ext.
    intros y. rewrite AL. reflexivity.
  - intros x X. cbn [m' set_marks set_slots set_conn high]. rewrite H5.
    assert (XN : eqe x h = false) by (apply eqe_neq; intros ->; contradiction). rewrite XN.
    assert (Q : has (low m3 h) x = false).
    { apply has_false. apply (l_cut _ _ L3). right. assumption. }
    rewrite Q, (k_stale _ _ _ K x) by (right; assumption). cbn [set_conn high]. apply HE. assumption.
  - intros x X. rewrite AL in X. cbn [m' set_marks set_slots set_conn low high hid nw]. rewrite L5, H5.
    unfold upd. destruct (eqe x h) eqn:XN; [auto|]. cbn in X. rewrite andb_true_r in X.
    destruct (k_dead _ _ _ K x X) as (H1 & H2 & H3 & H4). split; [assumption|]. split; [|auto].
    intros NX. assert (H : high m3 x = []).
    { apply H2. apply eqe_neq in XN. cbn. intuition congruence. }
    rewrite H. destruct (has (low m3 h) x); reflexivity.
  - intros x X. destruct (A3 x X) as (X3 & XN). cbn [m' set_marks set_slots set_conn hid]. rewrite upd_other by assumption.
    apply (k_hid _ _ _ K x X3).
  - intros x. cbn [m' set_marks set_slots set_conn nw]. unfold upd. destruct (eqe x h); [discriminate|]. apply (k_nw _ _ _ K).
  - apply (k_mode _ _ _ K).
  - apply (k_next _ _ _ K).
  - apply (k_count _ _ _ K).
  - intros _. exact S'.
Qed.

(** Destroy of an element that is not visible-and-reordered: outside of a modification,
    or hidden. [r] is what the loop over the upper elements makes. *)
Lemma destroy_with_spec E h m del :
  links E m -> slots m -> ~ In h E -> alive m h = true -> (forall x, In x E -> alive m x = true /\ fst x < fst h) ->
  non m = false -> (hon m = false \/ hid m h = true) ->
  (forall us ll hh, links (h :: E) (set_conn m ll hh) -> NoDup us ->
     (forall y, ll y = erase h (low m y)) -> (fst h < 3 -> hh = high m) ->
     (forall u, In u us <-> In h (low m u)) -> fst h < 3 ->
     exists m3, each (fun n u => if hidden m h then hid n u else true) del us (set_conn m ll hh) = Some m3 /\
       killed (h :: E) (set_conn m ll hh) m3 /\ (forall x, In x (h :: E) -> alive m3 x = true)) ->
  exists m' m3 ll hh, destroy_with del h m = Some m' /\ killed E m m' /\
     (forall x, alive m' x = alive m3 x && negb (eqe x h)) /\
     (forall y, ll y = erase h (low m y)) /\ (fst h < 3 -> hh = high m) /\
     (fst h < 3 -> exists us, NoDup us /\ (forall u, In u us <-> In h (low m u)) /\
        each (fun n u => if hidden m h then hid n u else true) del us (set_conn m ll hh) = Some m3) /\
     (fst h = 3 -> alive m3 = alive m).
Proof.
  intros L S0 N A EA NN MD UP. unfold destroy_with. rewrite A. cbn [negb].
  assert (EA1 : forall x, In x E -> alive m x = true) by (intros x X; apply EA; assumption).
  (* swap *)
  assert (SW : exists hh, (if fst h =? 3 then swap_back m h else m) = set_conn m (low m) hh /\
     (forall x, Permutation (high m x) (hh x)) /\ (forall p x, p h = false -> filter p (hh x) = filter p (high m x)) /\
     (fst h < 3 -> hh = high m) /\ (forall x, In x E -> hh x = high m x)).
  { destruct (Nat.eqb_spec (fst h) 3) as [T|T].
    2:{ exists (high m). rewrite set_conn_eta. repeat split; reflexivity. }
    unfold swap_back. assert (FS : forall f, In f (low m h) -> ~ In f E).
    { intros f I J. apply (l_cut _ _ L f h J I). }
    revert FS. generalize (low m h) as fs. intros fs.
    assert (Gen : forall fs n, (forall f, In f fs -> ~ In f E) -> alive n = alive m -> hid n = hid m -> hon n = hon m ->
        exists hh, fold_left (fun n f =>
          if visible n f && Nat.eqb (length (filter (visible n) (high n f))) 2
          then set_high n f (swap_first (visible n) h (high n f)) else n) fs n = set_conn n (low n) hh /\
        (forall x, swapped (visible m) h (high n x) (hh x)) /\ (forall x, In x E -> hh x = high n x)).
    { clear fs. induction fs as [|f r IH]; intros n FS An Hn On; cbn [fold_left].
      - exists (high n). rewrite set_conn_eta. split; [reflexivity|]. split; [intros x; apply swapped_refl|reflexivity].
      - assert (V : visible n = visible m) by (unfold visible, hidden; rewrite Hn, On; reflexivity).
        destruct (visible n f && (length (filter (visible n) (high n f)) =? 2)) eqn:C;
          [|apply IH; try assumption; intros g G; apply FS; right; assumption].
        apply andb_true_iff in C. destruct C as (_ & C). apply Nat.eqb_eq in C.
        destruct (IH (set_high n f (swap_first (visible n) h (high n f)))) as (hh & Eq & S1 & S2); try assumption.
        { intros g G; apply FS; right; assumption. }
        exists hh. split; [exact Eq|]. cbn [set_high set_conn high] in S1, S2. split.
        + intros x. eapply swapped_trans; [|exact (S1 x)].
          unfold upd. destruct (eqe x f) eqn:Q; [|apply swapped_refl].
          apply eqe_spec in Q. subst x. rewrite <- V. apply swap_first_spec. assumption.
        + intros x X. rewrite S2 by assumption. rewrite upd_other; [reflexivity|]. intros ->.
          apply (FS f (or_introl eq_refl) X). }
    intros FS. destruct (Gen fs m FS eq_refl eq_refl eq_refl) as (hh & Eq & S1 & S2).
    exists hh. split; [exact Eq|]. split; [intros x; apply S1|]. split; [|split; [lia|assumption]].
    intros p x PH. destruct (S1 x) as (_ & S3 & S4). destruct MD as [MD|MD].
    - apply S3; [assumption|]. intros z _. unfold visible, hidden. rewrite MD. reflexivity.
    - destruct (hon m) eqn:HO.
      + rewrite S4; [reflexivity|]. unfold visible, hidden. rewrite HO, MD. reflexivity.
      + apply S3; [assumption|]. intros z _. unfold visible, hidden. rewrite HO. reflexivity. }
  destruct SW as (hh & -> & P & F & HL & HE).
  cbn [set_conn cn high].
  assert (IH : forall u, In h (low m u) <-> In u (hh h)).
  { intros u. rewrite (links_in E m h u L N). split; intros I.
    - eapply Permutation_in; [apply P|exact I].
    - eapply Permutation_in; [symmetry; apply P|exact I]. }
  assert (HH3 : (fst h <? 3) || cn m = false -> (forall y, ~ In h (low m y)) /\ hh h = []).
  { intros C. apply orb_false_iff in C. destruct C as (C1 & C2). apply Nat.ltb_ge in C1.
    assert (Q : forall y, ~ In h (low m y)).
    { intros y I. destruct (l_ok _ _ L h y I) as (_ & Ay & [V|(_ & _ & V)]); [|congruence].
      destruct (s_rng _ S0 y Ay). lia. }
    split; [exact Q|]. destruct (hh h) as [|u r] eqn:HU; [reflexivity|]. exfalso. apply (Q u). apply IH. left. reflexivity. }
  (* lower list *)
  assert (LOW0 : (0 <? fst h) || cn m = false -> low m h = []).
  { intros C. apply orb_false_iff in C. destruct C as (C1 & C2). apply Nat.ltb_ge in C1.
    destruct (low m h) as [|x r] eqn:Q; [reflexivity|]. exfalso.
    destruct (l_ok _ _ L x h) as (_ & _ & [V|(_ & _ & V)]); [rewrite Q; left; reflexivity|lia|congruence]. }
  (* last part, common *)
  assert (LAST : forall ll m3 m4, (forall y, ll y = erase h (low m y)) ->
     killed (h :: E) (set_conn m ll hh) m3 -> (forall x, In x (h :: E) -> alive m3 x = true) ->
     (exists h4, m4 = set_conn m3 (low m3) h4 /\ (forall x, h4 x = if eqe x h then [] else high m3 x)) ->
     exists m', untie (if (0 <? fst h) || cn m4 then set_low (unlink h (low m4 h) m4) h [] else m4) h = Some m' /\
       killed E m m' /\ (forall x, alive m' x = alive m3 x && negb (eqe x h))).
  { intros ll m3 m4 LL K AE (h4 & -> & H4).
    assert (N3 : non m3 = false) by (destruct (k_mode _ _ _ K) as (_ & Q & _); rewrite Q; exact NN).
    assert (C3 : cn m3 = cn m) by (destruct (k_mode _ _ _ K) as (_ & _ & Q); rewrite Q; reflexivity).
    cbn [set_conn cn low]. rewrite C3.
    assert (M5 : exists l5 h5, (if (0 <? fst h) || cn m then set_low (unlink h (low m3 h) (set_conn m3 (low m3) h4)) h []
         else set_conn m3 (low m3) h4) = set_conn m3 l5 h5 /\
      (forall y, l5 y = if eqe y h then [] else low m3 y) /\
      (forall x, h5 x = if eqe x h then [] else if has (low m3 h) x then erase h (high m3 x) else high m3 x)).
    { destruct ((0 <? fst h) || cn m) eqn:C.
      - destruct (unlink_spec h (low m3 h) (set_conn m3 (low m3) h4)) as (hu & -> & HU).
        exists (upd (low m3) h []), hu. split; [reflexivity|]. split; [reflexivity|]. intros x. rewrite HU.
        cbn [set_conn high]. rewrite !H4. destruct (eqe x h); [destruct (has (low m3 h) x); reflexivity|reflexivity].
      - assert (Z : low m3 h = []).
        { rewrite (k_low _ _ _ K h) by (apply AE; left; reflexivity). cbn [set_conn low]. rewrite LL, (LOW0 eq_refl). reflexivity. }
        exists (low m3), h4. split; [reflexivity|]. rewrite Z. split.
        + intros y. destruct (eqe y h) eqn:Q; [|reflexivity]. apply eqe_spec in Q. subst. assumption.
        + intros x. rewrite H4. reflexivity. }
    destruct M5 as (l5 & h5 & -> & L5 & H5).
    destruct (untie (set_conn m3 l5 h5) h) as [m'|] eqn:U.
    2:{ unfold untie in U. cbn [set_conn non] in U. rewrite N3 in U. discriminate. }
    exists m'. split; [reflexivity|]. eapply finish; eauto. }
  destruct ((fst h <? 3) || cn m) eqn:C.
  - destruct (cut_spec h (hh h) (set_conn m (low m) hh)) as (ll & us & -> & LL & ND & US).
    cbn [set_conn low high alive hid nw hon non next free hcount hcount0 cn] in LL, US.
    change (set_conn (set_conn m (low m) hh) ll (high (set_conn m (low m) hh))) with (set_conn m ll hh).
    assert (LL' : forall y, ll y = erase h (low m y)).
    { intros y. rewrite LL. destruct (has (hh h) y) eqn:Q; [reflexivity|]. symmetry. apply erase_id.
      apply has_false in Q. rewrite IH. assumption. }
    assert (US' : forall u, In u us <-> In h (low m u)) by (intros u; rewrite US, <- IH; tauto).
    assert (L2 : links (h :: E) (set_conn m ll hh)) by (apply links_cut; assumption).
    change (hidden (set_conn m ll hh) h) with (hidden m h).
    destruct (Nat.ltb_spec (fst h) 3) as [T|T].
    + destruct (UP us ll hh L2 ND LL' HL US' T) as (m3 & EQ & K & AE). rewrite EQ.
      destruct (LAST ll m3 (set_high m3 h []) LL' K AE) as (m' & -> & K' & AL).
      { exists (upd (high m3) h []). split; reflexivity. }
      exists m', m3, ll, hh. split; [reflexivity|]. split; [assumption|]. split; [assumption|]. split; [assumption|].
      split; [assumption|]. split; [|lia]. intros _. exists us. auto.
    + destruct (LAST ll (set_conn m ll hh) (set_high (set_conn m ll hh) h []) LL' (killed_refl _ _ L2)) as (m' & -> & K' & AL).
      { intros x [<-|X]; [assumption|]. apply EA1. assumption. }
      { exists (upd hh h []). split; reflexivity. }
      exists m', (set_conn m ll hh), ll, hh. split; [reflexivity|]. split; [assumption|]. split; [assumption|].
      split; [assumption|]. split; [assumption|]. split; [lia|]. reflexivity.
  - destruct (HH3 eq_refl) as (Q1 & Q2).
    assert (LL' : forall y, low m y = erase h (low m y)) by (intros y; symmetry; apply erase_id, Q1).
    assert (L2 : links (h :: E) (set_conn m (low m) hh)) by (apply links_cut; assumption).
    destruct (LAST (low m) (set_conn m (low m) hh) (set_conn m (low m) hh) LL' (killed_refl _ _ L2)) as (m' & EQ & K' & AL).
    { intros x [<-|X]; [assumption|]. apply EA1. assumption. }
    { exists hh. split; [reflexivity|]. intros x. cbn [set_conn high]. destruct (eqe x h) eqn:Q; [|reflexivity].
      apply eqe_spec in Q. subst. assumption. }
    rewrite EQ. apply orb_false_iff in C. destruct C as (C1 & C2). apply Nat.ltb_ge in C1.
    exists m', (set_conn m (low m) hh), (low m), hh. split; [reflexivity|]. split; [assumption|]. split; [assumption|].
    split; [assumption|]. split; [assumption|]. split; [lia|reflexivity].
Qed.

(** * Everything above an element *)
Inductive up (m : mesh) (h : elem) : elem -> Prop :=
| up_refl : up m h h
| up_step : forall y x, up m h y -> fst y < 3 -> In x (high m y) -> up m h x.

Lemma up_facts E m h x : links E m -> (forall e, In e E -> fst e < fst h) -> alive m h = true -> up m h x ->
  alive m x = true /\ (x = h \/ fst h < fst x) /\ ~ In x E.
Proof.
  intros L T A U. induction U as [|y x U IH Y I].
  - split; [assumption|]. split; [auto|]. intros J. apply T in J. lia.
  - destruct IH as (Ay & Hy & Ny). destruct (links_high E m y x L Ny I) as (_ & Ax & V).
    assert (FX : fst x = S (fst y)) by (destruct V as [V|(V & _)]; lia).
    split; [assumption|]. assert (fst h < fst x) by (destruct Hy as [->|Hy]; lia).
    split; [auto|]. intros J. apply T in J. lia.
Qed.
Lemma up_trans m h y x : up m h y -> up m y x -> up m h x.
Proof. intros A B. induction B; [assumption|]. eapply up_step; eassumption. Qed.
(** paths are the same after a destruction that is closed upwards *)
Lemma up_after E m m' u x : links E m -> killed E m m' -> (forall e, In e E -> fst e < fst u) -> alive m u = true ->
  (forall y z, alive m y = true -> ~ In y E -> alive m' y = false -> fst y < 3 -> In z (high m y) -> alive m' z = false) ->
  alive m' x = true -> (up m' u x <-> up m u x).
Proof.
  intros L K T A C X. split; intros U.
  - clear X. induction U as [|y x U IH Y I]; [constructor|].
    assert (Ny : ~ In y E) by (apply (up_facts E m u y L T A IH)).
    apply (up_step m u y x IH Y). destruct (alive m' y) eqn:Ay.
    + rewrite (k_high _ _ _ K y Ay Ny) in I. apply filter_In in I. tauto.
    + destruct (k_dead _ _ _ K y Ay) as (_ & Q & _). rewrite (Q Ny) in I. destruct I.
  - induction U as [|y x U IH Y I]; [constructor|].
    destruct (up_facts E m u y L T A U) as (Ay & _ & Ny).
    destruct (alive m' y) eqn:Ay'.
    + apply (up_step m' u y x (IH eq_refl) Y). rewrite (k_high _ _ _ K y Ay' Ny). apply filter_In. split; assumption.
    + rewrite (C y x Ay Ny Ay' Y I) in X. discriminate.
Qed.

Definition kills (f : nat) : Prop := forall E h m, links E m -> slots m -> alive m h = true ->
  (forall e, In e E -> alive m e = true /\ fst e < fst h) -> hon m = false -> non m = false -> 4 - fst h <= f ->
  exists m', delete f h m = Some m' /\ killed E m m' /\
    (forall x, alive m x = true -> (alive m' x = false <-> up m h x)).

Lemma each_kill f test E t us : kills f -> (forall n u, test n u = true) -> forall m, links E m -> slots m ->
  (forall u, In u us -> alive m u = true /\ fst u = t) -> (forall e, In e E -> alive m e = true /\ fst e < t) ->
  NoDup us -> hon m = false -> non m = false -> 4 - t <= f ->
  exists m', each test (delete f) us m = Some m' /\ killed E m m' /\
    (forall x, alive m x = true -> (alive m' x = false <-> exists u, In u us /\ up m u x)).
Proof.
  intros KF TT. induction us as [|u r IH]; intros m L S0 AU AE ND HO NO FU; cbn [each].
  - exists m. split; [reflexivity|]. split; [apply killed_refl; assumption|].
    intros x X. rewrite X. split; [discriminate|]. intros (u & [] & _).
  - rewrite TT. destruct (AU u (or_introl eq_refl)) as (Au & Tu). inversion ND as [|? ? N1 N2]; subst.
    destruct (KF E u m L S0 Au) as (m1 & -> & K1 & U1); try assumption.
    assert (TE : forall e, In e E -> fst e < fst u) by (intros e I; apply AE; assumption).
    assert (A1 : forall x, alive m x = true -> x <> u -> fst x <= fst u -> alive m1 x = true).
    { intros x X Q TX. destruct (alive m1 x) eqn:AX; [reflexivity|]. apply (U1 x X) in AX.
      destruct (up_facts E m u x L TE Au AX) as (_ & [->|Y] & _); [congruence|lia]. }
    assert (AE1 : forall e, In e E -> alive m1 e = true).
    { intros e I. destruct (AE e I) as (Ae & Te). apply A1; [assumption| |lia]. intros ->. lia. }
    assert (L1 : links E m1) by (eapply killed_links; eassumption).
    destruct (k_mode _ _ _ K1) as (M1 & M2 & M3).
    assert (AU1 : forall v, In v r -> alive m1 v = true /\ fst v = fst u).
    { intros v V. destruct (AU v (or_intror V)) as (Av & Tv). split; [|assumption]. apply A1; [assumption| |lia].
      intros ->. contradiction. }
    destruct (IH m1) as (m2 & -> & K2 & U2); try assumption; try congruence.
    { apply (k_slots _ _ _ K1), S0. }
    { intros e I. split; [apply AE1; assumption|]. apply AE. assumption. }
    exists m2. split; [reflexivity|]. split; [eapply killed_trans; eassumption|].
    intros x X. destruct (alive m1 x) eqn:X1.
    + rewrite (U2 x X1).
      assert (UA : forall v, In v r -> (up m1 v x <-> up m v x)).
      { intros v V. destruct (AU v (or_intror V)) as (Av & Tv). apply (up_after E); try assumption.
        - intros e I. rewrite Tv. apply TE. assumption.
        - intros y z Ay Ny Dy Y I. destruct (links_high E m y z L Ny I) as (_ & Az & _).
          apply (U1 z Az). apply (U1 y Ay) in Dy. eapply up_step; eassumption. }
      split.
      * intros (v & V & Q). exists v. split; [right; assumption|]. apply UA; assumption.
      * intros (v & [<-|V] & Q).
        -- apply (U1 x X) in Q. congruence.
        -- exists v. split; [assumption|]. apply UA; assumption.
    + split.
      * intros _. exists u. split; [left; reflexivity|]. apply U1; assumption.
      * intros _. destruct (alive m2 x) eqn:X2; [|reflexivity]. apply (k_alive _ _ _ K2) in X2. congruence.
Qed.

Lemma kills_all f : kills f.
Proof.
  induction f as [|f IH]; intros E h m L S0 A AE HO NO FU.
  { destruct (s_rng _ S0 h A). lia. }
  cbn [delete]. rewrite A, HO. cbn [negb].
  assert (HID : hidden m h = false) by (unfold hidden; rewrite HO; reflexivity).
  assert (N : ~ In h E) by (intros I; apply AE in I; lia).
  assert (TH : forall ll hh us, links (h :: E) (set_conn m ll hh) -> NoDup us ->
     (forall u, In u us <-> In h (low m u)) -> fst h < 3 ->
     exists m3, each (fun n u => if hidden m h then hid n u else true) (delete f) us (set_conn m ll hh) = Some m3 /\
       killed (h :: E) (set_conn m ll hh) m3 /\
       (forall x, alive m x = true -> (alive m3 x = false <-> exists u, In u us /\ up (set_conn m ll hh) u x))).
  { intros ll hh us L2 ND US T. refine (each_kill f _ (h :: E) (S (fst h)) us IH _ (set_conn m ll hh) L2 _ _ _ ND HO NO _).
    - intros n u. rewrite HID. reflexivity.
    - eapply slots_ext; [| | |exact S0]; reflexivity.
    - intros u I. apply US in I. destruct (l_ok _ _ L h u I) as (_ & Au & V). split; [assumption|].
      destruct V as [V|(V & _)]; lia.
    - intros e [<-|I]; cbn [set_conn alive]; [split; [assumption|lia]|]. apply AE in I. split; [tauto|lia].
    - lia. }
  assert (UE : forall ll hh us x, links (h :: E) (set_conn m ll hh) -> (forall u, In u us <-> In h (low m u)) -> fst h < 3 ->
      In x (h :: E) -> ~ exists u, In u us /\ up (set_conn m ll hh) u x).
  { intros ll hh us x L2 US T I (u & Iu & U). apply US in Iu. destruct (l_ok _ _ L h u Iu) as (_ & Au & V).
    assert (fst u = S (fst h)) by (destruct V as [V|(V & _)]; lia).
    destruct (up_facts (h :: E) (set_conn m ll hh) u x) as (_ & _ & NX); try assumption; [|contradiction].
    intros e [<-|J]; [lia|]. apply AE in J. lia. }
  destruct (destroy_with_spec E h m (delete f) L S0 N A AE NO (or_introl HO)) as (m' & m3 & ll & hh & EQ & K & AL & LL & HH & UP & C3).
  { intros us ll hh L2 ND LL HH US T. destruct (TH ll hh us L2 ND US T) as (m3 & E3 & K3 & U3).
    exists m3. split; [assumption|]. split; [assumption|]. intros x I.
    assert (Ax : alive m x = true) by (destruct I as [<-|I]; [assumption|apply AE; assumption]).
    destruct (alive m3 x) eqn:X; [reflexivity|]. apply (U3 x Ax) in X. exfalso. revert X. apply UE; assumption. }
  exists m'. split; [assumption|]. split; [assumption|]. intros x X. rewrite AL.
  destruct (Nat.ltb_spec (fst h) 3) as [T|T].
  - destruct (UP T) as (us & ND & US & E3).
    assert (L2 : links (h :: E) (set_conn m ll hh)).
    { apply links_cut; try assumption. intros y. rewrite (HH T). reflexivity. }
    destruct (TH ll hh us L2 ND US T) as (m3' & E3' & K3 & U3).
    rewrite E3 in E3'. inversion E3'; subst m3'. clear E3'.
    assert (UU : forall u z, up (set_conn m ll hh) u z <-> up m u z).
    { intros u z. rewrite (HH T). split; intros U; induction U as [|y z U IHU Y I]; try constructor;
        eapply up_step; try eassumption. }
    destruct (elem_dec x h) as [->|XN].
    + rewrite eqe_refl. cbn. rewrite andb_false_r. split; [constructor|reflexivity].
    + assert (Q : eqe x h = false) by (apply eqe_neq; assumption). rewrite Q. cbn. rewrite andb_true_r, (U3 x X). split.
      * intros (u & Iu & U). apply UU in U. eapply up_trans; [|exact U]. apply US in Iu.
        eapply up_step; [constructor|assumption|]. apply (links_in E); assumption.
      * intros U. clear - U XN UU US L N T.
        assert (G : x = h \/ exists u, In u (high m h) /\ up m u x).
        { induction U as [|y x U IH Y I]; [auto|]. right. destruct (elem_dec y h) as [->|Q].
          - exists x. split; [assumption|constructor].
          - destruct (IH Q) as [->|(u & Iu & Uu)]; [congruence|]. exists u. split; [assumption|]. eapply up_step; eassumption. }
        destruct G as [G|(u & Iu & Uu)]; [congruence|]. exists u. split; [|apply UU; assumption].
        apply US. apply (links_in E); assumption.
  - assert (H3 : fst h = 3) by (destruct (s_rng _ S0 h A); lia). rewrite (C3 H3), X. cbn.
    rewrite negb_false_iff, eqe_spec. split.
    + intros ->. constructor.
    + intros U. inversion U as [|y z Uy Y I]; [reflexivity|]. subst.
      destruct (up_facts E m h y L) as (_ & [->|Q] & _); try assumption; try lia. intros e J. apply AE. assumption.
Qed.
Lemma destroy_spec h m : links [] m -> slots m -> alive m h = true -> hon m = false -> non m = false ->
  exists m', destroy h m = Some m' /\ killed [] m m' /\
    (forall x, alive m x = true -> (alive m' x = false <-> up m h x)).
Proof.
  intros L S0 A HO NO. destruct (kills_all 5 [] h m L S0 A) as (m' & D & K & U); try assumption; [intros e []|lia|].
  exists m'. split; [|auto]. cbn [delete] in D. rewrite A, HO in D. exact D.
Qed.

(** * Hiding *)
Definition nhid (m : mesh) (t : nat) : Z := Z.of_nat (length (filter (fun i => hid m (t, i)) (seq 0 (next m t)))).
Record hid_keep (m m' : mesh) : Prop := {
  h_alive : alive m' = alive m; h_low : low m' = low m; h_nw : nw m' = nw m;
  h_hon : hon m' = hon m; h_non : non m' = non m; h_cn : cn m' = cn m;
  h_next : next m' = next m; h_free : free m' = free m; h_count0 : hcount0 m' = hcount0 m;
  h_perm : forall x, Permutation (high m x) (high m' x);
  h_mono : forall x, hid m x = true -> hid m' x = true;
  h_vis : forall p x, (forall z, p z = true -> visible m' z = true) -> filter p (high m' x) = filter p (high m x);
  h_count : forall t, (hcount m' t - nhid m' t = hcount m t - nhid m t)%Z;
  h_face : forall x, fst x <> 2 -> links [] m -> high m' x = high m x }.
Lemma hid_keep_refl m : hid_keep m m.
Proof. constructor; auto. Qed.
Lemma hid_visible m m' x : hon m' = hon m -> (forall x, hid m x = true -> hid m' x = true) -> visible m' x = true -> visible m x = true.
Proof.
  intros HO M. unfold visible, hidden. rewrite HO. destruct (hon m); [|reflexivity]. cbn.
  destruct (hid m x) eqn:X; [|reflexivity]. rewrite (M x X). discriminate.
Qed.
Lemma hid_links m m' : hid_keep m m' -> (forall x, hid m' x = true -> hid m x = true \/ alive m x = true) -> links [] m -> links [] m'.
Proof.
  intros K HA L. constructor.
  - intros x y N. rewrite (h_low _ _ K), (l_sym _ _ L x y N). apply cnt_perm. apply (h_perm _ _ K).
  - intros x y [].
  - intros x y. rewrite (h_low _ _ K), (h_alive _ _ K), (h_cn _ _ K). apply (l_ok _ _ L).
  - intros x. rewrite (h_alive _ _ K), (h_low _ _ K), (h_nw _ _ K). intros A.
    destruct (l_dead _ _ L x A) as (H1 & H2 & H3 & H4). split; [assumption|]. split; [|split; [|assumption]].
    + apply Permutation_nil. rewrite <- H2. apply (h_perm _ _ K).
    + destruct (hid m' x) eqn:X; [|reflexivity]. apply HA in X. destruct X; congruence.
Qed.
Lemma hid_slots m m' : hid_keep m m' -> slots m -> slots m'.
Proof. intros K. apply slots_ext; [apply (h_alive _ _ K)|rewrite (h_next _ _ K)|rewrite (h_free _ _ K)]; reflexivity. Qed.
Lemma hid_keep_trans m m1 m2 : (forall x, hid m1 x = true -> hid m x = true \/ alive m x = true) ->
  hid_keep m m1 -> hid_keep m1 m2 -> hid_keep m m2.
Proof.
  intros HA A B. pose proof (hid_links _ _ A HA) as L1. constructor.
  - rewrite (h_alive _ _ B). apply (h_alive _ _ A).
  - rewrite (h_low _ _ B). apply (h_low _ _ A).
  - rewrite (h_nw _ _ B). apply (h_nw _ _ A).
  - rewrite (h_hon _ _ B). apply (h_hon _ _ A).
  - rewrite (h_non _ _ B). apply (h_non _ _ A).
  - rewrite (h_cn _ _ B). apply (h_cn _ _ A).
  - rewrite (h_next _ _ B). apply (h_next _ _ A).
  - rewrite (h_free _ _ B). apply (h_free _ _ A).
  - rewrite (h_count0 _ _ B). apply (h_count0 _ _ A).
  - intros x. etransitivity; [apply (h_perm _ _ A)|apply (h_perm _ _ B)].
  - intros x X. apply (h_mono _ _ B), (h_mono _ _ A), X.
  - intros p x H. rewrite (h_vis _ _ B) by assumption. apply (h_vis _ _ A). intros z Z. apply H in Z.
    revert Z. apply hid_visible; [apply (h_hon _ _ B)|apply (h_mono _ _ B)].
  - intros t. rewrite (h_count _ _ B). apply (h_count _ _ A).
  - intros x X L. rewrite (h_face _ _ B) by auto. apply (h_face _ _ A); assumption.
Qed.

Lemma filter_add (p q : nat -> bool) i n a : (forall j, q j = if Nat.eqb j i then true else p j) -> p i = false ->
  length (filter q (seq a n)) = length (filter p (seq a n)) + (if (a <=? i) && (i <? a + n) then 1 else 0).
Proof.
  intros Q P. revert a. induction n as [|n IH]; intros a; cbn [seq filter].
  - destruct (Nat.leb_spec a i), (Nat.ltb_spec i (a + 0)); cbn; lia.
  - rewrite Q. specialize (IH (S a)). destruct (Nat.eqb_spec a i) as [->|N].
    + rewrite P. cbn [length]. rewrite IH.
      destruct (Nat.leb_spec (S i) i), (Nat.leb_spec i i), (Nat.ltb_spec i (i + S n)); cbn; lia.
    + destruct (p a); cbn [length]; rewrite IH;
      destruct (Nat.leb_spec (S a) i), (Nat.leb_spec a i), (Nat.ltb_spec i (S a + n)), (Nat.ltb_spec i (a + S n)); cbn; lia.
Qed.
Lemma nhid_set m m' h v : next m' = next m -> hid m' = upd (hid m) h v -> snd h < next m (fst h) -> hid m h = negb v ->
  forall t, nhid m' t = (nhid m t + (if Nat.eqb t (fst h) then if v then 1 else -1 else 0))%Z.
Proof.
  intros N HH R V t. unfold nhid. rewrite N, HH.
  destruct (Nat.eqb_spec t (fst h)) as [->|T].
  - destruct v; cbn in V.
    + rewrite (filter_add (fun i => hid m (fst h, i)) _ (snd h)).
      * destruct (Nat.leb_spec 0 (snd h)), (Nat.ltb_spec (snd h) (0 + next m (fst h))); cbn; lia.
      * intros j. unfold upd, eqe. cbn [fst snd]. rewrite Nat.eqb_refl. reflexivity.
      * destruct h; exact V.
    + rewrite (filter_add (fun i => upd (hid m) h false (fst h, i)) (fun i => hid m (fst h, i)) (snd h)).
      * destruct (Nat.leb_spec 0 (snd h)), (Nat.ltb_spec (snd h) (0 + next m (fst h))); cbn; lia.
      * intros j. unfold upd, eqe. cbn [fst snd]. rewrite Nat.eqb_refl. cbn. destruct (Nat.eqb_spec j (snd h)) as [->|]; [|reflexivity].
        destruct h; exact V.
      * unfold upd, eqe. cbn [fst snd]. rewrite !Nat.eqb_refl. reflexivity.
  - rewrite Z.add_0_r. do 2 f_equal. apply filter_ext. intros j. apply upd_other. intros Q. apply T. rewrite <- Q. reflexivity.
Qed.

Lemma hide_spec m h : hon m = true -> slots m -> alive m h = true -> links [] m ->
  hid_keep m (hide m h) /\ (forall x, hid (hide m h) x = true <-> hid m x = true \/ x = h).
Proof.
  intros HO S0 A L. unfold hide. unfold hidden. rewrite HO. cbn [andb]. destruct (hid m h) eqn:H.
  { split; [apply hid_keep_refl|]. intros x. split; [auto|]. intros [X| ->]; assumption. }
  assert (SW : exists hh, (if fst h =? 3 then swap_back m h else m) = set_conn m (low m) hh /\
     (forall x, swapped (visible m) h (high m x) (hh x)) /\ (forall x, fst x <> 2 -> hh x = high m x)).
  { destruct (Nat.eqb_spec (fst h) 3) as [T|T].
    - unfold swap_back.
      assert (FS : forall f, In f (low m h) -> fst f = 2).
      { intros f I. destruct (l_ok _ _ L f h I) as (_ & _ & [V|(V & W & _)]); lia. }
      revert FS. generalize (low m h) as fs. intros fs FS. clear - fs FS. revert m.
      induction fs as [|f r IH]; intros m; cbn [fold_left].
      + exists (high m). rewrite set_conn_eta. split; [reflexivity|]. split; [intros x; apply swapped_refl|reflexivity].
      + assert (FS' : forall g, In g r -> fst g = 2) by (intros g G; apply FS; right; assumption).
        destruct (visible m f && (length (filter (visible m) (high m f)) =? 2)) eqn:C; [|apply IH; assumption].
        apply andb_true_iff in C. destruct C as (_ & C). apply Nat.eqb_eq in C.
        destruct (IH FS' (set_high m f (swap_first (visible m) h (high m f)))) as (hh & E & S1 & S2).
        exists hh. split; [exact E|]. split.
        * intros x. eapply swapped_trans; [|exact (S1 x)].
          cbn [set_high set_conn high]. unfold upd. destruct (eqe x f) eqn:Q; [|apply swapped_refl].
          apply eqe_spec in Q. subst x. apply swap_first_spec. assumption.
        * intros x X. rewrite S2 by assumption. cbn [set_high set_conn high]. apply upd_other. intros ->. apply X, FS. left. reflexivity.
    - exists (high m). rewrite set_conn_eta. split; [reflexivity|]. split; [intros x; apply swapped_refl|reflexivity]. }
  destruct SW as (hh & -> & SW & SF).
  assert (HX : forall x, upd (hid m) h true x = true <-> hid m x = true \/ x = h).
  { intros x. destruct (elem_dec x h) as [->|N]; [rewrite upd_same|rewrite upd_other by assumption]; intuition congruence. }
  split; [|exact HX].
  constructor; cbn [set_marks set_conn alive low high hid nw hon non cn next free hcount hcount0]; try reflexivity.
  - intros x. apply SW.
  - intros x X. apply HX. auto.
  - intros p x P. apply SW.
    + destruct (p h) eqn:PH; [|reflexivity]. apply P in PH. revert PH. unfold visible, hidden. cbn. rewrite HO, upd_same. discriminate.
    + intros z Z. apply P in Z. revert Z. apply hid_visible; [reflexivity|]. cbn. intros y Y. apply HX. auto.
  - intros t.
    match goal with |- context[nhid ?q t] => rewrite (nhid_set m q h true eq_refl eq_refl) end;
      [|apply (s_rng _ S0); assumption|assumption].
    unfold updn. destruct (Nat.eqb_spec t (fst h)) as [->|T]; lia.
  - intros x X _. apply SF. assumption.
Qed.

Inductive reach (m : mesh) (h : elem) : elem -> Prop :=
| reach_refl : reach m h h
| reach_step : forall y x, reach m h y -> fst y < 3 -> In x (high m y) -> hid m x = false -> reach m h x.
Lemma reach_facts m h x : links [] m -> alive m h = true -> reach m h x ->
  alive m x = true /\ (x = h \/ fst h < fst x /\ hid m x = false).
Proof.
  intros L A U. induction U as [|y x U IH Y I HX].
  - split; auto.
  - destruct IH as (Ay & Hy). destruct (links_high [] m y x L (fun F => F) I) as (_ & Ax & V).
    assert (FX : fst x = S (fst y)) by (destruct V as [V|(V & _)]; lia).
    split; [assumption|]. right. split; [|assumption]. destruct Hy as [->|(Hy & _)]; lia.
Qed.
Lemma reach_trans m h y x : reach m h y -> reach m y x -> reach m h x.
Proof. intros A B. induction B; [assumption|]. eapply reach_step; eassumption. Qed.

Definition hides (f : nat) : Prop := forall h m, links [] m -> slots m -> alive m h = true -> hon m = true -> 4 - fst h <= f ->
  exists m', delete f h m = Some m' /\ hid_keep m m' /\ (forall x, hid m' x = true <-> hid m x = true \/ reach m h x).

(** reachability after some more elements are hidden, when they are closed *)
Lemma reach_after m m' u x : hid_keep m m' ->
  (forall y z, hid m y = false -> hid m' y = true -> fst y < 3 -> In z (high m y) -> hid m z = false -> hid m' z = true) ->
  hid m u = false -> reach m u x -> hid m' x = false -> reach m' u x.
Proof.
  intros K C HU U. 
  assert (G : hid m x = false /\ (hid m' x = false -> reach m' u x)).
  { induction U as [|y x U IH Y I HX].
    - split; [assumption|]. constructor.
    - split; [assumption|]. intros HX'. destruct IH as (Hy & IH). eapply reach_step; [|exact Y| |assumption].
      + apply IH. destruct (hid m' y) eqn:Q; [|reflexivity]. rewrite (C y x Hy Q Y I HX) in HX'. discriminate.
      + eapply Permutation_in; [apply (h_perm _ _ K)|exact I]. }
  apply G.
Qed.
Lemma reach_before m m' u x : hid_keep m m' -> reach m' u x -> reach m u x.
Proof.
  intros K U. induction U as [|y x U IH Y I HX]; [constructor|]. eapply reach_step; [exact IH|assumption| |].
  - eapply Permutation_in; [symmetry; apply (h_perm _ _ K)|exact I].
  - destruct (hid m x) eqn:Q; [|reflexivity]. rewrite (h_mono _ _ K x Q) in HX. discriminate.
Qed.

Lemma each_hide f t us : hides f -> forall m, links [] m -> slots m ->
  (forall u, In u us -> alive m u = true /\ fst u = t) -> hon m = true -> 4 - t <= f ->
  exists m', each (fun n u => negb (hidden n u)) (delete f) us m = Some m' /\ hid_keep m m' /\
    (forall x, hid m' x = true <-> hid m x = true \/ exists u, In u us /\ hid m u = false /\ reach m u x).
Proof.
  intros KF. induction us as [|u r IH]; intros m L S0 AU HO FU; cbn [each].
  - exists m. split; [reflexivity|]. split; [apply hid_keep_refl|]. intros x. split; [auto|].
    intros [X|(u & [] & _)]. assumption.
  - destruct (AU u (or_introl eq_refl)) as (Au & Tu).
    assert (STEP : exists m1, (if negb (hidden m u) then delete f u m else Some m) = Some m1 /\ hid_keep m m1 /\
       (forall x, hid m1 x = true <-> hid m x = true \/ hid m u = false /\ reach m u x)).
    { unfold hidden. rewrite HO. cbn [andb]. destruct (hid m u) eqn:HU; cbn [negb].
      - exists m. split; [reflexivity|]. split; [apply hid_keep_refl|]. intros x. intuition discriminate.
      - destruct (KF u m L S0 Au HO) as (m1 & -> & K & U); [lia|]. exists m1. split; [reflexivity|]. split; [assumption|].
        intros x. rewrite U. tauto. }
    destruct STEP as (m1 & -> & K1 & U1).
    assert (HA : forall x, hid m1 x = true -> hid m x = true \/ alive m x = true).
    { intros x X. apply U1 in X. destruct X as [X|(_ & X)]; [auto|]. right. apply (reach_facts m u x L Au X). }
    destruct (IH m1) as (m2 & -> & K2 & U2).
    + apply (hid_links _ _ K1 HA L).
    + apply (hid_slots _ _ K1 S0).
    + intros v V. rewrite (h_alive _ _ K1). apply AU. right. assumption.
    + rewrite (h_hon _ _ K1). assumption.
    + assumption.
    + exists m2. split; [reflexivity|]. split; [apply (hid_keep_trans _ _ _ HA K1 K2)|].
      intros x. rewrite U2, U1.
      assert (C : forall y z, hid m y = false -> hid m1 y = true -> fst y < 3 -> In z (high m y) -> hid m z = false -> hid m1 z = true).
      { intros y z Y1 Y2 T I Z. apply U1. apply U1 in Y2. destruct Y2 as [Y2|(Y2 & Y3)]; [congruence|]. right.
        split; [assumption|]. eapply reach_step; eassumption. }
      split.
      * intros [[X|(X1 & X2)]|(v & V & V1 & V2)].
        -- auto.
        -- right. exists u. split; [left; reflexivity|auto].
        -- right. exists v. split; [right; assumption|]. split.
           ++ destruct (hid m v) eqn:Q; [|reflexivity]. rewrite (h_mono _ _ K1 v Q) in V1. discriminate.
           ++ eapply reach_before; eassumption.
      * intros [X|(v & [<-|V] & V1 & V2)]; [auto|auto|].
        destruct (hid m1 x) eqn:X1; [left; apply U1; assumption|]. right. exists v. split; [assumption|].
        split.
        -- destruct (hid m1 v) eqn:Q; [|reflexivity]. exfalso.
           assert (G : hid m1 x = true); [|congruence]. clear - C V2 Q V1.
           assert (G : hid m x = false /\ hid m1 x = true); [|tauto].
           induction V2 as [|y x U IHU Y I HX]; [auto|]. destruct IHU. split; [assumption|]. eapply C; eassumption.
        -- eapply reach_after; eassumption.
Qed.

Lemma hides_all f : hides f.
Proof.
  induction f as [|f IH]; intros h m L S0 A HO FU.
  { destruct (s_rng _ S0 h A). lia. }
  cbn [delete]. rewrite A, HO. cbn [negb].
  destruct (hide_spec m h HO S0 A L) as (K1 & U1).
  assert (HA : forall x, hid (hide m h) x = true -> hid m x = true \/ alive m x = true).
  { intros x X. apply U1 in X. destruct X as [X| ->]; auto. }
  destruct (Nat.ltb_spec (fst h) 3) as [T|T].
  - assert (HIGH : forall u, In u (high (hide m h) h) -> In u (high m h)).
    { intros u I. eapply Permutation_in; [symmetry; apply (h_perm _ _ K1)|exact I]. }
    destruct (each_hide f (S (fst h)) (high (hide m h) h) IH (hide m h)) as (m2 & -> & K2 & U2).
    + apply (hid_links _ _ K1 HA L).
    + apply (hid_slots _ _ K1 S0).
    + intros u I. rewrite (h_alive _ _ K1). apply HIGH in I. destruct (links_high [] m h u L (fun F => F) I) as (_ & Au & V).
      split; [assumption|]. destruct V as [V|(V & _)]; lia.
    + rewrite (h_hon _ _ K1). assumption.
    + lia.
    + exists m2. split; [reflexivity|]. split; [apply (hid_keep_trans _ _ _ HA K1 K2)|].
      assert (NH : forall u, In u (high m h) -> fst u = S (fst h) /\ alive m u = true).
      { intros u I. destruct (links_high [] m h u L (fun F => F) I) as (_ & Au & V). split; [|assumption].
        destruct V as [V|(V & _)]; lia. }
      intros x. rewrite U2, U1. split.
      * intros [[X| ->]|(u & Iu & Hu & U)]; [auto|right; constructor|].
        right. apply HIGH in Iu. eapply reach_trans; [|eapply reach_before; eassumption].
        eapply reach_step; [constructor|assumption|assumption|].
        destruct (hid m u) eqn:Q; [|reflexivity]. rewrite (h_mono _ _ K1 u Q) in Hu. discriminate.
      * intros [X|X]; [auto|].
        assert (G : x = h \/ exists u, In u (high m h) /\ hid m u = false /\ reach m u x).
        { clear - X. induction X as [|y x U IH Y I HX]; [auto|]. right.
          destruct IH as [->|(u & Iu & Hu & Uu)].
          - exists x. split; [assumption|]. split; [assumption|constructor].
          - exists u. split; [assumption|]. split; [assumption|]. eapply reach_step; eassumption. }
        destruct G as [->|(u & Iu & Hu & U)]; [auto|].
        destruct (hid (hide m h) x) eqn:X1; [left; apply U1; assumption|].
        assert (Hu' : hid (hide m h) u = false).
        { destruct (hid (hide m h) u) eqn:Q; [|reflexivity]. apply U1 in Q. destruct Q as [Q|Q]; [congruence|].
          subst u. apply NH in Iu. lia. }
        right. exists u. split; [eapply Permutation_in; [apply (h_perm _ _ K1)|exact Iu]|].
        split; [assumption|].
        (* elements above u are of higher type than h *)
        clear - U Hu Iu NH L K1 U1.
        destruct (NH u Iu) as (Tu & Au).
        induction U as [|y x U IHU Y I HX]; [constructor|].
        assert (UX : reach m u x) by (eapply reach_step; eassumption).
        eapply reach_step; [exact IHU|assumption|eapply Permutation_in; [apply (h_perm _ _ K1)|exact I]|].
        destruct (hid (hide m h) x) eqn:Q; [|reflexivity]. apply U1 in Q. destruct Q as [Q|Q]; [congruence|].
        subst x. destruct (reach_facts m u h L Au UX) as (_ & [Z|(Z & _)]); [subst; lia|lia].
  - exists (hide m h). split; [reflexivity|]. split; [assumption|]. intros x. rewrite U1. split.
    + intros [X| ->]; [auto|right; constructor].
    + intros [X|X]; [auto|]. destruct (reach_facts m h x L A X) as (Ax & [->|(Q & _)]); [auto|].
      destruct (s_rng _ S0 x Ax). lia.
Qed.

(** * End of a modification *)
Lemma each_none test del us m : (forall u, In u us -> test m u = false) -> each test del us m = Some m.
Proof.
  induction us as [|u r IH]; intros H; cbn [each]; [reflexivity|]. rewrite (H u (or_introl eq_refl)).
  apply IH. intros v V. apply H. right. assumption.
Qed.
Lemma end_destroy h m : links [] m -> slots m -> alive m h = true -> hon m = true -> non m = false -> hid m h = true ->
  (forall x, hid m x = true -> fst x <= fst h) ->
  exists m', destroy h m = Some m' /\ killed [] m m' /\ (forall x, alive m' x = alive m x && negb (eqe x h)).
Proof.
  intros L S0 A HO NO HH MX.
  assert (EN : forall ll hh us, (forall u, In u us <-> In h (low m u)) -> fst h < 3 ->
     each (fun n u => if hidden m h then hid n u else true) (delete 4) us (set_conn m ll hh) = Some (set_conn m ll hh)).
  { intros ll hh us US T. apply each_none. intros u I. unfold hidden. rewrite HO, HH. cbn.
    destruct (hid m u) eqn:Q; [|reflexivity]. apply MX in Q. apply US in I.
    destruct (l_ok _ _ L h u I) as (_ & _ & [V|(V & _)]); lia. }
  destruct (destroy_with_spec [] h m (delete 4) L S0 (fun F => F) A (fun x F => False_ind _ F) NO (or_intror HH))
    as (m' & m3 & ll & hh & EQ & K & AL & LL & HHH & UP & C3).
  { intros us ll hh L2 ND LL HE US T. exists (set_conn m ll hh). split; [apply EN; assumption|].
    split; [apply killed_refl; assumption|]. intros x [<-|[]]. assumption. }
  exists m'. split; [assumption|]. split; [assumption|]. intros x. rewrite AL.
  destruct (Nat.ltb_spec (fst h) 3) as [T|T].
  - destruct (UP T) as (us & ND & US & E3). rewrite (EN _ _ _ US T) in E3. inversion E3; subst. reflexivity.
  - rewrite C3; [reflexivity|]. destruct (s_rng _ S0 h A). lia.
Qed.
Lemma clear_new m h : links [] m -> killed [] m (set_marks m (hid m) (upd (nw m) h false) (hcount m) (hcount0 m)).
Proof.
  intros L. pose proof (killed_refl _ _ L) as K. constructor; cbn [set_marks alive low high hid nw hon non cn next hcount hcount0]; try apply K.
  - intros x A. destruct (l_dead _ _ L x A) as (H1 & H2 & H3 & H4). repeat split; auto.
    unfold upd. destruct (eqe x h); [reflexivity|assumption].
  - intros x. unfold upd. destruct (eqe x h); [discriminate|auto].
  - intros S0. eapply slots_ext; [| | |exact S0]; reflexivity.
Qed.
Lemma end_ids_spec t ids : NoDup ids -> forall m, links [] m -> slots m -> hon m = true -> non m = false ->
  (forall x, hid m x = true -> fst x <= t) ->
  exists m', end_ids t ids m = Some m' /\ killed [] m m' /\
    (forall x, alive m' x = alive m x && negb (hid m x && (fst x =? t) && existsb (Nat.eqb (snd x)) ids)) /\
    (forall x, nw m' x = true -> ~ (fst x = t /\ In (snd x) ids)).
Proof.
  induction ids as [|i r IH]; intros ND m L S0 HO NO MX; cbn [end_ids].
  - exists m. split; [reflexivity|]. split; [apply killed_refl; assumption|]. split.
    + intros x. cbn. rewrite andb_false_r, andb_true_r. reflexivity.
    + intros x _ (_ & []).
  - inversion ND as [|? ? N1 N2]; subst.
    assert (IS : forall x, eqe x (t, i) = (fst x =? t) && (snd x =? i)) by reflexivity.
    destruct (alive m (t, i)) eqn:A.
    + set (m1 := set_marks m (hid m) (upd (nw m) (t, i) false) (hcount m) (hcount0 m)).
      pose proof (clear_new m (t, i) L) as K1. fold m1 in K1.
      assert (L1 : links [] m1) by (eapply killed_links; [intros x []|exact L|exact K1]).
      assert (S1 : slots m1) by (apply (k_slots _ _ _ K1); assumption).
      assert (STEP : exists m2, (if hid m1 (t, i) then destroy (t, i) m1 else Some m1) = Some m2 /\ killed [] m1 m2 /\
        (forall x, alive m2 x = alive m x && negb (hid m x && eqe x (t, i)))).
      { destruct (hid m1 (t, i)) eqn:H1.
        - destruct (end_destroy (t, i) m1) as (m2 & -> & K2 & A2); try assumption.
          exists m2. split; [reflexivity|]. split; [assumption|]. intros x. rewrite A2. change (alive m1 x) with (alive m x).
          destruct (eqe x (t, i)) eqn:Q; [|rewrite andb_false_r; reflexivity]. apply eqe_spec in Q. subst x.
          change (hid m (t, i)) with (hid m1 (t, i)). rewrite H1. reflexivity.
        - exists m1. split; [reflexivity|]. split; [apply killed_refl; assumption|]. intros x. change (alive m1 x) with (alive m x).
          destruct (eqe x (t, i)) eqn:Q; [|rewrite andb_false_r, andb_true_r; reflexivity]. apply eqe_spec in Q. subst x.
          change (hid m (t, i)) with (hid m1 (t, i)). rewrite H1, andb_true_r. reflexivity. }
      destruct STEP as (m2 & -> & K2 & A2).
      assert (L2 : links [] m2) by (eapply killed_links; [intros x []|exact L1|exact K2]).
      assert (S2 : slots m2) by (apply (k_slots _ _ _ K2); assumption).
      assert (K12 : killed [] m m2) by (eapply killed_trans; eassumption).
      destruct (k_mode _ _ _ K12) as (M1 & M2 & M3).
      assert (H2 : forall x, hid m2 x = true -> alive m2 x = true /\ hid m x = true).
      { intros x X. destruct (alive m2 x) eqn:Q; [|destruct (k_dead _ _ _ K12 x Q) as (_ & _ & Z & _); congruence].
        split; [reflexivity|]. rewrite <- (k_hid _ _ _ K12 x Q). assumption. }
      destruct (IH N2 m2) as (m3 & -> & K3 & A3 & W3); try assumption; try congruence.
      { intros x X. apply MX. apply H2. assumption. }
      exists m3. split; [reflexivity|]. split; [eapply killed_trans; eassumption|]. split.
      * intros x. rewrite A3. destruct (alive m2 x) eqn:Q.
        -- rewrite (k_hid _ _ _ K12 x Q). rewrite A2 in Q. apply andb_true_iff in Q. destruct Q as (Q1 & Q2).
           rewrite Q1. cbn [existsb andb]. rewrite IS in Q2. destruct (hid m x), (fst x =? t), (snd x =? i); cbn in Q2 |- *; try reflexivity; discriminate.
        -- cbn. rewrite A2 in Q. rewrite IS in Q. cbn [existsb]. destruct (alive m x), (hid m x), (fst x =? t), (snd x =? i); cbn in Q |- *; try reflexivity; discriminate.
      * intros x X (T & [I|I]).
        -- apply (k_nw _ _ _ K3) in X. apply (k_nw _ _ _ K2) in X. cbn in X. unfold upd in X. rewrite IS, <- T, <- I, !Nat.eqb_refl in X. discriminate.
        -- apply (W3 x X). auto.
    + destruct (IH N2 m) as (m3 & -> & K3 & A3 & W3); try assumption.
      exists m3. split; [reflexivity|]. split; [assumption|]. split.
      * intros x. rewrite A3. cbn [existsb]. destruct (Nat.eqb_spec (snd x) i) as [E|E]; [|reflexivity]. cbn [orb].
        destruct (Nat.eqb_spec (fst x) t) as [F|F].
        -- assert (Q : alive m x = false) by (destruct x; cbn in *; subst; assumption). rewrite Q. reflexivity.
        -- rewrite andb_false_r. reflexivity.
      * intros x X (T & [I|I]); [|apply (W3 x X); auto].
        assert (Q : alive m x = false) by (destruct x; cbn in *; subst; assumption).
        apply (k_nw _ _ _ K3) in X. destruct (l_dead _ _ L x Q) as (_ & _ & _ & Z). congruence.
Qed.
Lemma end_type t m : links [] m -> slots m -> hon m = true -> non m = false -> (forall x, hid m x = true -> fst x < S t) ->
  exists m', end_ids t (seq 0 (next m t)) m = Some m' /\ killed [] m m' /\ links [] m' /\ slots m' /\
    (forall x, alive m' x = alive m x && negb (hid m x && (fst x =? t))) /\
    (forall x, hid m' x = true -> fst x < t) /\ (forall x, nw m' x = true -> fst x <> t) /\ hon m' = true /\ non m' = false.
Proof.
  intros L S0 HO NO MX.
  destruct (end_ids_spec t (seq 0 (next m t)) (seq_NoDup _ _) m L S0 HO NO) as (m' & -> & K & A & W).
  { intros x X. apply MX in X. lia. }
  exists m'. split; [reflexivity|]. split; [assumption|].
  split; [eapply killed_links; [intros x []|exact L|exact K]|]. split; [apply (k_slots _ _ _ K S0)|].
  assert (A' : forall x, alive m' x = alive m x && negb (hid m x && (fst x =? t))).
  { intros x. rewrite A. destruct (alive m x) eqn:X; [|reflexivity]. destruct (hid m x); [|reflexivity].
    destruct (Nat.eqb_spec (fst x) t) as [F|F]; [|reflexivity]. cbn.
    assert (Q : existsb (Nat.eqb (snd x)) (seq 0 (next m t)) = true); [|rewrite Q; reflexivity].
    apply existsb_exists. exists (snd x). split; [|apply Nat.eqb_refl]. apply in_seq.
    destruct (s_rng _ S0 x X) as (_ & R). rewrite F in R. lia. }
  split; [assumption|]. destruct (k_mode _ _ _ K) as (M1 & M2 & _). split; [|split; [|split; congruence]].
  - intros x X. destruct (alive m' x) eqn:Q; [|destruct (k_dead _ _ _ K x Q) as (_ & _ & Z & _); congruence].
    pose proof (k_hid _ _ _ K x Q) as Hx. rewrite X in Hx. symmetry in Hx. pose proof (MX x Hx).
    rewrite A', Hx in Q. destruct (Nat.eqb_spec (fst x) t) as [F|F]; [|lia]. cbn in Q. rewrite andb_false_r in Q. discriminate.
  - intros x X T. apply (W x X). split; [assumption|]. apply in_seq.
    destruct (alive m' x) eqn:Q; [|destruct (k_dead _ _ _ K x Q) as (_ & _ & _ & Z); congruence].
    apply (k_alive _ _ _ K) in Q. destruct (s_rng _ S0 x Q) as (_ & R). rewrite T in R. lia.
Qed.
Lemma end_spec m : links [] m -> slots m -> hon m = true ->
  exists m', end_modification m = Some m' /\ links [] m' /\ slots m' /\
    (forall x, alive m' x = alive m x && negb (hid m x)) /\
    (forall x, alive m' x = true -> low m' x = filter (alive m') (low m x) /\ high m' x = filter (alive m') (high m x)) /\
    (forall x, hid m' x = false /\ nw m' x = false) /\ hon m' = false /\ non m' = false /\ cn m' = cn m /\
    (forall t, next m' t = next m t) /\ (forall t, hcount m' t = 0%Z /\ hcount0 m' t = 0%Z).
Proof.
  intros L S0 HO. unfold end_modification. rewrite HO.
  set (m0 := set_mode m true false).
  assert (L0 : links [] m0) by (constructor; apply L).
  assert (S00 : slots m0) by (eapply slots_ext; [| | |exact S0]; reflexivity).
  destruct (end_type 3 m0 L0 S00 eq_refl eq_refl) as (m1 & E1 & K1 & L1 & S1 & A1 & H1 & W1 & HO1 & NO1).
  { intros x X. destruct (alive m x) eqn:Q; [destruct (s_rng _ S0 x Q); lia|].
    destruct (l_dead _ _ L x Q) as (_ & _ & Z & _). change (hid m0 x) with (hid m x) in X. congruence. }
  destruct (end_type 2 m1 L1 S1 HO1 NO1 H1) as (m2 & E2 & K2 & L2 & S2 & A2 & H2 & W2 & HO2 & NO2).
  destruct (end_type 1 m2 L2 S2 HO2 NO2 H2) as (m3 & E3 & K3 & L3 & S3 & A3 & H3 & W3 & HO3 & NO3).
  destruct (end_type 0 m3 L3 S3 HO3 NO3 H3) as (m4 & E4 & K4 & L4 & S4 & A4 & H4 & W4 & HO4 & NO4).
  cbn [end_types]. rewrite E1, E2, E3, E4. eexists. split; [reflexivity|].
  assert (K : killed [] m0 m4) by (exact (killed_trans _ _ _ _ K1 (killed_trans _ _ _ _ K2 (killed_trans _ _ _ _ K3 K4)))).
  assert (HN : forall x, hid m4 x = false /\ nw m4 x = false).
  { intros x. split.
    - destruct (hid m4 x) eqn:X; [|reflexivity]. apply H4 in X. lia.
    - destruct (nw m4 x) eqn:X; [|reflexivity]. exfalso. pose proof (W4 x X) as Q0.
      pose proof (k_nw _ _ _ K4 x X) as X3. pose proof (W3 x X3) as Q1.
      pose proof (k_nw _ _ _ K3 x X3) as X2. pose proof (W2 x X2) as Q2.
      pose proof (k_nw _ _ _ K2 x X2) as X1. pose proof (W1 x X1) as Q3.
      destruct (alive m4 x) eqn:A; [destruct (s_rng _ S4 x A); lia|].
      destruct (k_dead _ _ _ K x A) as (_ & _ & _ & Z). congruence. }
  assert (AL : forall x, alive m4 x = alive m x && negb (hid m x)).
  { intros x. destruct (hid m x) eqn:HX.
    - rewrite andb_false_r. destruct (alive m4 x) eqn:X4; [|reflexivity]. exfalso.
      pose proof (k_alive _ _ _ K4 x X4) as X3. pose proof (k_alive _ _ _ K3 x X3) as X2. pose proof (k_alive _ _ _ K2 x X2) as X1.
      pose proof (k_alive _ _ _ K1 x X1) as X0.
      pose proof (k_hid _ _ _ K x X4) as Q. destruct (HN x) as (Z & _). change (hid m0 x) with (hid m x) in Q. congruence.
    - rewrite andb_true_r.
      assert (G' : forall n n' t, killed [] n n' -> links [] n' -> (forall x, alive n' x = alive n x && negb (hid n x && (fst x =? t))) ->
         hid n x = false -> alive n' x = alive n x /\ hid n' x = false).
      { intros n n' t Kn Ln An Hx. rewrite An, Hx. cbn. rewrite andb_true_r. split; [reflexivity|].
        destruct (alive n' x) eqn:Q; [rewrite (k_hid _ _ _ Kn x Q); assumption|].
        destruct (l_dead _ _ Ln x Q) as (_ & _ & Z & _). assumption. }
      destruct (G' m0 m1 3 K1 L1 A1 HX) as (R1 & Y1).
      destruct (G' m1 m2 2 K2 L2 A2 Y1) as (R2 & Y2).
      destruct (G' m2 m3 1 K3 L3 A3 Y2) as (R3 & Y3).
      destruct (G' m3 m4 0 K4 L4 A4 Y3) as (R4 & Y4).
      rewrite R4, R3, R2, R1. reflexivity. }
  split; [constructor; cbn; apply L4|].
  split; [eapply slots_ext; [| | |exact S4]; reflexivity|].
  split; [exact AL|]. split.
  { intros x X. cbn [set_mode set_marks low high alive]. split; [apply (k_low _ _ _ K x X)|apply (k_high _ _ _ K x X (fun F => F))]. }
  split; [exact HN|]. split; [reflexivity|]. split; [reflexivity|].
  split; [apply (k_mode _ _ _ K)|]. split; [apply (k_next _ _ _ K)|]. intros t. split; reflexivity.
Qed.

(** * Creation *)
Lemma tie_spec m t : slots m -> t < 4 -> exists h m1, tie m t = (h, m1) /\ fst h = t /\ alive m h = false /\
  m1 = set_slots m (upd (alive m) h true) (next m1) (free m1) /\ slots m1 /\ (forall u, next m u <= next m1 u) /\
  (forall u i, i < next m1 u -> alive m1 (u, i) = false -> i < next m u).
Proof.
  intros S0 T. unfold tie. destruct (free m t) as [|i r] eqn:F.
  - exists (t, next m t). eexists. split; [reflexivity|]. split; [reflexivity|].
    assert (D : alive m (t, next m t) = false).
    { destruct (alive m (t, next m t)) eqn:A; [|reflexivity]. apply (s_rng _ S0) in A. cbn in A. lia. }
    split; [assumption|]. split; [reflexivity|]. split; [|split].
    + constructor; cbn [set_slots alive next free].
      * intros x. unfold upd, updn. destruct (eqe x (t, next m t)) eqn:Q.
        -- intros _. apply eqe_spec in Q. subst x. cbn [fst snd]. rewrite Nat.eqb_refl. lia.
        -- intros A. destruct (s_rng _ S0 x A) as (R1 & R2). split; [assumption|].
           destruct (Nat.eqb_spec (fst x) t) as [E|E]; [rewrite E in R2; lia|assumption].
      * intros u j. rewrite (s_free _ S0). unfold upd, updn, eqe. cbn [fst snd].
        destruct (Nat.eqb_spec u t) as [->|E]; cbn [andb]; [|reflexivity].
        destruct (Nat.eqb_spec j (next m t)) as [->|J]; [split; [lia|intros (_ & X); discriminate]|]. intuition lia.
      * apply (s_nodup _ S0).
    + intros u. cbn [set_slots next]. unfold updn. destruct (Nat.eqb_spec u t) as [->|]; lia.
    + intros u j. cbn [set_slots next alive]. unfold updn, upd, eqe. cbn [fst snd].
      destruct (Nat.eqb_spec u t) as [->|]; cbn; [|auto]. destruct (Nat.eqb_spec j (next m t)); [discriminate|lia].
  - exists (t, i). eexists. split; [reflexivity|]. split; [reflexivity|].
    assert (FI : In i (free m t)) by (rewrite F; left; reflexivity). apply (s_free _ S0) in FI. destruct FI as (R & D).
    split; [assumption|]. split; [reflexivity|]. split; [|split; [reflexivity|auto]].
    constructor; cbn [set_slots alive next free].
    + intros x. unfold upd. destruct (eqe x (t, i)) eqn:Q; [|apply (s_rng _ S0)].
      intros _. apply eqe_spec in Q. subst x. cbn. auto.
    + intros u j. unfold upd, updn, eqe. cbn [fst snd]. destruct (Nat.eqb_spec u t) as [->|E]; cbn [andb]; [|apply (s_free _ S0)].
      pose proof (s_free _ S0 t j) as FJ. rewrite F in FJ. cbn in FJ. pose proof (s_nodup _ S0 t) as ND. rewrite F in ND.
      inversion ND; subst. destruct (Nat.eqb_spec j i) as [->|J]; [intuition congruence|]. intuition congruence.
    + intros u. unfold updn. destruct (Nat.eqb_spec u t) as [->|E]; [|apply (s_nodup _ S0)].
      pose proof (s_nodup _ S0 t) as ND. rewrite F in ND. inversion ND; assumption.
Qed.
Lemma push_high_spec h ls : forall m, exists hh, fold_left (push_high h) ls m = set_conn m (low m) hh /\
  (forall a, hh a = high m a ++ repeat h (cnt ls a)).
Proof.
  induction ls as [|u r IH]; intros m; cbn [fold_left].
  - exists (high m). rewrite set_conn_eta. split; [reflexivity|]. intros a. cbn. rewrite app_nil_r. reflexivity.
  - destruct (IH (push_high h m u)) as (hh & E & HH). exists hh. split; [exact E|]. intros a. rewrite HH. cbn [push_high set_high set_conn high count_occ].
    destruct (elem_dec u a) as [->|N].
    + rewrite upd_same, <- app_assoc. reflexivity.
    + rewrite upd_other by congruence. reflexivity.
Qed.
Lemma push_low_spec h ls : forall m, exists ll, fold_left (push_low h) ls m = set_conn m ll (high m) /\
  (forall a, ll a = low m a ++ repeat h (cnt ls a)).
Proof.
  induction ls as [|u r IH]; intros m; cbn [fold_left].
  - exists (low m). rewrite set_conn_eta. split; [reflexivity|]. intros a. cbn. rewrite app_nil_r. reflexivity.
  - destruct (IH (push_low h m u)) as (ll & E & HH). exists ll. split; [exact E|]. intros a. rewrite HH. cbn [push_low set_low set_conn low count_occ].
    destruct (elem_dec u a) as [->|N].
    + rewrite upd_same, <- app_assoc. reflexivity.
    + rewrite upd_other by congruence. reflexivity.
Qed.
(** the new element h of type t over lows, with nodes ns *)
Record created (m : mesh) (h : elem) (lows ns : list elem) (m' : mesh) : Prop := {
  c_fresh : alive m h = false;
  c_alive : forall x, alive m' x = if eqe x h then true else alive m x;
  c_low : forall y, low m' y = if eqe y h then lows else low m y ++ repeat h (cnt ns y);
  c_high : forall x, high m' x = if eqe x h then ns else high m x ++ repeat h (cnt lows x);
  c_hid : hid m' = hid m;
  c_nw : forall x, nw m' x = if eqe x h then non m else nw m x;
  c_mode : hon m' = hon m /\ non m' = non m /\ cn m' = cn m;
  c_count : hcount m' = hcount m /\ hcount0 m' = hcount0 m;
  c_slots : slots m';
  c_next : forall t, next m t <= next m' t;
  c_ids : forall t i, i < next m' t -> alive m' (t, i) = false -> i < next m t }.
Lemma mark_new_fields m h : exists n, mark_new m h = set_marks m (hid m) n (hcount m) (hcount0 m) /\
  (forall x, n x = if eqe x h then if non m then true else nw m x else nw m x).
Proof.
  unfold mark_new. destruct (non m) eqn:N.
  - exists (upd (nw m) h true). split; [reflexivity|]. reflexivity.
  - exists (nw m). split; [destruct m; reflexivity|]. intros x. destruct (eqe x h); reflexivity.
Qed.
Lemma create_node_spec m : links [] m -> slots m -> exists h, snd (create_node m) = h /\ fst h = 0 /\
  created m h [] [] (fst (create_node m)).
Proof.
  intros L S0. unfold create_node. destruct (tie_spec m 0 S0) as (h & m1 & -> & T & D & E & S1 & N1 & N2); [lia|].
  exists h. split; [reflexivity|]. split; [assumption|]. cbn [fst].
  destruct (mark_new_fields m1 h) as (n & -> & NN). destruct (l_dead _ _ L h D) as (D1 & D2 & D3 & D4).
  rewrite E in NN |- *. constructor; cbn [set_marks set_slots alive low high hid nw hon non cn hcount hcount0 next free] in *; auto.
  - intros y. cbn. rewrite app_nil_r. destruct (eqe y h) eqn:Q; [apply eqe_spec in Q; subst; assumption|reflexivity].
  - intros y. cbn. rewrite app_nil_r. destruct (eqe y h) eqn:Q; [apply eqe_spec in Q; subst; assumption|reflexivity].
  - intros x. rewrite NN. destruct (eqe x h) eqn:Q; [|reflexivity]. apply eqe_spec in Q. subst. rewrite D4. destruct (non m); reflexivity.
  - eapply slots_ext; [| | |exact S1]; [rewrite E| |]; reflexivity.
  - intros t i I A. apply (N2 t i I). rewrite E. exact A.
Qed.
Definition args (m : mesh) (t : nat) (lows nodes : list elem) : Prop :=
  1 <= t <= 3 /\ (forall a, In a lows -> alive m a = true /\ S (fst a) = t) /\
  (forall a, In a nodes -> alive m a = true /\ fst a = 0).
Lemma args_ok_spec m t lows nodes : args_ok m t lows nodes = true <-> args m t lows nodes.
Proof.
  unfold args_ok, args. rewrite !andb_true_iff, !forallb_forall, !Nat.leb_le. split.
  - intros (((A & B) & C) & D). split; [lia|]. split; intros a I.
    + apply C in I. apply andb_true_iff in I. rewrite Nat.eqb_eq in I. assumption.
    + apply D in I. apply andb_true_iff in I. rewrite Nat.eqb_eq in I. assumption.
  - intros (A & B & C). split; [split; [split; lia|]|]; intros a I.
    + apply andb_true_iff. rewrite Nat.eqb_eq. apply B. assumption.
    + apply andb_true_iff. rewrite Nat.eqb_eq. apply C. assumption.
Qed.
Lemma create_spec m t (dup : bool) lows nodes : links [] m -> slots m -> args m t lows nodes -> lows <> [] ->
  (if dup then shared m lows else Some None) = Some None ->
  exists h m', create m t dup lows nodes = Some (m', Some h, true) /\ fst h = t /\
    created m h lows (if Nat.eqb t 3 && cn m then nodes else []) m'.
Proof.
  intros L S0 AR NE SH. unfold create. rewrite (proj2 (args_ok_spec m t lows nodes) AR). cbn [negb]. rewrite SH.
  destruct lows as [|a0 r0] eqn:LE; [congruence|]. rewrite <- LE in *. clear LE a0 r0.
  destruct AR as (T & AL & AN). destruct (tie_spec m t S0) as (h & m1 & -> & TH & D & E & S1 & N1 & N2); [lia|].
  destruct (l_dead _ _ L h D) as (D1 & D2 & D3 & D4).
  assert (NL : cnt lows h = 0) by (apply cnt_zero; intros I; apply AL in I; destruct I; congruence).
  destruct (push_high_spec h lows m1) as (hh & -> & HH). cbn [set_conn low].
  set (m3 := set_low (set_conn m1 (low m1) hh) h (low m1 h ++ lows)).
  exists h.
  assert (M4 : exists l4 h4, (if (t =? 3) && cn m then set_high (fold_left (push_low h) nodes m3) h (nodes ++ high (fold_left (push_low h) nodes m3) h) else m3)
      = set_conn m1 l4 h4 /\
      (forall y, l4 y = if eqe y h then lows else low m y ++ repeat h (cnt (if (t =? 3) && cn m then nodes else []) y)) /\
      (forall x, h4 x = if eqe x h then (if (t =? 3) && cn m then nodes else []) else high m x ++ repeat h (cnt lows x))).
  { destruct ((t =? 3) && cn m) eqn:C.
    - apply andb_true_iff in C. destruct C as (C & _). apply Nat.eqb_eq in C.
      assert (NN : cnt nodes h = 0) by (apply cnt_zero; intros I; apply AN in I; destruct I; lia).
      destruct (push_low_spec h nodes m3) as (ll & -> & LL). exists ll, (upd hh h (nodes ++ hh h)).
      split; [reflexivity|]. cbn [m3 set_low set_conn low high] in LL. rewrite E in LL, HH. cbn [set_slots low high] in LL, HH. split.
      + intros y. rewrite LL. unfold upd. destruct (eqe y h) eqn:Q; [|reflexivity]. apply eqe_spec in Q. subst y. rewrite D1, NN. cbn. apply app_nil_r.
      + intros x. unfold upd. destruct (eqe x h) eqn:Q; [|apply HH]. apply eqe_spec in Q. subst x. rewrite HH, D2, NL. cbn. apply app_nil_r.
    - exists (upd (low m1) h (low m1 h ++ lows)), hh. split; [reflexivity|]. rewrite E in HH |- *. cbn [set_slots low high] in *. split.
      + intros y. unfold upd. destruct (eqe y h); [rewrite D1; reflexivity|]. cbn. rewrite app_nil_r. reflexivity.
      + intros x. rewrite HH. destruct (eqe x h) eqn:Q; [|reflexivity]. apply eqe_spec in Q. subst. rewrite D2, NL. reflexivity. }
  destruct M4 as (l4 & h4 & -> & L4 & H4).
  destruct (mark_new_fields (set_conn m1 l4 h4) h) as (n & -> & NN).
  eexists. split; [reflexivity|]. split; [assumption|].
  rewrite E in NN |- *. constructor; cbn [set_marks set_slots set_conn alive low high hid nw hon non cn hcount hcount0 next free] in *; auto.
  - intros x. rewrite NN. destruct (eqe x h) eqn:Q; [|reflexivity]. apply eqe_spec in Q. subst. rewrite D4. destruct (non m); reflexivity.
  - eapply slots_ext; [| | |exact S1]; [rewrite E| |]; reflexivity.
  - intros u i I A. apply (N2 u i I). rewrite E. exact A.
Qed.
Lemma cnt_repeat h n x : cnt (repeat h n) x = if eqe x h then n else 0.
Proof.
  induction n as [|n IH]; cbn; [destruct (eqe x h); reflexivity|].
  destruct (elem_dec h x) as [->|N]; rewrite IH.
  - rewrite eqe_refl. reflexivity.
  - assert (Q : eqe x h = false) by (apply eqe_neq; congruence). rewrite Q. reflexivity.
Qed.
Lemma created_links m h lows ns m' : links [] m -> created m h lows ns m' ->
  (forall a, In a lows -> alive m a = true /\ S (fst a) = fst h) ->
  (forall a, In a ns -> alive m a = true /\ fst a = 0 /\ fst h = 3 /\ cn m = true) -> links [] m'.
Proof.
  intros L C AL AN. pose proof (c_fresh _ _ _ _ _ C) as D.
  assert (NH : forall y, ~ In h (low m y)) by (intros y I; destruct (l_ok _ _ L h y I); congruence).
  assert (NL : forall y, ~ In y (low m h)) by (intros y I; destruct (l_ok _ _ L y h I) as (_ & Q & _); congruence).
  assert (NU : forall x, ~ In h (high m x)).
  { intros x I. apply (links_in [] m x h L (fun F => F)) in I. apply (NL x I). }
  assert (Hl : ~ In h lows) by (intros I; apply AL in I; destruct I; congruence).
  assert (Hn : ~ In h ns) by (intros I; apply AN in I; destruct I; congruence).
  destruct (c_mode _ _ _ _ _ C) as (_ & _ & CM).
  constructor.
  - intros x y _. rewrite (c_low _ _ _ _ _ C), (c_high _ _ _ _ _ C).
    destruct (eqe x h) eqn:X, (eqe y h) eqn:Y.
    + apply eqe_spec in X, Y. subst. rewrite !cnt_zero by assumption. reflexivity.
    + apply eqe_spec in X. subst x. rewrite count_occ_app, cnt_repeat, eqe_refl, cnt_zero by apply NH. reflexivity.
    + apply eqe_spec in Y. subst y. rewrite count_occ_app, cnt_repeat, eqe_refl, (cnt_zero (high m x)) by apply NU. reflexivity.
    + rewrite !count_occ_app, !cnt_repeat, X, Y, (l_sym _ _ L x y (fun F => F)). reflexivity.
  - intros x y [].
  - intros x y. rewrite (c_low _ _ _ _ _ C), !(c_alive _ _ _ _ _ C), CM. destruct (eqe y h) eqn:Y.
    + intros I. apply eqe_spec in Y. subst y. destruct (AL x I) as (A & T). rewrite A. split; [destruct (eqe x h); reflexivity|].
      split; [reflexivity|]. left. congruence.
    + intros I. apply in_app_iff in I. destruct I as [I|I].
      * destruct (l_ok _ _ L x y I) as (A & B & V). rewrite A. split; [destruct (eqe x h); reflexivity|]. auto.
      * assert (HX := repeat_spec _ _ _ I). subst x. rewrite eqe_refl. split; [reflexivity|].
        assert (IN : In y ns).
        { apply cnt_pos. destruct (cnt ns y); [destruct I|lia]. }
        destruct (AN y IN) as (A & B & T & Q). split; [assumption|]. right. auto.
  - intros x. rewrite (c_alive _ _ _ _ _ C), (c_low _ _ _ _ _ C), (c_high _ _ _ _ _ C), (c_hid _ _ _ _ _ C), (c_nw _ _ _ _ _ C).
    destruct (eqe x h); [discriminate|]. intros A. destruct (l_dead _ _ L x A) as (H1 & H2 & H3 & H4). rewrite H1, H2.
    assert (Q1 : cnt ns x = 0) by (apply cnt_zero; intros I; apply AN in I; destruct I; congruence).
    assert (Q2 : cnt lows x = 0) by (apply cnt_zero; intros I; apply AL in I; destruct I; congruence).
    rewrite Q1, Q2. auto.
Qed.

(** * All histories *)
Record good (m : mesh) : Prop := {
  g_links : links [] m; g_slots : slots m; g_mode : non m = hon m;
  g_quiet : hon m = false -> forall x, hid m x = false /\ nw m x = false;
  g_count : hon m = false -> forall t, hcount m t = 0%Z /\ hcount0 m t = 0%Z }.
Lemma good_empty c : good (empty_mesh c).
Proof.
  constructor; cbn; auto; try (intros; split; reflexivity).
  - constructor; cbn; auto; try discriminate; intros x y [].
  - constructor; cbn; [discriminate| |constructor]. intros t i. split; [intros []|intros (Q & _); lia].
Qed.
Lemma good_killed m m' : good m -> killed [] m m' -> good m'.
Proof.
  intros G K. destruct (k_mode _ _ _ K) as (M1 & M2 & M3). constructor.
  - eapply killed_links; [intros x []|apply G|exact K].
  - apply (k_slots _ _ _ K), G.
  - rewrite M1, M2. apply G.
  - intros HO x. rewrite M1 in HO. destruct (g_quiet _ G HO x) as (Q1 & Q2). destruct (alive m' x) eqn:A.
    + rewrite (k_hid _ _ _ K x A). split; [assumption|]. destruct (nw m' x) eqn:W; [|reflexivity]. apply (k_nw _ _ _ K) in W. congruence.
    + destruct (k_dead _ _ _ K x A) as (_ & _ & H1 & H2). auto.
  - intros HO t. rewrite M1 in HO. destruct (k_count _ _ _ K t) as (-> & ->). apply (g_count _ G HO).
Qed.
Lemma good_hide m m' : good m -> hon m = true -> hid_keep m m' -> (forall x, hid m' x = true -> hid m x = true \/ alive m x = true) -> good m'.
Proof.
  intros G HO K HA. constructor.
  - eapply hid_links; eauto. apply G.
  - eapply hid_slots; eauto. apply G.
  - rewrite (h_hon _ _ K), (h_non _ _ K). apply G.
  - rewrite (h_hon _ _ K). congruence.
  - rewrite (h_hon _ _ K). congruence.
Qed.
Lemma good_created m h lows ns m' : good m -> created m h lows ns m' ->
  (forall a, In a lows -> alive m a = true /\ S (fst a) = fst h) ->
  (forall a, In a ns -> alive m a = true /\ fst a = 0 /\ fst h = 3 /\ cn m = true) -> good m'.
Proof.
  intros G C AL AN. destruct (c_mode _ _ _ _ _ C) as (M1 & M2 & M3). constructor.
  - eapply created_links; eauto. apply G.
  - apply (c_slots _ _ _ _ _ C).
  - rewrite M1, M2. apply G.
  - intros HO x. rewrite M1 in HO. rewrite (c_hid _ _ _ _ _ C), (c_nw _ _ _ _ _ C), (g_mode _ G), HO.
    destruct (g_quiet _ G HO x) as (-> & ->). split; [reflexivity|]. destruct (eqe x h); reflexivity.
  - intros HO t. rewrite M1 in HO. destruct (c_count _ _ _ _ _ C) as (-> & ->). apply (g_count _ G HO).
Qed.
Lemma good_create m t (dup : bool) lows nodes m' r (b : bool) : good m -> create m t dup lows nodes = Some (m', r, b) ->
  args m t lows nodes /\
  ((lows = [] /\ m' = m /\ r = None /\ b = true) \/
   (lows <> [] /\ dup = true /\ m' = m /\ b = false /\ exists e, r = Some e /\ shared m lows = Some (Some e)) \/
   (lows <> [] /\ (dup = true -> shared m lows = Some None) /\ b = true /\ exists h, r = Some h /\ fst h = t /\
      created m h lows (if Nat.eqb t 3 && cn m then nodes else []) m')).
Proof.
  intros G H. destruct (args_ok m t lows nodes) eqn:AR.
  2:{ unfold create in H. rewrite AR in H. discriminate. }
  apply args_ok_spec in AR. split; [assumption|].
  destruct (list_eq_dec elem_dec lows []) as [->|NE].
  - left. unfold create in H. rewrite (proj2 (args_ok_spec _ _ _ _) AR) in H. cbn in H. inversion H. auto.
  - right. destruct (if dup then shared m lows else Some None) as [[e|]|] eqn:SH.
    + left. destruct dup; [|discriminate]. unfold create in H. rewrite (proj2 (args_ok_spec _ _ _ _) AR) in H. cbn [negb] in H.
      rewrite SH in H. destruct lows; [congruence|]. inversion H; subst. repeat split; auto. eauto.
    + right. destruct (create_spec m t dup lows nodes (g_links _ G) (g_slots _ G) AR NE SH) as (h & m1 & E & T & C).
      rewrite E in H. inversion H; subst. split; [assumption|]. split; [intros ->; assumption|]. split; [reflexivity|]. eauto.
    + unfold create in H. rewrite (proj2 (args_ok_spec _ _ _ _) AR) in H. cbn [negb] in H.
      rewrite SH in H. destruct lows; [congruence|]. discriminate.
Qed.
Lemma created_args m t lows nodes (h : elem) : args m t lows nodes -> fst h = t ->
  (forall a, In a lows -> alive m a = true /\ S (fst a) = fst h) /\
  (forall a, In a (if Nat.eqb t 3 && cn m then nodes else []) -> alive m a = true /\ fst a = 0 /\ fst h = 3 /\ cn m = true).
Proof.
  intros (T & A & B) F. split.
  - intros a I. rewrite F. apply A. assumption.
  - destruct (Nat.eqb_spec t 3) as [E|E]; cbn [andb]; [|intros a []]. destruct (cn m); [|intros a []].
    intros a I. destruct (B a I). repeat split; auto. congruence.
Qed.
Lemma delete_quiet f h m m' : good m -> delete f h m = Some m' -> alive m h = true.
Proof. destruct f; cbn [delete]; [discriminate|]. destruct (alive m h); [reflexivity|discriminate]. Qed.
Lemma untie_non m5 h m' : untie m5 h = Some m' -> non m5 = false.
Proof. unfold untie. destruct (non m5); [discriminate|reflexivity]. Qed.
Lemma destroy_alive del h m m' : destroy_with del h m = Some m' -> alive m h = true.
Proof. unfold destroy_with. destruct (alive m h); [reflexivity|discriminate]. Qed.

(** the assertion in UntieElement: nothing is destroyed while the new marker exists *)
Lemma swap_back_non m h : non (swap_back m h) = non m.
Proof. destruct (swap_back_spec m h) as (hh & -> & _). reflexivity. Qed.
Lemma each_non test del us : (forall u m m', del u m = Some m' -> non m' = non m) ->
  forall m m', each test del us m = Some m' -> non m' = non m.
Proof.
  intros D. induction us as [|u r IH]; intros m m'; cbn [each]; [intros H; inversion H; reflexivity|].
  destruct (test m u).
  - destruct (del u m) as [m1|] eqn:E; [|discriminate]. intros H. rewrite (IH _ _ H). apply (D _ _ _ E).
  - apply IH.
Qed.
Lemma destroy_with_non del h m m' : (forall u m m', del u m = Some m' -> non m' = non m) ->
  destroy_with del h m = Some m' -> non m = false /\ non m' = false.
Proof.
  intros D. unfold destroy_with. destruct (negb (alive m h)); [discriminate|].
  set (m1 := if fst h =? 3 then swap_back m h else m).
  assert (N1 : non m1 = non m) by (subst m1; destruct (fst h =? 3); [apply swap_back_non|reflexivity]).
  set (u := if (fst h <? 3) || cn m1 then _ else _).
  assert (NU : forall m4, u = Some m4 -> non m4 = non m).
  { subst u. intros m4. destruct ((fst h <? 3) || cn m1); [|intros H; inversion H; subst; exact N1].
    destruct (cut_spec h (high m1 h) m1) as (ll & us & -> & _).
    destruct (fst h <? 3).
    - destruct (each _ del us _) as [m3|] eqn:E; [|discriminate]. intros H. inversion H; subst.
      apply (each_non _ _ _ D) in E. cbn [set_high set_conn non] in E |- *. congruence.
    - intros H. inversion H; subst. exact N1. }
  destruct u as [m4|]; [|discriminate]. specialize (NU m4 eq_refl).
  set (m5 := if (0 <? fst h) || cn m4 then _ else _).
  assert (N5 : non m5 = non m).
  { subst m5. destruct ((0 <? fst h) || cn m4); [|exact NU].
    destruct (unlink_spec h (low m4 h) m4) as (hh & -> & _). exact NU. }
  unfold untie. destruct (non m5) eqn:Q; [discriminate|]. intros H. inversion H; subst m'. cbn [set_marks set_slots non]. split; congruence.
Qed.
Lemma delete_non f : forall h m m', delete f h m = Some m' -> non m' = non m.
Proof.
  induction f as [|f IH]; intros h m m'; cbn [delete]; [discriminate|].
  destruct (negb (alive m h)); [discriminate|]. destruct (hon m).
  - assert (NH : non (hide m h) = non m).
    { unfold hide. destruct (hidden m h); [reflexivity|]. cbn [set_marks non]. destruct (fst h =? 3); [apply swap_back_non|reflexivity]. }
    destruct (fst h <? 3).
    + intros E. apply (each_non _ _ _ IH) in E. congruence.
    + intros E. inversion E; subst. exact NH.
  - intros E. destruct (destroy_with_non _ _ _ _ IH E). congruence.
Qed.
Lemma destroy_asserts h m : non m = true -> destroy h m = None.
Proof.
  intros N. destruct (destroy h m) as [m'|] eqn:E; [|reflexivity].
  destruct (destroy_with_non _ _ _ _ (delete_non 4) E). congruence.
Qed.

Lemma good_step m o m' : good m -> step m o = Some m' -> good m'.
Proof.
  intros G. destruct o as [|t dup lows nodes|h|h|h|h| | |]; cbn [step].
  - intros H. inversion H; subst. destruct (create_node_spec m (g_links _ G) (g_slots _ G)) as (h & _ & T & C).
    eapply good_created; [exact G|exact C| |]; intros a [].
  - destruct (create m t dup lows nodes) as [[[m1 r] b]|] eqn:E; [|discriminate]. intros H. inversion H; subst.
    destruct (good_create _ _ _ _ _ _ _ _ G E) as (AR & [(_ & -> & _)|[(_ & _ & -> & _)|(_ & _ & _ & h & _ & T & C)]]); try assumption.
    destruct (created_args _ _ _ _ h AR T). eapply good_created; eassumption.
  - intros H. pose proof (destroy_alive _ _ _ _ H) as A.
    destruct (hon m) eqn:HO; [rewrite destroy_asserts in H; [discriminate|rewrite (g_mode _ G); assumption]|].
    destruct (destroy_spec h m (g_links _ G) (g_slots _ G) A HO) as (m1 & E & K & _); [rewrite (g_mode _ G); assumption|].
    rewrite E in H. inversion H; subst. eapply good_killed; eassumption.
  - intros H. pose proof (delete_quiet _ _ _ _ G H) as A. destruct (hon m) eqn:HO.
    + destruct (hides_all 4 h m (g_links _ G) (g_slots _ G) A HO) as (m1 & E & K & U); [lia|].
      rewrite E in H. inversion H; subst. eapply good_hide; try eassumption. intros x X. apply U in X.
      destruct X as [X|X]; [auto|right; apply (reach_facts m h x (g_links _ G) A X)].
    + destruct (kills_all 4 [] h m (g_links _ G) (g_slots _ G) A) as (m1 & E & K & _);
        [intros e []|assumption|rewrite (g_mode _ G); assumption|lia|].
      rewrite E in H. inversion H; subst. eapply good_killed; eassumption.
  - destruct (alive m h) eqn:A; [|discriminate]. cbn. intros H. inversion H; subst. destruct (hon m) eqn:HO; [|assumption].
    destruct (hide_spec m h HO (g_slots _ G) A (g_links _ G)) as (K & U). eapply good_hide; try eassumption.
    intros x X. apply U in X. destruct X as [X|X]; [auto|subst; auto].
  - destruct (alive m h) eqn:A; [|discriminate]. cbn. intros H. inversion H; subst. destruct (hon m) eqn:HO; [|assumption].
    unfold show. destruct (hidden m h); [|assumption].
    constructor; cbn [set_marks alive low high hid nw hon non]; try apply G; try congruence.
    + constructor; cbn; try apply (g_links _ G). intros x X. destruct (l_dead _ _ (g_links _ G) x X) as (H1 & H2 & H3 & H4).
      repeat split; auto. unfold upd. destruct (eqe x h); [reflexivity|assumption].
    + eapply slots_ext; [| | |apply G]; reflexivity.
  - unfold begin_modification. destruct (hon m) eqn:HO; [discriminate|]. intros H. inversion H; subst.
    constructor; cbn; try discriminate; try reflexivity.
    + constructor; cbn; apply (g_links _ G).
    + eapply slots_ext; [| | |apply G]; reflexivity.
  - unfold swap_modification. destruct (hon m) eqn:HO; [|discriminate]. intros H. inversion H; subst.
    constructor; cbn; try congruence.
    + constructor; cbn; try apply (g_links _ G). intros x X. destruct (l_dead _ _ (g_links _ G) x X) as (H1 & H2 & H3 & H4). auto.
    + eapply slots_ext; [| | |apply G]; reflexivity.
    + apply G.
  - intros H. assert (HO : hon m = true) by (unfold end_modification in H; destruct (hon m); [reflexivity|discriminate]).
    destruct (end_spec m (g_links _ G) (g_slots _ G) HO) as (m1 & E & L & S1 & _ & _ & HN & M1 & M2 & _ & _ & HC).
    rewrite E in H. inversion H; subst. constructor; try assumption; try congruence; auto.
Qed.
Lemma good_run os : forall m m', good m -> run m os = Some m' -> good m'.
Proof.
  induction os as [|o r IH]; intros m m' G; cbn [run]; [intros H; inversion H; subst; assumption|].
  destruct (step m o) as [m1|] eqn:E; [|discriminate]. apply IH. eapply good_step; eassumption.
Qed.

(** * FindSharedAdjacency *)
Lemma find_first {A} (f : A -> bool) l x : find f l = Some x ->
  exists a b, l = a ++ x :: b /\ f x = true /\ (forall z, In z a -> f z = false).
Proof.
  induction l as [|y r IH]; cbn; [discriminate|]. destruct (f y) eqn:F.
  - intros H. inversion H; subst. exists [], r. repeat split; auto. intros z [].
  - intros H. destruct (IH H) as (a & b & -> & X & Z). exists (y :: a), b. repeat split; auto. intros z [<-|I]; auto.
Qed.
Lemma shared_quiet m k rest : hon m = false -> (forall a, In a (k :: rest) -> fst a < 3) ->
  shared m (k :: rest) = Some (find (fun x => forallb (fun a => has (high m a) x) rest) (high m k)).
Proof.
  intros HO T. unfold shared. rewrite HO.
  destruct (existsb (fun a => fst a =? 3) (k :: rest)) eqn:E; [|reflexivity].
  apply existsb_exists in E. destruct E as (a & I & E). apply Nat.eqb_eq in E. apply T in I. lia.
Qed.
Lemma shared_hidden m arr : hon m = true -> (forall a, In a arr -> fst a < 3) -> arr <> [] ->
  shared m arr = match filter (visible m) arr with
    | [] => None
    | k :: rest => Some (find (fun x => visible m x &&
              forallb (fun a => existsb (fun y => visible m y && eqe x y) (high m a)) rest) (high m k))
    end.
Proof.
  intros HO T NE. unfold shared. rewrite HO.
  destruct (existsb (fun a => fst a =? 3) arr) eqn:E.
  { apply existsb_exists in E. destruct E as (a & I & E). apply Nat.eqb_eq in E. apply T in I. lia. }
  destruct arr; [congruence|]. reflexivity.
Qed.
Lemma has_vis m x l : visible m x = true -> existsb (fun y => visible m y && eqe x y) l = has l x.
Proof.
  intros V. unfold has. induction l as [|y r IH]; [reflexivity|]. cbn. rewrite IH. f_equal.
  destruct (eqe x y) eqn:E; [|apply andb_false_r]. apply eqe_spec in E. subst. rewrite V. reflexivity.
Qed.
(** one statement for both modes *)
Lemma shared_spec m arr : arr <> [] -> (forall a, In a arr -> fst a < 3) ->
  match filter (visible m) arr with
  | [] => shared m arr = None
  | k :: _ => exists r, shared m arr = Some r /\
     match r with
     | Some x => exists p q, high m k = p ++ x :: q /\
         (visible m x = true /\ forall a, In a arr -> visible m a = true -> In x (high m a)) /\
         (forall z, In z p -> ~ (visible m z = true /\ forall a, In a arr -> visible m a = true -> In z (high m a)))
     | None => forall x, ~ (visible m x = true /\ forall a, In a arr -> visible m a = true -> In x (high m a))
     end
  end.
Proof.
  intros NE T.
  assert (Q : match filter (visible m) arr with [] => shared m arr = None
    | k :: rest => shared m arr = Some (find (fun x => visible m x && forallb (fun a => has (high m a) x) rest) (high m k)) end).
  { destruct (hon m) eqn:HO.
    - rewrite (shared_hidden m arr HO T NE). destruct (filter (visible m) arr) as [|k rest]; [reflexivity|].
      f_equal. induction (high m k) as [|x r IH]; [reflexivity|]. cbn [find].
      destruct (visible m x) eqn:V; cbn [andb]; [|exact IH].
      assert (F : forallb (fun a => existsb (fun y => visible m y && eqe x y) (high m a)) rest = forallb (fun a => has (high m a) x) rest).
      { clear IH. induction rest as [|a s IHs]; [reflexivity|]. cbn [forallb]. rewrite IHs, (has_vis m x _ V). reflexivity. }
      rewrite F. destruct (forallb (fun a => has (high m a) x) rest); [reflexivity|exact IH].
    - assert (V : forall x, visible m x = true) by (intros x; unfold visible, hidden; rewrite HO; reflexivity).
      rewrite filter_all by (intros x _; apply V). destruct arr as [|k rest]; [congruence|].
      rewrite (shared_quiet m k rest HO T). f_equal. induction (high m k) as [|x r IH]; [reflexivity|]. cbn [find].
      rewrite V. cbn [andb]. destruct (forallb (fun a => has (high m a) x) rest); [reflexivity|exact IH]. }
  destruct (filter (visible m) arr) as [|k rest] eqn:F; [exact Q|]. rewrite Q.
  assert (FI : forall a, In a (k :: rest) <-> In a arr /\ visible m a = true) by (intros a; rewrite <- F; apply filter_In).
  eexists. split; [reflexivity|].
  assert (TEST : forall x, In x (high m k) ->
     (visible m x && forallb (fun a => has (high m a) x) rest = true <->
      (visible m x = true /\ forall a, In a arr -> visible m a = true -> In x (high m a)))).
  { intros x I. rewrite andb_true_iff, forallb_forall. split; intros (V & H); (split; [assumption|]).
    - intros a Ia Va. destruct (proj2 (FI a) (conj Ia Va)) as [<-|J]; [assumption|]. apply has_spec, H. assumption.
    - intros a J. apply has_spec. apply H; apply (FI a); right; assumption. }
  destruct (find _ (high m k)) as [x|] eqn:E.
  - apply find_first in E. destruct E as (p & q & EQ & X & Z). exists p, q. split; [assumption|]. split.
    + apply TEST; [rewrite EQ; apply in_or_app; right; left; reflexivity|assumption].
    + intros z I H. apply TEST in H; [|rewrite EQ; apply in_or_app; left; assumption]. rewrite (Z z I) in H. discriminate.
  - intros x H. assert (I : In x (high m k)) by (apply H; apply (FI k); left; reflexivity).
    apply (TEST x I) in H. rewrite (find_none _ _ E x I) in H. discriminate.
Qed.

(** * Counting *)
Lemma filter_len_split {A} (p : A -> bool) l : length l = length (filter p l) + length (filter (fun x => negb (p x)) l).
Proof. induction l as [|x r IH]; cbn; [reflexivity|]. destruct (p x); cbn; lia. Qed.
Lemma free_count m t : slots m -> length (free m t) = length (filter (fun i => negb (alive m (t, i))) (seq 0 (next m t))).
Proof.
  intros S0. apply Permutation_length. apply NoDup_Permutation.
  - apply (s_nodup _ S0).
  - apply NoDup_filter, seq_NoDup.
  - intros i. rewrite (s_free _ S0), filter_In, in_seq, negb_true_iff. split; intros (A & B); split; auto; lia.
Qed.
Lemma number_of_spec m t : slots m -> (forall x, hid m x = true -> alive m x = true) -> (hon m = true \/ forall x, hid m x = false) ->
  (number_of m t = Z.of_nat (length (filter (fun i => alive m (t, i) && visible m (t, i)) (seq 0 (next m t)))) + nhid m t - hcount m t)%Z.
Proof.
  intros S0 HA HM. unfold number_of, nhid. rewrite (free_count m t S0).
  pose proof (filter_len_split (fun i => alive m (t, i)) (seq 0 (next m t))) as E1. rewrite seq_length in E1.
  pose proof (filter_len_split (fun i => hid m (t, i)) (filter (fun i => alive m (t, i)) (seq 0 (next m t)))) as E2.
  rewrite !filter_filter in E2.
  assert (Q1 : filter (fun i => alive m (t, i) && hid m (t, i)) (seq 0 (next m t)) = filter (fun i => hid m (t, i)) (seq 0 (next m t))).
  { apply filter_ext. intros i. destruct (hid m (t, i)) eqn:H; [rewrite (HA _ H)|rewrite andb_false_r]; reflexivity. }
  assert (Q2 : filter (fun i => alive m (t, i) && negb (hid m (t, i))) (seq 0 (next m t)) =
               filter (fun i => alive m (t, i) && visible m (t, i)) (seq 0 (next m t))).
  { apply filter_ext. intros i. unfold visible, hidden. destruct HM as [->|HM]; [reflexivity|]. rewrite HM, andb_false_r. reflexivity. }
  rewrite Q1, Q2 in E2. lia.
Qed.
Definition no_swap (os : list op) : Prop := ~ In OSwap os.
Lemma nhid_ext m m' : hid m' = hid m -> next m' = next m -> forall t, nhid m' t = nhid m t.
Proof. intros H N t. unfold nhid. rewrite H, N. reflexivity. Qed.
Lemma nhid_zero m : (forall x, hid m x = false) -> forall t, nhid m t = 0%Z.
Proof. intros H t. unfold nhid. rewrite filter_nothing; [reflexivity|]. intros i _. apply H. Qed.
Lemma counted_step m o m' : good m -> (forall t, hcount m t = nhid m t) -> o <> OSwap -> step m o = Some m' ->
  forall t, hcount m' t = nhid m' t.
Proof.
  intros G C NS H. pose proof (good_step _ _ _ G H) as G'.
  assert (QU : hon m' = false -> forall t, hcount m' t = nhid m' t).
  { intros HO t. rewrite nhid_zero by (intros x; apply (g_quiet _ G' HO)). apply (g_count _ G' HO). }
  assert (CR : forall h lows ns, created m h lows ns m' -> forall t, hcount m' t = nhid m' t).
  { intros h lows ns K t. destruct (c_count _ _ _ _ _ K) as (-> & _). rewrite C. unfold nhid. rewrite (c_hid _ _ _ _ _ K).
    pose proof (c_next _ _ _ _ _ K t) as NX.
    replace (next m' t) with (next m t + (next m' t - next m t)) by lia. rewrite seq_app, filter_app, app_length.
    rewrite (filter_nothing _ (seq (0 + next m t) (next m' t - next m t))); [cbn; lia|].
    intros i I. apply in_seq in I. destruct (hid m (t, i)) eqn:Q; [|reflexivity].
    destruct (alive m (t, i)) eqn:A; [apply (s_rng _ (g_slots _ G)) in A; cbn in A; lia|].
    destruct (l_dead _ _ (g_links _ G) _ A) as (_ & _ & Z & _). congruence. }
  destruct o as [|t0 dup lows nodes|h|h|h|h| | |]; cbn [step] in H; try congruence.
  - inversion H; subst. destruct (create_node_spec m (g_links _ G) (g_slots _ G)) as (h & _ & T & K). eapply CR. exact K.
  - destruct (create m t0 dup lows nodes) as [[[m1 r] b]|] eqn:E; [|discriminate]. inversion H; subst.
    destruct (good_create _ _ _ _ _ _ _ _ G E) as (AR & [(_ & -> & _)|[(_ & _ & -> & _)|(_ & _ & _ & h & _ & T & K)]]); try assumption.
    eapply CR. exact K.
  - apply QU. pose proof (destroy_alive _ _ _ _ H) as A.
    destruct (hon m) eqn:HO; [rewrite destroy_asserts in H; [discriminate|rewrite (g_mode _ G); assumption]|].
    destruct (destroy_spec h m (g_links _ G) (g_slots _ G) A HO) as (m1 & E & K & _); [rewrite (g_mode _ G); assumption|].
    rewrite E in H. inversion H; subst. destruct (k_mode _ _ _ K) as (-> & _). assumption.
  - pose proof (delete_quiet _ _ _ _ G H) as A. destruct (hon m) eqn:HO.
    + destruct (hides_all 4 h m (g_links _ G) (g_slots _ G) A HO) as (m1 & E & K & U); [lia|].
      rewrite E in H. inversion H; subst. intros t. pose proof (h_count _ _ K t). rewrite C in *. lia.
    + apply QU. destruct (kills_all 4 [] h m (g_links _ G) (g_slots _ G) A) as (m1 & E & K & _);
        [intros e []|assumption|rewrite (g_mode _ G); assumption|lia|].
      rewrite E in H. inversion H; subst. destruct (k_mode _ _ _ K) as (-> & _). assumption.
  - destruct (alive m h) eqn:A; [|discriminate]. cbn in H. inversion H; subst. destruct (hon m) eqn:HO; [|assumption].
    destruct (hide_spec m h HO (g_slots _ G) A (g_links _ G)) as (K & U). intros t. pose proof (h_count _ _ K t). rewrite C in *. lia.
  - destruct (alive m h) eqn:A; [|discriminate]. cbn in H. inversion H; subst. destruct (hon m) eqn:HO; [|assumption].
    unfold show, hidden. rewrite HO. cbn [andb]. destruct (hid m h) eqn:HH; [|assumption]. intros t.
    match goal with |- context[nhid ?q t] => rewrite (nhid_set m q h false eq_refl eq_refl) end;
      [|apply (s_rng _ (g_slots _ G)); assumption|assumption].
    cbn [set_marks hcount]. unfold updn. rewrite !C. destruct (Nat.eqb_spec t (fst h)) as [->|T]; rewrite ?C; lia.
  - unfold begin_modification in H. destruct (hon m) eqn:HO; [discriminate|]. inversion H; subst. exact C.
  - apply QU. assert (HO : hon m = true) by (unfold end_modification in H; destruct (hon m); [reflexivity|discriminate]).
    destruct (end_spec m (g_links _ G) (g_slots _ G) HO) as (m1 & E & L & S1 & _ & _ & HN & M1 & _).
    rewrite E in H. inversion H; subst. assumption.
Qed.
Lemma counted_run os : no_swap os -> forall m m', good m -> (forall t, hcount m t = nhid m t) -> run m os = Some m' ->
  forall t, hcount m' t = nhid m' t.
Proof.
  unfold no_swap. induction os as [|o r IH]; intros NS m m' G C; cbn [run]; [intros H; inversion H; subst; assumption|].
  destruct (step m o) as [m1|] eqn:E; [|discriminate]. apply IH.
  - intros I. apply NS. right. assumption.
  - eapply good_step; eassumption.
  - eapply counted_step; try eassumption. intros ->. apply NS. left. reflexivity.
Qed.

(** * No duplicates *)
Definition tidy (m : mesh) (o : op) : Prop :=
  match o with
  | OCreate _ dup lows _ => dup = true /\ forall a, In a lows -> visible m a = true
  | OHide _ | OShow _ | OSwap => False
  | _ => True
  end.
Fixpoint tidy_run (m : mesh) (os : list op) : Prop :=
  match os with [] => True | o :: r => tidy m o /\ match step m o with Some m' => tidy_run m' r | None => True end end.
Definition upclosed (m : mesh) : Prop := forall x y, hid m y = true -> fst y < 3 -> In x (high m y) -> hid m x = true.
Definition distinct_lows (m : mesh) : Prop := forall x y, alive m x = true -> alive m y = true -> visible m x = true -> visible m y = true ->
  1 <= fst x -> fst x = fst y -> x <> y -> ~ (forall a, In a (low m x) <-> In a (low m y)).
Lemma quiet_visible m x : (forall x, hid m x = false) -> visible m x = true.
Proof. intros H. unfold visible, hidden. rewrite H, andb_false_r. reflexivity. Qed.
Lemma low_high m a x : links [] m -> slots m -> In a (low m x) -> 1 <= fst x -> fst a < 3 /\ In x (high m a).
Proof.
  intros L S0 I T. destruct (l_ok _ _ L a x I) as (_ & Ax & V). destruct (s_rng _ S0 x Ax).
  split; [|apply (links_in [] m a x L (fun F => F)); assumption]. destruct V as [V|(V & W & _)]; lia.
Qed.
Lemma up_low_kept m m' h : good m -> killed [] m m' -> (forall x, alive m x = true -> (alive m' x = false <-> up m h x)) ->
  forall x, alive m' x = true -> 1 <= fst x -> low m' x = low m x.
Proof.
  intros G K U x X T. rewrite (k_low _ _ _ K x X). apply filter_all. intros a I.
  destruct (low_high m a x (g_links _ G) (g_slots _ G) I T) as (T3 & IH).
  destruct (alive m' a) eqn:A; [reflexivity|].
  destruct (l_ok _ _ (g_links _ G) a x I) as (Aa & Ax & _). apply (U a Aa) in A.
  assert (Q : alive m' x = false) by (apply (U x Ax); eapply up_step; eassumption). congruence.
Qed.
Lemma end_low_kept m m' : good m -> upclosed m -> (forall x, alive m' x = alive m x && negb (hid m x)) ->
  (forall x, alive m' x = true -> low m' x = filter (alive m') (low m x)) ->
  forall x, alive m' x = true -> 1 <= fst x -> low m' x = low m x.
Proof.
  intros G U A F x X T. rewrite (F x X). apply filter_all. intros a I.
  destruct (low_high m a x (g_links _ G) (g_slots _ G) I T) as (T3 & IH).
  destruct (l_ok _ _ (g_links _ G) a x I) as (Aa & Ax & _). rewrite A, Aa. cbn. apply negb_true_iff.
  destruct (hid m a) eqn:Q; [|reflexivity]. rewrite A, (U x a Q T3 IH) in X. cbn in X. rewrite andb_false_r in X. discriminate.
Qed.
Lemma tidy_step m o m' : good m -> upclosed m -> distinct_lows m -> tidy m o -> step m o = Some m' -> upclosed m' /\ distinct_lows m'.
Proof.
  intros G U D TO H. pose proof (good_step _ _ _ G H) as G'.
  assert (KILL : forall h, killed [] m m' -> hon m = false -> (forall x, alive m x = true -> (alive m' x = false <-> up m h x)) ->
     upclosed m' /\ distinct_lows m').
  { intros h K HO UP. destruct (k_mode _ _ _ K) as (M1 & _).
    assert (Q : forall x, hid m' x = false) by (intros x; apply (g_quiet _ G'); congruence).
    split; [intros x y Y; rewrite Q in Y; discriminate|].
    intros x y Ax Ay _ _ T T' N E. apply (D x y); try assumption.
    - apply (k_alive _ _ _ K). assumption.
    - apply (k_alive _ _ _ K). assumption.
    - unfold visible, hidden. rewrite HO. reflexivity.
    - unfold visible, hidden. rewrite HO. reflexivity.
    - intros a. rewrite <- !(up_low_kept m m' h G K UP) by (assumption || lia). apply E. }
  destruct o as [|t0 dup lows nodes|h|h|h|h| | |]; cbn [step tidy] in H, TO; try contradiction.
  - inversion H; subst. destruct (create_node_spec m (g_links _ G) (g_slots _ G)) as (h & _ & T & K).
    split.
    + intros x y. rewrite (c_hid _ _ _ _ _ K), (c_high _ _ _ _ _ K). intros Y Y3. destruct (eqe y h); [intros []|].
      cbn. rewrite app_nil_r. apply U; assumption.
    + intros x y. rewrite !(c_alive _ _ _ _ _ K), !(c_low _ _ _ _ _ K). intros Ax Ay Vx Vy T1 T2 N.
      assert (Qx : eqe x h = false) by (apply eqe_neq; intros ->; lia).
      assert (Qy : eqe y h = false) by (apply eqe_neq; intros ->; lia). rewrite Qx in *. rewrite Qy in *. cbn [count_occ repeat]. rewrite !app_nil_r.
      apply D; try assumption; unfold visible, hidden in *; destruct (c_mode _ _ _ _ _ K) as (M1 & _); rewrite M1, (c_hid _ _ _ _ _ K) in *; assumption.
  - destruct (create m t0 dup lows nodes) as [[[m1 r] b]|] eqn:E; [|discriminate]. inversion H; subst.
    destruct (good_create _ _ _ _ _ _ _ _ G E) as (AR & [(_ & -> & _)|[(_ & _ & -> & _)|(NE & SH & _ & h & _ & T & K)]]); try (split; assumption).
    destruct TO as (DD & VL). specialize (SH DD). destruct AR as (TR & AL & AN).
    assert (VE : forall x, visible m' x = visible m x).
    { intros x. unfold visible, hidden. destruct (c_mode _ _ _ _ _ K) as (-> & _). rewrite (c_hid _ _ _ _ _ K). reflexivity. }
    assert (HF : hid m h = false).
    { destruct (l_dead _ _ (g_links _ G) h (c_fresh _ _ _ _ _ K)) as (_ & _ & Z & _). exact Z. }
    split.
    + intros x y. rewrite (c_hid _ _ _ _ _ K), (c_high _ _ _ _ _ K). intros Y Y3 I. destruct (eqe y h) eqn:Q.
      { apply eqe_spec in Q. subst y. congruence. }
      apply in_app_iff in I. destruct I as [I|I]; [apply (U x y); assumption|]. exfalso.
      assert (IL : In y lows) by (apply cnt_pos; destruct (cnt lows y); [destruct I|lia]).
      apply VL in IL. unfold visible, hidden in IL. rewrite Y, andb_true_r in IL.
      destruct (hon m) eqn:HO; [discriminate|]. destruct (g_quiet _ G HO y). congruence.
    + assert (NEW : forall y, alive m y = true -> visible m y = true -> fst y = fst h -> ~ (forall a, In a lows <-> In a (low m y))).
      { intros y Ay Vy Ty EQ. pose proof (shared_spec m lows NE) as SP.
        destruct (filter (visible m) lows) as [|k rest] eqn:F.
        - destruct lows as [|a0 r0]; [congruence|]. cbn in F. rewrite (VL a0 (or_introl eq_refl)) in F. discriminate.
        - destruct SP as (rr & SP1 & SP2).
          { intros a I. apply AL in I. lia. }
          rewrite SH in SP1. inversion SP1; subst rr. apply (SP2 y). split; [assumption|]. intros a I _.
          apply (links_in [] m a y (g_links _ G) (fun F => F)). apply EQ. assumption. }
      assert (LOWN : forall y : elem, 1 <= fst y -> eqe y h = false -> low m' y = low m y).
      { intros y Ty Q. rewrite (c_low _ _ _ _ _ K), Q. destruct (cnt _ y) eqn:CC; [cbn; apply app_nil_r|].
        exfalso. assert (I : In y (if (t0 =? 3) && cn m then nodes else [])) by (apply cnt_pos; lia).
        destruct ((t0 =? 3) && cn m); [|destruct I]. apply AN in I. lia. }
      assert (LOWH : low m' h = lows) by (rewrite (c_low _ _ _ _ _ K), eqe_refl; reflexivity).
      intros x y Ax Ay Vx Vy T1 T2 N EQ. rewrite VE in Vx, Vy. rewrite (c_alive _ _ _ _ _ K) in Ax, Ay.
      destruct (eqe x h) eqn:Qx, (eqe y h) eqn:Qy.
      * apply eqe_spec in Qx, Qy. congruence.
      * apply eqe_spec in Qx. subst x. apply (NEW y Ay Vy); [congruence|]. intros a. rewrite <- LOWH, EQ, LOWN by (assumption || lia). reflexivity.
      * apply eqe_spec in Qy. subst y. apply (NEW x Ax Vx); [congruence|]. intros a. rewrite <- LOWH, <- EQ, LOWN by (assumption || lia). reflexivity.
      * apply (D x y); try assumption. intros a. rewrite <- !LOWN by (assumption || lia). apply EQ.
  - pose proof (destroy_alive _ _ _ _ H) as A.
    destruct (hon m) eqn:HO; [rewrite destroy_asserts in H; [discriminate|rewrite (g_mode _ G); assumption]|].
    destruct (destroy_spec h m (g_links _ G) (g_slots _ G) A HO) as (m1 & E & K & UP); [rewrite (g_mode _ G); assumption|].
    rewrite E in H. inversion H; subst. eapply KILL; eauto.
  - pose proof (delete_quiet _ _ _ _ G H) as A. destruct (hon m) eqn:HO.
    + destruct (hides_all 4 h m (g_links _ G) (g_slots _ G) A HO) as (m1 & E & K & UH); [lia|].
      rewrite E in H. inversion H; subst m1. split.
      * intros x y Y Y3 I. apply UH. apply (Permutation_in _ (Permutation_sym (h_perm _ _ K y))) in I.
        apply UH in Y. destruct Y as [Y|Y]; [left; eapply U; eassumption|].
        destruct (hid m x) eqn:X; [auto|]. right. eapply reach_step; eassumption.
      * intros x y. rewrite (h_alive _ _ K), (h_low _ _ K). intros Ax Ay Vx Vy. apply D; try assumption; eapply hid_visible; try eassumption;
          (apply (h_hon _ _ K) || apply (h_mono _ _ K)).
    + destruct (kills_all 4 [] h m (g_links _ G) (g_slots _ G) A) as (m1 & E & K & UP);
        [intros e []|assumption|rewrite (g_mode _ G); assumption|lia|].
      rewrite E in H. inversion H; subst. eapply KILL; eauto.
  - unfold begin_modification in H. destruct (hon m) eqn:HO; [discriminate|]. inversion H; subst. split; [exact U|].
    intros x y Ax Ay _ _. apply D; try assumption; unfold visible, hidden; rewrite HO; reflexivity.
  - assert (HO : hon m = true) by (unfold end_modification in H; destruct (hon m); [reflexivity|discriminate]).
    destruct (end_spec m (g_links _ G) (g_slots _ G) HO) as (m1 & E & L & S1 & AE & LE & HN & M1 & _).
    rewrite E in H. inversion H; subst m1.
    assert (LK := end_low_kept m m' G U AE (fun x X => proj1 (LE x X))).
    split; [intros x y Y; destruct (HN y); congruence|].
    intros x y Ax Ay _ _ T1 T2 N EQ.
    pose proof Ax as Ax'. pose proof Ay as Ay'. rewrite AE in Ax', Ay'. apply andb_true_iff in Ax', Ay'.
    destruct Ax' as (Ax1 & Ax2), Ay' as (Ay1 & Ay2). apply negb_true_iff in Ax2, Ay2.
    apply (D x y); try assumption.
    + unfold visible, hidden. rewrite Ax2, andb_false_r. reflexivity.
    + unfold visible, hidden. rewrite Ay2, andb_false_r. reflexivity.
    + intros a. rewrite <- !LK by (assumption || lia). apply EQ.
Qed.
Lemma tidy_run_spec os : forall m m', good m -> upclosed m -> distinct_lows m -> tidy_run m os -> run m os = Some m' ->
  upclosed m' /\ distinct_lows m'.
Proof.
  induction os as [|o r IH]; intros m m' G U D; cbn [run tidy_run]; [intros _ H; inversion H; subst; auto|].
  intros (T & TR). destruct (step m o) as [m1|] eqn:E; [|discriminate].
  destruct (tidy_step m o m1 G U D T E) as (U1 & D1). apply IH; try assumption. eapply good_step; eassumption.
Qed.
Lemma zero_step m o m' : good m -> (forall t, hcount0 m t = 0%Z) -> o <> OSwap -> step m o = Some m' -> forall t, hcount0 m' t = 0%Z.
Proof.
  intros G C NS H. pose proof (good_step _ _ _ G H) as G'.
  destruct o as [|t0 dup lows nodes|h|h|h|h| | |]; cbn [step] in H; try congruence.
  - inversion H; subst. destruct (create_node_spec m (g_links _ G) (g_slots _ G)) as (h & _ & T & K).
    destruct (c_count _ _ _ _ _ K) as (_ & ->). assumption.
  - destruct (create m t0 dup lows nodes) as [[[m1 r] b]|] eqn:E; [|discriminate]. inversion H; subst.
    destruct (good_create _ _ _ _ _ _ _ _ G E) as (AR & [(_ & -> & _)|[(_ & _ & -> & _)|(_ & _ & _ & h & _ & T & K)]]); try assumption.
    destruct (c_count _ _ _ _ _ K) as (_ & ->). assumption.
  - pose proof (destroy_alive _ _ _ _ H) as A.
    destruct (hon m) eqn:HO; [rewrite destroy_asserts in H; [discriminate|rewrite (g_mode _ G); assumption]|].
    destruct (destroy_spec h m (g_links _ G) (g_slots _ G) A HO) as (m1 & E & K & _); [rewrite (g_mode _ G); assumption|].
    rewrite E in H. inversion H; subst. intros t. destruct (k_count _ _ _ K t) as (_ & ->). apply C.
  - pose proof (delete_quiet _ _ _ _ G H) as A. destruct (hon m) eqn:HO.
    + destruct (hides_all 4 h m (g_links _ G) (g_slots _ G) A HO) as (m1 & E & K & U); [lia|].
      rewrite E in H. inversion H; subst. rewrite (h_count0 _ _ K). assumption.
    + destruct (kills_all 4 [] h m (g_links _ G) (g_slots _ G) A) as (m1 & E & K & _);
        [intros e []|assumption|rewrite (g_mode _ G); assumption|lia|].
      rewrite E in H. inversion H; subst. intros t. destruct (k_count _ _ _ K t) as (_ & ->). apply C.
  - destruct (alive m h) eqn:A; [|discriminate]. cbn in H. inversion H; subst. destruct (hon m) eqn:HO; [|assumption].
    destruct (hide_spec m h HO (g_slots _ G) A (g_links _ G)) as (K & U). rewrite (h_count0 _ _ K). assumption.
  - destruct (alive m h) eqn:A; [|discriminate]. cbn in H. inversion H; subst. destruct (hon m) eqn:HO; [|assumption].
    unfold show. destruct (hidden m h); assumption.
  - unfold begin_modification in H. destruct (hon m) eqn:HO; [discriminate|]. inversion H; subst. exact C.
  - assert (HO : hon m = true) by (unfold end_modification in H; destruct (hon m); [reflexivity|discriminate]).
    destruct (end_spec m (g_links _ G) (g_slots _ G) HO) as (m1 & E & L & S1 & _ & _ & HN & M1 & _ & _ & _ & CC).
    rewrite E in H. inversion H; subst. intros t. apply CC.
Qed.
Lemma zero_run os : no_swap os -> forall m m', good m -> (forall t, hcount0 m t = 0%Z) -> run m os = Some m' -> forall t, hcount0 m' t = 0%Z.
Proof.
  unfold no_swap. induction os as [|o r IH]; intros NS m m' G C; cbn [run]; [intros H; inversion H; subst; assumption|].
  destruct (step m o) as [m1|] eqn:E; [|discriminate]. apply IH.
  - intros I. apply NS. right. assumption.
  - eapply good_step; eassumption.
  - eapply zero_step; try eassumption. intros ->. apply NS. left. reflexivity.
Qed.
