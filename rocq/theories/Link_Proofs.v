(** Proofs about connecting and disconnecting elements. *)
From Coq Require Import List Arith ZArith Lia Bool Permutation.
From Verif Require Import Util Adj_Model Adj_Proofs Adj_Props Link_Model.
Import ListNotations.
Open Scope nat_scope.
Notation cnt := (count_occ elem_dec).

Lemma remove_first_cnt h l x : cnt (remove_first h l) x = if eqe x h then cnt l x - 1 else cnt l x.
Proof.
  induction l as [|y r IH]; cbn [remove_first count_occ]; [destruct (eqe x h); reflexivity|].
  destruct (eqe y h) eqn:E.
  - apply eqe_spec in E. subst y. destruct (elem_dec h x) as [-> |N]; [rewrite eqe_refl; lia|].
    assert (X : eqe x h = false) by (apply eqe_neq; congruence). rewrite X. reflexivity.
  - cbn [count_occ]. rewrite IH. destruct (elem_dec y x) as [-> |N]; [|reflexivity]. rewrite E. reflexivity.
Qed.
Lemma remove_first_filter p h l : p h = false -> filter p (remove_first h l) = filter p l.
Proof.
  intros P. induction l as [|y r IH]; cbn [remove_first filter]; [reflexivity|].
  destruct (eqe y h) eqn:E.
  - apply eqe_spec in E. subst y. rewrite P. reflexivity.
  - cbn [filter]. rewrite IH. reflexivity.
Qed.

Definition not_h (h : elem) : elem -> bool := fun x => negb (eqe x h).
Lemma not_h_self h : not_h h h = false.
Proof. unfold not_h. rewrite eqe_refl. reflexivity. Qed.
Lemma erase_not h l : erase h l = filter (not_h h) l.
Proof. reflexivity. Qed.

(** A list from which [k] occurrences of [h] were taken. *)
Record taken (vis : elem -> bool) (h : elem) (strict : bool) (l l' : list elem) (k : nat) : Prop := {
  t_other : forall y, y <> h -> cnt l' y = cnt l y;
  t_self : cnt l' h = cnt l h - k;
  t_order : forall p, p h = false -> (forall z, p z = true -> vis z = true) -> filter p l' = filter p l;
  t_strict : strict = true -> erase h l' = erase h l }.
Lemma taken_refl vis h s l : taken vis h s l l 0.
Proof. constructor; auto. lia. Qed.
Lemma taken_one vis h s l : taken vis h s l (remove_first h l) 1.
Proof.
  constructor.
  - intros y N. rewrite remove_first_cnt. apply eqe_neq in N. rewrite N. reflexivity.
  - rewrite remove_first_cnt, eqe_refl. reflexivity.
  - intros p P _. apply remove_first_filter. assumption.
  - intros _. rewrite !erase_not. apply remove_first_filter, not_h_self.
Qed.
Lemma taken_trans vis h s a b c i j : taken vis h s a b i -> taken vis h s b c j -> taken vis h s a c (i + j).
Proof.
  intros A B. constructor.
  - intros y N. rewrite (t_other _ _ _ _ _ _ B y N), (t_other _ _ _ _ _ _ A y N). reflexivity.
  - rewrite (t_self _ _ _ _ _ _ B), (t_self _ _ _ _ _ _ A). lia.
  - intros p P Q. rewrite (t_order _ _ _ _ _ _ B p P Q), (t_order _ _ _ _ _ _ A p P Q). reflexivity.
  - intros S0. rewrite (t_strict _ _ _ _ _ _ B S0), (t_strict _ _ _ _ _ _ A S0). reflexivity.
Qed.
Lemma taken_swapped vis h l l' : swapped vis h l l' -> taken vis h false l l' 0.
Proof.
  intros (P & O & _). constructor.
  - intros y _. symmetry. apply cnt_perm, P.
  - rewrite (cnt_perm _ _ h P). lia.
  - assumption.
  - discriminate.
Qed.
(** All taken. *)
Lemma taken_all vis h s l l' k : taken vis h s l l' k -> cnt l h <= k ->
  ~ In h l' /\ Permutation l' (erase h l) /\ (forall p, p h = false -> (forall z, p z = true -> vis z = true) -> filter p l' = filter p l) /\
  (s = true -> l' = erase h l).
Proof.
  intros T L. assert (N : ~ In h l').
  { intro I. apply cnt_pos in I. rewrite (t_self _ _ _ _ _ _ T) in I. lia. }
  split; [exact N|]. split; [|split].
  - apply (Permutation_count_occ elem_dec). intros x. rewrite erase_not, cnt_filter. unfold not_h. destruct (eqe x h) eqn:E; cbn [negb].
    + apply eqe_spec in E. subst x. now apply cnt_zero.
    + apply eqe_neq in E. apply (t_other _ _ _ _ _ _ T x E).
  - apply (t_order _ _ _ _ _ _ T).
  - intros S0. rewrite <- (t_strict _ _ _ _ _ _ T S0). symmetry. now apply erase_id.
Qed.

Definition keep_mode (m m' : mesh) : Prop := exists ll hh, m' = set_conn m ll hh.
Definition strict_for (h : elem) : bool := negb (Nat.eqb (fst h) 3).

Lemma drop_low_spec h mrk ls : forall m, exists hh, drop_low h mrk ls m = (set_conn m (low m) hh, filter (fun x => negb (mrk x)) ls) /\
  forall x, taken (visible m) h (strict_for h) (high m x) (hh x) (if mrk x then cnt ls x else 0) /\
    ((mrk x = false \/ ~ In x ls) -> hh x = high m x).
Proof.
  induction ls as [|y r IH]; intros m; cbn [drop_low filter].
  - exists (high m). split; [rewrite set_conn_eta; reflexivity|]. intros x. split; [|reflexivity]. cbn [count_occ]. destruct (mrk x); apply taken_refl.
  - destruct (mrk y) eqn:M; cbn [negb].
    + set (m1 := if Nat.eqb (fst h) 3 && _ then _ else m).
      assert (Q : exists g, m1 = set_conn m (low m) g /\ (forall x, x <> y -> g x = high m x) /\ taken (visible m) h (strict_for h) (high m y) (g y) 0).
      { subst m1. destruct (Nat.eqb (fst h) 3) eqn:E3; cbn [andb].
        - destruct (Nat.eqb_spec (length (filter (visible m) (high m y))) 2) as [E2|E2].
          + exists (upd (high m) y (swap_first (visible m) h (high m y))). split; [reflexivity|]. split; [intros x N; now apply upd_other|].
            rewrite upd_same. unfold strict_for. rewrite E3. apply taken_swapped, swap_first_spec. assumption.
          + exists (high m). split; [now rewrite set_conn_eta|]. split; [reflexivity|apply taken_refl].
        - exists (high m). split; [now rewrite set_conn_eta|]. split; [reflexivity|apply taken_refl]. }
      destruct Q as (g & E1 & GO & GT). rewrite E1. clear m1 E1.
      destruct (IH (set_high (set_conn m (low m) g) y (remove_first h (high (set_conn m (low m) g) y)))) as (hh & E & H).
      rewrite E. exists hh. split; [reflexivity|]. intros x. specialize (H x). destruct H as (T & U).
      cbn [set_high set_conn high low] in T, U. change (visible (set_high _ _ _)) with (visible m) in T.
      destruct (elem_dec y x) as [<-|N].
      * rewrite upd_same in T, U. rewrite M in T |- *. cbn [count_occ]. destruct (elem_dec y y) as [_|X]; [|congruence]. split.
        -- replace (S (cnt r y)) with (0 + (1 + cnt r y)) by lia. eapply taken_trans; [exact GT|]. eapply taken_trans; [apply taken_one|exact T].
        -- intros [X|X]; [discriminate|]. exfalso. apply X. now left.
      * rewrite upd_other in T, U by congruence. rewrite GO in T, U by congruence. cbn [count_occ]. destruct (elem_dec y x); [congruence|].
        split; [exact T|]. intros [X|X]; apply U; [now left|]. right. intro I. apply X. now right.
    + destruct (IH m) as (hh & E & H). rewrite E. exists hh. split; [reflexivity|]. intros x. destruct (H x) as (T & U).
      cbn [count_occ]. destruct (elem_dec y x) as [<-|N].
      * rewrite M in *. split; [exact T|]. intros _. apply U. now left.
      * split; [exact T|]. intros [X|X]; apply U; [now left|]. right. intro I. apply X. now right.
Qed.

Lemma note_in l x y : In y (note l x) <-> In y l \/ y = x.
Proof.
  unfold note. destruct (has l x) eqn:E.
  - apply has_spec in E. split; [tauto|]. intros [I| ->]; assumption.
  - rewrite in_app_iff. cbn [In]. split; intros [I|I]; auto. destruct I as [-> |[]]; auto.
Qed.
Lemma note_nodup l x : NoDup l -> NoDup (note l x).
Proof.
  intros N. unfold note. destruct (has l x) eqn:E; [assumption|]. apply has_false in E.
  apply (Permutation_NoDup (l := x :: l)); [|now constructor]. apply Permutation_cons_append.
Qed.
Lemma notes_in us l y : In y (fold_left note us l) <-> In y l \/ In y us.
Proof.
  revert l. induction us as [|u r IH]; intros l; cbn [fold_left In]; [tauto|]. rewrite IH, note_in. split; intros H.
  - destruct H as [[H| ->]|H]; auto.
  - destruct H as [H|[-> |H]]; auto.
Qed.
Lemma notes_nodup us l : NoDup l -> NoDup (fold_left note us l).
Proof. revert l. induction us as [|u r IH]; intros l N; cbn [fold_left]; [assumption|]. apply IH. now apply note_nodup. Qed.
Lemma add_up_in m l next z : In z (add_up m l next) <-> In z next \/ exists x, In x l /\ In z (high m x).
Proof.
  unfold add_up. revert next. induction l as [|x r IH]; intros next; cbn [fold_left].
  - split; [tauto|]. intros [H|(x & [] & _)]. assumption.
  - rewrite IH, notes_in. split.
    + intros [[H|H]|(y & Y & H)]; [now left| |].
      * right. exists x. split; [now left|assumption].
      * right. exists y. split; [now right|assumption].
    + intros [H|(y & [<-|Y] & H)]; auto. right. eauto.
Qed.
Lemma add_up_nodup m l next : NoDup next -> NoDup (add_up m l next).
Proof. unfold add_up. revert next. induction l as [|x r IH]; intros next N; cbn [fold_left]; [assumption|]. apply IH. now apply notes_nodup. Qed.

Lemma drop_high_spec h mrk us : forall mods m, exists ll ms,
  drop_high h mrk us mods m = (set_conn m ll (high m), filter (fun x => negb (mrk x)) us, ms) /\
  (forall x, taken (fun _ => true) h true (low m x) (ll x) (if mrk x then cnt us x else 0) /\ ((mrk x = false \/ ~ In x us) -> ll x = low m x)) /\
  (forall u, In u ms <-> In u mods \/ (mrk u = true /\ In u us /\ In h (low m u))) /\ (NoDup mods -> NoDup ms).
Proof.
  induction us as [|y r IH]; intros mods m; cbn [drop_high filter].
  - exists (low m), mods. split; [rewrite set_conn_eta; reflexivity|]. split; [|split; [|auto]].
    + intros x. split; [|reflexivity]. cbn [count_occ]. destruct (mrk x); apply taken_refl.
    + intros u. cbn [In]. tauto.
  - destruct (mrk y) eqn:M; cbn [negb].
    + destruct (IH (if has (low m y) h then note mods y else mods) (set_low m y (remove_first h (low m y)))) as (ll & ms & E & H & W & D).
      rewrite E. exists ll, ms. split; [reflexivity|]. cbn [set_low set_conn low high] in H, W. split; [|split].
      * intros x. destruct (H x) as (T & U). destruct (elem_dec y x) as [<-|N].
        -- rewrite upd_same in T, U. rewrite M in T |- *. cbn [count_occ]. destruct (elem_dec y y) as [_|X]; [|congruence]. split.
           ++ replace (S (cnt r y)) with (1 + cnt r y) by lia. eapply taken_trans; [apply taken_one|exact T].
           ++ intros [X|X]; [discriminate|]. exfalso. apply X. now left.
        -- rewrite upd_other in T, U by congruence. cbn [count_occ]. destruct (elem_dec y x); [congruence|].
           split; [exact T|]. intros [X|X]; apply U; [now left|]. right. intro I. apply X. now right.
      * intros u. rewrite W. cbn [In]. destruct (has (low m y) h) eqn:HH.
        -- apply has_spec in HH. rewrite note_in. destruct (elem_dec u y) as [-> |N].
           ++ split; [intros _; right; auto|]. intros _. left. now right.
           ++ rewrite upd_other by assumption. split.
              ** intros [[I|I]|(A & B & C)]; [now left|congruence|right; auto].
              ** intros [I|(A & [B|B] & C)]; [auto|congruence|auto].
        -- apply has_false in HH. destruct (elem_dec u y) as [-> |N].
           ++ rewrite upd_same. split; [|intros [I|(_ & _ & C)]; [now left|contradiction]].
              intros [I|(_ & _ & C)]; [now left|]. exfalso. apply HH. apply cnt_pos in C. rewrite remove_first_cnt, eqe_refl in C. apply cnt_pos. lia.
           ++ rewrite upd_other by assumption. split.
              ** intros [I|(A & B & C)]; [now left|right; auto].
              ** intros [I|(A & [B|B] & C)]; [auto|congruence|auto].
      * intros N. apply D. destruct (has (low m y) h); [now apply note_nodup|assumption].
    + destruct (IH mods m) as (ll & ms & E & H & W & D). rewrite E. exists ll, ms. split; [reflexivity|]. split; [|split; [|assumption]].
      * intros x. destruct (H x) as (T & U). cbn [count_occ]. destruct (elem_dec y x) as [<-|N].
        -- rewrite M in *. split; [exact T|]. intros _. apply U. now left.
        -- split; [exact T|]. intros [X|X]; apply U; [now left|]. right. intro I. apply X. now right.
      * intros u. rewrite W. cbn [In]. split; [intros [I|(A & B & C)]; auto|]. intros [I|(A & [B|B] & C)]; [auto|congruence|auto].
Qed.

(** The elements above. *)
Lemma up_type m y x : links [] m -> up m y x -> fst y < fst x \/ x = y.
Proof.
  intros L U. induction U as [|z x U IH Z I]; [now right|]. left.
  destruct (links_high [] m z x L (fun F => F) I) as (_ & _ & [V|(V & _)]); [|lia]. destruct IH as [IH| ->]; lia.
Qed.
Lemma of_type_in t l x : In x (of_type t l) <-> In x l /\ fst x = t.
Proof. unfold of_type. rewrite filter_In, Nat.eqb_eq. reflexivity. Qed.
Lemma level_spec m mods t (l : list elem) : links [] m -> t < 3 ->
  (forall x, In x l <-> fst x = t /\ exists y, In y mods /\ up m y x) ->
  forall x, In x (add_up m l (of_type (S t) mods)) <-> fst x = S t /\ exists y, In y mods /\ up m y x.
Proof.
  intros L T H x. rewrite add_up_in, of_type_in. split.
  - intros [(I & TX)|(z & Z & I)].
    + split; [assumption|]. exists x. split; [assumption|constructor].
    + apply H in Z. destruct Z as (TZ & y & Y & U). destruct (links_high [] m z x L (fun F => F) I) as (_ & _ & [V|(V & _)]); [|lia].
      split; [lia|]. exists y. split; [assumption|]. eapply up_step; [exact U|lia|exact I].
  - intros (TX & y & Y & U). destruct U as [|z x U Z I]; [left; auto|]. right. exists z. split; [|assumption]. apply H.
    destruct (links_high [] m z x L (fun F => F) I) as (_ & _ & [V|(V & _)]); [|lia]. split; [lia|]. eauto.
Qed.
Lemma level0_spec m mods : links [] m -> forall x, In x (of_type 0 mods) <-> fst x = 0 /\ exists y, In y mods /\ up m y x.
Proof.
  intros L x. rewrite of_type_in. split.
  - intros (I & T). split; [assumption|]. exists x. split; [assumption|constructor].
  - intros (T & y & Y & U). destruct (up_type m y x L U) as [V| ->]; [lia|auto].
Qed.
Definition again (m : mesh) (mods : list elem) : list elem := level1 m mods ++ level2 m mods ++ level3 m mods.
Lemma levels m mods : links [] m ->
  (forall x, In x (level1 m mods) <-> fst x = 1 /\ exists y, In y mods /\ up m y x) /\
  (forall x, In x (level2 m mods) <-> fst x = 2 /\ exists y, In y mods /\ up m y x) /\
  (forall x, In x (level3 m mods) <-> fst x = 3 /\ exists y, In y mods /\ up m y x).
Proof.
  intros L. assert (H1 := level_spec m mods 0 _ L ltac:(lia) (level0_spec m mods L)).
  assert (H2 := level_spec m mods 1 _ L ltac:(lia) H1). assert (H3 := level_spec m mods 2 _ L ltac:(lia) H2). auto.
Qed.
Lemma again_in m mods x : links [] m -> slots m -> (In x (again m mods) <-> 1 <= fst x < 4 /\ exists y, In y mods /\ up m y x).
Proof.
  intros L S0. destruct (levels m mods L) as (H1 & H2 & H3). unfold again. rewrite !in_app_iff, H1, H2, H3. split.
  - intros [(T & E)|[(T & E)|(T & E)]]; (split; [lia|assumption]).
  - intros (T & E). destruct (Nat.eq_dec (fst x) 1); [auto|]. destruct (Nat.eq_dec (fst x) 2); [auto|]. right. right. split; [lia|assumption].
Qed.
Lemma NoDup_of_type t l : NoDup l -> NoDup (of_type t l).
Proof. apply NoDup_filter. Qed.
Lemma NoDup_app_types (a b : list elem) : NoDup a -> NoDup b -> (forall x, In x a -> ~ In x b) -> NoDup (a ++ b).
Proof.
  intros A B D. induction a as [|x r IH]; cbn [app]; [assumption|]. inversion A as [|? ? N A']; subst. constructor.
  - rewrite in_app_iff. intros [I|I]; [contradiction|]. apply (D x); [now left|assumption].
  - apply IH; [assumption|]. intros y Y. apply D. now right.
Qed.
Lemma again_nodup m mods : links [] m -> NoDup mods -> NoDup (again m mods).
Proof.
  intros L N. destruct (levels m mods L) as (H1 & H2 & H3).
  assert (N1 : NoDup (level1 m mods)) by (apply add_up_nodup, NoDup_of_type, N).
  assert (N2 : NoDup (level2 m mods)) by (apply add_up_nodup, NoDup_of_type, N).
  assert (N3 : NoDup (level3 m mods)) by (apply add_up_nodup, NoDup_of_type, N).
  unfold again. apply NoDup_app_types; [assumption| |].
  - apply NoDup_app_types; [assumption|assumption|]. intros x X Y. apply H2 in X. apply H3 in Y. lia.
  - intros x X Y. apply H1 in X. rewrite in_app_iff, H2, H3 in Y. lia.
Qed.

(** What Disconnect does to the lists. *)
Record parted (h : elem) (adj : list elem) (m m' : mesh) (mods : list elem) : Prop := {
  pt_mode : exists ll hh, m' = set_conn m ll hh;
  pt_low_h : low m' h = if Nat.ltb 0 (fst h) then filter (fun x => negb (has adj x)) (low m h) else low m h;
  pt_high_h : high m' h = if Nat.ltb (fst h) 3 then filter (fun x => negb (has adj x)) (high m h) else high m h;
  pt_low : forall x, x <> h -> taken (fun _ => true) h true (low m x) (low m' x) (if has adj x && Nat.ltb (fst h) 3 then cnt (high m h) x else 0);
  pt_low_eq : forall x, x <> h -> (~ In x adj \/ ~ In x (high m h) \/ 3 <= fst h) -> low m' x = low m x;
  pt_high : forall x, x <> h -> taken (visible m) h (strict_for h) (high m x) (high m' x) (if has adj x && Nat.ltb 0 (fst h) then cnt (low m h) x else 0);
  pt_high_eq : forall x, x <> h -> (~ In x adj \/ ~ In x (low m h) \/ fst h = 0) -> high m' x = high m x;
  pt_mods : forall u, In u mods <-> (u = h /\ 0 < fst h /\ exists a, In a adj /\ In a (low m h)) \/ (fst h < 3 /\ In u adj /\ In u (high m h));
  pt_nodup : NoDup mods }.

Lemma has_cases adj x : (has adj x = true /\ In x adj) \/ (has adj x = false /\ ~ In x adj).
Proof. destruct (has adj x) eqn:E; [left; split; [reflexivity|now apply has_spec]|right; split; [reflexivity|now apply has_false]]. Qed.

Lemma disconnect_parts set h adj m : good m -> alive m h = true -> (forall a, In a adj -> alive m a = true) ->
  exists m' mods, disconnect set h adj m = propagate set mods m' /\ parted h adj m m' mods.
Proof.
  intros G A AA. pose proof (g_links _ G) as L. unfold disconnect. rewrite A. cbn [andb].
  assert (FA : forallb (alive m) adj = true) by (apply forallb_forall; assumption). rewrite FA. cbn [negb].
  assert (NS : ~ In h (low m h)) by (eapply no_self; eassumption).
  assert (NU : ~ In h (high m h)) by (intro I; apply NS; apply (links_in [] m h h L (fun F => F)); assumption).
  set (p1 := if Nat.ltb 0 (fst h) then _ else _).
  assert (P1 : exists ll hh ms, p1 = (set_conn m ll hh, ms) /\
     ll h = (if Nat.ltb 0 (fst h) then filter (fun x => negb (has adj x)) (low m h) else low m h) /\
     (forall x, x <> h -> ll x = low m x) /\ hh h = high m h /\
     (forall x, taken (visible m) h (strict_for h) (high m x) (hh x) (if has adj x && Nat.ltb 0 (fst h) then cnt (low m h) x else 0)) /\
     (forall x, (~ In x adj \/ ~ In x (low m h) \/ fst h = 0) -> hh x = high m x) /\
     (forall u, In u ms <-> u = h /\ 0 < fst h /\ exists a, In a adj /\ In a (low m h)) /\ NoDup ms).
  { subst p1. destruct (Nat.ltb_spec 0 (fst h)) as [T|T].
    - destruct (drop_low_spec h (has adj) (low m h) m) as (hh & E & H). rewrite E.
      exists (upd (low m) h (filter (fun x => negb (has adj x)) (low m h))), hh, (if existsb (has adj) (low m h) then [h] else []).
      split; [reflexivity|]. split; [apply upd_same|]. split; [intros x N; now apply upd_other|]. split; [apply H; now right|]. split; [|split; [|split]].
      + intros x. rewrite andb_true_r. apply H.
      + intros x [N|[N|N]]; [apply H; left; now apply has_false|apply H; now right|lia].
      + intros u. destruct (existsb (has adj) (low m h)) eqn:EX.
        * apply existsb_exists in EX. destruct EX as (a & I & HA). apply has_spec in HA. cbn [In]. split; [intros [<-|[]]; eauto|]. intros (-> & _). now left.
        * split; [intros []|]. intros (_ & _ & a & I & J). assert (X : existsb (has adj) (low m h) = true) by (apply existsb_exists; exists a; split; [assumption|now apply has_spec]). congruence.
      + destruct (existsb _ _); repeat constructor. intros [].
    - exists (low m), (high m), []. split; [now rewrite set_conn_eta|]. split; [reflexivity|]. split; [reflexivity|]. split; [reflexivity|]. split; [|split; [|split]].
      + intros x. rewrite andb_false_r. apply taken_refl.
      + reflexivity.
      + intros u. split; [intros []|]. intros (_ & X & _). lia.
      + constructor. }
  destruct P1 as (ll & hh & ms & E1 & LH & LO & HH & HT & HE & MS & ND). rewrite E1. cbn [fst snd]. clear p1 E1. cbn [set_conn high].
  set (p2 := if Nat.ltb (fst h) 3 then _ else _).
  assert (P2 : exists ll2 hh2 ms2, p2 = (set_conn m ll2 hh2, ms2) /\ ll2 h = ll h /\
     (forall x, x <> h -> taken (fun _ => true) h true (low m x) (ll2 x) (if has adj x && Nat.ltb (fst h) 3 then cnt (high m h) x else 0)) /\
     (forall x, x <> h -> (~ In x adj \/ ~ In x (high m h) \/ 3 <= fst h) -> ll2 x = low m x) /\
     hh2 h = (if Nat.ltb (fst h) 3 then filter (fun x => negb (has adj x)) (high m h) else high m h) /\
     (forall x, x <> h -> hh2 x = hh x) /\
     (forall u, In u ms2 <-> In u ms \/ (fst h < 3 /\ In u adj /\ In u (high m h))) /\ NoDup ms2).
  { subst p2. destruct (Nat.ltb_spec (fst h) 3) as [T|T].
    - destruct (drop_high_spec h (has adj) (hh h) ms (set_conn m ll hh)) as (l2 & m2 & E & H & W & D). rewrite E. cbn [set_conn low high] in *. rewrite HH in *.
      exists l2, (upd hh h (filter (fun x => negb (has adj x)) (high m h))), m2. split; [reflexivity|]. split; [apply H; now right|].
      split; [|split; [|split; [apply upd_same|split; [intros x N; now apply upd_other|split; [|auto]]]]].
      + intros x N. destruct (H x) as (X & _). rewrite (LO x N) in X. rewrite andb_true_r. exact X.
      + intros x N C. rewrite <- (LO x N). apply H. destruct C as [C|[C|C]]; [left; now apply has_false|now right|lia].
      + intros u. rewrite W, has_spec. split; intros [I|I]; auto.
        * right. tauto.
        * right. destruct I as (_ & I & J). split; [assumption|]. split; [assumption|].
          assert (u <> h) by congruence. rewrite LO by assumption. apply (links_in [] m h u L (fun F => F)). assumption.
    - exists ll, hh, ms. split; [reflexivity|]. split; [reflexivity|]. split; [|split; [|split; [assumption|split; [reflexivity|split; [|assumption]]]]].
      + intros x N. rewrite andb_false_r, LO by assumption. apply taken_refl.
      + intros x N _. now apply LO.
      + intros u. split; [auto|]. intros [I|(X & _)]; [assumption|lia]. }
  destruct P2 as (ll2 & hh2 & ms2 & E2 & LH2 & LT2 & LE2 & HH2 & HO2 & MS2 & ND2). rewrite E2. cbn [fst snd].
  exists (set_conn m ll2 hh2), ms2. split; [reflexivity|]. constructor; cbn [set_conn low high]; auto.
  - eauto.
  - congruence.
  - intros x N. rewrite HO2 by assumption. apply HT.
  - intros x N C. rewrite HO2 by assumption. now apply HE.
  - intros u. rewrite MS2, MS. reflexivity.
Qed.

Lemma parted_links h adj m m' mods : good m -> alive m h = true -> parted h adj m m' mods -> good m'.
Proof.
  intros G A P. pose proof (g_links _ G) as L. destruct (pt_mode _ _ _ _ _ P) as (ll & hh & E).
  assert (NS : ~ In h (low m h)) by (eapply no_self; eassumption).
  assert (NU : ~ In h (high m h)) by (intro I; apply NS; apply (links_in [] m h h L (fun F => F)); assumption).
  assert (SYM : forall x y, cnt (low m' y) x = cnt (high m' x) y).
  { intros x y. pose proof (l_sym _ _ L x y (fun F => F)) as Q. destruct (elem_dec y h) as [->|NY]; destruct (elem_dec x h) as [->|NX].
    - rewrite (pt_low_h _ _ _ _ _ P), (pt_high_h _ _ _ _ _ P). rewrite !cnt_zero; [reflexivity| |].
      + destruct (Nat.ltb (fst h) 3); [|assumption]. rewrite filter_In. tauto.
      + destruct (Nat.ltb 0 (fst h)); [|assumption]. rewrite filter_In. tauto.
    - rewrite (pt_low_h _ _ _ _ _ P), (t_self _ _ _ _ _ _ (pt_high _ _ _ _ _ P x NX)).
      destruct (Nat.ltb 0 (fst h)); [|rewrite andb_false_r; lia]. rewrite andb_true_r, cnt_filter. destruct (has adj x); cbn [negb]; lia.
    - rewrite (pt_high_h _ _ _ _ _ P), (t_self _ _ _ _ _ _ (pt_low _ _ _ _ _ P y NY)).
      destruct (Nat.ltb (fst h) 3); [|rewrite andb_false_r; lia]. rewrite andb_true_r, cnt_filter. destruct (has adj y); cbn [negb]; lia.
    - rewrite (t_other _ _ _ _ _ _ (pt_low _ _ _ _ _ P y NY) x NX), (t_other _ _ _ _ _ _ (pt_high _ _ _ _ _ P x NX) y NY). assumption. }
  assert (LOW : forall x y, In x (low m' y) -> In x (low m y)).
  { intros x y I. destruct (elem_dec y h) as [->|NY].
    - rewrite (pt_low_h _ _ _ _ _ P) in I. destruct (Nat.ltb 0 (fst h)); [apply filter_In in I; tauto|assumption].
    - apply cnt_pos in I. apply cnt_pos. pose proof (pt_low _ _ _ _ _ P y NY) as T. destruct (elem_dec x h) as [->|NX].
      + rewrite (t_self _ _ _ _ _ _ T) in I. lia.
      + rewrite (t_other _ _ _ _ _ _ T x NX) in I. assumption. }
  assert (AE : alive m' = alive m) by (rewrite E; reflexivity).
  constructor.
  - constructor.
    + intros x y _. apply SYM.
    + intros x y [].
    + intros x y I. rewrite AE. replace (cn m') with (cn m) by (rewrite E; reflexivity). apply (l_ok _ _ L), LOW, I.
    + intros x D. rewrite AE in D. destruct (l_dead _ _ L x D) as (D1 & D2 & D3 & D4).
      assert (X : low m' x = []). { destruct (low m' x) as [|z r] eqn:LX; [reflexivity|]. exfalso. assert (I : In z (low m' x)) by (rewrite LX; now left). apply LOW in I. rewrite D1 in I. destruct I. }
      assert (Y : high m' x = []). { destruct (high m' x) as [|z r] eqn:LX; [reflexivity|]. exfalso. assert (I : In z (high m' x)) by (rewrite LX; now left).
        apply cnt_pos in I. rewrite <- SYM in I. apply cnt_pos, LOW in I. apply (l_ok _ _ L) in I. destruct I as (I & _). congruence. }
      rewrite X, Y, E. cbn [set_conn hid nw]. auto.
  - eapply (slots_ext m); [exact AE| | |apply G]; intros t; rewrite E; reflexivity.
  - rewrite E. apply G.
  - rewrite E. apply G.
  - rewrite E. apply G.
Qed.

(** Connect. *)
Lemma attach_spec h adj : forall mods m m1 ms, attach h adj mods m = Some (m1, ms) ->
  (exists hh, m1 = set_conn m (low m) hh /\ forall x, hh x = high m x ++ repeat h (cnt adj x)) /\
  (forall a, In a adj -> S (fst a) = fst h) /\ (forall u, In u ms <-> In u mods \/ In u adj) /\ (NoDup mods -> NoDup ms).
Proof.
  induction adj as [|a r IH]; intros mods m m1 ms; cbn [attach].
  - intros H. injection H as <- <-. split; [|split; [intros a []|split; [|auto]]].
    + exists (high m). split; [now rewrite set_conn_eta|]. intros x. cbn. now rewrite app_nil_r.
    + intros u. cbn [In]. tauto.
  - destruct (Nat.eqb (fst a) 3 || negb (Nat.eqb (S (fst a)) (fst h)) || _) eqn:C; [discriminate|]. intros H.
    apply orb_false_iff in C. destruct C as (C & _). apply orb_false_iff in C. destruct C as (_ & C). apply negb_false_iff, Nat.eqb_eq in C.
    destruct (IH _ _ _ _ H) as ((hh & E & HH) & T & W & D). cbn [set_high set_conn low high] in *. split; [|split; [|split]].
    + exists hh. split; [exact E|]. intros x. rewrite HH. cbn [count_occ]. destruct (elem_dec a x) as [<-|N].
      * rewrite upd_same, <- app_assoc. reflexivity.
      * rewrite upd_other by congruence. reflexivity.
    + intros b [<-|I]; auto.
    + intros u. rewrite W, note_in. cbn [In]. split; [intros [[I|I]|I]; auto|]. intros [I|[I|I]]; auto.
    + intros N. apply D. now apply note_nodup.
Qed.

Record joined (h : elem) (adj : list elem) (m m' : mesh) (mods : list elem) : Prop := {
  jn_mode : exists ll hh, m' = set_conn m ll hh;
  jn_type : forall a, In a adj -> S (fst a) = fst h;
  jn_low_h : low m' h = low m h ++ adj;
  jn_low : forall x, x <> h -> low m' x = low m x;
  jn_high : forall x, high m' x = high m x ++ repeat h (cnt adj x);
  jn_mods : forall u, In u mods <-> u = h \/ In u adj;
  jn_nodup : NoDup mods }.

Lemma connect_parts set h adj m r : connect set h adj m = Some r ->
  alive m h = true /\ (forall a, In a adj -> alive m a = true) /\
  exists m' mods, propagate set mods m' = Some r /\ joined h adj m m' mods.
Proof.
  unfold connect. destruct (alive m h && forallb (alive m) adj) eqn:A; cbn [negb]; [|discriminate].
  apply andb_true_iff in A. destruct A as (A & AA). rewrite forallb_forall in AA.
  destruct (Nat.eqb (fst h) 1 && Nat.ltb 2 (length (low m h))); [discriminate|].
  destruct (attach h adj [] m) as [[m1 ms]|] eqn:E; [|discriminate]. intros H. split; [assumption|]. split; [assumption|].
  destruct (attach_spec h adj [] m m1 ms E) as ((hh & -> & HH) & T & W & D).
  eexists. exists (note ms h). split; [exact H|]. constructor; cbn [set_low set_conn low high].
  - do 2 eexists. reflexivity.
  - assumption.
  - apply upd_same.
  - intros x N. now apply upd_other.
  - assumption.
  - intros u. rewrite note_in, W. cbn [In]. tauto.
  - apply note_nodup, D. constructor.
Qed.

Lemma joined_good h adj m m' mods : good m -> alive m h = true -> (forall a, In a adj -> alive m a = true) -> joined h adj m m' mods -> good m'.
Proof.
  intros G A AA J. pose proof (g_links _ G) as L. destruct (jn_mode _ _ _ _ _ J) as (ll & hh & E).
  assert (AE : alive m' = alive m) by (rewrite E; reflexivity).
  constructor.
  - constructor.
    + intros x y _. pose proof (l_sym _ _ L x y (fun F => F)) as Q. rewrite (jn_high _ _ _ _ _ J), count_occ_app, cnt_repeat.
      destruct (elem_dec y h) as [->|N].
      * rewrite (jn_low_h _ _ _ _ _ J), count_occ_app, eqe_refl. lia.
      * rewrite (jn_low _ _ _ _ _ J y N). apply eqe_neq in N. rewrite N. lia.
    + intros x y [].
    + intros x y I. rewrite AE. replace (cn m') with (cn m) by (rewrite E; reflexivity). destruct (elem_dec y h) as [->|N].
      * rewrite (jn_low_h _ _ _ _ _ J), in_app_iff in I. destruct I as [I|I]; [now apply (l_ok _ _ L)|].
        split; [auto|]. split; [assumption|]. left. symmetry. apply (jn_type _ _ _ _ _ J x I).
      * rewrite (jn_low _ _ _ _ _ J y N) in I. now apply (l_ok _ _ L).
    + intros x D. rewrite AE in D. destruct (l_dead _ _ L x D) as (D1 & D2 & D3 & D4).
      rewrite (jn_low _ _ _ _ _ J x) by congruence. rewrite (jn_high _ _ _ _ _ J), cnt_zero by (intro I; specialize (AA x I); congruence).
      rewrite D1, D2, E. cbn. auto.
  - eapply (slots_ext m); [exact AE| | |apply G]; intros t; rewrite E; reflexivity.
  - rewrite E. apply G.
  - rewrite E. apply G.
  - rewrite E. apply G.
Qed.

Lemma propagate_plain set mods m : cn m = false \/ level3 m mods = [] -> propagate set mods m = Some (m, again m mods).
Proof.
  intros C. unfold propagate. destruct C as [->|C]; [reflexivity|]. rewrite C. unfold again. rewrite C. cbn [update_cells]. destruct (cn m); reflexivity.
Qed.

(** The lists of nodes of cells. *)
Lemma leave_nodes_spec c ns hc : forall m, exists ll, leave_nodes c ns hc m = (set_conn m ll (high m), filter (has ns) hc) /\
  forall x, taken (fun _ => true) c true (low m x) (ll x) (if has ns x then 0 else cnt hc x) /\ ((has ns x = true \/ ~ In x hc) -> ll x = low m x).
Proof.
  induction hc as [|y r IH]; intros m; cbn [leave_nodes filter].
  - exists (low m). split; [rewrite set_conn_eta; reflexivity|]. intros x. split; [|reflexivity]. cbn [count_occ]. destruct (has ns x); apply taken_refl.
  - destruct (has ns y) eqn:M.
    + destruct (IH m) as (ll & E & H). rewrite E. exists ll. split; [reflexivity|]. intros x. destruct (H x) as (T & U). cbn [count_occ]. destruct (elem_dec y x) as [<-|N].
      * rewrite M in *. split; [exact T|]. intros _. apply U. now left.
      * split; [exact T|]. intros [X|X]; apply U; [now left|]. right. intro I. apply X. now right.
    + destruct (IH (set_low m y (remove_first c (low m y)))) as (ll & E & H). rewrite E. exists ll. split; [reflexivity|]. cbn [set_low set_conn low] in H.
      intros x. destruct (H x) as (T & U). cbn [count_occ]. destruct (elem_dec y x) as [<-|N].
      * rewrite upd_same in T, U. rewrite M in T |- *. split.
        -- replace (S (cnt r y)) with (1 + cnt r y) by lia. eapply taken_trans; [apply taken_one|exact T].
        -- intros [X|X]; [discriminate|]. exfalso. apply X. now left.
      * rewrite upd_other in T, U by congruence. split; [exact T|]. intros [X|X]; apply U; [now left|]. right. intro I. apply X. now right.
Qed.

Lemma update_none c m m' : update_nodes None c m = Some m' -> nodes_below m c = [] /\
  exists ll, m' = set_conn m ll (upd (high m) c []) /\
    forall x, taken (fun _ => true) c true (low m x) (ll x) (cnt (high m c) x) /\ (~ In x (high m c) -> ll x = low m x).
Proof.
  unfold update_nodes. destruct (leave_nodes_spec c (nodes_below m c) (high m c) m) as (ll & -> & H).
  destruct (nodes_below m c) eqn:E; [|discriminate]. intros Q. injection Q as <-. split; [reflexivity|]. exists ll. split.
  - unfold set_high. cbn [set_conn low high]. rewrite filter_nothing by reflexivity. reflexivity.
  - intros x. destruct (H x) as (T & U). split; [exact T|]. intros N. apply U. now right.
Qed.
Lemma update_none_good c m m' : good m -> fst c = 3 -> update_nodes None c m = Some m' -> good m' /\ alive m' = alive m /\ cn m' = cn m /\ (forall x, 1 <= fst x -> low m' x = low m x).
Proof.
  intros G C U. destruct (update_none c m m' U) as (_ & ll & E & H). pose proof (g_links _ G) as L.
  assert (NT : forall x, In x (high m c) -> fst x = 0).
  { intros x I. destruct (links_high [] m c x L (fun F => F) I) as (_ & AX & [V|(_ & V & _)]); [|assumption]. destruct (s_rng _ (g_slots _ G) x AX). lia. }
  assert (SYM : forall x y, cnt (low m' y) x = cnt (high m' x) y).
  { intros x y. pose proof (l_sym _ _ L x y (fun F => F)) as Q. rewrite E. cbn [set_conn low high]. destruct (H y) as (T & _). destruct (elem_dec x c) as [->|N].
    - rewrite upd_same, (t_self _ _ _ _ _ _ T). cbn. lia.
    - rewrite upd_other by assumption. rewrite (t_other _ _ _ _ _ _ T x N). assumption. }
  assert (LOW : forall x y, In x (low m' y) -> In x (low m y)).
  { intros x y I. apply cnt_pos in I. apply cnt_pos. rewrite E in I. cbn [set_conn low] in I. destruct (H y) as (T & _). destruct (elem_dec x c) as [->|N].
    - rewrite (t_self _ _ _ _ _ _ T) in I. lia.
    - rewrite (t_other _ _ _ _ _ _ T x N) in I. assumption. }
  assert (AE : alive m' = alive m) by (rewrite E; reflexivity). split; [|split; [assumption|split; [rewrite E; reflexivity|]]].
  - constructor.
    + constructor.
      * intros x y _. apply SYM.
      * intros x y [].
      * intros x y I. rewrite AE. replace (cn m') with (cn m) by (rewrite E; reflexivity). apply (l_ok _ _ L), LOW, I.
      * intros x D. rewrite AE in D. destruct (l_dead _ _ L x D) as (D1 & D2 & D3 & D4).
        assert (X : low m' x = []). { destruct (low m' x) as [|z r] eqn:LX; [reflexivity|]. exfalso. assert (I : In z (low m' x)) by (rewrite LX; now left). apply LOW in I. rewrite D1 in I. destruct I. }
        assert (Y : high m' x = []). { destruct (high m' x) as [|z r] eqn:LX; [reflexivity|]. exfalso. assert (I : In z (high m' x)) by (rewrite LX; now left).
          apply cnt_pos in I. rewrite <- SYM in I. apply cnt_pos, LOW in I. apply (l_ok _ _ L) in I. destruct I as (I & _). congruence. }
        rewrite X, Y, E. cbn [set_conn hid nw]. auto.
    + eapply (slots_ext m); [exact AE| | |apply G]; intros t; rewrite E; reflexivity.
    + rewrite E. apply G.
    + rewrite E. apply G.
    + rewrite E. apply G.
  - intros x T. rewrite E. cbn [set_conn low]. apply H. intro I. apply NT in I. lia.
Qed.

Lemma nodes_below_in m c n : In n (nodes_below m c) <-> exists f e, In f (low m c) /\ In e (low m f) /\ In n (low m e).
Proof.
  unfold nodes_below.
  assert (A : forall es acc, In n (fold_left (fun acc e => fold_left note (low m e) acc) es acc) <-> In n acc \/ exists e, In e es /\ In n (low m e)).
  { induction es as [|e r IH]; intros acc; cbn [fold_left].
    - split; [tauto|]. intros [H|(e & [] & _)]. assumption.
    - rewrite IH, notes_in. split.
      + intros [[H|H]|(x & X & H)]; [now left|right; exists e; split; [now left|assumption]|right; exists x; split; [now right|assumption]].
      + intros [H|(x & [<-|X] & H)]; auto. right. eauto. }
  assert (B : forall fs acc, In n (fold_left (fun acc f => fold_left (fun acc e => fold_left note (low m e) acc) (low m f) acc) fs acc) <->
     In n acc \/ exists f e, In f fs /\ In e (low m f) /\ In n (low m e)).
  { induction fs as [|f r IH]; intros acc; cbn [fold_left].
    - split; [tauto|]. intros [H|(f & e & [] & _)]. assumption.
    - rewrite IH, A. split.
      + intros [[H|(e & X & H)]|(x & e & X & H)]; [now left|right; exists f, e; split; [now left|auto]|right; exists x, e; split; [now right|assumption]].
      + intros [H|(x & e & [<-|X] & H)]; [auto|left; right; exists e; exact H|right; eauto]. }
  rewrite B. cbn [In]. split; [intros [[]|H]; assumption|auto].
Qed.

Lemma update_cells_none cs : forall m m', good m -> (forall c, In c cs -> fst c = 3) -> update_cells None cs m = Some m' ->
  good m' /\ (forall c, In c cs -> nodes_below m c = []) /\ (forall x, 1 <= fst x -> low m' x = low m x) /\ alive m' = alive m.
Proof.
  induction cs as [|c r IH]; intros m m' G T; cbn [update_cells].
  - intros H. injection H as <-. split; [assumption|]. split; [intros c []|]. auto.
  - destruct (update_nodes None c m) as [m1|] eqn:E; [|discriminate]. intros H.
    destruct (update_none c m m1 E) as (N & _). destruct (update_none_good c m m1 G (T c (or_introl eq_refl)) E) as (G1 & A1 & C1 & L1).
    destruct (IH m1 m' G1 (fun c I => T c (or_intror I)) H) as (G2 & N2 & L2 & A2). split; [assumption|]. split; [|split; [|congruence]].
    + intros d [<-|I]; [assumption|]. specialize (N2 d I). destruct (nodes_below m d) as [|n q] eqn:X; [reflexivity|]. exfalso.
      assert (Y : In n (nodes_below m d)) by (rewrite X; now left). apply nodes_below_in in Y. destruct Y as (f & e & F & E' & NN).
      assert (Z : In n (nodes_below m1 d)).
      { apply nodes_below_in. exists f, e. pose proof (g_links _ G) as L.
        assert (TF : fst f = 2). { destruct (l_ok _ _ L _ _ F) as (_ & _ & [V|(_ & V & _)]); rewrite (T d (or_intror I)) in V; [lia|discriminate]. }
        assert (TE : fst e = 1). { destruct (l_ok _ _ L _ _ E') as (_ & _ & [V|(_ & V & _)]); lia. }
        rewrite !L1 by (rewrite ?(T d (or_intror I)); lia). auto. }
      rewrite N2 in Z. destruct Z.
    + intros x X. rewrite L2, L1 by assumption. reflexivity.
Qed.

Lemma propagate_none mods m m' l : good m -> propagate None mods m = Some (m', l) -> l = again m mods /\ good m' /\
  (forall x, 1 <= fst x -> low m' x = low m x) /\ alive m' = alive m /\ (cn m = true -> forall c, In c l -> fst c = 3 -> nodes_below m c = []).
Proof.
  intros G. unfold propagate. destruct (levels m mods (g_links _ G)) as (H1 & H2 & H3). destruct (cn m) eqn:C.
  - destruct (update_cells None (level3 m mods) m) as [m1|] eqn:E; [|discriminate]. intros H. injection H as <- <-.
    destruct (update_cells_none _ _ _ G (fun c I => proj1 (proj1 (H3 c) I)) E) as (G1 & N & L1 & A1).
    split; [reflexivity|]. split; [assumption|]. split; [assumption|]. split; [assumption|]. intros _ c I T. apply N. rewrite !in_app_iff, H1, H2 in I. destruct I as [I|[I|I]]; [lia|lia|assumption].
  - intros H. injection H as <- <-. split; [reflexivity|]. split; [assumption|]. split; [auto|]. split; [reflexivity|discriminate].
Qed.

Lemma perform_good m c m' : good m -> perform m c = Some m' -> good m'.
Proof.
  intros G. destruct c as [o|h adj|h adj]; cbn [perform].
  - now apply good_step.
  - destruct (connect None h adj m) as [[m1 l]|] eqn:E; [|discriminate]. intros H. injection H as <-.
    destruct (connect_parts _ _ _ _ _ E) as (A & AA & m2 & mods & P & J). apply propagate_none in P; [tauto|]. eapply joined_good; eassumption.
  - destruct (disconnect None h adj m) as [[m1 l]|] eqn:E; [|discriminate]. intros H. injection H as <-.
    destruct (alive m h && forallb (alive m) adj) eqn:A; [|unfold disconnect in E; rewrite A in E; discriminate].
    apply andb_true_iff in A. destruct A as (A & AA). rewrite forallb_forall in AA.
    destruct (disconnect_parts None h adj m G A AA) as (m2 & mods & Q & P). rewrite Q in E. apply propagate_none in E; [tauto|]. eapply parted_links; eassumption.
Qed.
Lemma perform_all_good cs : forall m m', good m -> perform_all m cs = Some m' -> good m'.
Proof.
  induction cs as [|c r IH]; intros m m' G; cbn [perform_all]; [intros H; now injection H as <-|].
  destruct (perform m c) as [m1|] eqn:E; [|discriminate]. apply IH. eapply perform_good; eassumption.
Qed.

(** Success of Connect. *)
Lemma attach_some h adj : forall mods m, (forall a, In a adj -> S (fst a) = fst h) -> fst h <= 3 ->
  (fst h = 3 -> forall a, In a adj -> length (high m a) + cnt adj a <= 2) -> exists r, attach h adj mods m = Some r.
Proof.
  induction adj as [|a r IH]; intros mods m T T3 C; cbn [attach]; [eauto|].
  assert (TA := T a (or_introl eq_refl)). destruct (Nat.eqb_spec (fst a) 3) as [X|_]; [lia|]. destruct (Nat.eqb_spec (S (fst a)) (fst h)) as [_|X]; [|lia]. cbn [orb negb].
  destruct (Nat.eqb (fst a) 2 && Nat.ltb 1 (length (high m a))) eqn:B.
  - exfalso. apply andb_true_iff in B. destruct B as (B1 & B2). apply Nat.eqb_eq in B1. apply Nat.ltb_lt in B2.
    specialize (C ltac:(lia) a (or_introl eq_refl)). cbn [count_occ] in C. destruct (elem_dec a a); [lia|congruence].
  - apply IH; [intros b I; apply T; now right|assumption|]. intros T33 b I. specialize (C T33 b (or_intror I)). cbn [set_high set_conn high].
    cbn [count_occ] in C. destruct (elem_dec a b) as [<-|N].
    + rewrite upd_same, app_length. cbn [length]. lia.
    + rewrite upd_other by congruence. assumption.
Qed.

(** An element set in the node list of a cell. *)
Lemma update_some s c m : fst s = 4 -> (forall n, In n (high m c) -> fst n = 0 \/ fst n = 4) ->
  exists m', update_nodes (Some s) c m = Some m' /\ (forall x, x <> c -> high m' x = high m x) /\
    (forall x, 1 <= fst x <= 3 -> low m' x = low m x) /\ (forall n, In n (high m' c) -> In n (high m c) \/ n = s) /\
    (nodes_below m c <> [] -> In s (high m' c)).
Proof.
  intros S4 T. unfold update_nodes. destruct (leave_nodes_spec c (nodes_below m c) (high m c) m) as (ll & -> & H).
  assert (LL : forall x, 1 <= fst x <= 3 -> ll x = low m x) by (intros x X; apply H; right; intro I; apply T in I; lia).
  assert (F : forall n, In n (filter (has (nodes_below m c)) (high m c)) -> In n (high m c)) by (intros n I; apply filter_In in I; tauto).
  destruct (nodes_below m c) as [|n0 ns] eqn:E.
  - eexists. split; [reflexivity|]. cbn [set_high set_conn low high]. split; [intros x N; now apply upd_other|]. split; [assumption|]. split; [|congruence].
    intros n. rewrite upd_same. auto.
  - destruct (has (filter (has (n0 :: ns)) (high m c)) s) eqn:Q.
    + eexists. split; [reflexivity|]. cbn [set_high set_conn low high]. split; [intros x N; now apply upd_other|]. split; [assumption|]. rewrite upd_same. split; [auto|].
      intros _. now apply has_spec in Q.
    + eexists. split; [reflexivity|]. cbn [set_high set_conn low high].
      assert (HI : forall b (m3 : mesh) l, high (if b : bool then m3 else set_low m3 s l) = high m3) by (intros [] ? ?; reflexivity). rewrite !HI.
      cbn [set_high set_conn low high]. split; [intros x N; rewrite !upd_other by assumption; reflexivity|]. split; [|split].
      * intros x X. destruct (has (ll s) c); cbn [set_low set_high set_conn low]; [now apply LL|]. rewrite upd_other by (intros ->; lia). now apply LL.
      * intros n. rewrite upd_same, in_app_iff. cbn [In]. intros [I|[I|[]]]; auto.
      * intros _. rewrite upd_same, in_app_iff. right. now left.
Qed.
Lemma nodes_below_ext m m' c : (forall x, 1 <= fst x <= 3 -> low m' x = low m x) -> links [] m -> fst c = 3 -> nodes_below m c <> [] -> nodes_below m' c <> [].
Proof.
  intros E L T N. destruct (nodes_below m c) as [|n q] eqn:X; [congruence|].
  assert (Y : In n (nodes_below m c)) by (rewrite X; now left). apply nodes_below_in in Y. destruct Y as (f & e & F & E' & NN).
  assert (TF : fst f = 2). { destruct (l_ok _ _ L _ _ F) as (_ & _ & [V|(_ & V & _)]); rewrite T in V; [lia|discriminate]. }
  assert (TE : fst e = 1). { destruct (l_ok _ _ L _ _ E') as (_ & _ & [V|(_ & V & _)]); lia. }
  assert (Z : In n (nodes_below m' c)). { apply nodes_below_in. exists f, e. rewrite !E by lia. auto. }
  intro Q. rewrite Q in Z. destruct Z.
Qed.
Lemma update_cells_some s m0 cs : links [] m0 -> fst s = 4 -> forall m, (forall c, In c cs -> fst c = 3) -> NoDup cs ->
  (forall x, 1 <= fst x <= 3 -> low m x = low m0 x) ->
  (forall c, In c cs -> high m c = high m0 c) -> (forall c, fst c = 3 -> forall n, In n (high m0 c) -> fst n = 0 \/ fst n = 4) ->
  exists m', update_cells (Some s) cs m = Some m' /\ (forall x, ~ In x cs -> high m' x = high m x) /\
    (forall x, 1 <= fst x <= 3 -> low m' x = low m x) /\ (forall x n, In n (high m' x) -> In n (high m x) \/ n = s) /\
    (forall x, In x cs -> nodes_below m0 x <> [] -> In s (high m' x)).
Proof.
  intros L S4. induction cs as [|c r IH]; intros m T D LO HE HT; cbn [update_cells].
  - exists m. split; [reflexivity|]. split; [reflexivity|]. split; [reflexivity|]. split; [auto|]. intros x [].
  - destruct (update_some s c m S4) as (m1 & -> & H1 & H2 & H3 & H4).
    { rewrite (HE c) by now left. apply HT, T. now left. }
    inversion D as [|? ? NC D']; subst.
    destruct (IH m1) as (m2 & -> & K1 & K2 & K3 & K4); [intros d I; apply T; now right|assumption|intros x X; now rewrite H2, LO| |assumption|].
    { intros d I. rewrite H1 by congruence. apply HE. now right. }
    exists m2. split; [reflexivity|]. split; [|split; [|split]].
    + intros x N. cbn [In] in N. rewrite K1, H1; [reflexivity|intros ->; tauto|tauto].
    + intros x X. now rewrite K2, H2.
    + intros x n I. destruct (K3 x n I) as [J|J]; [|now right]. destruct (elem_dec x c) as [->|N]; [now apply H3|]. rewrite H1 in J by assumption. now left.
    + intros x [<-|I] N; [|now apply K4]. rewrite K1 by assumption. apply H4. eapply nodes_below_ext; [|exact L|apply T; now left|exact N]. exact LO.
Qed.

Lemma propagate_some s mods m : good m -> NoDup mods -> cn m = true -> fst s = 4 -> exists m', propagate (Some s) mods m = Some (m', again m mods) /\
  (forall x, 1 <= fst x <= 3 -> low m' x = low m x) /\ (forall x n, In n (high m' x) -> In n (high m x) \/ n = s) /\
  (forall x, In x (again m mods) -> fst x = 3 -> nodes_below m x <> [] -> In s (high m' x)).
Proof.
  intros G D C S4. pose proof (g_links _ G) as L. unfold propagate. rewrite C. destruct (levels m mods L) as (H1 & H2 & H3).
  destruct (update_cells_some s m (level3 m mods) L S4 m) as (m' & -> & K1 & K2 & K3 & K4).
  - intros c I. apply H3 in I. tauto.
  - apply add_up_nodup, NoDup_of_type, D.
  - reflexivity.
  - reflexivity.
  - intros c T n I. left. destruct (links_high [] m c n L (fun F => F) I) as (_ & AX & [V|(_ & V & _)]); [|assumption]. destruct (s_rng _ (g_slots _ G) n AX). lia.
  - exists m'. split; [reflexivity|]. split; [assumption|]. split; [assumption|]. intros x I T. apply K4. unfold again in I. rewrite !in_app_iff, H1, H2 in I. destruct I as [I|[I|I]]; [lia|lia|assumption].
Qed.

(** Relations between the upward closures. *)
Lemma up_parted h adj m m' mods y x : good m -> alive m h = true -> parted h adj m m' mods -> In y mods -> up m' y x -> up m h x.
Proof.
  intros G A P I U.
  assert (HI : forall a b, In b (high m' a) -> In b (high m a)).
  { intros a b J. destruct (elem_dec a h) as [->|N].
    - rewrite (pt_high_h _ _ _ _ _ P) in J. destruct (Nat.ltb (fst h) 3); [apply filter_In in J; tauto|assumption].
    - apply cnt_pos in J. apply cnt_pos. pose proof (pt_high _ _ _ _ _ P a N) as T. destruct (elem_dec b h) as [->|NB].
      + rewrite (t_self _ _ _ _ _ _ T) in J. lia.
      + rewrite (t_other _ _ _ _ _ _ T b NB) in J. assumption. }
  assert (Y : up m h y). { apply (pt_mods _ _ _ _ _ P) in I. destruct I as [(-> & _)|(T & _ & J)]; [constructor|]. eapply up_step; [constructor|assumption|assumption]. }
  induction U as [|b z U IH T J]; [assumption|]. eapply up_step; [exact IH|assumption|now apply HI].
Qed.
Lemma up_joined h adj m m' mods y x : joined h adj m m' mods -> up m' y x -> up m y x \/ up m h x.
Proof.
  intros J U. induction U as [|b z U IH T I]; [left; constructor|]. rewrite (jn_high _ _ _ _ _ J), in_app_iff in I. destruct I as [I|I].
  - destruct IH as [IH|IH]; [left|right]; eapply up_step; eassumption.
  - apply repeat_spec in I. subst z. right. constructor.
Qed.
Lemma up_alive m y x : links [] m -> alive m y = true -> up m y x -> alive m x = true.
Proof. intros L A U. induction U as [|b z U IH T I]; [assumption|]. apply (links_high [] m b z L (fun F => F) I). Qed.

(** The cells of a face that loses a cell. *)
Lemma drop_low_at h mrk x ls : forall m, mrk x = true -> (cnt ls x = 0 -> high (fst (drop_low h mrk ls m)) x = high m x) /\
  (cnt ls x = 1 -> high (fst (drop_low h mrk ls m)) x =
    remove_first h (if Nat.eqb (fst h) 3 && Nat.eqb (length (filter (visible m) (high m x))) 2 then swap_first (visible m) h (high m x) else high m x)).
Proof.
  induction ls as [|y r IH]; intros m M; cbn [drop_low count_occ fst]; [split; [reflexivity|discriminate]|].
  destruct (elem_dec y x) as [->|N].
  - split; [discriminate|]. intros C. rewrite M. rewrite (proj1 (IH _ M)) by lia. destruct (Nat.eqb (fst h) 3 && _); cbn [set_high set_conn high]; rewrite !upd_same; reflexivity.
  - destruct (mrk y).
    + set (m1 := if Nat.eqb (fst h) 3 && _ then _ else m). assert (Q : high m1 x = high m x /\ visible m1 = visible m).
      { subst m1. destruct (Nat.eqb (fst h) 3 && _); cbn [set_high set_conn high]; [rewrite upd_other by congruence|]; split; reflexivity. }
      destruct Q as (Q & V). destruct (IH (set_high m1 y (remove_first h (high m1 y))) M) as (I0 & I1).
      change (visible (set_high m1 y _)) with (visible m1) in I1. rewrite V in I1. cbn [set_high set_conn high] in I0, I1. rewrite upd_other, Q in I0, I1 by congruence. split; assumption.
    + destruct (IH m M) as (I0 & I1). destruct (drop_low h mrk r m) as [m' k]. cbn [fst] in *. split; assumption.
Qed.
Lemma swap_first_shape vis h a b d z : vis h = true -> vis z = true -> (forall y, In y (a ++ b) -> vis y = false) ->
  swap_first vis h (a ++ h :: b ++ z :: d) = a ++ z :: b ++ h :: d.
Proof.
  intros H Z. induction a as [|y r IH]; intros HI; cbn [app swap_first].
  - rewrite H, eqe_refl. assert (P : put_next vis h (b ++ z :: d) = Some (z, b ++ h :: d)).
    { clear - HI Z. cbn [app] in HI. induction b as [|y r IH]; cbn [app put_next]; [now rewrite Z|]. rewrite (HI y) by now left. rewrite IH; [reflexivity|]. intros x I. apply HI. now right. }
    now rewrite P.
  - rewrite (HI y) by now left. rewrite IH; [reflexivity|]. intros x I. apply HI. now right.
Qed.
Lemma remove_first_shape h a d : ~ In h a -> remove_first h (a ++ h :: d) = a ++ d.
Proof.
  induction a as [|y r IH]; intros N; cbn [app remove_first]; [now rewrite eqe_refl|]. destruct (eqe y h) eqn:E; [apply eqe_spec in E; subst y; exfalso; apply N; now left|].
  f_equal. apply IH. intro I. apply N. now right.
Qed.
Lemma remove_first_once h l : cnt l h = 1 -> remove_first h l = erase h l.
Proof.
  induction l as [|y r IH]; cbn [count_occ remove_first]; [discriminate|]. destruct (elem_dec y h) as [->|N].
  - intros C. rewrite eqe_refl. unfold erase. cbn [filter]. rewrite eqe_refl. cbn [negb]. symmetry. apply erase_id. intro I. apply cnt_pos in I. lia.
  - intros C. pose proof N as E. apply eqe_neq in E. rewrite E. unfold erase. cbn [filter]. rewrite E. cbn [negb]. f_equal. now apply IH.
Qed.
Lemma attach_needs h adj : forall mods m r, attach h adj mods m = Some r -> forall a, In a adj -> fst a = 2 -> length (high m a) + cnt adj a <= 2.
Proof.
  induction adj as [|b q IH]; intros mods m r; cbn [attach]; [intros _ a []|].
  destruct (Nat.eqb (fst b) 3 || negb (Nat.eqb (S (fst b)) (fst h)) || (Nat.eqb (fst b) 2 && Nat.ltb 1 (length (high m b)))) eqn:C; [discriminate|]. intros E a I T.
  apply orb_false_iff in C. destruct C as (_ & C). cbn [count_occ]. destruct (in_dec elem_dec a q) as [J|J].
  - specialize (IH _ _ _ E a J T). cbn [set_high set_conn high] in IH. destruct (elem_dec b a) as [->|N].
    + rewrite upd_same, app_length in IH. cbn [length] in IH. lia.
    + rewrite upd_other in IH by congruence. lia.
  - rewrite (cnt_zero _ _ J). destruct (elem_dec b a) as [->|N]; [|destruct I as [I|I]; congruence].
    rewrite T in C. cbn [Nat.eqb andb] in C. apply Nat.ltb_ge in C. lia.
Qed.

Lemma filter_two {A} (p : A -> bool) a b d h z : p h = true -> p z = true -> (forall y, In y (a ++ b ++ d) -> p y = false) -> length (filter p (a ++ h :: b ++ z :: d)) = 2.
Proof.
  intros H Z N. change (h :: b ++ z :: d) with ([h] ++ b ++ [z] ++ d). rewrite !filter_app.
  rewrite (filter_nothing p a), (filter_nothing p b), (filter_nothing p d) by (intros y Y; apply N; rewrite !in_app_iff; tauto).
  unfold filter. rewrite H, Z. reflexivity.
Qed.
