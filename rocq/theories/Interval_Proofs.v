(** Proofs about interval. *)
From Coq Require Import List Bool ZArith Lia.
From Verif Require Import Util Interval_Model.
Import ListNotations.
Local Open Scope Z_scope.

(** ** Specification: a start index and the sequence of values from it on. *)
Section Spec.
Context {A : Type}.
Definition sitv := (Z * list A)%type.
Definition sget (s : sitv) (i : Z) : option A :=
  if i <? fst s then None else nth_error (snd s) (Z.to_nat (i - fst s)).
Definition send (s : sitv) : Z := fst s + Z.of_nat (length (snd s)).
Definition sstep (s : sitv) (o : op A) : option sitv :=
  let (b, l) := s in
  match o with
  | OClear => Some (b, [])
  | OBeg b' => Some (b', l)
  | OShift d => Some (b + d, l)
  | OEnd e c => if e <? b then None
                else let n := Z.to_nat (e - b) in Some (b, firstn n l ++ repeat c (n - length l))
  | OSet i v => if (b <=? i) && (i <? b + Z.of_nat (length l))
                then Some (b, lset l (Z.to_nat (i - b)) v) else None
  end.
Fixpoint srun (s : sitv) (ops : list (op A)) : option sitv :=
  match ops with
  | [] => Some s
  | o :: r => match sstep s o with Some s' => srun s' r | None => None end
  end.
End Spec.
Arguments sitv : clear implicits.

Section P.
Context {A : Type}.

Definition rep (a : itv A) (s : sitv A) : Prop :=
  ibeg a = fst s /\ iend a = send s /\
  (snd s <> [] -> mem a = Some (map Some (snd s)) /\ poff a = - fst s).

Lemma lset_app_len : forall (p q : list (option A)) x y, lset (p ++ x :: q) (length p) y = p ++ y :: q.
Proof. induction p; intros; cbn; [reflexivity|]. now rewrite IHp. Qed.

Lemma bfill_spec : forall n (p q : list (option A)) i (v : A), i = Z.of_nat (length p) ->
  bfill (p ++ repeat None n ++ q) i n (Some v) = Some (p ++ map Some (repeat v n) ++ q).
Proof.
  induction n as [|n IH]; intros p q i v ->; [reflexivity|].
  cbn [bfill repeat map app]. unfold bwr.
  replace ((_ <? _) || (_ <=? _)) with false by (rewrite app_length; cbn [length]; symmetry; apply orb_false_iff; lia).
  rewrite Nat2Z.id, lset_app_len.
  change (p ++ Some v :: repeat None n ++ q) with (p ++ [Some v] ++ repeat None n ++ q).
  rewrite (app_assoc p [Some v]), (IH (p ++ [Some v]) q); [now rewrite <- app_assoc|].
  rewrite app_length. cbn [length]. lia.
Qed.

Lemma bcopy_spec : forall n (ps s qs pd qd : list (option A)) i j,
  length s = n -> i = Z.of_nat (length ps) -> j = Z.of_nat (length pd) ->
  bcopy (ps ++ s ++ qs) (pd ++ repeat None n ++ qd) i j n = Some (pd ++ s ++ qd).
Proof.
  induction n as [|n IH]; intros ps s qs pd qd i j L -> ->.
  - destruct s; [reflexivity|discriminate].
  - destruct s as [|x s]; [discriminate|]. injection L as L.
    cbn [bcopy repeat app]. unfold brd, bwr.
    replace (Z.of_nat (length ps) <? 0) with false by lia.
    rewrite Nat2Z.id, nth_error_app2, Nat.sub_diag by lia. cbn [nth_error].
    replace ((_ <? _) || (_ <=? _)) with false by (rewrite app_length; cbn [length]; symmetry; apply orb_false_iff; lia).
    rewrite Nat2Z.id, lset_app_len.
    change (ps ++ x :: s ++ qs) with (ps ++ [x] ++ s ++ qs).
    change (pd ++ x :: repeat None n ++ qd) with (pd ++ [x] ++ repeat None n ++ qd).
    rewrite !(app_assoc _ [x] _). rewrite IH; auto.
    + now rewrite <- app_assoc.
    + rewrite app_length. cbn [length]. lia.
    + rewrite app_length. cbn [length]. lia.
Qed.

Lemma rep_itv0 : forall b, rep (itv0 b) (b, []).
Proof. intros b. split; [reflexivity|]. split; [unfold send; cbn; lia|]. cbn. congruence. Qed.

Lemma nonempty_len : forall l : list A, l <> [] -> (0 < length l)%nat.
Proof. destruct l; [congruence|cbn; lia]. Qed.

Lemma rep_empty_iff : forall a s, rep a s -> empty a = match snd s with [] => true | _ => false end.
Proof.
  intros a (b, l) (H1 & H2 & _). unfold empty, send in *. cbn [fst snd] in *. rewrite H1, H2.
  destruct l; cbn [length]; lia.
Qed.

Lemma rep_clear : forall a s, rep a s -> exists a', clear a = Some a' /\ rep a' (fst s, []) /\ mem a' = None.
Proof.
  intros a (b, l) H. pose proof (rep_empty_iff _ _ H) as E. destruct H as (H1 & H2 & H3).
  cbn [fst snd] in *. unfold clear. rewrite E. destruct l as [|x l].
  - eexists. split; [reflexivity|]. split; [|reflexivity].
    split; [exact H1|]. split; [unfold send; cbn; lia|]. cbn. congruence.
  - destruct H3 as (-> & ->); [discriminate|]. replace (ibeg a + - b =? 0) with true by lia.
    eexists. split; [reflexivity|]. split; [|reflexivity].
    split; [exact H1|]. split; [unfold send; cbn; lia|]. cbn. congruence.
Qed.

Lemma rep_shift : forall a s d, rep a s -> rep (shift_interval a d) (fst s + d, snd s).
Proof.
  intros a (b, l) d (H1 & H2 & H3). unfold rep, send in *. cbn [fst snd] in *. cbn.
  repeat split; try lia; destruct (H3 H) as (X & Y); auto; lia.
Qed.

Lemma rep_get : forall a s i, rep a s -> get a i = option_map Some (sget s i).
Proof.
  intros a (b, l) i (H1 & H2 & H3). unfold get, sget, send in *. cbn [fst snd] in *.
  destruct (Z.ltb_spec i b).
  - replace (ibeg a <=? i) with false by lia. reflexivity.
  - replace (ibeg a <=? i) with true by lia. cbn [andb].
    destruct (Z.ltb_spec i (iend a)).
    + destruct (H3 ltac:(destruct l; [cbn in *; lia|discriminate])) as (-> & ->). unfold brd.
      replace (i + - b <? 0) with false by lia. rewrite nth_error_map. replace (i + - b) with (i - b) by lia. reflexivity.
    + replace (nth_error l (Z.to_nat (i - b))) with (@None A); [reflexivity|].
      symmetry. apply nth_error_None. lia.
Qed.

Lemma rep_set : forall a b l i v, rep a (b, l) -> (b <=? i) && (i <? b + Z.of_nat (length l)) = true ->
  exists a', set a i v = Some a' /\ rep a' (b, lset l (Z.to_nat (i - b)) v).
Proof.
  intros a b l i v (H1 & H2 & H3) H. unfold set, send in *. cbn [fst snd] in *.
  apply andb_true_iff in H. rewrite H1, H2.
  replace ((b <=? i) && (i <? b + Z.of_nat (length l))) with true by (symmetry; apply andb_true_iff; exact H).
  destruct (H3 ltac:(destruct l; [cbn in *; lia|discriminate])) as (-> & ->). unfold bwr.
  replace ((_ <? _) || (_ <=? _)) with false
    by (rewrite map_length; symmetry; apply orb_false_iff; lia).
  eexists. split; [reflexivity|]. unfold rep, send. cbn. rewrite lset_length.
  repeat split. f_equal. replace (i + - b) with (i - b) by lia.
  generalize (Z.to_nat (i - b)). clear. induction l; intros [|n]; cbn; auto. now rewrite IHl.
Qed.

Lemma rep_set_end : forall a b l e c, rep a (b, l) -> b <= e ->
  exists a', set_interval_end a e (inl c) = Some a' /\
    rep a' (b, firstn (Z.to_nat (e - b)) l ++ repeat c (Z.to_nat (e - b) - length l)).
Proof.
  intros a b l e c H HE. pose proof (rep_empty_iff _ _ H) as EM. pose proof (rep_clear _ _ H) as (ac & EC & RC & MC).
  pose proof H as (H1 & H2 & H3). unfold set_interval_end, send in *. cbn [fst snd] in *.
  destruct (Z.eqb_spec e (iend a)) as [Q|Q].
  - exists a. split; [reflexivity|]. replace (Z.to_nat (e - b)) with (length l) by lia.
    rewrite firstn_all, Nat.sub_diag. cbn [repeat]. rewrite app_nil_r. exact H.
  - destruct (Z.eqb_spec (ibeg a) e) as [Q2|Q2].
    + rewrite EC. eexists. split; [reflexivity|]. replace (Z.to_nat (e - b)) with O by lia. cbn [firstn repeat app Nat.sub].
      destruct RC as (R1 & R2 & R3). unfold rep, send in *. cbn in *. repeat split; try lia; congruence.
    + unfold alloc. replace (e - ibeg a <? 0) with false by lia. rewrite H1, EM.
      set (n := Z.to_nat (e - b)).
      destruct l as [|x l].
      * cbn [length] in *. replace (Z.min e (iend a)) with b by lia. replace (b <? e) with true by lia.
        replace (Z.to_nat (e - b)) with n by reflexivity.
        pose proof (bfill_spec n [] [] (b + - b) c ltac:(cbn; lia)) as F. cbn [app] in F. rewrite !app_nil_r in F. rewrite F.
        eexists. split; [reflexivity|]. rewrite firstn_nil, Nat.sub_0_r. cbn [app].
        unfold rep, send. cbn. rewrite repeat_length. repeat split; lia.
      * destruct (H3 ltac:(discriminate)) as (EMem & EOff). rewrite EMem, EOff, EC.
        set (l' := x :: l) in *. set (m := Z.to_nat (Z.min e (iend a) - b)).
        assert (m <= length l')%nat as Hm by lia. assert (m <= n)%nat as Hmn by lia.
        assert (bcopy (map Some l') (repeat None n) (b + - b) (b + - b) m =
                Some (map Some (firstn m l') ++ repeat None (n - m))) as ->.
        { pose proof (bcopy_spec m [] (map Some (firstn m l')) (map Some (skipn m l')) [] (repeat None (n - m)) (b + - b) (b + - b)) as F.
          cbn [app] in F. rewrite <- map_app, firstn_skipn in F.
          replace (repeat None n) with (repeat (@None A) m ++ repeat None (n - m)).
          2:{ rewrite <- repeat_app. f_equal. lia. }
          apply F; [rewrite map_length, firstn_length; lia| |]; cbn; lia. }
        destruct (Z.ltb_spec (Z.min e (iend a)) e) as [Q3|Q3].
        -- pose proof (bfill_spec (n - m) (map Some (firstn m l')) [] (Z.min e (iend a) + - b) c) as F.
           rewrite !app_nil_r in F. replace (Z.to_nat (e - Z.min e (iend a))) with (n - m)%nat by lia.
           rewrite F by (rewrite map_length, firstn_length; lia).
           eexists. split; [reflexivity|].
           replace (firstn n l') with (firstn m l').
           2:{ rewrite !firstn_all2; auto; lia. }
           replace (n - length l')%nat with (n - m)%nat by lia.
           unfold rep, send. cbn [fst snd ibeg iend mem poff].
           rewrite app_length, firstn_length, repeat_length, map_app. repeat split; lia.
        -- replace (n - m)%nat with O by lia. replace (n - length l')%nat with O by lia.
           cbn [repeat]. rewrite !app_nil_r. eexists. split; [reflexivity|].
           replace n with m by lia.
           unfold rep, send. cbn [fst snd ibeg iend mem poff].
           rewrite firstn_length. repeat split; lia.
Qed.

Lemma rep_step : forall a s o s', rep a s -> sstep s o = Some s' -> exists a', step a o = Some a' /\ rep a' s'.
Proof.
  intros a (b, l) o s' H E. destruct o; cbn [sstep step] in *.
  - injection E as <-. destruct (rep_clear _ _ H) as (a' & C & R & _). eauto.
  - injection E as <-. eexists. split; [reflexivity|]. unfold set_interval_beg.
    pose proof (rep_shift _ _ (b0 - ibeg a) H) as R. cbn [fst snd] in R.
    destruct H as (H1 & _). cbn [fst] in H1. replace (b + (b0 - ibeg a)) with b0 in R by lia. exact R.
  - destruct (Z.ltb_spec e b); [discriminate|]. injection E as <-. now apply rep_set_end.
  - injection E as <-. eexists. split; [reflexivity|]. apply (rep_shift _ (b, l)). exact H.
  - destruct (_ && _) eqn:R; [|discriminate]. injection E as <-. now apply rep_set.
Qed.

Lemma rep_run : forall ops a s s', rep a s -> srun s ops = Some s' -> exists a', run a ops = Some a' /\ rep a' s'.
Proof.
  induction ops as [|o r IH]; intros a s s' H E; cbn [run srun] in *.
  - injection E as <-. eauto.
  - destruct (sstep s o) as [s1|] eqn:S1; [|discriminate].
    destruct (rep_step a s o s1 H S1) as (a1 & E1 & R1). rewrite E1. eauto.
Qed.

Lemma rep_make : forall b e c, b <= e ->
  exists a, make b e c = Some a /\ rep a (b, repeat c (Z.to_nat (e - b))).
Proof.
  intros b e c H. unfold make, alloc. destruct (Z.eqb_spec b e) as [<-|Q].
  - eexists. split; [reflexivity|]. rewrite Z.sub_diag. cbn [Z.to_nat repeat].
    unfold rep, send; cbn; repeat split; try lia; congruence.
  - replace (e - b <? 0) with false by lia. set (n := Z.to_nat (e - b)).
    pose proof (bfill_spec n [] [] (b + - b) c ltac:(cbn; lia)) as F. cbn [app] in F. rewrite !app_nil_r in F. rewrite F.
    eexists. split; [reflexivity|]. unfold rep, send. cbn. rewrite repeat_length. repeat split; lia.
Qed.

Lemma rep_copy_of : forall a s, rep a s -> exists c, copy_of a = Some c /\ rep c s.
Proof.
  intros a (b, l) (H1 & H2 & H3). unfold copy_of, alloc, send in *. cbn [fst snd] in *. rewrite H1, H2.
  destruct (Z.eqb_spec b (b + Z.of_nat (length l))) as [Q|Q].
  - destruct l; [|cbn in *; lia]. eexists. split; [reflexivity|].
    unfold rep, send; cbn; repeat split; try lia; congruence.
  - destruct (H3 ltac:(destruct l; [cbn in *; lia|discriminate])) as (-> & ->).
    replace (b + Z.of_nat (length l) - b <? 0) with false by lia.
    replace (Z.to_nat (b + Z.of_nat (length l) - b)) with (length l) by lia.
    pose proof (bcopy_spec (length l) [] (map Some l) [] [] [] (b + - b) (b + - b)) as F.
    cbn [app] in F. rewrite !app_nil_r in F. rewrite F; [|apply map_length|cbn; lia|cbn; lia].
    eexists. split; [reflexivity|]. unfold rep, send; cbn; repeat split; lia.
Qed.

Lemma rep_assign : forall a s0 o s, rep a s0 -> rep o s -> exists c, assign_op a o = Some c /\ rep c s.
Proof.
  intros a s0 o s H H'. unfold assign_op. destruct (rep_clear _ _ H) as (a' & -> & _). now apply rep_copy_of.
Qed.
End P.
