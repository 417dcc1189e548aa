(** Property C29. *)
From Coq Require Import List Bool Arith Lia Ring ZArith Sorted.
From Verif Require Import Util Row_Model Row_Proofs Row_Props Merger_Model Merger_Proofs.
Import ListNotations.

(** ** Specification: a function from columns to values and the set of columns
    used since the last Clear/Resize. *)
Record acc (R : Type) := Acc { a_beg : nat; a_end : nat; a_sorted : bool; a_val : nat -> R; a_used : list nat }.
Arguments Acc {R}. Arguments a_beg {R}. Arguments a_end {R}. Arguments a_sorted {R}. Arguments a_val {R}. Arguments a_used {R}.

Section Spec.
Context {R : Type} (r0 : R) (radd rmul : R -> R -> R) (iszero : R -> bool).
Definition acc_new (b e : nat) (srt : bool) : acc R := Acc b e srt (fun _ => r0) [].
Definition acc_add (a : acc R) (coef : R) (r : list (nat * R)) : acc R :=
  Acc (a_beg a) (a_end a) (a_sorted a)
      (fun q => radd (a_val a q) (rmul coef (at_index r0 radd Nat.eq_dec r q)))
      (if iszero coef then a_used a else map fst r ++ a_used a).
Definition acc_step (a : acc R) (o : @mop R) : acc R :=
  match o with
  | OPush coef r | OAdd coef r => acc_add a coef r
  | OMul c => Acc (a_beg a) (a_end a) (a_sorted a) (fun q => rmul (a_val a q) c) (a_used a)
  | OUpd p f => Acc (a_beg a) (a_end a) (a_sorted a)
                    (fun q => if q =? p then f (a_val a p) else a_val a q) (p :: a_used a)
  | OClear => acc_new (a_beg a) (a_end a) (a_sorted a)
  | OResize b e srt => acc_new b e srt
  end.
(** Documented requirements: PushRow goes into an empty list; rows are sorted
    by strictly increasing column in sorted mode and have distinct columns when
    pushed. *)
Definition allowed (a : acc R) (o : @mop R) : Prop :=
  match o with
  | OPush _ r => a_used a = [] /\ NoDup (map fst r) /\ (a_sorted a = true -> StronglySorted lt (map fst r))
  | OAdd _ r => a_sorted a = true -> StronglySorted lt (map fst r)
  | _ => True
  end.
Fixpoint acc_run (a : acc R) (os : list (@mop R)) : acc R :=
  match os with [] => a | o :: os' => acc_run (acc_step a o) os' end.
Fixpoint all_allowed (a : acc R) (os : list (@mop R)) : Prop :=
  match os with [] => True | o :: os' => allowed a o /\ all_allowed (acc_step a o) os' end.
End Spec.

Section P.
Context (R : Type) (r0 r1 : R) (radd rmul rsub : R -> R -> R) (ropp : R -> R).
Context (Rth : ring_theory r0 r1 radd rmul rsub ropp eq).
Context (iszero : R -> bool) (iszero_spec : forall x, iszero x = true <-> x = r0).
Add Ring Rring3 : Rth.

Definition simul (s : @merger R) (a : acc R) : Prop :=
  exists c, inv r0 radd s (a_beg a) (a_end a) (a_sorted a) (a_val a) (fun q => In q (a_used a)) c.

Lemma step_simul : forall s a o, simul s a -> allowed a o ->
  exists s', step r0 radd rmul iszero s o = Some s' /\ simul s' (acc_step r0 radd rmul iszero a o).
Proof.
  intros s a o [c I] A. destruct o as [coef r|coef r|m|p f| |b e srt]; cbn [step acc_step].
  - destruct A as (A1 & A2 & A3).
    destruct (push_row_ok r0 r1 radd rmul rsub ropp Rth iszero iszero_spec s _ _ _ _ _ c coef r I) as (s' & c' & E & I'); auto.
    { intros q. rewrite A1. auto. }
    exists s'. split; auto. exists c'. eapply inv_ext; [exact I'|reflexivity|]. cbn [acc_add a_used]. intro q.
    destruct (iszero coef); [|rewrite in_app_iff; tauto]. split; auto. intros [[H _]|H]; auto. discriminate.
  - destruct (add_row_ok r0 r1 radd rmul rsub ropp Rth iszero iszero_spec s _ _ _ _ _ c coef r I A) as (s' & c' & E & I').
    exists s'. split; auto. exists c'. eapply inv_ext; [exact I'|reflexivity|]. cbn [acc_add a_used]. intro q.
    destruct (iszero coef); [|rewrite in_app_iff; tauto]. split; auto. intros [[H _]|H]; auto. discriminate.
  - destruct (multiply_ok r0 r1 radd rmul rsub ropp Rth iszero iszero_spec s _ _ _ _ _ c m I) as (s' & E & I').
    exists s'. split; auto. exists c. exact I'.
  - destruct (upd_ok r0 r1 radd rmul rsub ropp Rth iszero iszero_spec s _ _ _ _ _ c p f I) as (s' & c' & E & I').
    exists s'. split; auto. exists c'. eapply inv_ext; [exact I'|reflexivity|]. cbn [a_used]. intro q. unfold Tadd. cbn [In].
    split; [intros [H|H]; auto|]. intros [H|H]; auto.
  - exists (fresh r0 (a_beg a) (a_end a) (a_sorted a)). split; [eapply (clear_ok r0 r1 radd iszero iszero_spec); eauto|].
    exists []. exact (fresh_inv r0 r1 radd iszero iszero_spec _ _ _).
  - exists (fresh r0 b e srt). split; auto. exists []. exact (fresh_inv r0 r1 radd iszero iszero_spec _ _ _).
Qed.

Lemma run_simul : forall os s a, simul s a -> all_allowed r0 radd rmul iszero a os ->
  exists s', run r0 radd rmul iszero s os = Some s' /\ simul s' (acc_run r0 radd rmul iszero a os).
Proof.
  induction os as [|o os IH]; intros s a H A; cbn [run acc_run]; eauto.
  destruct A as [A1 A2]. destruct (step_simul s a o H A1) as (s' & E & H'). rewrite E. apply IH; auto.
Qed.

(** C29: after any allowed sequence of calls on a merger for columns b..e-1
    (other columns are non-local) no assert fails and no loop runs away;
    RetrieveRow returns a row whose value at every column is the accumulated
    one, without repeated columns and without zeros, local columns first
    (increasing in sorted mode), then non-local columns in increasing order;
    Size() counts the local columns used; the const operator[] returns the
    value of a used column and throws for others; Clear makes the merger
    identical to a new one. *)
Theorem C29_merger_accumulates : forall (b e : nat) (srt : bool) (os : list (@mop R)),
  all_allowed r0 radd rmul iszero (acc_new r0 b e srt) os ->
  exists s, run r0 radd rmul iszero (fresh r0 b e srt) os = Some s /\
  let a := acc_run r0 radd rmul iszero (acc_new r0 b e srt) os in
  let is_local p := a_beg a <= p /\ p < a_end a in
  (exists loc non, retrieve iszero s = Some (loc ++ non) /\
     (forall p, at_index r0 radd Nat.eq_dec (loc ++ non) p = a_val a p) /\
     NoDup (map fst (loc ++ non)) /\ (forall x, In x (loc ++ non) -> snd x <> r0) /\
     (forall p, In p (map fst loc) -> is_local p) /\ (forall p, In p (map fst non) -> ~ is_local p) /\
     (a_sorted a = true -> StronglySorted lt (map fst loc)) /\ StronglySorted lt (map fst non)) /\
  nonzeros s = length (nodup Nat.eq_dec (filter (fun p => (a_beg a <=? p) && (p <? a_end a)) (a_used a))) /\
  (forall p, (In p (a_used a) -> get s p = Some (a_val a p)) /\ (~ In p (a_used a) -> get s p = None)) /\
  clear r0 s = Some (fresh r0 (a_beg a) (a_end a) (a_sorted a)).
Proof.
  intros b e srt os A.
  destruct (run_simul os (fresh r0 b e srt) (acc_new r0 b e srt)) as (s & E & c & I); auto.
  { exists []. exact (fresh_inv r0 r1 radd iszero iszero_spec _ _ _). }
  exists s. split; auto. cbv zeta. set (a := acc_run _ _ _ _ _ _) in *. clearbody a.
  split; [|split; [|split]].
  - exact (retrieve_spec r0 r1 radd rmul rsub ropp Rth iszero iszero_spec s _ _ _ _ _ c I).
  - eapply (size_spec r0 r1 radd iszero iszero_spec); [exact I|apply NoDup_nodup|]. intro p. rewrite nodup_In, filter_In.
    rewrite (bool_local_spec (a_beg a) (a_end a) p). tauto.
  - intro p. exact (get_ok r0 r1 radd rmul rsub ropp Rth iszero iszero_spec s _ _ _ _ _ c p I).
  - eapply (clear_ok r0 r1 radd iszero iszero_spec); eauto.
Qed.

(** Merge(c,alpha,a,beta,b) on a new or cleared merger computes
    alpha*a + beta*b and leaves the merger cleared. *)
Theorem C29_merge : forall (b e : nat) (srt : bool) (alpha beta : R) (x y : list (nat * R)),
  NoDup (map fst x) -> (srt = true -> StronglySorted lt (map fst x)) ->
  (srt = true -> StronglySorted lt (map fst y)) ->
  exists c, merge r0 radd rmul iszero (fresh r0 b e srt) alpha x beta y = Some (c, fresh r0 b e srt) /\
    (forall p, at_index r0 radd Nat.eq_dec c p =
       radd (rmul alpha (at_index r0 radd Nat.eq_dec x p)) (rmul beta (at_index r0 radd Nat.eq_dec y p))) /\
    NoDup (map fst c) /\ (forall z, In z c -> snd z <> r0).
Proof.
  intros b e srt alpha beta x y H1 H2 H3.
  destruct (C29_merger_accumulates b e srt [OPush alpha x; OAdd beta y]) as (s & E & (loc & non & A1 & A2 & A3 & A4 & _) & _ & _ & C).
  { cbn. auto. }
  cbn [run step] in E. unfold merge.
  destruct (push_row r0 rmul iszero (fresh r0 b e srt) alpha x) as [s1|]; [|discriminate].
  destruct (add_row r0 radd rmul iszero s1 beta y) as [s2|]; [|discriminate]. injection E as ->.
  rewrite A1, C. exists (loc ++ non). split; auto. split; auto.
  intro p. rewrite A2. cbn. ring.
Qed.
End P.
Print Assumptions C29_merger_accumulates.
Print Assumptions C29_merge.

(** PushRow in unsorted mode accepts a row with a repeated column; the merger
    then returns a wrong row and Clear leaves a dead node behind, so that a
    later AddRow is lost. *)
Definition zrun := run 0%Z Z.add Z.mul (Z.eqb 0).
Definition zret (s : option (@merger Z)) : option (list (nat * Z)) :=
  match s with Some s' => retrieve (Z.eqb 0) s' | None => None end.
Theorem C29_push_repeated_refuted :
  zret (zrun (fresh 0%Z 0 4 false) [OPush 1%Z [(1, 10%Z); (2, 20%Z); (1, 30%Z)]]) = Some [(1, 30%Z)] /\
  zret (zrun (fresh 0%Z 0 4 false)
         [OPush 1%Z [(1, 10%Z); (2, 20%Z); (1, 30%Z)]; OClear; OAdd 1%Z [(2, 5%Z)]]) = Some [].
Proof. split; vm_compute; reflexivity. Qed.

(** The check that the list is empty does not look at non-local columns:
    PushRow overwrites a non-local value instead of failing. *)
Theorem C29_push_nonlocal_refuted :
  zret (zrun (fresh 0%Z 0 4 true) [OAdd 1%Z [(7, 10%Z)]; OPush 1%Z [(7, 20%Z)]]) = Some [(7, 20%Z)].
Proof. vm_compute. reflexivity. Qed.
Print Assumptions C29_push_repeated_refuted.
Print Assumptions C29_push_nonlocal_refuted.

Example C29_nonvacuous :
  let os := [OPush 2%Z [(1, 3%Z); (9, 4%Z)]; OAdd 3%Z [(0, 1%Z); (1, (-2)%Z); (3, 5%Z)]; OMul (-1)%Z; OUpd 2 (Z.add 8)] in
  all_allowed 0%Z Z.add Z.mul (Z.eqb 0) (acc_new 0%Z 0 4 true) os /\
  zret (zrun (fresh 0%Z 0 4 true) os) = Some [(0, (-3)%Z); (2, 8%Z); (3, (-15)%Z); (9, (-8)%Z)].
Proof.
  split; [|vm_compute; reflexivity]. cbn [all_allowed allowed acc_step acc_add acc_new a_used a_sorted map fst].
  split; [split; [reflexivity|split]|split; [|split; [exact Logic.I|split; [exact Logic.I|exact Logic.I]]]].
  - repeat constructor; cbn; lia.
  - intros _. repeat constructor.
  - intros _. repeat constructor.
Qed.
