(** Proofs about the model of INNER_RCM: the numbered cells form a list that only grows. *)
From Coq Require Import List Bool Arith Lia Permutation Sorted.
From Verif Require Import Util Rcm_Spec Rcm_Model.
Import ListNotations.

Definition sorts (key : nat -> nat) (sort : list nat -> list nat) : Prop :=
  forall l, Permutation (sort l) l /\ StronglySorted (fun a b => key a <= key b) (sort l).

(** * Positions in a list *)
Fixpoint pos (l : list nat) (c : nat) : nat :=
  match l with
  | [] => 0
  | a :: r => if a =? c then 1 else match pos r c with 0 => 0 | S k => S (S k) end
  end.
Lemma pos_in l c : In c l <-> pos l c <> 0.
Proof.
  induction l as [| a r IH]; cbn [pos In]; [lia |]. destruct (Nat.eqb_spec a c) as [E | E]; [split; [lia | now left] |].
  destruct (pos r c); split; try lia; intros H.
  - destruct H as [H | H]; [easy | apply IH in H; lia].
  - right. apply IH. lia.
Qed.
Lemma pos_le l c : pos l c <= length l.
Proof. induction l as [| a r IH]; cbn [pos length]; [lia |]. destruct (a =? c); [lia |]. destruct (pos r c); lia. Qed.
Lemma pos_app_l l r c : In c l -> pos (l ++ r) c = pos l c.
Proof.
  induction l as [| a l IH]; intros H; [destruct H |]. cbn [app pos]. destruct (Nat.eqb_spec a c) as [E | E]; [easy |].
  destruct H as [H | H]; [easy |]. now rewrite IH.
Qed.
Lemma pos_app_r l r c : ~ In c l -> In c r -> pos (l ++ r) c = length l + pos r c.
Proof.
  induction l as [| a l IH]; intros H I; [easy |]. cbn [app pos length]. destruct (Nat.eqb_spec a c) as [E | E]; [exfalso; apply H; now left |].
  rewrite IH; [| intros J; apply H; now right | easy]. apply pos_in in I. destruct (length l + pos r c) eqn:F; lia.
Qed.
Lemma pos_snoc l c : ~ In c l -> pos (l ++ [c]) c = S (length l).
Proof. intros H. rewrite pos_app_r by (auto; now left). cbn [pos]. rewrite Nat.eqb_refl. lia. Qed.
Lemma pos_nth l c : In c l -> nth_error l (pos l c - 1) = Some c.
Proof.
  induction l as [| a l IH]; intros H; [destruct H |]. cbn [pos]. destruct (Nat.eqb_spec a c) as [E | E]; [now rewrite E |].
  destruct H as [H | H]; [easy |]. pose proof (proj1 (pos_in l c) H). specialize (IH H). destruct (pos l c) as [| k]; [lia |].
  now replace (S (S k) - 1) with (S (S k - 1)) by lia.
Qed.
Lemma pos_inj l c d : In c l -> In d l -> pos l c = pos l d -> c = d.
Proof. intros C D E. apply pos_nth in C, D. rewrite E in C. congruence. Qed.
Lemma pos_snoc_other l c d : d <> c -> pos (l ++ [c]) d = pos l d.
Proof.
  intros H. destruct (in_dec Nat.eq_dec d l) as [I | I]; [now apply pos_app_l |].
  assert (~ In d (l ++ [c])) as J by (rewrite in_app_iff; intros [J | [J | []]]; [easy | now apply H]).
  rewrite pos_in in I, J. lia.
Qed.

Section Proofs.
Variable cells : list (list nat).
Variable sort : list nat -> list nat.
Variable procs : nat.
Notation N := (ncells cells).
Notation K := (chunk cells procs).
Notation adj := (around cells).
Notation ord := (order cells).
Hypothesis SORT : sorts ord sort.

Lemma K_pos : 0 < K.
Proof. unfold chunk. rewrite Nat.add_1_r. apply Nat.lt_0_succ. Qed.

(** * Neighbours *)
Lemma on_face_iff f c : on_face cells f c = true <-> In f (nth c cells []).
Proof. unfold on_face. rewrite existsb_exists. split; [intros (x & I & E); apply Nat.eqb_eq in E; now subst | intros I; exists f; split; [easy | apply Nat.eqb_refl]]. Qed.
Lemma add_all_iff l c : forall acc d, In d (add_all l c acc) <-> In d acc \/ In d l /\ d <> c.
Proof.
  induction l as [| a l IH]; intros acc d; cbn [add_all In]; [tauto |]. rewrite IH.
  destruct ((a =? c) || existsb (Nat.eqb a) acc) eqn:E.
  - apply orb_true_iff in E. rewrite Nat.eqb_eq, existsb_exists in E. split; [tauto |]. intros [H | ([H | H] & J)]; [now left | | tauto].
    subst a. destruct E as [E | (x & X & Y)]; [easy |]. apply Nat.eqb_eq in Y. subst x. now left.
  - apply orb_false_iff in E. destruct E as (E & _). apply Nat.eqb_neq in E. rewrite in_app_iff. cbn [In]. split; intros H.
    + destruct H as [[H | [H | []]] | H]; [tauto | subst a; tauto | tauto].
    + tauto.
Qed.
Lemma around_iff c d : c < N -> (In d (adj c) <-> neighbours cells c d).
Proof.
  intros C. unfold around.
  assert (G : forall fs acc, In d (fold_left (fun acc f => add_all (filter (on_face cells f) (seq 0 N)) c acc) fs acc) <->
    In d acc \/ exists f, In f fs /\ d < N /\ d <> c /\ In f (nth d cells [])).
  { induction fs as [| f fs IH]; intros acc; cbn [fold_left]; [split; [now left | intros [H | (f & [] & _)]; easy] |].
    rewrite IH, add_all_iff, filter_In, in_seq, on_face_iff. split.
    - intros [[H | (H & J)] | (g & H)]; [now left | right; exists f; split; [now left |]; split; [lia | tauto] | right; exists g; split; [now right | tauto]].
    - intros [H | (g & [H | H] & J)]; [left; now left | subst g; left; right; split; [split; [lia | tauto] | tauto] | right; exists g; tauto]. }
  rewrite G. unfold neighbours. fold N. split.
  - intros [[] | (f & A & B & D & E)]. split; [easy |]. split; [easy |]. split; [auto |]. now exists f.
  - intros (A & B & D & f & E & F). right. exists f. auto.
Qed.
Lemma adj_lt c d : c < N -> In d (adj c) -> d < N.
Proof. intros C H. apply around_iff in H; [apply H | easy]. Qed.

(** * Good numberings *)
Definition part (D : list nat) (c : nat) : nat := pos D c / K.
Definition seed (D : list nat) (d : nat) : Prop :=
  (forall e b, In e D -> part D e = part D d -> pos D e < pos D d -> In b (adj e) -> In b D /\ pos D b < pos D d) /\
  (forall c, c < N -> (~ In c D \/ pos D d <= pos D c) -> ord d <= ord c).
Definition child (D : list nat) (d : nat) : Prop :=
  exists e, In e D /\ In d (adj e) /\ pos D e < pos D d /\ (part D e = part D d \/ S (pos D e) = part D d * K /\ seed D e).
Definition level (D : list nat) : Prop := forall c d e, In c D -> In d D -> In e D -> pos D e < pos D c -> pos D c < pos D d -> part D e = part D d -> In d (adj e) ->
  (exists e', In e' D /\ In c (adj e') /\ pos D e' < pos D e /\ part D d * K <= S (pos D e')) \/ In c (adj e) /\ ord c <= ord d.
Record good (D : list nat) : Prop := {
  g_nodup : NoDup D;
  g_lt : forall c, In c D -> c < N;
  g_kind : forall d, In d D -> seed D d \/ child D d;
  g_level : level D
}.

Section Extend.
Variable D : list nat.
Variable x : nat.
Hypothesis X : ~ In x D.
Lemma pos_old d : In d D -> pos (D ++ [x]) d = pos D d.
Proof. apply pos_app_l. Qed.
Lemma part_old d : In d D -> part (D ++ [x]) d = part D d.
Proof. intros H. unfold part. now rewrite pos_old. Qed.
Lemma in_ext d : In d (D ++ [x]) <-> In d D \/ d = x.
Proof. rewrite in_app_iff. cbn [In]. split; [intros [H | [H | []]]; auto | intros [H | H]; auto]. Qed.
Lemma seed_ext d : In d D -> seed D d -> seed (D ++ [x]) d.
Proof.
  intros I (A & B). split.
  - intros e b E P L H. apply in_ext in E. destruct E as [E | E].
    + rewrite !part_old in P by easy. rewrite !pos_old in L by easy. destruct (A e b E P L H) as (U & V). split; [apply in_ext; now left |]. now rewrite !pos_old.
    + subst e. rewrite pos_snoc, pos_old in L by easy. pose proof (pos_le D d). lia.
  - intros c C [H | H]; apply B; try easy.
    + left. intros J. apply H. apply in_ext. now left.
    + destruct (in_dec Nat.eq_dec c D) as [J | J]; [right; rewrite !pos_old in H by easy; easy | now left].
Qed.
Lemma child_ext d : In d D -> child D d -> child (D ++ [x]) d.
Proof.
  intros I (e & E & A & L & P). exists e. split; [apply in_ext; now left |]. split; [easy |]. rewrite !pos_old, !part_old by easy. split; [easy |].
  destruct P as [P | (P & Q)]; [now left | right; split; [easy |]]. now apply seed_ext.
Qed.
Lemma good_ext : good D -> x < N -> seed (D ++ [x]) x \/ child (D ++ [x]) x ->
  (forall c e, In c D -> In e D -> pos D e < pos D c -> part D e = S (length D) / K -> In x (adj e) ->
    (exists e', In e' D /\ In c (adj e') /\ pos D e' < pos D e /\ S (length D) / K * K <= S (pos D e')) \/ In c (adj e) /\ ord c <= ord x) ->
  good (D ++ [x]).
Proof.
  intros [G1 G2 G3 G4] XN KX LX.
  assert (PX : part (D ++ [x]) x = S (length D) / K) by (unfold part; now rewrite pos_snoc).
  split.
  - apply Permutation_NoDup with (x :: D); [apply Permutation_cons_append | now constructor].
  - intros c H. apply in_ext in H. destruct H as [H | ->]; auto.
  - intros d H. apply in_ext in H. destruct H as [H | ->]; [| easy]. destruct (G3 d H) as [S | C]; [left; now apply seed_ext | right; now apply child_ext].
  - intros c d e C E F L1 L2 P A. apply in_ext in C, E, F.
    assert (CD : In c D). { destruct C as [C | ->]; [easy |]. rewrite pos_snoc in L2 by easy. pose proof (pos_le (D ++ [x]) d) as J. rewrite app_length in J. cbn [length] in J. lia. }
    assert (ED : In e D). { destruct F as [F | ->]; [easy |]. rewrite pos_snoc in L1 by easy. rewrite pos_old in L1 by easy. pose proof (pos_le D c). lia. }
    destruct E as [E | ->].
    + rewrite !pos_old in L1, L2 by easy. rewrite !part_old in P by easy. destruct (G4 c d e CD E ED L1 L2 P A) as [(e' & U1 & U2 & U3 & U4) | U]; [left | now right].
      exists e'. rewrite !pos_old, part_old by easy. split; [apply in_ext; now left | auto].
    + rewrite !pos_old in L1 by easy. rewrite part_old, PX in P by easy. destruct (LX c e CD ED L1 P A) as [(e' & U1 & U2 & U3 & U4) | U]; [left | now right].
      exists e'. rewrite PX, !pos_old by easy. split; [apply in_ext; now left | auto].
Qed.
End Extend.

(** * The state follows the list *)
Definition rep (D : list nat) (s : state) : Prop := index s = map (pos D) (seq 0 N) /\ visited s = S (length D).
Lemma rep_nth D s c : rep D s -> c < N -> nth c (index s) 0 = pos D c.
Proof.
  intros (R & _) C. rewrite R, (nth_indep _ 0 (pos D 0)) by (rewrite map_length, seq_length; easy).
  now rewrite map_nth, seq_nth.
Qed.
Lemma rep_zero D s c : rep D s -> c < N -> ((nth c (index s) 0 =? 0) = true <-> ~ In c D).
Proof. intros R C. rewrite (rep_nth D s c R C), Nat.eqb_eq, pos_in. lia. Qed.
Lemma rep_number D s c : rep D s -> c < N -> ~ In c D -> rep (D ++ [c]) (number c s).
Proof.
  intros (R & V) C X. split; cbn [number index visited]; [| rewrite app_length, V; cbn [length]; lia].
  rewrite R, V. unfold put. rewrite firstn_map, skipn_map.
  assert (E : seq 0 N = seq 0 c ++ c :: seq (S c) (N - S c)).
  { replace N with (c + S (N - S c)) at 1 by lia. rewrite seq_app. reflexivity. }
  rewrite E at 3. rewrite map_app. cbn [map]. rewrite pos_snoc by easy. f_equal; [| f_equal].
  - replace (firstn c (seq 0 N)) with (seq 0 c); [apply map_ext_in; intros a A; apply in_seq in A; symmetry; apply pos_snoc_other; lia |].
    rewrite E, firstn_app, seq_length, Nat.sub_diag. cbn [firstn]. rewrite app_nil_r. symmetry. apply firstn_all2. rewrite seq_length. lia.
  - replace (skipn (S c) (seq 0 N)) with (seq (S c) (N - S c)); [apply map_ext_in; intros a A; apply in_seq in A; symmetry; apply pos_snoc_other; lia |].
    rewrite E, skipn_app, seq_length, skipn_all2 by (rewrite seq_length; lia). now replace (S c - c) with 1 by lia.
Qed.

(** * Spreading *)
Definition exhausted (D A : list nat) : Prop := forall e b, In e A -> part D e = S (length D) / K -> In b (adj e) -> In b D.
Lemma next_part k : S k mod K <> 0 -> S k / K = k / K.
Proof.
  intros H. pose proof K_pos. pose proof (Nat.div_mod k K). pose proof (Nat.mod_upper_bound k K). pose proof (Nat.div_mod (S k) K). pose proof (Nat.mod_upper_bound (S k) K). nia.
Qed.
Lemma first_part k a : S k mod K = 0 -> a <= k -> a / K <> S k / K.
Proof.
  intros H L E. pose proof K_pos. pose proof (Nat.div_mod a K). pose proof (Nat.mod_upper_bound a K). pose proof (Nat.div_mod (S k) K). nia.
Qed.
Lemma exhausted_ext D A x : ~ In x D -> (forall e, In e A -> In e D) -> exhausted D A -> S (S (length D)) mod K <> 0 -> exhausted (D ++ [x]) A.
Proof.
  intros X I H M e b E P B. rewrite app_length in P. cbn [length] in P. rewrite Nat.add_1_r, next_part in P by easy. rewrite part_old in P by auto.
  apply in_ext. left. now apply (H e b).
Qed.
Lemma exhausted_reset D A : S (length D) mod K = 0 -> exhausted D A.
Proof. intros M e b _ P _. exfalso. unfold part in P. apply (first_part (length D) (pos D e)) in P; [easy | easy | apply pos_le]. Qed.

(** A cell of the queue was reached from a cell that has left it. *)
Definition reached (D A : list nat) (s0 c : nat) : Prop := exists e, In e A /\ In c (adj e) /\ pos D s0 <= pos D e.
(** The cells [A] have left the queue, the cells [q] are in it. *)
Record during (D A q : list nat) (s0 : nat) : Prop := {
  d_app : D = A ++ q;
  d_seed : In s0 D /\ seed D s0;
  d_cur : S (length D) / K * K <= S (pos D s0);
  d_exh : exhausted D A;
  d_q : q = [s0] \/ In s0 A /\ forall c, In c q -> reached D A s0 c /\ pos D s0 <= pos D c
}.

Lemma sorted_before L1 d L2 c : StronglySorted (fun a b => ord a <= ord b) (L1 ++ d :: L2) -> In c L1 -> ord c <= ord d.
Proof.
  induction L1 as [| a L1 IH]; intros S I; [destruct I |]. cbn [app] in S. inversion S as [| ? ? S1 S2]; subst. destruct I as [-> | I]; [| now apply IH].
  rewrite Forall_forall in S2. apply S2. apply in_or_app. right. now left.
Qed.

(** Cells before [x] are exhausted, [x] as far as [L1]. *)
Record visiting (D A q : list nat) (s0 x : nat) (L1 : list nat) : Prop := {
  v_app : D = (A ++ [x]) ++ q;
  v_seed : In s0 (A ++ [x]) /\ seed D s0;
  v_cur : S (length D) / K * K <= S (pos D s0);
  v_exh : exhausted D A;
  v_L1 : forall b, In b L1 -> In b D;
  v_q : forall c, In c q -> reached D A s0 c \/ In c L1 /\ In c (adj x)
}.
Lemma pos_mid A x q : NoDup ((A ++ [x]) ++ q) -> pos ((A ++ [x]) ++ q) x = S (length A).
Proof.
  intros H. rewrite pos_app_l by (apply in_or_app; right; now left). apply pos_snoc. intros I. rewrite <- app_assoc in H. cbn [app] in H.
  apply NoDup_remove_2 in H. apply H. apply in_or_app. now left.
Qed.
Lemma pos_before A x q a : In a A -> pos ((A ++ [x]) ++ q) a <= length A.
Proof. intros H. rewrite <- app_assoc, pos_app_l by easy. apply pos_le. Qed.
Lemma pos_after A x q c : NoDup ((A ++ [x]) ++ q) -> In c q -> S (length A) < pos ((A ++ [x]) ++ q) c.
Proof.
  intros H I. assert (~ In c (A ++ [x])) as J.
  { intros J. apply in_split in J. destruct J as (a & b & E). rewrite E in H. rewrite <- app_assoc in H. cbn [app] in H. apply NoDup_remove_2 in H. apply H. rewrite !in_app_iff. auto. }
  rewrite pos_app_r by easy. apply pos_in in I. rewrite app_length. cbn [length]. lia.
Qed.

Lemma visit_ok L2 : forall D A q s0 x L1 s, good D -> visiting D A q s0 x L1 -> rep D s -> queue s = q -> x < N ->
  StronglySorted (fun a b => ord a <= ord b) (L1 ++ L2) -> (forall b, In b (L1 ++ L2) <-> In b (adj x)) ->
  exists D' q', let s' := visit cells procs L2 s in good D' /\ rep D' s' /\ queue s' = q' /\ (exists r, D' = D ++ r /\ length q' <= length q + length r) /\
    exhausted D' (match q' with [] => D' | _ => A ++ [x] end) /\ (q' <> [] -> during D' (A ++ [x]) q' s0).
Proof.
  induction L2 as [| d L2 IH]; intros D A q s0 x L1 s G V R Q XN SS LX; cbn [visit].
  - exists D, q. cbv zeta. split; [easy |]. split; [easy |]. split; [easy |]. split; [exists []; rewrite app_nil_r; split; [easy | cbn [length]; lia] |].
    rewrite app_nil_r in LX. destruct V as [V1 (V2 & V2') V3 V4 V5 V6].
    assert (EX : exhausted D (A ++ [x])). { intros e b E P B. apply in_app_or in E. destruct E as [E | [<- | []]]; [now apply (V4 e b) | apply V5; now apply LX]. }
    split; [destruct q; [rewrite app_nil_r in V1; now rewrite V1 at 2 | easy] |]. intros NE.
    pose proof (g_nodup D G) as ND.
    split; [easy | split; [rewrite V1; apply in_or_app; now left | easy] | easy | easy |]. right. split; [easy |]. intros c C.
    assert (PX : pos D s0 <= S (length A)). { rewrite V1 in ND |- *. apply in_app_or in V2. destruct V2 as [V2 | [<- | []]]; [pose proof (pos_before A x q s0 V2); lia | rewrite pos_mid; easy]. }
    split; [| rewrite V1 in ND, PX |- *; pose proof (pos_after A x q c ND C); lia].
    destruct (V6 c C) as [(e & E1 & E2 & E3) | (_ & H)]; [exists e; split; [apply in_or_app; now left | easy] |].
    exists x. split; [apply in_or_app; right; now left |]. split; [easy |]. rewrite V1 in ND, PX |- *. now rewrite (pos_mid A x q ND).
  - assert (DX : In d (adj x)) by (apply LX; apply in_or_app; right; now left).
    assert (DN : d < N) by now apply (adj_lt x).
    destruct (nth d (index s) 0 =? 0) eqn:Z.
    + apply (rep_zero D s d R DN) in Z. rename Z into ND'. pose proof (g_nodup D G) as ND. destruct V as [V1 (V2 & V2') V3 V4 V5 V6].
      assert (XD : In x D) by (rewrite V1, !in_app_iff; left; right; now left).
      assert (SD : In s0 D) by (rewrite V1; apply in_or_app; now left).
      assert (PX : pos D x = S (length A)) by (rewrite V1 in ND |- *; now apply pos_mid).
      assert (PS : pos D s0 <= pos D x). { apply in_app_or in V2. destruct V2 as [V2 | [<- | []]]; [| easy]. rewrite PX, V1. pose proof (pos_before A x q s0 V2). lia. }
      pose proof (pos_le D x) as PL. pose proof K_pos as KP.
      assert (G' : good (D ++ [d])).
      { apply good_ext; try easy.
        - right. exists x. split; [apply in_ext; now left |]. split; [easy |]. rewrite pos_snoc, pos_old by easy. split; [lia |].
          rewrite part_old by easy. unfold part at 2. rewrite pos_snoc by easy.
          destruct (le_gt_dec (S (length D) / K * K) (pos D x)) as [L | L].
          + left. unfold part. pose proof (Nat.div_mod (pos D x) K). pose proof (Nat.mod_upper_bound (pos D x) K). pose proof (Nat.div_mod (S (length D)) K). pose proof (Nat.mod_upper_bound (S (length D)) K). nia.
          + right. unfold part. rewrite pos_snoc by easy. assert (E : pos D s0 = pos D x) by lia. apply pos_inj in E; try easy. subst s0. split; [lia |]. now apply seed_ext.
        - intros c e C E L P B.
          assert (EG : pos D x <= pos D e).
          { destruct (le_gt_dec (pos D x) (pos D e)) as [T | T]; [easy |]. exfalso. apply ND'. apply (V4 e d); try easy.
            rewrite V1 in E. apply in_app_or in E. destruct E as [E | E]; [apply in_app_or in E; destruct E as [E | [<- | []]]; [easy | lia] |].
            pose proof ND as ND2. rewrite V1 in ND2. pose proof (pos_after A x q e ND2 E) as T2. rewrite <- V1 in T2. lia. }
          assert (CQ : In c q).
          { rewrite V1 in C. apply in_app_or in C. destruct C as [C | C]; [| easy]. exfalso. apply in_app_or in C. destruct C as [C | [<- | []]]; [| lia].
            pose proof (pos_before A x q c C) as T2. rewrite <- V1 in T2. lia. }
          destruct (V6 c CQ) as [(e' & U1 & U2 & U3) | (U1 & U2)].
          + left. exists e'. assert (In e' D) by (rewrite V1, !in_app_iff; auto). split; [easy |]. split; [easy |].
            pose proof (pos_before A x q e' U1) as T2. rewrite <- V1 in T2. lia.
          + destruct (Nat.eq_dec (pos D e) (pos D x)) as [T | T].
            * apply pos_inj in T; try easy. subst e. right. split; [easy |]. now apply (sorted_before L1 d L2).
            * left. exists x. split; [easy |]. split; [easy |]. lia. }
      assert (R' : rep (D ++ [d]) (number d s)) by now apply rep_number.
      destruct (visited (number d s) mod K =? 0) eqn:M; cbn [number visited] in M; rewrite (proj2 R) in M.
      * apply Nat.eqb_eq in M. exists (D ++ [d]), []. cbv zeta. split; [easy |]. split; [exact R' |]. split; [reflexivity |].
        split; [exists [d]; split; [easy | cbn [length]; lia] |]. split; [| easy]. apply exhausted_reset. rewrite app_length. cbn [length]. now rewrite Nat.add_1_r.
      * apply Nat.eqb_neq in M.
        destruct (IH (D ++ [d]) A (q ++ [d]) s0 x (L1 ++ [d]) (number d s)) as (D' & q' & H1 & H2 & H3 & (r & H4 & H4') & H5); try easy.
        -- split.
           ++ rewrite V1. now rewrite <- !app_assoc.
           ++ split; [easy | now apply seed_ext].
           ++ rewrite app_length. cbn [length]. rewrite Nat.add_1_r, next_part by easy. now rewrite pos_old.
           ++ apply exhausted_ext; try easy. intros e E. rewrite V1, !in_app_iff. auto.
           ++ intros b B. apply in_ext. apply in_ext in B. destruct B as [B | B]; [left; auto | now right].
           ++ intros c C. apply in_ext in C. destruct C as [C | C].
              ** destruct (V6 c C) as [(e' & U1 & U2 & U3) | (U1 & U2)].
                 { left. exists e'. split; [easy |]. split; [easy |]. rewrite !pos_old; [easy | rewrite V1, !in_app_iff; auto | easy]. }
                 { right. split; [apply in_ext; now left | easy]. }
              ** subst c. right. split; [apply in_ext; now right | easy].
        -- cbn [number queue]. now rewrite Q.
        -- now rewrite <- app_assoc.
        -- intros b. rewrite <- app_assoc. apply LX.
        -- exists D', q'. cbv zeta. split; [easy |]. split; [easy |]. split; [easy |]. split; [| easy].
           exists (d :: r). split; [now rewrite H4, <- app_assoc |]. rewrite app_length in H4'. cbn [length] in H4' |- *. lia.
    + assert (DD : In d D). { destruct (in_dec Nat.eq_dec d D) as [J | J]; [easy |]. apply (rep_zero D s d R DN) in J. congruence. }
      apply (IH D A q s0 x (L1 ++ [d])); try easy.
      * destruct V as [V1 V2 V3 V4 V5 V6]. split; try easy.
        -- intros b B. apply in_ext in B. destruct B as [B | ->]; auto.
        -- intros c C. destruct (V6 c C) as [H | (H1 & H2)]; [now left | right; split; [apply in_ext; now left | easy]].
      * now rewrite <- app_assoc.
      * intros b. rewrite <- app_assoc. apply LX.
Qed.

Definition total_left (D : list nat) : nat := N - length D.
Lemma good_len D : good D -> length D <= N.
Proof. intros [G1 G2 _ _]. rewrite <- (seq_length N 0). apply NoDup_incl_length; [easy |]. intros c C. apply in_seq. specialize (G2 c C). lia. Qed.

Lemma spread_ok f : forall D A q s0 s, good D -> (q <> [] -> during D A q s0) -> (q = [] -> exhausted D D) -> rep D s -> queue s = q ->
  total_left D + length q < f ->
  exists D' s', spread cells sort procs f s = Some s' /\ good D' /\ rep D' s' /\ queue s' = [] /\ exhausted D' D' /\ exists r, D' = D ++ r.
Proof.
  induction f as [| f IH]; intros D A q s0 s G W X R Q F; [lia |]. cbn [spread]. rewrite Q. destruct q as [| x q].
  - exists D, s. split; [easy |]. split; [easy |]. split; [easy |]. split; [easy |]. split; [now apply X |]. exists []. now rewrite app_nil_r.
  - specialize (W ltac:(discriminate)). destruct W as [W1 (W2 & W2') W3 W4 W5]. destruct (SORT (adj x)) as (PM & SS).
    assert (XD : In x D) by (rewrite W1; apply in_or_app; right; now left).
    destruct (visit_ok (sort (adj x)) D A q s0 x [] (State (index s) (visited s) q)) as (D' & q' & H1 & H2 & H3 & (r & H4 & H4') & H5 & H6); try easy.
    + split; try easy.
      * rewrite W1. now rewrite <- app_assoc.
      * split; [| easy]. destruct W5 as [W5 | (W5 & _)]; [injection W5 as -> ->; apply in_or_app; right; now left | apply in_or_app; now left].
      * intros c C. destruct W5 as [W5 | (_ & W5)]; [injection W5 as -> ->; destruct C |]. left. apply W5. now right.
    + now apply (g_lt D G).
    + intros b. cbn [app]. split; apply Permutation_in; [easy | now symmetry].
    + destruct (IH D' (A ++ [x]) q' s0 (visit cells procs (sort (adj x)) (State (index s) (visited s) q))) as (D2 & s2 & J1 & J2 & J3 & J4 & J5 & r2 & J6); try easy.
      * intros ->. exact H5.
      * pose proof (good_len D' H1). pose proof (good_len D G). unfold total_left in *. rewrite H4, app_length in *. cbn [length] in F. lia.
      * exists D2, s2. split; [easy |]. split; [easy |]. split; [easy |]. split; [easy |]. split; [easy |]. exists (r ++ r2). now rewrite J6, H4, app_assoc.
Qed.

(** * Selection of the next cell *)
Lemma select_ok D s : rep D s -> match select cells s with
  | None => forall c, c < N -> In c D
  | Some a => a < N /\ ~ In a D /\ forall c, c < N -> ~ In c D -> ord a <= ord c
  end.
Proof.
  intros R. unfold select. destruct (find _ (seq 0 N)) as [a |] eqn:F.
  - assert (A : a < N /\ ~ In a D). { apply find_some in F. destruct F as (I & Z). apply in_seq in I. split; [lia |]. apply (rep_zero D s a R); [lia | easy]. }
    assert (B : forall c, c < a -> In c D).
    { intros c C. destruct (in_dec Nat.eq_dec c D) as [J | J]; [easy |]. exfalso. apply (rep_zero D s c R) in J; [| lia].
      assert (SQ : seq 0 N = seq 0 a ++ seq a (N - a)) by (rewrite <- seq_app; f_equal; lia). rewrite SQ in F.
      assert (G : forall l1 l2, In c l1 -> find (fun c0 => nth c0 (index s) 0 =? 0) (l1 ++ l2) = Some a -> In a l1).
      { induction l1 as [| y l1 IH]; intros l2 Y E; [destruct Y |]. cbn [app find] in E. destruct (nth y (index s) 0 =? 0) eqn:T; [injection E as ->; now left |].
        right. apply (IH l2); [| easy]. destruct Y as [-> | Y]; [congruence | easy]. }
      specialize (G (seq 0 a) (seq a (N - a))). rewrite in_seq in G. specialize (G ltac:(lia) F). apply in_seq in G. lia. }
    assert (G : forall l b, b < N -> ~ In b D -> (forall c, In c l -> c < N) ->
      let r := fold_left (fun b c => if (nth c (index s) 0 =? 0) && (ord c <? ord b) then c else b) l b in
      r < N /\ ~ In r D /\ ord r <= ord b /\ forall c, In c l -> ~ In c D -> ord r <= ord c).
    { induction l as [| y l IH]; intros b B1 B2 L; cbn [fold_left]; [split; [easy |]; split; [easy |]; split; [lia | intros c []] |].
      pose proof (L y (or_introl eq_refl)) as Y. pose proof (fun c C => L c (or_intror C)) as L'.
      destruct ((nth y (index s) 0 =? 0) && (ord y <? ord b)) eqn:T.
      - apply andb_true_iff in T. destruct T as (T1 & T2). apply (rep_zero D s y R Y) in T1. apply Nat.ltb_lt in T2. destruct (IH y Y T1 L') as (H1 & H2 & H3 & H4).
        split; [easy |]. split; [easy |]. split; [lia |]. intros c [-> | C] CD; [easy | now apply H4].
      - destruct (IH b B1 B2 L') as (H1 & H2 & H3 & H4). split; [easy |]. split; [easy |]. split; [easy |]. intros c [-> | C] CD; [| now apply H4].
        apply (rep_zero D s c R Y) in CD. rewrite CD in T. cbn [andb] in T. apply Nat.ltb_ge in T. lia. }
    destruct (G (seq a (N - a)) a (proj1 A) (proj2 A)) as (H1 & H2 & H3 & H4); [intros c C; apply in_seq in C; lia |].
    split; [easy |]. split; [easy |]. intros c C CD. apply H4; [| easy]. apply in_seq. destruct (le_gt_dec a c); [lia |]. exfalso. apply CD. now apply B.
  - intros c C. destruct (in_dec Nat.eq_dec c D) as [J | J]; [easy |]. exfalso. apply (rep_zero D s c R C) in J.
    pose proof (find_none _ _ F c) as T. cbv beta in T. rewrite T in J; [easy |]. apply in_seq. lia.
Qed.

Lemma seed_new D a : good D -> exhausted D D -> a < N -> ~ In a D -> (forall c, c < N -> ~ In c D -> ord a <= ord c) -> good (D ++ [a]) /\ seed (D ++ [a]) a.
Proof.
  intros G X AN AD MN.
  assert (SE : seed (D ++ [a]) a).
  { split.
    - intros e b E P L B. rewrite pos_snoc in L by easy. apply in_ext in E. destruct E as [E | ->]; [| rewrite pos_snoc in L by easy; lia].
      unfold part at 2 in P. rewrite pos_snoc in P by easy. rewrite part_old in P by easy.
      assert (In b D) as BD by now apply (X e b). split; [apply in_ext; now left |]. rewrite pos_snoc, pos_old by easy. pose proof (pos_le D b). lia.
    - intros c C [H | H].
      + apply MN; [easy |]. intros J. apply H. apply in_ext. now left.
      + rewrite pos_snoc in H by easy. destruct (Nat.eq_dec c a) as [-> | NE]; [lia |]. rewrite pos_snoc_other in H by easy. pose proof (pos_le D c). lia. }
  split; [| easy]. apply good_ext; try easy; [now left |]. intros c e C E L P B. exfalso. apply AD. now apply (X e a).
Qed.

Lemma run_ok f : forall D s, good D -> exhausted D D -> rep D s -> queue s = [] -> total_left D < f ->
  exists D' s', run cells sort procs f s = Some s' /\ good D' /\ rep D' s' /\ forall c, c < N -> In c D'.
Proof.
  induction f as [| f IH]; intros D s G X R Q F; [lia |]. cbn [run]. destruct (visited s =? N + 1) eqn:V.
  - apply Nat.eqb_eq in V. rewrite (proj2 R) in V. exists D, s. split; [easy |]. split; [easy |]. split; [easy |]. intros c C.
    assert (I : incl D (seq 0 N)) by (intros y Y; apply in_seq; pose proof (g_lt D G y Y); lia).
    apply (NoDup_length_incl (g_nodup D G)) in I; [| rewrite seq_length; lia]. apply I. apply in_seq. lia.
  - pose proof (select_ok D s R) as S. destruct (select cells s) as [a |]; [| exists D, s; easy]. destruct S as (AN & AD & MN).
    destruct (seed_new D a G X AN AD MN) as (G' & SE). pose proof (rep_number D s a R AN AD) as R'.
    pose proof (good_len (D ++ [a]) G') as LE. rewrite app_length in LE. cbn [length] in LE.
    destruct (spread_ok (S f) (D ++ [a]) D [a] a (number a s)) as (D' & s' & E & H1 & H2 & H3 & H4 & r & H5); try easy.
    + intros _. split; try easy.
      * split; [apply in_ext; now right | easy].
      * rewrite pos_snoc, app_length by easy. cbn [length]. rewrite Nat.add_1_r. pose proof (Nat.div_mod (S (S (length D))) K). pose proof K_pos. lia.
      * destruct (Nat.eq_dec (S (S (length D)) mod K) 0) as [M | M]; [apply exhausted_reset; rewrite app_length; cbn [length]; now rewrite Nat.add_1_r |]. now apply exhausted_ext.
      * now left.
    + cbn [number queue]. now rewrite Q.
    + unfold total_left in *. rewrite app_length. cbn [length]. lia.
    + rewrite E. apply (IH D' s'); try easy. pose proof (good_len D' H1). unfold total_left in *. rewrite H5, !app_length in *. cbn [length] in *. lia.
Qed.
Lemma good_nil : good [].
Proof. split; [constructor | intros c [] | intros d [] | intros c d e []]. Qed.

Lemma numbers_ok f : N < f -> exists D, numbers cells sort procs f = Some (map (pos D) (seq 0 N)) /\ good D /\ (forall c, c < N -> In c D) /\ length D = N.
Proof.
  intros F. destruct (run_ok f [] (State (repeat 0 N) 1 [])) as (D & s & E & G & R & A); try easy.
  - exact good_nil.
  - split; [| reflexivity]. cbn [index]. assert (Z : forall n k, repeat 0 n = map (pos []) (seq k n)); [| apply Z]. induction n as [| n IH]; intros k; [easy |]. cbn [repeat seq map]. f_equal. apply IH.
  - unfold total_left. cbn [length]. lia.
  - exists D. unfold numbers. rewrite E. cbn [option_map]. rewrite (proj1 R). split; [easy |]. split; [easy |]. split; [easy |].
    pose proof (good_len D G). assert (N <= length D); [| lia]. rewrite <- (seq_length N 0) at 1. apply NoDup_incl_length; [apply seq_NoDup |]. intros c C. apply in_seq in C. apply A. lia.
Qed.
End Proofs.
