(** Properties of the partitioner INNER_RCM (C162-C164). *)
From Coq Require Import List Bool Arith Lia Permutation Sorted.
From Verif Require Import Util Rcm_Spec Rcm_Model Rcm_Proofs.
Import ListNotations.

(** std::sort by the number of faces to other cells, equal cells in any order *)
Definition valid_sort (cells : list (list nat)) (sort : list nat -> list nat) : Prop :=
  forall l, Permutation (sort l) l /\ StronglySorted (fun a b => order cells a <= order cells b) (sort l).

Lemma isort_valid cells : valid_sort cells (isort (order cells)).
Proof.
  intros l. set (o := order cells). split.
  - induction l as [| a l IH]; [easy |]. cbn [isort fold_right]. fold (isort o l). transitivity (a :: isort o l); [| now constructor].
    generalize (isort o l) as m. clear. induction m as [| b m IH]; [easy |]. cbn [insert]. destruct (o b <? o a); [| easy]. rewrite IH. apply perm_swap.
  - induction l as [| a l IH]; [constructor |]. cbn [isort fold_right]. fold (isort o l). revert IH. generalize (isort o l) as m. clear.
    assert (I : forall a m b, In b (insert o a m) -> b = a \/ In b m).
    { intros a0. induction m as [| c m IH]; intros b; cbn [insert]; [intros [<- | []]; now left |]. destruct (o c <? o a0); cbn [In].
      - intros [<- | H]; [right; now left |]. destruct (IH b H); [now left | right; now right].
      - intros [<- | H]; [now left | now right]. }
    induction m as [| b m IH]; intros H; cbn [insert]; [repeat constructor |]. inversion H as [| ? ? H1 H2]; subst. destruct (Nat.ltb_spec (o b) (o a)) as [L | L].
    + constructor; [now apply IH |]. apply Forall_forall. intros c C. apply I in C. destruct C as [-> | C]; [lia |]. rewrite Forall_forall in H2. now apply H2.
    + constructor; [easy |]. constructor; [easy |]. rewrite Forall_forall in H2 |- *. intros c C. specialize (H2 c C). lia.
Qed.
Lemma neighbours_sym cells a b : neighbours cells a b -> neighbours cells b a.
Proof. intros (A & B & C & f & D & E). split; [easy |]. split; [easy |]. split; [auto |]. now exists f. Qed.
Lemma nth_pos D n c : c < n -> nth c (map (pos D) (seq 0 n)) 0 = pos D c.
Proof. intros H. rewrite (nth_indep _ 0 (pos D 0)) by (rewrite map_length, seq_length; easy). now rewrite map_nth, seq_nth. Qed.

Lemma seed_starts cells procs D d : (forall c, c < ncells cells -> In c D) -> d < ncells cells -> seed cells procs D d ->
  starts cells (order cells) (fun c => nth c (map (pos D) (seq 0 (ncells cells))) 0) (chunk cells procs) d.
Proof.
  intros A DN (S1 & S2). split.
  - intros e b H. assert (EN := proj1 H). assert (BN := proj1 (proj2 H)). fold (ncells cells) in EN, BN. rewrite !nth_pos by easy. intros P L. apply around_iff in H; [| easy].
    now apply (S1 e b (A e EN)).
  - intros c C. fold (ncells cells) in C. rewrite !nth_pos by easy. intros L. apply S2; auto.
Qed.

(** * C162: numbers and parts *)

Theorem C162_numbers cells sort procs f : valid_sort cells sort -> length cells < f ->
  exists idx, numbers cells sort procs f = Some idx /\ length idx = length cells /\ numbering (length cells) (fun c => nth c idx 0).
Proof.
  intros VS F. destruct (numbers_ok cells sort procs VS f F) as (D & E & G & A & L). exists (map (pos D) (seq 0 (ncells cells))). split; [easy |]. fold (ncells cells).
  split; [now rewrite map_length, seq_length |]. split.
  - intros c C. rewrite nth_pos by easy. pose proof (pos_le D c). pose proof (proj1 (pos_in D c) (A c C)). lia.
  - intros c d C DD. rewrite !nth_pos by easy. apply pos_inj; auto.
Qed.

Lemma count_part K k n : 0 < K -> length (filter (fun i => i / K =? k) (seq 1 n)) = min (S n) ((k + 1) * K) - max 1 (k * K).
Proof.
  intros KP. induction n as [| n IH]; [cbn [seq filter length]; nia |]. rewrite seq_S, filter_app, app_length, IH. cbn [filter Nat.add].
  assert (Q : S n / K = k <-> k * K <= S n < (k + 1) * K).
  { pose proof (Nat.div_mod (S n) K). pose proof (Nat.mod_upper_bound (S n) K). split; [nia |]. intros H1. symmetry. apply (Nat.div_unique (S n) K k (S n - k * K)); nia. }
  destruct (Nat.eqb_spec (S n / K) k) as [E | E]; cbn [length].
  - apply Q in E. lia.
  - assert (~ (k * K <= S n < (k + 1) * K)) as H by tauto. destruct (le_gt_dec (k * K) (S n)); lia.
Qed.
Lemma filter_map_len {A B : Type} (g : A -> B) (p : B -> bool) l : length (filter (fun a => p (g a)) l) = length (filter p (map g l)).
Proof. induction l as [| a l IH]; [easy |]. cbn [filter map]. destruct (p (g a)); cbn [length]; now rewrite IH. Qed.

(** Every cell gets an existing process. Process 0 gets N / procs cells and no process gets
    more than N / procs + 1 cells; the exact numbers are given. *)
Theorem C162_parts cells sort procs f : valid_sort cells sort -> length cells < f -> 0 < procs ->
  exists dest, evaluate cells sort procs f = Some dest /\ length dest = length cells /\
    (forall c, c < length cells -> nth c dest 0 < procs) /\
    (let n := length cells in length (members n (fun c => nth c dest 0) 0) = n / procs /\
      forall k, 0 < k -> length (members n (fun c => nth c dest 0) k) = min (n / procs + 1) (n + 1 - k * (n / procs + 1))).
Proof.
  intros VS F P. destruct (numbers_ok cells sort procs VS f F) as (D & E & G & A & L). unfold evaluate. rewrite E. cbn [option_map].
  exists (map (fun i => i / chunk cells procs) (map (pos D) (seq 0 (ncells cells)))). split; [easy |]. fold (ncells cells). split; [now rewrite !map_length, seq_length |].
  assert (V : forall c, c < ncells cells -> nth c (map (fun i => i / chunk cells procs) (map (pos D) (seq 0 (ncells cells)))) 0 = pos D c / chunk cells procs).
  { intros c C. rewrite (nth_indep _ 0 (0 / chunk cells procs)) by (rewrite !map_length, seq_length; easy). rewrite (map_nth (fun i => i / chunk cells procs)). now rewrite nth_pos. }
  pose proof (K_pos cells procs) as KP.
  assert (NK : ncells cells / procs + 1 = chunk cells procs) by reflexivity.
  assert (LT : ncells cells < procs * chunk cells procs).
  { rewrite <- NK. pose proof (Nat.div_mod (ncells cells) procs). pose proof (Nat.mod_upper_bound (ncells cells) procs). nia. }
  split.
  - intros c C. rewrite V by easy. apply Nat.div_lt_upper_bound; [lia |]. pose proof (pos_le D c). lia.
  - cbv zeta.
    assert (M : forall k, length (members (ncells cells) (fun c => nth c (map (fun i => i / chunk cells procs) (map (pos D) (seq 0 (ncells cells)))) 0) k) =
      min (S (ncells cells)) ((k + 1) * chunk cells procs) - max 1 (k * chunk cells procs)).
    { intros k. rewrite <- count_part by easy. unfold members.
      rewrite (filter_ext_in _ (fun c => (fun i => i / chunk cells procs =? k) (pos D c))) by (intros c C; apply in_seq in C; rewrite V by lia; reflexivity).
      rewrite (filter_map_len (pos D) (fun i => i / chunk cells procs =? k)).
      assert (PM : Permutation (map (pos D) (seq 0 (ncells cells))) (seq 1 (ncells cells))).
      { apply NoDup_Permutation_bis.
        - apply (NoDup_nth _ 0). rewrite map_length, seq_length. intros i j I J. rewrite !nth_pos by easy. apply pos_inj; auto.
        - now rewrite map_length, !seq_length.
        - intros i I. apply in_map_iff in I. destruct I as (c & <- & C). apply in_seq in C. apply in_seq. pose proof (pos_le D c). pose proof (proj1 (pos_in D c) (A c ltac:(lia))). lia. }
      clear -PM. induction PM as [| x l l' _ IH | x y l | l l' l'' _ IH1 _ IH2]; cbn [filter]; try lia.
      - destruct (x / chunk cells procs =? k); cbn [length]; lia.
      - destruct (x / chunk cells procs =? k), (y / chunk cells procs =? k); reflexivity. }
    rewrite NK. split; [rewrite M |].
    + pose proof (Nat.div_le_upper_bound (ncells cells) procs (ncells cells)). nia.
    + intros k KK. rewrite M. nia.
Qed.

(** Which processes are left idle. *)
Theorem C162_idle cells sort procs f k : valid_sort cells sort -> length cells < f -> k < procs ->
  exists dest, evaluate cells sort procs f = Some dest /\
    ((forall c, c < length cells -> nth c dest 0 <> k) <-> (if k =? 0 then length cells < procs else length cells < k * (length cells / procs + 1))).
Proof.
  intros VS F P. destruct (C162_parts cells sort procs f VS F) as (dest & E & L & R & Z & Q); [lia |]. exists dest. split; [easy |].
  transitivity (length (members (length cells) (fun c => nth c dest 0) k) = 0).
  { rewrite length_zero_iff_nil. unfold members. split.
    - intros H. destruct (filter _ _) as [| c r] eqn:W; [easy |]. exfalso. assert (I : In c (c :: r)) by now left. rewrite <- W in I. apply filter_In in I. destruct I as (I & J).
      apply in_seq in I. apply Nat.eqb_eq in J. apply (H c); [lia | easy].
    - intros W c C J. assert (I : In c []) by (rewrite <- W; apply filter_In; split; [apply in_seq; lia | now apply Nat.eqb_eq]). destruct I. }
  destruct (Nat.eqb_spec k 0) as [-> | NE].
  - rewrite Z. rewrite Nat.div_small_iff by lia. easy.
  - rewrite Q by lia. lia.
Qed.

(** With as many cells as processes a process may be left idle. *)
Theorem C162_idle_refuted : exists cells, valid_sort cells (isort (order cells)) /\ length cells = 4 /\ evaluate cells (isort (order cells)) 4 9 = Some [0; 1; 1; 2].
Proof.
  exists [[0]; [0; 1]; [1; 2]; [2]]. split; [apply isort_valid | split; [easy | vm_compute; reflexivity]].
Qed.

(** * C163: pieces of parts *)

(** The order of a cell counts its faces to other cells. *)
Theorem C163_order cells c : c < length cells -> exists l, order cells c = length l /\ (forall x, count_occ Nat.eq_dec l x = count_occ Nat.eq_dec (nth c cells []) x \/ ~ In x l) /\
  forall x, In x l <-> interior cells c x.
Proof.
  intros C. exists (filter (fun x => negb (boundary cells x)) (nth c cells [])). split; [easy |]. split.
  - intros x. destruct (negb (boundary cells x)) eqn:B.
    + left. generalize (nth c cells []) as l. induction l as [| y l IH]; [easy |]. cbn [filter count_occ]. destruct (Nat.eq_dec y x) as [-> | NE].
      * rewrite B. cbn [count_occ]. destruct (Nat.eq_dec x x); [now rewrite IH | easy].
      * destruct (negb (boundary cells y)); cbn [count_occ]; [destruct (Nat.eq_dec y x); [easy | exact IH] | exact IH].
    + right. rewrite filter_In. intros (_ & H). congruence.
  - intros x. rewrite filter_In. unfold interior, boundary. fold (ncells cells).
    assert (CF : forall b, In b (filter (on_face cells x) (seq 0 (ncells cells))) <-> b < ncells cells /\ In x (nth b cells [])) by (intros b; rewrite filter_In, in_seq, on_face_iff; split; intros (H1 & H2); split; (easy || lia)).
    assert (ND : NoDup (filter (on_face cells x) (seq 0 (ncells cells)))) by apply NoDup_filter, seq_NoDup.
    rewrite negb_true_iff, Nat.ltb_ge. split; intros (I & H); (split; [easy |]).
    + destruct (filter (on_face cells x) (seq 0 (ncells cells))) as [| a [| b r]]; cbn [length] in H; [lia | lia |].
      assert (exists d, In d (a :: b :: r) /\ d <> c) as (d & D1 & D2).
      { destruct (Nat.eq_dec a c) as [-> | NE]; [exists b; split; [right; now left |] | exists a; split; [now left | easy]]. inversion ND as [| ? ? N1 N2]; subst. intros ->. apply N1. now left. }
      apply CF in D1. exists d. split; [| easy]. split; [easy |]. split; [easy |]. split; [auto |]. now exists x.
    + destruct H as (b & (_ & B & NE & _) & J). assert (IC : incl [c; b] (filter (on_face cells x) (seq 0 (ncells cells)))) by (intros y [<- | [<- | []]]; apply CF; easy).
      apply NoDup_incl_length in IC; [easy |]. constructor; [intros [-> | []]; easy | constructor; [easy | constructor]].
Qed.

(** Each cell starts a piece of its part or was reached from a neighbour: one of the same
    part, or the last cell of the part before, if that started a piece. *)
Theorem C163_pieces cells sort procs f : valid_sort cells sort -> length cells < f ->
  exists idx, numbers cells sort procs f = Some idx /\ let ix c := nth c idx 0 in let size := length cells / procs + 1 in
    forall d, d < length cells -> starts cells (order cells) ix size d \/ exists e, follows cells (order cells) ix size e d.
Proof.
  intros VS F. destruct (numbers_ok cells sort procs VS f F) as (D & E & G & A & L). exists (map (pos D) (seq 0 (ncells cells))). split; [easy |].
  cbv zeta. change (length cells / procs + 1) with (chunk cells procs). intros d DN. change (d < ncells cells) in DN. destruct (g_kind _ _ D G d (A d DN)) as [H | (e & E1 & E2 & E3 & E4)].
  - left. now apply seed_starts.
  - right. exists e. assert (EN : e < ncells cells) by now apply (g_lt _ _ D G). split; [now apply around_iff |]. rewrite !nth_pos by easy. split; [easy |].
    destruct E4 as [E4 | (E4 & E5)]; [now left | right]. rewrite Nat.add_1_r. split; [easy |]. now apply seed_starts.
Qed.

(** So each cell is connected inside its part to a cell that starts a piece, or that follows
    the last cell of the part before. *)
Theorem C163_joined cells sort procs f : valid_sort cells sort -> length cells < f ->
  exists idx, numbers cells sort procs f = Some idx /\ let ix c := nth c idx 0 in let size := length cells / procs + 1 in
    forall c, c < length cells -> exists d, d < length cells /\ ix d <= ix c /\ joined cells (fun b => ix b / size = ix c / size) d c /\
      (starts cells (order cells) ix size d \/ exists e, follows cells (order cells) ix size e d /\ ix e + 1 = ix d / size * size).
Proof.
  intros VS F. destruct (C163_pieces cells sort procs f VS F) as (idx & E & H). exists idx. split; [easy |]. cbv zeta in H |- *.
  assert (G : forall k c, c < length cells -> nth c idx 0 < k -> exists d, d < length cells /\ nth d idx 0 <= nth c idx 0 /\
    joined cells (fun b => nth b idx 0 / (length cells / procs + 1) = nth c idx 0 / (length cells / procs + 1)) d c /\
    (starts cells (order cells) (fun c => nth c idx 0) (length cells / procs + 1) d \/
     exists e, follows cells (order cells) (fun c => nth c idx 0) (length cells / procs + 1) e d /\ nth e idx 0 + 1 = nth d idx 0 / (length cells / procs + 1) * (length cells / procs + 1))).
  { induction k as [| k IH]; intros c C LT; [lia |]. destruct (H c C) as [J | (e & J)]; [exists c; split; [easy |]; split; [lia |]; split; [now constructor | now left] |].
    pose proof J as (J1 & J2 & [J3 | (J3 & J4)]).
    - destruct (IH e (proj1 J1)) as (d & D1 & D2 & D3 & D4); [lia |]. exists d. split; [easy |]. split; [lia |]. split; [| easy]. rewrite J3 in D3. now apply joined_step with e.
    - exists c. split; [easy |]. split; [lia |]. split; [now constructor |]. right. now exists e. }
  intros c C. apply (G (S (nth c idx 0)) c C). lia.
Qed.

(** A cell alone and a ring of five cells on three processes: the second part is not
    connected, because the queue is not cleared when a starting cell completes a part. *)
Definition ring : list (list nat) := [[100]; [0; 1]; [1; 2]; [2; 3]; [3; 4]; [4; 0]].
Theorem C163_connected_refuted : evaluate ring (isort (order ring)) 3 9 = Some [0; 0; 1; 2; 1; 1] /\
  forall c, neighbours ring 2 c -> ~ In c [4; 5].
Proof.
  split; [vm_compute; reflexivity |]. intros c (_ & _ & _ & x & X1 & X2) [<- | [<- | []]]; cbn in X1, X2; lia.
Qed.

(** * C164: levels *)

(** Of two cells of a part, the one with the smaller number has an earlier neighbour (in its
    part or the last one of the part before), or with the same neighbour no more faces to
    other cells. *)
Theorem C164_levels cells sort procs f : valid_sort cells sort -> length cells < f ->
  exists idx, numbers cells sort procs f = Some idx /\ let ix c := nth c idx 0 in let size := length cells / procs + 1 in
    forall c d e, c < length cells -> ix e < ix c < ix d -> ix e / size = ix d / size -> neighbours cells e d ->
      (exists e', neighbours cells e' c /\ ix e' < ix e /\ ix d / size * size <= ix e' + 1) \/
      neighbours cells e c /\ order cells c <= order cells d.
Proof.
  intros VS F. destruct (numbers_ok cells sort procs VS f F) as (D & E & G & A & L). exists (map (pos D) (seq 0 (ncells cells))). split; [easy |].
  cbv zeta. change (length cells / procs + 1) with (chunk cells procs). intros c d e C L1 P H. pose proof (proj1 H) as EN. pose proof (proj1 (proj2 H)) as DN. fold (ncells cells) in C, EN, DN.
  cbv beta in L1, P |- *. rewrite (nth_pos D _ c C), (nth_pos D _ d DN), (nth_pos D _ e EN) in L1. rewrite (nth_pos D _ d DN), (nth_pos D _ e EN) in P. apply around_iff in H; [| easy].
  destruct (g_level _ _ D G c d e (A c C) (A d DN) (A e EN)) as [(e' & U1 & U2 & U3 & U4) | (U1 & U2)]; try easy; try lia.
  - left. exists e'. assert (E' : e' < ncells cells) by now apply (g_lt _ _ D G). split; [now apply around_iff |]. rewrite !nth_pos by easy. rewrite Nat.add_1_r. easy.
  - right. split; [now apply around_iff | easy].
Qed.

(** For one process, of two cells with earlier neighbours the first one has the earlier first
    neighbour. *)
Theorem C164_one cells sort f : valid_sort cells sort -> length cells < f ->
  exists idx, numbers cells sort 1 f = Some idx /\ let ix c := nth c idx 0 in
    forall c d e, c < length cells -> ix e < ix c < ix d -> neighbours cells e d ->
      exists e', neighbours cells e' c /\ ix e' <= ix e /\ (ix e' = ix e -> order cells c <= order cells d).
Proof.
  intros VS F. destruct (C164_levels cells sort 1 f VS F) as (idx & E & H). destruct (C162_numbers cells sort 1 f VS F) as (idx' & E' & L & NM & _). rewrite E in E'. injection E' as <-.
  exists idx. split; [easy |]. cbv zeta in H |- *. intros c d e C L1 NB.
  assert (Z : forall y, y < length cells -> nth y idx 0 / (length cells / 1 + 1) = 0) by (intros y Y; apply Nat.div_small; rewrite Nat.div_1_r; specialize (NM y Y); lia).
  destruct (H c d e C L1) as [(e' & U1 & U2 & _) | (U1 & U2)]; [rewrite !Z; [easy | apply NB | apply NB] | easy | |].
  - exists e'. split; [easy |]. lia.
  - exists e. split; [easy |]. split; [lia | easy].
Qed.

(** * A concrete mesh: seven cells in a ring on three processes *)
Definition ring7 : list (list nat) := [[10; 0]; [0; 1]; [1; 2]; [2; 3]; [3; 20]; [20; 21]; [21; 10]].
Example C162_nonvacuous : valid_sort ring7 (isort (order ring7)) /\ numbers ring7 (isort (order ring7)) 3 9 = Some [1; 3; 4; 5; 6; 7; 2] /\
  evaluate ring7 (isort (order ring7)) 3 9 = Some [0; 1; 1; 1; 2; 2; 0].
Proof. split; [apply isort_valid | split; vm_compute; reflexivity]. Qed.
Example C163_nonvacuous : numbers ring7 (isort (order ring7)) 3 9 = Some [1; 3; 4; 5; 6; 7; 2] /\ neighbours ring7 1 2 /\ map (order ring) [0; 1] = [0; 2].
Proof. split; [vm_compute; reflexivity |]. split; [| vm_compute; reflexivity]. split; [cbn; lia |]. split; [cbn; lia |]. split; [easy |]. exists 1. cbn. auto. Qed.
(** a cell with three neighbours: those with fewer faces to other cells come first *)
Definition star : list (list nat) := [[0; 1; 2; 3]; [1; 4]; [2]; [3; 5]; [4]; [5; 6]; [6]; [0]].
Example C164_nonvacuous : numbers star (isort (order star)) 1 9 = Some [2; 4; 1; 5; 6; 7; 8; 3].
Proof. vm_compute. reflexivity. Qed.

Print Assumptions C162_numbers.
Print Assumptions C162_parts.
Print Assumptions C162_idle.
Print Assumptions C162_idle_refuted.
Print Assumptions C163_order.
Print Assumptions C163_pieces.
Print Assumptions C163_joined.
Print Assumptions C163_connected_refuted.
Print Assumptions C164_levels.
Print Assumptions C164_one.
