(** C67: messages and receives.  C68: who sends how much. *)
From Coq Require Import List Bool Arith ZArith Lia Permutation Sorted.
From Verif Require Import Util Algo Req_Model Req_Proofs.
Import ListNotations.

(** ** C67 *)

(** The messages of a buffer are at least one, none longer than the limit, and
    carry every byte of the buffer exactly once, in order. *)
Theorem C67_messages_cover_buffer : forall limit size, 0 < limit ->
  let l := messages limit size in
  l <> [] /\ (forall first len, In (first, len) l -> len <= limit) /\
  concat (map (fun m => seq (fst m) (snd m)) l) = seq 0 size.
Proof.
  intros limit size LP. destruct (messages_ok limit LP size) as [A [B [C _]]]. cbv zeta.
  split; [exact A|]. split; [|exact C]. intros f n I. rewrite Forall_forall in B. apply (B _ I).
Qed.

(** A schedule: the completed receives, in any order and any grouping.  A run is
    right when every buffer is unpacked exactly once, and only when every one of
    its messages has arrived.  Message [p] belongs to buffer [k]: *)
Definition belongs (limit : nat) (sizes : list nat) (p k : nat) : Prop :=
  nth_error (concat (map (fun ks => repeat (fst ks) (length (messages limit (snd ks))))
                         (combine (seq 0 (length sizes)) sizes))) p = Some k.
Definition total (limit : nat) (sizes : list nat) : nat :=
  length (concat (map (messages limit) sizes)).
Definition schedule_of (limit : nat) (sizes : list nat) (sched : list (list nat)) : Prop :=
  Forall (fun b => b <> []) sched /\ Permutation (concat sched) (seq 0 (total limit sizes)).
Definition right_run (limit : nat) (sizes : list nat) (run : option (list (list nat * list (list nat)))) : Prop :=
  exists evs, run = Some evs /\
    Permutation (concat (map fst evs)) (seq 0 (length sizes)) /\
    forall done missing k p, In (done, missing) evs -> In k done -> belongs limit sizes p k ->
      ~ In p (concat missing).

Lemma total_small : forall limit sizes, 0 < limit -> Forall (fun s => s <= limit) sizes ->
  total limit sizes = length sizes.
Proof.
  intros limit sizes LP H. unfold total. induction sizes as [|s t IH]; [reflexivity|].
  inversion H as [|? ? Hs Ht]; subst. cbn [map concat]. rewrite app_length, IH by assumption.
  fold (nmsg limit s). now rewrite nmsg_small.
Qed.

Lemma belongs_small : forall limit sizes p k, 0 < limit -> Forall (fun s => s <= limit) sizes ->
  belongs limit sizes p k -> p = k.
Proof.
  intros limit sizes p k LP H. unfold belongs.
  assert (G : forall l m, Forall (fun s => s <= limit) l ->
    concat (map (fun ks => repeat (fst ks) (length (messages limit (snd ks)))) (combine (seq m (length l)) l))
    = seq m (length l)).
  { induction l as [|s t IH]; intros m Hl; [reflexivity|]. inversion Hl as [|? ? Hs Ht]; subst.
    cbn [length seq combine map concat fst snd]. fold (nmsg limit s). rewrite nmsg_small by assumption.
    cbn [repeat app]. f_equal. apply IH. exact Ht. }
  rewrite G by assumption. intros E.
  assert (L : p < length sizes) by (rewrite <- (seq_length (length sizes) 0); apply nth_error_Some; congruence).
  rewrite (nth_error_nth' _ 0) in E by (rewrite seq_length; exact L). rewrite seq_nth in E by exact L.
  cbn in E. congruence.
Qed.

(** When no buffer is longer than one message, every schedule gives a right run. *)
Theorem C67_each_buffer_unpacked_once : forall limit sizes sched, 0 < limit ->
  (Z.of_nat (length sizes) < 2 ^ 32)%Z -> Forall (fun s => s <= limit) sizes ->
  schedule_of limit sizes sched ->
  right_run limit sizes (receive limit sizes sched).
Proof.
  intros limit sizes sched LP Hn Hs [Hb P]. rewrite total_small in P by assumption.
  exists (tails sched). split; [apply receive_single; assumption|]. split; [now rewrite tails_fst|].
  intros done missing k p I Ik B. apply belongs_small in B; try assumption. subst p.
  apply tails_in in I. cbn [fst snd] in I. destruct I as [pre E].
  assert (ND : NoDup (concat sched)) by (eapply Permutation_NoDup; [apply Permutation_sym; exact P|apply seq_NoDup]).
  rewrite E, concat_app in ND. cbn [concat] in ND. intros J.
  assert (ND2 : NoDup (done ++ concat missing)).
  { clear - ND. induction (concat pre) as [|y l IHl]; [exact ND|]. inversion ND; subst. auto. }
  clear ND. rename ND2 into ND. clear - ND Ik J. induction done as [|d ds IH]; [destruct Ik|].
  cbn in ND. inversion ND as [|? ? N ND']; subst. destruct Ik as [->|Ik]; [|auto].
  apply N. rewrite in_app_iff. now right.
Qed.

(** It does not hold without that restriction: as soon as one buffer needs two
    messages, no schedule at all gives a right run; either the counters are
    written out of range, or some such buffer is never unpacked. *)
Theorem C67_long_buffer_never_unpacked_refuted : forall limit sizes sched, 0 < limit ->
  Forall (fun s => Z.of_nat s / Z.of_nat limit < 2 ^ 32 - 1)%Z sizes ->
  (exists s, In s sizes /\ limit < s) -> schedule_of limit sizes sched ->
  ~ right_run limit sizes (receive limit sizes sched) /\
  (receive limit sizes sched = None \/
   exists evs k s, receive limit sizes sched = Some evs /\ nth_error sizes k = Some s /\ limit < s /\
                   ~ In k (concat (map fst evs))).
Proof.
  intros limit sizes sched LP B E [Hb P].
  assert (ND : NoDup (concat sched)) by (eapply Permutation_NoDup; [apply Permutation_sym; exact P|apply seq_NoDup]).
  assert (B' : Forall (fun s => Z.of_nat (nmsg limit s) < 2 ^ 32)%Z sizes).
  { eapply Forall_impl; [|exact B]. cbv beta. intros s Hs. unfold nmsg.
    destruct (messages_ok limit LP s) as [_ [_ [_ [_ [_ G]]]]].
    apply inj_le in G. rewrite Nat2Z.inj_succ, Nat2Z.inj_div in G. lia. }
  pose proof (receive_large limit LP sizes sched E B' ND) as G.
  destruct (receive limit sizes sched) as [evs|] eqn:R.
  - destruct G as [k [s [Ek [Hs N]]]].
    assert (N' : ~ In k (concat (map fst evs))).
    { intros I. apply in_concat in I. destruct I as [x [I1 I2]]. apply in_map_iff in I1.
      destruct I1 as [ev [<- I1]]. exact (N ev I1 I2). }
    split; [|right; exists evs, k, s; auto].
    intros [evs' [Eq [P' _]]]. injection Eq as <-. apply N'.
    eapply Permutation_in; [apply Permutation_sym; exact P'|]. apply in_seq.
    assert (k < length sizes) by (apply nth_error_Some; congruence). lia.
  - split; [|left; reflexivity]. intros [evs' [Eq _]]. discriminate.
Qed.

(** A buffer sized by an upper bound may be posted with more receives than the
    other side sends messages, and then the receiver waits for ever; with equal
    numbers of bytes, or when both fit in one message, the numbers agree. *)
Theorem C67_receives_match_sends : forall limit sent posted, 0 < limit ->
  (sent = posted \/ sent <= limit /\ posted <= limit ->
   length (messages limit posted) = length (messages limit sent)) /\
  (sent <= limit < posted -> length (messages limit sent) < length (messages limit posted)).
Proof.
  intros limit sent posted LP.
  pose proof (messages_ok limit LP sent) as [_ [_ [_ [A1 _]]]].
  pose proof (messages_ok limit LP posted) as [_ [_ [_ [A2 [B2 _]]]]].
  split.
  - intros [->|[H1 H2]]; [reflexivity|]. now rewrite A1, A2.
  - intros [H1 H2]. rewrite A1 by assumption. specialize (B2 H2). cbv zeta in B2. cbn [length]. lia.
Qed.

(** Two messages of one buffer never carry the same tag. *)
Theorem C67_message_tags_distinct : forall t it it' max_tag a b,
  (32767 <= max_tag)%Z -> (0 <= t)%Z -> (0 <= it < 1000)%Z -> (0 <= it' < 1000)%Z ->
  chunk_tag t it max_tag = Some a -> chunk_tag t it' max_tag = Some b -> a = b -> it = it'.
Proof.
  intros t it it' mx a b HM Ht Hi Hi' Ea Eb <-. unfold chunk_tag in *.
  destruct (t * 1000 + it <=? int_max)%Z; [|discriminate]. destruct (t * 1000 + it' <=? int_max)%Z; [|discriminate].
  injection Ea as Ea. injection Eb as Eb. rewrite <- Ea in Eb. clear Ea a.
  assert (E : ((t * 1000 + it' - (t * 1000 + it)) mod mx = 0)%Z).
  { rewrite Zminus_mod, Eb, Z.sub_diag. apply Z.mod_0_l. lia. }
  apply Z.mod_divide in E; [|lia]. destruct E as [q E]. assert (E2 : (it' - it = q * mx)%Z) by lia. clear - E2 HM Hi Hi'.
  assert (q < 1)%Z by nia. assert (-1 < q)%Z by nia. nia.
Qed.

(** The tag is computed without overflow for up to 1400 processors (first mesh),
    and overflows for 1466 to 40000 processors when tags may be as large as an
    int. *)
Theorem C67_message_tag_range : forall mpisize who rand_num it,
  (0 <= who < mpisize)%Z -> (0 <= rand_num <= 2 ^ 14)%Z -> (0 <= it < 1000)%Z ->
  ((mpisize <= 1400)%Z -> forall max_tag, (32767 <= max_tag <= int_max)%Z ->
    exists t, chunk_tag (base_tag 0 mpisize who rand_num max_tag) it max_tag = Some t /\ (0 <= t < max_tag)%Z) /\
  ((1466 <= mpisize <= 40000)%Z ->
    chunk_tag (base_tag 0 mpisize who rand_num int_max) it int_max = None).
Proof.
  intros P who rn it Hw Hr Hi. unfold base_tag, chunk_tag, int_max.
  assert (PP : (0 <= P * P)%Z) by nia.
  split.
  - intros HP mx Hm. assert (P * P <= 1400 * 1400)%Z by nia.
    set (b := ((((0 + 1) * P * P) mod 2 ^ 64 + (who + P + rn)) mod 2 ^ 64)%Z).
    assert (Hb : (0 <= b <= 1400 * 1400 + 2800 + 16384)%Z).
    { unfold b. rewrite (Z.mod_small ((0 + 1) * P * P)) by lia. rewrite Z.mod_small by lia. lia. }
    assert (Hb' : (0 <= b mod mx <= b)%Z).
    { split; [apply Z.mod_pos_bound; lia|apply Z.mod_le; lia]. }
    destruct (Z.leb_spec (b mod mx * 1000 + it) (2 ^ 31 - 1)) as [_|X].
    + eexists. split; [reflexivity|]. apply Z.mod_pos_bound. lia.
    + exfalso. clear - X Hb Hb' Hi. lia.
  - intros HP. assert (1466 * 1466 <= P * P <= 40000 * 40000)%Z by nia.
    set (b := ((((0 + 1) * P * P) mod 2 ^ 64 + (who + P + rn)) mod 2 ^ 64)%Z).
    assert (Hb : (1466 * 1466 <= b <= 40000 * 40000 + 80000 + 16384)%Z).
    { unfold b. rewrite (Z.mod_small ((0 + 1) * P * P)) by lia. rewrite Z.mod_small by lia. lia. }
    rewrite (Z.mod_small b) by lia.
    destruct (Z.leb_spec (b * 1000 + it) (2 ^ 31 - 1)) as [X|_]; [|reflexivity].
    exfalso. clear - X Hb Hi. lia.
Qed.

(** Three buffers of at most 4 bytes, arriving in the order 2, then 0 and 1. *)
Example C67_nonvacuous : receive 4 [3; 0; 4] [[2]; [0; 1]] = Some [([2], [[0; 1]]); ([0; 1], [])] /\
  schedule_of 4 [3; 0; 4] [[2]; [0; 1]] /\ Forall (fun s => s <= 4) [3; 0; 4] /\
  messages 4 9 = [(0, 4); (4, 4); (8, 1)].
Proof.
  split; [reflexivity|]. split; [|split; [repeat constructor; lia|reflexivity]].
  split; [repeat constructor; discriminate|]. cbn. apply perm_trans with [0; 2; 1]; [apply perm_swap|].
  apply perm_skip, perm_swap.
Qed.
(** A buffer of 5 bytes (two messages) and one of 1 byte: the second buffer is
    unpacked before its message 2 has arrived, the first one never; alone, the
    first one makes the code write out of range. *)
Example C67_long_nonvacuous :
  receive 4 [5; 1] [[1]; [0]; [2]] = Some [([1], [[0]; [2]])] /\ belongs 4 [5; 1] 2 1 /\
  receive 4 [5] [[0]; [1]] = None /\ schedule_of 4 [5; 1] [[1]; [0]; [2]].
Proof.
  split; [reflexivity|]. split; [reflexivity|]. split; [reflexivity|].
  split; [repeat constructor; discriminate|]. cbn. apply perm_swap.
Qed.

(** ** C68 *)

(** Every processor gets exactly one receive buffer for every buffer addressed to
    it, of the right size, grouped by the rank of the sender. *)
Theorem C68_sources_found : forall sends me, exists l,
  prepare_source sends me = Some l /\
  (forall k, map snd (filter (fun r => fst r =? k) l) =
             map snd (filter (fun ds => fst ds =? me) (nth k sends []))) /\
  StronglySorted (fun a b => fst a <= fst b) l.
Proof.
  intros sends me. exists (addressed sends me). split; [apply prepare_source_ok|].
  unfold addressed.
  set (f := fun k => map (fun ds => (k, snd ds)) (filter (fun ds : nat * nat => fst ds =? me) (nth k sends []))).
  assert (Ff : forall (k : nat) a r, In r (f a) -> fst r = a) by (intros k a r I; unfold f in I; apply in_map_iff in I; destruct I as [ds [<- _]]; reflexivity).
  assert (G : forall n m k, map snd (filter (fun r => fst r =? k) (flat_map f (seq m n))) =
     if (m <=? k) && (k <? m + n) then map snd (f k) else []).
  { induction n as [|n IH]; intros m k.
    - cbn [seq flat_map filter map]. replace ((m <=? k) && (k <? m + 0)) with false; [reflexivity|].
      symmetry. apply andb_false_iff. rewrite Nat.leb_gt, Nat.ltb_ge. lia.
    - cbn [seq flat_map]. rewrite filter_app, map_app, IH.
      destruct (Nat.eqb_spec k m) as [->|N].
      + replace ((S m <=? m) && (m <? S m + n)) with false.
        2:{ symmetry. apply andb_false_iff. left. apply Nat.leb_gt. lia. }
        replace ((m <=? m) && (m <? m + S n)) with true.
        2:{ symmetry. apply andb_true_iff. rewrite Nat.leb_le, Nat.ltb_lt. lia. }
        rewrite app_nil_r. f_equal. generalize (Ff m m). induction (f m) as [|r t IHt]; intros Hr; [reflexivity|].
        cbn [filter]. rewrite (Hr r) by now left. rewrite Nat.eqb_refl. f_equal. apply IHt. intros x I. apply Hr. now right.
      + replace (filter (fun r => fst r =? k) (f m)) with (@nil (nat * nat)).
        2:{ symmetry. generalize (Ff m m). induction (f m) as [|r t IHt]; intros Hr; [reflexivity|].
            cbn [filter]. rewrite (Hr r) by now left. destruct (Nat.eqb_spec m k); [congruence|].
            apply IHt. intros x I. apply Hr. now right. }
        cbn [map app]. replace ((S m <=? k) && (k <? S m + n)) with ((m <=? k) && (k <? m + S n)); [reflexivity|].
        apply eq_true_iff_eq. rewrite !andb_true_iff, !Nat.leb_le, !Nat.ltb_lt. lia. }
  split.
  - intros k. rewrite G. cbn [Nat.leb andb Nat.add].
    destruct (Nat.ltb_spec k (length sends)) as [L|L].
    + unfold f. rewrite map_map. reflexivity.
    + rewrite nth_overflow by exact L. reflexivity.
  - generalize 0 at 1. generalize (length sends). induction n as [|n IH]; intros m; [constructor|].
    cbn [seq flat_map]. assert (Hi : forall r, In r (flat_map f (seq (S m) n)) -> m <= fst r).
    { intros r I. apply in_flat_map in I. destruct I as [a [Ia Ir]]. apply in_seq in Ia. rewrite (Ff a a r Ir). lia. }
    specialize (IH (S m)). generalize (Ff m m). induction (f m) as [|r t IHt]; intros Hr; [exact IH|].
    cbn [app]. constructor; [apply IHt; intros x I; apply Hr; now right|].
    apply Forall_forall. intros x I. rewrite (Hr r) by now left. rewrite in_app_iff in I.
    destruct I as [I|I]; [rewrite (Hr x) by (now right); lia|apply Hi; exact I].
Qed.

(** The one-sided variant finds the same buffers when nobody sends two buffers to
    one processor. *)
Theorem C68_window_finds_the_same : forall sends me, Forall (fun l => NoDup (map fst l)) sends ->
  prepare_source sends me = Some (prepare_source_window sends me).
Proof. intros sends me H. rewrite window_source by assumption. apply prepare_source_ok. Qed.

(** For known sources it finds the size that source sends. *)
Theorem C68_window_sizes : forall sends me srcs, Forall (fun l => NoDup (map fst l)) sends ->
  Forall (fun p => p < length sends) srcs ->
  Forall2 (fun p r => match r with
                      | Some s => In (me, s) (nth p sends [])
                      | None => ~ In me (map fst (nth p sends []))
                      end) srcs (prepare_size_window sends me srcs).
Proof.
  intros sends me srcs H Hs. unfold prepare_size_window. cbv zeta.
  induction Hs as [|p t Hp _ IH]; [constructor|]. cbn [map]. constructor; [|exact IH].
  rewrite window_ok by exact Hp.
  assert (ND : NoDup (map fst (nth p sends []))) by (rewrite Forall_forall in H; apply H, nth_In; exact Hp).
  pose proof (entry_filter me _ ND) as E.
  destruct (filter (fun ds : nat * nat => fst ds =? me) (nth p sends [])) as [|ds [|]] eqn:F; [| |destruct E].
  - rewrite E. intros I. apply in_map_iff in I. destruct I as [x [Ex Ix]].
    assert (J : In x (filter (fun ds : nat * nat => fst ds =? me) (nth p sends []))).
    { apply filter_In. split; [exact Ix|]. apply Nat.eqb_eq. exact Ex. }
    rewrite F in J. destruct J.
  - rewrite E.
    assert (J : In ds (filter (fun ds : nat * nat => fst ds =? me) (nth p sends []))) by (rewrite F; now left).
    apply filter_In in J. destruct J as [J1 J2]. apply Nat.eqb_eq in J2. destruct ds as [d s]. cbn in *. congruence.
Qed.

(** With two buffers for one processor the one-sided variant loses one. *)
Theorem C68_window_loses_buffer_refuted : exists sends me,
  prepare_source sends me = Some [(0, 3); (0, 5)] /\ prepare_source_window sends me = [(0, 5)].
Proof. exists [[(1, 3); (1, 5)]; []], 1. split; reflexivity. Qed.

Example C68_nonvacuous :
  let sends := [[(1, 3); (2, 0)]; []; [(0, 7); (1, 5)]] in
  prepare_source sends 1 = Some [(0, 3); (2, 5)] /\ prepare_source sends 2 = Some [(0, 0)] /\
  prepare_source_window sends 2 = [(0, 0)] /\ prepare_size_window sends 0 [1; 2] = [None; Some 7] /\
  Forall (fun l => NoDup (map fst l)) sends.
Proof. cbn. repeat split. repeat constructor; cbn; intuition discriminate. Qed.

Print Assumptions C67_messages_cover_buffer.
Print Assumptions C67_each_buffer_unpacked_once.
Print Assumptions C67_long_buffer_never_unpacked_refuted.
Print Assumptions C67_receives_match_sends.
Print Assumptions C67_message_tags_distinct.
Print Assumptions C67_message_tag_range.
Print Assumptions C68_sources_found.
Print Assumptions C68_window_finds_the_same.
Print Assumptions C68_window_sizes.
Print Assumptions C68_window_loses_buffer_refuted.
