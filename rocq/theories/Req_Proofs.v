(** Proofs about messages, receives and the discovery of sources. *)
From Coq Require Import List Bool Arith ZArith Lia Permutation.
From Verif Require Import Util Algo Req_Model.
Import ListNotations.

Section S.
Variable limit : nat.
Hypothesis LP : 0 < limit.

Lemma split_loop_ok : forall fuel shift D, shift <= D -> D - shift < fuel ->
  let l := split_loop limit fuel shift D in
  l <> [] /\ Forall (fun m => snd m <= limit) l /\
  concat (map (fun m => seq (fst m) (snd m)) l) = seq shift (D - shift) /\
  (D - shift <= limit -> l = [(shift, D - shift)]) /\
  (limit < D - shift -> 2 <= length l) /\
  length l <= S ((D - shift) / limit).
Proof.
  induction fuel as [|f IH]; intros shift D H1 H2; [lia|]. cbn [split_loop].
  set (ch := Nat.min limit (D - shift)).
  assert (Hch : ch = D - shift /\ D - shift <= limit \/ ch = limit /\ limit < D - shift) by (unfold ch; lia).
  destruct (Nat.eqb_spec (shift + ch) D) as [E|E].
  - assert (Es : ch = D - shift) by lia. rewrite Es in *.
    split; [discriminate|]. split; [constructor; [cbn; lia|constructor]|].
    split; [cbn; now rewrite app_nil_r|]. split; [reflexivity|]. split; [lia|]. cbn [length]. apply le_n_S, Nat.le_0_l.
  - assert (Es : ch = limit) by lia. rewrite Es in *.
    destruct (IH (shift + limit) D) as [A [B [C [D1 [E1 F1]]]]]; [lia..|].
    set (l := split_loop limit f (shift + limit) D) in *. cbv zeta.
    split; [discriminate|]. split; [constructor; [cbn; lia|exact B]|]. split.
    { cbn [map concat fst snd]. rewrite C. rewrite <- seq_app. f_equal. lia. }
    split; [lia|]. split; [intros _; destruct l; [congruence|cbn; lia]|].
    cbn [length]. apply le_n_S. etransitivity; [exact F1|].
    replace (D - shift) with (limit + (D - (shift + limit))) by lia.
    replace (limit + (D - (shift + limit))) with (1 * limit + (D - (shift + limit))) by lia.
    rewrite Nat.div_add_l by lia. lia.
Qed.

Lemma messages_ok : forall D,
  let l := messages limit D in
  l <> [] /\ Forall (fun m => snd m <= limit) l /\
  concat (map (fun m => seq (fst m) (snd m)) l) = seq 0 D /\
  (D <= limit -> l = [(0, D)]) /\ (limit < D -> 2 <= length l) /\ length l <= S (D / limit).
Proof.
  intros D. unfold messages. destruct (split_loop_ok (S D) 0 D) as [A [B [C [E [F G]]]]]; [lia..|].
  rewrite Nat.sub_0_r in *. repeat split; assumption.
Qed.

Definition nmsg (s : nat) : nat := length (messages limit s).

(** ** Posted receives *)
Fixpoint sums (a : nat) (l : list nat) : list nat :=
  a :: match l with [] => [] | x :: t => sums (a + x) t end.

Lemma bump_snoc : forall A (f : A -> A) l x d, bump f (l ++ [x]) d = l ++ [f x].
Proof.
  intros A f l x d. unfold bump. rewrite last_last, app_length. cbn [length].
  rewrite lset_app_r by lia. replace (length l + 1 - 1 - length l) with 0 by lia. reflexivity.
Qed.

Lemma post_ones : forall ms B a C c n, (0 <= c)%Z -> (c + Z.of_nat (length ms) < 2 ^ 32)%Z ->
  fold_left post_one ms (Reqs (B ++ [a]) (C ++ [c]) n) =
  Reqs (B ++ [a + length ms]) (C ++ [(c + Z.of_nat (length ms))%Z]) (n + length ms).
Proof.
  induction ms as [|m ms IH]; intros B a C c n H0 H.
  - cbn. now rewrite !Nat.add_0_r, Z.add_0_r.
  - cbn [fold_left length] in *. unfold post_one at 2. cbn [buf cnt nreq]. rewrite !bump_snoc.
    assert (E : ((c + 1) mod 2 ^ 32 = c + 1)%Z) by (apply Z.mod_small; lia). rewrite E.
    rewrite IH by lia. f_equal; [do 2 f_equal; lia|do 2 f_equal; lia|lia].
Qed.

Lemma post_buffers : forall sizes B a C n, Forall (fun s => Z.of_nat (nmsg s) < 2 ^ 32)%Z sizes ->
  fold_left (post_buffer limit) sizes (Reqs (B ++ [a]) C n) =
  Reqs (B ++ sums a (map nmsg sizes)) (C ++ map (fun s => Z.of_nat (nmsg s)) sizes)
       (n + fold_left Nat.add (map nmsg sizes) 0).
Proof.
  induction sizes as [|s t IH]; intros B a C n H.
  - cbn. now rewrite app_nil_r, Nat.add_0_r.
  - inversion H as [|? ? H1 H2]; subst. cbn [fold_left map]. unfold post_buffer at 2. cbn [buf cnt nreq].
    rewrite last_last. rewrite post_ones by (fold (nmsg s); lia). fold (nmsg s). rewrite Z.add_0_l.
    replace ((B ++ [a]) ++ [a + nmsg s]) with ((B ++ [a]) ++ [a + nmsg s]) by reflexivity.
    rewrite IH by assumption. f_equal.
    + cbn [sums]. now rewrite <- app_assoc.
    + now rewrite <- app_assoc.
    + assert (G : forall l x, fold_left Nat.add l x = x + fold_left Nat.add l 0).
      { induction l as [|y l IHl]; intros x; cbn; [lia|]. rewrite (IHl (x + y)), (IHl y). lia. }
      rewrite (G _ (0 + nmsg s)). lia.
Qed.

Lemma post_ok : forall sizes, Forall (fun s => Z.of_nat (nmsg s) < 2 ^ 32)%Z sizes ->
  post limit sizes = Reqs (sums 0 (map nmsg sizes)) (map (fun s => Z.of_nat (nmsg s)) sizes)
                          (fold_left Nat.add (map nmsg sizes) 0).
Proof.
  intros sizes H. unfold post, clear. change [0] with ([] ++ [0]).
  rewrite post_buffers by assumption. reflexivity.
Qed.

Lemma nmsg_small : forall s, s <= limit -> nmsg s = 1.
Proof. intros s H. unfold nmsg. destruct (messages_ok s) as [_ [_ [_ [E _]]]]. now rewrite (E H). Qed.

Lemma sums_len : forall l a, length (sums a l) = S (length l).
Proof. induction l; intros; cbn [sums length]; [reflexivity|]. now rewrite IHl. Qed.

Lemma sums_ge : forall l a i x, nth_error (sums a l) i = Some x -> a <= x.
Proof.
  induction l as [|y t IH]; intros a i x; destruct i; cbn; intros E.
  - injection E as <-. lia.
  - destruct i; discriminate.
  - injection E as <-. lia.
  - apply IH in E. lia.
Qed.

Lemma sums_mono : forall l a i j x y, i <= j ->
  nth_error (sums a l) i = Some x -> nth_error (sums a l) j = Some y -> x <= y.
Proof.
  induction l as [|z t IH]; intros a i j x y H; destruct i, j; cbn; intros E1 E2; try lia.
  - congruence || (injection E1 as <-; injection E2 as <-; lia).
  - destruct j; discriminate.
  - destruct i; discriminate.
  - injection E1 as <-; injection E2 as <-; lia.
  - injection E1 as <-. apply sums_ge in E2. lia.
  - eapply (IH (a + z) i j); [lia|exact E1|exact E2].
Qed.

Lemma sums_parted : forall l a p, parted (fun x => x <? p) (sums a l).
Proof.
  intros l a p i j x y Hij Ex Ey Hy. apply Nat.ltb_lt in Hy. apply Nat.ltb_lt.
  pose proof (sums_mono l a i j x y Hij Ex Ey). lia.
Qed.

(** all messages before number [i] are single *)
Lemma sums_ones : forall i l a, i <= length l -> (forall j, j < i -> nth_error l j = Some 1) ->
  nth_error (sums a l) i = Some (a + i).
Proof.
  induction i as [|i IH]; intros l a Hl H.
  - destruct l; cbn; f_equal; lia.
  - destruct l as [|x t]; [cbn in Hl; lia|]. cbn [sums nth_error].
    assert (x = 1) as -> by (specialize (H 0 ltac:(lia)); cbn in H; congruence).
    rewrite IH.
    + f_equal. lia.
    + cbn in Hl. lia.
    + intros j Hj. exact (H (S j) ltac:(lia)).
Qed.

Lemma lb_ones : forall l p i, (forall j, j < i -> nth_error l j = Some 1) -> i <= length l ->
  lower_bound (fun x => x <? p) (sums 0 l) = i -> p <= i /\ (i <> 0 -> i - 1 < p).
Proof.
  intros l p i H Hl E. destruct (lower_bound_ok (fun x => x <? p) (sums 0 l) (sums_parted l 0 p)) as [_ [A B]].
  rewrite E in *. split.
  - pose proof (sums_ones i l 0 Hl H) as N. cbn in N. specialize (B i i (le_n _) N). apply Nat.ltb_ge in B. lia.
  - intros Ni. assert (N : nth_error (sums 0 l) (i - 1) = Some (i - 1)).
    { rewrite (sums_ones (i - 1) l 0); [reflexivity|lia|]. intros j Hj. apply H. lia. }
    specialize (A (i - 1) (i - 1) ltac:(lia) N). apply Nat.ltb_lt in A. lia.
Qed.

Lemma lb_all_ones : forall n p, p < n ->
  lower_bound (fun x => x <? p) (sums 0 (repeat 1 n)) = p.
Proof.
  intros n p H. set (k := lower_bound (fun x => x <? p) (sums 0 (repeat 1 n))).
  assert (N : forall i, i <= n -> nth_error (sums 0 (repeat 1 n)) i = Some i).
  { intros i Hi. rewrite (sums_ones i (repeat 1 n) 0); [reflexivity|rewrite repeat_length; lia|].
    intros j Hj. rewrite nth_error_repeat by lia. reflexivity. }
  destruct (lower_bound_ok (fun x => x <? p) (sums 0 (repeat 1 n)) (sums_parted _ 0 p)) as [L [A B]].
  fold k in L, A, B. rewrite sums_len, repeat_length in L.
  destruct (Nat.lt_trichotomy k p) as [G|[G|G]]; [|exact G|].
  - specialize (B k k (le_n _) (N k ltac:(lia))). apply Nat.ltb_ge in B. lia.
  - specialize (A p p G (N p ltac:(lia))). apply Nat.ltb_lt in A. lia.
Qed.

(** ** Every buffer fits in one message *)
Fixpoint tails (sched : list (list nat)) : list (list nat * list (list nat)) :=
  match sched with [] => [] | b :: r => (b, r) :: tails r end.

Definition pend (n : nat) (left : list nat) : list Z :=
  map (fun i => if in_dec Nat.eq_dec i left then 1%Z else 0%Z) (seq 0 n).

Lemma fold_add_acc : forall l a, fold_left Z.add l a = (a + fold_left Z.add l 0)%Z.
Proof.
  induction l as [|x t IH]; intros a; cbn; [lia|]. rewrite IH, (IH x). lia.
Qed.

Lemma pend_sum : forall left m n, NoDup left -> (forall i, In i left -> m <= i < m + n) ->
  fold_left Z.add (map (fun i => if in_dec Nat.eq_dec i left then 1%Z else 0%Z) (seq m n)) 0%Z
  = Z.of_nat (length left).
Proof.
  intros left m n. revert left m. induction n as [|n IH]; intros left m ND H.
  - destruct left as [|x t]; [reflexivity|]. specialize (H x (or_introl eq_refl)). lia.
  - cbn [seq map fold_left]. rewrite fold_add_acc.
    destruct (in_dec Nat.eq_dec m left) as [I|I].
    + destruct (in_split _ _ I) as [l1 [l2 E]].
      assert (G := IH (l1 ++ l2) (S m)).
      assert (Eq : map (fun i => if in_dec Nat.eq_dec i left then 1%Z else 0%Z) (seq (S m) n) =
                   map (fun i => if in_dec Nat.eq_dec i (l1 ++ l2) then 1%Z else 0%Z) (seq (S m) n)).
      { apply map_ext_in. intros a Ha. apply in_seq in Ha.
        destruct (in_dec Nat.eq_dec a left) as [X|X], (in_dec Nat.eq_dec a (l1 ++ l2)) as [Y|Y]; auto; exfalso.
        - apply Y. rewrite E in X. rewrite in_app_iff in X. cbn in X. rewrite in_app_iff. intuition lia.
        - apply X. rewrite E. rewrite in_app_iff in *. cbn. tauto. }
      rewrite Eq, G.
      * rewrite E, !app_length. cbn [length]. lia.
      * rewrite E in ND. now apply NoDup_remove_1 in ND.
      * intros i Hi. assert (In i left) by (rewrite E; rewrite in_app_iff in *; cbn; tauto).
        specialize (H i H0). assert (i <> m); [|lia]. intros ->.
        rewrite E in ND. apply NoDup_remove_2 in ND. contradiction.
    + rewrite IH; [lia|exact ND|]. intros i Hi. specialize (H i Hi).
      assert (i <> m) by (intros ->; contradiction). lia.
Qed.

Lemma pend_nth : forall n left i, i < n ->
  nth_error (pend n left) i = Some (if in_dec Nat.eq_dec i left then 1%Z else 0%Z).
Proof.
  intros n left i H. unfold pend. rewrite nth_error_map.
  rewrite (nth_error_nth' _ 0) by (rewrite seq_length; lia). cbn. now rewrite seq_nth by lia.
Qed.

Lemma pend_close : forall n p left, p < n -> ~ In p left ->
  lset (pend n (p :: left)) p 0%Z = pend n left.
Proof.
  intros n p left H N. apply nth_error_ext. intros i. rewrite nth_error_lset.
  assert (Lp : length (pend n (p :: left)) = n) by (unfold pend; now rewrite map_length, seq_length).
  rewrite Lp. destruct (Nat.eqb_spec p i) as [->|Ne].
  - replace (i <? n) with true by (symmetry; apply Nat.ltb_lt; lia). cbn [andb].
    rewrite pend_nth by lia. destruct (in_dec Nat.eq_dec i left); [contradiction|reflexivity].
  - cbn [andb]. destruct (Nat.lt_ge_cases i n) as [L|L].
    + rewrite !pend_nth by lia. f_equal.
      destruct (in_dec Nat.eq_dec i (p :: left)) as [X|X], (in_dec Nat.eq_dec i left) as [Y|Y]; auto; exfalso.
      * destruct X; [congruence|contradiction].
      * apply X. now right.
    + assert (forall l, nth_error (pend n l) i = None) as G.
      { intros l. apply nth_error_None. unfold pend. rewrite map_length, seq_length. lia. }
      now rewrite !G.
Qed.

Lemma close_batch : forall n batch left ret, NoDup (batch ++ left) ->
  (forall i, In i batch -> i < n) ->
  fold_left (close_one (sums 0 (repeat 1 n))) batch (Some (pend n (batch ++ left), ret))
  = Some (pend n left, ret ++ batch).
Proof.
  intros n batch. induction batch as [|p t IH]; intros left ret ND H.
  - cbn. now rewrite app_nil_r.
  - cbn [fold_left app] in *. unfold close_one at 2. rewrite lb_all_ones by (apply H; now left).
    rewrite pend_nth by (apply H; now left).
    destruct (in_dec Nat.eq_dec p (p :: t ++ left)) as [_|X]; [|exfalso; apply X; now left].
    replace ((1 - 1) mod 2 ^ 32)%Z with 0%Z by reflexivity. rewrite Z.eqb_refl.
    inversion ND as [|? ? X Y]; subst.
    rewrite pend_close by (auto; apply H; now left).
    rewrite IH by (auto; intros i Hi; apply H; now right). rewrite <- app_assoc. reflexivity.
Qed.

Lemma drain_single : forall n sched fuel, length sched < fuel -> (Z.of_nat n < 2 ^ 32)%Z ->
  NoDup (concat sched) -> (forall i, In i (concat sched) -> i < n) ->
  Forall (fun b => b <> []) sched ->
  drain fuel (sums 0 (repeat 1 n)) (pend n (concat sched)) sched = Some (tails sched).
Proof.
  intros n sched. induction sched as [|b r IH]; intros fuel Hf Hn ND Hi Hne.
  - destruct fuel; [cbn in Hf; lia|]. cbn [drain finish concat tails].
    assert (E : count (pend n []) = 0%Z).
    { unfold count. unfold pend. rewrite pend_sum; [reflexivity|constructor|intros ? []]. }
    rewrite E. reflexivity.
  - destruct fuel as [|f]; [cbn in Hf; lia|]. cbn [drain finish].
    assert (E : count (pend n (concat (b :: r))) = Z.of_nat (length (concat (b :: r)))).
    { unfold count. unfold pend. rewrite pend_sum; [|exact ND|intros i I; split; [lia|apply Hi; exact I]].
      apply Z.mod_small. split; [lia|].
      assert (length (concat (b :: r)) <= n); [|lia].
      rewrite <- (seq_length n 0). apply NoDup_incl_length; [exact ND|].
      intros i I. apply in_seq. specialize (Hi i I). lia. }
    inversion Hne as [|? ? Hb Hr]; subst.
    rewrite E. destruct (Z.eqb_spec (Z.of_nat (length (concat (b :: r)))) 0) as [Z0|_].
    { exfalso. destruct b; [congruence|]. cbn in Z0. lia. }
    cbn [concat]. rewrite close_batch; [|exact ND|intros i I; apply Hi; cbn; rewrite in_app_iff; tauto].
    cbn [app]. destruct b as [|x b']; [congruence|].
    rewrite IH; [reflexivity|cbn in Hf; lia|exact Hn| | |exact Hr].
    + cbn [concat] in ND. clear - ND. induction (x :: b') as [|y l IHl]; [exact ND|].
      inversion ND; subst. auto.
    + intros i I. apply Hi. cbn [concat]. rewrite in_app_iff. tauto.
Qed.

Lemma map_nmsg_small : forall sizes, Forall (fun s => s <= limit) sizes ->
  map nmsg sizes = repeat 1 (length sizes).
Proof.
  induction sizes as [|s t IH]; intros H; [reflexivity|]. inversion H; subst. cbn [map length repeat].
  rewrite nmsg_small by assumption. f_equal. auto.
Qed.

Lemma pend_all : forall n left, Permutation left (seq 0 n) -> pend n left = repeat 1%Z n.
Proof.
  intros n left P. apply nth_error_ext. intros i. destruct (Nat.lt_ge_cases i n) as [L|L].
  - rewrite pend_nth by lia. rewrite nth_error_repeat by lia.
    destruct (in_dec Nat.eq_dec i left) as [_|X]; [reflexivity|]. exfalso. apply X.
    apply Permutation_sym in P. eapply Permutation_in; [exact P|]. apply in_seq. lia.
  - transitivity (@None Z); [|symmetry]; apply nth_error_None; unfold pend; rewrite ?map_length, ?seq_length, ?repeat_length; lia.
Qed.

Lemma receive_single : forall sizes sched, Forall (fun s => s <= limit) sizes ->
  (Z.of_nat (length sizes) < 2 ^ 32)%Z -> Forall (fun b => b <> []) sched ->
  Permutation (concat sched) (seq 0 (length sizes)) ->
  receive limit sizes sched = Some (tails sched).
Proof.
  intros sizes sched Hs Hn Hb P. unfold receive.
  rewrite post_ok.
  2:{ eapply Forall_impl; [|exact Hs]. cbv beta. intros s Hl. rewrite (nmsg_small s Hl). lia. }
  cbn [buf cnt]. rewrite map_nmsg_small by assumption.
  replace (map (fun s => Z.of_nat (nmsg s)) sizes) with (pend (length sizes) (concat sched)).
  - apply drain_single; auto; [eapply Permutation_NoDup; [apply Permutation_sym; exact P|apply seq_NoDup]|].
    intros i I. pose proof (Permutation_in _ P I) as J. apply in_seq in J. lia.
  - rewrite pend_all by assumption. rewrite <- (map_map nmsg Z.of_nat), map_nmsg_small by assumption.
    clear. induction (length sizes); cbn; congruence.
Qed.

(** ** Some buffer needs several messages *)
Section Large.
Variables (lens : list nat) (i : nat) (L : nat).
Hypothesis Hone : forall j, j < i -> nth_error lens j = Some 1.
Hypothesis Hi : nth_error lens i = Some L.
Hypothesis H2 : 2 <= L.
Hypothesis HL : (Z.of_nat L < 2 ^ 32)%Z.
Let b := sums 0 lens.

Definition Inv (c : list Z) (left : list nat) : Prop :=
  NoDup left /\ exists v, nth_error c i = Some v /\
  (v = Z.of_nat L \/ v = (Z.of_nat L - 1)%Z /\ ~ In i left).

Lemma i_le : i <= length lens.
Proof. assert (i < length lens) by (apply nth_error_Some; congruence). lia. Qed.

Lemma close_large : forall batch left c ret, Inv c (batch ++ left) -> ~ In i ret ->
  match fold_left (close_one b) batch (Some (c, ret)) with
  | None => True
  | Some (c', ret') => Inv c' left /\ ~ In i ret'
  end.
Proof.
  induction batch as [|p t IH]; intros left c ret [ND [v [Ev Hv]]] Hr.
  - cbn. split; [split; [exact ND|exists v; auto]|exact Hr].
  - cbn [fold_left]. unfold close_one at 2. set (k := lower_bound (fun x => x <? p) b).
    destruct (nth_error c k) as [w|] eqn:Ew.
    2:{ assert (G : forall l, fold_left (close_one b) l None = None).
        { induction l; cbn; auto. } now rewrite G. }
    cbn [app] in ND. inversion ND as [|? ? Np ND']; subst.
    apply IH.
    + split; [exact ND'|]. rewrite nth_error_lset.
      destruct (Nat.eqb_spec k i) as [Ek|Ne].
      * assert (Hp : p = i).
        { destruct (lb_ones lens p i Hone i_le Ek) as [A B]. destruct i; lia. }
        rewrite Ek in Ew. replace (i <? length c) with true.
        2:{ symmetry. apply Nat.ltb_lt. apply nth_error_Some. congruence. }
        cbn [andb]. eexists. split; [reflexivity|].
        assert (w = Z.of_nat L).
        { assert (w = v) by congruence. subst w. destruct Hv as [Hv|[_ Hv]]; [exact Hv|].
          exfalso. apply Hv. rewrite Hp. now left. }
        right. split; [rewrite Z.mod_small by lia; lia|]. rewrite <- Hp. exact Np.
      * cbn [andb]. exists v. split; [exact Ev|].
        destruct Hv as [Hv|[Hv Hn]]; [now left|right; split; [exact Hv|]]. intros I. apply Hn. now right.
    + destruct (Z.eqb_spec ((w - 1) mod 2 ^ 32) 0) as [Z0|_]; [|exact Hr].
      rewrite in_app_iff. intros [I|[I|[]]]; [contradiction|].
      assert (w = v) by congruence. subst w.
      assert (1 <= v - 1 < 2 ^ 32)%Z; [|rewrite Z.mod_small in Z0; lia].
      destruct Hv as [Hv|[Hv Hn]]; [lia|]. exfalso. apply Hn.
      destruct (lb_ones lens p i Hone i_le I) as [A B].
      assert (p = i) as <- by (destruct i; lia). now left.
Qed.

Lemma finish_large : forall sched c, Inv c (concat sched) ->
  match finish b c sched with
  | None => True
  | Some (done, c', rest) => ~ In i done /\ Inv c' (concat rest)
  end.
Proof.
  induction sched as [|x r IH]; intros c I; cbn [finish].
  - destruct (count c =? 0)%Z; (split; [intros []|exact I]).
  - destruct (count c =? 0)%Z; [split; [intros []|exact I]|].
    pose proof (close_large x (concat r) c [] I (fun f => f)) as G.
    destruct (fold_left (close_one b) x (Some (c, []))) as [[c' ret]|]; [|exact Logic.I].
    destruct G as [G1 G2]. destruct ret; [apply IH; exact G1|]. split; assumption.
Qed.

Lemma drain_large : forall fuel sched c, Inv c (concat sched) ->
  match drain fuel b c sched with
  | None => True
  | Some evs => forall ev, In ev evs -> ~ In i (fst ev)
  end.
Proof.
  induction fuel as [|f IH]; intros sched c I; cbn [drain]; [intros ev []|].
  pose proof (finish_large sched c I) as G.
  destruct (finish b c sched) as [[[done c'] rest]|]; [|exact Logic.I]. destruct G as [G1 G2].
  destruct done as [|d0 ds]; [intros ev []|]. specialize (IH rest c' G2).
  destruct (drain f b c' rest) as [evs|]; [|exact Logic.I].
  intros ev [<-|H]; [exact G1|exact (IH ev H)].
Qed.
End Large.

Lemma first_large : forall sizes, (exists s, In s sizes /\ limit < s) ->
  exists i s, nth_error sizes i = Some s /\ limit < s /\
              forall j, j < i -> exists t, nth_error sizes j = Some t /\ t <= limit.
Proof.
  induction sizes as [|s t IH]; intros [x [I H]]; [destruct I|].
  destruct (Nat.lt_ge_cases limit s) as [L|L].
  - exists 0, s. split; [reflexivity|]. split; [exact L|]. intros j Hj. lia.
  - destruct I as [->|I]; [lia|]. destruct IH as [i [s' [A [B C]]]]; [eauto|].
    exists (S i), s'. split; [exact A|]. split; [exact B|]. intros [|j] Hj; [exists s; auto|].
    apply C. lia.
Qed.

Lemma receive_large : forall sizes sched, (exists s, In s sizes /\ limit < s) ->
  Forall (fun s => Z.of_nat (nmsg s) < 2 ^ 32)%Z sizes -> NoDup (concat sched) ->
  match receive limit sizes sched with
  | None => True
  | Some evs => exists i s, nth_error sizes i = Some s /\ limit < s /\
                            forall ev, In ev evs -> ~ In i (fst ev)
  end.
Proof.
  intros sizes sched E B ND. destruct (first_large sizes E) as [i [s [Ei [Hs H1]]]].
  unfold receive. rewrite post_ok by assumption. cbn [buf cnt].
  pose proof (drain_large (map nmsg sizes) i (nmsg s)) as G.
  assert (X1 : forall j, j < i -> nth_error (map nmsg sizes) j = Some 1).
  { intros j Hj. destruct (H1 j Hj) as [t [Et Lt]]. rewrite nth_error_map, Et. cbn [option_map]. now rewrite nmsg_small. }
  assert (X2 : nth_error (map nmsg sizes) i = Some (nmsg s)) by (rewrite nth_error_map, Ei; reflexivity).
  assert (X3 : 2 <= nmsg s) by (unfold nmsg; destruct (messages_ok s) as [_ [_ [_ [_ [Q _]]]]]; auto).
  assert (X4 : (Z.of_nat (nmsg s) < 2 ^ 32)%Z).
  { rewrite Forall_forall in B. apply B. eapply nth_error_In; exact Ei. }
  specialize (G X1 X2 X3 X4 (S (length sched)) sched (map (fun s => Z.of_nat (nmsg s)) sizes)).
  assert (I : Inv i (nmsg s) (map (fun s => Z.of_nat (nmsg s)) sizes) (concat sched)).
  { split; [exact ND|]. exists (Z.of_nat (nmsg s)). split; [|now left]. rewrite nth_error_map, Ei. reflexivity. }
  specialize (G I). cbv zeta in G.
  destruct (drain _ _ _ _) as [evs|]; [|exact Logic.I]. exists i, s. auto.
Qed.

Lemma tails_fst : forall sched, concat (map fst (tails sched)) = concat sched.
Proof. induction sched; cbn; congruence. Qed.

Lemma tails_in : forall sched ev, In ev (tails sched) -> exists p, sched = p ++ fst ev :: snd ev.
Proof.
  induction sched as [|b r IH]; intros ev; [intros []|]. intros [<-|H].
  - exists []. reflexivity.
  - destruct (IH ev H) as [p E]. exists (b :: p). cbn. now rewrite <- E.
Qed.
End S.

(** ** Sources *)
Lemma pick_loop_ok : forall l pre post fuel me k, length l < fuel ->
  pick_loop fuel (length pre) (length pre + 2 * length l) me k (pre ++ dest_and_size l ++ post)
  = Some (map (fun ds => (k, snd ds)) (filter (fun ds => fst ds =? me) l)).
Proof.
  induction l as [|[d s] t IH]; intros pre post fuel me k Hf; (destruct fuel as [|f]; [cbn in Hf; lia|]).
  - cbn [pick_loop length]. replace (length pre <? length pre + 2 * 0) with false; [reflexivity|].
    symmetry. apply Nat.ltb_ge. lia.
  - cbn [pick_loop length]. replace (length pre <? length pre + 2 * S (length t)) with true.
    2:{ symmetry. apply Nat.ltb_lt. lia. }
    cbn [dest_and_size app].
    assert (N0 : nth_error (pre ++ d :: s :: dest_and_size t ++ post) (length pre) = Some d)
      by (rewrite nth_error_app2, Nat.sub_diag by lia; reflexivity).
    assert (N1 : nth_error (pre ++ d :: s :: dest_and_size t ++ post) (length pre + 1) = Some s).
    { rewrite nth_error_app2 by lia. replace (length pre + 1 - length pre) with 1 by lia. reflexivity. }
    rewrite N0, N1.
    replace (pre ++ d :: s :: dest_and_size t ++ post) with ((pre ++ [d; s]) ++ dest_and_size t ++ post)
      by (rewrite <- app_assoc; reflexivity).
    replace (length pre + 2) with (length (pre ++ [d; s])) by (rewrite app_length; reflexivity).
    replace (length pre + 2 * S (length t)) with (length (pre ++ [d; s]) + 2 * length t)
      by (rewrite app_length; cbn; lia).
    rewrite IH by (cbn in Hf; lia). cbn [filter fst]. destruct (d =? me); reflexivity.
Qed.

Lemma das_len : forall l, length (dest_and_size l) = 2 * length l.
Proof. induction l as [|[d s] t IH]; [reflexivity|]. cbn. rewrite IH. lia. Qed.

Lemma displs_nth : forall l d k, nth_error (displs_loop d l) k =
  if k <=? length l then Some (d + fold_right Nat.add 0 (firstn k l)) else None.
Proof.
  induction l as [|a t IH]; intros d k; destruct k; cbn [displs_loop nth_error firstn fold_right length Nat.leb].
  - now rewrite Nat.add_0_r.
  - now destruct k.
  - now rewrite Nat.add_0_r.
  - rewrite IH. destruct (k <=? length t); [f_equal; lia|reflexivity].
Qed.

(** what processor [me] is sent, in the order of the senders *)
Definition addressed (sends : list (list (nat * nat))) (me : nat) : list (nat * nat) :=
  flat_map (fun k => map (fun ds => (k, snd ds)) (filter (fun ds => fst ds =? me) (nth k sends [])))
           (seq 0 (length sends)).

Lemma prepare_source_ok : forall sends me, prepare_source sends me = Some (addressed sends me).
Proof.
  intros sends me. unfold prepare_source, addressed.
  set (als := map (fun l => 2 * length l) sends).
  assert (G : forall n k, k + n = length sends ->
    pick_all n k me (displs_loop 0 als) (concat (map dest_and_size sends) ++ [0]) =
    Some (flat_map (fun k => map (fun ds => (k, snd ds)) (filter (fun ds => fst ds =? me) (nth k sends [])))
                   (seq k n))).
  { induction n as [|n IH]; intros k Hk; [reflexivity|]. cbn [pick_all seq flat_map].
    rewrite !displs_nth. unfold als at 1 3. rewrite map_length.
    replace (k <=? length sends) with true by (symmetry; apply Nat.leb_le; lia).
    replace (k + 1 <=? length sends) with true by (symmetry; apply Nat.leb_le; lia).
    rewrite !Nat.add_0_l.
    destruct (nth_error sends k) as [l|] eqn:El; [|apply nth_error_None in El; lia].
    destruct (nth_error_split _ _ El) as [s1 [s2 [Es Hl]]].
    assert (S1 : fold_right Nat.add 0 (firstn k als) = length (concat (map dest_and_size s1))).
    { unfold als. rewrite Es, firstn_map, firstn_app, <- Hl, Nat.sub_diag, firstn_all. cbn [firstn]. rewrite app_nil_r.
      clear. induction s1 as [|x t IH]; [reflexivity|]. cbn [map fold_right concat]. rewrite app_length, das_len, IH. reflexivity. }
    assert (S2 : fold_right Nat.add 0 (firstn (k + 1) als) = length (concat (map dest_and_size s1)) + 2 * length l).
    { unfold als. rewrite Es, firstn_map. replace (k + 1) with (length (s1 ++ [l])) by (rewrite app_length; cbn; lia).
      replace (s1 ++ l :: s2) with ((s1 ++ [l]) ++ s2) by (now rewrite <- app_assoc).
      rewrite firstn_app, Nat.sub_diag, firstn_all. cbn [firstn]. rewrite app_nil_r.
      clear. induction s1 as [|x t IH]; [cbn; lia|].
      cbn [map app fold_right concat]. rewrite app_length, das_len, IH. lia. }
    rewrite S1, S2.
    assert (Er : concat (map dest_and_size sends) ++ [0] =
                 concat (map dest_and_size s1) ++ dest_and_size l ++ (concat (map dest_and_size s2) ++ [0])).
    { rewrite Es, map_app, concat_app. cbn [map concat]. now rewrite !app_assoc. }
    rewrite Er at 1.
    rewrite pick_loop_ok by lia. rewrite IH by lia. rewrite (nth_error_nth _ _ [] El).
    replace (k + 1) with (S k) by lia. reflexivity. }
  apply G. reflexivity.
Qed.

(** ** The window *)
Definition entry (me : nat) (l : list (nat * nat)) : nat :=
  fold_left (fun v ds => if fst ds =? me then snd ds + 1 else v) l 0.

Lemma window_row : forall me k l w i,
  nth i (fold_left (fun w ds => if fst ds =? me then lset w k (snd ds + 1) else w) l w) 0 =
  if (i =? k) && (k <? length w) then fold_left (fun v ds => if fst ds =? me then snd ds + 1 else v) l (nth i w 0)
  else nth i w 0.
Proof.
  intros me k l. induction l as [|[d s] t IH]; intros w i; cbn [fold_left fst snd].
  - destruct ((i =? k) && (k <? length w)); reflexivity.
  - rewrite IH. destruct (d =? me); [|reflexivity]. rewrite lset_length, nth_lset.
    destruct (Nat.eqb_spec i k) as [->|N].
    + rewrite Nat.eqb_refl. destruct (k <? length w); reflexivity.
    + cbn [andb]. destruct (Nat.eqb_spec k i); [congruence|reflexivity].
Qed.

Lemma window_row_len : forall me k l w,
  length (fold_left (fun w ds => if fst ds =? me then lset w k (snd ds + 1) else w) l w) = length w.
Proof.
  intros me k l. induction l as [|[d s] t IH]; intros w; cbn [fold_left fst snd]; [reflexivity|].
  rewrite IH. destruct (d =? me); [apply lset_length|reflexivity].
Qed.

Lemma window_ok : forall sends me i, i < length sends -> nth i (window sends me) 0 = entry me (nth i sends []).
Proof.
  intros sends me i Hi. unfold window.
  assert (G : forall l m w, m + length l <= length w -> (forall j, m <= j -> nth j w 0 = 0) ->
    nth i (fold_left (fun w kl => fold_left (fun w ds => if fst ds =? me then lset w (fst kl) (snd ds + 1) else w)
       (snd kl) w) (combine (seq m (length l)) l) w) 0 =
    if (m <=? i) && (i <? m + length l) then entry me (nth (i - m) l []) else nth i w 0).
  { induction l as [|x t IH]; intros m w Hw Z.
    - cbn [length seq combine fold_left]. replace ((m <=? i) && (i <? m + 0)) with false; [reflexivity|].
      symmetry. apply andb_false_iff. rewrite Nat.leb_gt, Nat.ltb_ge. lia.
    - cbn [length seq combine fold_left fst snd] in *. rewrite IH.
      + rewrite window_row. replace (m <? length w) with true by (symmetry; apply Nat.ltb_lt; lia).
        rewrite andb_true_r.
        destruct (Nat.eqb_spec i m) as [->|N].
        * replace (S m <=? m) with false by (symmetry; apply Nat.leb_gt; lia).
          replace (m <=? m) with true by (symmetry; apply Nat.leb_le; lia).
          replace (m <? m + S (length t)) with true by (symmetry; apply Nat.ltb_lt; lia). cbn [andb].
          rewrite Nat.sub_diag. cbn [nth]. unfold entry. rewrite (Z m) by lia. reflexivity.
        * destruct (Nat.lt_ge_cases i m) as [L|L].
          { replace (S m <=? i) with false by (symmetry; apply Nat.leb_gt; lia).
            replace (m <=? i) with false by (symmetry; apply Nat.leb_gt; lia). reflexivity. }
          replace (S m <=? i) with true by (symmetry; apply Nat.leb_le; lia).
          replace (m <=? i) with true by (symmetry; apply Nat.leb_le; lia). cbn [andb].
          replace (i <? m + S (length t)) with (i <? S m + length t) by (f_equal; lia).
          destruct (i <? S m + length t); [|reflexivity].
          replace (i - m) with (S (i - S m)) by lia. reflexivity.
      + rewrite window_row_len. lia.
      + intros j Hj. rewrite window_row. destruct (Nat.eqb_spec j m); [lia|]. cbn [andb]. apply Z. lia. }
  rewrite G.
  - cbn [Nat.leb andb Nat.add]. replace (i <? length sends) with true by (symmetry; apply Nat.ltb_lt; lia).
    now rewrite Nat.sub_0_r.
  - rewrite repeat_length. lia.
  - intros j _. destruct (Nat.lt_ge_cases j (length sends)); [apply nth_repeat|].
    apply nth_overflow. rewrite repeat_length. lia.
Qed.

Lemma entry_acc : forall me l v, ~ In me (map fst l) ->
  fold_left (fun v ds => if fst ds =? me then snd ds + 1 else v) l v = v.
Proof.
  intros me l. induction l as [|[d s] t IH]; intros v N; [reflexivity|]. cbn in *.
  destruct (Nat.eqb_spec d me); [exfalso; tauto|]. apply IH. tauto.
Qed.

Lemma entry_filter : forall me l, NoDup (map fst l) ->
  match filter (fun ds => fst ds =? me) l with
  | [] => entry me l = 0
  | [ds] => entry me l = S (snd ds)
  | _ => False
  end.
Proof.
  intros me l. induction l as [|[d s] t IH]; intros ND; [reflexivity|].
  cbn in ND. inversion ND as [|? ? N ND']; subst. unfold entry. cbn [filter fst fold_left snd].
  destruct (Nat.eqb_spec d me) as [->|Ne].
  - assert (filter (fun ds : nat * nat => fst ds =? me) t = []) as ->.
    { clear - N. induction t as [|[d' s'] t IH]; [reflexivity|]. cbn in *.
      destruct (Nat.eqb_spec d' me); [exfalso; tauto|]. apply IH. tauto. }
    cbn [snd]. rewrite entry_acc by assumption. lia.
  - apply IH. exact ND'.
Qed.

Lemma window_source : forall sends me, Forall (fun l => NoDup (map fst l)) sends ->
  prepare_source_window sends me = addressed sends me.
Proof.
  intros sends me H. unfold prepare_source_window, addressed. cbv zeta.
  assert (G : forall ks, (forall k, In k ks -> k < length sends) ->
    flat_map (fun ii => if 0 <? nth ii (window sends me) 0 then [(ii, nth ii (window sends me) 0 - 1)] else []) ks =
    flat_map (fun k => map (fun ds => (k, snd ds)) (filter (fun ds => fst ds =? me) (nth k sends []))) ks).
  { induction ks as [|k ks IH]; intros Hk; [reflexivity|]. cbn [flat_map].
    rewrite IH by (intros; apply Hk; now right). f_equal.
    rewrite window_ok by (apply Hk; now left).
    assert (ND : NoDup (map fst (nth k sends []))).
    { rewrite Forall_forall in H. apply H. apply nth_In. apply Hk. now left. }
    pose proof (entry_filter me _ ND) as E.
    destruct (filter (fun ds : nat * nat => fst ds =? me) (nth k sends [])) as [|ds [|]]; [| |destruct E].
    - rewrite E. reflexivity.
    - rewrite E. cbn. now rewrite Nat.sub_0_r. }
  apply G. intros k Hk. apply in_seq in Hk. lia.
Qed.
