(** Proofs about linked_array and chunk_array. *)
From Coq Require Import List Bool Lia Arith.
From Verif Require Import Util Chunk_Model.
Import ListNotations.

(** ** Specification: the calls on an ideal sequence. *)
Section Spec.
Context {A : Type}.
Definition spec_step (l : list A) (o : op A) : option (list A) :=
  match o with
  | OPush x => Some (l ++ [x])
  | OPushOwn i => option_map (fun x => l ++ [x]) (nth_error l i)
  | OPop => match l with [] => None | _ => Some (removelast l) end
  | OResize n e => Some (firstn n l ++ repeat e (n - length l))
  | OClear => Some []
  | OSet k x => if k <? length l then Some (firstn k l ++ x :: skipn (S k) l) else None
  | OErase d => if d <? length l then Some (firstn d l ++ skipn (S d) l) else None
  end.
Fixpoint spec_run (l : list A) (ops : list (op A)) : option (list A) :=
  match ops with
  | [] => Some l
  | o :: r => match spec_step l o with Some l' => spec_run l' r | None => None end
  end.
End Spec.

(** ** linked_array refines a list *)
Section LinkedProofs.
Context {T : Type}.
Variable base : nat.
Variable dflt : T.
Hypothesis base_pos : 0 < base.

Inductive lrep : la T -> list T -> Prop :=
| LLast : forall e ne, length e = base -> ne <= base -> lrep (Node e ne Null) (firstn ne e)
| LCons : forall e next l, length e = base -> lrep next l -> lrep (Node e base next) (e ++ l).

Lemma lrep_new : lrep (la_new base dflt) [].
Proof. unfold la_new. apply (LLast (repeat dflt base) 0); [apply repeat_length|lia]. Qed.

Lemma lrep_clear : forall x l, lrep x l -> lrep (la_clear x) [].
Proof.
  intros x l H. destruct H as [e ne L H|e next l L H]; cbn.
  - apply (LLast e 0); [assumption|lia].
  - apply (LLast e 0); [assumption|lia].
Qed.

Lemma lrep_get : forall x l n, lrep x l -> la_get base x n = nth_error l n.
Proof.
  intros x l n H. revert n. induction H as [e ne L H|e next l L H IH]; intros n; cbn [la_get].
  - rewrite nth_error_firstn_if. natcases; reflexivity.
  - rewrite nth_error_app_if, L. natcases; [reflexivity|]. apply IH.
Qed.

Lemma firstn_lset : forall (e : list T) ne n v, n < ne -> firstn ne (lset e n v) = lset (firstn ne e) n v.
Proof.
  induction e as [|h t IH]; intros [|ne] [|n] v H; cbn; auto; try lia. f_equal. apply IH. lia.
Qed.

Lemma lrep_set : forall x l n v, lrep x l -> n < length l ->
  exists x', la_set base x n v = Some x' /\ lrep x' (lset l n v).
Proof.
  intros x l n v H. revert n. induction H as [e ne L H|e next l L H IH]; intros n Hn; cbn [la_set].
  - rewrite firstn_length in Hn. natcases. eexists. split; [reflexivity|].
    rewrite <- firstn_lset by lia. constructor; [now rewrite lset_length|assumption].
  - rewrite app_length in Hn. natcases.
    + eexists. split; [reflexivity|]. rewrite lset_app_l by lia.
      apply LCons; [now rewrite lset_length|assumption].
    + destruct (IH (n - base)) as (x' & E & R); [lia|]. rewrite E. cbn.
      eexists. split; [reflexivity|]. rewrite lset_app_r by lia. rewrite L. now apply LCons.
Qed.

Lemma fill_from_spec : forall n (e : list T) a c, a + n <= length e ->
  fill_from e a n c = firstn a e ++ repeat c n ++ skipn (a + n) e.
Proof.
  induction n as [|n IH]; intros e a c H; cbn [fill_from repeat app].
  - rewrite Nat.add_0_r, firstn_skipn. reflexivity.
  - rewrite IH by (rewrite lset_length; lia). apply nth_error_ext. intros k.
    rewrite !nth_error_app_if. cbn [nth_error].
    rewrite !nth_error_firstn_if, !nth_error_skipn_eq, !nth_error_repeat_if, !firstn_length, !repeat_length,
      !nth_error_lset, lset_length.
    rewrite !Nat.min_l by lia. cbn [length].
    destruct (k - a) as [|j] eqn:K; cbn [nth_error]; rewrite ?nth_error_app_if, ?nth_error_repeat_if,
      ?nth_error_skipn_eq, ?repeat_length; natcases; auto; f_equal; lia.
Qed.

Lemma lrep_resize : forall fuel x l n c, lrep x l -> n < fuel ->
  exists x', la_resize base dflt fuel x n c = Some x' /\ lrep x' (firstn n l ++ repeat c (n - length l)).
Proof.
  induction fuel as [|f IH]; intros x l n c H Hf; [lia|]. cbn [la_resize].
  destruct H as [e ne L H|e next l L H].
  - rewrite firstn_length, (Nat.min_l ne) by lia. destruct (Nat.leb_spec n base) as [Hn|Hn].
    + eexists. split; [reflexivity|].
      rewrite (firstn_firstn e n ne).
      replace (firstn (Nat.min n ne) e ++ repeat c (n - ne))
        with (firstn n (fill_from e ne (n - ne) c)).
      * constructor; [|assumption]. rewrite fill_from_spec by lia.
        rewrite !app_length, firstn_length, repeat_length, skipn_length. lia.
      * rewrite fill_from_spec by lia. apply nth_error_ext. intros k.
        rewrite nth_error_firstn_if, !nth_error_app_if, !nth_error_firstn_if, !nth_error_repeat_if,
          !nth_error_skipn_eq, !firstn_length, !repeat_length.
        natcases; auto; f_equal; lia.
    + destruct (IH (la_new base dflt) [] (n - base) c lrep_new) as (x' & E & R); [lia|].
      rewrite E. cbn [option_map]. eexists. split; [reflexivity|].
      assert ((if ne <? base then base else ne) = base) as -> by (natcases; reflexivity).
      rewrite firstn_nil in R. cbn [app length] in R. rewrite Nat.sub_0_r in R.
      replace (firstn n (firstn ne e) ++ repeat c (n - ne))
        with ((if ne <? base then fill_from e ne (base - ne) c else e) ++ repeat c (n - base)).
      * apply LCons; [|exact R]. natcases; try assumption. rewrite fill_from_spec by lia.
        rewrite !app_length, firstn_length, repeat_length, skipn_length. lia.
      * rewrite firstn_firstn, Nat.min_r by lia. natcases.
        -- rewrite fill_from_spec by lia. replace (ne + (base - ne)) with (length e) by lia.
           rewrite skipn_all, app_nil_r, <- app_assoc, <- repeat_app. do 2 f_equal. lia.
        -- rewrite firstn_all2 by lia. do 2 f_equal. lia.
  - rewrite app_length, L. destruct (Nat.leb_spec n base) as [Hn|Hn].
    + eexists. split; [reflexivity|]. replace (n - base) with 0 by lia. cbn [fill_from].
      replace (n - (base + length l)) with 0 by lia. cbn [repeat]. rewrite app_nil_r, firstn_app.
      replace (n - length e) with 0 by lia. cbn [firstn]. rewrite app_nil_r. now constructor.
    + rewrite Nat.ltb_irrefl.
      assert (match next with Null => la_new base dflt | _ => next end = next) as ->
        by (destruct H; reflexivity).
      destruct (IH next l (n - base) c H) as (x' & E & R); [lia|].
      rewrite E. cbn [option_map]. eexists. split; [reflexivity|].
      rewrite firstn_app, L, firstn_all2 by lia. rewrite <- app_assoc.
      replace (n - (base + length l)) with (n - base - length l) by lia. now apply LCons.
Qed.
End LinkedProofs.

(** ** Rounding up *)
Definition ceil (b n : nat) : nat := n / b + (if n mod b =? 0 then 0 else 1).
Lemma ceil_spec : forall b n q, 0 < b -> (q < ceil b n <-> q * b < n).
Proof.
  intros b n q Hb. unfold ceil. pose proof (Nat.div_mod n b ltac:(lia)) as D.
  pose proof (Nat.mod_upper_bound n b ltac:(lia)) as M.
  set (d := n / b) in *. set (m := n mod b) in *. clearbody d m. subst n.
  destruct (Nat.eqb_spec m 0) as [->|Hm].
  - rewrite !Nat.add_0_r. rewrite (Nat.mul_comm b d). split; intros H; nia.
  - split; intros H; nia.
Qed.
Lemma ceil_0 : forall b, 0 < b -> ceil b 0 = 0.
Proof.
  intros b Hb. destruct (Nat.eq_dec (ceil b 0) 0) as [E|E]; [exact E|].
  assert (0 < ceil b 0) as H by lia. apply ceil_spec in H; lia.
Qed.
Lemma ceil_mono : forall b m n, 0 < b -> m <= n -> ceil b m <= ceil b n.
Proof.
  intros b m n Hb H. destruct (Nat.le_gt_cases (ceil b m) (ceil b n)) as [|G]; [assumption|].
  apply ceil_spec in G; [|assumption].
  assert (ceil b n * b < n) as X by lia. apply ceil_spec in X; lia.
Qed.
Lemma div_lt_ceil : forall b n k, 0 < b -> k < n -> k / b < ceil b n.
Proof.
  intros b n k Hb H. apply ceil_spec; [assumption|].
  pose proof (Nat.mul_div_le k b ltac:(lia)). nia.
Qed.

(** ** chunk_array *)
Section ChunkProofs.
Context {A : Type}.
Variable bits : nat.
Notation bv := (bval bits).
Notation table := (la (option (@chunk A))).

Lemma bv_pos : 0 < bv.
Proof. unfold bval. pose proof (Nat.pow_nonzero 2 bits). lia. Qed.
Lemma base_pos : 0 < la_base.
Proof. unfold la_base. lia. Qed.
Lemma nchunks_ceil : forall n, nchunks bits n = ceil bv n.
Proof. reflexivity. Qed.
Lemma nfwd_ceil : forall n, nfwd bits n = ceil fwd_val (nchunks bits n).
Proof. reflexivity. Qed.
Lemma nchunks_le : forall n, nchunks bits n <= fwd_size * nfwd bits n.
Proof.
  intros n. rewrite nfwd_ceil. set (c := nchunks bits n).
  destruct (Nat.le_gt_cases c (fwd_size * ceil fwd_val c)) as [|G]; [assumption|].
  assert (ceil fwd_val c * fwd_val < c) as X by (unfold fwd_size, fwd_val in *; lia).
  apply ceil_spec in X; unfold fwd_val in *; lia.
Qed.

Definition has_len (c : table) (n : nat) : Prop :=
  exists C, lrep la_base c C /\ length C = n.

Lemma cget_none : forall c n q, has_len c n -> n <= q -> cget c q = None.
Proof.
  intros c n q (C & R & L) H. unfold cget. rewrite (lrep_get _ base_pos _ _ q R). apply nth_error_None. lia.
Qed.
Lemma cget_some : forall c n q, has_len c n -> q < n -> exists v, cget c q = Some v.
Proof.
  intros c n q (C & R & L) H. unfold cget. rewrite (lrep_get _ base_pos _ _ q R).
  destruct (nth_error C q) eqn:E; [eauto|]. apply nth_error_None in E. lia.
Qed.
Lemma cset_spec : forall c n q v, has_len c n -> q < n ->
  exists c', cset c q v = Some c' /\ has_len c' n /\
  forall i, cget c' i = if i =? q then Some v else cget c i.
Proof.
  intros c n q v (C & R & L) H.
  destruct (lrep_set la_base base_pos c C q v R) as (c' & E & R'); [lia|].
  exists c'. split; [exact E|]. split.
  - exists (lset C q v). split; [exact R'|]. now rewrite lset_length.
  - intros i. unfold cget. rewrite (lrep_get _ base_pos _ _ i R'), (lrep_get _ base_pos _ _ i R), nth_error_lset.
    natcases; auto.
Qed.
Lemma cresize_spec : forall c n m, has_len c n ->
  exists c', cresize c m = Some c' /\ has_len c' m /\
  forall i, cget c' i = if i <? m then if i <? n then cget c i else Some None else None.
Proof.
  intros c n m (C & R & L).
  destruct (lrep_resize la_base None base_pos (S m) c C m None R) as (c' & E & R'); [lia|].
  exists c'. split; [exact E|]. split.
  - eexists. split; [exact R'|]. rewrite app_length, firstn_length, repeat_length. lia.
  - intros i. unfold cget. rewrite (lrep_get _ base_pos _ _ i R'), (lrep_get _ base_pos _ _ i R).
    rewrite nth_error_app_if, nth_error_firstn_if, nth_error_repeat_if, firstn_length. natcases; auto.
Qed.

Lemma free_spec : forall n c N q, has_len c N -> (n = 0 \/ q + n <= N) ->
  (forall i, q <= i < q + n -> exists v, cget c i = Some (Some v)) ->
  exists c', free_chunks c q n = Some c' /\ has_len c' N /\
  forall i, cget c' i = if (q <=? i) && (i <? q + n) then Some None else cget c i.
Proof.
  induction n as [|n IH]; intros c N q H B P; cbn [free_chunks].
  - exists c. repeat split; auto. intros i. natcases; auto.
  - destruct (P q) as (v & E); [lia|]. rewrite E.
    destruct (cset_spec c N q None H) as (c1 & E1 & H1 & G1); [lia|]. rewrite E1.
    destruct (IH c1 N (S q) H1) as (c' & E' & H' & G'); [lia| |].
    + intros i Hi. rewrite G1. natcases. apply P. lia.
    + exists c'. repeat split; auto. intros i. rewrite G', G1. natcases; auto.
Qed.
Lemma new_spec : forall n c N ad q, has_len c N -> (n = 0 \/ q + n <= N) ->
  (forall i, q <= i < q + n -> cget c i = Some None) ->
  exists c', new_chunks bits c ad q n = Some (c', ad + n) /\ has_len c' N /\
  forall i, cget c' i = if (q <=? i) && (i <? q + n)
                        then Some (Some (ad + (i - q), repeat None bv)) else cget c i.
Proof.
  induction n as [|n IH]; intros c N ad q H B P; cbn [new_chunks].
  - exists c. rewrite Nat.add_0_r. repeat split; auto. intros i. natcases; auto.
  - rewrite P by lia.
    destruct (cset_spec c N q (Some (ad, repeat None bv)) H) as (c1 & E1 & H1 & G1); [lia|]. rewrite E1.
    destruct (IH c1 N (S ad) (S q) H1) as (c' & E' & H' & G'); [lia| |].
    + intros i Hi. rewrite G1. natcases. apply P. lia.
    + exists c'. rewrite E'. split; [f_equal; f_equal; lia|]. split; [assumption|].
      intros i. rewrite G', G1. natcases; auto; do 3 f_equal; lia.
Qed.

(** The chunk table for [n] elements. *)
Definition struct (c : table) (n : nat) : Prop :=
  has_len c (fwd_size * nfwd bits n) /\
  (forall q, q < nchunks bits n -> exists ad cells, cget c q = Some (Some (ad, cells)) /\ length cells = bv) /\
  (forall q, nchunks bits n <= q < fwd_size * nfwd bits n -> cget c q = Some None).

Lemma inner_resize_spec : forall a m, struct (chunks a) (m_size a) ->
  exists a', inner_resize bits a m = Some a' /\ struct (chunks a') m /\ m_size a' = m_size a /\
  forall q, q < nchunks bits (m_size a) -> q < nchunks bits m -> cget (chunks a') q = cget (chunks a) q.
Proof.
  intros a m (HL & HA & HN). set (n := m_size a) in *. unfold inner_resize. fold n.
  pose proof (nchunks_le n) as Bn. pose proof (nchunks_le m) as Bm.
  set (oldc := nchunks bits n) in *. set (newc := nchunks bits m) in *.
  destruct (free_spec (oldc - newc) (chunks a) (fwd_size * nfwd bits n) newc HL) as (c1 & E1 & H1 & G1).
  { lia. }
  { intros i Hi. destruct (HA i) as (ad & cells & E & _); [lia|]. eauto. }
  rewrite E1.
  assert (exists c2, (if nfwd bits m =? nfwd bits n then Some c1
      else if 0 <? nfwd bits m then cresize c1 (fwd_size * nfwd bits m) else Some (la_clear c1)) = Some c2 /\
      has_len c2 (fwd_size * nfwd bits m) /\
      forall i, cget c2 i = if i <? fwd_size * nfwd bits m
                            then if i <? fwd_size * nfwd bits n then cget c1 i else Some None else None)
    as (c2 & E2 & H2 & G2).
  { destruct (Nat.eqb_spec (nfwd bits m) (nfwd bits n)) as [Q|Q].
    - exists c1. rewrite Q. repeat split; auto. intros i.
      destruct (Nat.ltb_spec i (fwd_size * nfwd bits n)); [reflexivity|]. eapply cget_none; eauto.
    - destruct (Nat.ltb_spec 0 (nfwd bits m)) as [P|P].
      + apply cresize_spec. exact H1.
      + exists (la_clear c1). split; [reflexivity|].
        destruct H1 as (C & R & L). pose proof (lrep_clear _ base_pos _ _ R) as R0.
        replace (nfwd bits m) with 0 by lia. rewrite Nat.mul_0_r. split.
        * exists []. split; [exact R0|reflexivity].
        * intros i. unfold cget. rewrite (lrep_get _ base_pos _ _ i R0). natcases. apply nth_error_nil_eq. }
  rewrite E2.
  destruct (new_spec (newc - oldc) c2 (fwd_size * nfwd bits m) (next_addr a) oldc H2) as (c3 & E3 & H3 & G3).
  { lia. }
  { intros i Hi. rewrite G2, G1. natcases; auto; apply HN; lia. }
  rewrite E3. eexists. split; [reflexivity|]. cbn [chunks m_size]. split; [|split; [reflexivity|]].
  - split; [assumption|]. split.
    + intros q Hq. fold newc in Hq. rewrite G3. natcases.
      * do 2 eexists. split; [reflexivity|]. apply repeat_length.
      * rewrite G2, G1. natcases. apply HA. lia.
    + intros q Hq. fold newc in Hq. rewrite G3. natcases; rewrite G2, G1; natcases; auto; apply HN; lia.
  - intros q Q1 Q2. rewrite G3. natcases. rewrite G2, G1. natcases. reflexivity.
Qed.

(** The allocation number of chunk [q]. *)
Definition addr_of (c : table) (q : nat) : option nat :=
  match cget c q with Some (Some (ad, _)) => Some ad | _ => None end.

Lemma chunk_of : forall c n k, struct c n -> k < n ->
  exists ad cells, cget c (k / bv) = Some (Some (ad, cells)) /\ length cells = bv.
Proof.
  intros c n k (HL & HA & HN) Hk. apply HA. rewrite nchunks_ceil. apply div_lt_ceil; auto using bv_pos.
Qed.

Lemma wr_spec : forall c n k v, struct c n -> k < n ->
  exists c', wr bits c k v = Some c' /\ struct c' n /\
  (forall j, rd bits c' j = if j =? k then Some v else rd bits c j) /\
  (forall q, addr_of c' q = addr_of c q).
Proof.
  intros c n k v S Hk. destruct (chunk_of c n k S Hk) as (ad & cells & E & L).
  pose proof bv_pos as BP.
  pose proof (Nat.mod_upper_bound k bv ltac:(lia)) as M.
  assert (k / bv < fwd_size * nfwd bits n) as Q.
  { pose proof (div_lt_ceil bv n k BP Hk). pose proof (nchunks_le n). rewrite nchunks_ceil in *. lia. }
  destruct S as (HL & HA & HN).
  destruct (cset_spec c _ (k / bv) (Some (ad, lset cells (k mod bv) v)) HL Q) as (c' & E' & H' & G').
  exists c'. unfold wr. rewrite E. rewrite L, (proj2 (Nat.ltb_lt _ _) M). split; [exact E'|]. split.
  - split; [exact H'|]. split.
    + intros q Hq. rewrite G'. destruct (Nat.eqb_spec q (k / bv)) as [->|].
      * do 2 eexists. split; [reflexivity|]. now rewrite lset_length.
      * now apply HA.
    + intros q Hq. rewrite G'. destruct (Nat.eqb_spec q (k / bv)) as [->|]; [|now apply HN].
      exfalso. pose proof (div_lt_ceil bv n k BP Hk). rewrite nchunks_ceil in Hq. lia.
  - split.
    + intros j. unfold rd. rewrite G'. destruct (Nat.eqb_spec (j / bv) (k / bv)) as [D|D].
      * rewrite D, E. rewrite nth_error_lset, L.
        pose proof (Nat.div_mod j bv ltac:(lia)). pose proof (Nat.div_mod k bv ltac:(lia)).
        destruct (Nat.eqb_spec j k) as [->|NE].
        -- rewrite Nat.eqb_refl, (proj2 (Nat.ltb_lt _ _) M). reflexivity.
        -- destruct (Nat.eqb_spec (k mod bv) (j mod bv)) as [Z|Z]; [|reflexivity].
           exfalso. apply NE. rewrite D in *. congruence.
      * destruct (Nat.eqb_spec j k) as [->|NE]; [congruence|]. reflexivity.
    + intros q. unfold addr_of. rewrite G'. destruct (Nat.eqb_spec q (k / bv)) as [->|]; [|reflexivity].
      now rewrite E.
Qed.

Lemma rd_some : forall c n k, struct c n -> k < n -> exists v, rd bits c k = Some v.
Proof.
  intros c n k S Hk. destruct (chunk_of c n k S Hk) as (ad & cells & E & L). unfold rd. rewrite E.
  pose proof bv_pos. pose proof (Nat.mod_upper_bound k bv ltac:(lia)).
  destruct (nth_error cells (k mod bv)) eqn:X; [eauto|]. apply nth_error_None in X. lia.
Qed.

Definition rep (a : carr A) (l : list A) : Prop :=
  m_size a = length l /\ struct (chunks a) (length l) /\
  forall k, k < length l -> rd bits (chunks a) k = Some (nth_error l k).

(** Elements below [n] keep their place. *)
Definition stable (a a' : carr A) (n : nat) : Prop :=
  forall k, k < n -> address bits a' k = address bits a k.

Lemma struct_0 : struct (la_new la_base None) 0.
Proof.
  assert (nchunks bits 0 = 0) as Z by (rewrite nchunks_ceil; apply ceil_0, bv_pos).
  assert (nfwd bits 0 = 0) as Z2 by (rewrite nfwd_ceil, Z; reflexivity).
  unfold struct. rewrite Z, Z2, Nat.mul_0_r. repeat split.
  - exists []. split; [apply lrep_new, base_pos|reflexivity].
  - intros; lia.
  - intros; lia.
Qed.
Lemma rep_empty : rep empty [].
Proof. split; [reflexivity|]. split; [apply struct_0|]. cbn. intros; lia. Qed.

Lemma resize_keeps : forall a l m, rep a l ->
  exists a', inner_resize bits a m = Some a' /\ struct (chunks a') m /\
  (forall k, k < length l -> k < m -> rd bits (chunks a') k = Some (nth_error l k)) /\
  (forall k, k < length l -> k < m -> addr_of (chunks a') (k / bv) = addr_of (chunks a) (k / bv)).
Proof.
  intros a l m (Sz & S & R). rewrite <- Sz in S.
  destruct (inner_resize_spec a m S) as (a' & E & S' & _ & G). exists a'. split; [exact E|]. split; [exact S'|].
  assert (forall k, k < length l -> k < m -> cget (chunks a') (k / bv) = cget (chunks a) (k / bv)) as K.
  { intros k K1 K2. apply G; rewrite nchunks_ceil; apply div_lt_ceil; auto using bv_pos; lia. }
  split.
  - intros k K1 K2. rewrite <- (R k K1). unfold rd. now rewrite K.
  - intros k K1 K2. unfold addr_of. now rewrite K.
Qed.

Lemma address_addr : forall a k, address bits a k = option_map (fun ad => (ad, k mod bv)) (addr_of (chunks a) (k / bv)).
Proof.
  intros a k. unfold address, addr_of. destruct (cget (chunks a) (k / bv)) as [[[ad cells]|]|]; reflexivity.
Qed.

Ltac stab := let k := fresh "k" in let H := fresh in
  intros k H; rewrite !address_addr; f_equal.

Lemma rep_set : forall a l i x, rep a l -> i < length l ->
  exists a', set bits a i x = Some a' /\ rep a' (firstn i l ++ x :: skipn (S i) l) /\ stable a a' (length l).
Proof.
  intros a l i x (Sz & S & R) Hi. unfold set. rewrite Sz, (proj2 (Nat.ltb_lt _ _) Hi).
  destruct (wr_spec (chunks a) (length l) i (Some x) S Hi) as (c' & E & S' & W & AD). rewrite E. cbn [option_map].
  eexists. split; [reflexivity|].
  assert (length (firstn i l ++ x :: skipn (Datatypes.S i) l) = length l) as LL.
  { rewrite app_length. cbn [length]. rewrite firstn_length, skipn_length. lia. }
  split; [split; [|split]|]; cbn [with_chunks m_size chunks]; rewrite ?LL; auto.
  - intros k Hk. rewrite W, nth_error_app_if, firstn_length, nth_error_firstn_if.
    rewrite Nat.min_l by lia. natcases; auto.
    + subst. rewrite Nat.sub_diag. reflexivity.
    + rewrite R by lia. replace (k - i) with (Datatypes.S (k - Datatypes.S i)) by lia. cbn [nth_error].
      rewrite nth_error_skipn_eq. do 2 f_equal. lia.
  - stab. apply AD.
Qed.

Lemma rep_push : forall a l e x, rep a l ->
  (match e with inl y => y = x | inr i => nth_error l i = Some x end) ->
  exists a', push_back bits a e = Some a' /\ rep a' (l ++ [x]) /\ stable a a' (length l).
Proof.
  intros a l e x H HE. unfold push_back. pose proof H as (Sz & S & R). rewrite Sz.
  destruct (resize_keeps a l (Datatypes.S (length l)) H) as (a1 & E1 & S1 & R1 & A1). rewrite E1.
  assert ((match e with inl x => Some (Some x)
          | inr i => if i <? length l then rd bits (chunks a1) i else None end) = Some (Some x)) as ->.
  { destruct e as [y|i]; [now subst|].
    assert (i < length l) as Hi by (apply nth_error_Some; congruence).
    rewrite (proj2 (Nat.ltb_lt _ _) Hi), R1 by lia. now rewrite HE. }
  destruct (wr_spec (chunks a1) (Datatypes.S (length l)) (length l) (Some x) S1 ltac:(lia)) as (c' & E & S' & W & AD).
  rewrite E. cbn [option_map]. eexists. split; [reflexivity|].
  split; [split; [|split]|]; cbn [with_chunks m_size chunks]; rewrite ?app_length; cbn [length]; rewrite ?Nat.add_1_r; auto.
  - intros k Hk. rewrite W, nth_error_app_if. natcases; auto;
      first [apply R1; lia | subst; rewrite Nat.sub_diag; reflexivity].
  - stab. cbn [chunks]. rewrite AD. apply A1; lia.
Qed.

Lemma rep_pop : forall a l, rep a l -> l <> [] ->
  exists a', pop_back bits a = Some a' /\ rep a' (removelast l) /\ stable a a' (length l - 1).
Proof.
  intros a l H Hne. unfold pop_back. pose proof H as (Sz & S & R). rewrite Sz.
  assert (0 < length l) by (destruct l; [congruence|cbn; lia]). natcases.
  destruct (resize_keeps a l (length l - 1) H) as (a1 & E1 & S1 & R1 & A1). rewrite E1.
  eexists. split; [reflexivity|].
  split; [split; [|split]|]; cbn [with_chunks m_size chunks]; rewrite ?removelast_len; auto.
  - intros k Hk. rewrite nth_error_removelast. natcases. apply R1; lia.
  - stab. cbn [chunks]. apply A1; lia.
Qed.

Lemma fill_spec : forall n c N k e, struct c N -> k + n <= N ->
  exists c', fill_cells bits c k n e = Some c' /\ struct c' N /\
  (forall j, rd bits c' j = if (k <=? j) && (j <? k + n) then Some (Some e) else rd bits c j) /\
  (forall q, addr_of c' q = addr_of c q).
Proof.
  induction n as [|n IH]; intros c N k e S H; cbn [fill_cells].
  - exists c. repeat split; auto; try apply S. intros j. clear; natcases; auto.
  - destruct (wr_spec c N k (Some e) S) as (c1 & E1 & S1 & W1 & A1); [clear - H; lia|]. rewrite E1.
    destruct (IH c1 N (Datatypes.S k) e S1) as (c' & E' & S' & W' & A'); [clear - H; lia|].
    exists c'. split; [exact E'|]. split; [exact S'|]. split.
    + intros j. rewrite W', W1. clear; natcases; auto.
    + intros q. rewrite A', A1. reflexivity.
Qed.

Lemma rep_resize : forall a l n e, rep a l ->
  exists a', resize bits a n e = Some a' /\ rep a' (firstn n l ++ repeat e (n - length l)) /\
             stable a a' (Nat.min (length l) n).
Proof.
  intros a l n e H. unfold resize. pose proof H as (Sz & S & R). rewrite Sz.
  destruct (resize_keeps a l n H) as (a1 & E1 & S1 & R1 & A1). rewrite E1.
  assert (exists c', fill_cells bits (chunks a1) (length l) (n - length l) e = Some c' /\ struct c' n /\
     (forall j, rd bits c' j = if (length l <=? j) && (j <? n) then Some (Some e) else rd bits (chunks a1) j) /\
     (forall q, addr_of c' q = addr_of (chunks a1) q)) as (c' & E & S' & W & AD).
  { destruct (Nat.le_gt_cases (length l) n).
    - destruct (fill_spec (n - length l) (chunks a1) n (length l) e S1) as (c' & E & S' & W & AD); [lia|].
      exists c'. replace (length l + (n - length l)) with n in W by lia. auto.
    - replace (n - length l) with 0 by lia. exists (chunks a1). cbn [fill_cells]. repeat split; auto; try apply S1.
      intros j. natcases; auto. }
  rewrite E. cbn [option_map]. eexists. split; [reflexivity|].
  assert (length (firstn n l ++ repeat e (n - length l)) = n) as LL.
  { rewrite app_length, firstn_length, repeat_length. lia. }
  split; [split; [|split]|]; cbn [with_chunks m_size chunks]; rewrite ?LL; auto.
  - intros k Hk. rewrite W, nth_error_app_if, nth_error_firstn_if, nth_error_repeat_if, firstn_length.
    natcases; auto; apply R1; lia.
  - stab. cbn [chunks]. rewrite AD. apply A1; lia.
Qed.

Lemma rep_clear : forall a l, rep a l ->
  exists a', clear bits a = Some a' /\ rep a' [].
Proof.
  intros a l (Sz & (HL & HA & HN) & R). unfold clear. rewrite Sz.
  pose proof (nchunks_le (length l)).
  destruct (free_spec (nchunks bits (length l)) (chunks a) _ 0 HL) as (c & E & (C & RC & LC) & G); [lia| |].
  { intros i Hi. destruct (HA i) as (ad & cells & X & _); [lia|]. eauto. }
  rewrite E. eexists. split; [reflexivity|].
  assert (nchunks bits 0 = 0) as Z by (rewrite nchunks_ceil; apply ceil_0, bv_pos).
  assert (nfwd bits 0 = 0) as Z2 by (rewrite nfwd_ceil, Z; reflexivity).
  split; [reflexivity|]. cbn [with_chunks chunks length]. split; [|intros; lia].
  unfold struct. rewrite Z, Z2, Nat.mul_0_r. repeat split; [|intros; lia|intros; lia].
  exists []. split; [|reflexivity]. apply (lrep_clear la_base base_pos _ _ RC).
Qed.

Lemma shift_spec : forall n c N j, struct c N -> j + n < N ->
  exists c', shift_down bits c j n = Some c' /\ struct c' N /\
  (forall k, rd bits c' k = if (j <=? k) && (k <? j + n) then rd bits c (S k) else rd bits c k) /\
  (forall q, addr_of c' q = addr_of c q).
Proof.
  induction n as [|n IH]; intros c N j S H; cbn [shift_down].
  - exists c. repeat split; auto; try apply S. intros k. clear; natcases; auto.
  - destruct (rd_some c N (Datatypes.S j) S) as (v & V); [clear - H; lia|]. rewrite V.
    destruct (wr_spec c N j v S) as (c1 & E1 & S1 & W1 & A1); [clear - H; lia|]. rewrite E1.
    destruct (IH c1 N (Datatypes.S j) S1) as (c' & E' & S' & W' & A'); [clear - H; lia|].
    exists c'. split; [exact E'|]. split; [exact S'|]. split.
    + intros k. rewrite W', !W1. clear - V; destruct (Nat.eq_dec k j) as [->|NE]; natcases; auto.
    + intros q. rewrite A', A1. reflexivity.
Qed.

Lemma rep_erase : forall a l d, rep a l -> d < length l ->
  exists a', erase bits a d = Some a' /\ rep a' (firstn d l ++ skipn (S d) l) /\
             stable a a' (length l - 1).
Proof.
  intros a l d H Hd. unfold erase. pose proof H as (Sz & S & R). rewrite Sz, (proj2 (Nat.ltb_lt _ _) Hd).
  destruct (shift_spec (length l - 1 - d) (chunks a) (length l) d S) as (c1 & E1 & S1 & W1 & A1); [lia|]. rewrite E1.
  set (a1 := with_chunks a c1 (length l)).
  destruct (inner_resize_spec a1 (length l - 1)) as (a2 & E2 & S2 & _ & G2); [exact S1|].
  rewrite E2. eexists. split; [reflexivity|].
  assert (length (firstn d l ++ skipn (Datatypes.S d) l) = length l - 1) as LL.
  { rewrite app_length, firstn_length, skipn_length. lia. }
  assert (forall k, k < length l - 1 -> cget (chunks a2) (k / bv) = cget c1 (k / bv)) as K.
  { intros k Hk. apply G2; cbn [a1 with_chunks m_size]; rewrite nchunks_ceil; apply div_lt_ceil; auto using bv_pos; lia. }
  split; [split; [|split]|]; cbn [with_chunks m_size chunks]; rewrite ?LL; auto.
  - intros k Hk. transitivity (rd bits c1 k); [unfold rd; now rewrite K|].
    rewrite W1, nth_error_app_if, nth_error_firstn_if, nth_error_skipn_eq, firstn_length.
    rewrite Nat.min_l by lia. natcases; rewrite R by lia; do 2 f_equal; lia.
  - stab. cbn [chunks]. rewrite <- (A1 (k / bv)). unfold addr_of. rewrite K by lia. reflexivity.
Qed.

Lemma copy_spec : forall n src N dst k, struct src N -> struct dst N -> k + n <= N ->
  exists c', copy_cells bits src dst k n = Some c' /\ struct c' N /\
  (forall j, rd bits c' j = if (k <=? j) && (j <? k + n) then rd bits src j else rd bits dst j).
Proof.
  induction n as [|n IH]; intros src N dst k S D H; cbn [copy_cells].
  - exists dst. split; [reflexivity|]. split; [exact D|]. intros j. clear; natcases; auto.
  - destruct (rd_some src N k S) as (v & V); [clear - H; lia|]. rewrite V.
    destruct (wr_spec dst N k v D) as (c1 & E1 & S1 & W1 & A1); [clear - H; lia|]. rewrite E1.
    destruct (IH src N c1 (Datatypes.S k) S S1) as (c' & E' & S' & W'); [clear - H; lia|].
    exists c'. split; [exact E'|]. split; [exact S'|].
    intros j. rewrite W', W1. clear - V; destruct (Nat.eq_dec j k) as [->|NE]; natcases; auto.
Qed.

Lemma rep_fill_copy : forall a b l, rep a [] -> rep b l ->
  exists a', fill_copy bits a b = Some a' /\ rep a' l.
Proof.
  intros a b l Ha (Sz & S & R). unfold fill_copy. rewrite Sz.
  destruct (resize_keeps a [] (length l) Ha) as (a1 & E1 & S1 & _ & _). rewrite E1.
  destruct (copy_spec (length l) (chunks b) (length l) (chunks a1) 0 S S1 (le_n _)) as (c' & E' & S' & W').
  rewrite E'. cbn [option_map]. eexists. split; [reflexivity|].
  split; [reflexivity|]. split; [exact S'|]. cbn [with_chunks chunks].
  intros k Hk. rewrite W', (proj2 (Nat.ltb_lt k (0 + length l)) Hk). cbn [Nat.leb andb]. now apply R.
Qed.

Lemma rep_copy_ctor : forall b l, rep b l -> exists a', copy_ctor bits b = Some a' /\ rep a' l.
Proof. intros b l H. exact (rep_fill_copy empty b l rep_empty H). Qed.
Lemma rep_assign_op : forall a l0 b l, rep a l0 -> rep b l -> exists a', assign_op bits a b = Some a' /\ rep a' l.
Proof.
  intros a l0 b l Ha Hb. unfold assign_op. destruct (rep_clear a l0 Ha) as (a1 & E1 & R1). rewrite E1.
  now apply rep_fill_copy.
Qed.

Lemma rep_content : forall a l, rep a l -> content bits a = map (fun x => Some (Some x)) l.
Proof.
  intros a l (Sz & _ & R). unfold content.
  apply nth_error_ext. intros k. rewrite !nth_error_map. rewrite Sz.
  destruct (Nat.lt_ge_cases k (length l)) as [Hk|Hk].
  - rewrite (nth_error_nth' _ 0) by (rewrite seq_length; lia).
    rewrite seq_nth by lia. cbn. unfold get. rewrite Sz, (proj2 (Nat.ltb_lt _ _) Hk).
    rewrite R by lia. destruct (nth_error l k) eqn:E; [reflexivity|]. apply nth_error_None in E. lia.
  - rewrite (proj2 (nth_error_None _ _)) by (rewrite seq_length; lia).
    rewrite (proj2 (nth_error_None l k)) by lia. reflexivity.
Qed.

Lemma rep_step : forall a l o l', rep a l -> spec_step l o = Some l' ->
  exists a', step bits a o = Some a' /\ rep a' l' /\
  (o <> OClear -> stable a a' (Nat.min (length l) (length l'))).
Proof.
  intros a l o l' H E. destruct o; cbn [spec_step] in E; cbn [step].
  - injection E as <-. destruct (rep_push a l (inl x) x H eq_refl) as (a' & E & R & S).
    exists a'. repeat split; auto; try apply R. intros _. rewrite app_length, Nat.min_l by lia. exact S.
  - destruct (nth_error l i) as [x|] eqn:X; [|discriminate]. injection E as <-.
    destruct (rep_push a l (inr i) x H X) as (a' & E & R & S).
    exists a'. split; [exact E|]. split; [exact R|]. intros _. rewrite app_length, Nat.min_l by lia. exact S.
  - assert (l <> [] /\ l' = removelast l) as (NE & ->).
    { destruct l; [discriminate|]. injection E as E. rewrite <- E. split; [discriminate|reflexivity]. }
    destruct (rep_pop a l H NE) as (a' & E' & R & S).
    exists a'. split; [exact E'|]. split; [exact R|]. intros _. rewrite removelast_len, Nat.min_r by lia. exact S.
  - injection E as <-. destruct (rep_resize a l n e H) as (a' & E & R & S).
    exists a'. split; [exact E|]. split; [exact R|]. intros _.
    rewrite app_length, firstn_length, repeat_length.
    replace (Nat.min (length l) (Nat.min n (length l) + (n - length l))) with (Nat.min (length l) n) by lia. exact S.
  - injection E as <-. destruct (rep_clear a l H) as (a' & E & R).
    exists a'. split; [exact E|]. split; [exact R|]. intros C. congruence.
  - destruct (Nat.ltb_spec k (length l)); [|discriminate]. injection E as <-.
    destruct (rep_set a l k x H) as (a' & E & R & S); [assumption|].
    exists a'. split; [exact E|]. split; [exact R|]. intros _ j Hj. apply S. lia.
  - destruct (Nat.ltb_spec d (length l)); [|discriminate]. injection E as <-.
    destruct (rep_erase a l d H) as (a' & E & R & S); [assumption|].
    exists a'. split; [exact E|]. split; [exact R|]. intros _ j Hj. apply S.
    assert (length (firstn d l ++ skipn (Datatypes.S d) l) = length l - 1) as LL
      by (rewrite app_length, firstn_length, skipn_length; lia).
    fold (@skipn A) in Hj. change (match l with [] => [] | _ :: l0 => skipn d l0 end) with (skipn (Datatypes.S d) l) in Hj.
    rewrite LL in Hj. lia.
Qed.

Lemma rep_run : forall ops a l l', rep a l -> spec_run l ops = Some l' ->
  exists a', run bits a ops = Some a' /\ rep a' l'.
Proof.
  induction ops as [|o r IH]; intros a l l' H E; cbn [run spec_run] in *.
  - injection E as <-. eauto.
  - destruct (spec_step l o) as [l1|] eqn:S1; [|discriminate].
    destruct (rep_step a l o l1 H S1) as (a1 & E1 & R1 & _). rewrite E1. eapply IH; eauto.
Qed.
End ChunkProofs.
