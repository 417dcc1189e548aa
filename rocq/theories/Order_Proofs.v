From Coq Require Import List Bool Arith ZArith Lia Sorted Permutation.
From Verif Require Import Util Algo Merger_Model Order_Model.
Import ListNotations.

(** ** Owner of an index *)
Definition mono (gtp : list nat) : Prop :=
  forall i j, i <= j -> j < length gtp -> bound gtp i <= bound gtp j.

Lemma bound_nth : forall gtp i x, nth_error gtp i = Some x -> bound gtp i = x.
Proof. intros gtp i x H. unfold bound. now apply nth_error_nth. Qed.
Lemma nth_bound : forall gtp i, i < length gtp -> nth_error gtp i = Some (bound gtp i).
Proof. intros gtp i H. unfold bound. now apply nth_error_nth'. Qed.

(** the result: the first boundary that is not below g *)
Lemma get_processor_spec : forall gtp g,
  mono gtp -> bound gtp 0 = 0 -> 2 <= length gtp -> g < bound gtp (length gtp - 1) ->
  exists p, get_processor gtp g = Some p /\ S p < length gtp /\
    bound gtp p <= g <= bound gtp (S p) /\
    (bound gtp (S p) = g -> bound gtp p = g) /\
    (forall i, i < p -> bound gtp i < g).
Proof.
  intros gtp g Hm H0 Hl Hg.
  assert (P : parted (fun x => x <? g) gtp).
  { intros i j x y Hij Hx Hy L.
    assert (j < length gtp) by (apply nth_error_Some; congruence).
    pose proof (Hm i j Hij H). rewrite (bound_nth _ _ _ Hx), (bound_nth _ _ _ Hy) in H1.
    apply Nat.ltb_lt in L. apply Nat.ltb_lt. lia. }
  destruct (lower_bound_ok (fun x => x <? g) gtp P) as [K1 [K2 K3]].
  unfold get_processor. set (k := lower_bound (fun x => x <? g) gtp) in *. clearbody k. clear P.
  assert (B : forall i, i < length gtp -> i < k -> bound gtp i < g).
  { intros i Hi Hk. pose proof (K2 i _ Hk (nth_bound gtp i Hi)). now apply Nat.ltb_lt. }
  assert (C : forall i, i < length gtp -> k <= i -> g <= bound gtp i).
  { intros i Hi Hk. pose proof (K3 i _ Hk (nth_bound gtp i Hi)). now apply Nat.ltb_ge. }
  assert (Hk : k < length gtp).
  { destruct (Nat.lt_ge_cases k (length gtp)) as [|Q]; auto.
    pose proof (B (length gtp - 1) ltac:(lia) ltac:(lia)). lia. }
  rewrite (nth_bound gtp k Hk).
  destruct (Nat.eqb_spec (bound gtp k) g) as [E|E]; cbn [andb].
  - destruct (Nat.eqb_spec (S k) (length gtp)) as [E2|E2]; cbn [negb].
    + replace (length gtp - 1) with k in Hg by lia. lia.
    + exists k. pose proof (Hm k (S k) ltac:(lia) ltac:(lia)).
      split; [reflexivity|]. split; [lia|]. split; [lia|]. split; [auto|].
      intros i Hi. apply B; lia.
  - pose proof (C k Hk (Nat.le_refl _)) as Ck.
    assert (k <> 0) by (intros ->; lia).
    exists (k - 1). replace (S (k - 1)) with k by lia. pose proof (B (k - 1) ltac:(lia) ltac:(lia)).
    split; [reflexivity|]. split; [lia|]. split; [lia|]. split; [intros Q; lia|].
    intros i Hi. apply B; lia.
Qed.

(** ** Repair of intervals *)
Open Scope Z_scope.
Definition fits (x : Z) : Prop := 0 <= x < 4294967296.
Lemma usub_ok : forall a b, fits a -> fits b -> b <= a -> usub a b = a - b.
Proof. intros a b [A1 A2] [B1 B2] H. unfold usub. apply Z.mod_small. lia. Qed.

Lemma move_bounds_ok : forall fuel b0 e0 b1 e1,
  fits b0 -> fits e1 -> b0 <= b1 -> b1 <= e0 -> e0 <= e1 -> (Z.to_nat (e0 - b1) <= fuel)%nat ->
  exists m, move_bounds fuel b0 e0 b1 e1 = Some (m, m) /\ b1 <= m <= e0.
Proof.
  induction fuel as [|f IH]; intros b0 e0 b1 e1 F0 F1 H1 H2 H3 Hf; cbn [move_bounds];
    destruct (Z.ltb_spec b1 e0) as [L|L]; try lia.
  - exists e0. replace b1 with e0 by lia. split; [reflexivity|lia].
  - destruct F0, F1.
    rewrite !usub_ok by (unfold fits; lia).
    destruct (Z.ltb_spec (e0 - b0) (e1 - b1)) as [M|M].
    + destruct (IH b0 (e0 - 1) b1 e1) as [m [E R]]; try (unfold fits; lia). exists m. split; [exact E|lia].
    + destruct (IH b0 e0 (b1 + 1) e1) as [m [E R]]; try (unfold fits; lia). exists m. split; [exact E|lia].
  - exists e0. replace b1 with e0 by lia. split; [reflexivity|lia].
Qed.

(** sorted intervals covering a range, at most two over each index *)
Fixpoint chain_cover (b0 e0 : Z) (l : list (Z * Z)) : Prop :=
  b0 <= e0 /\
  match l with
  | [] => True
  | (b1, e1) :: l' =>
      b0 <= b1 /\ b1 <= e0 /\ e0 <= e1 /\
      match l' with [] => True | (b2, _) :: _ => e0 <= b2 end /\
      chain_cover b1 e1 l'
  end.
(** consecutive intervals *)
Fixpoint consecutive (b0 e0 : Z) (l : list (Z * Z)) : Prop :=
  b0 <= e0 /\ match l with [] => True | (b1, e1) :: l' => b1 = e0 /\ consecutive b1 e1 l' end.

Lemma repair_from_ok : forall l fuel b0 b0' e0,
  chain_cover b0 e0 l -> fits b0 -> (forall i, In i ((b0, e0) :: l) -> fits (snd i)) ->
  (forall i, In i ((b0, e0) :: l) -> (Z.to_nat (snd i) <= fuel)%nat) ->
  b0 <= b0' <= e0 -> match l with [] => True | (b1, _) :: _ => b0' <= b1 end ->
  exists e t, repair_from fuel b0' e0 l = Some ((b0', e) :: t) /\
    consecutive b0' e t /\ length t = length l /\
    Forall2 (fun i j => fst i <= fst j /\ snd j <= snd i) ((b0, e0) :: l) ((b0', e) :: t) /\
    last (map snd l) e0 = last (map snd t) e.
Proof.
  induction l as [|[b1 e1] l IH]; intros fuel b0 b0' e0 C F0 F Hf Hb Hn.
  - exists e0, []. cbn. repeat split; try lia. constructor; [cbn; lia|constructor].
  - cbn [repair_from]. cbn in C. destruct C as [C0 [C1 [C2 [C3 [C4 C5]]]]].
    assert (F1 : fits e1) by (apply (F (b1, e1)); right; left; reflexivity).
    assert (Fe : fits e0) by (apply (F (b0, e0)); left; reflexivity).
    pose proof (Hf (b0, e0) (or_introl eq_refl)) as Hf0. cbn in Hf0.
    destruct F0 as [F0 F0']. destruct Fe as [Fe Fe'].
    destruct (move_bounds_ok fuel b0' e0 b1 e1) as [m [E R]]; try (unfold fits; lia); auto.
    rewrite E.
    destruct (IH fuel b1 m e1) as [e [t [E2 [K1 [K2 [K3 K4]]]]]]; auto; try (unfold fits; lia).
    + intros i Hi. apply F. now right.
    + intros i Hi. apply Hf. now right.
    + destruct l as [|[b2 e2] l']; [auto|]. lia.
    + rewrite E2. exists m, ((m, e) :: t). split; [reflexivity|].
      split; [cbn; repeat split; try lia; exact K1|]. split; [cbn; now rewrite K2|].
      split; [constructor; [cbn; lia|exact K3]|].
      cbn [map snd] in *.
      assert (LC : forall (q : list Z) a b, last (a :: q) b = last q a).
      { induction q as [|c q IHq]; intros a b; [reflexivity|].
        change (last (a :: c :: q) b) with (last (c :: q) b). now rewrite !IHq. }
      rewrite !LC. exact K4.
Qed.
Close Scope Z_scope.

(** ** Maps ordered by key *)
Lemma find_map_in : forall m k v, NoDup (map fst m) -> (find_map m k = Some v <-> In (k, v) m).
Proof.
  induction m as [|[a b] m IH]; intros k v N; unfold find_map; cbn [find fst].
  - split; [discriminate|intros []].
  - cbn [map fst] in N. inversion N as [|? ? N1 N2]; subst.
    destruct (Nat.eqb_spec a k) as [->|Hne].
    + split; [intros [= ->]; now left|]. intros [[= ->]|H]; auto.
      exfalso. apply N1. apply in_map_iff. exists (k, v). auto.
    + fold (find_map m k). rewrite IH by auto. split; [now right|]. intros [[= -> ->]|H]; [lia|auto].
Qed.
Lemma find_map_none : forall m k, find_map m k = None <-> ~ In k (map fst m).
Proof.
  induction m as [|[a b] m IH]; intros k; unfold find_map; cbn [find fst map].
  - split; auto.
  - destruct (Nat.eqb_spec a k) as [->|Hne].
    + split; [discriminate|]. intros H. exfalso. apply H. now left.
    + fold (find_map m k). rewrite IH. split; intros H; [intros [->|Q]; auto|intro Q; apply H; now right].
Qed.

Lemma map_upd_same : forall m k v f, find_map m k = Some v -> f v = v ->
  StronglySorted lt (map fst m) -> map_upd 0 m k f = m.
Proof.
  induction m as [|[a b] m IH]; intros k v f H E Hs; unfold find_map in H; cbn [find fst] in H; [discriminate|].
  cbn [map_upd]. cbn [map fst] in Hs. apply StronglySorted_inv in Hs as [Hs1 Hs2].
  destruct (Nat.eqb_spec a k) as [->|Hne].
  - injection H as ->. rewrite Nat.ltb_irrefl, E. reflexivity.
  - fold (find_map m k) in H.
    assert (In k (map fst m)).
    { destruct (in_dec Nat.eq_dec k (map fst m)) as [|Q]; auto. apply find_map_none in Q. congruence. }
    rewrite Forall_forall in Hs2. pose proof (Hs2 _ H0).
    destruct (Nat.ltb_spec k a); [lia|]. f_equal. eapply IH; eauto.
Qed.
Lemma map_upd_new : forall m k f, ~ In k (map fst m) ->
  StronglySorted lt (map fst m) ->
  Permutation (map_upd 0 m k f) ((k, f 0) :: m) /\ StronglySorted lt (map fst (map_upd 0 m k f)).
Proof.
  induction m as [|[a b] m IH]; intros k f H Hs; cbn [map_upd].
  - split; [constructor; constructor|]. repeat constructor.
  - cbn [map fst] in *. pose proof Hs as Hs0. apply StronglySorted_inv in Hs as [Hs1 Hs2]. rewrite Forall_forall in Hs2.
    destruct (Nat.ltb_spec k a).
    + split; [reflexivity|]. cbn [map fst]. constructor; [exact Hs0|].
      constructor; [lia|]. rewrite Forall_forall. intros x Hx. pose proof (Hs2 x Hx). lia.
    + destruct (Nat.eqb_spec a k) as [->|Hne]; [exfalso; apply H; now left|].
      destruct (IH k f) as [P1 P2]; [intro Q; apply H; now right|exact Hs1|].
      split; [rewrite P1; apply perm_swap|]. cbn [map fst]. constructor; [exact P2|].
      rewrite Forall_forall. intros x Hx.
      rewrite (Permutation_map fst P1) in Hx. destruct Hx as [<-|Hx]; [cbn; lia|auto].
Qed.

Lemma ss_nodup : forall l, StronglySorted lt l -> NoDup l.
Proof.
  induction 1 as [|a l H IH F]; constructor; auto. rewrite Forall_forall in F. intro Q. pose proof (F _ Q). lia.
Qed.

Lemma nodup_map_inj : forall A B (f : A -> B) l, (forall a b, In a l -> In b l -> f a = f b -> a = b) ->
  NoDup l -> NoDup (map f l).
Proof.
  induction l as [|a l IH]; intros H N; cbn; [constructor|]. inversion N as [|? ? N1 N2]; subst. constructor.
  - intro Q. apply in_map_iff in Q as [b [E Hb]]. apply N1.
    replace a with b; auto. apply H; auto; [now right|now left].
  - apply IH; auto. intros x y Hx Hy. apply H; now right.
Qed.

(** ** Numbering of external columns *)
Record num_inv (lb le : nat) (cols : list nat) (m : list (nat * nat)) (ext : nat) : Prop := {
  n_sorted : StronglySorted lt (map fst m);
  n_keys : forall c, In c (map fst m) <-> In c cols /\ outside lb le c = true;
  n_vals : Permutation (map snd m) (seq le (length m));
  n_ext : ext = le + length m }.

Lemma num_val : forall lb le cols m ext k v, num_inv lb le cols m ext -> In (k, v) m -> le <= v < ext.
Proof.
  intros lb le cols m ext k v I H. destruct I as [_ _ P E].
  assert (In v (seq le (length m))).
  { rewrite <- P. apply in_map_iff. exists (k, v). auto. }
  apply in_seq in H0. lia.
Qed.

Lemma number_fold : forall lb le cs cols m ext, 0 < le -> num_inv lb le cols m ext ->
  let s := fold_left (number_one lb le) cs (m, ext) in num_inv lb le (cols ++ cs) (fst s) (snd s).
Proof.
  induction cs as [|c cs IH]; intros cols m ext Hle I; cbn [fold_left].
  - cbn. now rewrite app_nil_r.
  - assert (J : let s := number_one lb le (m, ext) c in num_inv lb le (cols ++ [c]) (fst s) (snd s)).
    { unfold number_one. destruct (outside lb le c) eqn:O.
      - destruct (find_map m c) as [v|] eqn:E.
        + assert (Hin : In (c, v) m) by (apply find_map_in; [apply ss_nodup, I|auto]).
          pose proof (num_val _ _ _ _ _ _ _ I Hin) as Hv.
          destruct (Nat.eqb_spec v 0); [lia|]. cbn.
          rewrite (map_upd_same m c v); auto; [|destruct (Nat.eqb_spec v 0); [lia|auto]|apply I].
          destruct I as [I1 I2 I3 I4]. constructor; auto. intro q. rewrite I2, in_app_iff.
          split; [tauto|]. intros [[?|[<-|[]]] ?]; auto. split; auto.
          apply I2. apply in_map_iff. exists (c, v). auto.
        + cbn. pose proof E as E'. rewrite find_map_none in E'. destruct I as [I1 I2 I3 I4].
          destruct (map_upd_new m c (fun v => if v =? 0 then ext else v) E' I1) as [P1 P2].
          constructor; auto.
          * intro q. rewrite (Permutation_map fst P1). cbn [map fst In]. rewrite I2, in_app_iff. cbn [In].
            split; [intros [<-|[? ?]]; auto|]. intros [[?|[<-|[]]] ?]; auto.
          * rewrite (Permutation_map snd P1). cbn [map snd]. rewrite (Permutation_length P1). cbn [length].
            rewrite seq_S. cbn [Nat.eqb]. rewrite I3, <- I4. apply Permutation_cons_append.
          * rewrite (Permutation_length P1). cbn [length]. lia.
      - cbn. destruct I as [I1 I2 I3 I4]. constructor; auto. intro q. rewrite I2, in_app_iff.
        split; [tauto|]. intros [[?|[<-|[]]] ?]; auto. congruence. }
    destruct (number_one lb le (m, ext) c) as [m' ext'] eqn:E. cbn in J.
    specialize (IH (cols ++ [c]) m' ext' Hle J). now rewrite <- app_assoc in IH.
Qed.

Lemma number_ok : forall V lb le (rows : list (list (nat * V))), length rows = le - lb ->
  let s := number lb le rows in num_inv lb le (map fst (concat rows)) (fst s) (snd s).
Proof.
  intros V lb le rows Hl. unfold number.
  assert (I0 : num_inv lb le [] [] le).
  { constructor; cbn; auto; [constructor|]. intro c. tauto. }
  destruct (Nat.eq_dec le 0) as [->|N].
  - destruct rows; [|cbn in Hl; lia]. exact I0.
  - apply (number_fold lb le (map fst (concat rows)) [] [] le); auto. lia.
Qed.

(** ** Option lists *)
Lemma all_some_map : forall A B (f : A -> option B) g l,
  (forall x, In x l -> f x = Some (g x)) -> all_some (map f l) = Some (map g l).
Proof.
  induction l as [|a l IH]; intros H; [reflexivity|]. cbn [map all_some].
  rewrite (H a (or_introl eq_refl)), IH; [reflexivity|]. intros x Hx. apply H. now right.
Qed.
Lemma all_some_F2 : forall A B (f : A -> option B) l,
  (forall x, In x l -> exists y, f x = Some y) ->
  exists r, all_some (map f l) = Some r /\ Forall2 (fun x y => f x = Some y) l r.
Proof.
  induction l as [|a l IH]; intros H; [exists []; split; [reflexivity|constructor]|]. cbn [map all_some].
  destruct (H a (or_introl eq_refl)) as [y E]. rewrite E.
  destruct IH as [r [E2 F]]; [intros x Hx; apply H; now right|]. rewrite E2.
  exists (y :: r). split; [reflexivity|]. now constructor.
Qed.
Lemma F2_nth : forall A B (P : A -> B -> Prop) l r, Forall2 P l r ->
  forall i x, nth_error l i = Some x -> exists y, nth_error r i = Some y /\ P x y.
Proof.
  induction 1 as [|x y l r H F IH]; intros i z E; [destruct i; discriminate|].
  destruct i as [|i]; [cbn in *; injection E as <-; eauto|]. now apply IH.
Qed.
Lemma F2_len : forall A B (P : A -> B -> Prop) l r, Forall2 P l r -> length l = length r.
Proof. induction 1; cbn; auto. Qed.
Lemma nth_combine : forall A B (l : list A) (r : list B) i,
  nth_error (combine l r) i = match nth_error l i, nth_error r i with Some x, Some y => Some (x, y) | _, _ => None end.
Proof.
  induction l as [|a l IH]; intros [|b r] [|i]; try reflexivity.
  - cbn. destruct (nth_error l i); reflexivity.
  - cbn [combine nth_error]. apply IH.
Qed.
Lemma nth_seq : forall n a i, i < n -> nth_error (seq a n) i = Some (a + i).
Proof.
  induction n as [|n IH]; intros a i H; [lia|]. destruct i as [|i]; cbn; [f_equal; lia|].
  rewrite IH by lia. f_equal. lia.
Qed.
Lemma nth_ix : forall A (l : list A) i x, nth_error l i = Some x ->
  nth_error (combine (seq 0 (length l)) l) i = Some (i, x).
Proof.
  intros A l i x H. rewrite nth_combine, H, nth_seq; [reflexivity|]. apply nth_error_Some. congruence.
Qed.
Lemma in_ix : forall A (l : list A) i x, In (i, x) (combine (seq 0 (length l)) l) <-> nth_error l i = Some x.
Proof.
  intros A l i x. split; intro H.
  - apply In_nth_error in H as [j H]. rewrite nth_combine in H.
    destruct (nth_error (seq 0 (length l)) j) as [a|] eqn:E; [|discriminate].
    destruct (nth_error l j) as [b|] eqn:E2; [|discriminate]. injection H as <- <-.
    rewrite nth_seq in E; [injection E as <-; exact E2|]. apply nth_error_Some. congruence.
  - eapply nth_error_In. now apply nth_ix.
Qed.
Lemma all_ix : forall A B (f : nat * A -> option B) (l : list A),
  (forall i x, nth_error l i = Some x -> exists y, f (i, x) = Some y) ->
  exists r, all_some (map f (combine (seq 0 (length l)) l)) = Some r /\ length r = length l /\
    forall i x, nth_error l i = Some x -> exists y, nth_error r i = Some y /\ f (i, x) = Some y.
Proof.
  intros A B f l H.
  destruct (all_some_F2 _ _ f (combine (seq 0 (length l)) l)) as [r [E F]].
  - intros [i x] Hx. apply in_ix in Hx. now apply H.
  - exists r. split; [exact E|]. split.
    + rewrite <- (F2_len _ _ _ _ _ F), combine_length, seq_length. lia.
    + intros i x Hx. apply (F2_nth _ _ _ _ _ F i (i, x)). now apply nth_ix.
Qed.

(** ** Renumbering of a matrix and back *)
Lemma ext_fold : forall le m l, NoDup (map snd m) ->
  (forall k v, In (k, v) m -> le <= v /\ v - le < length l) ->
  let r := fold_left (fun (l : list nat) (e : nat * nat) => lset l (snd e - le) (fst e)) m l in
  length r = length l /\ (forall k v, In (k, v) m -> nth_error r (v - le) = Some k) /\
  (forall i, (forall k v, In (k, v) m -> v - le <> i) -> nth_error r i = nth_error l i).
Proof.
  induction m as [|[a b] m IH]; intros l N H; cbn [fold_left].
  - split; [reflexivity|]. split; [intros k v []|reflexivity].
  - cbn [map snd] in N. inversion N as [|? ? N1 N2]; subst.
    destruct (IH (lset l (b - le) a)) as [L [Q1 Q2]]; auto.
    { intros k v Hk. rewrite lset_length. apply (H k v). now right. }
    rewrite lset_length in L. cbn [snd fst].
    destruct (H a b (or_introl eq_refl)) as [B1 B2].
    split; [exact L|]. split.
    + intros k v [[= -> ->]|Hk]; [|auto]. rewrite Q2, nth_error_lset_eq; auto.
      intros k' v' Hk' E. apply N1. apply in_map_iff. exists (k', v').
      destruct (H k' v') as [B1' _]; [now right|]. split; [cbn; lia|auto].
    + intros i Hi. rewrite Q2.
      * apply nth_error_lset_ne. apply (Hi a b). now left.
      * intros k v Hk. apply (Hi k v). now right.
Qed.
Lemma extended_ok : forall lb le cols m ext, num_inv lb le cols m ext ->
  length (extended le m ext) = ext - le /\
  (forall k v, In (k, v) m -> nth_error (extended le m ext) (v - le) = Some k).
Proof.
  intros lb le cols m ext I. unfold extended.
  destruct (ext_fold le m (repeat 0 (ext - le))) as [L [Q _]].
  - eapply Permutation_NoDup; [symmetry; apply (n_vals _ _ _ _ _ I)|apply seq_NoDup].
  - intros k v H. rewrite repeat_length. pose proof (num_val _ _ _ _ _ _ _ I H). lia.
  - rewrite repeat_length in L. auto.
Qed.

Section Matrix.
Context {V : Type}.
Notation row := (list (nat * V)).
(** the new name of a column *)
Definition gname (m : list (nat * nat)) (c : nat) : nat := match find_map m c with Some p => p | None => c end.

Lemma gname_key : forall lb le cols m ext c, num_inv lb le cols m ext -> In c (map fst m) -> In (c, gname m c) m.
Proof.
  intros lb le cols m ext c I H. unfold gname. destruct (find_map m c) as [p|] eqn:E.
  - apply find_map_in; [apply ss_nodup, I|auto].
  - apply find_map_none in E. contradiction.
Qed.
Lemma gname_inj : forall lb le cols m ext c d, num_inv lb le cols m ext ->
  In c (map fst m) -> In d (map fst m) -> gname m c = gname m d -> c = d.
Proof.
  intros lb le cols m ext c d I Hc Hd E.
  pose proof (gname_key _ _ _ _ _ _ I Hc) as Kc. pose proof (gname_key _ _ _ _ _ _ I Hd) as Kd. rewrite E in Kc.
  destruct (extended_ok _ _ _ _ _ I) as [_ X]. pose proof (X _ _ Kc). pose proof (X _ _ Kd). congruence.
Qed.
Lemma gname_local : forall lb le cols m ext c, num_inv lb le cols m ext -> outside lb le c = false -> gname m c = c.
Proof.
  intros lb le cols m ext c I H. unfold gname. destruct (find_map m c) eqn:E; auto.
  assert (In c (map fst m)).
  { destruct (in_dec Nat.eq_dec c (map fst m)) as [|Q]; auto. apply find_map_none in Q. congruence. }
  apply (n_keys _ _ _ _ _ I) in H0 as [_ H0]. congruence.
Qed.

Lemma renum_rows_ok : forall lb le m ext (rows : list row),
  num_inv lb le (map fst (concat rows)) m ext ->
  renum_rows lb le m rows = Some (map (map (fun e => (gname m (fst e), snd e))) rows).
Proof.
  intros lb le m ext rows I. unfold renum_rows. apply all_some_map. intros r Hr.
  apply all_some_map. intros [c v] He. unfold renum_entry, gname. cbn [fst snd].
  destruct (find_map m c) eqn:E; [reflexivity|]. destruct (outside lb le c) eqn:O; [|reflexivity].
  apply find_map_none in E. exfalso. apply E. apply (n_keys _ _ _ _ _ I). split; auto.
  apply in_map_iff. exists (c, v). split; auto. apply in_concat. eauto.
Qed.

Lemma prepare_ok : forall mb me (rows : list row), length rows = me - mb -> mb <= me ->
  exists m ei ext, num_inv mb me (map fst (concat rows)) m ext /\
    ei = extended me m ext /\
    prepare mb mb me rows = Some (map (map (fun e => (gname m (fst e), snd e))) rows, m, ei, ext).
Proof.
  intros mb me rows H L. unfold prepare, local_rows.
  replace (mb - mb) with 0 by lia. cbn [skipn]. rewrite firstn_all2 by lia.
  pose proof (number_ok V mb me rows H) as I. destruct (number mb me rows) as [m ext]. cbn in I.
  exists m, (extended me m ext), ext. split; [exact I|]. split; [reflexivity|].
  rewrite (renum_rows_ok _ _ _ _ _ I). cbn [firstn app]. rewrite skipn_all2 by lia. now rewrite app_nil_r.
Qed.

Lemma restore_ok : forall mb me m ext (rows : list row), num_inv mb me (map fst (concat rows)) m ext ->
  restore me (extended me m ext) (map (map (fun e => (gname m (fst e), snd e))) rows) = rows.
Proof.
  intros mb me m ext rows I. unfold restore. rewrite map_map.
  rewrite <- (map_id rows) at 2. apply map_ext_in. intros r Hr. rewrite map_map.
  rewrite <- (map_id r) at 2. apply map_ext_in. intros [c v] He. unfold restore_entry. cbn [fst snd].
  assert (Hc : In c (map fst (concat rows))).
  { apply in_map_iff. exists (c, v). split; auto. apply in_concat. eauto. }
  destruct (outside mb me c) eqn:O.
  - assert (K : In c (map fst m)) by (apply (n_keys _ _ _ _ _ I); auto).
    pose proof (gname_key _ _ _ _ _ _ I K) as Kc.
    pose proof (num_val _ _ _ _ _ _ _ I Kc). destruct (Nat.leb_spec me (gname m c)); [|lia].
    destruct (extended_ok _ _ _ _ _ I) as [_ X]. rewrite (X _ _ Kc). reflexivity.
  - rewrite (gname_local _ _ _ _ _ _ I O). unfold outside in O. apply orb_false_iff in O as [O1 O2].
    rewrite O2. reflexivity.
Qed.
End Matrix.

(** ** Request blocks *)
Lemma read_pack : forall bl, blocks_of (pack bl) = Some bl.
Proof.
  intros bl. unfold blocks_of, pack.
  assert (G : forall bl t, read_blocks (length bl) (flat_map (fun b : nat * list nat => fst b :: length (snd b) :: snd b) bl ++ t) = Some bl).
  { clear. induction bl as [|[p l] bl IH]; intros t; [reflexivity|].
    cbn [length flat_map fst snd]. cbn [app read_blocks]. rewrite <- app_assoc.
    destruct (Nat.ltb_spec (length (l ++ flat_map (fun b : nat * list nat => fst b :: length (snd b) :: snd b) bl ++ t)) (length l)) as [Q|Q];
      [rewrite app_length in Q; lia|].
    rewrite skipn_app, skipn_all, Nat.sub_diag. cbn [skipn app].
    rewrite IH. rewrite firstn_app, firstn_all, Nat.sub_diag. cbn [firstn]. now rewrite app_nil_r. }
  rewrite <- (app_nil_r (flat_map _ bl)). apply G.
Qed.

Lemma span_lt_ok : forall b l p q, StronglySorted lt l -> span_lt b l = (p, q) ->
  l = p ++ q /\ Forall (fun k => k < b) p /\ Forall (fun k => b <= k) q /\ StronglySorted lt q.
Proof.
  induction l as [|k l IH]; intros p q Hs E; cbn [span_lt] in E.
  - injection E as <- <-. repeat split; auto; constructor.
  - pose proof Hs as Hs0. apply StronglySorted_inv in Hs as [Hs1 Hs2]. destruct (Nat.ltb_spec k b).
    + destruct (span_lt b l) as [p' q'] eqn:E'. injection E as <- <-.
      destruct (IH p' q' Hs1 eq_refl) as [-> [F1 [F2 F3]]]. repeat split; auto.
    + injection E as <- <-. split; [reflexivity|]. split; [constructor|]. split; [|exact Hs0].
      constructor; auto. rewrite Forall_forall in *. intros x Hx. pose proof (Hs2 x Hx). lia.
Qed.

Record blocks_inv (gtp : list nat) (a n : nat) (keys : list nat) (bl : list (nat * list nat)) : Prop := {
  b_concat : concat (map snd bl) = keys;
  b_nodup : NoDup (map fst bl);
  b_range : forall q l, In (q, l) bl -> a <= q < a + n /\ forall c, In c l -> bound gtp q <= c < bound gtp (S q) }.

Lemma make_blocks_ok : forall gtp n a keys, mono gtp -> StronglySorted lt keys -> a + n < length gtp ->
  Forall (fun k => bound gtp a <= k) keys -> Forall (fun k => k < bound gtp (a + n)) keys ->
  exists bl, make_blocks gtp (seq a n) keys = Some bl /\ blocks_inv gtp a n keys bl.
Proof.
  induction n as [|n IH]; intros a keys Hm Hs Hl F1 F2; cbn [seq make_blocks].
  - exists []. split; [reflexivity|]. assert (keys = []).
    { destruct keys as [|k keys]; auto. inversion F1; inversion F2; subst. rewrite Nat.add_0_r in *. lia. }
    subst. constructor; [reflexivity|constructor|intros q l []].
  - rewrite (nth_bound gtp (S a)) by lia.
    destruct (span_lt (bound gtp (S a)) keys) as [blk rest] eqn:E.
    destruct (span_lt_ok _ _ _ _ Hs E) as [-> [G1 [G2 G3]]].
    apply Forall_app in F1 as [F1 F1']. apply Forall_app in F2 as [F2 F2'].
    replace (a + S n) with (S a + n) in F2' by lia.
    destruct (IH (S a) rest Hm G3 ltac:(lia) G2 F2') as [bl [E2 [B1 B2 B3]]]. rewrite E2.
    destruct blk as [|b0 blk0].
    + exists bl. split; [reflexivity|]. constructor; auto.
      intros q l H. destruct (B3 q l H). split; [lia|auto].
    + exists ((a, b0 :: blk0) :: bl). split; [reflexivity|]. constructor.
      * cbn [map snd concat]. now rewrite B1.
      * cbn [map fst]. constructor; auto. intro Q. apply in_map_iff in Q as [[q l] [<- Q]].
        destruct (B3 q l Q). cbn in *. lia.
      * intros q l [[= <- <-]|H].
        -- split; [lia|]. intros c Hc. rewrite Forall_forall in F1, G1. split; [now apply F1|now apply G1].
        -- destruct (B3 q l H). split; [lia|auto].
Qed.

Lemma last_in_cons : forall (l : list nat) k, In (last (k :: l) k) (k :: l).
Proof.
  intros l k. destruct (exists_last (l := k :: l)) as [l' [x E]]; [discriminate|]. rewrite E, last_last.
  apply in_app_iff. right. now left.
Qed.
Lemma ss_last : forall (l : list nat) d x, StronglySorted lt l -> In x l -> x <= last l d.
Proof.
  induction l as [|a l IH]; intros d x H Hx; [destruct Hx|].
  apply StronglySorted_inv in H as [H1 H2]. destruct l as [|b l].
  - destruct Hx as [<-|[]]. cbn. lia.
  - change (last (a :: b :: l) d) with (last (b :: l) d).
    destruct Hx as [<-|Hx]; [|now apply IH].
    assert (b <= last (b :: l) d) by (apply IH; [auto|now left]). inversion H2; subst. lia.
Qed.

(** no index of [cols] lies at the position of an empty interval *)
Definition off_empty (gtp : list nat) (c : nat) : Prop :=
  forall i, S i < length gtp -> bound gtp i = c -> bound gtp (S i) <> c.

Lemma build_recv_ok : forall gtp keys, mono gtp -> bound gtp 0 = 0 -> 2 <= length gtp ->
  StronglySorted lt keys ->
  (forall c, In c keys -> c < bound gtp (length gtp - 1) /\ off_empty gtp c) ->
  exists bl, build_recv gtp keys = Some (pack bl) /\ blocks_inv gtp 0 (length gtp - 1) keys bl.
Proof.
  intros gtp keys Hm H0 Hl Hs Hk. unfold build_recv. destruct keys as [|k keys].
  - exists []. split; [reflexivity|]. constructor; [reflexivity|constructor|intros q l []].
  - destruct (Hk k (or_introl eq_refl)) as [K1 K2].
    destruct (get_processor_spec gtp k Hm H0 Hl K1) as [pb [E1 [P1 [P2 [P3 P4]]]]]. rewrite E1.
    pose proof (last_in_cons keys k) as Hlast. destruct (Hk _ Hlast) as [L1 L2].
    destruct (get_processor_spec gtp _ Hm H0 Hl L1) as [pe [E2 [Q1 [Q2 [Q3 Q4]]]]]. rewrite E2.
    assert (Lt : last (k :: keys) k < bound gtp (S pe)).
    { destruct (Nat.eq_dec (bound gtp (S pe)) (last (k :: keys) k)) as [E|E]; [|lia].
      exfalso. exact (L2 pe Q1 (Q3 E) E). }
    assert (pb <= pe).
    { pose proof (ss_last _ k k Hs (or_introl eq_refl)).
      destruct (Nat.le_gt_cases pb pe) as [|G]; auto.
      pose proof (Hm (S pe) pb G ltac:(lia)). lia. }
    destruct (make_blocks_ok gtp (S pe - pb) pb (k :: keys) Hm Hs) as [bl [E [B1 B2 B3]]]; try lia.
    + rewrite Forall_forall. intros x Hx.
      destruct Hx as [<-|Hx]; [lia|]. apply StronglySorted_inv in Hs as [_ Hs]. rewrite Forall_forall in Hs.
      pose proof (Hs x Hx). lia.
    + rewrite Forall_forall. intros x Hx. replace (pb + (S pe - pb)) with (S pe) by lia.
      pose proof (ss_last _ k x Hs Hx). lia.
    + rewrite E. exists bl. split; [reflexivity|]. constructor; auto.
      intros q l Hq. destruct (B3 q l Hq). split; [lia|auto].
Qed.

Lemma to_positions_ok : forall lb le cols m ext bl, num_inv lb le cols m ext ->
  (forall c, In c (concat (map snd bl)) -> In c (map fst m)) ->
  to_positions le m (pack bl) = Some (pack (map (fun b => (fst b, map (gname m) (snd b))) bl)).
Proof.
  intros lb le cols m ext bl I H. unfold to_positions. rewrite read_pack.
  rewrite (all_some_map _ _ _ (fun b => (fst b, map (gname m) (snd b)))); [reflexivity|].
  intros [q l] Hq. cbn [fst snd]. rewrite (all_some_map _ _ _ (gname m)); [reflexivity|].
  intros c Hc. assert (K : In c (map fst m)).
  { apply H. apply in_concat. exists l. split; auto. apply in_map_iff. exists (q, l). auto. }
  pose proof (gname_key _ _ _ _ _ _ I K) as Kc. pose proof (num_val _ _ _ _ _ _ _ I Kc).
  pose proof Kc as Kf. apply find_map_in in Kf; [|apply ss_nodup, I]. rewrite Kf.
  destruct (Nat.ltb_spec (gname m c) le); [lia|reflexivity].
Qed.

(** ** All processors *)
Section All.
Context {V : Type} (d : V).
Notation row := (list (nat * V)).

Definition cols_of (rows : list row) : list nat := map fst (concat rows).

(** what PrepareMatrix leaves on processor p *)
Record pgood (gtp : list nat) (p : nat) (rows : list row) (s : pstate) (bl : list (nat * list nat)) : Prop := {
  g_num : num_inv (bound gtp p) (bound gtp (S p)) (cols_of rows) (p_map s) (p_ext s);
  g_blk : blocks_inv gtp 0 (length gtp - 1) (map fst (p_map s)) bl;
  g_req : p_req s = pack bl;
  g_recv : p_recv s = pack (map (fun b => (fst b, map (gname (p_map s)) (snd b))) bl) }.

Definition good_mats (gtp : list nat) (mats : list (list row)) : Prop :=
  mono gtp /\ bound gtp 0 = 0 /\ length gtp = S (length mats) /\
  forall p rows, nth_error mats p = Some rows ->
    length rows = bound gtp (S p) - bound gtp p /\
    forall c, In c (cols_of rows) -> c < bound gtp (length mats) /\ off_empty gtp c.

Lemma make_pstate_ok : forall gtp mats p rows, good_mats gtp mats -> nth_error mats p = Some rows ->
  exists s bl, make_pstate gtp p rows = Some s /\ pgood gtp p rows s bl.
Proof.
  intros gtp mats p rows [Hm [H0 [Hl G]]] Hp. destruct (G p rows Hp) as [L C].
  assert (p < length mats) by (apply nth_error_Some; congruence).
  unfold make_pstate.
  pose proof (number_ok V (bound gtp p) (bound gtp (S p)) rows L) as I.
  destruct (number (bound gtp p) (bound gtp (S p)) rows) as [m ext]. cbn in I.
  destruct (build_recv_ok gtp (map fst m) Hm H0 ltac:(lia) (n_sorted _ _ _ _ _ I)) as [bl [E B]].
  { intros c Hc. apply (n_keys _ _ _ _ _ I) in Hc as [Hc _]. replace (length gtp - 1) with (length mats) by lia. now apply C. }
  rewrite E. rewrite (to_positions_ok _ _ _ _ _ bl I).
  2:{ intros c Hc. now rewrite (b_concat _ _ _ _ _ B) in Hc. }
  eexists. exists bl. split; [reflexivity|]. constructor; auto.
Qed.

Lemma prepare_all_ok : forall gtp mats, good_mats gtp mats ->
  exists st, prepare_all gtp mats = Some st /\ length st = length mats /\
    forall p rows, nth_error mats p = Some rows -> exists s bl, nth_error st p = Some s /\ pgood gtp p rows s bl.
Proof.
  intros gtp mats G. unfold prepare_all.
  destruct (all_ix _ _ (fun pr => make_pstate gtp (fst pr) (snd pr)) mats) as [st [E [L N]]].
  - intros p rows Hp. destruct (make_pstate_ok _ _ _ _ G Hp) as [s [bl [E _]]]. exists s. exact E.
  - exists st. split; [exact E|]. split; [exact L|]. intros p rows Hp.
    destruct (N p rows Hp) as [s [E1 E2]]. cbn in E2.
    destruct (make_pstate_ok _ _ _ _ G Hp) as [s' [bl [E3 P]]].
    rewrite E2 in E3. injection E3 as ->. exists s', bl. auto.
Qed.

(** all processors at once *)
Definition all_good (gtp : list nat) (mats : list (list row)) (st : list pstate) : Prop :=
  length st = length mats /\
  forall p s, nth_error st p = Some s -> exists rows bl, nth_error mats p = Some rows /\ pgood gtp p rows s bl.

Lemma prepare_all_good : forall gtp mats, good_mats gtp mats ->
  exists st, prepare_all gtp mats = Some st /\ all_good gtp mats st.
Proof.
  intros gtp mats G. destruct (prepare_all_ok gtp mats G) as [st [E [L N]]].
  exists st. split; [exact E|]. split; [exact L|]. intros p s Hp.
  destruct (nth_error mats p) as [rows|] eqn:Em.
  - destruct (N p rows Em) as [s' [bl [E1 P]]]. rewrite Hp in E1. injection E1 as <-. eauto.
  - apply nth_error_None in Em. assert (p < length st) by (apply nth_error_Some; congruence). lia.
Qed.

Lemma in_requests : forall gtp mats st q p idx, all_good gtp mats st ->
  (In (p, idx) (requests_to q st) <->
   exists s bl, nth_error st p = Some s /\ p_req s = pack bl /\ In (q, idx) bl).
Proof.
  intros gtp mats st q p idx [L A]. unfold requests_to. rewrite in_flat_map. split.
  - intros [[p' s] [H1 H2]]. apply in_ix in H1. cbn [fst snd] in H2.
    destruct (A p' s H1) as [rows [bl [_ P]]]. rewrite (g_req _ _ _ _ _ P), read_pack in H2.
    apply in_map_iff in H2 as [[q' l] [E H2]]. injection E as <- <-. apply filter_In in H2 as [H2 E].
    cbn in E. apply Nat.eqb_eq in E. subst q'. exists s, bl. split; auto. split; auto. apply P.
  - intros [s [bl [H1 [H2 H3]]]]. exists (p, s). split; [now apply in_ix|]. cbn [fst snd].
    rewrite H2, read_pack. apply in_map_iff. exists (q, idx). split; auto. apply filter_In. split; auto.
    cbn. apply Nat.eqb_refl.
Qed.

Lemma blk_unique : forall bl (q : nat) (l l' : list nat), NoDup (map fst bl) -> In (q, l) bl -> In (q, l') bl -> l = l'.
Proof.
  induction bl as [|[a b] bl IH]; intros q l l' N H H'; [destruct H|]. cbn in N. inversion N as [|? ? N1 N2]; subst.
  destruct H as [[= -> ->]|H], H' as [[= E]|H']; subst; auto.
  - exfalso. apply N1. apply in_map_iff. exists (q, l'). auto.
  - exfalso. apply N1. apply in_map_iff. exists (q, l). auto.
  - eapply IH; eauto.
Qed.

Lemma owner_unique : forall gtp q q' c, mono gtp -> S q < length gtp -> S q' < length gtp ->
  bound gtp q <= c < bound gtp (S q) -> bound gtp q' <= c < bound gtp (S q') -> q = q'.
Proof.
  intros gtp q q' c Hm H1 H2 H3 H4. destruct (Nat.lt_trichotomy q q') as [L|[E|L]]; auto.
  - pose proof (Hm (S q) q' L ltac:(lia)). lia.
  - pose proof (Hm (S q') q L ltac:(lia)). lia.
Qed.

(** ** Sequences of writes *)
Definition writes (lb : nat) (x : list V) (l : list (nat * V)) : list V :=
  fold_left (fun x e => lset x (fst e - lb) (snd e)) l x.
Lemma writes_length : forall lb l x, length (writes lb x l) = length x.
Proof. induction l as [|e l IH]; intros x; cbn; auto. unfold writes in *. rewrite IH. apply lset_length. Qed.
Lemma writes_other : forall lb l x j, (forall p v, In (p, v) l -> p - lb <> j) ->
  nth_error (writes lb x l) j = nth_error x j.
Proof.
  induction l as [|[p v] l IH]; intros x j H; cbn; auto.
  change (fold_left _ l _) with (writes lb (lset x (p - lb) v) l). rewrite IH.
  - apply nth_error_lset_ne. apply (H p v). now left.
  - intros p' v' H'. apply (H p' v'). now right.
Qed.
Lemma writes_in : forall lb l x p v, NoDup (map fst l) -> In (p, v) l ->
  (forall p v, In (p, v) l -> lb <= p < lb + length x) -> nth_error (writes lb x l) (p - lb) = Some v.
Proof.
  induction l as [|[a b] l IH]; intros x p v N H R; [destruct H|]. cbn in N. inversion N as [|? ? N1 N2]; subst.
  cbn. change (fold_left _ l _) with (writes lb (lset x (a - lb) b) l).
  destruct H as [[= -> ->]|H].
  - rewrite writes_other.
    + apply nth_error_lset_eq. pose proof (R p v (or_introl eq_refl)). lia.
    + intros p' v' H' E. pose proof (R p v (or_introl eq_refl)). pose proof (R p' v' (or_intror H')).
      apply N1. apply in_map_iff. exists (p', v'). split; auto. cbn. lia.
  - apply IH; auto. intros p' v' H'. rewrite lset_length. apply (R p' v'). now right.
Qed.
Lemma writes_app : forall lb l1 l2 x, writes lb x (l1 ++ l2) = writes lb (writes lb x l1) l2.
Proof. intros. unfold writes. apply fold_left_app. Qed.

Lemma write_at_ok : forall lb idx (G : nat -> nat) (F : nat -> V) x,
  (forall c, In c idx -> lb <= G c < lb + length x) ->
  write_at lb x (map G idx) (map F idx) = Some (writes lb x (map (fun c => (G c, F c)) idx)).
Proof.
  induction idx as [|c idx IH]; intros G F x H; [reflexivity|]. cbn [map write_at].
  pose proof (H c (or_introl eq_refl)).
  destruct (Nat.ltb_spec (G c) lb); [lia|]. destruct (Nat.leb_spec (length x) (G c - lb)); [lia|]. cbn [orb].
  rewrite IH; [reflexivity|]. intros c' Hc'. rewrite lset_length. apply H. now right.
Qed.

Lemma read_at_ok : forall lb (x : list V) i, lb <= i < lb + length x -> read_at lb x i = Some (nth (i - lb) x d).
Proof.
  intros lb x i H. unfold read_at. destruct (Nat.ltb_spec i lb); [lia|]. apply nth_error_nth'. lia.
Qed.

(** ** Update *)
Definition sval (gtp : list nat) (xs : list (list V)) (q c : nat) : V := nth (c - bound gtp q) (nth q xs []) d.

Lemma send_msgs_ok : forall gtp xs q x bl, nth_error xs q = Some x ->
  (forall p idx c, In (p, idx) bl -> In c idx -> bound gtp q <= c < bound gtp q + length x) ->
  send_msgs (bound gtp q) q x (pack bl) = Some (map (fun b => Msg q (fst b) (map (sval gtp xs q) (snd b))) bl).
Proof.
  intros gtp xs q x bl Hx H. unfold send_msgs. rewrite read_pack.
  apply all_some_map. intros [p idx] Hb. cbn [fst snd].
  rewrite (all_some_map _ _ _ (sval gtp xs q)); [reflexivity|].
  intros c Hc. rewrite read_at_ok by (eapply H; eauto). unfold sval. f_equal. f_equal.
  symmetry. now apply nth_error_nth.
Qed.

Lemma recv_blocks_ok : forall gtp xs lb p pool (G : nat -> nat) bl x,
  (forall src idx, In (src, idx) bl -> exists m, message_for src p pool = Some m /\ m_val m = map (sval gtp xs src) idx) ->
  (forall src idx c, In (src, idx) bl -> In c idx -> lb <= G c < lb + length x) ->
  recv_blocks lb p pool x (map (fun b => (fst b, map G (snd b))) bl) =
  Some (writes lb x (flat_map (fun b => map (fun c => (G c, sval gtp xs (fst b) c)) (snd b)) bl)).
Proof.
  induction bl as [|[src idx] bl IH]; intros x HM HR; [reflexivity|]. cbn [map recv_blocks fst snd flat_map].
  destruct (HM src idx (or_introl eq_refl)) as [m [E Ev]]. rewrite E, Ev.
  rewrite write_at_ok by (intros c Hc; eapply HR; [now left|auto]).
  rewrite IH, writes_app; [reflexivity| |].
  - intros s i H. apply HM. now right.
  - intros s i c H Hc. rewrite writes_length. eapply HR; [right; eauto|auto].
Qed.

Definition good_arr (arr : nat -> list (nat * list nat)) (st : list pstate) : Prop :=
  forall p, p < length st -> Permutation (arr p) (requests_to p st).
Definition good_vecs (gtp : list nat) (st : list pstate) (xs : list (list V)) : Prop :=
  length xs = length st /\
  forall p s x, nth_error st p = Some s -> nth_error xs p = Some x -> length x = p_ext s - bound gtp p.

Lemma ext_ge : forall gtp mats p rows s bl, good_mats gtp mats -> nth_error mats p = Some rows ->
  pgood gtp p rows s bl -> bound gtp p <= bound gtp (S p) <= p_ext s.
Proof.
  intros gtp mats p rows s bl [Hm [_ [Hl _]]] Hp P.
  assert (p < length mats) by (apply nth_error_Some; congruence).
  pose proof (n_ext _ _ _ _ _ (g_num _ _ _ _ _ P)). pose proof (Hm p (S p) ltac:(lia) ltac:(lia)). lia.
Qed.

Theorem update_ok : forall gtp mats st arr xs,
  good_mats gtp mats -> all_good gtp mats st -> good_arr arr st -> good_vecs gtp st xs ->
  exists xs', update gtp arr st xs = Some xs' /\ length xs' = length xs /\
    forall p s x, nth_error st p = Some s -> nth_error xs p = Some x ->
      exists x', nth_error xs' p = Some x' /\ length x' = length x /\
        (forall i, i < bound gtp (S p) - bound gtp p -> nth_error x' i = nth_error x i) /\
        (forall c, In c (map fst (p_map s)) ->
           exists q, S q < length gtp /\ bound gtp q <= c < bound gtp (S q) /\
             nth_error x' (gname (p_map s) c - bound gtp p) = Some (sval gtp xs q c)).
Proof.
  intros gtp mats st arr xs GM AG GA [GV1 GV2].
  destruct AG as [L A]. pose proof GM as [Hm [H0 [Hl _]]].
  assert (SX : forall q x, nth_error xs q = Some x -> exists s, nth_error st q = Some s).
  { intros q x Hq. destruct (nth_error st q) eqn:E; [eauto|]. apply nth_error_None in E.
    assert (q < length xs) by (apply nth_error_Some; congruence). lia. }
  assert (LX : forall q x, nth_error xs q = Some x -> bound gtp (S q) - bound gtp q <= length x /\ bound gtp q <= bound gtp (S q)).
  { intros q x Hq. destruct (SX q x Hq) as [s Hs]. destruct (A q s Hs) as [rows [bl [Er P]]].
    rewrite (GV2 _ _ _ Hs Hq). pose proof (ext_ge _ _ _ _ _ _ GM Er P). lia. }
  assert (RQ : forall q p idx, q < length st -> In (p, idx) (arr q) ->
     exists s bl, nth_error st p = Some s /\ p_req s = pack bl /\ In (q, idx) bl).
  { intros q p idx Hq H. apply (in_requests gtp mats); [split; auto|].
    eapply Permutation_in; [apply GA; exact Hq|exact H]. }
  (* messages *)
  unfold update, send_of.
  destruct (all_ix _ _ (fun px => send_msgs (bound gtp (fst px)) (fst px) (snd px) (pack (arr (fst px)))) xs) as [pools [E [LP NP]]].
  { intros q x Hq. cbn [fst snd]. eexists. apply (send_msgs_ok gtp xs); [exact Hq|].
    intros p idx c Hi Hc. destruct (SX q x Hq) as [s0 Hs0].
    destruct (RQ q p idx) as [s [bl [Hs [Er Hb]]]]; auto; [apply nth_error_Some; congruence|].
    destruct (A p s Hs) as [rows [bl' [_ P]]]. rewrite (g_req _ _ _ _ _ P) in Er.
    assert (bl' = bl) by (apply (f_equal blocks_of) in Er; rewrite !read_pack in Er; congruence). subst bl'.
    destruct (b_range _ _ _ _ _ (g_blk _ _ _ _ _ P) q idx Hb) as [_ R]. specialize (R c Hc).
    pose proof (LX q x Hq). lia. }
  rewrite E.
  assert (NPV : forall q x msgs, nth_error xs q = Some x -> nth_error pools q = Some msgs ->
     msgs = map (fun b => Msg q (fst b) (map (sval gtp xs q) (snd b))) (arr q)).
  { intros q x msgs Hq Hm'. destruct (NP q x Hq) as [y [E1 E2]]. cbn [fst snd] in E2.
    rewrite Hm' in E1. injection E1 as <-.
    rewrite (send_msgs_ok gtp xs q x) in E2; [now injection E2 as <-|exact Hq|].
    intros p idx c Hi Hc. destruct (SX q x Hq) as [s0 Hs0].
    destruct (RQ q p idx) as [s [bl [Hs [Er Hb]]]]; auto; [apply nth_error_Some; congruence|].
    destruct (A p s Hs) as [rows [bl' [_ P]]]. rewrite (g_req _ _ _ _ _ P) in Er.
    assert (bl' = bl) by (apply (f_equal blocks_of) in Er; rewrite !read_pack in Er; congruence). subst bl'.
    destruct (b_range _ _ _ _ _ (g_blk _ _ _ _ _ P) q idx Hb) as [_ R]. specialize (R c Hc).
    pose proof (LX q x Hq). lia. }
  assert (XP : forall q msgs, nth_error pools q = Some msgs -> exists x, nth_error xs q = Some x).
  { intros q msgs Hq. destruct (nth_error xs q) eqn:Ex; [eauto|]. apply nth_error_None in Ex.
    assert (q < length pools) by (apply nth_error_Some; congruence). lia. }
  (* the message for a block *)
  assert (MSG : forall p s bl src idx, nth_error st p = Some s -> p_req s = pack bl -> NoDup (map fst bl) ->
      In (src, idx) bl -> src < length st ->
      exists m, message_for src p (concat pools) = Some m /\ m_val m = map (sval gtp xs src) idx).
  { intros p s bl src idx Hp Er Nd Hb Hsrc.
    assert (Hx : exists x, nth_error xs src = Some x).
    { destruct (nth_error xs src) eqn:Ex; [eauto|]. apply nth_error_None in Ex. lia. }
    destruct Hx as [x Hx]. destruct (NP src x Hx) as [msgs [Hms _]].
    pose proof (NPV src x msgs Hx Hms) as Em.
    assert (Hin : In (Msg src p (map (sval gtp xs src) idx)) (concat pools)).
    { apply in_concat. exists msgs. split; [eapply nth_error_In; eauto|]. rewrite Em. apply in_map_iff.
      exists (p, idx). split; [reflexivity|]. eapply Permutation_in; [symmetry; apply GA; exact Hsrc|].
      apply (in_requests gtp mats); [split; auto|]. eauto. }
    unfold message_for. destruct (find _ (concat pools)) as [m|] eqn:Ef.
    - exists m. split; [reflexivity|]. apply find_some in Ef as [F1 F2]. apply andb_true_iff in F2 as [F2 F3].
      apply Nat.eqb_eq in F2, F3. apply in_concat in F1 as [ms [G1 G2]]. apply In_nth_error in G1 as [q Hq].
      destruct (XP q ms Hq) as [xq Hxq]. pose proof (NPV q xq ms Hxq Hq) as Eq. rewrite Eq in G2.
      apply in_map_iff in G2 as [[p' idx'] [<- G2]]. cbn [m_src m_dst m_val fst snd] in *. subst q p'.
      destruct (RQ src p idx' Hsrc G2) as [s' [bl' [Hs' [Er' Hb']]]]. rewrite Hp in Hs'. injection Hs' as <-.
      assert (bl' = bl) by (rewrite Er in Er'; apply (f_equal blocks_of) in Er'; rewrite !read_pack in Er'; congruence).
      subst bl'. f_equal. eapply blk_unique; eauto.
    - exfalso. eapply find_none in Ef; [|exact Hin]. cbn in Ef. rewrite !Nat.eqb_refl in Ef. discriminate. }
  (* receives *)
  set (xst := combine xs st).
  assert (Hlen : length xst = length xs) by (unfold xst; rewrite combine_length; lia).
  assert (FIN : forall p s x, nth_error st p = Some s -> nth_error xs p = Some x -> exists bl rows, pgood gtp p rows s bl /\
     nth_error mats p = Some rows /\
     recv_msgs (bound gtp p) p (concat pools) x (p_recv s) =
     Some (writes (bound gtp p) x (flat_map (fun b => map (fun c => (gname (p_map s) c, sval gtp xs (fst b) c)) (snd b)) bl))).
  { intros p s x Hs Hx. destruct (A p s Hs) as [rows [bl [Er P]]]. exists bl, rows. split; [exact P|]. split; [exact Er|].
    unfold recv_msgs. rewrite (g_recv _ _ _ _ _ P), read_pack. apply recv_blocks_ok.
    - intros src idx Hb. eapply MSG; [exact Hs|apply P|apply P|exact Hb|].
      destruct (b_range _ _ _ _ _ (g_blk _ _ _ _ _ P) src idx Hb). lia.
    - intros src idx c Hb Hc.
      assert (K : In c (map fst (p_map s))).
      { rewrite <- (b_concat _ _ _ _ _ (g_blk _ _ _ _ _ P)). apply in_concat. exists idx. split; auto.
        apply in_map_iff. exists (src, idx). auto. }
      pose proof (num_val _ _ _ _ _ _ _ (g_num _ _ _ _ _ P) (gname_key _ _ _ _ _ _ (g_num _ _ _ _ _ P) K)).
      pose proof (ext_ge _ _ _ _ _ _ GM Er P). rewrite (GV2 _ _ _ Hs Hx). lia. }
  destruct (all_ix _ _ (fun pxs : nat * (list V * pstate) => let '(p, (x, s)) := pxs in
       recv_msgs (bound gtp p) p (concat pools) x (p_recv s)) xst) as [xs' [E' [L' N']]].
  { intros p [x s] Hp. unfold xst in Hp. rewrite nth_combine in Hp.
    destruct (nth_error xs p) as [x0|] eqn:Ex; [|discriminate]. destruct (nth_error st p) as [s0|] eqn:Es; [|discriminate].
    injection Hp as <- <-. destruct (FIN p s0 x0 Es Ex) as [bl [rows [_ [_ Q]]]]. eexists. exact Q. }
  rewrite <- Hlen. fold xst. rewrite E'. exists xs'. split; [reflexivity|]. split; [exact L'|].
  intros p s x Hs Hx. destruct (FIN p s x Hs Hx) as [bl [rows [P [Er Q]]]].
  destruct (N' p (x, s)) as [x' [Ex' Ey]]; [unfold xst; rewrite nth_combine, Hx, Hs; reflexivity|].
  rewrite Q in Ey. injection Ey as <-. eexists. split; [exact Ex'|]. split; [apply writes_length|].
  pose proof (g_num _ _ _ _ _ P) as I. pose proof (ext_ge _ _ _ _ _ _ GM Er P) as Hext.
  pose proof (g_blk _ _ _ _ _ P) as B.
  set (W := flat_map (fun b => map (fun c => (gname (p_map s) c, sval gtp xs (fst b) c)) (snd b)) bl).
  assert (WK : map fst W = map (gname (p_map s)) (map fst (p_map s))).
  { rewrite <- (b_concat _ _ _ _ _ B). unfold W. clear. induction bl as [|[q l] bl IH]; [reflexivity|].
    cbn [flat_map map snd concat fst]. rewrite !map_app, IH, map_map. reflexivity. }
  assert (WR : forall g v, In (g, v) W -> bound gtp (S p) <= g < p_ext s).
  { intros g v Hg. apply (in_map fst) in Hg. cbn [fst] in Hg. rewrite WK in Hg. apply in_map_iff in Hg as [c [<- Hc]].
    pose proof (num_val _ _ _ _ _ _ _ I (gname_key _ _ _ _ _ _ I Hc)). lia. }
  split.
  - intros i Hi. apply writes_other. intros g v Hg E0. pose proof (WR g v Hg). lia.
  - intros c Hc.
    assert (Hb : exists q idx, In (q, idx) bl /\ In c idx).
    { rewrite <- (b_concat _ _ _ _ _ B) in Hc. apply in_concat in Hc as [l [H1 H2]].
      apply in_map_iff in H1 as [[q l'] [<- H1]]. eauto. }
    destruct Hb as [q [idx [Hb Hci]]]. destruct (b_range _ _ _ _ _ B q idx Hb) as [R1 R2].
    exists q. split; [lia|]. split; [now apply R2|].
    apply writes_in.
    + rewrite WK. apply nodup_map_inj; [|apply ss_nodup, I].
      intros a b Ha Hb' Eab. eapply gname_inj; eauto.
    + unfold W. apply in_flat_map. exists (q, idx). split; auto. cbn [fst snd]. apply in_map_iff. eauto.
    + intros g v Hg. pose proof (WR g v Hg). rewrite (GV2 _ _ _ Hs Hx). lia.
Qed.

(** ** Accumulate *)
Context (v0 : V) (vadd : V -> V -> V).
Context (vaddA : forall a b c, vadd a (vadd b c) = vadd (vadd a b) c)
        (vaddC : forall a b, vadd a b = vadd b a) (vadd0 : forall a, vadd a v0 = a).

Definition adds (lb : nat) (x : list V) (l : list (nat * V)) : list V :=
  fold_left (fun x e => lset x (fst e - lb) (vadd (nth (fst e - lb) x d) (snd e))) l x.
Definition ksum (c : nat) (l : list (nat * V)) : V :=
  fold_right (fun e s => if fst e =? c then vadd (snd e) s else s) v0 l.
Lemma ksum_app : forall c l1 l2, ksum c (l1 ++ l2) = vadd (ksum c l1) (ksum c l2).
Proof.
  induction l1 as [|e l1 IH]; intros l2; cbn [app ksum fold_right]; [now rewrite vaddC, vadd0|].
  fold (ksum c (l1 ++ l2)) (ksum c l1). rewrite IH. destruct (fst e =? c); auto.
Qed.
Lemma ksum_perm : forall c l l', Permutation l l' -> ksum c l = ksum c l'.
Proof.
  induction 1 as [|e l l' P IH|e f l|l1 l2 l3 P1 IH1 P2 IH2]; auto; cbn [ksum fold_right].
  - fold (ksum c l) (ksum c l'). now rewrite IH.
  - fold (ksum c l). destruct (fst e =? c), (fst f =? c); auto. rewrite !vaddA. f_equal. apply vaddC.
  - congruence.
Qed.
Lemma ksum_none : forall c l, (forall k v, In (k, v) l -> k <> c) -> ksum c l = v0.
Proof.
  induction l as [|[k v] l IH]; intros H; [reflexivity|]. cbn [ksum fold_right fst]. fold (ksum c l).
  destruct (Nat.eqb_spec k c) as [E|E]; [exfalso; exact (H k v (or_introl eq_refl) E)|].
  apply IH. intros k' v' H'. apply (H k' v'). now right.
Qed.
Lemma ksum_map : forall c (F : nat -> V) keys, NoDup keys -> In c keys -> ksum c (map (fun k => (k, F k)) keys) = F c.
Proof.
  induction keys as [|k keys IH]; intros N H; [destruct H|]. inversion N as [|? ? N1 N2]; subst.
  cbn [map ksum fold_right fst snd]. fold (ksum c (map (fun k => (k, F k)) keys)).
  destruct (Nat.eqb_spec k c) as [->|E].
  - rewrite ksum_none, vadd0; auto. intros k' v' H' ->. apply in_map_iff in H' as [a [[= -> _] H']]. contradiction.
  - destruct H as [?|H]; [contradiction|]. now apply IH.
Qed.

Lemma adds_length : forall lb l x, length (adds lb x l) = length x.
Proof. induction l as [|e l IH]; intros x; cbn; auto. unfold adds in *. rewrite IH. apply lset_length. Qed.
Lemma adds_app : forall lb l1 l2 x, adds lb x (l1 ++ l2) = adds lb (adds lb x l1) l2.
Proof. intros. unfold adds. apply fold_left_app. Qed.
Lemma adds_nth : forall lb l x c, lb <= c < lb + length x -> (forall k v, In (k, v) l -> lb <= k) ->
  nth_error (adds lb x l) (c - lb) = Some (vadd (nth (c - lb) x d) (ksum c l)).
Proof.
  induction l as [|[k v] l IH]; intros x c Hc Hl.
  - cbn. rewrite vadd0. apply nth_error_nth'. lia.
  - cbn [adds fold_left fst snd]. change (fold_left _ l ?y) with (adds lb y l).
    rewrite IH; [|rewrite lset_length; lia|intros k' v' H'; apply (Hl k' v'); now right].
    f_equal. cbn [ksum fold_right fst snd]. fold (ksum c l). pose proof (Hl k v (or_introl eq_refl)).
    destruct (Nat.eqb_spec k c) as [->|E].
    + rewrite nth_lset_eq by lia. now rewrite vaddA.
    + rewrite nth_lset_ne by lia. reflexivity.
Qed.
Lemma adds_nth_other : forall lb l x j, (forall k v, In (k, v) l -> k - lb <> j) ->
  nth_error (adds lb x l) j = nth_error x j.
Proof.
  induction l as [|[k v] l IH]; intros x j H; auto. cbn [adds fold_left fst snd].
  change (fold_left _ l ?y) with (adds lb y l). rewrite IH.
  - apply nth_error_lset_ne. apply (H k v). now left.
  - intros k' v' H'. apply (H k' v'). now right.
Qed.
Lemma add_at_ok : forall lb (F : nat -> V) idx x, (forall c, In c idx -> lb <= c < lb + length x) ->
  add_at vadd lb x idx (map F idx) = Some (adds lb x (map (fun c => (c, F c)) idx)).
Proof.
  induction idx as [|c idx IH]; intros x H; [reflexivity|]. cbn [map add_at].
  rewrite read_at_ok by (apply H; now left). rewrite IH; [reflexivity|].
  intros c' Hc'. rewrite lset_length. apply H. now right.
Qed.
Lemma add_blocks_ok : forall (F : nat -> nat -> V) lb q pool bl x,
  (forall p idx, In (p, idx) bl -> exists m, message_for p q pool = Some m /\ m_val m = map (F p) idx) ->
  (forall p idx c, In (p, idx) bl -> In c idx -> lb <= c < lb + length x) ->
  add_blocks vadd lb q pool x bl =
  Some (adds lb x (flat_map (fun b => map (fun c => (c, F (fst b) c)) (snd b)) bl)).
Proof.
  induction bl as [|[p idx] bl IH]; intros x HM HR; [reflexivity|]. cbn [add_blocks fst snd flat_map].
  destruct (HM p idx (or_introl eq_refl)) as [m [E Ev]]. rewrite E, Ev.
  rewrite add_at_ok by (intros c Hc; eapply HR; [now left|auto]).
  rewrite IH, adds_app; [reflexivity| |].
  - intros s i H. apply HM. now right.
  - intros s i c H Hc. rewrite adds_length. eapply HR; [right; eauto|auto].
Qed.

(** value that processor p keeps for global index c *)
Definition gval (gtp : list nat) (st : list pstate) (xs : list (list V)) (p c : nat) : V :=
  match nth_error st p, nth_error xs p with
  | Some s, Some x => nth (gname (p_map s) c - bound gtp p) x d
  | _, _ => v0
  end.
(** sum over all processors of the values kept for an index they do not own *)
Definition ghost_sum (gtp : list nat) (st : list pstate) (xs : list (list V)) (c : nat) : V :=
  fold_right (fun ps acc => match find_map (p_map (snd ps)) c with
                            | Some _ => vadd (gval gtp st xs (fst ps) c) acc
                            | None => acc end) v0 (combine (seq 0 (length st)) st).

Lemma requests_sum : forall gtp mats st xs q c, good_mats gtp mats -> all_good gtp mats st ->
  S q < length gtp -> bound gtp q <= c < bound gtp (S q) ->
  ksum c (flat_map (fun b => map (fun c => (c, gval gtp st xs (fst b) c)) (snd b)) (requests_to q st)) =
  ghost_sum gtp st xs c.
Proof.
  intros gtp mats st xs q c GM [L A] Hq Hc. unfold requests_to, ghost_sum.
  assert (Hin : forall p s, In (p, s) (combine (seq 0 (length st)) st) -> nth_error st p = Some s).
  { intros p s H. now apply in_ix. }
  revert Hin. generalize (combine (seq 0 (length st)) st). induction l as [|[p s] l IH]; intros Hin; [reflexivity|].
  cbn [flat_map fold_right fst snd]. rewrite flat_map_app, ksum_app. rewrite IH by (intros; apply Hin; now right).
  destruct (A p s (Hin p s (or_introl eq_refl))) as [rows [bl [Er P]]].
  rewrite (g_req _ _ _ _ _ P), read_pack. pose proof (g_num _ _ _ _ _ P) as I. pose proof (g_blk _ _ _ _ _ P) as B.
  assert (E : ksum c (flat_map (fun b => map (fun c0 => (c0, gval gtp st xs (fst b) c0)) (snd b))
                (map (fun b => (p, snd b)) (filter (fun b => fst b =? q) bl))) =
              ksum c (map (fun k => (k, gval gtp st xs p k)) (map fst (p_map s)))).
  { rewrite <- (b_concat _ _ _ _ _ B). pose proof (b_range _ _ _ _ _ B) as BR. clear - BR Hc Hq GM L vaddA vaddC vadd0.
    induction bl as [|[a b] bl IHb]; [reflexivity|].
    assert (BR' : forall q0 l, In (q0, l) bl -> 0 <= q0 < 0 + (length gtp - 1) /\ (forall c, In c l -> bound gtp q0 <= c < bound gtp (S q0)))
      by (intros; apply BR; now right).
    cbn [filter fst map snd concat]. rewrite map_app, ksum_app, <- IHb by exact BR'.
    destruct (Nat.eqb_spec a q) as [->|N].
    - cbn [map flat_map fst snd]. now rewrite ksum_app.
    - rewrite (ksum_none c (map _ b)); [now rewrite vaddC, vadd0|].
      intros k v Hk ->. apply in_map_iff in Hk as [k' [[= -> _] Hk]].
      destruct (BR a b (or_introl eq_refl)) as [R1 R2]. specialize (R2 _ Hk). apply N.
      eapply owner_unique; [apply GM| | |exact R2|exact Hc]; lia. }
  rewrite E. destruct (find_map (p_map s) c) as [g|] eqn:Ef.
  - f_equal. apply ksum_map; [apply ss_nodup, I|].
    apply find_map_in in Ef; [|apply ss_nodup, I]. apply in_map_iff. exists (c, g). auto.
  - rewrite ksum_none; [now rewrite vaddC, vadd0|]. apply find_map_none in Ef.
    intros k v H ->. apply in_map_iff in H as [k' [[= -> _] H]]. contradiction.
Qed.

Lemma NoDup_flat_src : forall gtp mats st q, all_good gtp mats st ->
  forall p idx idx', In (p, idx) (requests_to q st) -> In (p, idx') (requests_to q st) -> idx = idx'.
Proof.
  intros gtp mats st q AG p idx idx' H H'. apply (in_requests _ _ _ _ _ _ AG) in H as [s [bl [H1 [H2 H3]]]].
  apply (in_requests _ _ _ _ _ _ AG) in H' as [s' [bl' [H1' [H2' H3']]]]. rewrite H1 in H1'. injection H1' as <-.
  assert (bl' = bl) by (rewrite H2 in H2'; apply (f_equal blocks_of) in H2'; rewrite !read_pack in H2'; congruence).
  subst bl'. destruct AG as [L A]. destruct (A p s H1) as [rows [bl' [_ P]]]. rewrite (g_req _ _ _ _ _ P) in H2.
  assert (bl' = bl) by (apply (f_equal blocks_of) in H2; rewrite !read_pack in H2; congruence). subst bl'.
  eapply blk_unique; [apply (g_blk _ _ _ _ _ P)|eauto|eauto].
Qed.

Theorem accumulate_ok : forall gtp mats st arr xs,
  good_mats gtp mats -> all_good gtp mats st -> good_arr arr st -> good_vecs gtp st xs ->
  exists xs', accumulate vadd gtp arr st xs = Some xs' /\ length xs' = length xs /\
    forall q x, nth_error xs q = Some x ->
      exists x', nth_error xs' q = Some x' /\ length x' = length x /\
        (forall i, bound gtp (S q) - bound gtp q <= i -> nth_error x' i = nth_error x i) /\
        (forall c, bound gtp q <= c < bound gtp (S q) ->
           nth_error x' (c - bound gtp q) = Some (vadd (nth (c - bound gtp q) x d) (ghost_sum gtp st xs c))).
Proof.
  intros gtp mats st arr xs GM AG GA [GV1 GV2]. pose proof AG as [L A]. pose proof GM as [Hm [H0 [Hl _]]].
  assert (SX : forall q x, nth_error xs q = Some x -> exists s, nth_error st q = Some s).
  { intros q x Hq. destruct (nth_error st q) eqn:E; [eauto|]. apply nth_error_None in E.
    assert (q < length xs) by (apply nth_error_Some; congruence). lia. }
  set (xst := combine xs st).
  assert (Hlen : length xst = length xs) by (unfold xst; rewrite combine_length; lia).
  assert (XS : forall p x s, nth_error xst p = Some (x, s) <-> nth_error xs p = Some x /\ nth_error st p = Some s).
  { intros p x s. unfold xst. rewrite nth_combine. destruct (nth_error xs p), (nth_error st p); split;
      intros H; try discriminate; try (destruct H; discriminate).
    - injection H as <- <-. auto. - destruct H as [[= ->] [= ->]]. reflexivity. }
  assert (SM : forall p x s, nth_error xs p = Some x -> nth_error st p = Some s ->
     exists bl rows, pgood gtp p rows s bl /\ nth_error mats p = Some rows /\
       send_msgs (bound gtp p) p x (p_recv s) = Some (map (fun b => Msg p (fst b) (map (gval gtp st xs p) (snd b))) bl)).
  { intros p x s Hx Hs. destruct (A p s Hs) as [rows [bl [Er P]]]. exists bl, rows. split; [exact P|]. split; [exact Er|].
    unfold send_msgs. rewrite (g_recv _ _ _ _ _ P), read_pack, map_map. apply all_some_map.
    intros [q idx] Hb. cbn [fst snd]. rewrite map_map.
    rewrite (all_some_map _ _ _ (gval gtp st xs p)); [reflexivity|].
    intros c Hc. assert (K : In c (map fst (p_map s))).
    { rewrite <- (b_concat _ _ _ _ _ (g_blk _ _ _ _ _ P)). apply in_concat. exists idx. split; auto.
      apply in_map_iff. exists (q, idx). auto. }
    pose proof (num_val _ _ _ _ _ _ _ (g_num _ _ _ _ _ P) (gname_key _ _ _ _ _ _ (g_num _ _ _ _ _ P) K)).
    pose proof (ext_ge _ _ _ _ _ _ GM Er P). pose proof (GV2 _ _ _ Hs Hx).
    rewrite read_at_ok by lia. unfold gval. rewrite Hs, Hx. reflexivity. }
  unfold accumulate.
  destruct (all_ix _ _ (fun pxs : nat * (list V * pstate) => let '(p, (x, s)) := pxs in
       send_msgs (bound gtp p) p x (p_recv s)) xst) as [pools [E [LP NP]]].
  { intros p [x s] Hp. apply XS in Hp as [Hx Hs]. destruct (SM p x s Hx Hs) as [bl [rows [_ [_ Q]]]]. eauto. }
  rewrite Hlen in E. fold xst. rewrite E.
  assert (MSG : forall q p idx, q < length st -> In (p, idx) (arr q) ->
      exists m, message_for p q (concat pools) = Some m /\ m_val m = map (gval gtp st xs p) idx).
  { intros q p idx Hq Hi.
    assert (Hr : In (p, idx) (requests_to q st)) by (eapply Permutation_in; [apply GA; exact Hq|exact Hi]).
    pose proof Hr as Hr0. apply (in_requests _ _ _ _ _ _ AG) in Hr as [s [bl [Hs [Er Hb]]]].
    assert (Hx : exists x, nth_error xs p = Some x).
    { destruct (nth_error xs p) eqn:Ex; [eauto|]. apply nth_error_None in Ex.
      assert (p < length st) by (apply nth_error_Some; congruence). lia. }
    destruct Hx as [x Hx]. destruct (NP p (x, s)) as [ms [Hms Hsend]]; [apply XS; auto|].
    destruct (SM p x s Hx Hs) as [bl2 [rows [P [_ Q]]]]. rewrite Q in Hsend. injection Hsend as <-.
    assert (bl2 = bl) by (rewrite (g_req _ _ _ _ _ P) in Er; apply (f_equal blocks_of) in Er; rewrite !read_pack in Er; congruence).
    subst bl2.
    assert (Hin : In (Msg p q (map (gval gtp st xs p) idx)) (concat pools)).
    { apply in_concat. eexists. split; [eapply nth_error_In; exact Hms|]. apply in_map_iff.
      exists (q, idx). auto. }
    unfold message_for. destruct (find _ (concat pools)) as [m|] eqn:Ef.
    - exists m. split; [reflexivity|]. apply find_some in Ef as [F1 F2]. apply andb_true_iff in F2 as [F2 F3].
      apply Nat.eqb_eq in F2, F3. apply in_concat in F1 as [ms' [G1 G2]]. apply In_nth_error in G1 as [p' Hp'].
      assert (exists x' s', nth_error xst p' = Some (x', s')) as [x' [s' Hxs']].
      { destruct (nth_error xst p') as [[x' s']|] eqn:Ex; [eauto|]. apply nth_error_None in Ex.
        assert (p' < length pools) by (apply nth_error_Some; congruence). lia. }
      destruct (NP p' (x', s') Hxs') as [ms2 [Hms2 Hs2]]. rewrite Hp' in Hms2. injection Hms2 as <-.
      apply XS in Hxs' as [Hx' Hs'].
      destruct (SM p' x' s' Hx' Hs') as [bl' [rows' [P' [_ Q']]]]. rewrite Q' in Hs2. injection Hs2 as <-.
      apply in_map_iff in G2 as [[q' idx'] [<- G2]]. cbn [m_src m_dst m_val fst snd] in *. subst p' q'.
      f_equal. eapply NoDup_flat_src; [exact AG| |exact Hr0]. apply (in_requests _ _ _ _ _ _ AG).
      exists s', bl'. split; auto. split; auto. apply P'.
    - exfalso. eapply find_none in Ef; [|exact Hin]. cbn in Ef. rewrite !Nat.eqb_refl in Ef. discriminate. }
  assert (RNG : forall q x p idx c, nth_error xs q = Some x -> In (p, idx) (arr q) -> In c idx ->
      bound gtp q <= c < bound gtp (S q) /\ bound gtp (S q) <= bound gtp q + length x).
  { intros q x p idx c Hx Hi Hc. destruct (SX q x Hx) as [s0 Hs0].
    assert (Hq : q < length st) by (apply nth_error_Some; congruence).
    assert (Hr : In (p, idx) (requests_to q st)) by (eapply Permutation_in; [apply GA; exact Hq|exact Hi]).
    apply (in_requests _ _ _ _ _ _ AG) in Hr as [s [bl [Hs [Er Hb]]]].
    destruct (A p s Hs) as [rows [bl2 [_ P]]].
    assert (bl2 = bl) by (rewrite (g_req _ _ _ _ _ P) in Er; apply (f_equal blocks_of) in Er; rewrite !read_pack in Er; congruence).
    subst bl2. destruct (b_range _ _ _ _ _ (g_blk _ _ _ _ _ P) q idx Hb) as [_ R]. specialize (R c Hc).
    destruct (A q s0 Hs0) as [rows0 [bl0 [Er0 P0]]]. pose proof (ext_ge _ _ _ _ _ _ GM Er0 P0).
    pose proof (GV2 _ _ _ Hs0 Hx). lia. }
  assert (FIN : forall q x, nth_error xs q = Some x ->
     match blocks_of (send_of arr q) with
     | Some bl => add_blocks vadd (bound gtp q) q (concat pools) x bl
     | None => None end =
     Some (adds (bound gtp q) x (flat_map (fun b => map (fun c => (c, gval gtp st xs (fst b) c)) (snd b)) (arr q)))).
  { intros q x Hx. unfold send_of. rewrite read_pack. destruct (SX q x Hx) as [s0 Hs0].
    assert (Hq : q < length st) by (apply nth_error_Some; congruence). apply add_blocks_ok.
    - intros p idx Hi. now apply MSG.
    - intros p idx c Hi Hc. pose proof (RNG q x p idx c Hx Hi Hc). lia. }
  destruct (all_ix _ _ (fun px => match blocks_of (send_of arr (fst px)) with
     | Some bl => add_blocks vadd (bound gtp (fst px)) (fst px) (concat pools) (snd px) bl
     | None => None end) xs) as [xs' [E' [L' N']]].
  { intros q x Hx. cbn [fst snd]. eexists. apply FIN. exact Hx. }
  exists xs'. split; [exact E'|]. split; [exact L'|].
  intros q x Hx. destruct (N' q x Hx) as [x' [Hx' Q]]. cbn [fst snd] in Q. rewrite (FIN q x Hx) in Q. injection Q as <-.
  eexists. split; [exact Hx'|]. split; [apply adds_length|].
  destruct (SX q x Hx) as [s0 Hs0]. assert (Hq : q < length st) by (apply nth_error_Some; congruence).
  destruct (A q s0 Hs0) as [rows0 [bl0 [Er0 P0]]]. pose proof (ext_ge _ _ _ _ _ _ GM Er0 P0). pose proof (GV2 _ _ _ Hs0 Hx).
  assert (KR : forall k v, In (k, v) (flat_map (fun b => map (fun c => (c, gval gtp st xs (fst b) c)) (snd b)) (arr q)) ->
     bound gtp q <= k < bound gtp (S q)).
  { intros k v Hk. apply in_flat_map in Hk as [[p idx] [Hi Hk]]. cbn [fst snd] in Hk.
    apply in_map_iff in Hk as [c [[= -> _] Hc]]. apply (RNG q x p idx k Hx Hi Hc). }
  split.
  - intros i Hi. apply adds_nth_other. intros k v Hk E0. pose proof (KR k v Hk). lia.
  - intros c Hc. rewrite adds_nth; [|lia|intros k v Hk; apply (KR k v Hk)]. f_equal. f_equal.
    rewrite <- (requests_sum gtp mats st xs q c); auto; [|lia]. apply ksum_perm.
    apply Permutation_flat_map. apply GA. exact Hq.
Qed.

(** ** Products *)
Context (vmul : V -> V -> V).
Definition prod_row (X : nat -> V) (r : row) : V :=
  fold_left (fun acc e => vadd acc (vmul (X (fst e)) (snd e))) r v0.

Lemma row_vec_ok : forall lb (x : list V) (X : nat -> V) (g : nat -> nat) (r : row) acc,
  (forall c, In c (map fst r) -> lb <= g c /\ nth_error x (g c - lb) = Some (X c)) ->
  row_vec vadd vmul lb x (map (fun e => (g (fst e), snd e)) r) acc =
  Some (fold_left (fun acc e => vadd acc (vmul (X (fst e)) (snd e))) r acc).
Proof using Type. clear vaddA vaddC vadd0.
  induction r as [|[c v] r IH]; intros acc H; [reflexivity|]. cbn [map row_vec fst snd fold_left].
  destruct (H c (or_introl eq_refl)) as [H1 H2]. unfold read_at. destruct (Nat.ltb_spec (g c) lb); [lia|].
  rewrite H2. apply IH. intros c' Hc'. apply H. now right.
Qed.
Lemma mat_vec_ok : forall lb (x : list V) (X : nat -> V) (g : nat -> nat) alpha beta (rows : list row) out,
  (forall c, In c (cols_of rows) -> lb <= g c /\ nth_error x (g c - lb) = Some (X c)) ->
  length rows <= length out ->
  exists out', mat_vec vadd v0 vmul lb alpha beta (map (map (fun e => (g (fst e), snd e))) rows) x out = Some out' /\
    length out' = length out /\
    (forall i r o, nth_error rows i = Some r -> nth_error out i = Some o ->
       nth_error out' i = Some (vadd (vmul beta o) (vmul alpha (prod_row X r)))) /\
    (forall i, length rows <= i -> nth_error out' i = nth_error out i).
Proof using Type. clear vaddA vaddC vadd0.
  induction rows as [|r rows IH]; intros out H L.
  - exists out. cbn. split; [destruct out; reflexivity|]. split; [reflexivity|]. split; [|reflexivity].
    intros i r o E. destruct i; discriminate.
  - destruct out as [|o out]; [cbn in L; lia|]. cbn [map mat_vec].
    rewrite (row_vec_ok lb x X g).
    2:{ intros c Hc. apply H. unfold cols_of. cbn [concat]. rewrite map_app. apply in_app_iff. now left. }
    destruct (IH out) as [t [E [Lt [N1 N2]]]]; [|cbn in L; lia|].
    { intros c Hc. apply H. unfold cols_of. cbn [concat]. rewrite map_app. apply in_app_iff. now right. }
    rewrite E. eexists. split; [reflexivity|]. split; [cbn; now rewrite Lt|]. split.
    + intros [|i] r' o' E1 E2; cbn [nth_error] in *.
      * injection E1 as <-. injection E2 as <-. reflexivity.
      * now apply N1.
    + intros [|i] Hi; cbn [length] in Hi; [lia|]. cbn [nth_error]. apply N2. lia.
Qed.

(** entries of the transposed product *)
Definition tr_entries (alpha : V) (rows : list row) (x : list V) : list (nat * V) :=
  flat_map (fun rx => map (fun e => (fst e, vmul (vmul alpha (snd rx)) (snd e))) (fst rx)) (combine rows x).
Lemma row_vec_tr_ok : forall lb alpha xi (g : nat -> nat) (r : row) out,
  (forall c, In c (map fst r) -> lb <= g c < lb + length out) ->
  row_vec_tr vadd vmul lb alpha xi (map (fun e => (g (fst e), snd e)) r) out =
  Some (adds lb out (map (fun e => (g (fst e), vmul (vmul alpha xi) (snd e))) r)).
Proof using Type. clear vaddA vaddC vadd0.
  induction r as [|[c v] r IH]; intros out H; [reflexivity|]. cbn [map row_vec_tr fst snd].
  rewrite read_at_ok by (apply H; now left). rewrite IH; [reflexivity|].
  intros c' Hc'. rewrite lset_length. apply H. now right.
Qed.
Lemma mat_vec_tr_ok : forall lb alpha (g : nat -> nat) (rows : list row) x out,
  (forall c, In c (cols_of rows) -> lb <= g c < lb + length out) -> length rows <= length x ->
  mat_vec_tr_rows vadd vmul lb alpha (map (map (fun e => (g (fst e), snd e))) rows) x out =
  Some (adds lb out (map (fun e => (g (fst e), snd e)) (tr_entries alpha rows x))).
Proof using Type. clear vaddA vaddC vadd0.
  induction rows as [|r rows IH]; intros x out H L; [reflexivity|].
  destruct x as [|xi x]; [cbn in L; lia|]. cbn [map mat_vec_tr_rows].
  rewrite row_vec_tr_ok.
  2:{ intros c Hc. apply H. unfold cols_of. cbn [concat]. rewrite map_app. apply in_app_iff. now left. }
  rewrite IH; [|intros c Hc; rewrite adds_length; apply H; unfold cols_of; cbn [concat]; rewrite map_app; apply in_app_iff; now right|cbn in L; lia].
  rewrite <- adds_app. f_equal. f_equal. unfold tr_entries. cbn [combine flat_map fst snd].
  rewrite map_app. f_equal. rewrite map_map. reflexivity.
Qed.
Lemma tr_entries_cols : forall alpha (rows : list row) x k v, In (k, v) (tr_entries alpha rows x) -> In k (cols_of rows).
Proof using Type. clear vaddA vaddC vadd0.
  intros alpha rows x k v H. unfold tr_entries in H. apply in_flat_map in H as [[r xi] [H1 H2]].
  apply in_map_iff in H2 as [[c w] [[= <- <-] H2]]. apply in_combine_l in H1. unfold cols_of.
  apply in_map_iff. exists (c, w). split; auto. apply in_concat. eauto.
Qed.
Lemma ksum_rename : forall (g : nat -> nat) c l, (forall k v, In (k, v) l -> g k = g c -> k = c) ->
  ksum (g c) (map (fun e => (g (fst e), snd e)) l) = ksum c l.
Proof using Type. clear vaddA vaddC vadd0.
  induction l as [|[k v] l IH]; intros H; [reflexivity|]. cbn [map ksum fold_right fst snd].
  fold (ksum (g c) (map (fun e : nat * V => (g (fst e), snd e)) l)) (ksum c l).
  rewrite IH by (intros k' v' H'; apply (H k' v'); now right).
  destruct (Nat.eqb_spec (g k) (g c)) as [E|E], (Nat.eqb_spec k c) as [E'|E']; auto.
  - exfalso. apply E'. apply (H k v); auto. now left.
  - subst. congruence.
Qed.
Lemma adds_zero : forall lb n l c, lb <= c < lb + n -> (forall k v, In (k, v) l -> lb <= k) ->
  nth (c - lb) (adds lb (repeat v0 n) l) d = ksum c l.
Proof using vaddA vaddC vadd0. clear vmul.
  intros lb n l c Hc Hl. apply nth_error_nth. rewrite adds_nth; [|rewrite repeat_length; lia|exact Hl].
  f_equal. rewrite (nth_error_nth (repeat v0 n) (c - lb) d (x := v0)).
  - rewrite vaddC. apply vadd0.
  - rewrite nth_error_repeat; auto. lia.
Qed.

(** the sum of all contributions to c *)
Definition total_sum (c : nat) (es : list (list (nat * V))) : V :=
  fold_right (fun e acc => vadd (ksum c e) acc) v0 es.

Lemma total_split : forall gtp mats st outs (es : list (list (nat * V))) q c,
  good_mats gtp mats -> all_good gtp mats st -> length es = length mats ->
  (forall p rows s e, nth_error mats p = Some rows -> nth_error st p = Some s -> nth_error es p = Some e ->
     (forall k v, In (k, v) e -> In k (cols_of rows)) /\
     (In c (map fst (p_map s)) -> gval gtp st outs p c = ksum c e)) ->
  S q < length gtp -> bound gtp q <= c < bound gtp (S q) ->
  vadd (ksum c (nth q es [])) (ghost_sum gtp st outs c) = total_sum c es.
Proof using vaddA vaddC vadd0. clear vmul.
  intros gtp mats st outs es q c GM [L A] Le H Hq Hc. unfold ghost_sum.
  assert (G : forall n a (st' : list pstate) es', length st' = n -> length es' = n ->
     (forall i s, nth_error st' i = Some s -> nth_error st (a + i) = Some s) ->
     (forall i e, nth_error es' i = Some e -> nth_error es (a + i) = Some e) ->
     let F := fold_right (fun ps acc => match find_map (p_map (snd ps)) c with
                            | Some _ => vadd (gval gtp st outs (fst ps) c) acc
                            | None => acc end) v0 (combine (seq a n) st') in
     total_sum c es' = if (a <=? q) && (q <? a + n) then vadd (ksum c (nth (q - a) es' [])) F else F).
  { induction n as [|n IH]; intros a st' es' L1 L2 S1 S2.
    - destruct st'; [|discriminate]. destruct es'; [|discriminate]. cbn [seq combine fold_right total_sum].
      destruct (Nat.leb_spec a q), (Nat.ltb_spec q (a + 0)); cbn; auto; lia.
    - destruct st' as [|s st']; [discriminate|]. destruct es' as [|e es']; [discriminate|].
      cbn [seq combine fold_right fst snd total_sum]. cbn zeta.
      fold (total_sum c es'). cbn zeta in IH.
      rewrite (IH (S a) st' es'); [|cbn in L1; lia|cbn in L2; lia| |].
      2:{ intros i s' Hi. replace (S a + i) with (a + S i) by lia. now apply S1. }
      2:{ intros i e' Hi. replace (S a + i) with (a + S i) by lia. now apply S2. }
      pose proof (S1 0 s eq_refl) as Hs. pose proof (S2 0 e eq_refl) as He. rewrite Nat.add_0_r in Hs, He.
      destruct (A a s Hs) as [rows [bl [Er P]]]. destruct (H a rows s e Er Hs He) as [H1 H2].
      pose proof (g_num _ _ _ _ _ P) as I.
      assert (Ha : S a < length gtp).
      { assert (a < length mats) by (apply nth_error_Some; congruence). destruct GM as [_ [_ [? _]]]. lia. }
      destruct (Nat.eq_dec a q) as [->|N].
      + (* owner *)
        assert (Ef : find_map (p_map s) c = None).
        { apply find_map_none. intro Q. apply (n_keys _ _ _ _ _ I) in Q as [_ Q]. unfold outside in Q.
          apply orb_true_iff in Q as [Q|Q]; [apply Nat.ltb_lt in Q; lia|apply Nat.leb_le in Q; lia]. }
        rewrite Ef, Nat.leb_refl, Nat.sub_diag. cbn [nth].
        destruct (Nat.leb_spec (S q) q); [lia|]. destruct (Nat.ltb_spec q (q + S n)); [|lia]. reflexivity.
      + assert (Hk : ksum c e = match find_map (p_map s) c with Some _ => gval gtp st outs a c | None => v0 end).
        { destruct (find_map (p_map s) c) as [g|] eqn:Ef.
          - symmetry. apply H2. apply find_map_in in Ef; [|apply ss_nodup, I]. apply in_map_iff. exists (c, g). auto.
          - apply ksum_none. intros k v Hk ->. apply find_map_none in Ef. apply Ef. apply (n_keys _ _ _ _ _ I).
            split; [now apply (H1 c v)|]. unfold outside. apply orb_true_iff.
            destruct (Nat.ltb_spec c (bound gtp a)); [now left|]. right. apply Nat.leb_le.
            destruct (Nat.le_gt_cases (bound gtp (S a)) c); auto. exfalso. apply N.
            eapply owner_unique; [apply GM|exact Ha|exact Hq| |exact Hc]. lia. }
        rewrite Hk.
        replace ((a <=? q) && (q <? a + S n)) with ((S a <=? q) && (q <? S a + n))
          by (destruct (Nat.leb_spec a q), (Nat.leb_spec (S a) q), (Nat.ltb_spec q (a + S n)), (Nat.ltb_spec q (S a + n)); cbn; auto; lia).
        destruct ((S a <=? q) && (q <? S a + n)) eqn:Eb.
        * apply andb_true_iff in Eb as [Eb _]. apply Nat.leb_le in Eb.
          replace (q - a) with (S (q - S a)) by lia. cbn [nth].
          destruct (find_map (p_map s) c).
          -- rewrite !vaddA. f_equal. apply vaddC.
          -- now rewrite vaddC, vadd0.
        * destruct (find_map (p_map s) c); auto. now rewrite vaddC, vadd0. }
  rewrite (G (length st) 0 st es); auto; [|lia].
  destruct GM as [_ [_ [Hl _]]]. cbn [Nat.leb andb].
  destruct (Nat.ltb_spec q (0 + length st)); [|lia]. now rewrite Nat.sub_0_r.
Qed.
End All.
