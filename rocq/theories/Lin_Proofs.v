(** Proofs about products with sparse matrices and the Residual class. *)
From Coq Require Import List Bool Arith Lia Reals Lra.
From Verif Require Import Util Row_Model Lin_Model Lin_Spec.
Import ListNotations.
Local Open Scope R_scope.

(** * Sums *)
Lemma sum_ext n f g : (forall i, (i < n)%nat -> f i = g i) -> sum n f = sum n g.
Proof. induction n as [|n IH]; intros H; cbn [sum]; [reflexivity|]. rewrite IH by (intros; apply H; lia). rewrite H by lia. reflexivity. Qed.
Lemma sum_add n f g : sum n (fun i => f i + g i) = sum n f + sum n g.
Proof. induction n as [|n IH]; cbn [sum]; [lra|]. rewrite IH. ring. Qed.
Lemma sum_mul n k f : sum n (fun i => k * f i) = k * sum n f.
Proof. induction n as [|n IH]; cbn [sum]; [lra|]. rewrite IH. ring. Qed.
Lemma sum_0 n f : (forall i, (i < n)%nat -> f i = 0) -> sum n f = 0.
Proof. induction n as [|n IH]; intros H; cbn [sum]; [reflexivity|]. rewrite IH by (intros; apply H; lia). rewrite H by lia. lra. Qed.
Lemma sum_swap n m f : sum n (fun i => sum m (fun j => f i j)) = sum m (fun j => sum n (fun i => f i j)).
Proof. induction n as [|n IH]; cbn [sum]; [symmetry; apply sum_0; reflexivity|]. rewrite IH, <- sum_add. reflexivity. Qed.
Lemma sum_one n f k : (k < n)%nat -> (forall i, (i < n)%nat -> i <> k -> f i = 0) -> sum n f = f k.
Proof.
  induction n as [|n IH]; intros L H; [lia|]. cbn [sum]. destruct (Nat.eq_dec k n) as [->|N].
  - rewrite sum_0 by (intros i Li; apply H; lia). lra.
  - rewrite IH by (try lia; intros; apply H; lia). rewrite (H n) by lia. lra.
Qed.

(** * Vectors *)
Definition at_ (v : vec) (i : nat) : R := value (vbeg v) (vals v) i.
Definition inside (v : vec) (i : nat) : Prop := (vbeg v <= i < vbeg v + length (vals v))%nat.
Lemma pos_some b i : (b <= i)%nat -> pos b i = Some (i - b)%nat.
Proof. intros H. unfold pos. destruct (Nat.ltb_spec i b); [lia|reflexivity]. Qed.
Lemma pos_inv b i k : pos b i = Some k -> (i = b + k)%nat.
Proof. unfold pos. destruct (Nat.ltb_spec i b); [discriminate|]. intros X. injection X as <-. lia. Qed.
Lemma vget_in v i : inside v i -> vget v i = Some (at_ v i).
Proof.
  intros (L1 & L2). unfold vget, at_, value. rewrite pos_some by exact L1. destruct (Nat.ltb_spec i (vbeg v)); [lia|]. apply nth_error_nth'. lia.
Qed.
Lemma vset_in v i x : inside v i -> exists v', vset v i x = Some v' /\ vbeg v' = vbeg v /\ length (vals v') = length (vals v) /\
  forall j, at_ v' j = if (j =? i)%nat then x else at_ v j.
Proof.
  intros (L1 & L2). unfold vset. rewrite pos_some by exact L1. destruct (Nat.ltb_spec (i - vbeg v) (length (vals v))); [|lia].
  eexists. split; [reflexivity|]. cbn [vbeg vals]. split; [reflexivity|]. split; [apply lset_length|]. intros j. unfold at_, value. cbn [vbeg vals].
  destruct (Nat.ltb_spec j (vbeg v)), (Nat.eqb_spec j i); try lia; try reflexivity.
  - subst. apply nth_lset_eq. lia.
  - apply nth_lset_ne. lia.
Qed.
Lemma at_out v i : ~ inside v i -> at_ v i = 0.
Proof. unfold inside, at_, value. intros H. destruct (Nat.ltb_spec i (vbeg v)); [reflexivity|]. apply nth_overflow. lia. Qed.

(** * Rows *)
Fixpoint dot (r : rrow) (x : nat -> R) : R := match r with [] => 0 | (c, a) :: r' => a * x c + dot r' x end.
Lemma dot_sum N x : forall r, (forall e, In e r -> (fst e < N)%nat) -> dot r x = sum N (fun c => coef r c * x c).
Proof.
  induction r as [|(d, a) r IH]; intros H; cbn [dot coef].
  - symmetry. apply sum_0. intros. lra.
  - rewrite (sum_ext N _ (fun c => (if (d =? c)%nat then a else 0) * x c + coef r c * x c)) by (intros; ring).
    rewrite sum_add, IH by (intros; apply H; right; assumption). rewrite (sum_one N (fun c => (if (d =? c)%nat then a else 0) * x c) d (H _ (or_introl eq_refl))); [rewrite Nat.eqb_refl; reflexivity|].
    intros i _ N1. destruct (Nat.eqb_spec d i); [congruence|ring].
Qed.
Lemma row_vec_ok r x : (forall e, In e r -> inside x (fst e)) -> row_vec r x = Some (dot r (at_ x)).
Proof.
  unfold row_vec. assert (X : forall ret, (forall e, In e r -> inside x (fst e)) -> row_vec_from ret r x = Some (ret + dot r (at_ x))).
  { induction r as [|(c, a) r IH]; intros ret H; cbn [row_vec_from dot]; [f_equal; ring|].
    rewrite vget_in by exact (H (c, a) (or_introl eq_refl)). rewrite IH by (intros; apply H; right; assumption). f_equal. ring. }
  intros H. rewrite X by exact H. f_equal. ring.
Qed.

Lemma mv_loop_ok alpha x beta : forall rs ind out, (forall r e, In r rs -> In e r -> inside x (fst e)) -> (forall i, (ind <= i < ind + length rs)%nat -> inside out i) ->
  exists out', mv_loop alpha x beta ind rs out = Some out' /\ vbeg out' = vbeg out /\ length (vals out') = length (vals out) /\
    forall i, at_ out' i = if ((ind <=? i) && (i <? ind + length rs))%nat then beta * at_ out i + alpha * dot (nth (i - ind) rs []) (at_ x) else at_ out i.
Proof.
  induction rs as [|r rs IH]; intros ind out Hx Ho; cbn [mv_loop].
  - exists out. do 3 (split; [reflexivity|]). intros i. cbn [length]. destruct (Nat.leb_spec ind i), (Nat.ltb_spec i (ind + 0)); cbn [andb]; try lia; reflexivity.
  - assert (I0 : inside out ind) by (apply Ho; cbn [length]; lia). rewrite vget_in by exact I0. rewrite row_vec_ok by (intros e He; apply (Hx r e (or_introl eq_refl) He)).
    destruct (vset_in out ind (beta * at_ out ind + alpha * dot r (at_ x)) I0) as (o1 & -> & B1 & L1 & A1).
    destruct (IH (S ind) o1) as (o2 & -> & B2 & L2 & A2).
    + intros r0 e H. apply Hx. right. exact H.
    + intros i Hi. unfold inside. rewrite B1, L1. apply Ho. cbn [length]. lia.
    + exists o2. split; [reflexivity|]. split; [congruence|]. split; [congruence|]. intros i. rewrite A2, A1. cbn [length].
      destruct (Nat.eqb_spec i ind) as [->|N].
      * destruct (Nat.leb_spec (S ind) ind); [lia|]. cbn [andb]. destruct (Nat.leb_spec ind ind), (Nat.ltb_spec ind (ind + S (length rs))); try lia. cbn [andb]. rewrite Nat.sub_diag. reflexivity.
      * destruct (Nat.leb_spec (S ind) i), (Nat.ltb_spec i (S ind + length rs)), (Nat.leb_spec ind i), (Nat.ltb_spec i (ind + S (length rs))); cbn [andb]; try lia; try reflexivity.
        replace (i - ind)%nat with (S (i - S ind)) by lia. reflexivity.
Qed.

(** what the vector is when the product starts *)
Definition fits (m : mat) (out : vec) : Prop := vals out = [] \/ (forall i, (mbeg m <= i < mbeg m + length (mrows m))%nat -> inside out i).
Lemma prepare_at m out i : at_ (prepare m out) i = at_ out i.
Proof.
  unfold prepare. destruct (vals out) eqn:E; [|reflexivity]. unfold at_, value. cbn [vbeg vals]. rewrite E.
  assert (X : forall k n, nth k (repeat 0 n) 0 = 0) by (intros k n; revert k; induction n as [|n IHn]; intros [|k]; cbn; auto).
  rewrite X. destruct (_ <? _)%nat, (_ <? _)%nat; auto; destruct (i - _)%nat; reflexivity.
Qed.
Lemma prepare_in m out : fits m out -> forall i, (mbeg m <= i < mbeg m + length (mrows m))%nat -> inside (prepare m out) i.
Proof.
  intros F i Hi. unfold prepare. destruct (vals out) eqn:E; [unfold inside; cbn [vbeg vals]; rewrite repeat_length; lia|].
  destruct F as [F|F]; [congruence|]. exact (F i Hi).
Qed.
Lemma elem_nth b rows i c : (b <= i)%nat -> elem b rows i c = coef (nth (i - b) rows []) c.
Proof. intros H. unfold elem. destruct (Nat.ltb_spec i b); [lia|reflexivity]. Qed.
Lemma elem_out b rows i c : ~ (b <= i < b + length rows)%nat -> elem b rows i c = 0.
Proof. intros H. unfold elem. destruct (Nat.ltb_spec i b); [reflexivity|]. rewrite nth_overflow by lia. reflexivity. Qed.

Lemma mat_vec_ok m alpha x beta out N : columns_in (vbeg x) (vbeg x + length (vals x)) (mrows m) -> (vbeg x + length (vals x) <= N)%nat -> fits m out ->
  exists out', mat_vec m alpha x beta out = Some out' /\ vbeg out' = vbeg (prepare m out) /\ length (vals out') = length (vals (prepare m out)) /\
    forall i, at_ out' i = if ((mbeg m <=? i) && (i <? mbeg m + length (mrows m)))%nat then beta * at_ out i + alpha * sum N (fun c => elem (mbeg m) (mrows m) i c * at_ x c) else at_ out i.
Proof.
  intros C LN F. destruct (mv_loop_ok alpha x beta (mrows m) (mbeg m) (prepare m out)) as (o & E & B & L & A).
  - intros r e Hr He. exact (C r e Hr He).
  - exact (prepare_in m out F).
  - exists o. split; [exact E|]. split; [exact B|]. split; [exact L|]. intros i. rewrite A, prepare_at.
    destruct (Nat.leb_spec (mbeg m) i), (Nat.ltb_spec i (mbeg m + length (mrows m))); cbn [andb]; try reflexivity.
    rewrite (dot_sum N). { f_equal. f_equal. apply sum_ext. intros c _. rewrite elem_nth by lia. reflexivity. }
    intros e He. assert (Hr : In (nth (i - mbeg m) (mrows m) []) (mrows m)) by (apply nth_In; lia). specialize (C _ _ Hr He). lia.
Qed.

Lemma mvt_row_ok alpha x ind : forall r out, (r <> [] -> inside x ind) -> (forall e, In e r -> inside out (fst e)) ->
  exists out', mvt_row alpha x ind r out = Some out' /\ vbeg out' = vbeg out /\ length (vals out') = length (vals out) /\
    forall c, at_ out' c = at_ out c + alpha * at_ x ind * coef r c.
Proof.
  induction r as [|(d, a) r IH]; intros out Hx Ho; cbn [mvt_row].
  - exists out. do 3 (split; [reflexivity|]). intros c. cbn [coef]. ring.
  - assert (I0 : inside out d) by exact (Ho (d, a) (or_introl eq_refl)). rewrite vget_in by exact I0. rewrite vget_in by (apply Hx; discriminate).
    destruct (vset_in out d (at_ out d + alpha * at_ x ind * a) I0) as (o1 & -> & B1 & L1 & A1).
    destruct (IH o1) as (o2 & -> & B2 & L2 & A2).
    + intros _. apply Hx. discriminate.
    + intros e He. unfold inside. rewrite B1, L1. apply Ho. right. exact He.
    + exists o2. split; [reflexivity|]. split; [congruence|]. split; [congruence|]. intros c. rewrite A2, A1. cbn [coef].
      destruct (Nat.eqb_spec c d), (Nat.eqb_spec d c); try congruence; subst; ring.
Qed.
Lemma mvt_loop_ok alpha x : forall rs ind out N, (forall k, (k < length rs)%nat -> nth k rs [] <> [] -> inside x (ind + k)) -> (forall r e, In r rs -> In e r -> inside out (fst e)) -> (ind + length rs <= N)%nat ->
  exists out', mvt_loop alpha x ind rs out = Some out' /\ vbeg out' = vbeg out /\ length (vals out') = length (vals out) /\
    forall c, at_ out' c = at_ out c + alpha * sum N (fun i => elem ind rs i c * at_ x i).
Proof.
  induction rs as [|r rs IH]; intros ind out N Hx Ho LN; cbn [mvt_loop].
  - exists out. do 3 (split; [reflexivity|]). intros c. rewrite sum_0; [ring|]. intros i _. rewrite elem_out by (cbn [length]; lia). ring.
  - destruct (mvt_row_ok alpha x ind r out) as (o1 & -> & B1 & L1 & A1).
    { intros H. specialize (Hx 0%nat ltac:(cbn [length]; lia) H). rewrite Nat.add_0_r in Hx. exact Hx. }
    { intros e He. exact (Ho r e (or_introl eq_refl) He). }
    destruct (IH (S ind) o1 N) as (o2 & -> & B2 & L2 & A2).
    + intros k Lk H. replace (S ind + k)%nat with (ind + S k)%nat by lia. apply Hx; [cbn [length]; lia|exact H].
    + intros r0 e Hr He. unfold inside. rewrite B1, L1. apply (Ho r0 e); [right; exact Hr|exact He].
    + cbn [length] in LN. lia.
    + exists o2. split; [reflexivity|]. split; [congruence|]. split; [congruence|]. intros c. rewrite A2, A1. cbn [length] in LN.
      rewrite (sum_ext N (fun i => elem ind (r :: rs) i c * at_ x i) (fun i => (if (i =? ind)%nat then coef r c * at_ x ind else 0) + elem (S ind) rs i c * at_ x i)).
      * rewrite sum_add, (sum_one N (fun i => if (i =? ind)%nat then coef r c * at_ x ind else 0) ind); [rewrite Nat.eqb_refl; ring|lia|intros i _ Ni; destruct (Nat.eqb_spec i ind); [contradiction|reflexivity]].
      * intros i Li. unfold elem. destruct (Nat.eqb_spec i ind) as [->|Ni].
        -- destruct (Nat.ltb_spec ind ind), (Nat.ltb_spec ind (S ind)); try lia. rewrite Nat.sub_diag. cbn [nth]. ring.
        -- destruct (Nat.ltb_spec i ind), (Nat.ltb_spec i (S ind)); try lia; [ring|]. replace (i - ind)%nat with (S (i - S ind)) by lia. cbn [nth]. ring.
Qed.
Lemma mat_vec_t_ok m alpha x beta out N : (forall i, (mbeg m <= i < mbeg m + length (mrows m))%nat -> inside x i) ->
  columns_in (vbeg (prepare m out)) (vbeg (prepare m out) + length (vals (prepare m out))) (mrows m) -> (mbeg m + length (mrows m) <= N)%nat ->
  exists out', mat_vec_transpose m alpha x beta out = Some out' /\ vbeg out' = vbeg (prepare m out) /\ length (vals out') = length (vals (prepare m out)) /\
    forall c, at_ out' c = beta * at_ out c + alpha * sum N (fun i => elem (mbeg m) (mrows m) i c * at_ x i).
Proof.
  intros Hx C LN. unfold mat_vec_transpose. cbv zeta. set (o0 := Vec _ _).
  assert (L0 : length (vals o0) = length (vals (prepare m out))) by (unfold o0; cbn [vals]; destruct (Req_EM_T _ _); apply map_length).
  assert (A0 : forall c, at_ o0 c = beta * at_ out c).
  { intros c. rewrite <- (prepare_at m out c). unfold o0, at_, value. cbn [vbeg vals]. destruct (Nat.ltb_spec c (vbeg (prepare m out))); [ring|]. generalize (c - vbeg (prepare m out))%nat as k. intros k. destruct (Req_EM_T beta 0) as [->|].
    - rewrite Rmult_0_l. exact (map_nth (fun _ : R => 0) (vals (prepare m out)) 0 k).
    - pose proof (map_nth (fun o => o * beta) (vals (prepare m out)) 0 k) as X. cbv beta in X. rewrite Rmult_0_l in X. rewrite X. ring. }
  destruct (mvt_loop_ok alpha x (mrows m) (mbeg m) o0 N) as (o & -> & B & L & A).
  - intros k Lk _. apply Hx. lia.
  - intros r e Hr He. unfold inside. rewrite L0. exact (C r e Hr He).
  - exact LN.
  - exists o. split; [reflexivity|]. split; [exact B|]. split; [congruence|]. intros c. rewrite A, A0. reflexivity.
Qed.

(** * Hessian row *)
Lemma coef_add r c x i : coef (add_at r c x) i = coef r i + (if (c =? i)%nat then x else 0).
Proof.
  induction r as [|(d, a) r IH]; cbn [add_at upd_at coef].
  - destruct (c =? i)%nat; ring.
  - unfold add_at in *. destruct (Nat.eqb_spec d c) as [->|N]; cbn [coef]; [destruct (c =? i)%nat; ring|]. rewrite IH. ring.
Qed.
Lemma safe_coef u c : NoDup (map fst u) -> safe u c = coef u c.
Proof.
  unfold safe, get_safe. induction u as [|(d, a) u IH]; intros ND; cbn [get_at coef]; [reflexivity|]. cbn [map fst] in ND. inversion ND as [|? ? N1 N2]; subst.
  destruct (Nat.eqb_spec d c) as [->|N].
  - assert (X : coef u c = 0); [|rewrite X; ring]. clear - N1. induction u as [|(e, b) u IHu]; cbn [coef]; [reflexivity|]. destruct (Nat.eqb_spec e c) as [->|]; [exfalso; apply N1; left; reflexivity|].
    rewrite IHu by (intros X; apply N1; right; exact X). ring.
  - rewrite IH by exact N2. ring.
Qed.
Lemma scale_first_ok beta : forall r, exists r', scale_first (length r) beta r = Some r' /\ forall i, coef r' i = beta * coef r i.
Proof.
  induction r as [|(c, a) r (r' & E & H)]; cbn [scale_first length].
  - exists []. split; [reflexivity|]. intros. cbn. ring.
  - rewrite E. eexists. split; [reflexivity|]. intros i. cbn [coef]. rewrite H. destruct (c =? i)%nat; ring.
Qed.
Lemma hess_loop_ok alpha u N : NoDup (map fst u) -> forall h j, (forall e, In e h -> (fst (fst e) < N /\ snd (fst e) < N)%nat) ->
  exists j', hess_loop (length h) alpha h u j = Some j' /\ forall i, coef j' i = coef j i + alpha * sum N (fun c => sym h i c * coef u c).
Proof.
  intros ND. induction h as [|((a, b), v) h IH]; intros j HN; cbn [hess_loop length].
  - exists j. split; [reflexivity|]. intros i. rewrite sum_0; [ring|]. intros. cbn [sym]. ring.
  - destruct (HN _ (or_introl eq_refl)) as (La & Lb). cbn [fst snd] in La, Lb.
    match goal with |- context [hess_loop (length h) alpha h u ?j1] => set (j1' := j1) end.
    destruct (IH j1' (fun e H => HN e (or_intror H))) as (j' & E & H). exists j'. split; [exact E|]. intros i. rewrite H.
    assert (X : coef j1' i = coef j i + alpha * sum N (fun c => (if ((a =? i) && (b =? c) || (a =? c) && (b =? i))%nat%bool then v else 0) * coef u c)).
    { unfold j1'. destruct (Nat.eqb_spec a b) as [->|Nab].
      - rewrite coef_add, safe_coef by exact ND. destruct (Nat.eqb_spec b i) as [->|Ni].
        + rewrite (sum_one N _ i Lb). { rewrite Nat.eqb_refl. cbn [andb orb]. ring. }
          intros c _ Nc. destruct (Nat.eqb_spec i c); [congruence|]. cbn [andb orb]. ring.
        + rewrite sum_0; [ring|]. intros c _. rewrite ?andb_false_r. cbn. ring.
      - rewrite !coef_add, !safe_coef by exact ND. destruct (Nat.eqb_spec a i) as [->|Na].
        + destruct (Nat.eqb_spec b i); [congruence|]. rewrite (sum_one N _ b Lb). { rewrite Nat.eqb_refl. cbn [andb orb]. ring. }
          intros c _ Nc. destruct (Nat.eqb_spec b c); [congruence|]. rewrite ?andb_false_r. cbn [andb orb]. ring.
        + destruct (Nat.eqb_spec b i) as [->|Nb].
          * rewrite (sum_one N _ a La). { rewrite Nat.eqb_refl. cbn [andb orb]. ring. }
            intros c _ Nc. destruct (Nat.eqb_spec a c); [congruence|]. cbn [andb orb]. ring.
          * rewrite sum_0; [ring|]. intros c _. rewrite ?andb_false_r. cbn. ring. }
    rewrite X, Rplus_assoc, <- Rmult_plus_distr_l, <- sum_add. f_equal. f_equal. apply sum_ext. intros c _. cbn [sym]. ring.
Qed.

(** * Moving rows *)
Lemma move_loop_down {A} b from to : (to < from)%nat -> forall size (d : list A), (b <= to)%nat -> (from + size <= b + length d)%nat ->
  exists d', move_loop b from to size d = Some d' /\ length d' = length d /\
    forall k, nth_error d' k = if ((from <=? b + k) && (b + k <? from + size))%nat then nth_error d (k - (from - to)) else nth_error d k.
Proof.
  intros Lt. induction size as [|n IH]; intros d Hb Hl; cbn [move_loop].
  - exists d. split; [reflexivity|]. split; [reflexivity|]. intros k. destruct (Nat.leb_spec from (b + k)), (Nat.ltb_spec (b + k) (from + 0)); cbn [andb]; try reflexivity. lia.
  - rewrite !pos_some by lia. destruct (nth_error d (to + n - b)) as [r|] eqn:Er; [|apply nth_error_None in Er; lia].
    destruct (Nat.ltb_spec (from + n - b) (length d)); [|lia].
    destruct (IH (lset d (from + n - b) r)) as (d' & -> & L & H'); [exact Hb|rewrite lset_length; lia|]. exists d'. split; [reflexivity|]. split; [rewrite L; apply lset_length|].
    intros k. rewrite H'. destruct (Nat.eq_dec (b + k) (from + n)) as [Ek|Nk].
    + destruct (Nat.ltb_spec (b + k) (from + n)), (Nat.ltb_spec (b + k) (from + S n)), (Nat.leb_spec from (b + k)); cbn [andb]; try lia.
      replace k with (from + n - b)%nat at 1 by lia. rewrite nth_error_lset_eq by lia. rewrite <- Er. f_equal. lia.
    + destruct (Nat.leb_spec from (b + k)), (Nat.ltb_spec (b + k) (from + n)), (Nat.ltb_spec (b + k) (from + S n)); cbn [andb]; try lia; apply nth_error_lset_ne; lia.
Qed.
Lemma move_loop_apart {A} b from to size0 : (from + size0 <= to)%nat -> forall size (d : list A), (size <= size0)%nat -> (b <= from)%nat -> (to + size <= b + length d)%nat ->
  exists d', move_loop b from to size d = Some d' /\ length d' = length d /\
    forall k, nth_error d' k = if ((from <=? b + k) && (b + k <? from + size))%nat then nth_error d (k + (to - from)) else nth_error d k.
Proof.
  intros Lt. induction size as [|n IH]; intros d Ls Hb Hl; cbn [move_loop].
  - exists d. split; [reflexivity|]. split; [reflexivity|]. intros k. destruct (Nat.leb_spec from (b + k)), (Nat.ltb_spec (b + k) (from + 0)); cbn [andb]; try reflexivity. lia.
  - rewrite !pos_some by lia. destruct (nth_error d (to + n - b)) as [r|] eqn:Er; [|apply nth_error_None in Er; lia].
    destruct (Nat.ltb_spec (from + n - b) (length d)); [|lia].
    destruct (IH (lset d (from + n - b) r)) as (d' & -> & L & H'); [lia|exact Hb|rewrite lset_length; lia|]. exists d'. split; [reflexivity|]. split; [rewrite L; apply lset_length|].
    intros k. rewrite H'. destruct (Nat.eq_dec (b + k) (from + n)) as [Ek|Nk].
    + destruct (Nat.ltb_spec (b + k) (from + n)), (Nat.ltb_spec (b + k) (from + S n)), (Nat.leb_spec from (b + k)); cbn [andb]; try lia.
      replace k with (from + n - b)%nat at 1 by lia. rewrite nth_error_lset_eq by lia. rewrite <- Er. f_equal. lia.
    + destruct (Nat.leb_spec from (b + k)), (Nat.ltb_spec (b + k) (from + n)), (Nat.ltb_spec (b + k) (from + S n)); cbn [andb]; try lia; apply nth_error_lset_ne; lia.
Qed.

(** * Rescaling *)
Lemma norm_inf_spec r : 0 <= norm_inf r /\ (forall e, In e r -> Rabs (snd e) <= norm_inf r) /\ (norm_inf r = 0 \/ exists e, In e r /\ Rabs (snd e) = norm_inf r).
Proof.
  unfold norm_inf. assert (X : forall l b, let n := fold_left (fun n e => if Rlt_dec n (Rabs (snd e)) then Rabs (snd e) else n) l b in
    b <= n /\ (forall e : nat * R, In e l -> Rabs (snd e) <= n) /\ (n = b \/ exists e, In e l /\ Rabs (snd e) = n)).
  { induction l as [|e l IH]; intros b; cbn [fold_left].
    - split; [lra|]. split; [intros e []|left; reflexivity].
    - match goal with |- context [fold_left _ l ?b1] => set (b' := b1); destruct (IH b') as (H1 & H2 & H3) end.
      assert (B : b <= b' /\ Rabs (snd e) <= b' /\ (b' = b \/ Rabs (snd e) = b')) by (unfold b'; destruct (Rlt_dec _ _); lra). split; [lra|]. split.
      + intros x [<-|Hx]; [lra|auto].
      + destruct H3 as [H3|(x & Hx & Ex)]; [|right; exists x; split; [right; exact Hx|exact Ex]]. rewrite H3. destruct B as (_ & _ & [B|B]); [left; exact B|]. right. exists e. split; [left; reflexivity|exact B]. }
  destruct (X r 0) as (H1 & H2 & H3). auto.
Qed.
Lemma pow_sum_powers p r : pow_sum p r = powers p r.
Proof.
  unfold pow_sum. assert (X : forall l b, fold_left (fun n (e : nat * R) => n + Rabs (snd e) ^ p) l b = b + powers p l).
  { induction l as [|e l IH]; intros b; cbn [fold_left powers]; [ring|]. rewrite IH. ring. }
  rewrite X. ring.
Qed.
Lemma powers_nonneg p r : 0 <= powers p r.
Proof. induction r as [|e r IH]; cbn [powers]; [lra|]. pose proof (pow_le (Rabs (snd e)) p (Rabs_pos _)). lra. Qed.
Lemma powers_zero p r : (0 < p)%nat -> (powers p r = 0 <-> forall e, In e r -> snd e = 0).
Proof.
  intros P. induction r as [|e r IH]; cbn [powers]; [split; [intros _ e []|reflexivity]|]. pose proof (powers_nonneg p r). pose proof (pow_le (Rabs (snd e)) p (Rabs_pos _)). split.
  - intros X. assert (Z : Rabs (snd e) ^ p = 0) by lra. assert (Z2 : powers p r = 0) by lra. intros x [<-|Hx]; [|apply IH; assumption].
    destruct (Req_dec (snd e) 0) as [|N]; [assumption|]. exfalso. apply Rabs_pos_lt in N. pose proof (pow_lt _ p N). lra.
  - intros X. rewrite (X e (or_introl eq_refl)), Rabs_R0, pow_i by exact P. rewrite (proj2 IH); [ring|]. intros x Hx. apply X. right. exact Hx.
Qed.
Lemma powers_times p s r : powers p (times s r) = Rabs s ^ p * powers p r.
Proof. unfold times. induction r as [|e r IH]; cbn [map powers snd]; [ring|]. rewrite IH, Rabs_mult, Rpow_mult_distr. ring. Qed.
Lemma root_pow x p : (0 < p)%nat -> 0 < x -> root x p ^ p = x.
Proof.
  intros P Hx. unfold root. destruct (Req_EM_T x 0); [lra|]. rewrite <- Rpower_pow by apply exp_pos. rewrite Rpower_mult, Rinv_l by (apply not_0_INR; lia). apply Rpower_1, Hx.
Qed.
Lemma root_pos x p : 0 < x -> 0 < root x p.
Proof. intros Hx. unfold root. destruct (Req_EM_T x 0); [lra|]. apply exp_pos. Qed.

Definition is_unit (k : norm_kind) (r : rrow) : Prop := match k with Inf => unit_max r | Pow p => powers p r = 1 end.
Lemma factor_spec k r : k <> Pow 0 ->
  match factor k r with
  | None => forall e, In e r -> snd e = 0
  | Some s => 0 < s /\ is_unit k (times s r)
  end.
Proof.
  intros K. unfold factor. destruct k as [|[|p]]; [| |].
  - destruct (norm_inf_spec r) as (H1 & H2 & H3). destruct (Req_EM_T (norm_inf r) 0) as [Z|N].
    + intros e He. specialize (H2 e He). destruct (Req_dec (snd e) 0) as [|X]; [assumption|]. apply Rabs_pos_lt in X. lra.
    + assert (P : 0 < norm_inf r) by lra. split; [unfold Rdiv; rewrite Rmult_1_l; apply Rinv_0_lt_compat, P|]. cbn [is_unit].
      assert (Ps : 0 < 1 / norm_inf r) by (unfold Rdiv; rewrite Rmult_1_l; apply Rinv_0_lt_compat, P).
      assert (X : forall y, Rabs (y * (1 / norm_inf r)) = Rabs y / norm_inf r) by (intros y; rewrite Rabs_mult, (Rabs_pos_eq (1 / _)) by lra; field; exact N).
      split.
      * intros e He. unfold times in He. apply in_map_iff in He. destruct He as (x & <- & Hx). cbn [snd]. rewrite X. apply (Rmult_le_reg_r (norm_inf r)); [exact P|]. unfold Rdiv. rewrite Rmult_assoc, Rinv_l by exact N. specialize (H2 x Hx). lra.
      * destruct H3 as [H3|(x & Hx & Ex)]; [contradiction|]. exists (fst x, snd x * (1 / norm_inf r)). split; [unfold times; apply in_map_iff; eauto|]. cbn [snd]. rewrite X, Ex. field. exact N.
  - contradiction.
  - rewrite pow_sum_powers. destruct (Req_EM_T (root (powers (S p) r) (S p)) 0) as [Z|N].
    + apply (powers_zero (S p) r ltac:(lia)). destruct (Req_dec (powers (S p) r) 0) as [|X]; [assumption|]. exfalso. pose proof (powers_nonneg (S p) r). pose proof (root_pos (powers (S p) r) (S p) ltac:(lra)). lra.
    + assert (P : 0 < powers (S p) r). { pose proof (powers_nonneg (S p) r). destruct (Req_dec (powers (S p) r) 0) as [X|]; [|lra]. exfalso. apply N. unfold root. rewrite X. destruct (Req_EM_T 0 0); [reflexivity|lra]. }
      pose proof (root_pos _ (S p) P) as Pr. set (n := root (powers (S p) r) (S p)) in *. assert (Ps : 0 < 1 / n) by (unfold Rdiv; rewrite Rmult_1_l; apply Rinv_0_lt_compat, Pr).
      split; [exact Ps|]. unfold is_unit. rewrite powers_times, (Rabs_pos_eq (1 / n)) by lra. rewrite <- (root_pow (powers (S p) r) (S p)) by (try lia; exact P). fold n.
      rewrite <- Rpow_mult_distr. replace (1 / n * n) with 1 by (field; exact N). apply pow1.
Qed.

(** the loops *)
Lemma for_each_ok (f : nat -> resid -> option resid) (P : nat -> resid -> Prop) : forall n k x,
  (forall j y, (k <= j < k + n)%nat -> P j y -> exists y', f j y = Some y' /\ P (S j) y') -> P k x ->
  exists x', for_each f n k x = Some x' /\ P (k + n)%nat x'.
Proof.
  induction n as [|n IH]; intros k x H P0; cbn [for_each].
  - exists x. rewrite Nat.add_0_r. auto.
  - destruct (H k x ltac:(lia) P0) as (y & -> & P1). destruct (IH (S k) y) as (z & -> & P2); [intros j w Hj; apply H; lia|exact P1|]. exists z. split; [reflexivity|]. replace (k + S n)%nat with (S k + n)%nat by lia. exact P2.
Qed.
(** jacobian, right hand side and hessian cover the same equations *)
Definition shaped (x : resid) : Prop :=
  length (jac x) = length (rhs x) /\ (hess x = [] \/ (hbeg x <= rbeg x /\ rbeg x + length (rhs x) <= hbeg x + length (hess x))%nat).
Definition hrow_at (x : resid) (i : nat) : option (list (hindex * R)) := nth_error (hess x) (rbeg x + i - hbeg x).
(** scaling by the factor of a row *)
Definition fac (k : norm_kind) (r : rrow) : R := match factor k r with Some s => s | None => 1 end.
Lemma times_1 {K} (r : list (K * R)) : times 1 r = r.
Proof. unfold times. induction r as [|(a, b) r IH]; cbn [map fst snd]; [reflexivity|]. rewrite IH, Rmult_1_r. reflexivity. Qed.

Lemma rescale_ok kind x : shaped x -> exists x', rescale kind x = Some x' /\ shaped x' /\ rbeg x' = rbeg x /\ hbeg x' = hbeg x /\ length (rhs x') = length (rhs x) /\ length (hess x') = length (hess x) /\
  forall i r b, nth_error (jac x) i = Some r -> nth_error (rhs x) i = Some b ->
    nth_error (jac x') i = Some (times (fac kind r) r) /\ nth_error (rhs x') i = Some (b * fac kind r) /\ hrow_at x' i = option_map (times (fac kind r)) (hrow_at x i).
Proof.
  intros (S1 & S2).
  set (P := fun (j : nat) (y : resid) => shaped y /\ rbeg y = rbeg x /\ hbeg y = hbeg x /\ length (rhs y) = length (rhs x) /\ length (hess y) = length (hess x) /\
    forall i r b, nth_error (jac x) i = Some r -> nth_error (rhs x) i = Some b ->
      if (rbeg x + i <? j)%nat then nth_error (jac y) i = Some (times (fac kind r) r) /\ nth_error (rhs y) i = Some (b * fac kind r) /\ hrow_at y i = option_map (times (fac kind r)) (hrow_at x i)
      else nth_error (jac y) i = Some r /\ nth_error (rhs y) i = Some b /\ hrow_at y i = hrow_at x i).
  assert (HL : forall i r, nth_error (jac x) i = Some r -> (i < length (rhs x))%nat) by (intros i r H; rewrite <- S1; apply nth_error_Some; congruence).
  destruct (for_each_ok (rescale_one kind) P (length (rhs x)) (rbeg x) x) as (x' & E & Q).
  - intros j y Hj ((T1 & T2) & B & HB & L & LH & H). unfold rescale_one. rewrite B, pos_some by lia. set (i := (j - rbeg x)%nat).
    assert (Li : (i < length (rhs x))%nat) by (unfold i; lia).
    destruct (nth_error (jac x) i) as [r|] eqn:Er; [|apply nth_error_None in Er; lia]. destruct (nth_error (rhs x) i) as [b|] eqn:Eb; [|apply nth_error_None in Eb; lia].
    pose proof (H i r b Er Eb) as Hi. destruct (Nat.ltb_spec (rbeg x + i) j); [unfold i in *; lia|]. destruct Hi as (-> & -> & Hh).
    assert (Hf : fac kind r = match factor kind r with Some s => s | None => 1 end) by reflexivity.
    destruct (factor kind r) as [s|] eqn:Ef.
    + assert (Others : forall y', shaped y' -> rbeg y' = rbeg x -> hbeg y' = hbeg x -> length (rhs y') = length (rhs x) -> length (hess y') = length (hess x) ->
        jac y' = lset (jac y) i (times s r) -> rhs y' = lset (rhs y) i (b * s) -> hrow_at y' i = option_map (times s) (hrow_at x i) -> (forall i', i' <> i -> hrow_at y' i' = hrow_at y i') -> P (S j) y').
      { intros y' Q1 Q2 Q3 Q4 Q5 Q6 Q7 Q8 Q9. unfold P. do 5 (split; [assumption|]). intros i' r' b' Er' Eb'. specialize (H i' r' b' Er' Eb'). rewrite Q6, Q7.
        destruct (Nat.eq_dec i' i) as [->|Ni].
        - rewrite Er in Er'. injection Er' as <-. rewrite Eb in Eb'. injection Eb' as <-. destruct (Nat.ltb_spec (rbeg x + i) (S j)); [|unfold i in *; lia].
          rewrite !nth_error_lset_eq, Hf by lia. auto.
        - rewrite !nth_error_lset_ne, Q9 by auto. destruct (Nat.ltb_spec (rbeg x + i') j), (Nat.ltb_spec (rbeg x + i') (S j)); auto; unfold i in *; lia. }
      destruct (hess y) as [|h0 ht] eqn:Eh.
      * eexists. split; [reflexivity|]. apply Others; cbn [rbeg hbeg jac rhs hess]; auto.
        -- split; cbn [rbeg jac rhs hess]; [rewrite !lset_length; exact T1|left; reflexivity].
        -- rewrite lset_length. exact L.
        -- assert (Ex : hess x = []) by (destruct (hess x); [reflexivity|discriminate]). unfold hrow_at. cbn [hess rbeg hbeg]. rewrite Ex. assert (NN : forall n, nth_error (@nil (list (hindex * R))) n = None) by (intros [|n]; reflexivity). rewrite !NN. reflexivity.
        -- intros i' _. unfold hrow_at. cbn [rbeg hbeg hess]. rewrite Eh, B, HB. reflexivity.
      * destruct T2 as [T2|(T2 & T3)]; [congruence|]. rewrite <- Eh in *. rewrite HB, pos_some by lia. assert (Lh : (j - hbeg x < length (hess y))%nat) by lia.
        destruct (nth_error (hess y) (j - hbeg x)) as [hr|] eqn:Ehr; [|apply nth_error_None in Ehr; lia].
        eexists. split; [reflexivity|]. assert (Ej : (rbeg x + i - hbeg x = j - hbeg x)%nat) by (unfold i; lia). apply Others; cbn [rbeg hbeg jac rhs hess]; auto.
        -- split; cbn [rbeg jac rhs hess hbeg]; [rewrite !lset_length; exact T1|right; rewrite !lset_length; lia].
        -- rewrite lset_length. exact L.
        -- rewrite lset_length. exact LH.
        -- rewrite <- Hh. unfold hrow_at. cbn [rbeg hbeg hess]. rewrite B, HB, Ej, nth_error_lset_eq, Ehr by exact Lh. reflexivity.
        -- intros i' Ni. unfold hrow_at. cbn [rbeg hbeg hess]. rewrite B, HB. apply nth_error_lset_ne. unfold i in *. lia.
    + exists y. split; [reflexivity|]. split; [split; assumption|]. do 4 (split; [assumption|]). intros i' r' b' Er' Eb'. specialize (H i' r' b' Er' Eb').
      destruct (Nat.eq_dec i' i) as [->|Ni].
      * rewrite Er in Er'. injection Er' as <-. rewrite Eb in Eb'. injection Eb' as <-. destruct (Nat.ltb_spec (rbeg x + i) j), (Nat.ltb_spec (rbeg x + i) (S j)); try (unfold i in *; lia).
        rewrite Hf, times_1, Rmult_1_r. destruct H as (G1 & G2 & G3). rewrite G3. split; [exact G1|]. split; [exact G2|]. destruct (hrow_at x i); cbn [option_map]; [rewrite times_1|]; reflexivity.
      * destruct (Nat.ltb_spec (rbeg x + i') j), (Nat.ltb_spec (rbeg x + i') (S j)); auto; unfold i in *; lia.
  - split; [split; assumption|]. do 4 (split; [reflexivity|]). intros i r b Er Eb. destruct (Nat.ltb_spec (rbeg x + i) (rbeg x)); [lia|]. auto.
  - exists x'. split; [exact E|]. destruct Q as (Q1 & Q2 & Q3 & Q4 & Q5 & Q6). do 5 (split; [assumption|]). intros i r b Er Eb. specialize (Q6 i r b Er Eb). pose proof (HL i r Er).
    destruct (Nat.ltb_spec (rbeg x + i) (rbeg x + length (rhs x))); [exact Q6|lia].
Qed.

Lemma coef_times s r c : coef (times s r) c = s * coef r c.
Proof. unfold times. induction r as [|(d, a) r IH]; cbn [map coef fst snd]; [ring|]. rewrite IH. destruct (d =? c)%nat; ring. Qed.
Lemma solves_times n s r b x : s <> 0 -> (solves n (times s r) (b * s) x <-> solves n r b x).
Proof.
  intros N. unfold solves. rewrite (sum_ext n _ (fun c => s * (coef r c * x c))) by (intros; rewrite coef_times; ring). rewrite sum_mul. split; [|intros ->; ring].
  intros H. apply (Rmult_eq_reg_l s); [lra|exact N].
Qed.
Lemma fac_pos k r : k <> Pow 0 -> 0 < fac k r.
Proof. intros K. pose proof (factor_spec k r K) as H. unfold fac. destruct (factor k r); [tauto|lra]. Qed.

(** * Clear and Norm *)
Lemma clear_ok x : shaped x -> exists x', clear x = Some x' /\ rbeg x' = rbeg x /\ length (jac x') = length (jac x) /\ length (rhs x') = length (rhs x) /\ length (hess x') = length (hess x) /\
  (forall r, In r (jac x') -> r = []) /\ (forall b, In b (rhs x') -> b = 0) /\ (forall k, (k < length (hess x))%nat -> nth_error (hess x') k = if (rbeg x <=? hbeg x + k)%nat && (hbeg x + k <? rbeg x + length (rhs x))%nat then Some [] else nth_error (hess x) k).
Proof.
  intros (S1 & S2).
  set (P := fun (j : nat) (y : resid) => rbeg y = rbeg x /\ hbeg y = hbeg x /\ length (jac y) = length (rhs x) /\ length (rhs y) = length (rhs x) /\ length (hess y) = length (hess x) /\
    (forall i, (rbeg x + i < j)%nat -> (i < length (rhs x))%nat -> nth_error (jac y) i = Some [] /\ nth_error (rhs y) i = Some 0) /\
    (forall k, (k < length (hess x))%nat -> nth_error (hess y) k = if (rbeg x <=? hbeg x + k)%nat && (hbeg x + k <? j)%nat then Some [] else nth_error (hess x) k)).
  destruct (for_each_ok clear_one P (length (rhs x)) (rbeg x) x) as (x' & E & Q).
  - intros j y Hj (B & HB & LJ & L & LH & H & K). unfold clear_one. rewrite B, pos_some by lia. set (i := (j - rbeg x)%nat). assert (Li : (i < length (rhs x))%nat) by (unfold i; lia).
    destruct (Nat.ltb_spec i (length (rhs y))); [|lia]. destruct (jac y) as [|j0 jt] eqn:Ej; [cbn [length] in LJ; lia|]. rewrite <- Ej in *.
    destruct (Nat.ltb_spec i (length (jac y))); [|lia]. cbv zeta.
    assert (J : forall i', (rbeg x + i' < S j)%nat -> (i' < length (rhs x))%nat -> nth_error (lset (jac y) i []) i' = Some [] /\ nth_error (lset (rhs y) i 0) i' = Some 0).
    { intros i' L1 L2. destruct (Nat.eq_dec i' i) as [->|N]; [rewrite !nth_error_lset_eq by lia; auto|]. rewrite !nth_error_lset_ne by auto. apply H; unfold i in *; lia. }
    destruct (hess y) as [|h0 ht] eqn:Eh.
    + eexists. split; [reflexivity|]. unfold P. cbn [rbeg hbeg jac rhs hess]. rewrite !lset_length. do 5 (split; [first [reflexivity|assumption]|]). split; [exact J|]. intros k Lk. cbn [length] in LH. lia.
    + rewrite <- Eh in *. destruct S2 as [S2|(S2 & S3)]; [rewrite S2, Eh in LH; discriminate|]. rewrite HB, pos_some by lia. destruct (Nat.ltb_spec (j - hbeg x) (length (hess y))); [|lia].
      eexists. split; [reflexivity|]. unfold P. cbn [rbeg hbeg jac rhs hess]. rewrite !lset_length. do 5 (split; [first [reflexivity|assumption]|]). split; [exact J|]. intros k Lk. specialize (K k Lk).
      destruct (Nat.eq_dec k (j - hbeg x)) as [->|N].
      * rewrite nth_error_lset_eq by lia. destruct (Nat.leb_spec (rbeg x) (hbeg x + (j - hbeg x))), (Nat.ltb_spec (hbeg x + (j - hbeg x)) (S j)); try lia. reflexivity.
      * rewrite nth_error_lset_ne by auto. rewrite K. destruct (Nat.leb_spec (rbeg x) (hbeg x + k)), (Nat.ltb_spec (hbeg x + k) j), (Nat.ltb_spec (hbeg x + k) (S j)); try lia; reflexivity.
  - split; [reflexivity|]. split; [reflexivity|]. split; [exact S1|]. do 2 (split; [reflexivity|]). split; [intros; lia|]. intros k Lk. destruct (Nat.leb_spec (rbeg x) (hbeg x + k)), (Nat.ltb_spec (hbeg x + k) (rbeg x)); try lia; reflexivity.
  - exists x'. split; [exact E|]. destruct Q as (B & HB & LJ & L & LH & H & K). split; [exact B|]. split; [congruence|]. split; [exact L|]. split; [exact LH|]. split; [|split].
    + intros r Hr. apply In_nth_error in Hr. destruct Hr as (i & Hi). assert (Li : (i < length (jac x'))%nat) by (apply nth_error_Some; congruence). destruct (H i) as (X & _); [lia|lia|congruence].
    + intros b Hb. apply In_nth_error in Hb. destruct Hb as (i & Hi). assert (Li : (i < length (rhs x'))%nat) by (apply nth_error_Some; congruence). destruct (H i) as (_ & X); [lia|lia|congruence].
    + exact K.
Qed.

Lemma norm_zero x : norm x = 0 <-> forall b, In b (rhs x) -> b = 0.
Proof.
  unfold norm. assert (X : forall l s, 0 <= s -> let r := fold_left (fun s v => s + v * v) l s in 0 <= r /\ (r = 0 <-> s = 0 /\ forall b, In b l -> b = 0)).
  { induction l as [|v l IH]; intros s Hs; cbn [fold_left].
    - split; [exact Hs|]. split; [intros ->; split; [reflexivity|intros b []]|tauto].
    - destruct (IH (s + v * v) ltac:(nra)) as (H1 & H2). split; [exact H1|]. rewrite H2. split.
      + intros (A & B). assert (v = 0) by nra. split; [nra|]. intros b [<-|Hb]; auto.
      + intros (A & B). pose proof (B v (or_introl eq_refl)). split; [nra|]. intros b Hb. apply B. right. exact Hb. }
  destruct (X (rhs x) 0 ltac:(lra)) as (H1 & H2). cbv zeta in *. split.
  - intros H. apply sqrt_eq_0 in H; [|exact H1]. apply H2 in H. tauto.
  - intros H. rewrite (proj2 H2) by auto. apply sqrt_0.
Qed.

(** * Exact conditions of success *)
Lemma vget_some x i v : vget x i = Some v -> inside x i.
Proof.
  unfold vget, pos, inside. destruct (Nat.ltb_spec i (vbeg x)); [discriminate|]. intros E. assert (L : (i - vbeg x < length (vals x))%nat) by (apply nth_error_Some; congruence). lia.
Qed.
Lemma mvt_row_needs alpha x ind : forall r out out', mvt_row alpha x ind r out = Some out' ->
  (r <> [] -> inside x ind) /\ (forall e, In e r -> inside out (fst e)) /\ vbeg out' = vbeg out /\ length (vals out') = length (vals out).
Proof.
  induction r as [|(d, a) r IH]; intros out out'; cbn [mvt_row].
  - intros E. injection E as <-. split; [congruence|]. split; [intros e []|]. split; reflexivity.
  - destruct (vget out d) as [o|] eqn:G1; [|discriminate]. destruct (vget x ind) as [xi|] eqn:G2; [|discriminate].
    pose proof (vget_some _ _ _ G1) as I1. destruct (vset_in out d (o + alpha * xi * a) I1) as (o1 & -> & B1 & L1 & _). intros E. destruct (IH _ _ E) as (_ & I2 & B2 & L2).
    split; [intros _; exact (vget_some _ _ _ G2)|]. split; [|split; congruence]. intros e [<-|He]; [exact I1|]. specialize (I2 e He). unfold inside in *. lia.
Qed.
Lemma mvt_loop_needs alpha x : forall rs ind out out', mvt_loop alpha x ind rs out = Some out' ->
  (forall k, (k < length rs)%nat -> nth k rs [] <> [] -> inside x (ind + k)) /\ (forall r e, In r rs -> In e r -> inside out (fst e)).
Proof.
  induction rs as [|r rs IH]; intros ind out out'; cbn [mvt_loop].
  - intros _. split; [intros k Lk; cbn [length] in Lk; lia|intros r e []].
  - destruct (mvt_row alpha x ind r out) as [o1|] eqn:E1; [|discriminate]. intros E. destruct (mvt_row_needs _ _ _ _ _ _ E1) as (H1 & H2 & B & L). destruct (IH _ _ _ E) as (K1 & K2). split.
    + intros [|k] Lk N; [rewrite Nat.add_0_r; exact (H1 N)|]. replace (ind + S k)%nat with (S ind + k)%nat by lia. apply K1; [cbn [length] in Lk; lia|exact N].
    + intros r0 e [<-|Hr] He; [exact (H2 e He)|]. specialize (K2 r0 e Hr He). unfold inside in *. lia.
Qed.
Lemma mat_vec_t_needs m alpha x beta out out' : mat_vec_transpose m alpha x beta out = Some out' ->
  (forall k, (k < length (mrows m))%nat -> nth k (mrows m) [] <> [] -> inside x (mbeg m + k)) /\ (forall r e, In r (mrows m) -> In e r -> inside (prepare m out) (fst e)).
Proof.
  unfold mat_vec_transpose. cbv zeta. intros E. destruct (mvt_loop_needs _ _ _ _ _ _ E) as (H1 & H2). split; [exact H1|]. intros r e Hr He. specialize (H2 r e Hr He).
  unfold inside in *. cbn [vbeg vals] in H2. destruct (Req_EM_T beta 0); rewrite map_length in H2; exact H2.
Qed.
Lemma mat_vec_t_empty m alpha x beta b N : (forall k, (k < length (mrows m))%nat -> nth k (mrows m) [] <> [] -> inside x (mbeg m + k)) ->
  columns_in (mbeg m) (mbeg m + length (mrows m)) (mrows m) -> (mbeg m + length (mrows m) <= N)%nat ->
  exists out', mat_vec_transpose m alpha x beta (Vec b []) = Some out' /\ vbeg out' = mbeg m /\ length (vals out') = length (mrows m) /\
    forall c, at_ out' c = alpha * sum N (fun i => elem (mbeg m) (mrows m) i c * at_ x i).
Proof.
  intros Hx C LN. unfold mat_vec_transpose. cbv zeta. cbn [prepare vals vbeg]. set (o0 := Vec _ _).
  assert (L0 : length (vals o0) = length (mrows m)) by (unfold o0; cbn [vals]; destruct (Req_EM_T _ _); rewrite map_length, repeat_length; reflexivity).
  assert (A0 : forall c, at_ o0 c = 0).
  { intros c. unfold o0, at_, value. cbn [vbeg vals]. destruct (c <? mbeg m)%nat; [reflexivity|].
    assert (Z : forall n k (f : R -> R), f 0 = 0 -> nth k (map f (repeat 0 n)) 0 = 0) by (induction n as [|n IH]; intros [|k] f F; cbn [repeat map nth]; auto).
    destruct (Req_EM_T beta 0); apply Z; [reflexivity|ring]. }
  destruct (mvt_loop_ok alpha x (mrows m) (mbeg m) o0 N Hx) as (o & -> & B & L & A); [|exact LN|].
  - intros r e Hr He. unfold inside. rewrite L0. exact (C r e Hr He).
  - exists o. split; [reflexivity|]. split; [exact B|]. split; [congruence|]. intros c. rewrite A, A0. ring.
Qed.
Lemma coef_app a b i : coef (a ++ b) i = coef a i + coef b i.
Proof. induction a as [|(c, x) r IH]; cbn [app coef]; [ring|]. rewrite IH. ring. Qed.
Lemma scale_first_exact beta : forall n r, (n <= length r)%nat ->
  exists r', scale_first n beta r = Some r' /\ forall i, coef r' i = beta * coef (firstn n r) i + coef (skipn n r) i.
Proof.
  induction n as [|n IH]; intros r L; cbn [scale_first firstn skipn].
  - exists r. split; [reflexivity|]. intros i. cbn [coef]. ring.
  - destruct r as [|(c, a) r]; [cbn in L; lia|]. destruct (IH r) as (r' & -> & H); [cbn [length] in L; lia|]. eexists. split; [reflexivity|]. intros i. cbn [coef]. rewrite H. destruct (c =? i)%nat; ring.
Qed.
Lemma scale_first_short beta : forall n r, (length r < n)%nat -> scale_first n beta r = None.
Proof.
  induction n as [|n IH]; intros r L; [lia|]. cbn [scale_first]. destruct r as [|(c, a) r]; [reflexivity|]. rewrite IH; [reflexivity|]. cbn [length] in L. lia.
Qed.
Lemma hess_loop_firstn alpha u : forall n h j, (n <= length h)%nat -> hess_loop n alpha h u j = hess_loop (length (firstn n h)) alpha (firstn n h) u j.
Proof.
  induction n as [|n IH]; intros h j L; [reflexivity|]. destruct h as [|((a, b), v) h]; [cbn in L; lia|]. cbn [firstn length hess_loop]. apply IH. cbn [length] in L. lia.
Qed.
Lemma hess_loop_short alpha u : forall n h j, (length h < n)%nat -> hess_loop n alpha h u j = None.
Proof.
  induction n as [|n IH]; intros h j L; [lia|]. destruct h as [|((a, b), v) h]; [reflexivity|]. cbn [hess_loop]. apply IH. cbn [length] in L. lia.
Qed.
