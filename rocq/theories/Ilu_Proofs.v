From Coq Require Import List Arith Bool Lia Sorted Permutation Reals Lra.
From Verif Require Import Ilu_Model Ilu_Spec.
Import ListNotations.
Open Scope R_scope.

(** * Sums *)
Lemma rs_ext n f g : (forall i, (i < n)%nat -> f i = g i) -> rs n f = rs n g.
Proof. induction n as [|n IH]; intros H; [reflexivity|]. cbn. rewrite IH by (intros; apply H; lia). rewrite H by lia. reflexivity. Qed.
Lemma rs_add n f g : rs n (fun i => f i + g i) = rs n f + rs n g.
Proof. induction n as [|n IH]; cbn; [ring|]. rewrite IH. ring. Qed.
Lemma rs_mul n k f : rs n (fun i => k * f i) = k * rs n f.
Proof. induction n as [|n IH]; cbn; [ring|]. rewrite IH. ring. Qed.
Lemma rs_0 n f : (forall i, (i < n)%nat -> f i = 0) -> rs n f = 0.
Proof. induction n as [|n IH]; intros H; [reflexivity|]. cbn. rewrite IH by (intros; apply H; lia). rewrite H by lia. ring. Qed.
Lemma rs_split n m f : (n <= m)%nat -> (forall i, (n <= i < m)%nat -> f i = 0) -> rs m f = rs n f.
Proof.
  intros L H. induction L as [|m L IH]; [reflexivity|]. cbn. rewrite IH by (intros; apply H; lia). rewrite H by lia. ring.
Qed.
Lemma rs_swap n m f : rs n (fun i => rs m (fun j => f i j)) = rs m (fun j => rs n (fun i => f i j)).
Proof. induction n as [|n IH]; cbn; [symmetry; apply rs_0; reflexivity|]. rewrite IH, <- rs_add. reflexivity. Qed.
Lemma rs_one n f k : (k < n)%nat -> (forall i, (i < n)%nat -> i <> k -> f i = 0) -> rs n f = f k.
Proof.
  induction n as [|n IH]; intros L H; [lia|]. cbn. destruct (Nat.eq_dec n k) as [->|N].
  - rewrite rs_0 by (intros; apply H; lia). ring.
  - rewrite IH by (try lia; intros; apply H; lia). rewrite (H n) by lia. ring.
Qed.
Lemma rowvec_coef r x n : (forall e, In e r -> (fst e < n)%nat) -> rowvec r x = rs n (fun i => coef r i * x i).
Proof.
  induction r as [|e r IH]; intros H; cbn [rowvec coef]; [symmetry; apply rs_0; intros; ring|].
  rewrite IH by (intros; apply H; right; assumption).
  rewrite (rs_ext n (fun i => ((if Nat.eqb (fst e) i then snd e else 0) + coef r i) * x i) (fun i => (if Nat.eqb (fst e) i then snd e else 0) * x i + coef r i * x i)) by (intros; ring).
  rewrite rs_add. f_equal. rewrite (rs_one n _ (fst e)); [rewrite Nat.eqb_refl; reflexivity|apply H; left; reflexivity|].
  intros i _ N. destruct (Nat.eqb_spec (fst e) i) as [E|_]; [congruence|ring].
Qed.
Lemma coef_0 r i : (forall e, In e r -> fst e <> i) -> coef r i = 0.
Proof.
  induction r as [|e r IH]; intros H; [reflexivity|]. cbn. rewrite IH by (intros; apply H; right; assumption).
  destruct (Nat.eqb_spec (fst e) i) as [E|_]; [exfalso; apply (H e); [left; reflexivity|exact E]|ring].
Qed.
Lemma coef_app a b i : coef (a ++ b) i = coef a i + coef b i.
Proof. induction a as [|e a IH]; cbn; [ring|]. rewrite IH. ring. Qed.

(** * The linked list *)
Fixpoint path (nxt : nat -> link) (l : link) (c : list nat) : Prop :=
  match c with [] => l = Eol | i :: r => l = At i /\ path nxt (nxt i) r end.
Definition sorted := StronglySorted lt.
Definition chain (w : work) (c : list nat) : Prop :=
  path (nx w) (hd w) c /\ sorted c /\ forall i, ~ In i c -> nx w i = Undef.
Definition rowv (w : work) (i : nat) : R := if is_undef (nx w i) then 0 else vl w i.
Lemma path_def nxt : forall c l i, path nxt l c -> In i c -> is_undef (nxt i) = false.
Proof.
  induction c as [|a c IH]; intros l i H I; [destruct I|]. destruct H as (-> & H). destruct I as [<-|I]; [|eapply IH; eassumption].
  destruct c as [|b c]; cbn in H; [rewrite H|destruct H as (-> & _)]; reflexivity.
Qed.
Lemma chain_in w c i : chain w c -> (In i c <-> is_undef (nx w i) = false).
Proof.
  intros (P & _ & U). split; [eapply path_def; eassumption|]. intros D. destruct (in_dec Nat.eq_dec i c) as [I|N]; [assumption|].
  rewrite (U i N) in D. discriminate.
Qed.
Lemma rowv_in w c i : chain w c -> In i c -> rowv w i = vl w i.
Proof. intros C I. unfold rowv. apply (chain_in w c i C) in I. rewrite I. reflexivity. Qed.
Lemma rowv_out w c i : chain w c -> ~ In i c -> rowv w i = 0.
Proof. intros (_ & _ & U) N. unfold rowv. rewrite (U i N). reflexivity. Qed.
Lemma path_ext n1 n2 : forall c l, (forall i, In i c -> n1 i = n2 i) -> path n1 l c -> path n2 l c.
Proof.
  induction c as [|a c IH]; intros l H P; [exact P|]. destruct P as (-> & P). split; [reflexivity|]. rewrite <- H by (left; reflexivity).
  apply IH; [intros; apply H; right; assumption|exact P].
Qed.
Lemma path_app nxt : forall a l b c, path nxt l (a ++ b :: c) -> path nxt (nxt b) c.
Proof. induction a as [|x a IH]; intros l b c H; [apply H|]. destruct H as (_ & H). eapply IH, H. Qed.
Lemma sorted_app a b : sorted (a ++ b) <-> sorted a /\ sorted b /\ forall x y, In x a -> In y b -> (x < y)%nat.
Proof.
  induction a as [|x a IH]; cbn [app].
  - split; [intros H; repeat split; [constructor|exact H|intros ? ? []]|intros (_ & H & _); exact H].
  - split.
    + intros H. inversion H as [|? ? S F]; subst. apply IH in S. destruct S as (S1 & S2 & S3). rewrite Forall_forall in F.
      split; [constructor; [exact S1|apply Forall_forall; intros y I; apply F, in_or_app; left; exact I]|].
      split; [exact S2|]. intros u y [<-|I] J; [apply F, in_or_app; right; exact J|apply S3; assumption].
    + intros (S1 & S2 & S3). inversion S1 as [|? ? S F]; subst. rewrite Forall_forall in F. constructor.
      * apply IH. split; [exact S|]. split; [exact S2|]. intros u y I J. apply S3; [right; exact I|exact J].
      * apply Forall_forall. intros y I. apply in_app_iff in I. destruct I as [I|I]; [apply F, I|apply S3; [left; reflexivity|exact I]].
Qed.
Lemma sorted_cons x a : sorted (x :: a) <-> sorted a /\ forall y, In y a -> (x < y)%nat.
Proof.
  split; [intros H; inversion H as [|? ? S F]; subst; rewrite Forall_forall in F; auto|intros (A & B); constructor; [exact A|apply Forall_forall; exact B]].
Qed.
Lemma filter_all (p : nat -> bool) l : (forall x, In x l -> p x = true) -> filter p l = l.
Proof. induction l as [|a l IH]; intros H; [reflexivity|]. cbn. rewrite H by (left; reflexivity). rewrite IH by (intros; apply H; right; assumption). reflexivity. Qed.
Lemma filter_none (p : nat -> bool) l : (forall x, In x l -> p x = false) -> filter p l = [].
Proof. induction l as [|a l IH]; intros H; [reflexivity|]. cbn. rewrite H by (left; reflexivity). apply IH. intros; apply H; right; assumption. Qed.
Definition after (j : nat) (c : list nat) : list nat := filter (Nat.leb j) c.
Lemma after_split a j b : sorted (a ++ j :: b) -> after (S j) (a ++ j :: b) = b /\ after j (a ++ j :: b) = j :: b.
Proof.
  intros S. apply sorted_app in S. destruct S as (_ & S2 & S3). apply sorted_cons in S2. destruct S2 as (_ & S2). unfold after.
  rewrite !filter_app. cbn [filter]. replace (S j <=? j)%nat with false by (symmetry; apply Nat.leb_gt; lia). rewrite Nat.leb_refl.
  rewrite !(filter_none _ a), !(filter_all _ b); [auto| | | |]; intros x I; try (apply Nat.leb_le; specialize (S2 x I); lia);
    apply Nat.leb_gt; specialize (S3 x j I (or_introl eq_refl)); lia.
Qed.
Lemma chain_after w c j : chain w c -> In j c -> path (nx w) (nx w j) (after (S j) c).
Proof.
  intros (P & S & _) I. apply in_split in I. destruct I as (a & b & ->). rewrite (proj1 (after_split a j b S)). eapply path_app, P.
Qed.
Lemma after_0 c : after 0 c = c. Proof. apply filter_all. reflexivity. Qed.
Lemma after_In j c i : In i (after j c) <-> In i c /\ (j <= i)%nat.
Proof. unfold after. rewrite filter_In, Nat.leb_le. reflexivity. Qed.
Lemma sorted_after j c : sorted c -> sorted (after j c).
Proof.
  induction c as [|a c IH]; intros S; [exact S|]. apply sorted_cons in S. destruct S as (S & H). unfold after in *. cbn [filter].
  destruct (j <=? a)%nat; [|apply IH, S]. apply sorted_cons. split; [apply IH, S|]. intros y I. apply H. apply filter_In in I. apply I.
Qed.
(** the first element not smaller than j *)
Lemma after_head c jb i r : sorted c -> after jb c = i :: r -> In i c /\ (jb <= i)%nat /\ r = after (S i) c /\ forall x, In x c -> (jb <= x)%nat -> (i <= x)%nat.
Proof.
  intros S E. assert (I : In i (after jb c)) by (rewrite E; left; reflexivity). apply after_In in I. destruct I as (I & L).
  assert (M : forall x, In x c -> (jb <= x)%nat -> (i <= x)%nat).
  { intros x Ix Lx. assert (J : In x (after jb c)) by (apply after_In; auto). rewrite E in J. pose proof (sorted_after jb c S) as Sa. rewrite E in Sa.
    apply sorted_cons in Sa. destruct J as [<-|J]; [lia|apply Sa in J; lia]. }
  split; [exact I|]. split; [exact L|]. split; [|exact M].
  assert (X : after jb c = after i c).
  { unfold after. apply filter_ext_in. intros a Ia. destruct (Nat.leb_spec jb a), (Nat.leb_spec i a); try reflexivity; [specialize (M a Ia); lia|lia]. }
  rewrite X in E. apply in_split in I. destruct I as (a & b & ->). destruct (after_split a i b S) as (E1 & E2). rewrite E2 in E. injection E as <-. symmetry. exact E1.
Qed.

Lemma walk_ok w : forall b a curr fuel ind l, path (nx w) (nx w curr) b -> sorted (a ++ curr :: b) -> ~ In ind b -> (curr < ind)%nat -> l = nx w curr ->
  (ind <= curr + 1 + fuel)%nat ->
  exists p a' b', walk fuel w curr l ind = Some (p, nx w p) /\ a ++ curr :: b = a' ++ p :: b' /\ (p < ind)%nat /\
    path (nx w) (nx w p) b' /\ forall x, In x b' -> (ind < x)%nat.
Proof.
  induction b as [|x b IH]; intros a curr fuel ind l P S N L -> F.
  - exists curr, a, []. cbn in P. split; [destruct fuel; cbn; rewrite P; reflexivity|]. split; [reflexivity|]. split; [exact L|]. split; [exact P|intros ? []].
  - destruct P as (E & P). assert (xc : (curr < x)%nat).
    { apply sorted_app in S. destruct S as (_ & S & _). apply sorted_cons in S. apply S. left. reflexivity. }
    destruct (Nat.ltb_spec x ind) as [Lx|Lx].
    + destruct fuel as [|fuel]; [lia|]. destruct (IH (a ++ [curr]) x fuel ind (nx w x)) as (p & a' & b' & H1 & H2 & H3); auto.
      { rewrite <- app_assoc. exact S. } { intros I. apply N. right. exact I. } { lia. }
      exists p, a', b'. split; [cbn [walk]; rewrite E; apply Nat.ltb_lt in Lx; rewrite Lx; exact H1|]. split; [rewrite <- H2, <- app_assoc; reflexivity|exact H3].
    + exists curr, a, (x :: b). split.
      { assert (X : (x <? ind)%nat = false) by (apply Nat.ltb_ge; exact Lx). destruct fuel; cbn [walk]; rewrite E, X; reflexivity. }
      split; [reflexivity|]. split; [exact L|]. split; [split; assumption|]. intros y [<-|I].
      * destruct (Nat.eq_dec x ind) as [->|]; [exfalso; apply N; left; reflexivity|lia].
      * apply sorted_app in S. destruct S as (_ & S & _). apply sorted_cons in S. destruct S as (S & _). apply sorted_cons in S. apply S in I. lia.
Qed.
Lemma walk_start fuel w curr ind : (curr < ind)%nat -> walk (S fuel) w curr (At curr) ind = walk fuel w curr (nx w curr) ind.
Proof. intros L. apply Nat.ltb_lt in L. cbn [walk]. rewrite L. reflexivity. Qed.
Lemma upd_same {A} (f : nat -> A) i v : upd f i v i = v. Proof. unfold upd. rewrite Nat.eqb_refl. reflexivity. Qed.
Lemma upd_other {A} (f : nat -> A) i v j : j <> i -> upd f i v j = f j. Proof. intros N. unfold upd. apply Nat.eqb_neq in N. rewrite N. reflexivity. Qed.
Lemma set_val_chain w c i v : chain w c -> chain (set_val w i v) c. Proof. intros C. exact C. Qed.
Lemma set_val_rowv w c i v j : chain w c -> In i c -> rowv (set_val w i v) j = if Nat.eqb j i then v else rowv w j.
Proof.
  intros C I. unfold rowv, set_val. cbn [nx vl]. destruct (Nat.eqb_spec j i) as [->|N].
  - rewrite (proj1 (chain_in w c i C) I), upd_same. reflexivity.
  - rewrite upd_other by exact N. reflexivity.
Qed.
(** path with a new element *)
Lemma path_insert nxt ind : forall a p b l, path nxt l (a ++ p :: b) -> ~ In ind (a ++ p :: b) -> NoDup (a ++ p :: b) ->
  path (upd (upd nxt p (At ind)) ind (nxt p)) l (a ++ p :: ind :: b).
Proof.
  induction a as [|x a IH]; intros p b l P N D; cbn [app] in *.
  - destruct P as (-> & P). split; [reflexivity|]. assert (pi : p <> ind) by (intros ->; apply N; left; reflexivity). cbn [path].
    rewrite upd_other, upd_same by exact pi. split; [reflexivity|]. rewrite upd_same. eapply path_ext; [|exact P].
    intros i I. inversion D as [|? ? Np Nb]; subst. rewrite !upd_other; [reflexivity|intros ->; contradiction|intros ->; apply N; right; exact I].
  - destruct P as (-> & P). split; [reflexivity|]. inversion D as [|? ? Nx Nd]; subst.
    rewrite !upd_other; [apply IH; [exact P|intros I; apply N; right; exact I|exact Nd]| |].
    + intros ->. apply Nx, in_or_app. right. left. reflexivity.
    + intros ->. apply N. left. reflexivity.
Qed.
Lemma sorted_nodup c : sorted c -> NoDup c.
Proof. induction c as [|a c IH]; intros S; [constructor|]. apply sorted_cons in S. constructor; [intros I; apply S in I; lia|apply IH, S]. Qed.

Lemma update1_ok n j w c curr ind v : chain w c -> In curr c -> (curr < ind < n)%nat -> j <> ind -> In j c ->
  exists w' c', update1 n j (Some (w, curr)) (ind, v) = Some (w', ind) /\ chain w' c' /\
    (forall x, In x c' <-> In x c \/ x = ind) /\ (forall i, rowv w' i = rowv w i - (if Nat.eqb ind i then vl w j * v else 0)) /\
    (forall i, i <> ind -> vl w' i = vl w i).
Proof.
  intros C I (L & Ln) N Ij. cbn [update1 fst snd]. destruct (is_undef (nx w ind)) eqn:D; cbn [negb].
  - assert (Ni : ~ In ind c) by (intros X; apply (chain_in w c ind C) in X; congruence).
    destruct C as (P & S & U). apply in_split in I. destruct I as (a & b & Ec).
    destruct n as [|n']; [lia|]. rewrite walk_start by exact L.
    assert (Pb : path (nx w) (nx w curr) b) by (rewrite Ec in P; eapply path_app, P).
    destruct (walk_ok w b a curr n' ind (nx w curr)) as (p & a' & b' & W & E & Lp & Pp & G); auto.
    { rewrite <- Ec. exact S. } { intros X. apply Ni. rewrite Ec. apply in_or_app. right. right. exact X. } { lia. }
    rewrite W. rewrite <- Ec in E. clear Ec a b Pb.
    assert (Lk : lt_link ind (nx w p) = true).
    { destruct b' as [|x b']; cbn in Pp; [rewrite Pp; reflexivity|]. destruct Pp as (-> & _). cbn. apply Nat.ltb_lt, G. left. reflexivity. }
    apply Nat.ltb_lt in Lp. rewrite Lp, Lk. apply Nat.ltb_lt in Lp. cbn [andb set_link set_val hd nx vl].
    exists (Work (hd w) (upd (upd (nx w) p (At ind)) ind (nx w p)) (upd (vl w) ind (- vl w j * v))), (a' ++ p :: ind :: b').
    split; [reflexivity|]. assert (IN : forall x, In x (a' ++ p :: ind :: b') <-> In x c \/ x = ind).
    { intros x. rewrite E, !in_app_iff. cbn [In]. intuition congruence. }
    split; [|split; [exact IN|]].
    + split; [|split].
      * cbn [nx hd]. apply path_insert; [rewrite <- E; exact P|rewrite <- E; exact Ni|rewrite <- E; apply sorted_nodup, S].
      * rewrite E in S. apply sorted_app in S. destruct S as (S1 & S2 & S3). apply sorted_cons in S2. destruct S2 as (S2 & S4).
        apply sorted_app. split; [exact S1|]. split.
        { apply sorted_cons. split; [apply sorted_cons; split; [exact S2|exact G]|]. intros y [<-|J]; [exact Lp|apply S4, J]. }
        intros x y Ix [<-|[<-|J]]; [apply S3; [exact Ix|left; reflexivity]| |apply S3; [exact Ix|right; exact J]].
        specialize (S3 x p Ix (or_introl eq_refl)). lia.
      * intros i Hi. cbn [nx]. rewrite !upd_other; [apply U; intros X; apply Hi, IN; left; exact X| |];
          intros ->; apply Hi, IN; [left; rewrite E; apply in_or_app; right; left; reflexivity|right; reflexivity].
    + split.
      * intros i. unfold rowv. cbn [nx vl]. destruct (Nat.eqb_spec ind i) as [<-|Ne].
        { rewrite !upd_same, D. destruct (is_undef (nx w p)) eqn:Dp; [|ring]. destruct b' as [|x b']; cbn in Pp; [rewrite Pp in Dp|destruct Pp as (Pp & _); rewrite Pp in Dp]; discriminate. }
        rewrite (upd_other _ ind) by auto. rewrite (upd_other (vl w)) by auto. destruct (Nat.eq_dec i p) as [->|Np]; [|rewrite upd_other by exact Np; ring].
        rewrite upd_same. cbn [is_undef]. assert (Ip : In p c) by (rewrite E; apply in_or_app; right; left; reflexivity).
        assert (C : chain w c) by (split; [exact P|split; [exact S|exact U]]). rewrite (proj1 (chain_in w c p C) Ip). ring.
      * intros i Hi. cbn [vl]. apply upd_other, Hi.
  - assert (Ii : In ind c) by (apply (chain_in w c ind C), D).
    exists (set_val w ind (vl w ind - vl w j * v)), c. split; [reflexivity|]. split; [apply set_val_chain, C|].
    split; [intros x; split; [auto|intros [X| ->]; assumption]|]. split.
    + intros i. rewrite (set_val_rowv w c ind _ i C Ii). destruct (Nat.eqb_spec i ind) as [->|Ne].
      * rewrite Nat.eqb_refl, (rowv_in w c ind C Ii). reflexivity.
      * destruct (Nat.eqb_spec ind i); [congruence|ring].
    + intros i Hi. cbn [set_val vl]. apply upd_other, Hi.
Qed.
Definition good_row (j n : nat) (r : row) : Prop := sorted (map fst r) /\ forall e, In e r -> (j < fst e < n)%nat.
Lemma update_fold n j : forall r w c curr, chain w c -> In curr c -> In j c -> sorted (map fst r) ->
  (forall e, In e r -> (curr < fst e < n)%nat /\ (j < fst e)%nat) ->
  exists w' c' q, fold_left (update1 n j) r (Some (w, curr)) = Some (w', q) /\ chain w' c' /\
    (forall x, In x c' <-> In x c \/ In x (map fst r)) /\ (forall i, rowv w' i = rowv w i - vl w j * coef r i) /\
    (forall i, (i <= j)%nat -> vl w' i = vl w i).
Proof.
  induction r as [|(ind & v) r IH]; intros w c curr C I J S B.
  - exists w, c, curr. split; [reflexivity|]. split; [exact C|]. split; [intros x; cbn; tauto|]. split; [intros i; cbn; ring|reflexivity].
  - cbn [fold_left]. destruct (B (ind, v) (or_introl eq_refl)) as (B1 & B2). cbn [fst] in B1, B2. cbn [map fst] in S. apply sorted_cons in S. destruct S as (S & Sh).
    destruct (update1_ok n j w c curr ind v C I B1 (Nat.lt_neq _ _ B2) J) as (w1 & c1 & E & C1 & IN & RV & VL). rewrite E.
    destruct (IH w1 c1 ind C1) as (w' & c' & q & E' & C' & IN' & RV' & VL').
    { apply IN. right. reflexivity. } { apply IN. left. exact J. } { exact S. }
    { intros e Ie. destruct (B e (or_intror Ie)) as ((_ & B4) & B5). split; [|exact B5]. split; [|exact B4]. apply Sh, in_map, Ie. }
    exists w', c', q. split; [exact E'|]. split; [exact C'|]. split.
    { intros x. rewrite IN', IN. cbn [map fst In]. intuition congruence. }
    split; [|intros i Hi; rewrite VL' by exact Hi; apply VL; lia].
    intros i. rewrite RV', RV, (VL j) by lia. cbn [coef fst snd]. destruct (Nat.eqb ind i); ring.
Qed.
Lemma update_ok n j r w c : chain w c -> In j c -> good_row j n r ->
  exists w' c', update n j r w = Some w' /\ chain w' c' /\
    (forall x, In x c' <-> In x c \/ In x (map fst r)) /\ (forall i, rowv w' i = rowv w i - vl w j * coef r i) /\
    (forall i, (i <= j)%nat -> vl w' i = vl w i).
Proof.
  intros C J (S & B). destruct (update_fold n j r w c j C J J S) as (w' & c' & q & E & H).
  { intros e Ie. specialize (B e Ie). lia. }
  exists w', c'. split; [unfold update; rewrite E; reflexivity|exact H].
Qed.

(** * Elimination *)
Section E.
Variables (n k : nat) (tau tau2 : R) (fs : list lurow) (b : nat -> R).
Hypothesis Kn : (k < n)%nat.
Hypothesis Lf : length fs = k.
Definition good_f (p : nat) (f : lurow) : Prop := good_row p n (up f) /\ good_row p n (up2 f) /\ ud f <> 0.
Hypothesis Gf : forall p, (p < k)%nat -> good_f p (nthf fs p).
Definition part (w : work) (m i : nat) : R := rs m (fun p => rowv w p * eff tau tau2 (nthf fs p) (rowv w p) i).
Definition inv (jb : nat) (w : work) (c : list nat) : Prop :=
  chain w c /\ In k c /\ (forall x, In x c -> (x < n)%nat) /\
  (forall i, (i < jb)%nat -> b i = part w i i + rowv w i / ud (nthf fs i)) /\
  (forall i, (jb <= i < n)%nat -> b i = part w jb i + rowv w i).
Lemma part_ext w w' m i : (forall p, (p < m)%nat -> rowv w' p = rowv w p) -> part w' m i = part w m i.
Proof. intros H. apply rs_ext. intros p L. rewrite H by exact L. reflexivity. Qed.
Lemma part_gap w c jb m i : chain w c -> (jb <= m)%nat -> (forall x, In x c -> (jb <= x)%nat -> (m <= x)%nat) -> part w m i = part w jb i.
Proof.
  intros C L G. apply rs_split; [exact L|]. intros p Lp. rewrite (rowv_out w c p C); [ring|]. intros I. specialize (G p I). lia.
Qed.
(** columns that are not in the list can be passed over *)
Lemma inv_gap jb m w c : inv jb w c -> (jb <= m)%nat -> (m <= n)%nat -> (forall x, In x c -> (jb <= x)%nat -> (m <= x)%nat) -> inv m w c.
Proof.
  intros (C & K & B & I1 & I2) L Ln G. split; [exact C|]. split; [exact K|]. split; [exact B|]. split; intros i Hi.
  - destruct (Nat.ltb_spec i jb) as [Li|Li]; [apply I1, Li|]. rewrite I2 by lia.
    rewrite (part_gap w c jb i i C Li); [|intros x Ix Lx; specialize (G x Ix Lx); lia].
    rewrite (rowv_out w c i C); [unfold Rdiv; ring|]. intros Ix. specialize (G i Ix Li). lia.
  - rewrite I2 by lia. rewrite (part_gap w c jb m i C L G). reflexivity.
Qed.
Lemma eff_up p f cc i : good_f p f -> (i <= p)%nat -> eff tau tau2 f cc i = 0.
Proof.
  intros ((_ & B1) & (_ & B2) & _) L. unfold eff.
  rewrite !coef_0; [destruct (Rlt_dec tau2 (Rabs cc)); [destruct (Rlt_dec tau (Rabs cc)); ring|reflexivity]|intros e Ie; specialize (B2 e Ie); lia|intros e Ie; specialize (B1 e Ie); lia].
Qed.
Lemma elim_ok : forall fuel jb w c l, inv jb w c -> path (nx w) l (after jb c) -> (jb <= k)%nat -> (k - jb < fuel)%nat ->
  exists w' c', elim fuel n k tau tau2 fs l w = Some w' /\ inv k w' c'.
Proof.
  induction fuel as [|fuel IH]; intros jb w c l INV P Lj F; [lia|]. pose proof INV as (C & K & B & I1 & I2).
  destruct (after jb c) as [|j d] eqn:A.
  { exfalso. assert (X : In k (after jb c)) by (apply after_In; auto). rewrite A in X. destruct X. }
  destruct (after_head c jb j d (proj1 (proj2 C)) A) as (Ij & Lb & Ed & M). destruct P as (-> & P).
  destruct (Nat.ltb_spec j k) as [Ljk|Ljk].
  - cbn [elim link_lt]. apply Nat.ltb_lt in Ljk. rewrite Ljk. apply Nat.ltb_lt in Ljk.
    assert (Nf : nth_error fs j = Some (nthf fs j)) by (unfold nthf; apply nth_error_nth'; lia). rewrite Nf. set (f := nthf fs j).
    pose proof (Gf j Ljk) as G. fold f in G. pose proof G as (G1 & G2 & G3).
    set (w0 := set_val w j (vl w j * ud f)). assert (C0 : chain w0 c) by (apply set_val_chain, C).
    assert (V0 : vl w0 j = vl w j * ud f) by (unfold w0; cbn [set_val vl]; apply upd_same).
    assert (R0 : forall i, rowv w0 i = if Nat.eqb i j then vl w j * ud f else rowv w i) by (intros i; apply (set_val_rowv w c j _ i C Ij)).
    cbv zeta.
    assert (X : exists w1 c1, (if Rlt_dec tau2 (Rabs (vl w0 j)) then
        match update n j (up f) w0 with None => None | Some w' => if Rlt_dec tau (Rabs (vl w0 j)) then update n j (up2 f) w' else Some w' end else Some w0) = Some w1 /\
        chain w1 c1 /\ (forall x, In x c -> In x c1) /\ (forall x, In x c1 -> (x < n)%nat) /\
        (forall i, rowv w1 i = rowv w0 i - vl w0 j * eff tau tau2 f (vl w0 j) i) /\ (forall x, (x <= j)%nat -> In x c1 -> In x c)).
    { unfold eff. destruct (Rlt_dec tau2 (Rabs (vl w0 j))) as [T2|T2].
      - destruct (update_ok n j (up f) w0 c C0 Ij G1) as (w1 & c1 & E1 & C1 & N1 & R1 & V1). rewrite E1.
        assert (B1 : forall x, In x c1 -> (x < n)%nat).
        { intros x Ix. apply N1 in Ix. destruct Ix as [Ix|Ix]; [apply B, Ix|]. apply in_map_iff in Ix. destruct Ix as (e & <- & Ie). destruct G1 as (_ & G1). specialize (G1 e Ie). lia. }
        assert (U1 : forall x, (x <= j)%nat -> In x c1 -> In x c).
        { intros x Lx Ix. apply N1 in Ix. destruct Ix as [Ix|Ix]; [exact Ix|]. apply in_map_iff in Ix. destruct Ix as (e & <- & Ie). destruct G1 as (_ & G1). specialize (G1 e Ie). lia. }
        destruct (Rlt_dec tau (Rabs (vl w0 j))) as [T1|T1].
        + destruct (update_ok n j (up2 f) w1 c1 C1) as (w2 & c2 & E2 & C2 & N2 & R2 & V2); [apply N1; left; exact Ij|exact G2|].
          exists w2, c2. split; [exact E2|]. split; [exact C2|]. split; [intros x Ix; apply N2; left; apply N1; left; exact Ix|]. split.
          { intros x Ix. apply N2 in Ix. destruct Ix as [Ix|Ix]; [apply B1, Ix|]. apply in_map_iff in Ix. destruct Ix as (e & <- & Ie). destruct G2 as (_ & G2). specialize (G2 e Ie). lia. }
          split; [intros i; rewrite R2, R1, V1 by lia; ring|].
          intros x Lx Ix. apply N2 in Ix. destruct Ix as [Ix|Ix]; [apply U1; assumption|]. apply in_map_iff in Ix. destruct Ix as (e & <- & Ie). destruct G2 as (_ & G2). specialize (G2 e Ie). lia.
        + exists w1, c1. split; [reflexivity|]. split; [exact C1|]. split; [intros x Ix; apply N1; left; exact Ix|]. split; [exact B1|]. split; [intros i; rewrite R1; ring|exact U1].
      - exists w0, c. split; [reflexivity|]. split; [exact C0|]. split; [auto|]. split; [exact B|]. split; [intros; ring|auto]. }
    destruct X as (w1 & c1 & E1 & C1 & N1 & B1 & R1 & U1). rewrite E1.
    assert (Small : forall i, (i < j)%nat -> rowv w1 i = rowv w i).
    { intros i L. rewrite R1, (eff_up j f _ i G) by lia. rewrite R0. assert (Nij : Nat.eqb i j = false) by (apply Nat.eqb_neq; lia). rewrite Nij. ring. }
    assert (Rj : rowv w1 j = vl w0 j).
    { rewrite R1, (eff_up j f _ j G) by lia. rewrite R0, Nat.eqb_refl, V0. ring. }
    apply (IH (S j) w1 c1); [|apply chain_after; [exact C1|apply N1, Ij]|lia|lia].
    assert (INVj : inv j w c) by (apply (inv_gap jb); auto; lia). destruct INVj as (_ & _ & _ & J1 & J2).
    split; [exact C1|]. split; [apply N1, K|]. split; [exact B1|]. split; intros i Hi.
    + destruct (Nat.eq_dec i j) as [->|Nij].
      * rewrite J2 by lia. rewrite (part_ext w w1 j j) by (intros; apply Small; assumption). rewrite Rj, V0, (rowv_in w c j C Ij). unfold f. fold f. f_equal. field. exact G3.
      * rewrite J1 by lia. rewrite (part_ext w w1 i i) by (intros; apply Small; lia). rewrite Small by lia. reflexivity.
    + rewrite J2 by lia. unfold part. cbn [rs]. fold (part w1 j i). rewrite (part_ext w w1 j i) by (intros; apply Small; assumption).
      rewrite Rj. fold f. rewrite R1, R0. assert (Nij : Nat.eqb i j = false) by (apply Nat.eqb_neq; lia). rewrite Nij. fold (part w j i). ring.
  - exists w, c. split; [cbn [elim link_lt]; replace (j <? k)%nat with false by (symmetry; apply Nat.ltb_ge; exact Ljk); reflexivity|].
    apply (inv_gap jb); auto; [lia|]. intros x Ix Lx. specialize (M x Ix Lx). lia.
Qed.
End E.

(** * Loading of a row *)
Lemma load_ok : forall r w l, NoDup (map fst r) ->
  let s := fold_left (fun s e => if big e then (set_val (fst s) (fst e) (snd e), snd s ++ [fst e]) else s) r (w, l) in
  hd (fst s) = hd w /\ nx (fst s) = nx w /\ snd s = l ++ map fst (filter big r) /\
  forall i, vl (fst s) i = if in_dec Nat.eq_dec i (map fst (filter big r)) then coef (filter big r) i else vl w i.
Proof.
  induction r as [|e r IH]; intros w l D; cbn [fold_left filter].
  - cbn. rewrite app_nil_r. auto.
  - inversion D as [|? ? Ne D']; subst. destruct (big e) eqn:B.
    + cbn [fst snd]. destruct (IH (set_val w (fst e) (snd e)) (l ++ [fst e]) D') as (H1 & H2 & H3 & H4).
      split; [rewrite H1; reflexivity|]. split; [rewrite H2; reflexivity|]. split; [rewrite H3, <- app_assoc; reflexivity|].
      assert (N : ~ In (fst e) (map fst (filter big r))).
      { intros I. apply Ne. apply in_map_iff in I. destruct I as (x & E & I). apply filter_In in I. rewrite <- E. apply in_map, I. }
      intros i. rewrite H4. cbn [map coef set_val vl]. destruct (Nat.eqb_spec (fst e) i) as [<-|Hi].
      * destruct (in_dec Nat.eq_dec (fst e) (map fst (filter big r))) as [I|_]; [contradiction|].
        destruct (in_dec Nat.eq_dec (fst e) (fst e :: map fst (filter big r))) as [_|X]; [|exfalso; apply X; left; reflexivity].
        rewrite upd_same, coef_0; [ring|]. intros x I E. apply N. rewrite <- E. apply in_map, I.
      * rewrite upd_other by auto. destruct (in_dec Nat.eq_dec i (map fst (filter big r))) as [I|I]; destruct (in_dec Nat.eq_dec i (fst e :: map fst (filter big r))) as [J|J]; try ring;
          exfalso; [apply J; right; exact I|destruct J; [congruence|contradiction]].
    + apply IH, D'.
Qed.
Lemma insert_perm x : forall l, Permutation (insert x l) (x :: l).
Proof.
  induction l as [|y r IH]; cbn; [reflexivity|]. destruct (x <=? y)%nat; [reflexivity|]. rewrite IH. apply perm_swap.
Qed.
Lemma sort_perm l : Permutation (sort l) l.
Proof. induction l as [|x l IH]; cbn; [reflexivity|]. rewrite insert_perm, IH. reflexivity. Qed.
Lemma insert_sorted x : forall l, sorted l -> ~ In x l -> sorted (insert x l).
Proof.
  induction l as [|y r IH]; intros S N; cbn [insert]; [apply sorted_cons; split; [exact S|intros ? []]|].
  pose proof S as S0. apply sorted_cons in S. destruct S as (S & H). assert (x <> y) by (intros ->; apply N; left; reflexivity). destruct (Nat.leb_spec x y) as [L|L].
  - apply sorted_cons. split; [exact S0|]. intros z [<-|I]; [lia|specialize (H z I); lia].
  - apply sorted_cons. split; [apply IH; [exact S|intros I; apply N; right; exact I]|]. intros z I.
    apply (Permutation_in _ (insert_perm x r)) in I. destruct I as [<-|I]; [exact L|apply H, I].
Qed.
Lemma sort_sorted l : NoDup l -> sorted (sort l).
Proof.
  induction l as [|x l IH]; intros D; [constructor|]. inversion D as [|? ? N D']; subst. cbn. apply insert_sorted; [apply IH, D'|].
  intros I. apply N. apply (Permutation_in _ (sort_perm l)), I.
Qed.
Lemma chain_up_ok k : forall l w prev ip, sorted l -> (forall p, prev = Some p -> ~ In p l) ->
  let s := fold_left (fun s ind => let '(w, prev, ipred) := s in (set_link w prev (At ind), Some ind, if Nat.leb ind k then Some ind else ipred)) l (w, prev, ip) in
  let w' := set_link (fst (fst s)) (snd (fst s)) Eol in
  path (nx w') (get_link w' prev) l /\ vl w' = vl w /\ (prev <> None -> hd w' = hd w) /\
  (forall i, ~ In i l -> Some i <> prev -> nx w' i = nx w i) /\
  (((forall x, In x l -> (k < x)%nat) /\ snd s = ip) \/ (exists i, In i l /\ (i <= k)%nat /\ snd s = Some i /\ forall x, In x l -> (x <= k)%nat -> (x <= i)%nat)).
Proof.
  induction l as [|x l IH]; intros w prev ip S P; cbn [fold_left].
  - cbn. split; [destruct prev as [p|]; cbn; [apply upd_same|reflexivity]|]. split; [destruct prev; reflexivity|]. split; [intros N; destruct prev; [reflexivity|contradiction]|].
    split; [|left; split; [intros ? []|reflexivity]]. intros i _ N. destruct prev as [p|]; [cbn; apply upd_other; intros ->; apply N; reflexivity|reflexivity].
  - apply sorted_cons in S. destruct S as (S & H).
    destruct (IH (set_link w prev (At x)) (Some x) (if Nat.leb x k then Some x else ip) S) as (H1 & H2 & H3 & H4 & H5).
    { intros p [= <-] I. apply H in I. lia. }
    cbv zeta in *. set (s := fold_left _ l _) in *. set (w' := set_link _ _ Eol) in *. cbn [get_link] in H1.
    split; [|split; [|split; [|split]]].
    + split; [|exact H1]. destruct prev as [p|]; cbn [get_link].
      * rewrite H4; [cbn; apply upd_same| |]; intros I; [apply (P p eq_refl); right; exact I|injection I as ->; apply (P x eq_refl); left; reflexivity].
      * rewrite H3 by discriminate. reflexivity.
    + rewrite H2. destruct prev; reflexivity.
    + intros N. rewrite H3 by discriminate. destruct prev; [reflexivity|contradiction].
    + intros i Ni Np. rewrite H4; [|intros I; apply Ni; right; exact I|intros [= ->]; apply Ni; left; reflexivity].
      destruct prev as [p|]; [cbn; apply upd_other; intros ->; apply Np; reflexivity|reflexivity].
    + destruct (Nat.leb_spec x k) as [L|L].
      * right. destruct H5 as [(G & E)|(i & I & Li & E & G)].
        { exists x. split; [left; reflexivity|]. split; [exact L|]. split; [exact E|]. intros y [<-|I] Ly; [lia|]. apply G in I. lia. }
        { exists i. split; [right; exact I|]. split; [exact Li|]. split; [exact E|]. intros y [<-|J] Ly; [specialize (H i I); lia|apply G; assumption]. }
      * left. destruct H5 as [(G & E)|(i & I & Li & E & G)]; [split; [intros y [<-|I]; [exact L|apply G, I]|exact E]|]. specialize (H i I). lia.
Qed.
Lemma uncompress_ok n k r w : (k < n)%nat -> (forall i, nx w i = Undef) -> NoDup (map fst r) -> (forall e, In e r -> (fst e < n)%nat) ->
  let w' := uncompress k r w in
  exists c, chain w' c /\ In k c /\ (forall x, In x c -> (x < n)%nat) /\ forall i, rowv w' i = coef (filter big r) i.
Proof.
  intros Kn U D B. unfold uncompress, load, chain_up. pose proof (load_ok r w [] D) as H. cbv zeta in *.
  destruct (fold_left _ r (w, [])) as (w1, l1) eqn:E1. cbn [fst snd app] in H. destruct H as (_ & H2 & -> & H4). set (l := map fst (filter big r)) in *.
  assert (Dl : NoDup l). { unfold l. clear -D. induction r as [|e r IH]; [constructor|]. inversion D as [|? ? N D']; subst. cbn [filter]. destruct (big e); [|apply IH, D'].
    cbn. constructor; [|apply IH, D']. intros I. apply N. apply in_map_iff in I. destruct I as (x & E & I). apply filter_In in I. rewrite <- E. apply in_map, I. }
  pose proof (sort_sorted l Dl) as S. assert (IN : forall x, In x (sort l) <-> In x l).
  { intros x. split; apply Permutation_in; [apply sort_perm|apply Permutation_sym, sort_perm]. }
  assert (Bl : forall x, In x l -> (x < n)%nat).
  { intros x I. unfold l in I. apply in_map_iff in I. destruct I as (e & <- & I). apply filter_In in I. apply B, I. }
  pose proof (chain_up_ok k (sort l) w1 None None S) as H. cbv zeta in H. destruct (fold_left _ (sort l) (w1, None, None)) as ((w2, prev), ipred) eqn:E2. cbn [fst snd] in H.
  destruct H as (P & V & _ & O & IP); [discriminate|]. set (w3 := set_link w2 prev Eol) in *. cbn [get_link] in P.
  assert (O3 : forall i, ~ In i (sort l) -> nx w3 i = Undef) by (intros i N; rewrite O, H2; [apply U|exact N|discriminate]).
  assert (C3 : chain w3 (sort l)) by (split; [exact P|split; [exact S|exact O3]]).
  assert (V3 : forall i, In i l -> vl w3 i = coef (filter big r) i).
  { intros i I. rewrite V, H4. destruct (in_dec Nat.eq_dec i l); [reflexivity|contradiction]. }
  assert (R3 : forall i, rowv w3 i = coef (filter big r) i).
  { intros i. destruct (in_dec Nat.eq_dec i l) as [I|I].
    - rewrite (rowv_in w3 (sort l)); [apply V3, I|exact C3|apply IN, I].
    - rewrite (rowv_out w3 (sort l) i C3); [|rewrite IN; exact I]. symmetry. apply coef_0. intros e Ie E. apply I. rewrite <- E. apply in_map, Ie. }
  destruct IP as [(G & Eip)|(i & I & Li & Eip & G)]; rewrite Eip.
  - (* at the head *)
    assert (Nk : ~ In k (sort l)) by (intros J; apply G in J; lia).
    cbn [get_link set_link set_val hd nx vl]. exists (k :: sort l). split.
    + split; [|split]; cbn [nx hd].
      * split; [reflexivity|]. rewrite upd_same. eapply path_ext; [|exact P]. intros i I. rewrite upd_other; [reflexivity|intros ->; contradiction].
      * apply sorted_cons. split; [exact S|exact G].
      * intros i N. rewrite upd_other by (intros ->; apply N; left; reflexivity). apply O3. intros J. apply N. right. exact J.
    + split; [left; reflexivity|]. split; [intros x [<-|J]; [exact Kn|apply Bl, IN, J]|].
      intros i. unfold rowv. cbn [nx vl]. destruct (Nat.eq_dec i k) as [->|Ni].
      * rewrite !upd_same. rewrite <- R3, (rowv_out w3 (sort l) k C3 Nk). destruct (is_undef (hd w3)); reflexivity.
      * rewrite !upd_other by exact Ni. apply R3.
  - destruct (Nat.eqb_spec i k) as [->|Nik].
    + exists (sort l). split; [exact C3|]. split; [exact I|]. split; [intros x J; apply Bl, IN, J|exact R3].
    + assert (Nk : ~ In k (sort l)) by (intros J; specialize (G k J); lia).
      cbn [get_link set_link set_val hd nx vl]. apply in_split in I. destruct I as (a & b & Es). exists (a ++ i :: k :: b).
      assert (IN2 : forall x, In x (a ++ i :: k :: b) <-> In x (sort l) \/ x = k).
      { intros x. rewrite Es, !in_app_iff. cbn [In]. intuition congruence. }
      split.
      * split; [|split]; cbn [nx hd].
        { apply path_insert; [rewrite <- Es; exact P|rewrite <- Es; exact Nk|rewrite <- Es; apply sorted_nodup, S]. }
        { pose proof S as S0. rewrite Es in S0. apply sorted_app in S0. destruct S0 as (S1 & S2 & S3). apply sorted_cons in S2. destruct S2 as (S2 & S4).
          apply sorted_app. split; [exact S1|]. split.
          - apply sorted_cons. split; [apply sorted_cons; split; [exact S2|]|].
            + intros y J. assert (Iy : In y (sort l)) by (rewrite Es; apply in_or_app; right; right; exact J). destruct (Nat.le_gt_cases y k) as [Ly|Ly]; [|exact Ly].
              specialize (G y Iy Ly). specialize (S4 y J). lia.
            + intros y [<-|J]; [lia|apply S4, J].
          - intros x y Ix [<-|[<-|J]]; [apply S3; [exact Ix|left; reflexivity]| |apply S3; [exact Ix|right; exact J]]. specialize (S3 x i Ix (or_introl eq_refl)). lia. }
        { intros x N. rewrite !upd_other; [apply O3; intros J; apply N, IN2; left; exact J| |]; intros ->; apply N, IN2; [left; rewrite Es; apply in_or_app; right; left; reflexivity|right; reflexivity]. }
      * split; [apply IN2; right; reflexivity|]. split; [intros x J; apply IN2 in J; destruct J as [J| ->]; [apply Bl, IN, J|exact Kn]|].
        intros x. unfold rowv. cbn [nx vl]. destruct (Nat.eq_dec x k) as [->|Nx].
        { rewrite !upd_same. rewrite <- R3, (rowv_out w3 (sort l) k C3 Nk). destruct (is_undef (nx w3 i)); reflexivity. }
        rewrite (upd_other _ k) by exact Nx. rewrite (upd_other (vl w3)) by exact Nx. destruct (Nat.eq_dec x i) as [->|Nxi].
        { rewrite upd_same. cbn [is_undef]. rewrite <- R3. symmetry. apply (rowv_in w3 (sort l) i C3). rewrite Es. apply in_or_app. right. left. reflexivity. }
        rewrite upd_other by exact Nxi. apply R3.
Qed.

(** * Storing of a row *)
Lemma sorted_length n c : sorted c -> (forall x, In x c -> (x < n)%nat) -> (length c <= n)%nat.
Proof. intros S B. rewrite <- (seq_length n 0). apply NoDup_incl_length; [apply sorted_nodup, S|]. intros x I. apply in_seq. specialize (B x I). lia. Qed.
Lemma row_max_ok w : forall d fuel l m, path (nx w) l d -> (length d <= fuel)%nat -> row_max fuel w l m = Some (fold_left (fun m j => Rmax m (Rabs (vl w j))) d m).
Proof.
  induction d as [|j d IH]; intros fuel l m P F; cbn in P; [rewrite P; destruct fuel; reflexivity|]. destruct P as (-> & P). cbn in F. destruct fuel as [|fuel]; [lia|].
  cbn [row_max fold_left]. apply IH; [exact P|lia].
Qed.
Lemma fold_max (g : nat -> R) : forall d m, m <= fold_left (fun m j => Rmax m (g j)) d m /\ (forall j, In j d -> g j <= fold_left (fun m j => Rmax m (g j)) d m) /\
  (fold_left (fun m j => Rmax m (g j)) d m = m \/ exists j, In j d /\ fold_left (fun m j => Rmax m (g j)) d m = g j).
Proof.
  induction d as [|a d IH]; intros m; cbn [fold_left]; [split; [lra|split; [intros ? []|auto]]|].
  destruct (IH (Rmax m (g a))) as (H1 & H2 & H3). pose proof (Rmax_l m (g a)). pose proof (Rmax_r m (g a)). split; [lra|]. split.
  - intros j [<-|I]; [lra|apply H2, I].
  - destruct H3 as [E|(j & I & E)]; [|right; exists j; split; [right; exact I|exact E]]. rewrite E. unfold Rmax. destruct (Rle_dec m (g a)); [right; exists a; split; [left; reflexivity|reflexivity]|left; reflexivity].
Qed.
Lemma scale_row_ok s : forall d fuel l w, path (nx w) l d -> NoDup d -> (length d <= fuel)%nat ->
  exists w', scale_row fuel s l w = Some w' /\ hd w' = hd w /\ nx w' = nx w /\ forall i, vl w' i = if in_dec Nat.eq_dec i d then vl w i * s else vl w i.
Proof.
  induction d as [|j d IH]; intros fuel l w P D F; cbn in P; [rewrite P; exists w; destruct fuel; cbn; auto|].
  destruct P as (-> & P). cbn in F. destruct fuel as [|fuel]; [lia|]. inversion D as [|? ? N D']; subst. cbn [scale_row].
  destruct (IH fuel (nx w j) (set_val w j (vl w j * s))) as (w' & E & H1 & H2 & H3); [exact P|exact D'|lia|].
  exists w'. split; [exact E|]. split; [exact H1|]. split; [exact H2|]. intros i. rewrite H3. cbn [set_val vl].
  destruct (Nat.eq_dec i j) as [->|Ni].
  - rewrite upd_same. destruct (in_dec Nat.eq_dec j d) as [I|_]; [contradiction|]. destruct (in_dec Nat.eq_dec j (j :: d)) as [_|X]; [reflexivity|exfalso; apply X; left; reflexivity].
  - rewrite upd_other by exact Ni. destruct (in_dec Nat.eq_dec i d) as [I|I]; destruct (in_dec Nat.eq_dec i (j :: d)) as [J|J]; try reflexivity; exfalso; [apply J; right; exact I|destruct J; [congruence|contradiction]].
Qed.
Definition entries (p : R -> bool) (v : nat -> R) (d : list nat) : row := map (fun j => (j, v j)) (filter (fun j => p (v j)) d).
Lemma entries_In p v d e : In e (entries p v d) -> In (fst e) d.
Proof. intros I. apply in_map_iff in I. destruct I as (j & <- & I). apply filter_In in I. apply I. Qed.
Lemma entries_coef p v d i : NoDup d -> coef (entries p v d) i = if in_dec Nat.eq_dec i d then (if p (v i) then v i else 0) else 0.
Proof.
  unfold entries. induction d as [|j d IH]; intros D; [reflexivity|]. inversion D as [|? ? N D']; subst. cbn [filter].
  destruct (Nat.eq_dec i j) as [->|Ni].
  - destruct (in_dec Nat.eq_dec j (j :: d)) as [_|X]; [|exfalso; apply X; left; reflexivity]. specialize (IH D'). destruct (in_dec Nat.eq_dec j d) as [I|_]; [contradiction|].
    destruct (p (v j)); cbn [map coef fst snd]; rewrite IH, ?Nat.eqb_refl; ring.
  - assert (E : coef (map (fun j => (j, v j)) (filter (fun j => p (v j)) d)) i = if in_dec Nat.eq_dec i (j :: d) then (if p (v i) then v i else 0) else 0).
    { rewrite IH by exact D'. destruct (in_dec Nat.eq_dec i d) as [I|I]; destruct (in_dec Nat.eq_dec i (j :: d)) as [J|J]; try reflexivity; exfalso; [apply J; right; exact I|destruct J; [congruence|contradiction]]. }
    destruct (p (v j)); [|exact E]. cbn [map coef fst snd]. rewrite E. destruct (Nat.eqb_spec j i); [congruence|ring].
Qed.
Lemma filter_sorted p d : sorted d -> sorted (filter p d).
Proof.
  induction d as [|a d IH]; intros S; [exact S|]. apply sorted_cons in S. destruct S as (S & H). cbn. destruct (p a); [|apply IH, S].
  apply sorted_cons. split; [apply IH, S|]. intros y I. apply filter_In in I. apply H, I.
Qed.
Lemma entries_sorted p v d : sorted d -> sorted (map fst (entries p v d)).
Proof. intros S. unfold entries. rewrite map_map, map_id. apply filter_sorted, S. Qed.
Definition below (k : nat) (c : list nat) := filter (fun j => Nat.ltb j k) c.
Lemma store_lower_ok k tau tau2 : forall d fuel l w acc, path (nx w) l d -> sorted d -> (length d <= fuel)%nat ->
  exists w' l', store_lower fuel k tau tau2 l w acc = Some (w', l', acc ++ entries (keep tau tau2) (vl w) (below k d)) /\ vl w' = vl w /\
    path (nx w') l' (after k d) /\ forall i, nx w' i = if in_dec Nat.eq_dec i (below k d) then Undef else nx w i.
Proof.
  induction d as [|j d IH]; intros fuel l w acc P S F.
  - cbn in P. rewrite P. exists w, Eol. split; [destruct fuel; cbn; rewrite app_nil_r; reflexivity|]. cbn. auto.
  - destruct P as (-> & P). apply sorted_cons in S. destruct S as (S & H). cbn in F. destruct fuel as [|fuel]; [lia|]. cbn [store_lower link_lt]. unfold below, after. cbn [filter].
    destruct (Nat.ltb_spec j k) as [L|L].
    + replace (k <=? j)%nat with false by (symmetry; apply Nat.leb_gt; exact L).
      assert (N : ~ In j d) by (intros I; apply H in I; lia).
      destruct (IH fuel (nx w j) (set_link w (Some j) Undef) (if keep tau tau2 (vl w j) then acc ++ [(j, vl w j)] else acc)) as (w' & l' & E & V & P' & NX).
      { cbn [set_link nx]. eapply path_ext; [|exact P]. intros i I. rewrite upd_other; [reflexivity|intros ->; contradiction]. } { exact S. } { lia. }
      exists w', l'. split; [rewrite E; do 2 f_equal; unfold entries; cbn [filter]; cbn [set_link vl]; destruct (keep tau tau2 (vl w j)); [rewrite <- app_assoc|]; reflexivity|].
      split; [rewrite V; reflexivity|]. split; [exact P'|]. intros i. rewrite NX. cbn [set_link nx]. fold (below k d).
      assert (Nb : ~ In j (below k d)) by (intros I; apply filter_In in I; apply N, I).
      destruct (Nat.eq_dec i j) as [->|Ni].
      * rewrite upd_same. destruct (in_dec Nat.eq_dec j (j :: below k d)) as [_|X]; [|exfalso; apply X; left; reflexivity]. destruct (in_dec Nat.eq_dec j (below k d)); reflexivity.
      * rewrite upd_other by exact Ni. destruct (in_dec Nat.eq_dec i (below k d)) as [I|I]; destruct (in_dec Nat.eq_dec i (j :: below k d)) as [J|J]; try reflexivity; exfalso; [apply J; right; exact I|destruct J; [congruence|contradiction]].
    + replace (k <=? j)%nat with true by (symmetry; apply Nat.leb_le; exact L).
      rewrite (filter_none _ d), (filter_all _ d).
      * exists w, (At j). split; [unfold entries; cbn; rewrite app_nil_r; reflexivity|]. split; [reflexivity|]. split; [split; [reflexivity|exact P]|reflexivity].
      * intros x I. apply Nat.leb_le. specialize (H x I). lia.
      * intros x I. apply Nat.ltb_ge. specialize (H x I). lia.
Qed.
Lemma store_upper_ok tau tau2 : forall d fuel l w acc acc2, path (nx w) l d -> NoDup d -> (length d <= fuel)%nat ->
  exists w', store_upper fuel tau tau2 l w acc acc2 = Some (w', acc ++ entries (keep tau tau2) (vl w) d, acc2 ++ entries (keep2 tau tau2) (vl w) d) /\
    forall i, nx w' i = if in_dec Nat.eq_dec i d then Undef else nx w i.
Proof.
  induction d as [|j d IH]; intros fuel l w acc acc2 P D F.
  - cbn in P. rewrite P. exists w. split; [destruct fuel; cbn; rewrite !app_nil_r; reflexivity|reflexivity].
  - destruct P as (-> & P). inversion D as [|? ? N D']; subst. cbn in F. destruct fuel as [|fuel]; [lia|]. cbn [store_upper].
    destruct (IH fuel (nx w j) (set_link w (Some j) Undef) (if keep tau tau2 (vl w j) then acc ++ [(j, vl w j)] else acc) (if keep2 tau tau2 (vl w j) then acc2 ++ [(j, vl w j)] else acc2)) as (w' & E & NX).
    { cbn [set_link nx]. eapply path_ext; [|exact P]. intros i I. rewrite upd_other; [reflexivity|intros ->; contradiction]. } { exact D'. } { lia. }
    exists w'. split; [rewrite E; unfold entries; cbn [filter set_link vl]; destruct (keep tau tau2 (vl w j)), (keep2 tau tau2 (vl w j)); rewrite <- ?app_assoc; reflexivity|].
    intros i. rewrite NX. cbn [set_link nx]. destruct (Nat.eq_dec i j) as [->|Ni].
    + rewrite upd_same. destruct (in_dec Nat.eq_dec j (j :: d)) as [_|X]; [|exfalso; apply X; left; reflexivity]. destruct (in_dec Nat.eq_dec j d); reflexivity.
    + rewrite upd_other by exact Ni. destruct (in_dec Nat.eq_dec i d) as [I|I]; destruct (in_dec Nat.eq_dec i (j :: d)) as [J|J]; try reflexivity; exfalso; [apply J; right; exact I|destruct J; [congruence|contradiction]].
Qed.
Lemma keep_0 tau tau2 : forall v, v = 0 -> (if keep tau tau2 v then v else 0) = 0. Proof. intros v ->. destruct (keep tau tau2 0); reflexivity. Qed.
Lemma keep2_0 tau tau2 : forall v, v = 0 -> (if keep2 tau tau2 v then v else 0) = 0. Proof. intros v ->. destruct (keep2 tau tau2 0); reflexivity. Qed.

Lemma stored_keep tau tau2 v : (if keep tau tau2 v then v else 0) = stored tau tau2 v.
Proof.
  unfold keep, stored, Rmax. destruct (Rlt_dec (tau2 * tau2) (Rabs v)), (Rlt_dec tau (Rabs v)), (Rle_dec (tau2 * tau2) tau); destruct (Rlt_dec _ (Rabs v)); lra.
Qed.
Lemma stored2_keep tau tau2 v : (if keep2 tau tau2 v then v else 0) = stored2 tau tau2 v.
Proof.
  unfold keep2, stored2, Rmax. destruct (Rlt_dec (tau2 * tau2) (Rabs v)), (Rlt_dec tau (Rabs v)), (Rlt_dec tau2 (Rabs v)), (Rle_dec (tau2 * tau2) tau2), (Rle_dec (Rabs v) tau); try lra; destruct (Rlt_dec _ (Rabs v)); lra.
Qed.
Lemma pivot_ok v : pivot_inv v = / pivot v.
Proof.
  assert (P : 0 < / 10 ^ 12) by (apply Rinv_0_lt_compat, pow_lt; lra).
  unfold pivot_inv, pivot, tol_modif. destruct (Rle_dec (Rabs v) (/ 10 ^ 12)), (Rlt_dec (/ 10 ^ 12) (Rabs v)); try lra.
  destruct (Rlt_dec v 0); [|unfold Rdiv; ring]. unfold Rdiv. rewrite Rinv_opp. ring.
Qed.
Lemma row_scale_ok tau2 m : row_scale tau2 m = / Rmax m tau2.
Proof. unfold row_scale, Rmax, Rdiv. destruct (Rlt_dec m tau2), (Rle_dec m tau2); try lra; try ring; replace m with tau2 by lra; ring. Qed.
Definition good_lo (k : nat) (r : row) : Prop := sorted (map fst r) /\ forall e, In e r -> (fst e < k)%nat.
Lemma compress_ok n k tau tau2 w c : chain w c -> In k c -> (forall x, In x c -> (x < n)%nat) ->
  exists w' f, compress n k tau tau2 w = Some (w', f) /\ (forall i, nx w' i = Undef) /\
    good_row k n (up f) /\ good_row k n (up2 f) /\ good_lo k (lo f) /\
    (forall i, coef (lo f) i = if Nat.ltb i k then stored tau tau2 (rowv w i) else 0) /\
    (forall i, coef (up f) i = if Nat.ltb k i then stored tau tau2 (rowv w i * ld f) else 0) /\
    (forall i, coef (up2 f) i = if Nat.ltb k i then stored2 tau tau2 (rowv w i * ld f) else 0) /\
    ud f = / pivot (rowv w k * ld f) /\
    (exists m, ld f = / Rmax m tau2 /\ (forall i, (k <= i < n)%nat -> Rabs (rowv w i) <= m) /\ (exists i, (k <= i < n)%nat /\ Rabs (rowv w i) = m)).
Proof.
  intros C K B. pose proof C as (P & S & U). pose proof K as K'. apply in_split in K'. destruct K' as (a & b & Ec).
  destruct (after_split a k b) as (A1 & A2); [rewrite <- Ec; exact S|]. rewrite <- Ec in A1, A2.
  pose proof (chain_after w c k C K) as Pb. rewrite A1 in Pb.
  assert (Lc : (length c <= n)%nat) by (apply sorted_length; assumption).
  assert (Lb : (length (k :: b) <= Datatypes.S n)%nat) by (rewrite Ec, app_length in Lc; lia).
  assert (Pk : path (nx w) (At k) (k :: b)) by (split; [reflexivity|exact Pb]).
  pose proof S as Sab. rewrite Ec in Sab. apply sorted_app in Sab. destruct Sab as (Sa & Sb & Sl). pose proof Sb as Sb0. apply sorted_cons in Sb0. destruct Sb0 as (Sb' & Hb).
  unfold compress. rewrite (row_max_ok w (k :: b) (Datatypes.S n) (At k) 0 Pk Lb). set (m := fold_left _ (k :: b) 0). set (s := row_scale tau2 m). cbv zeta. fold s.
  destruct (scale_row_ok s (k :: b) (Datatypes.S n) (At k) w Pk (sorted_nodup _ Sb) Lb) as (w1 & E1 & H1 & X1 & V1). rewrite E1.
  destruct (store_lower_ok k tau tau2 c (Datatypes.S n) (hd w1) w1 []) as (w2 & l2 & E2 & V2 & P2 & X2); [rewrite H1, X1; exact P|exact S|lia|]. rewrite E2. cbn [app]. rewrite A2 in P2. destruct P2 as (-> & P2).
  destruct (store_upper_ok tau tau2 b (Datatypes.S n) (nx w2 k) (set_link w2 (Some k) Undef) [] []) as (w3 & E3 & X3).
  { cbn [set_link nx]. eapply path_ext; [|exact P2]. intros i I. rewrite upd_other; [reflexivity|]. intros ->. apply Hb in I. lia. } { apply sorted_nodup, Sb'. } { cbn in Lb. lia. }
  rewrite E3. cbn [app set_link vl].
  assert (Va : forall i, (i < k)%nat -> vl w2 i = vl w i).
  { intros i L. rewrite V2, V1. destruct (in_dec Nat.eq_dec i (k :: b)) as [[J|J]|_]; [lia|apply Hb in J; lia|reflexivity]. }
  assert (Vb : forall i, In i (k :: b) -> vl w2 i = rowv w i * s).
  { intros i I. rewrite V2, V1. destruct (in_dec Nat.eq_dec i (k :: b)) as [_|J]; [|contradiction]. rewrite (rowv_in w c i C); [reflexivity|]. rewrite Ec. apply in_or_app. right. exact I. }
  assert (Out : forall i, (k < i)%nat -> ~ In i b -> rowv w i = 0).
  { intros i L N. apply (rowv_out w c i C). rewrite Ec, in_app_iff. intros [I|[I|I]]; [specialize (Sl i k I (or_introl eq_refl)); lia|lia|contradiction]. }
  exists w3, (Lurow (entries (keep tau tau2) (vl w1) (below k c)) s (pivot_inv (vl w2 k)) (entries (keep tau tau2) (vl w2) b) (entries (keep2 tau tau2) (vl w2) b)).
  split; [reflexivity|]. cbn [lo ld ud up up2].
  assert (Bb : forall p e, In e (entries p (vl w2) b) -> (k < fst e < n)%nat).
  { intros p e I. apply entries_In in I. split; [apply Hb, I|apply B; rewrite Ec; apply in_or_app; right; right; exact I]. }
  split; [|split; [|split; [|split; [|split; [|split; [|split; [|split]]]]]]].
  - intros i. rewrite X3. cbn [set_link nx]. destruct (in_dec Nat.eq_dec i b) as [_|Nb]; [reflexivity|]. destruct (Nat.eq_dec i k) as [->|Nk]; [apply upd_same|]. rewrite upd_other by exact Nk.
    rewrite X2. destruct (in_dec Nat.eq_dec i (below k c)) as [_|Na]; [reflexivity|]. rewrite X1. apply U. rewrite Ec, in_app_iff. intros [I|[I|I]]; [|congruence|contradiction].
    apply Na. apply filter_In. split; [rewrite Ec; apply in_or_app; left; exact I|]. apply Nat.ltb_lt, (Sl i k I). left. reflexivity.
  - split; [apply entries_sorted, Sb'|apply Bb].
  - split; [apply entries_sorted, Sb'|apply Bb].
  - split; [apply entries_sorted, filter_sorted, S|]. intros e I. apply entries_In in I. apply filter_In in I. apply Nat.ltb_lt, I.
  - intros i. rewrite entries_coef by (apply sorted_nodup, filter_sorted, S). rewrite <- V2. destruct (Nat.ltb_spec i k) as [L|L]; rewrite <- ?stored_keep, <- ?stored2_keep.
    + rewrite (Va i L). destruct (in_dec Nat.eq_dec i (below k c)) as [I|I].
      * apply filter_In in I. destruct I as (I & _). rewrite (rowv_in w c i C I). reflexivity.
      * rewrite (rowv_out w c i C), keep_0; [reflexivity|reflexivity|]. intros J. apply I, filter_In. split; [exact J|apply Nat.ltb_lt, L].
    + destruct (in_dec Nat.eq_dec i (below k c)) as [I|I]; [|reflexivity]. apply filter_In in I. destruct I as (_ & I). apply Nat.ltb_lt in I. lia.
  - intros i. rewrite entries_coef by (apply sorted_nodup, Sb'). destruct (Nat.ltb_spec k i) as [L|L]; rewrite <- ?stored_keep, <- ?stored2_keep.
    + destruct (in_dec Nat.eq_dec i b) as [I|I]; [rewrite (Vb i (or_intror I)); reflexivity|]. rewrite (Out i L I), keep_0; [reflexivity|ring].
    + destruct (in_dec Nat.eq_dec i b) as [I|I]; [apply Hb in I; lia|reflexivity].
  - intros i. rewrite entries_coef by (apply sorted_nodup, Sb'). destruct (Nat.ltb_spec k i) as [L|L]; rewrite <- ?stored_keep, <- ?stored2_keep.
    + destruct (in_dec Nat.eq_dec i b) as [I|I]; [rewrite (Vb i (or_intror I)); reflexivity|]. rewrite (Out i L I), keep2_0; [reflexivity|ring].
    + destruct (in_dec Nat.eq_dec i b) as [I|I]; [apply Hb in I; lia|reflexivity].
  - rewrite (Vb k (or_introl eq_refl)). apply pivot_ok.
  - exists m. split; [apply row_scale_ok|]. destruct (fold_max (fun j => Rabs (vl w j)) (k :: b) 0) as (M0 & M1 & M2). fold m in M0, M1, M2.
    assert (In_b : forall j, In j (k :: b) -> In j c) by (intros j J; rewrite Ec; apply in_or_app; right; exact J).
    split.
    + intros i L. destruct (in_dec Nat.eq_dec i (k :: b)) as [I|I].
      * rewrite (rowv_in w c i C); [apply M1, I|apply In_b, I].
      * rewrite Out, Rabs_R0; [exact M0| |intros J; apply I; right; exact J]. destruct (Nat.eq_dec k i); [exfalso; apply I; left; assumption|lia].
    + destruct M2 as [E|(j & J & E)].
      * exists k. split; [split; [lia|apply B, K]|]. apply Rle_antisym; [|rewrite E; apply Rabs_pos]. rewrite (rowv_in w c k C K). apply M1. left. reflexivity.
      * exists j. split; [split; [destruct J as [<-|J]; [lia|apply Hb in J; lia]|apply B, In_b, J]|]. rewrite (rowv_in w c j C); [symmetry; exact E|apply In_b, J].
Qed.
