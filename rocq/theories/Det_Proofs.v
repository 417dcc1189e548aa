(** Proofs about Det: properties of the determinant, then the elimination. *)
From Coq Require Import List Arith Lia Bool Field.
From Verif Require Import OField Gauss_Spec Gauss_Model Gauss_Proofs.
Import ListNotations.
Open Scope nat_scope.

Section Det.
Variable F : ofield.
Add Field Ff : (fth F).
Local Open Scope of_scope.
Notation mat := (mat F).
Notation D := (determinant F).
Notation minor := (minor F).
Notation sgn := (sgn F).
Implicit Types M A : mat.

(** ** The determinant *)
Lemma det_ext : forall n M M', (forall i j, (i < n)%nat -> (j < n)%nat -> M i j = M' i j) -> D n M = D n M'.
Proof.
  induction n as [|n IH]; intros M M' E; [reflexivity|]. cbn [determinant]. apply fsum_ext. intros p Lp.
  rewrite E by lia. f_equal. apply IH. intros i j Li Lj. unfold Gauss_Spec.minor. apply E; [|lia].
  destruct (Nat.ltb_spec i p); lia.
Qed.

Lemma det_linear : forall n r (c : F) M1 M2 M3, (r < n)%nat ->
  (forall i j, (i < n)%nat -> i <> r -> M1 i j = M3 i j /\ M2 i j = M3 i j) ->
  (forall j, M3 r j = M1 r j + c * M2 r j) -> D n M3 = D n M1 + c * D n M2.
Proof.
  induction n as [|n IH]; intros r c M1 M2 M3 Lr E R; [lia|]. cbn [determinant].
  rewrite <- fsum_mul_l, <- fsum_add. apply fsum_ext. intros p Lp.
  destruct (Nat.eq_dec p r) as [->|N].
  - rewrite R.
    assert (E1 : D n (minor r M1) = D n (minor r M3)).
    { apply det_ext. intros i j Li Lj. unfold Gauss_Spec.minor. apply E; destruct (Nat.ltb_spec i r); lia. }
    assert (E2 : D n (minor r M2) = D n (minor r M3)).
    { apply det_ext. intros i j Li Lj. unfold Gauss_Spec.minor. apply E; destruct (Nat.ltb_spec i r); lia. }
    rewrite E1, E2. ring.
  - destruct (E p 0%nat Lp N) as [-> ->].
    set (r' := if (r <? p)%nat then r else (r - 1)%nat).
    assert (R' : (if (r' <? p)%nat then r' else S r') = r).
    { unfold r'. destruct (Nat.ltb_spec r p).
      - destruct (Nat.ltb_spec r p); lia.
      - destruct (Nat.ltb_spec (r - 1) p); lia. }
    rewrite (IH r' c (minor p M1) (minor p M2) (minor p M3)).
    + ring.
    + unfold r'. destruct (Nat.ltb_spec r p); lia.
    + intros i j Li Ni. unfold Gauss_Spec.minor.
      apply E; revert Ni; unfold r'; destruct (Nat.ltb_spec i p), (Nat.ltb_spec r p); lia.
    + intro j. unfold Gauss_Spec.minor. rewrite !R'. apply R.
Qed.

Lemma det_adj_eq : forall n r M, (S r < n)%nat -> (forall j, M r j = M (S r) j) -> D n M = 0.
Proof.
  induction n as [|n IH]; intros r M Lr E; [lia|]. cbn [determinant].
  transitivity (fsum (S n) (fun p => (if (p =? r)%nat then sgn r * M r 0%nat * D n (minor r M) else 0) +
                                     (if (p =? S r)%nat then - (sgn r * M r 0%nat * D n (minor r M)) else 0))).
  - apply fsum_ext. intros p Lp. destruct (Nat.eqb_spec p r) as [E1|N1]; destruct (Nat.eqb_spec p (S r)) as [E2|N2]; try lia.
    + rewrite E1. ring.
    + rewrite E2, <- (E 0%nat). cbn [Gauss_Spec.sgn].
      replace (D n (minor (S r) M)) with (D n (minor r M)); [ring|].
      apply det_ext. intros i j Li Lj. unfold Gauss_Spec.minor.
      destruct (Nat.ltb_spec i r), (Nat.ltb_spec i (S r)); try lia; try reflexivity.
      replace i with r by lia. symmetry. apply E.
    + rewrite (IH (if (r <? p)%nat then r else (r - 1)%nat)); [ring| |].
      * destruct (Nat.ltb_spec r p); lia.
      * intro j. unfold Gauss_Spec.minor. destruct (Nat.ltb_spec r p).
        -- rewrite (proj2 (Nat.ltb_lt r p)), (proj2 (Nat.ltb_lt (S r) p)) by lia. apply E.
        -- rewrite (proj2 (Nat.ltb_ge (r - 1) p)), (proj2 (Nat.ltb_ge (S (r - 1)) p)) by lia.
           replace (S (r - 1)) with r by lia. apply E.
  - rewrite fsum_add. rewrite (fsum_one F (S n) r), (fsum_one F (S n) (S r)).
    + rewrite !Nat.eqb_refl. ring.
    + lia.
    + intros i _ Ni. now rewrite (proj2 (Nat.eqb_neq i (S r)) Ni).
    + lia.
    + intros i _ Ni. now rewrite (proj2 (Nat.eqb_neq i r) Ni).
Qed.

(** Replacing rows. *)
Definition set_row M (r : nat) (v : nat -> F) : mat := fun i j => if (i =? r)%nat then v j else M i j.

Lemma det_adj_swap : forall n r M, (S r < n)%nat ->
  D n (set_row (set_row M r (M (S r))) (S r) (M r)) = - D n M.
Proof.
  intros n r M Lr.
  set (W := fun u v => D n (set_row (set_row M r u) (S r) v)).
  assert (Z : forall u, W u u = 0).
  { intro u. unfold W. apply (det_adj_eq n r); [exact Lr|]. intro j. unfold set_row.
    rewrite (proj2 (Nat.eqb_neq r (S r))), !Nat.eqb_refl by lia. reflexivity. }
  assert (L1 : forall u u' v, W (fun j => u j + u' j) v = W u v + W u' v).
  { intros u u' v. unfold W. replace (D n (set_row (set_row M r u') (S r) v)) with (1 * D n (set_row (set_row M r u') (S r) v)) by ring.
    apply (det_linear n r); [lia| |].
    - intros i j Li Ni. unfold set_row. rewrite (proj2 (Nat.eqb_neq i r)) by lia. split; reflexivity.
    - intro j. unfold set_row. rewrite (proj2 (Nat.eqb_neq r (S r))), Nat.eqb_refl by lia. ring. }
  assert (L2 : forall u v v', W u (fun j => v j + v' j) = W u v + W u v').
  { intros u v v'. unfold W. replace (D n (set_row (set_row M r u) (S r) v')) with (1 * D n (set_row (set_row M r u) (S r) v')) by ring.
    apply (det_linear n (S r)); [lia| |].
    - intros i j Li Ni. unfold set_row. rewrite (proj2 (Nat.eqb_neq i (S r))) by lia. split; reflexivity.
    - intro j. unfold set_row. rewrite Nat.eqb_refl. ring. }
  assert (H : W (fun j => M r j + M (S r) j) (fun j => M r j + M (S r) j) = 0) by apply Z.
  rewrite L1, !L2, !Z in H.
  assert (I : W (M r) (M (S r)) = D n M).
  { unfold W. apply det_ext. intros i j _ _. unfold set_row.
    destruct (Nat.eqb_spec i (S r)) as [->|]; [reflexivity|]. destruct (Nat.eqb_spec i r) as [->|]; reflexivity. }
  rewrite I in H. fold (W (M (S r)) (M r)).
  transitivity (0 + D n M + (W (M (S r)) (M r) + 0) - D n M); [ring|]. rewrite H. ring.
Qed.

Lemma det_eq_rows : forall e n r M, (S r + e < n)%nat -> (forall j, M r j = M (S r + e)%nat j) -> D n M = 0.
Proof.
  induction e as [|e IH]; intros n r M L E.
  - rewrite Nat.add_0_r in *. now apply (det_adj_eq n r).
  - transitivity (- - D n M); [ring|].
    rewrite <- (det_adj_swap n (S r + e) M) by lia.
    rewrite (IH n r).
    + ring.
    + lia.
    + intro j. unfold set_row. rewrite !Nat.eqb_refl.
      rewrite !(proj2 (Nat.eqb_neq r _)) by lia.
      rewrite !(proj2 (Nat.eqb_neq (S r + e) (S (S r + e)))) by lia.
      rewrite E. f_equal. lia.
Qed.

Lemma det_alt : forall n r s M, (r < n)%nat -> (s < n)%nat -> r <> s -> (forall j, M r j = M s j) -> D n M = 0.
Proof.
  intros n r s M Lr Ls N E. destruct (Nat.lt_ge_cases r s).
  - apply (det_eq_rows (s - S r) n r); [lia|]. intro j. rewrite E. f_equal. lia.
  - apply (det_eq_rows (r - S s) n s); [lia|]. intro j. rewrite <- E. f_equal. lia.
Qed.

(** Subtracting a multiple of another row. *)
Lemma det_row_op : forall n r s (c : F) M, (r < n)%nat -> (s < n)%nat -> r <> s ->
  D n (set_row M r (fun j => M r j - c * M s j)) = D n M.
Proof.
  intros n r s c M Lr Ls N.
  rewrite (det_linear n r (- c) M (set_row M r (M s))).
  - rewrite (det_alt n r s (set_row M r (M s))); [ring|exact Lr|exact Ls|exact N|].
    intro j. unfold set_row. rewrite Nat.eqb_refl, (proj2 (Nat.eqb_neq s r)) by lia. reflexivity.
  - exact Lr.
  - intros i j Li Ni. unfold set_row. rewrite (proj2 (Nat.eqb_neq i r)) by lia. split; reflexivity.
  - intro j. unfold set_row. rewrite Nat.eqb_refl. ring.
Qed.

(** A first column that is zero except at position p. *)
Lemma det_col : forall n p M, (p <= n)%nat -> (forall i, (i <= n)%nat -> i <> p -> M i 0%nat = 0) ->
  D (S n) M = sgn p * M p 0%nat * D n (minor p M).
Proof.
  intros n p M Lp Z. cbn [determinant]. apply (fsum_one F (S n) p); [lia|].
  intros i Li Ni. rewrite Z by lia. ring.
Qed.

Lemma det_col0 : forall n M, (forall i, (i <= n)%nat -> M i 0%nat = 0) -> D (S n) M = 0.
Proof.
  intros n M Z. cbn [determinant]. apply fsum_0. intros i Li. rewrite Z by lia. ring.
Qed.

(** ** The algorithm *)
Section Alg.
Variables (eps : F) (n : nat).
Hypothesis eps_pos : (0 <? eps) = true.

Definition big (v : F) : Prop := v = 0 \/ (eps <? fabs v) = true.

Lemma big_small : forall v, big v -> (fabs v <? eps) = true -> v = 0.
Proof.
  intros v [E|B] S; [exact E|]. rewrite (flt_asym F _ _ B) in S. discriminate.
Qed.

(** The rows not yet visited. *)
Definition free (vis : nat -> bool) : list nat := filter (fun i => negb (vis i)) (seq 0 n).

(** The submatrix of the rows [rs] and the columns from d on. *)
Definition sub (rs : list nat) (d : nat) A : mat := fun i j => A (nth i rs 0%nat) (d + j)%nat.

Lemma find_spec : forall fuel vis A d r sign res seen,
  det_find F eps fuel vis A d r sign = (res, seen) -> (forall v, In v seen -> big v) ->
  let rs := filter (fun i => negb (vis i)) (seq r fuel) in
  match res with
  | None => forall i, In i rs -> A i d = 0
  | Some (q, s) => exists l1 l2, rs = l1 ++ q :: l2 /\ (forall i, In i l1 -> A i d = 0) /\ A q d <> 0 /\
                   s = sign * sgn (length l1)
  end.
Proof.
  induction fuel as [|fuel IH]; intros vis A d r sign res seen E B; cbn [det_find seq filter] in *.
  - injection E as <- <-. intros i [].
  - destruct (vis r) eqn:V; cbn [negb].
    + exact (IH _ _ _ _ _ _ _ E B).
    + destruct (fabs (A r d) <? eps) eqn:C.
      * destruct (det_find F eps fuel vis A d (S r) (- sign)) as [res' seen'] eqn:E'.
        injection E as <- <-.
        assert (Z : A r d = 0) by (apply big_small; [apply B; now left|exact C]).
        specialize (IH _ _ _ _ _ _ _ E' (fun v I => B v (or_intror I))). cbv zeta in IH |- *.
        destruct res' as [[q s]|].
        -- destruct IH as [l1 [l2 [E1 [Z1 [Nz ->]]]]]. exists (r :: l1), l2.
           split; [now rewrite E1|split; [|split; [exact Nz|cbn [length Gauss_Spec.sgn]; ring]]].
           intros i [<-|I]; [exact Z|now apply Z1].
        -- intros i [<-|I]; [exact Z|now apply IH].
      * injection E as <- <-. exists [], (filter (fun i => negb (vis i)) (seq (S r) fuel)).
        split; [reflexivity|split; [intros i []|split; [|cbn [length Gauss_Spec.sgn]; ring]]].
        intro Z. rewrite Z, fabs_0, eps_pos in C. discriminate.
Qed.

Lemma row_update : forall i r (coef : F) A x y, r <> i ->
  for_ 0 n (fun j A => upd F A i j (A i j - coef * A r j)) A x y =
  if (x =? i)%nat && (y <? n)%nat then A i y - coef * A r y else A x y.
Proof.
  intros i r coef A x y N. revert x y.
  refine (for_ind mat (fun c s => forall x y, s x y =
    if (x =? i)%nat && (y <? c)%nat then A i y - coef * A r y else A x y) 0%nat n _ A _ _).
  - intros x y. destruct (x =? i)%nat; reflexivity.
  - intros j s Lj IH x y. rewrite upd_eq, !IH. rewrite Nat.eqb_refl, Nat.ltb_irrefl. cbn [andb].
    rewrite (proj2 (Nat.eqb_neq r i)) by lia. cbn [andb].
    destruct (Nat.eqb_spec x i) as [->|]; cbn [andb]; [|reflexivity].
    destruct (Nat.eqb_spec y j) as [Ey|]; destruct (Nat.ltb_spec y (S j)); destruct (Nat.ltb_spec y j); try lia; try reflexivity.
    now rewrite Ey.
Qed.

(** One row operation leaves the determinant of the submatrix alone. *)
Lemma sub_row_op : forall rs d A i r (coef : F) A', NoDup rs -> In i rs -> In r rs -> i <> r ->
  (forall x y, (y < n)%nat -> A' x y = if (x =? i)%nat then A i y - coef * A r y else A x y) ->
  (d + length rs <= n)%nat -> D (length rs) (sub rs d A') = D (length rs) (sub rs d A).
Proof.
  intros rs d A i r coef A' Nd Ii Ir N E Ld.
  destruct (In_nth rs i 0%nat Ii) as [pi [Lpi Ei]]. destruct (In_nth rs r 0%nat Ir) as [pr [Lpr Er]].
  rewrite <- (det_row_op (length rs) pi pr coef (sub rs d A)); [|exact Lpi|exact Lpr|congruence].
  apply det_ext. intros x y Lx Ly. unfold sub, set_row. rewrite E by lia. rewrite Ei, Er.
  destruct (Nat.eqb_spec x pi) as [->|Nx].
  - rewrite Ei, Nat.eqb_refl. reflexivity.
  - destruct (Nat.eqb_spec (nth x rs 0%nat) i) as [Q|]; [|reflexivity].
    exfalso. apply Nx. rewrite <- Ei in Q. now apply (proj1 (NoDup_nth rs 0%nat) Nd).
Qed.

(** The elimination of column d below pivot row r. *)
Lemma elim_spec : forall vis r d A A' seen rs,
  vis r = true -> A r d <> 0 -> (d < n)%nat ->
  NoDup rs -> In r rs -> (d + length rs <= n)%nat ->
  (forall i, (i < n)%nat -> vis i = false -> In i rs) ->
  det_elim F eps n vis r d A = (A', seen) -> (forall v, In v seen -> big v) ->
  D (length rs) (sub rs d A') = D (length rs) (sub rs d A) /\
  (forall j, A' r j = A r j) /\
  (forall i, (i < n)%nat -> vis i = false -> A' i d = 0).
Proof.
  intros vis r d A A' seen rs Vr Nz Ld Nd Ir Lr Fr E B.
  assert (H : (forall v, In v (snd (det_elim F eps n vis r d A)) -> big v) ->
    let A' := fst (det_elim F eps n vis r d A) in
    D (length rs) (sub rs d A') = D (length rs) (sub rs d A) /\
    (forall j, A' r j = A r j) /\
    (forall i, (i < n)%nat -> (i < Nat.max 0 n)%nat -> vis i = false -> A' i d = 0)).
  { unfold det_elim.
    apply (for_ind (mat * list F) (fun c s => (forall v, In v (snd s) -> big v) ->
      D (length rs) (sub rs d (fst s)) = D (length rs) (sub rs d A) /\
      (forall j, fst s r j = A r j) /\
      (forall i, (i < n)%nat -> (i < c)%nat -> vis i = false -> fst s i d = 0))).
    - intros _. cbn [fst]. split; [reflexivity|split; [reflexivity|intros i Li Lc; lia]].
    - intros i [A1 sn] Li IH. destruct (vis i) eqn:Vi.
      + intro Bs. destruct (IH Bs) as [H1 [H2 H3]]. split; [exact H1|split; [exact H2|]].
        intros x Lx Lx' Vx. apply H3; [exact Lx| |exact Vx].
        assert (x <> i) by (intros ->; congruence). lia.
      + cbv zeta. set (coef := A1 i d / A1 r d).
        assert (Nri : r <> i) by (intros ->; congruence).
        destruct (eps <? fabs coef) eqn:C; cbn [fst snd]; intro Bs.
        * destruct (IH (fun v I => Bs v (or_intror I))) as [H1 [H2 H3]]. cbn [fst] in H1, H2, H3.
          set (A2 := for_ 0 n _ A1).
          assert (E2 : forall x y, A2 x y = if (x =? i)%nat && (y <? n)%nat then A1 i y - coef * A1 r y else A1 x y)
            by (intros; now apply row_update).
          split; [|split].
          -- rewrite <- H1. apply (sub_row_op rs d A1 i r coef); [exact Nd|apply Fr; [lia|exact Vi]|exact Ir|congruence| |exact Lr].
             intros x y Ly. rewrite E2, (proj2 (Nat.ltb_lt y n) Ly), andb_true_r. reflexivity.
          -- intro j. rewrite E2, (proj2 (Nat.eqb_neq r i)) by exact Nri. cbn [andb]. apply H2.
          -- intros x Lx Lx' Vx. rewrite E2, (proj2 (Nat.ltb_lt d n)), andb_true_r by lia.
             destruct (Nat.eqb_spec x i) as [->|Nx].
             ++ unfold coef. field. rewrite H2. exact Nz.
             ++ apply H3; [exact Lx|lia|exact Vx].
        * destruct (IH (fun v I => Bs v (or_intror I))) as [H1 [H2 H3]]. cbn [fst] in H1, H2, H3.
          assert (Z : coef = 0).
          { destruct (Bs coef (or_introl eq_refl)) as [Z|Z]; [exact Z|congruence]. }
          split; [exact H1|split; [exact H2|]].
          intros x Lx Lx' Vx. destruct (Nat.eq_dec x i) as [->|Nx]; [|apply H3; [exact Lx|lia|exact Vx]].
          assert (Nz1 : A1 r d <> 0) by (rewrite H2; exact Nz).
          transitivity (coef * A1 r d); [unfold coef; field; exact Nz1|]. rewrite Z. ring. }
  rewrite E in H. cbn [fst snd] in H. destruct (H B) as [H1 [H2 H3]].
  split; [exact H1|split; [exact H2|]]. intros i Li Vi. apply H3; [exact Li|lia|exact Vi].
Qed.

Lemma free_nodup : forall vis, NoDup (free vis).
Proof. intro vis. apply NoDup_filter, seq_NoDup. Qed.

Lemma in_free : forall vis i, In i (free vis) <-> (i < n)%nat /\ vis i = false.
Proof.
  intros vis i. unfold free. rewrite filter_In, in_seq, negb_true_iff. intuition lia.
Qed.

Lemma filter_remove : forall (vis : nat -> bool) l l1 r l2, NoDup l -> filter (fun i => negb (vis i)) l = l1 ++ r :: l2 ->
  filter (fun i => negb ((i =? r)%nat || vis i)) l = l1 ++ l2.
Proof.
  intros vis l. induction l as [|x l IH]; intros l1 r l2 Nd E; cbn [filter] in *.
  - destruct l1; discriminate.
  - inversion Nd as [|x' l' Nx Nd']; subst. destruct (vis x) eqn:V; cbn [negb] in E.
    + rewrite orb_true_r. cbn [negb]. now apply (IH l1 r l2 Nd').
    + rewrite orb_false_r. destruct l1 as [|y l1]; cbn [app] in E.
      * injection E as -> E2. rewrite Nat.eqb_refl. cbn [negb app]. rewrite <- E2.
        apply filter_ext_in. intros i I. rewrite (proj2 (Nat.eqb_neq i r)); [reflexivity|]. intros ->. contradiction.
      * injection E as -> E2. rewrite (proj2 (Nat.eqb_neq y r)).
        -- cbn [negb app]. f_equal. now apply (IH l1 r l2 Nd').
        -- intros ->. apply Nx. assert (I : In r (filter (fun i => negb (vis i)) l)) by (rewrite E2, in_app_iff; right; now left).
           now apply filter_In in I.
Qed.

Lemma nth_remove : forall (l1 l2 : list nat) r i,
  nth i (l1 ++ l2) 0%nat = nth (if (i <? length l1)%nat then i else S i) (l1 ++ r :: l2) 0%nat.
Proof.
  intros l1 l2 r i. destruct (Nat.ltb_spec i (length l1)).
  - now rewrite !app_nth1 by lia.
  - rewrite !app_nth2 by lia. replace (S i - length l1)%nat with (S (i - length l1)) by lia. reflexivity.
Qed.

Lemma loop_spec : forall e d vis A ret seen v sn, (d + e = n)%nat -> length (free vis) = e ->
  det_loop F eps n (seq d e) vis A ret seen = (v, sn) -> (forall x, In x sn -> big x) ->
  v = ret * D e (sub (free vis) d A).
Proof.
  induction e as [|e IH]; intros d vis A ret seen v sn Ld Lf E B; cbn [seq det_loop] in E.
  - injection E as <- <-. cbn [determinant]. ring.
  - destruct (det_find F eps n vis A d 0 1) as [res s1] eqn:Ef.
    pose proof (find_spec n vis A d 0 1 res s1 Ef) as FS. cbv zeta in FS. fold (free vis) in FS.
    destruct res as [[r sg]|].
    + set (vis' := fun x => (x =? r)%nat || vis x) in E.
      destruct (det_elim F eps n vis' r d A) as [A' s2] eqn:Ee.
      assert (Sub : forall x, In x (s2 ++ s1 ++ seen) -> In x sn).
      { intros x I. clear - E I. revert E. generalize (seq (S d) e) as ds. generalize (ret * (sg * A r d)) as rt.
        generalize A' as Z. generalize vis' as vv. revert I. generalize (s2 ++ s1 ++ seen) as acc.
        intros acc I vv Z rt ds. revert acc I vv Z rt. induction ds as [|d0 ds IHd]; intros acc I vv Z rt E; cbn [det_loop] in E.
        - injection E as <- <-. exact I.
        - destruct (det_find F eps n vv Z d0 0 1) as [rs q1]. destruct rs as [[r0 sg0]|].
          + destruct (det_elim F eps n (fun x0 => (x0 =? r0)%nat || vv x0) r0 d0 Z) as [Z' q2].
            apply (IHd (q2 ++ q1 ++ acc)) in E; [exact E|]. rewrite !in_app_iff. tauto.
          + injection E as <- <-. rewrite in_app_iff. tauto. }
      destruct FS as [l1 [l2 [Er [Z1 [Nz ->]]]]].
      { intros x I. apply B, Sub. rewrite !in_app_iff. tauto. }
      assert (Ir : In r (free vis)) by (rewrite Er, in_app_iff; right; now left).
      destruct (elim_spec vis' r d A A' s2 (free vis)) as [H1 [H2 H3]]; try assumption.
      * unfold vis'. now rewrite Nat.eqb_refl.
      * lia.
      * apply free_nodup.
      * lia.
      * intros i Li Vi. apply in_free. split; [exact Li|]. unfold vis' in Vi. now apply orb_false_iff in Vi.
      * intros x I. apply B, Sub. rewrite !in_app_iff. tauto.
      * assert (Fr' : free vis' = l1 ++ l2) by (apply filter_remove; [apply seq_NoDup|exact Er]).
        assert (Le : length (free vis') = e).
        { rewrite Fr', app_length. rewrite Er, app_length in Lf. cbn [length] in Lf. lia. }
        rewrite (IH (S d) vis' A' _ _ v sn ltac:(lia) Le E B).
        rewrite Lf in H1. rewrite <- H1.
        assert (Ll : (length l1 <= e)%nat) by (rewrite Er, app_length in Lf; cbn [length] in Lf; lia).
        assert (Nr : nth (length l1) (free vis) 0%nat = r) by (rewrite Er, app_nth2, Nat.sub_diag by lia; reflexivity).
        rewrite (det_col e (length l1)).
        -- replace (sub (free vis) d A' (length l1) 0%nat) with (A r d)
             by (unfold sub; rewrite Nr, Nat.add_0_r; symmetry; apply H2).
           replace (D e (minor (length l1) (sub (free vis) d A'))) with (D e (sub (free vis') (S d) A')); [ring|].
           apply det_ext. intros i j Li Lj. unfold Gauss_Spec.minor, sub. rewrite Fr', Er, (nth_remove l1 l2 r i).
           f_equal. lia.
        -- exact Ll.
        -- intros i Li Ni. unfold sub. rewrite Nat.add_0_r.
           assert (Ii : In (nth i (free vis) 0%nat) (free vis)) by (apply nth_In; lia).
           apply in_free in Ii. destruct Ii as [Lx Vx]. apply H3; [exact Lx|].
           unfold vis'. rewrite Vx, orb_false_r. apply Nat.eqb_neq. intro Q. apply Ni.
           apply (proj1 (NoDup_nth (free vis) 0%nat) (free_nodup vis)); [lia|lia|congruence].
    + injection E as <- <-.
      rewrite det_col0; [ring|]. intros i Li. unfold sub. rewrite Nat.add_0_r.
      apply FS; [|apply nth_In; lia]. intros x I. apply B. rewrite in_app_iff. tauto.
Qed.
End Alg.

Lemma det_correct : forall n A, (forall x, In x (snd (det_seen F n A)) -> big (e_minus 13) x) ->
  det F n A = D n A.
Proof.
  intros n A B. unfold det. destruct (det_seen F n A) as [v sn] eqn:E. cbn [fst snd] in *.
  unfold det_seen in E.
  assert (Fr : free n (fun _ => false) = seq 0 n).
  { unfold free. generalize (seq 0 n). intro l. induction l as [|x l IH]; cbn [filter negb]; [reflexivity|]. f_equal. exact IH. }
  rewrite (loop_spec (e_minus 13) n (e_minus_pos F 13) n 0 _ _ _ _ v sn (Nat.add_0_l n) ltac:(rewrite Fr; apply seq_length) E B).
  rewrite Fr. transitivity (1 * D n A); [|ring]. f_equal. apply det_ext. intros i j Li Lj. unfold sub.
  now rewrite seq_nth by lia.
Qed.
End Det.
