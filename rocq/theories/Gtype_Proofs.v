(** Search of closed surfaces with given numbers of triangles and quadrilaterals. *)
From Coq Require Import List Arith Bool Lia Permutation.
From Verif Require Import Vtk_Spec Vtk_Model Vtk_Proofs Gtype_Spec.
Import ListNotations.

Definition swap (e : nat * nat) : nat * nat := (snd e, fst e).
Definition edges (l : list loop) : list (nat * nat) := flat_map loop_edges l.
(** At most one common edge. *)
Definition near (f g : loop) : Prop := forall e1 e2, In e1 (loop_edges f) -> In e2 (loop_edges f) -> In (swap e1) (loop_edges g) -> In (swap e2) (loop_edges g) -> e1 = e2.
Definition good_surface (l : list loop) : Prop :=
  Forall (@NoDup nat) l /\ NoDup (edges l) /\ (forall e, In e (edges l) -> In (swap e) (edges l)) /\ ForallOrdPairs near l /\
  Forall (fun f => length f = 3 \/ length f = 4) l.

Lemma swap_swap e : swap (swap e) = e. Proof. now destruct e. Qed.
Lemma near_sym f g : near f g -> near g f.
Proof. intros H e1 e2 A B C D. specialize (H (swap e1) (swap e2)). rewrite !swap_swap in H. specialize (H C D A B). rewrite <- (swap_swap e1), H. apply swap_swap. Qed.
Lemma combine_snoc (a b : list nat) x y : length a = length b -> combine (a ++ [x]) (b ++ [y]) = combine a b ++ [(x, y)].
Proof. revert b. induction a as [| p a IH]; intros [| q b] L; try discriminate L; [easy |]. cbn. rewrite IH; [easy |]. now injection L. Qed.
Lemma rotate_one a r : Permutation (loop_edges (a :: r)) (loop_edges (r ++ [a])).
Proof.
  destruct r as [| b r]; [easy |]. unfold loop_edges at 2. cbn [app]. rewrite <- (app_comm_cons r [a] b) || idtac.
  change (b :: r ++ [a]) with ((b :: r) ++ [a]). rewrite combine_snoc by (rewrite app_length; cbn; lia). unfold loop_edges. cbn [combine app]. rewrite <- app_comm_cons || idtac. cbn [combine].
  apply (Permutation_cons_append (combine (b :: r) (r ++ [a])) (a, b)).
Qed.
Lemma rotated_edges a b : rotated a b -> Permutation (loop_edges a) (loop_edges b).
Proof.
  intros (u & v & -> & ->). revert v. induction u as [| x u IH]; intros v; [now rewrite app_nil_r |]. cbn [app]. eapply perm_trans; [apply rotate_one |]. rewrite <- app_assoc. eapply perm_trans; [apply IH |]. now rewrite <- app_assoc.
Qed.
Lemma rotated_perm a b : rotated a b -> Permutation a b. Proof. intros (u & v & -> & ->). apply Permutation_app_comm. Qed.
Lemma surface_edges l m : same_surface l m -> Permutation (edges l) (edges m).
Proof.
  intros (a & P & F). unfold edges. eapply perm_trans; [apply Permutation_flat_map, P |]. clear P. induction F as [| x y a m R F IH]; [easy |]. cbn. apply Permutation_app; [now apply rotated_edges | easy].
Qed.
Lemma pairs_perm (R : loop -> loop -> Prop) l m : (forall a b, R a b -> R b a) -> Permutation l m -> ForallOrdPairs R l -> ForallOrdPairs R m.
Proof.
  intros sym P. induction P as [| x l m P IH | x y l | l m n P IH Q IH']; intros H.
  - easy.
  - inversion H; subst. constructor; [| now apply IH]. now apply (Permutation_Forall P).
  - inversion H as [| ? ? A B]; subst. inversion B as [| ? ? C D]; subst. inversion A; subst. constructor; [constructor; [now apply sym | easy] |]. now constructor.
  - auto.
Qed.
Lemma near_rot f g f' g' : rotated f f' -> rotated g g' -> near f g -> near f' g'.
Proof.
  intros A B H e1 e2 I1 I2 I3 I4. pose proof (Permutation_sym (rotated_edges _ _ A)) as PA. pose proof (Permutation_sym (rotated_edges _ _ B)) as PB.
  apply H; eapply Permutation_in; eauto.
Qed.
Lemma pairs_rot l m : Forall2 rotated l m -> ForallOrdPairs near l -> ForallOrdPairs near m.
Proof.
  induction 1 as [| x y l m R F IH]; intros H; [constructor |]. inversion H as [| ? ? A B]; subst. constructor; [| now apply IH].
  clear - A F R. induction F as [| a b l m R' F IH]; [constructor |]. inversion A; subst. constructor; [| now apply IH]. now apply (near_rot x a).
Qed.
Lemma forall_rot (P : loop -> Prop) l m : (forall a b, rotated a b -> P a -> P b) -> same_surface l m -> Forall P l -> Forall P m.
Proof.
  intros C (a & Q & F) H. apply (Permutation_Forall Q) in H. clear Q. induction F as [| x y a m R F IH]; [constructor |]. inversion H; subst. constructor; eauto.
Qed.
Lemma good_invariant l m : same_surface l m -> good_surface l -> good_surface m.
Proof.
  intros S (A & B & C & D & E). pose proof (surface_edges _ _ S) as P. split; [| split; [| split; [| split]]].
  - apply (forall_rot _ l); [| easy | easy]. intros a b R N. now apply (Permutation_NoDup (rotated_perm _ _ R)).
  - now apply (Permutation_NoDup P).
  - intros e I. apply (Permutation_in _ P). apply C. now apply (Permutation_in _ (Permutation_sym P)).
  - destruct S as (a & Q & F). apply (pairs_rot a); [easy |]. now apply (pairs_perm near l); [apply near_sym | |].
  - apply (forall_rot _ l); [| easy | easy]. intros a b R N. now rewrite <- (rotated_length _ _ R).
Qed.

(** * Names of new nodes *)
Fixpoint exts (k n : nat) : list (list nat * nat) :=
  match k with
  | O => [([], n)]
  | S k => flat_map (fun i => map (fun p => (i :: fst p, snd p)) (exts k (if Nat.eqb i n then S n else n))) (seq 0 (S n))
  end.
Lemma naming_app ns e i : i < length ns -> naming (ns ++ e) i = naming ns i.
Proof. intros L. unfold naming. rewrite app_length. destruct (Nat.ltb_spec i (length ns)), (Nat.ltb_spec i (length ns + length e)); try lia. now apply app_nth1. Qed.
Lemma exts_complete : forall xs ns, NoDup ns -> exists ids e, In (ids, length (ns ++ e)) (exts (length xs) (length ns)) /\ NoDup (ns ++ e) /\
  map (naming (ns ++ e)) ids = xs /\ Forall (fun i => i < length (ns ++ e)) ids /\ incl e xs.
Proof.
  induction xs as [| x xs IH]; intros ns N.
  - exists [], []. rewrite app_nil_r. cbn. repeat split; auto. easy.
  - assert (exists i e1, i <= length ns /\ (if Nat.eqb i (length ns) then S (length ns) else length ns) = length (ns ++ e1) /\ NoDup (ns ++ e1) /\ i < length (ns ++ e1) /\ naming (ns ++ e1) i = x /\ incl e1 [x]) as (i & e1 & L & LE & N1 & L1 & X & IN).
    { destruct (in_dec Nat.eq_dec x ns) as [I | I].
      - destruct (In_nth ns x 0 I) as (i & L & E). exists i, []. rewrite app_nil_r. split; [lia |]. destruct (Nat.eqb_spec i (length ns)); [lia |]. split; [easy |]. split; [easy |]. split; [easy |]. split; [| easy]. unfold naming. now destruct (Nat.ltb_spec i (length ns)); [| lia].
      - exists (length ns), [x]. split; [lia |]. rewrite Nat.eqb_refl, app_length. cbn [length]. split; [lia |]. split; [now apply (Permutation_NoDup (Permutation_cons_append ns x)); constructor |]. split; [lia |]. split; [| easy].
        unfold naming. rewrite app_length. cbn [length]. destruct (Nat.ltb_spec (length ns) (length ns + 1)); [| lia]. rewrite app_nth2, Nat.sub_diag by lia. easy. }
    destruct (IH (ns ++ e1) N1) as (ids & e & I & N2 & M & F & IC). exists (i :: ids), (e1 ++ e). rewrite app_assoc. cbn [exts length]. split; [| split; [easy | split; [| split]]].
    + apply in_flat_map. exists i. split; [apply in_seq; lia |]. rewrite LE. apply in_map_iff. now exists (ids, length ((ns ++ e1) ++ e)).
    + cbn [map]. rewrite M. f_equal. now rewrite naming_app.
    + constructor; [| easy]. rewrite app_length. lia.
    + intros y J. apply in_app_iff in J as [J | J]; [specialize (IN y J); destruct IN as [-> | []]; now left | right; now apply IC].
Qed.

(** * Search *)
Definition eq_pair (a b : nat * nat) : bool := Nat.eqb (fst a) (fst b) && Nat.eqb (snd a) (snd b).
Lemma eq_pair_iff a b : eq_pair a b = true <-> a = b.
Proof. destruct a as (a1, a2), b as (b1, b2). unfold eq_pair. cbn. rewrite andb_true_iff, !Nat.eqb_eq. split; [intros (-> & ->); easy | now injection 1]. Qed.
Definition has (e : nat * nat) (l : list (nat * nat)) : bool := existsb (eq_pair e) l.
Lemma has_iff e l : has e l = true <-> In e l.
Proof. unfold has. rewrite existsb_exists. split; [intros (x & I & E); apply eq_pair_iff in E; now subst | intros I; exists e; split; [easy | now apply eq_pair_iff]]. Qed.
Fixpoint distinct (l : list (nat * nat)) : bool := match l with [] => true | e :: r => negb (has e r) && distinct r end.
Lemma distinct_complete l : NoDup l -> distinct l = true.
Proof. induction 1 as [| e l I N IH]; cbn; [easy |]. rewrite IH, andb_true_r. destruct (has e l) eqn:E; [| easy]. now apply has_iff in E. Qed.
Definition nearb (f g : loop) : bool :=
  let s := filter (fun e => has (swap e) (loop_edges g)) (loop_edges f) in forallb (fun e1 => forallb (eq_pair e1) s) s.
Lemma nearb_complete f g : near f g -> nearb f g = true.
Proof.
  intros H. unfold nearb. apply forallb_forall. intros e1 I1. apply forallb_forall. intros e2 I2. apply filter_In in I1 as (I1 & J1), I2 as (I2 & J2). apply has_iff in J1, J2. apply eq_pair_iff. now apply H.
Qed.
Fixpoint distinct_nat (l : list nat) : bool := match l with [] => true | e :: r => negb (mem e r) && distinct_nat r end.
Lemma mem_iff x l : mem x l = true <-> In x l.
Proof. unfold mem. rewrite existsb_exists. split; [intros (y & I & E); apply Nat.eqb_eq in E; now subst | intros I; exists x; split; [easy | apply Nat.eqb_refl]]. Qed.
Lemma distinct_nat_complete l : NoDup l -> distinct_nat l = true.
Proof. induction 1 as [| e l I N IH]; cbn; [easy |]. rewrite IH, andb_true_r. destruct (mem e l) eqn:E; [| easy]. now apply mem_iff in E. Qed.
Definition fits (F : list loop) (g : loop) : bool := if distinct_nat g then (if forallb (fun f => nearb f g) F then distinct (edges F ++ loop_edges g) else false) else false.
Definition opens (F : list loop) : list (nat * nat) := filter (fun e => negb (has (swap e) (edges F))) (edges F).
Section Search.
Variable final : list loop -> nat -> bool.
Fixpoint search (k : nat) (F : list loop) (n t q : nat) : bool :=
  match k with
  | O => false
  | S k =>
    match opens F with
    | [] => if Nat.eqb (t + q) 0 then final F n else Nat.eqb (t + q) 1
    | (u, v) :: r =>
        if 3 * t + 4 * q <? S (length r) then true else
        (match t with O => true | S t' => forallb (fun p => let g := v :: u :: fst p in if fits F g then search k (F ++ [g]) (snd p) t' q else true) (exts 1 n) end) &&
        (match q with O => true | S q' => forallb (fun p => let g := v :: u :: fst p in if fits F g then search k (F ++ [g]) (snd p) t q' else true) (exts 2 n) end)
    end
  end.
Definition sized (k : nat) (l : list loop) : nat := length (filter (fun f => Nat.eqb (length f) k) l).
Definition bounded (n : nat) (F : list loop) : Prop := Forall (Forall (fun i => i < n)) F.

Lemma edges_ren f F : edges (map (map f) F) = map (fun e => (f (fst e), f (snd e))) (edges F).
Proof.
  unfold edges. induction F as [| l F IH]; cbn [map flat_map]; [easy |]. rewrite IH, map_app. f_equal.
  destruct l as [| a r]; [easy |]. unfold loop_edges. cbn [map]. change (f a :: map f r) with (map f (a :: r)). change [f a] with (map f [a]). rewrite <- map_app. generalize (a :: r), (r ++ [a]). induction l as [| x l IHl]; intros [| y m]; cbn; try easy. now rewrite IHl.
Qed.
Lemma edge_front g x y : length g = 3 \/ length g = 4 -> In (x, y) (loop_edges g) -> exists xs, rotated g (x :: y :: xs) /\ length xs + 2 = length g.
Proof.
  intros L I. assert (R : forall a b, rotated a b -> rotated a b) by easy.
  destruct L as [L | L].
  - do 4 (destruct g as [| ? g]; try discriminate L). cbn in I. destruct I as [I | [I | [I | []]]]; injection I as -> ->.
    + eexists. split; [apply rotated_refl | easy].
    + eexists [_]. split; [eexists [_], [_; _]; split; reflexivity | easy].
    + eexists [_]. split; [eexists [_; _], [_]; split; reflexivity | easy].
  - do 5 (destruct g as [| ? g]; try discriminate L). cbn in I. destruct I as [I | [I | [I | [I | []]]]]; injection I as -> ->.
    + eexists. split; [apply rotated_refl | easy].
    + eexists [_; _]. split; [eexists [_], [_; _; _]; split; reflexivity | easy].
    + eexists [_; _]. split; [eexists [_; _], [_; _]; split; reflexivity | easy].
    + eexists [_; _]. split; [eexists [_; _; _], [_]; split; reflexivity | easy].
Qed.
Lemma surface_step A B R1 g R2 g' : B = A ++ R1 ++ g :: R2 -> rotated g g' -> same_surface B ((A ++ [g']) ++ R1 ++ R2).
Proof.
  intros -> R. exists ((A ++ [g]) ++ R1 ++ R2). split.
  - rewrite <- app_assoc. apply Permutation_app_head. cbn. apply Permutation_sym, Permutation_middle.
  - apply Forall2_app; [apply Forall2_app; [apply Forall2_refl_rot | constructor; [easy | constructor]] | apply Forall2_refl_rot].
Qed.
Lemma nodup_left (A : Type) (a b : list A) : NoDup (a ++ b) -> NoDup a.
Proof. induction a as [| x a IH]; intros H; [constructor |]. inversion H as [| ? ? I N]; subst. constructor; [| now apply IH]. intros J. apply I. apply in_app_iff. now left. Qed.
Lemma near_fits f F g M : (forall i j, f i = f j -> i = j) -> good_surface (map (map f) (F ++ [g]) ++ M) -> fits F g = true.
Proof.
  intros inj (A & B & _ & D & _). unfold fits.
  assert (A1 : distinct_nat g = true). { apply distinct_nat_complete. apply Forall_app in A as (A & _). rewrite map_app in A. apply Forall_app in A as (_ & A). inversion A as [| ? ? N _]. now apply NoDup_map_inv in N. }
  assert (A2 : forallb (fun f => nearb f g) F = true). { apply forallb_forall. intros x I. apply nearb_complete. assert (NR : near (map f x) (map f g)).
    { rewrite map_app, <- app_assoc in D. clear - D I. induction F as [| y F IH]; [easy |]. cbn in D. inversion D as [| ? ? P Q]; subst. destruct I as [-> | I]; [| now apply IH]. rewrite Forall_forall in P. apply P. apply in_app_iff. right. now left. }
    assert (EM : forall z l, In z (loop_edges l) -> In (f (fst z), f (snd z)) (loop_edges (map f l))).
    { intros z l J. pose proof (edges_ren f [l]) as E. unfold edges in E. cbn [map flat_map] in E. rewrite !app_nil_r in E. rewrite E. apply in_map_iff. now exists z. }
    intros (a, b) (c, d) I1 I2 I3 I4. specialize (NR _ _ (EM _ _ I1) (EM _ _ I2) (EM _ _ I3) (EM _ _ I4)). cbn in NR. injection NR as E1 E2. apply inj in E1, E2. now subst. }
  rewrite A1, A2. apply distinct_complete. assert (E : edges F ++ loop_edges g = edges (F ++ [g])) by (unfold edges; rewrite flat_map_app; cbn; now rewrite app_nil_r). rewrite E.
    unfold edges in B at 1. rewrite flat_map_app in B. apply nodup_left in B. change (NoDup (edges (map (map f) (F ++ [g])))) in B. rewrite edges_ren in B. now apply NoDup_map_inv in B.
Qed.
Lemma naming_maps ns e F : bounded (length ns) F -> map (map (naming (ns ++ e))) F = map (map (naming ns)) F.
Proof.
  intros B. unfold bounded in B. rewrite Forall_forall in B. apply map_ext_in. intros l I. specialize (B l I). rewrite Forall_forall in B. apply map_ext_in. intros i J. apply naming_app. now apply B.
Qed.
Lemma sized_mid k R1 g R2 : sized k (R1 ++ g :: R2) = (if Nat.eqb (length g) k then 1 else 0) + sized k (R1 ++ R2).
Proof. unfold sized. rewrite !filter_app, !app_length. cbn [filter]. destruct (Nat.eqb (length g) k); cbn [length]; lia. Qed.
Lemma two_way g a b : length g = 3 \/ length g = 4 -> NoDup g -> In (a, b) (loop_edges g) -> In (b, a) (loop_edges g) -> False.
Proof.
  intros L N I J. destruct (edge_front g a b L I) as (xs & R & LX). apply (Permutation_in _ (rotated_edges _ _ R)) in J. apply (Permutation_NoDup (rotated_perm _ _ R)) in N.
  inversion N as [| ? ? N1 N2]; subst. inversion N2 as [| ? ? N3 N4]; subst. destruct xs as [| x [| y [| z xs]]]; cbn in L, LX; try lia.
  - cbn in J. destruct J as [J | [J | [J | []]]]; inversion J; subst; cbn in *; tauto.
  - cbn in J. destruct J as [J | [J | [J | [J | []]]]]; inversion J; subst; cbn in *; tauto.
Qed.
Lemma edges_count R : Forall (fun f => length f = 3 \/ length f = 4) R -> length (edges R) = 3 * sized 3 R + 4 * sized 4 R /\ length R = sized 3 R + sized 4 R.
Proof.
  assert (EL : forall f, length (loop_edges f) = length f). { intros [| a r]; [easy |]. unfold loop_edges. rewrite combine_length, app_length. cbn [length]. lia. }
  induction 1 as [| g R L H (IH1 & IH2)]; [easy |]. unfold edges in *. cbn [flat_map length]. rewrite app_length, EL, IH1. unfold sized in *. cbn [filter]. destruct L as [L | L]; rewrite L; cbn [Nat.eqb length]; lia.
Qed.
Lemma nodup_both (A : Type) (a b : list A) x : NoDup (a ++ b) -> In x a -> In x b -> False.
Proof. induction a as [| y a IH]; [easy |]. cbn. intros N [-> | I] J; inversion N as [| ? ? NI N']; subst; [apply NI; apply in_app_iff; now right | now apply IH]. Qed.
Lemma search_sound : forall k L F R ns, search k F (length ns) (sized 3 R) (sized 4 R) = true -> NoDup ns -> bounded (length ns) F -> incl ns (concat (map (map (naming ns)) F)) ->
  good_surface (map (map (naming ns)) F ++ R) -> same_surface L (map (map (naming ns)) F ++ R) ->
  exists F' ns', NoDup ns' /\ bounded (length ns') F' /\ incl ns' (concat (map (map (naming ns')) F')) /\ same_surface L (map (map (naming ns')) F') /\ final F' (length ns') = true.
Proof.
  induction k as [| k IH]; [easy |]. intros L F R ns SR N B IC G SL. cbn [search] in SR.
  pose proof G as (ND & NE & C & _ & LN). unfold edges in C, NE. rewrite flat_map_app in C, NE. fold (edges (map (map (naming ns)) F)) (edges R) in C, NE. rewrite edges_ren in C, NE.
  assert (LR : Forall (fun f => length f = 3 \/ length f = 4) R) by now apply Forall_app in LN. destruct (edges_count R LR) as (CE & CL).
  assert (OP : forall e, In e (opens F) -> In (swap (naming ns (fst e), naming ns (snd e))) (edges R)).
  { intros (u, v) I. apply filter_In in I as (I & O). apply negb_true_iff in O. specialize (C (naming ns u, naming ns v)).
    assert (I' : In (swap (naming ns u, naming ns v)) (map (fun e => (naming ns (fst e), naming ns (snd e))) (edges F) ++ edges R)) by (apply C; apply in_app_iff; left; apply in_map_iff; now exists (u, v)).
    apply in_app_iff in I' as [I' | I']; [| easy]. exfalso.
    apply in_map_iff in I' as ((a, b) & E & J). cbn in E. injection E as E1 E2. apply (naming_inj ns N) in E1, E2. subst. assert (has (swap (u, v)) (edges F) = true) by now apply has_iff. congruence. }
  destruct (opens F) as [| (u, v) r] eqn:O.
  - destruct (Nat.eqb_spec (sized 3 R + sized 4 R) 0) as [Z | Z].
    + rewrite Z in CL. assert (R = []) as -> by (destruct R; [easy | discriminate CL]). rewrite app_nil_r in *. exists F, ns. auto.
    + exfalso. apply Nat.eqb_eq in SR. rewrite SR in CL. destruct R as [| g [| ? ?]]; try discriminate CL. inversion LR as [| ? ? LG _]; subst.
      destruct g as [| a [| b g]]; [cbn in LG; lia | cbn in LG; lia |]. assert (I : In (a, b) (loop_edges (a :: b :: g))) by (cbn; now left).
      assert (I2 : In (a, b) (edges [a :: b :: g])) by (unfold edges; cbn [flat_map]; apply in_app_iff; now left).
      assert (J : In (swap (a, b)) (map (fun e => (naming ns (fst e), naming ns (snd e))) (edges F) ++ edges [a :: b :: g])) by (apply C; apply in_app_iff; now right).
      apply in_app_iff in J as [J | J].
      * apply in_map_iff in J as ((x, y) & E & J). unfold swap in E. cbn in E. injection E as E1 E2. apply (nodup_both _ _ _ (a, b) NE); [| easy]. apply in_map_iff. exists (y, x). split; [cbn; now rewrite E1, E2 |].
        destruct (has (swap (x, y)) (edges F)) eqn:HX; [now apply has_iff in HX |]. assert (In (x, y) (opens F)) as IO by (apply filter_In; split; [easy | now rewrite HX]). now rewrite O in IO.
      * unfold edges in J. cbn [flat_map] in J. rewrite app_nil_r in J. apply (two_way _ a b LG) in J; [easy | | easy]. apply Forall_app in ND as (_ & ND). now inversion ND.
  - assert (IO : In (u, v) (opens F)) by (rewrite O; now left). assert (I : In (u, v) (edges F)) by now apply filter_In in IO.
    assert (LO : S (length r) <= length (edges R)).
    { assert (NO : NoDup (opens F)) by (apply NoDup_filter; apply nodup_left in NE; now apply NoDup_map_inv in NE). rewrite O in NO. change (S (length r)) with (length ((u, v) :: r)). rewrite <- (map_length (fun e => swap (naming ns (fst e), naming ns (snd e))) ((u, v) :: r)). apply NoDup_incl_length.
      - apply FinFun.Injective_map_NoDup; [| easy]. intros (a, b) (c, d) E. unfold swap in E. cbn in E. injection E as E1 E2. apply (naming_inj ns N) in E1, E2. now subst.
      - intros x J. apply in_map_iff in J as (e & <- & J). now apply OP. }
    destruct (Nat.ltb_spec (3 * sized 3 R + 4 * sized 4 R) (S (length r))) as [Q | _]; [lia |]. apply andb_prop in SR as (ST & SQ).
    pose proof (OP (u, v) (or_introl eq_refl)) as I'. cbn [fst snd] in I'.
    apply in_flat_map in I' as (g & IG & IE). apply in_split in IG as (R1 & R2 & ->). unfold swap in IE. cbn [fst snd] in IE.
    assert (LG : length g = 3 \/ length g = 4). { apply Forall_app in LN as (_ & LN). rewrite Forall_forall in LN. apply LN. apply in_elt. }
    destruct (edge_front g _ _ LG IE) as (xs & RT & LX). destruct (exts_complete xs ns N) as (ids & e & IX & N' & MX & BX & IE').
    assert (BU : u < length ns /\ v < length ns).
    { clear - B I. unfold edges in I. apply in_flat_map in I as (l & IL & IE). unfold bounded in B. rewrite Forall_forall in B. specialize (B l IL). rewrite Forall_forall in B. destruct l as [| a r]; [easy |]. unfold loop_edges in IE. split; apply B; [now apply in_combine_l in IE |]. apply in_combine_r in IE. apply in_app_iff in IE as [IE | [-> | []]]; [now right | now left]. }
    set (g' := v :: u :: ids). assert (EG : map (naming (ns ++ e)) g' = naming ns v :: naming ns u :: xs) by (unfold g'; cbn [map]; now rewrite MX, !naming_app by easy).
    assert (EF : map (map (naming (ns ++ e))) (F ++ [g']) = map (map (naming ns)) F ++ [naming ns v :: naming ns u :: xs]) by (rewrite map_app, naming_maps by easy; cbn [map]; now rewrite EG).
    assert (SS : same_surface (map (map (naming ns)) F ++ R1 ++ g :: R2) (map (map (naming (ns ++ e))) (F ++ [g']) ++ R1 ++ R2)) by (rewrite EF; exact (surface_step (map (map (naming ns)) F) _ R1 g R2 _ eq_refl RT)). pose proof (good_invariant _ _ SS G) as G'.
    assert (FT : fits F g' = true) by (apply (near_fits (naming (ns ++ e)) F g' (R1 ++ R2)); [now apply naming_inj | easy]).
    assert (DONE : search k (F ++ [g']) (length (ns ++ e)) (sized 3 (R1 ++ R2)) (sized 4 (R1 ++ R2)) = true).
    { rewrite !sized_mid in ST, SQ. destruct LG as [LG | LG]; rewrite LG in *; cbn [Nat.eqb Nat.add] in ST, SQ.
      - assert (length xs = 1) as L1 by lia. rewrite L1 in IX. rewrite forallb_forall in ST. specialize (ST _ IX). cbv zeta in ST. cbn [fst snd] in ST. fold g' in ST. rewrite FT in ST. exact ST.
      - assert (length xs = 2) as L1 by lia. rewrite L1 in IX. rewrite forallb_forall in SQ. specialize (SQ _ IX). cbv zeta in SQ. cbn [fst snd] in SQ. fold g' in SQ. rewrite FT in SQ. exact SQ. }
    apply (IH L (F ++ [g']) (R1 ++ R2) (ns ++ e) DONE N'); [| | easy | now apply (surface_trans _ _ _ SL)].
    + unfold bounded. apply Forall_app. split.
      * unfold bounded in B. eapply Forall_impl; [| exact B]. intros l Hl. eapply Forall_impl; [| exact Hl]. intros i. rewrite app_length. cbv beta. lia.
      * constructor; [| constructor]. unfold g'. rewrite app_length in *. constructor; [lia |]. constructor; [lia | easy].
    + rewrite EF, concat_app. cbn [concat]. rewrite app_nil_r. intros x J. apply in_app_iff. apply in_app_iff in J as [J | J]; [left; now apply IC | right; right; right; now apply IE'].
Qed.
End Search.
