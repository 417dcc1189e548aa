From Coq Require Import List Arith Bool Lia Permutation.
From Verif Require Import Vtk_Spec Vtk_Model.
Import ListNotations.

(** * Surfaces *)
Lemma rotated_refl a : rotated a a. Proof. exists [], a. split; [easy | now rewrite app_nil_r]. Qed.
Lemma rotated_sym a b : rotated a b -> rotated b a. Proof. intros (u & v & A & B). now exists v, u. Qed.
Lemma rotated_trans a b c : rotated a b -> rotated b c -> rotated a c.
Proof.
  intros (u & v & -> & ->) (w & z & E & ->). apply app_eq_app in E as (l & [(-> & ->) | (-> & ->)]).
  - exists (u ++ w), l. now rewrite !app_assoc.
  - exists l, (z ++ v). now rewrite !app_assoc.
Qed.
Lemma rotated_map f a b : rotated a b -> rotated (map f a) (map f b).
Proof. intros (u & v & -> & ->). exists (map f u), (map f v). now rewrite !map_app. Qed.
Lemma rotated_rev a b : rotated a b -> rotated (rev a) (rev b).
Proof. intros (u & v & -> & ->). exists (rev v), (rev u). now rewrite !rev_app_distr. Qed.
Lemma rotated_length a b : rotated a b -> length a = length b.
Proof. intros (u & v & -> & ->). rewrite !app_length. lia. Qed.
Lemma Forall2_refl_rot l : Forall2 rotated l l.
Proof. induction l; constructor; [apply rotated_refl | easy]. Qed.
Lemma Forall2_trans_rot l m n : Forall2 rotated l m -> Forall2 rotated m n -> Forall2 rotated l n.
Proof. intros F. revert n. induction F as [| a b l m R F IH]; intros n G; inversion G; subst; constructor; [eapply rotated_trans; eauto | now apply IH]. Qed.
Lemma surface_trans l m n : same_surface l m -> same_surface m n -> same_surface l n.
Proof.
  intros (a & P & F) (b & Q & G). destruct (Permutation_Forall2 (P := fun x y => rotated y x) Q (l2 := a)) as (c & PC & FC). { clear - F. induction F; constructor; auto. }
  exists c. split; [now transitivity a |]. apply (Forall2_trans_rot c b n); [| easy]. clear - FC. induction FC; constructor; auto.
Qed.
Lemma surface_refl l : same_surface l l. Proof. exists l. split; [easy | apply Forall2_refl_rot]. Qed.
Lemma surface_map f l m : same_surface l m -> same_surface (map (map f) l) (map (map f) m).
Proof. intros (a & P & F). exists (map (map f) a). split; [now apply Permutation_map |]. clear P. induction F; constructor; [now apply rotated_map | easy]. Qed.
Lemma surface_rev l m : same_surface l m -> same_surface (map (@rev nat) l) (map (@rev nat) m).
Proof. intros (a & P & F). exists (map (@rev nat) a). split; [now apply Permutation_map |]. clear P. induction F; constructor; [now apply rotated_rev | easy]. Qed.
Lemma surface_cons x l l' : same_surface (x :: l) l' -> exists l1 b l2, l' = l1 ++ b :: l2 /\ rotated x b /\ same_surface l (l1 ++ l2).
Proof.
  intros (m & P & F). destruct (in_split x m) as (m1 & m2 & ->). { apply (Permutation_in x P). now left. }
  apply Forall2_app_inv_l in F as (l1 & l2 & F1 & F2 & ->). inversion F2 as [| ? b ? l2' R F3]; subst. exists l1, b, l2'. split; [easy |]. split; [easy |].
  exists (m1 ++ m2). split; [now apply Permutation_cons_app_inv in P | now apply Forall2_app].
Qed.
Lemma surface_in_l l l' x : same_surface l l' -> In x l -> exists y, In y l' /\ rotated x y.
Proof.
  intros (m & P & F) I. apply (Permutation_in x P) in I. clear P. induction F as [| a b m l' R F IH]; [easy |]. destruct I as [-> | I]; [exists b; split; [now left | easy] |].
  destruct (IH I) as (y & J & Q). exists y. split; [now right | easy].
Qed.
Lemma surface_in_r l l' y : same_surface l l' -> In y l' -> exists x, In x l /\ rotated x y.
Proof.
  intros (m & P & F) I. assert (exists x, In x m /\ rotated x y) as (x & J & R). { clear P. induction F as [| a b m l' R F IH]; [easy |]. destruct I as [-> | I]; [exists a; split; [now left | easy] |]. destruct (IH I) as (x & J & Q). exists x. split; [now right | easy]. }
  exists x. split; [| easy]. apply (Permutation_in x (Permutation_sym P)). easy.
Qed.

Lemma Forall2_len l m : Forall2 rotated l m -> length l = length m. Proof. induction 1; cbn; [easy | now f_equal]. Qed.
(** decision *)
Definition list_eqb (a b : list nat) : bool := if list_eq_dec Nat.eq_dec a b then true else false.
Lemma list_eqb_eq a b : list_eqb a b = true -> a = b. Proof. unfold list_eqb. destruct (list_eq_dec Nat.eq_dec a b); easy. Qed.
Definition rot_eqb (a b : loop) : bool := existsb (fun k => list_eqb (skipn k a ++ firstn k a) b) (seq 0 (S (length a))).
Lemma rot_eqb_sound a b : rot_eqb a b = true -> rotated a b.
Proof. unfold rot_eqb. intros H. apply existsb_exists in H as (k & _ & E). apply list_eqb_eq in E. exists (firstn k a), (skipn k a). split; [now rewrite firstn_skipn | easy]. Qed.
Fixpoint extract (a : loop) (l : list loop) : option (list loop) :=
  match l with [] => None | b :: r => if rot_eqb a b then Some r else match extract a r with Some s => Some (b :: s) | None => None end end.
Lemma extract_sound a l : forall s, extract a l = Some s -> exists l1 b l2, l = l1 ++ b :: l2 /\ s = l1 ++ l2 /\ rotated a b.
Proof.
  induction l as [| b r IH]; intros s; cbn [extract]; [easy |]. destruct (rot_eqb a b) eqn:E.
  - intros [= <-]. exists [], b, r. split; [easy |]. split; [easy |]. now apply rot_eqb_sound.
  - destruct (extract a r) as [s' |]; [| easy]. intros [= <-]. destruct (IH s' eq_refl) as (l1 & c & l2 & -> & -> & R). now exists (b :: l1), c, l2.
Qed.
Fixpoint surf_eqb (l l' : list loop) : bool :=
  match l with
  | [] => match l' with [] => true | _ => false end
  | a :: r => match extract a l' with Some s => surf_eqb r s | None => false end
  end.
Lemma surf_eqb_sound l : forall l', surf_eqb l l' = true -> same_surface l l'.
Proof.
  induction l as [| a r IH]; intros l'; cbn [surf_eqb]; [destruct l'; [intros _; apply surface_refl | easy] |].
  destruct (extract a l') as [s |] eqn:E; [| easy]. intros H. apply extract_sound in E as (l1 & b & l2 & -> & -> & R). destruct (IH _ H) as (m & P & F).
  apply Forall2_app_inv_r in F as (m1 & m2 & F1 & F2 & ->). exists (m1 ++ a :: m2). split; [now apply Permutation_cons_app |]. apply Forall2_app; [easy |]. now constructor.
Qed.

(** * Renaming of nodes *)
Definition ren (f : nat -> nat) (fc : face) : face := (map f (fst fc), snd fc).
Lemma outward_ren f fc : outward (ren f fc) = map f (outward fc).
Proof. destruct fc as (l, []); cbn; [easy | now rewrite map_rev]. Qed.
Lemma inward_ren f fc : inward (ren f fc) = map f (inward fc).
Proof. destruct fc as (l, []); cbn; [now rewrite map_rev | easy]. Qed.
Lemma inward_rev fc : inward fc = rev (outward fc).
Proof. destruct fc as (l, []); cbn; [easy | now rewrite rev_involutive]. Qed.
Lemma find_ren f p q l : (forall x, p (ren f x) = q x) -> find p (map (ren f) l) = option_map (ren f) (find q l).
Proof. intros E. induction l as [| a l IH]; cbn; [easy |]. rewrite E. now destruct (q a). Qed.

Section Rename.
Variable f : nat -> nat.
Hypothesis inj : forall i j, f i = f j -> i = j.
Local Set Default Proof Using "Type".
Lemma eqb_f x y : Nat.eqb (f x) (f y) = Nat.eqb x y.
Proof using inj. destruct (Nat.eqb_spec x y) as [-> | N]; [apply Nat.eqb_refl |]. apply Nat.eqb_neq. intros E. now apply inj in E. Qed.
Lemma mem_f x l : mem (f x) (map f l) = mem x l.
Proof using inj. induction l as [| a l IH]; [easy |]. unfold mem in *. cbn [map existsb]. now rewrite eqb_f, IH. Qed.
Lemma filter_f p q l : (forall x, p (f x) = q x) -> filter p (map f l) = map f (filter q l).
Proof. intros E. induction l as [| a l IH]; cbn [map filter]; [easy |]. rewrite E, IH. now destruct (q a). Qed.
Lemma position_f x l : position (f x) (map f l) = position x l.
Proof using inj. induction l as [| a l IH]; cbn [map position]; [easy |]. now rewrite eqb_f, IH. Qed.
Lemma put_f v : forall u i, put i (f v) (map (option_map f) u) = map (option_map f) (put i v u).
Proof. induction u as [| a u IH]; intros [| i]; cbn [map put]; try easy. now rewrite IH. Qed.
Definition mf (u : option (list (option nat))) := option_map (map (option_map f)) u.
Lemma visit_f base verts up q : visit (map f base) (map f verts) (mf up) q = mf (visit base verts up q).
Proof using inj.
  unfold visit. rewrite !nth_error_map, !map_length. destruct up as [u |]; cbn [mf option_map]; [| easy]. destruct (nth_error verts q) as [x |]; cbn [option_map]; [| easy].
  rewrite mem_f, position_f. destruct (mem x base); [| easy]. destruct (position x base) as [l |]; [| easy].
  destruct (nth_error verts ((q + 1) mod length verts)) as [nx |]; cbn [option_map]; [| easy]. destruct (nth_error verts ((q + length verts - 1) mod length verts)) as [pv |]; cbn [option_map]; [| easy].
  rewrite !mem_f. destruct (mem nx base); [cbn [mf option_map]; now rewrite put_f |]. destruct (mem pv base); [cbn [mf option_map]; now rewrite put_f | easy].
Qed.
Lemma raise_face_f base up fc : raise_face (map f base) (mf up) (ren f fc) = mf (raise_face base up fc).
Proof using inj.
  unfold raise_face, marked. cbn [ren fst]. rewrite (filter_f _ (fun v => mem v base)) by (intros x; apply mem_f). rewrite !map_length. destruct (Nat.eqb (length (filter (fun v => mem v base) (fst fc))) 2); [| easy].
  generalize (seq 0 (length (fst fc))). intros l. revert up. induction l as [| q l IH]; intros up; cbn [fold_left]; [easy |]. rewrite visit_f. apply IH.
Qed.
Lemma all_some_f u : all_some (map (option_map f) u) = option_map (map f) (all_some u).
Proof. induction u as [| [a |] u IH]; cbn [map all_some option_map]; [easy | | easy]. rewrite IH. now destruct (all_some u). Qed.
Lemma raise_f base fs : raise (map f base) (map (ren f) fs) = option_map (map f) (raise base fs).
Proof using inj.
  unfold raise. rewrite map_length. assert (E : forall l up, fold_left (raise_face (map f base)) (map (ren f) l) (mf up) = mf (fold_left (raise_face base) l up)).
  { induction l as [| a l IH]; intros up; cbn [map fold_left]; [easy |]. rewrite raise_face_f. apply IH. }
  specialize (E fs (Some (repeat None (length base)))). cbn [mf option_map] in E. assert (MR : forall n, map (option_map f) (repeat None n) = repeat None n) by (induction n as [| n IH]; cbn; [easy | now rewrite IH]). rewrite MR in E. rewrite E.
  destruct (fold_left (raise_face base) fs (Some (repeat None (length base)))) as [u |]; cbn [mf option_map]; [| easy]. rewrite all_some_f. destruct (all_some u); cbn [option_map]; [now rewrite map_app | easy].
Qed.
Lemma unite_f base fc : unite (map f base) (ren f fc) = map f (unite base fc).
Proof using inj. unfold unite. cbn [ren fst]. rewrite (filter_f _ (fun v => negb (mem v base))) by (intros x; now rewrite mem_f). now rewrite map_app. Qed.
Lemma restore_f s fs : restore s (map (ren f) fs) = option_map (map f) (restore s fs).
Proof using inj.
  assert (FL : forall n fc, Nat.eqb (length (fst (ren f fc))) n = Nat.eqb (length (fst fc)) n) by (intros n fc; cbn; now rewrite map_length).
  destruct s; cbn [restore]; try easy.
  - destruct fs as [| a [| b r]]; [easy | easy |]. cbn [map restore_tet]. rewrite inward_ren, unite_f, map_length. now destruct (Nat.eqb _ 4).
  - destruct fs as [| a r]; [easy |]. cbn [map restore_hex]. now rewrite inward_ren, raise_f.
  - unfold restore_wedge. rewrite (find_ren f _ (fun f0 : face => Nat.eqb (length (fst f0)) 3) fs (FL 3)). destruct (find (fun f0 : face => Nat.eqb (length (fst f0)) 3) fs) as [a |]; cbn [option_map]; [| easy]. now rewrite inward_ren, raise_f.
  - unfold restore_pyramid. rewrite (find_ren f _ (fun f0 : face => Nat.eqb (length (fst f0)) 3) fs (FL 3)), (find_ren f _ (fun f0 : face => Nat.eqb (length (fst f0)) 4) fs (FL 4)). destruct (find (fun f0 : face => Nat.eqb (length (fst f0)) 4) fs) as [a |]; cbn [option_map]; [| easy]. destruct (find (fun f0 : face => Nat.eqb (length (fst f0)) 3) fs) as [b |]; cbn [option_map]; [| easy].
    cbv zeta. rewrite inward_ren, unite_f, map_length. destruct (Nat.eqb (length (unite (inward a) b)) 5); reflexivity.
Qed.
End Rename.

(** * Cells with the nodes 0, 1, ... *)
Definition variants (t : loop) : list face := flat_map (fun k => let r := skipn k t ++ firstn k t in [(r, true); (rev r, false)]) (seq 0 (S (length t))).
Lemma variants_in fc t : rotated (outward fc) t -> In fc (variants t).
Proof.
  intros (u & v & E & ->). unfold variants. apply in_flat_map. exists (length v). split; [apply in_seq; rewrite app_length; lia |].
  rewrite skipn_app, skipn_all, Nat.sub_diag, firstn_app, firstn_all, Nat.sub_diag. cbn [app skipn firstn]. rewrite app_nil_r, <- E. destruct fc as (l, []); cbn; [now left |]. right. left. now rewrite rev_involutive.
Qed.
Fixpoint picks (A : Type) (l : list A) : list (A * list A) := match l with [] => [] | a :: r => (a, r) :: map (fun p => (fst p, a :: snd p)) (picks A r) end.
Lemma picks_in (A : Type) l1 (b : A) l2 : In (b, l1 ++ l2) (picks A (l1 ++ b :: l2)).
Proof. induction l1 as [| a l1 IH]; cbn; [now left |]. right. apply in_map_iff. now exists (b, l1 ++ l2). Qed.

Definition state (mask : list bool) (up : list nat) : list (option nat) := map (fun p => if fst p : bool then Some (snd p) else None) (combine mask up).
Definition touched (base : list nat) (fc : face) : list bool :=
  if Nat.eqb (marked base fc) 2 then map (fun b => mem b (fst fc)) base else map (fun _ => false) base.
Definition orl (a b : list bool) : list bool := map (fun p => orb (fst p) (snd p)) (combine a b).
Fixpoint masks (n : nat) : list (list bool) := match n with O => [[]] | S m => flat_map (fun l => [true :: l; false :: l]) (masks m) end.
Lemma masks_in : forall m : list bool, In m (masks (length m)).
Proof. induction m as [| b m IH]; cbn; [now left |]. apply in_flat_map. exists m. split; [easy |]. destruct b; cbn; auto. Qed.
Definition upper_dec (a b : option (list (option nat))) : {a = b} + {a <> b}.
Proof. decide equality. apply list_eq_dec. decide equality. apply Nat.eq_dec. Defined.
Definition check (base up : list nat) (others : list loop) : bool :=
  Nat.eqb (length up) (length base) &&
  forallb (fun t => forallb (fun v => Nat.eqb (length (touched base v)) (length base) && forallb (fun m =>
    if upper_dec (raise_face base (Some (state m up)) v) (Some (state (orl m (touched base v)) up)) then true else false) (masks (length base))) (variants t)) others &&
  forallb (fun l => existsb (fun t => forallb (fun v => nth l (touched base v) false) (variants t)) others) (seq 0 (length base)).

Lemma orl_length a b : length b = length a -> length (orl a b) = length a.
Proof. intros E. unfold orl. rewrite map_length, combine_length. lia. Qed.
Lemma orl_nth a b l : length b = length a -> nth l (orl a b) false = orb (nth l a false) (nth l b false).
Proof. revert b l. induction a as [| x a IH]; intros [| y b] [| l] E; cbn in *; try easy. apply IH. lia. Qed.
Lemma state_none up : state (repeat false (length up)) up = repeat None (length up).
Proof. induction up as [| a u IH]; [easy |]. unfold state in *. cbn. now rewrite IH. Qed.
Lemma state_all m : forall up, length m = length up -> (forall l, l < length m -> nth l m false = true) -> all_some (state m up) = Some up.
Proof.
  induction m as [| b m IH]; intros [| a u] E H; cbn in *; try easy. pose proof (H 0 ltac:(lia)) as B. cbn in B. subst b. unfold state in *. cbn [combine map fst snd all_some]. rewrite IH; [easy | lia |]. intros l L. now apply (H (S l) ltac:(lia)).
Qed.
Lemma raise_canon base up others fs : check base up others = true ->
  (forall fc, In fc fs -> exists t, In t others /\ In fc (variants t)) -> (forall t, In t others -> exists fc, In fc fs /\ In fc (variants t)) ->
  raise base fs = Some (base ++ up).
Proof.
  intros C A B. unfold check in C. apply andb_prop in C as (C & C3). apply andb_prop in C as (C1 & C2). apply Nat.eqb_eq in C1. rewrite forallb_forall in C2, C3.
  assert (ST : forall t v, In t others -> In v (variants t) -> length (touched base v) = length base /\ forall m, length m = length base -> raise_face base (Some (state m up)) v = Some (state (orl m (touched base v)) up)).
  { intros t v I J. specialize (C2 t I). cbv beta in C2. rewrite forallb_forall in C2. specialize (C2 v J). cbv beta in C2. apply andb_prop in C2 as (D1 & D2). apply Nat.eqb_eq in D1. split; [easy |].
    intros m L. rewrite forallb_forall in D2. pose proof (masks_in m) as M. rewrite L in M. specialize (D2 m M). cbv beta in D2. destruct (upper_dec _ _) in D2; easy. }
  assert (FO : forall l m, (forall fc, In fc l -> exists t, In t others /\ In fc (variants t)) -> length m = length base ->
    exists m', fold_left (raise_face base) l (Some (state m up)) = Some (state m' up) /\ length m' = length base /\ (forall i, nth i m false = true -> nth i m' false = true) /\ (forall fc i, In fc l -> nth i (touched base fc) false = true -> nth i m' false = true)).
  { induction l as [| fc l IH]; intros m AL L; cbn [fold_left]. { exists m. split; [easy |]. split; [easy |]. split; [easy | intros ? ? []]. }
    destruct (AL fc (or_introl eq_refl)) as (t & I & J). destruct (ST t fc I J) as (TL & TS). rewrite (TS m L). destruct (IH (orl m (touched base fc))) as (m' & E & L' & M1 & M2).
    { intros fc' I'. apply AL. now right. } { rewrite orl_length; lia. }
    exists m'. split; [easy |]. split; [easy |]. split.
    - intros i H. apply M1. rewrite orl_nth by lia. now rewrite H.
    - intros fc' i [<- | I'] H; [| now apply (M2 fc')]. apply M1. rewrite orl_nth by lia. rewrite H. apply orb_true_r. }
  unfold raise. destruct (FO fs (repeat false (length up)) A ltac:(rewrite repeat_length; lia)) as (m' & E & L & _ & M). rewrite <- C1. rewrite state_none in E. rewrite E. rewrite state_all; [easy | lia |].
  intros l LL. assert (In l (seq 0 (length base))) as S0 by (apply in_seq; lia). specialize (C3 l S0). cbv beta in C3. apply existsb_exists in C3 as (t & I & F). rewrite forallb_forall in F. destruct (B t I) as (fc & I' & J). apply (M fc); [easy | now apply F].
Qed.

Definition upper (base : list nat) (others : list loop) : list nat :=
  match raise base (map (fun t => (t, true)) others) with Some r => skipn (length base) r | None => [] end.
Definition good (s : shape) (r : list nat) : bool :=
  Nat.eqb (length r) (shape_size s) && forallb (fun i => mem i r) (seq 0 (shape_size s)) &&
  surf_eqb (match s with Wedge => map (@rev nat) (shape_loops s) | _ => shape_loops s end) (shape_faces s r).
(** finite checks *)
Definition check_tet : bool := forallb (fun p => forallb (fun a => forallb (fun t => forallb (fun b =>
  let r := unite (inward a) b in Nat.eqb (length r) 4 && good Tet r) (variants t)) (snd p)) (variants (fst p))) (picks _ (shape_loops Tet)).
Definition check_pyramid : bool := forallb (fun t => forallb (fun a => forallb (fun t' => forallb (fun b =>
  negb (Nat.eqb (length (fst a)) 4 && Nat.eqb (length (fst b)) 3) || let r := unite (inward a) b in Nat.eqb (length r) 5 && good Pyramid r) (variants t')) (shape_loops Pyramid)) (variants t)) (shape_loops Pyramid).
Definition check_hex : bool := forallb (fun p => forallb (fun a => let b := inward a in let u := upper b (snd p) in
  check b u (snd p) && good Hex (b ++ u)) (variants (fst p))) (picks _ (shape_loops Hex)).
Definition check_wedge : bool := forallb (fun t => forallb (fun a => negb (Nat.eqb (length (fst a)) 3) || let b := inward a in let u := upper b (shape_loops Wedge) in
  check b u (shape_loops Wedge) && good Wedge (b ++ u)) (variants t)) (shape_loops Wedge).
Lemma check_tet_true : check_tet = true. Proof. vm_compute. reflexivity. Qed.
Lemma check_pyramid_true : check_pyramid = true. Proof. vm_compute. reflexivity. Qed.
Lemma check_hex_true : check_hex = true. Proof. vm_compute. reflexivity. Qed.
Lemma check_wedge_true : check_wedge = true. Proof. vm_compute. reflexivity. Qed.

Definition listed (s : shape) : Prop := s = Tet \/ s = Hex \/ s = Wedge \/ s = Pyramid.
Lemma find_exists (A : Type) (p : A -> bool) l x : In x l -> p x = true -> exists y, find p l = Some y /\ In y l /\ p y = true.
Proof. intros I P. destruct (find p l) as [y |] eqn:F; [exists y; split; [easy |]; now apply find_some in F |]. pose proof (find_none _ _ F x I). congruence. Qed.
Lemma variants_out l T : same_surface (map outward l) T -> forall fc, In fc l -> exists t, In t T /\ In fc (variants t).
Proof. intros H fc I. destruct (surface_in_l _ _ (outward fc) H (in_map outward _ _ I)) as (t & J & R). exists t. split; [easy | now apply variants_in]. Qed.
Lemma variants_back l T : same_surface (map outward l) T -> forall t, In t T -> exists fc, In fc l /\ In fc (variants t) /\ length (fst fc) = length t.
Proof.
  intros H t I. destruct (surface_in_r _ _ t H I) as (o & J & R). apply in_map_iff in J as (fc & <- & J). exists fc. split; [easy |]. split; [now apply variants_in |].
  apply rotated_length in R. rewrite <- R. destruct fc as (l', []); cbn; [easy | now rewrite rev_length].
Qed.
Local Opaque good check variants upper unite inward raise.
Lemma canon s fs : listed s -> same_surface (map outward fs) (shape_loops s) -> exists r, restore s fs = Some r /\ good s r = true.
Proof.
  intros [-> | [-> | [-> | ->]]] H; cbn [restore].
  - pose proof check_tet_true as C. unfold check_tet in C. rewrite forallb_forall in C. destruct fs as [| a [| b r]].
    + destruct H as (m & P & F). apply Permutation_nil in P. subst m. inversion F.
    + destruct H as (m & P & F). apply Permutation_length in P. apply Forall2_len in F. rewrite <- P in F. discriminate.
    + cbn [map] in H. apply surface_cons in H as (l1 & t & l2 & E & R & H). apply surface_cons in H as (k1 & t' & k2 & E' & R' & _).
      specialize (C (t, l1 ++ l2)). rewrite E in C. specialize (C (picks_in _ l1 t l2)). cbn [fst snd] in C. rewrite forallb_forall in C. specialize (C a (variants_in _ _ R)). cbv beta in C. rewrite forallb_forall in C. specialize (C t').
      rewrite E' in C. specialize (C (in_elt _ _ _)). cbv beta in C. rewrite forallb_forall in C. specialize (C b (variants_in _ _ R')). cbv zeta in C. apply andb_prop in C as (C1 & C2). cbn [restore_tet]. cbv zeta. rewrite C1. now exists (unite (inward a) b).
  - pose proof check_hex_true as C. unfold check_hex in C. rewrite forallb_forall in C. destruct fs as [| a r].
    + destruct H as (m & P & F). apply Permutation_nil in P. subst m. inversion F.
    + cbn [map] in H. apply surface_cons in H as (l1 & t & l2 & E & R & H). specialize (C (t, l1 ++ l2)). rewrite E in C. specialize (C (picks_in _ l1 t l2)). cbn [fst snd] in C. rewrite forallb_forall in C. specialize (C a (variants_in _ _ R)). cbv zeta in C. apply andb_prop in C as (C1 & C2).
      cbn [restore_hex]. rewrite (raise_canon _ _ _ r C1); [now eexists | now apply variants_out |]. intros t' I. destruct (variants_back _ _ H t' I) as (fc & J & V & _). now exists fc.
  - pose proof check_wedge_true as C. unfold check_wedge in C. rewrite forallb_forall in C. unfold restore_wedge.
    destruct (variants_back _ _ H [0;1;2]) as (fc & J & _ & L); [now left |]. destruct (find_exists _ (fun f : face => Nat.eqb (length (fst f)) 3) fs fc J) as (a & -> & I & LA); [now rewrite L |].
    destruct (variants_out _ _ H a I) as (t & IT & V). specialize (C t IT). cbv beta in C. rewrite forallb_forall in C. specialize (C a V). cbv zeta beta in C. rewrite LA in C. cbn [negb orb] in C. apply andb_prop in C as (C1 & C2).
    rewrite (raise_canon _ _ _ fs C1); [now eexists | now apply variants_out |]. intros t' I'. destruct (variants_back _ _ H t' I') as (fc' & J' & V' & _). now exists fc'.
  - pose proof check_pyramid_true as C. unfold check_pyramid in C. rewrite forallb_forall in C. unfold restore_pyramid.
    destruct (variants_back _ _ H [0;3;2;1]) as (fc & J & _ & L); [now left |]. destruct (find_exists _ (fun f : face => Nat.eqb (length (fst f)) 4) fs fc J) as (a & -> & I & LA); [now rewrite L |].
    destruct (variants_back _ _ H [0;1;4]) as (gc & J' & _ & L'); [right; now left |]. destruct (find_exists _ (fun f : face => Nat.eqb (length (fst f)) 3) fs gc J') as (b & -> & I' & LB); [now rewrite L' |].
    destruct (variants_out _ _ H a I) as (t & IT & V). destruct (variants_out _ _ H b I') as (t' & IT' & V'). specialize (C t IT). cbv beta in C. rewrite forallb_forall in C. specialize (C a V). cbv beta in C. rewrite forallb_forall in C. specialize (C t' IT'). cbv beta in C. rewrite forallb_forall in C. specialize (C b V').
    cbv beta zeta in C. rewrite LA, LB in C. cbn [andb negb orb] in C. apply andb_prop in C as (C1 & C2). cbv zeta. rewrite C1. now eexists.
Qed.

Local Transparent good check variants upper unite inward raise.
(** * Any nodes *)
Definition naming (ns : list nat) (i : nat) : nat := if i <? length ns then nth i ns 0 else S (list_max ns) + i.
Lemma naming_inj ns : NoDup ns -> forall i j, naming ns i = naming ns j -> i = j.
Proof.
  intros N i j. unfold naming. assert (B : forall k, k < length ns -> nth k ns 0 <= list_max ns). { intros k L. pose proof (proj1 (list_max_le ns (list_max ns)) (le_n _)) as F. rewrite Forall_forall in F. apply F. now apply nth_In. }
  destruct (Nat.ltb_spec i (length ns)), (Nat.ltb_spec j (length ns)); intros E; [now apply (proj1 (NoDup_nth ns 0) N) | specialize (B i); lia | specialize (B j); lia | lia].
Qed.
Lemma naming_map ns l : (forall i, In i l -> i < length ns) -> map (pick ns) l = map (naming ns) l.
Proof. intros L. apply map_ext_in. intros i I. unfold naming. specialize (L i I). destruct (Nat.ltb_spec i (length ns)); [easy | lia]. Qed.
Lemma naming_seq ns : map (naming ns) (seq 0 (length ns)) = ns.
Proof.
  rewrite <- naming_map by (intros i I; apply in_seq in I; lia). apply (nth_ext _ _ 0 0); [now rewrite map_length, seq_length |]. intros k L. rewrite map_length, seq_length in L.
  rewrite (nth_indep _ 0 (pick ns 0)) by now rewrite map_length, seq_length. rewrite map_nth, seq_nth by easy. easy.
Qed.
Lemma loops_bound s : forall t i, In t (shape_loops s) -> In i t -> i < shape_size s.
Proof.
  assert (B : forallb (fun t => forallb (fun i => i <? shape_size s) t) (shape_loops s) = true) by (destruct s; reflexivity).
  rewrite forallb_forall in B. intros t i I J. specialize (B t I). cbv beta in B. rewrite forallb_forall in B. specialize (B i J). now apply Nat.ltb_lt.
Qed.
Lemma shape_naming s ns : length ns = shape_size s -> shape_faces s ns = map (map (naming ns)) (shape_loops s).
Proof. intros L. unfold shape_faces. apply map_ext_in. intros t I. apply naming_map. intros i J. rewrite L. now apply (loops_bound s t). Qed.
Lemma shape_rename s f r : length r = shape_size s -> shape_faces s (map f r) = map (map f) (shape_faces s r).
Proof.
  intros L. unfold shape_faces. rewrite map_map. apply map_ext_in. intros t I. rewrite map_map. apply map_ext_in. intros i J. unfold pick. rewrite (nth_indep _ 0 (f 0)); [now rewrite map_nth |]. rewrite map_length, L. now apply (loops_bound s t).
Qed.
Lemma pull_names f T m : Forall2 rotated m (map (map f) T) -> exists m0, m = map (map f) m0 /\ Forall2 rotated m0 T.
Proof.
  revert m. induction T as [| t T IH]; intros m F; inversion F as [| a b m' T' R F']; subst; [exists []; now split |]. destruct (IH m' F') as (m0 & -> & F0). destruct R as (u & v & -> & E).
  symmetry in E. apply app_eq_map in E as (t1 & t2 & -> & <- & <-) || (symmetry in E; apply map_eq_app in E as (t1 & t2 & -> & <- & <-)).
  exists ((t2 ++ t1) :: m0). split; [cbn; now rewrite map_app |]. constructor; [now exists t2, t1 | easy].
Qed.
Lemma pull_faces f fs l : map outward fs = map (map f) l -> exists fs0, fs = map (ren f) fs0 /\ map outward fs0 = l.
Proof.
  revert l. induction fs as [| (n, b) fs IH]; intros [| o l] E; try discriminate E; [now exists [] |]. cbn [map] in E. injection E as E0 E. destruct (IH l E) as (fs0 & -> & <-).
  destruct b; cbn in E0.
  - exists ((o, true) :: fs0). split; [cbn; unfold ren; cbn; now rewrite E0 | easy].
  - exists ((rev o, false) :: fs0). split; [cbn; unfold ren at 2; cbn; now rewrite map_rev, <- E0, rev_involutive | cbn; now rewrite rev_involutive].
Qed.
Lemma restore_any s ns fs : listed s -> NoDup ns -> length ns = shape_size s -> same_surface (map outward fs) (shape_faces s ns) ->
  exists r, restore s fs = Some r /\ Permutation ns r /\ length r = shape_size s /\
    same_surface (match s with Wedge => map inward fs | _ => map outward fs end) (shape_faces s r).
Proof.
  intros LS N L H. pose proof H as (m & P & F). rewrite (shape_naming s ns L) in F. apply pull_names in F as (m0 & -> & F). apply Permutation_map_inv in P as (l & E & P). apply pull_faces in E as (fs0 & -> & <-).
  destruct (canon s fs0 LS) as (r0 & R & G). { exists m0. now split. }
  rewrite (restore_f (naming ns) (naming_inj ns N)), R. cbn [option_map]. exists (map (naming ns) r0). unfold good in G. apply andb_prop in G as (G & G3). apply andb_prop in G as (G1 & G2). apply Nat.eqb_eq in G1. rewrite forallb_forall in G2.
  split; [easy |]. split; [| split; [now rewrite map_length |]].
  - rewrite <- (naming_seq ns) at 1. apply Permutation_map. rewrite L. apply NoDup_Permutation_bis; [apply seq_NoDup | rewrite seq_length; lia |]. intros i I. specialize (G2 i I). unfold mem in G2. apply existsb_exists in G2 as (j & J & EJ). apply Nat.eqb_eq in EJ. now subst j.
  - rewrite (shape_rename s _ r0 G1). apply surf_eqb_sound in G3. apply (surface_map (naming ns)) in G3. rewrite (shape_naming s ns L) in H.
    destruct LS as [-> | [-> | [-> | ->]]]; try (eapply surface_trans; [exact H | exact G3]).
    eapply surface_trans; [| exact G3]. apply surface_rev in H. rewrite !map_map in *. erewrite map_ext; [| intros a; apply inward_rev]. erewrite (map_ext (fun x => map (naming ns) (rev x))); [exact H |]. intros a. apply map_rev.
Qed.
