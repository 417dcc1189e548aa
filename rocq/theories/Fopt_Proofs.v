(** Proofs about options for files. *)
From Coq Require Import Ascii String List Bool Arith Lia.
From Verif Require Import Util Split_Model Split_Props Front_Model Fopt_Spec Fopt_Model.
Import ListNotations.
Local Open Scope list_scope.

Lemma same_iff a b : same a b = true <-> a = b.
Proof. unfold same. destruct (list_eq_dec ascii_dec a b); split; easy. Qed.
Lemma same_no a b : a <> b -> same a b = false.
Proof. unfold same. destruct (list_eq_dec ascii_dec a b); easy. Qed.
Lemma same_refl a : same a a = true.
Proof. now apply same_iff. Qed.
Lemma has_iff x l : has x l = true <-> In x l.
Proof. unfold has. rewrite existsb_exists. split; [intros (y & I & E); apply same_iff in E; now subst | intros I; exists x; split; [easy | apply same_refl]]. Qed.

(** All records of a key have its last value. *)
Definition run (h : list (text * text)) : options := fold_left (fun o p => set_option (fst p) (snd p) o) h [].
Lemma run_snoc h k v : run (h ++ [(k, v)]) = set_option k v (run h).
Proof. unfold run. now rewrite fold_left_app. Qed.
Lemma last_exists key h : exists r, last_set key h r.
Proof.
  induction h as [| (k, v) h IH] using rev_ind; [exists None; constructor |]. destruct IH as (r & R). destruct (list_eq_dec ascii_dec k key) as [-> | N]; [exists (Some v); constructor | exists r; now constructor].
Qed.
Lemma last_inv key h k v r : last_set key (h ++ [(k, v)]) r -> k = key /\ r = Some v \/ k <> key /\ last_set key h r.
Proof.
  intros H. inversion H as [E | h' v' E | h' k' v' r' N R E].
  - now destruct h.
  - apply app_inj_tail in E as (E1 & E2). injection E2 as <- <-. now left.
  - apply app_inj_tail in E as (E1 & E2). injection E2 as <- <-. subst. now right.
Qed.
Lemma last_unique key h : forall a b, last_set key h a -> last_set key h b -> a = b.
Proof.
  induction h as [| (k, v) h IH] using rev_ind; intros a b A B.
  - inversion A as [| h v E | h k v r N R E]; [| now destruct h | now destruct h]. inversion B as [| h v E | h k v r N R E]; [easy | now destruct h | now destruct h].
  - apply last_inv in A as [(-> & ->) | (N & A)]; apply last_inv in B as [(E & ->) | (N' & B)]; try easy. now apply IH.
Qed.
Lemma run_last key : forall h r, last_set key h r ->
  match r with
  | Some v => (exists p, In p (run h) /\ fst p = key) /\ (forall p, In p (run h) -> fst p = key -> snd p = v)
  | None => forall p, In p (run h) -> fst p <> key
  end.
Proof.
  induction h as [| (k, v) h IH] using rev_ind; intros r R.
  - inversion R as [| h v E | h k v r' N R' E]; [now intros p [] | now destruct h | now destruct h].
  - rewrite run_snoc. unfold set_option. apply last_inv in R as [(-> & ->) | (N & R)].
    + split; [exists (key, v); split; [apply in_or_app; right; now left | easy] |]. intros p I E. apply in_app_iff in I as [I | [<- | []]]; [| easy].
      apply in_map_iff in I as (q & <- & I). destruct (same (fst q) key) eqn:S; [easy |]. exfalso. rewrite E in S. now rewrite same_refl in S.
    + specialize (IH r R).
      assert (K : forall p, In p (map (fun p => if same (fst p) k then (fst p, v) else p) (run h) ++ [(k, v)]) -> fst p = key -> In p (run h)).
      { intros p I E. apply in_app_iff in I as [I | [<- | []]]; [| easy]. apply in_map_iff in I as (q & <- & I). destruct (same (fst q) k) eqn:S; [| easy]. apply same_iff in S. cbn [fst] in E. congruence. }
      destruct r as [w |].
      * destruct IH as ((p & I & E) & H). split; [| intros q J F; apply (H q); [now apply K | easy]]. exists p. split; [| easy]. apply in_or_app. left. apply in_map_iff. exists p. split; [| easy].
        rewrite same_no; [easy |]. congruence.
      * intros p I E. apply (IH p); [now apply K | easy].
Qed.

(** The key of a tag. *)
Lemma find_at_first p : forall s i, match find_at p s i with
  | Some n => i <= n /\ exists a c b, s = a ++ c :: b /\ p c = true /\ forallb (fun x => negb (p x)) a = true /\ n = i + length a
  | None => forallb (fun x => negb (p x)) s = true
  end.
Proof.
  induction s as [| c s IH]; intros i; cbn [find_at forallb]; [easy |]. destruct (p c) eqn:P.
  - split; [lia |]. exists [], c, s. cbn [length]. rewrite Nat.add_0_r. easy.
  - specialize (IH (S i)). destruct (find_at p s (S i)) as [n |]; [| now rewrite IH]. destruct IH as (L & a & d & b & -> & D & A & ->). split; [lia |]. exists (c :: a), d, b. cbn [app forallb length]. rewrite P, A. repeat split; try easy. lia.
Qed.
Lemma cut_key_tag k t : cut_key k = (lit "Tag", t) <-> k = lit "Tag:" ++ t.
Proof.
  unfold cut_key. pose proof (find_at_first (Ascii.eqb ":"%char) k 0) as F. split.
  - destruct (find_at _ k 0) as [n |]; [| easy]. destruct F as (_ & a & c & b & -> & C & A & ->). apply Ascii.eqb_eq in C. subst c. cbn [Nat.add]. intros E. injection E as E1 E2.
    rewrite firstn_app, firstn_all, Nat.sub_diag in E1. cbn [firstn] in E1. rewrite app_nil_r in E1. rewrite <- E2, E1. reflexivity.
  - intros ->. destruct (find_at _ _ 0) as [n |] eqn:E; cbn in E; [| easy]. injection E as <-. reflexivity.
Qed.

Lemma starts_iff x : forall s, starts x s = true <-> exists b, s = x ++ b.
Proof.
  induction x as [| a x IH]; intros s; cbn [starts app]; [split; [intros _; now exists s | easy] |]. destruct s as [| c s]; [split; [easy | intros (b & E); easy] |].
  rewrite andb_true_iff, Ascii.eqb_eq, IH. split; [intros (-> & b & ->); now exists b | intros (b & E); injection E as -> ->; split; [easy | now exists b]].
Qed.
Lemma contains_iff s x : contains s x = true <-> part x s.
Proof.
  unfold part. induction s as [| c s IH]; cbn [contains].
  - rewrite orb_false_r, starts_iff. split; [intros (b & E); now exists [], b |]. intros (a & b & E). destruct a; [now exists b | easy].
  - rewrite orb_true_iff, starts_iff, IH. split.
    + intros [(b & E) | (a & b & ->)]; [now exists [], b | now exists (c :: a), b].
    + intros ([| d a] & b & E); [left; now exists b | right; injection E as -> ->; now exists a, b].
Qed.
