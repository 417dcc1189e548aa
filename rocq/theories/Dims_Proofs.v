From Coq Require Import Ascii String List Arith Bool ZArith Lia.
From Verif Require Import Dims_Spec Dims_Model.
Import ListNotations.
Local Open Scope nat_scope.

Lemma write_concat dims : forall segs k v, Forall (fun x => length x = dims) segs -> k < length segs -> length v <= dims ->
  write (concat segs) (k * dims) v = concat (firstn k segs ++ (v ++ skipn (length v) (nth k segs [])) :: skipn (S k) segs).
Proof.
  induction segs as [| x segs IH]; intros k v F L LV; [cbn in L; lia |]. inversion F as [| ? ? LX F']; subst. destruct k as [| k].
  - unfold write. cbn [Nat.mul firstn app concat nth skipn Nat.add]. rewrite skipn_app. replace (length v - length x) with 0 by lia. cbn [skipn]. now rewrite app_assoc.
  - cbn [length] in L. specialize (IH k v F' ltac:(lia) LV). unfold write in *. cbn [concat firstn app nth skipn]. cbn [skipn] in IH. rewrite <- IH. replace (S k * length x) with (length x + k * length x) by lia.
    rewrite firstn_app_2, <- Nat.add_assoc. rewrite skipn_app, skipn_all2 by lia. cbn [app]. rewrite <- app_assoc. do 3 f_equal. f_equal. lia.
Qed.
Lemma read_concat dims : forall segs k, Forall (fun x : list Z => length x = dims) segs -> k < length segs -> firstn dims (skipn (k * dims) (concat segs)) = nth k segs [].
Proof.
  induction segs as [| x segs IH]; intros k F L; [cbn in L; lia |]. inversion F as [| ? ? LX F']; subst. destruct k as [| k]; cbn [nth concat].
  - cbn [Nat.mul skipn]. rewrite firstn_app, Nat.sub_diag, firstn_all. cbn. apply app_nil_r.
  - cbn [length] in L. replace (S k * length x) with (length x + k * length x) by lia. rewrite skipn_app, skipn_all2 by lia. cbn [app]. replace (length x + k * length x - length x) with (k * length x) by lia. apply IH; [easy | lia].
Qed.
Lemma zeros_length n : length (zeros n) = n. Proof. apply repeat_length. Qed.
Lemma zeros_concat d n : zeros (d * n) = concat (repeat (zeros d) n).
Proof. unfold zeros. induction n as [| n IH]; [now rewrite Nat.mul_0_r |]. cbn [repeat concat]. rewrite <- IH, <- repeat_app. f_equal. lia. Qed.
Lemma skipn_zeros m n : skipn m (zeros n) = zeros (n - m).
Proof. unfold zeros. revert n. induction m as [| m IH]; intros [| n]; cbn; auto. Qed.
Lemma mid_parts (T : Type) (A : list T) z B n d : length A = n -> firstn n (A ++ z :: B) = A /\ nth n (A ++ z :: B) d = z /\ skipn (S n) (A ++ z :: B) = B.
Proof. intros <-. induction A as [| a A (H1 & H2 & H3)]; [easy |]. cbn [length app firstn nth]. rewrite H1. split; [easy |]. split; [easy | exact H3]. Qed.
Lemma nth_map_seq (T : Type) (f : nat -> T) n k d : k < n -> nth k (map f (seq 0 n)) d = f k.
Proof. intros L. rewrite (nth_indep _ d (f 0)) by now rewrite map_length, seq_length. rewrite map_nth, seq_nth by easy. easy. Qed.
Definition segment (s : state) (dims : nat) (vals : list (list Z)) (k : nat) : list Z :=
  let c := if s_dim s <? dims then s_dim s else dims in
  if s_valid s k then firstn c (nth k vals []) ++ zeros (dims - length (firstn c (nth k vals []))) else zeros dims.
Lemma segment_length s dims vals k : length (segment s dims vals k) = dims.
Proof.
  unfold segment. destruct (s_valid s k); [| apply zeros_length]. rewrite app_length, zeros_length. pose proof (firstn_le_length (if s_dim s <? dims then s_dim s else dims) (nth k vals [])). rewrite firstn_length in *. destruct (Nat.ltb_spec (s_dim s) dims); lia.
Qed.
Lemma save_spec s dims vals : save_coords s dims vals = concat (map (segment s dims vals) (seq 0 (s_last s))).
Proof.
  unfold save_coords. cbv zeta. rewrite zeros_concat. assert (Q : forall m n, fold_left (fun temp k => if s_valid s k then write temp (k * dims) (firstn (if s_dim s <? dims then s_dim s else dims) (nth k vals [])) else temp) (seq 0 n) (concat (repeat (zeros dims) (n + m))) =
    concat (map (segment s dims vals) (seq 0 n) ++ repeat (zeros dims) m)).
  { intros m n. revert m. induction n as [| n IH]; intros m; [easy |]. rewrite seq_S, fold_left_app, map_app, Nat.add_succ_comm, IH. cbn [fold_left map Nat.add repeat]. rewrite <- app_assoc. cbn [app]. pose proof (eq_refl (segment s dims vals n)) as SN. unfold segment in SN at 2. cbv zeta in SN.
    set (c := if s_dim s <? dims then s_dim s else dims) in *. set (v := firstn c (nth n vals [])) in *. destruct (s_valid s n); rewrite SN; [| easy]. set (A := map (segment s dims vals) (seq 0 n)). assert (LA : length A = n) by (unfold A; now rewrite map_length, seq_length).
    rewrite (write_concat dims).
    - destruct (mid_parts (list Z) A (zeros dims) (repeat (zeros dims) m) n [] LA) as (-> & -> & ->). now rewrite skipn_zeros.
    - apply Forall_app. split; [apply Forall_forall; intros x I; apply in_map_iff in I as (k & <- & _); apply segment_length |]. constructor; [apply zeros_length |]. apply Forall_forall. intros x I. apply repeat_spec in I. rewrite I. apply zeros_length.
    - rewrite app_length, LA. cbn. lia.
    - unfold v. rewrite firstn_length. unfold c. destruct (Nat.ltb_spec (s_dim s) dims); lia. }
  specialize (Q 0 (s_last s)). rewrite Nat.add_0_r in Q. cbn [repeat] in Q. now rewrite app_nil_r in Q.
Qed.
Lemma restore_spec s dims vals new k : k < s_last s -> s_valid s k = true -> nth k (restore_coords s dims (save_coords s dims vals) new) [] = segment s dims vals k /\ length (restore_coords s dims (save_coords s dims vals) new) = s_last s.
Proof.
  intros L V. unfold restore_coords. split; [| now rewrite map_length, seq_length].
  rewrite nth_map_seq by easy. rewrite V, save_spec, (read_concat dims); [| apply Forall_forall; intros x I; apply in_map_iff in I as (j & <- & _); apply segment_length | now rewrite map_length, seq_length].
  now rewrite nth_map_seq.
Qed.
Lemma segment_resized s dims vals k : s_valid s k = true -> length (nth k vals []) = s_dim s -> segment s dims vals k = resized dims (nth k vals []).
Proof.
  intros V L. unfold segment. cbv zeta. rewrite V. set (x := nth k vals []) in *. unfold resized.
  apply (nth_ext _ _ 0%Z 0%Z). { rewrite app_length, zeros_length, firstn_length, map_length, seq_length. destruct (Nat.ltb_spec (s_dim s) dims); lia. }
  intros i LI. rewrite app_length, zeros_length, firstn_length in LI. assert (I : i < dims) by (destruct (Nat.ltb_spec (s_dim s) dims); lia).
  rewrite nth_map_seq by easy.
  assert (NF : forall c (y : list Z), i < c -> nth i (firstn c y) 0%Z = nth i y 0%Z). { clear. intros c y. revert i c. induction y as [| a y IH]; intros i c L; [now rewrite firstn_nil |]. destruct c; [lia |]. destruct i; [easy |]. cbn. apply IH. lia. }
  destruct (Nat.ltb_spec (s_dim s) dims) as [LT | GE].
  - rewrite firstn_all2 by lia. destruct (Nat.lt_ge_cases i (s_dim s)); [rewrite app_nth1; [easy | lia] |]. rewrite app_nth2 by lia. rewrite (nth_overflow x) by lia. unfold zeros. apply nth_repeat.
  - rewrite app_nth1 by (rewrite firstn_length; lia). now apply NF.
Qed.
(** * Tags *)
Lemma find_delete a b tags : a <> b -> find_tag a (delete_tag b tags) = find_tag a tags.
Proof.
  intros NE. unfold find_tag, delete_tag. induction tags as [| t tags IH]; [easy |]. cbn [filter find]. destruct (String.eqb_spec (t_name t) b) as [E | N]; cbn [negb find]; destruct (String.eqb_spec (t_name t) a); try easy; congruence.
Qed.
Lemma find_deleted a tags : find_tag a (delete_tag a tags) = None.
Proof. unfold find_tag, delete_tag. induction tags as [| t tags IH]; [easy |]. cbn [filter find]. destruct (String.eqb_spec (t_name t) a) as [E | N]; cbn [negb find]; [easy |]. destruct (String.eqb_spec (t_name t) a); [easy | easy]. Qed.
Lemma find_set_other a b p tags : a <> b -> find_tag a (set_place b p tags) = find_tag a tags.
Proof.
  intros NE. unfold find_tag, set_place. induction tags as [| t tags IH]; [easy |]. cbn [map find]. destruct (String.eqb_spec (t_name t) b) as [E | N]; cbn [t_name]; destruct (String.eqb_spec (t_name t) a); try easy; congruence.
Qed.
Lemma find_set a p tags : find_tag a (set_place a p tags) = option_map (fun t => mkTag (t_name t) (t_real t) (t_size t) p) (find_tag a tags).
Proof.
  unfold find_tag, set_place. induction tags as [| t tags IH]; [easy |]. cbn [map find]. destruct (String.eqb_spec (t_name t) a) as [E | N]; cbn [t_name].
  - destruct (String.eqb_spec (t_name t) a); [easy | congruence].
  - destruct (String.eqb_spec (t_name t) a); [congruence | easy].
Qed.
Lemma find_snoc a t tags : find_tag a (tags ++ [t]) = match find_tag a tags with Some x => Some x | None => if String.eqb (t_name t) a then Some t else None end.
Proof. unfold find_tag. induction tags as [| x tags IH]; [easy |]. cbn [app find]. now destruct (String.eqb (t_name x) a). Qed.
