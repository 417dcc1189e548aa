(** Lemmas about matrix files: header, order of the elements, vectors. *)
From Coq Require Import Ascii String.
From Coq Require Import List Arith NArith ZArith Bool Lia Reals Lra.
From Flocq Require Import Core.Core.
From Verif Require Import Row_Model Mtx_Model Mtx_Spec Mtx_Proofs.
Import ListNotations.
Open Scope nat_scope.

Definition comment (t : text) : Prop := match t with c :: _ => c = percent | [] => False end.
Definition nline (n nnz : nat) : text := show_uint (N.of_nat n) ++ sp :: show_uint (N.of_nat n) ++ sp :: show_uint (N.of_nat nnz mod 2 ^ 32).
Definition hlines (name by_ : text) (n nnz : nat) : list text :=
  [str "%%MatrixMarket matrix coordinate real general"; str "% matrix " ++ name; str "% is written by INMOST"; by_; nline n nnz].
Lemma header_lines name by_ n nnz : header name by_ n nnz = unlines (hlines name by_ n nnz).
Proof.
  unfold header, hlines, unlines, nline. cbn [map concat]. repeat (rewrite <- !app_assoc; cbn [app]). reflexivity.
Qed.
Definition good_by (t : text) : Prop := comment t /\ one_line t /\ short t 0.
Lemma nline_plain n nnz : Forall plain (nline n nnz).
Proof. unfold nline. apply Forall_app. split; [apply show_uint_plain|]. constructor; [plains|]. apply Forall_app. split; [apply show_uint_plain|]. constructor; [plains|apply show_uint_plain]. Qed.
Lemma hlines_one name by_ n nnz : good_name name -> good_by by_ -> Forall one_line (hlines name by_ n nnz).
Proof.
  intros (A & _) (_ & B & _). unfold hlines. repeat constructor.
  - intros I. cbn in I. repeat (destruct I as [I|I]; [discriminate|]). exact I.
  - intros I. apply in_app_or in I as [I|I]; [|exact (A I)]. cbn in I. repeat (destruct I as [I|I]; [discriminate|]). exact I.
  - intros I. cbn in I. repeat (destruct I as [I|I]; [discriminate|]). exact I.
  - exact B.
  - apply plain_one_line, nline_plain.
Qed.
Definition start_state (mbeg mend : option nat) (rank size n : nat) (m : matrix) : lstate :=
  let '(b, e) := interval mbeg mend rank size n in LS true b e (Mat b (set_interval [] (rows m) b e)).
Lemma load_header mbeg mend rank size ord name by_ n nnz m ls tl : good_name name -> good_by by_ -> (N.of_nat n < 2 ^ 32)%N ->
  load_lines (process_matrix mbeg mend rank size ord) (LS false 0 0 m) (hlines name by_ n nnz ++ ls) tl =
  load_lines (process_matrix mbeg mend rank size ord) (start_state mbeg mend rank size n m) ls tl.
Proof.
  intros (_ & A) (B & _ & B') Nn. unfold hlines. cbn [app].
  rewrite (load_cons _ _ _ _ _ (LS false 0 0 m)); [|unfold short; cbn; lia|reflexivity].
  rewrite (load_cons _ _ _ _ _ (LS false 0 0 m)); [|unfold short in *; rewrite app_length; cbn [str length] in *; cbn; lia|reflexivity].
  rewrite (load_cons _ _ _ _ _ (LS false 0 0 m)); [|unfold short; cbn; lia|reflexivity].
  rewrite (load_cons _ _ _ _ _ (LS false 0 0 m)); [|exact B'|destruct by_ as [|c t]; [contradiction|]; cbn in B; subst c; apply line_comment].
  assert (Bz : (N.of_nat nnz mod 2 ^ 32 < 2 ^ 32)%N) by (apply N.mod_lt; discriminate).
  apply load_cons.
  - unfold short, nline. repeat (rewrite app_length; cbn [length]). pose proof (show_uint_length _ _ Nn). pose proof (show_uint_length _ _ Bz). lia.
  - unfold nline. rewrite line_number by (pose proof (nline_plain n nnz) as P; unfold nline in P; apply Forall_app in P; apply P).
    unfold process_matrix. cbn [negb headed]. rewrite read_uint_show by (auto; reflexivity). rewrite read_uint_sp by (auto; reflexivity). rewrite Nat2N.id. unfold start_state.
    destruct (interval mbeg mend rank size n). reflexivity.
Qed.
Lemma start_good mbeg mend rank size n m : goodst (start_state mbeg mend rank size n m).
Proof.
  unfold start_state, goodst. destruct (interval mbeg mend rank size n) as (b, e). cbn. split; [reflexivity|]. unfold set_interval.
  rewrite app_length, firstn_length, repeat_length. lia.
Qed.
Definition good_ren (ord : option (list nat)) (ren : nat -> nat) (b : nat) (rs : list (row value)) : Prop :=
  (forall k, b <= k < b + length rs -> ren_ok ord ren k) /\ Forall (Forall (fun e => ren_ok ord ren (fst e))) rs.
Lemma load_general mbeg mend rank size ord ren name by_ annot f n nnz rs old tl :
  good_name name -> good_by by_ -> (N.of_nat n < 2 ^ 32)%N -> small (Mat f rs) -> good_annot annot (Mat f rs) -> good_ren ord ren f rs -> one_line tl ->
  load mbeg mend rank size ord old (header name by_ n nnz ++ save_rows f annot rs ++ tl) =
  if buffer <? length tl then Hang else Done (lmat (fold_left (step1 ren) (elements f rs) (start_state mbeg mend rank size n old))).
Proof.
  intros G1 G2 Nn (S1 & S2) An (R1 & R2) O. cbn [first rows] in *. unfold load, load_text. rewrite header_lines, save_rows_lines, app_assoc, <- unlines_app.
  rewrite split_unlines; [|apply Forall_app; split; [apply hlines_one; assumption|apply slines_one; intros k Hk; apply (An k Hk)]|exact O].
  rewrite load_header by assumption. rewrite load_rows with (ren := ren); auto using start_good.
  - destruct (_ <? _); reflexivity.
  - intros k Hk. apply (An k Hk).
Qed.

(** * The rows *)
Definition row_put (rw : row value) (c : nat) (v : value) : row value := upd_at (Fin 0) Nat.eqb rw c (fun _ => v).
Lemma put_nth m r c v k : r - first m < length (rows m) ->
  nth k (rows (put m r c v)) [] = if k =? r - first m then row_put (nth k (rows m) []) c v else nth k (rows m) [].
Proof.
  intros L. unfold put. cbn [rows]. set (j := r - first m) in *. pose proof (firstn_skipn j (rows m)) as E. pose proof (skipn_length j (rows m)) as Ls.
  assert (Lf : length (firstn j (rows m)) = j) by (rewrite firstn_length; lia).
  destruct (skipn j (rows m)) as [|rw t] eqn:Es; [cbn in Ls; lia|].
  destruct (Nat.eqb_spec k j) as [->|N].
  - rewrite app_nth2 by lia. rewrite Lf, Nat.sub_diag. cbn [nth]. rewrite <- E at 1. rewrite app_nth2 by lia. rewrite Lf, Nat.sub_diag. reflexivity.
  - rewrite <- E at 2. destruct (Nat.lt_ge_cases k j).
    + rewrite !app_nth1 by lia. reflexivity.
    + rewrite !app_nth2 by lia. rewrite Lf. replace (k - j) with (S (k - j - 1)) by lia. reflexivity.
Qed.
Definition erow (e : entry) : nat := fst (fst e).
Lemma fold_rows ren es : forall s, goodst s -> let s' := fold_left (step1 ren) es s in
  goodst s' /\ lbeg s' = lbeg s /\ lend s' = lend s /\
  forall r, lbeg s <= r < lend s -> nth (r - lbeg s) (rows (lmat s')) [] =
    fold_left (fun rw (e : entry) => row_put rw (ren (snd (fst e))) (reread (snd e))) (filter (fun e => ren (erow e) =? r) es) (nth (r - lbeg s) (rows (lmat s)) []).
Proof.
  induction es as [|[[r0 c0] v0] es IH]; intros s G; cbn [fold_left filter].
  - split; [exact G|]. auto.
  - set (s1 := step1 ren s (r0, c0, v0)). assert (G1 : goodst s1 /\ lbeg s1 = lbeg s /\ lend s1 = lend s).
    { unfold s1, step1. destruct (here s (ren r0)); [|auto]. unfold goodst in *. cbn [lbeg lend lmat first]. destruct G as (G1 & G2). rewrite put_length. auto. }
    destruct G1 as (G1 & Eb & Ee). destruct (IH s1 G1) as (I1 & I2 & I3 & I4). cbv zeta. rewrite Eb, Ee in *. split; [exact I1|]. split; [exact I2|]. split; [exact I3|].
    intros r Hr. rewrite I4 by exact Hr. cbn [erow fst snd]. unfold erow at 2. cbn [fst].
    assert (Nt : nth (r - lbeg s) (rows (lmat s1)) [] = if ren r0 =? r then row_put (nth (r - lbeg s) (rows (lmat s)) []) (ren c0) (reread v0) else nth (r - lbeg s) (rows (lmat s)) []).
    { destruct G as (Ga & Gb). unfold s1, step1, here. destruct (Nat.leb_spec (lbeg s) (ren r0)); [destruct (Nat.ltb_spec (ren r0) (lend s))|]; cbn [andb lmat].
      - rewrite put_nth by (rewrite Ga, Gb; lia). rewrite Ga. destruct (Nat.eqb_spec (r - lbeg s) (ren r0 - lbeg s)), (Nat.eqb_spec (ren r0) r); try reflexivity; lia.
      - destruct (Nat.eqb_spec (ren r0) r); [lia|reflexivity].
      - destruct (Nat.eqb_spec (ren r0) r); [lia|reflexivity]. }
    rewrite Nt. destruct (ren r0 =? r); reflexivity.
Qed.
Lemma cell_put rw c v c' : cell (row_put rw c v) c' = if c' =? c then Some v else cell rw c'.
Proof.
  unfold row_put, cell. induction rw as [|[k w] rw IH]; cbn [upd_at find fst].
  - destruct (Nat.eqb_spec c c'), (Nat.eqb_spec c' c); try reflexivity; congruence.
  - destruct (Nat.eqb_spec k c) as [->|Nk]; cbn [find fst].
    + destruct (Nat.eqb_spec c c'), (Nat.eqb_spec c' c); try reflexivity; congruence.
    + destruct (Nat.eqb_spec k c') as [->|Nk']; [destruct (Nat.eqb_spec c' c); [congruence|reflexivity]|exact IH].
Qed.
Lemma last_cons e es r c : last_at (e :: es) r c = match last_at es r c with Some v => Some v | None => if (fst (fst e) =? r) && (snd (fst e) =? c) then Some (snd e) else None end.
Proof.
  unfold last_at. cbn [rev]. induction (rev es) as [|a l IH]; cbn [app find]; [destruct (_ && _); reflexivity|]. destruct ((fst (fst a) =? r) && (snd (fst a) =? c)); [reflexivity|exact IH].
Qed.
Lemma cell_fold ren r c es : forall rw,
  cell (fold_left (fun rw (e : entry) => row_put rw (ren (snd (fst e))) (reread (snd e))) (filter (fun e => ren (erow e) =? r) es) rw) c =
  match last_at (map (fun e : entry => (ren (fst (fst e)), ren (snd (fst e)), reread (snd e))) es) r c with Some v => Some v | None => cell rw c end.
Proof.
  induction es as [|[[r0 c0] v0] es IH]; intros rw; [reflexivity|]. cbn [filter map]. rewrite last_cons. cbn [fst snd]. unfold erow at 1. cbn [fst].
  destruct (Nat.eqb_spec (ren r0) r); cbn [andb fold_left fst snd]; rewrite IH; [|destruct (last_at _ _ _); reflexivity].
  destruct (last_at _ _ _); [reflexivity|]. rewrite cell_put. rewrite (Nat.eqb_sym c). destruct (ren c0 =? c); reflexivity.
Qed.
Lemma filter_elements r rs : forall b, filter (fun e => erow e =? r) (elements b rs) = if b <=? r then map (fun e => (r, fst e, snd e)) (nth (r - b) rs []) else [].
Proof.
  induction rs as [|rw rs IH]; intros b; cbn [elements]; [cbn; destruct (b <=? r), (r - b); reflexivity|]. rewrite filter_app, IH.
  assert (F : filter (fun e => erow e =? r) (map (fun e : nat * value => (b, fst e, snd e)) rw) = if b =? r then map (fun e => (r, fst e, snd e)) rw else []).
  { destruct (Nat.eqb_spec b r) as [->|N]; induction rw as [|e rw IHw]; [reflexivity| |reflexivity|]; cbn [map filter]; unfold erow at 1; cbn [fst]; [rewrite Nat.eqb_refl, IHw; reflexivity|destruct (Nat.eqb_spec b r); [congruence|exact IHw]]. }
  match goal with |- ?x ++ _ = _ => change x with (filter (fun e => erow e =? r) (map (fun e : nat * value => (b, fst e, snd e)) rw)) end.
  rewrite F. clear F. destruct (Nat.eqb_spec b r) as [E|N].
  - subst b. rewrite Nat.sub_diag. cbn [nth]. destruct (Nat.leb_spec (S r) r); [lia|]. rewrite Nat.leb_refl, app_nil_r. reflexivity.
  - destruct (Nat.leb_spec (S b) r), (Nat.leb_spec b r); try lia; [|reflexivity]. replace (r - b) with (S (r - S b)) by lia. reflexivity.
Qed.
Lemma row_put_new rw c v : ~ In c (map fst rw) -> row_put rw c v = rw ++ [(c, v)].
Proof.
  unfold row_put. induction rw as [|[k w] rw IH]; intros N; [reflexivity|]. cbn [upd_at app map In fst] in *. destruct (Nat.eqb_spec k c) as [E|E]; [exfalso; apply N; left; exact E|].
  rewrite IH by tauto. reflexivity.
Qed.
Lemma fold_put_new rw : forall acc, NoDup (map fst acc ++ map fst rw) ->
  fold_left (fun rw (e : nat * value) => row_put rw (fst e) (reread (snd e))) rw acc = acc ++ reread_row rw.
Proof.
  induction rw as [|[c v] rw IH]; intros acc Nd; cbn [fold_left reread_row map fst snd] in *; [rewrite app_nil_r; reflexivity|].
  rewrite row_put_new.
  - rewrite IH; [rewrite <- app_assoc; reflexivity|]. rewrite map_app, <- app_assoc. exact Nd.
  - intros I. apply NoDup_remove_2 in Nd. apply Nd, in_or_app. left. exact I.
Qed.
Lemma fold_map {A B C} (f : A -> B -> A) (g : C -> B) l : forall a, fold_left f (map g l) a = fold_left (fun a c => f a (g c)) l a.
Proof. induction l as [|c l IH]; intros a; [reflexivity|]. cbn [map fold_left]. apply IH. Qed.
Lemma list_ext {A} (d : A) : forall l l', length l = length l' -> (forall k, k < length l -> nth k l d = nth k l' d) -> l = l'.
Proof. intros l l' L H. apply (nth_ext l l' d d L H). Qed.
Lemma nth_map_seq {A} (g : nat -> A) b n k d : k < n -> nth k (map g (seq b n)) d = g (b + k).
Proof. intros L. rewrite (nth_indep _ d (g 0)) by (rewrite map_length, seq_length; exact L). rewrite map_nth, seq_nth by exact L. reflexivity. Qed.
Lemma start_rows_empty mbeg mend rank size n k : nth k (rows (lmat (start_state mbeg mend rank size n empty_matrix))) [] = [].
Proof.
  unfold start_state. destruct (interval mbeg mend rank size n) as (b, e). cbn [lmat rows empty_matrix]. unfold set_interval. rewrite firstn_nil. cbn [app].
  destruct (Nat.lt_ge_cases k (e - b - length (@nil (row value)))); [apply nth_repeat|apply nth_overflow; rewrite repeat_length; lia].
Qed.
(** loading into an empty matrix: row [r] gets the row with that number *)
Lemma load_exact mbeg mend rank size n f rs : distinct_columns rs ->
  let s := fold_left (step1 (fun k => k)) (elements f rs) (start_state mbeg mend rank size n empty_matrix) in
  lmat s = let '(b, e) := interval mbeg mend rank size n in
    Mat b (map (fun r => if f <=? r then reread_row (nth (r - f) rs []) else []) (seq b (e - b))).
Proof.
  intros D s. pose proof (start_good mbeg mend rank size n empty_matrix) as G. destruct (fold_rows (fun k => k) (elements f rs) _ G) as (G' & Eb & Ee & H).
  fold s in G', Eb, Ee, H. pose proof (start_rows_empty mbeg mend rank size n) as Em.
  destruct G' as (G1 & G2). destruct (lmat s) as [fs rws]. cbn [first rows] in *.
  assert (Ex : lbeg (start_state mbeg mend rank size n empty_matrix) = fst (interval mbeg mend rank size n) /\ lend (start_state mbeg mend rank size n empty_matrix) = snd (interval mbeg mend rank size n)).
  { unfold start_state. destruct (interval mbeg mend rank size n). auto. }
  destruct Ex as (X1 & X2). destruct (interval mbeg mend rank size n) as (b, e). cbn [fst snd] in *. rewrite X1, X2 in *. rewrite Eb, Ee in *. subst fs. f_equal.
  apply (list_ext []).
  - rewrite map_length, seq_length. exact G2.
  - intros k Hk. rewrite G2 in Hk. pose proof (H (b + k) ltac:(lia)) as Hr. replace (b + k - b) with k in Hr by lia. rewrite Hr, Em.
    rewrite nth_map_seq by exact Hk. rewrite filter_elements. destruct (f <=? b + k); [|reflexivity]. rewrite fold_map. cbn [fst snd].
    apply (fold_put_new (nth (b + k - f) rs []) []). cbn [map app]. destruct (Nat.lt_ge_cases (b + k - f) (length rs)).
    + unfold distinct_columns in D. rewrite Forall_forall in D. apply D, nth_In. assumption.
    + rewrite nth_overflow by assumption. constructor.
Qed.
