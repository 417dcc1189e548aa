(** Proofs about the model of the class Solver. *)
From Coq Require Import Ascii String List Bool Arith Lia.
From Verif Require Import Util Front_Spec Front_Model.
Import ListNotations.
Local Open Scope string_scope.
Local Open Scope list_scope.

Lemma member_iff n l : member n l = true <-> In n l.
Proof. unfold member. rewrite existsb_exists. split; [intros (x & I & E); apply String.eqb_eq in E; now subst | intros I; exists n; split; [easy | apply String.eqb_refl]]. Qed.
Lemma last_app n a b : last_given n (a ++ b) = match last_given n b with Some t => Some t | None => last_given n a end.
Proof.
  induction a as [| (m, t) a IH]; cbn [app last_given]; [now destruct (last_given n b) |]. rewrite IH. now destruct (last_given n b).
Qed.
Lemma last_snoc n a m t : last_given n (a ++ [(m, t)]) = if (m =? n)%string then Some t else last_given n a.
Proof. rewrite last_app. cbn [last_given]. now destruct (m =? n)%string. Qed.

Set Default Proof Using "Type".
Section Proofs.
Context {V : Type} {atoi atof : string -> V} {default : kind -> string -> V}.
Context {M C : Type} {same_comm : C -> C -> bool} {W : Type} {zero : W}.
Context {kernel : kind -> M -> method V -> vector C W -> vector C W -> bool * vector C W}.
Notation solver := (solver V M C).
Notation call := (call V M C W).
Notation do_call := (do_call V atoi atof M C same_comm W zero kernel).
Notation do_calls := (do_calls V atoi atof M C same_comm W zero kernel).
Notation solve := (solve V M C same_comm W zero kernel).
Notation set_field := (set_field V atoi atof).
Notation set_all := (set_all V atoi atof).

Definition accepted (k : kind) (n : string) : bool := member n (special k) || member n general.
Definition value (k : kind) (n : string) (h : history) : V :=
  match (if accepted k n then last_given n h else None) with Some t => convert V atoi atof n t | None => default k n end.
Lemma set_field_value k n t h f : (forall m, f m = value k m h) -> forall m, set_field k n t f m = value k m (h ++ [(n, t)]).
Proof.
  intros H m. unfold Front_Model.set_field, value. fold (accepted k n). rewrite last_snoc. destruct (accepted k n) eqn:A.
  - destruct (String.eqb_spec m n) as [-> | NE].
    + now rewrite A, String.eqb_refl.
    + destruct (String.eqb_spec n m) as [-> | _]; [easy |]. apply H.
  - destruct (String.eqb_spec n m) as [-> | _]; [rewrite A, H; unfold value; now rewrite A | apply H].
Qed.
Lemma set_all_value k l : forall h f, (forall m, f m = value k m h) -> forall m, set_all k l f m = value k m (h ++ l).
Proof.
  induction l as [| (n, t) l IH]; intros h f H m; cbn [Front_Model.set_all fold_left]; [now rewrite app_nil_r |].
  change (set_all k l (set_field k n t f) m = value k m (h ++ (n, t) :: l)). rewrite (IH (h ++ [(n, t)])); [now rewrite <- app_assoc |]. now apply set_field_value.
Qed.

(** * Calls *)
Definition given (l : list call) : history := flat_map (fun c => match c with CSet _ _ _ _ n t => [(n, t)] | _ => [] end) l.
Definition is_matrix (c : call) : bool := match c with CMatrix _ _ _ _ _ => true | _ => false end.
Definition is_clear (c : call) : bool := match c with CClear _ _ _ _ => true | _ => false end.
Lemma solve_cases rhs sol s : match solve rhs sol s with
  | Ok (s', b, y) => exists m A x, s_method V M C s = Some m /\ s_matrix V M C s = Some A /\
      s' = Solver V M C (s_kind V M C s) (s_prefix V M C s) (s_comm V M C s) (s_fields V M C s) (Some A) (Some (pass V passed_solve (s_fields V M C s) m)) b /\
      kernel (s_kind V M C s) A (pass V passed_solve (s_fields V M C s) m) rhs x = (b, y)
  | Throw _ => True
  | Crash => s_method V M C s = None /\ s_matrix V M C s <> None
  end.
Proof.
  unfold Front_Model.solve. destruct (s_matrix V M C s) as [A |] eqn:EA; [| easy].
  destruct (negb _ || negb _); [easy |].
  assert (G : forall x, match match s_method V M C s with
      | None => Crash
      | Some m => let m' := pass V passed_solve (s_fields V M C s) m in let (b, y) := kernel (s_kind V M C s) A m' rhs x in
          Ok (Solver V M C (s_kind V M C s) (s_prefix V M C s) (s_comm V M C s) (s_fields V M C s) (Some A) (Some m') b, b, y)
      end with
    | Ok (s', b, y) => exists m A x, s_method V M C s = Some m /\ Some A = Some A /\ s_matrix V M C s = Some A /\
        s' = Solver V M C (s_kind V M C s) (s_prefix V M C s) (s_comm V M C s) (s_fields V M C s) (Some A) (Some (pass V passed_solve (s_fields V M C s) m)) b /\
        kernel (s_kind V M C s) A (pass V passed_solve (s_fields V M C s) m) rhs x = (b, y)
    | Throw _ => True
    | Crash => s_method V M C s = None /\ Some A <> None
    end).
  { intros x. destruct (s_method V M C s) as [m |]; [| easy]. cbv zeta. destruct (kernel _ _ _ _ _) as (b, y) eqn:K. exists m, A, x. auto. }
  destruct (Nat.eqb _ _); [| destruct (v_data C W sol); [| easy]].
  - specialize (G sol). destruct (s_method V M C s) as [m |]; [| easy]. cbv zeta in *. destruct (kernel _ _ _ _ _) as (b, y) eqn:K. exists m, A, sol. auto.
  - set (x := Vector _ _ _ _ _). specialize (G x). destruct (s_method V M C s) as [m |]; [| easy]. cbv zeta in *. destruct (kernel _ _ _ _ _) as (b, y) eqn:K. exists m, A, x. auto.
Qed.
Lemma do_calls_app s a b : do_calls s (a ++ b) = match do_calls s a with None => None | Some s' => do_calls s' b end.
Proof. revert s. induction a as [| c a IH]; intros s; [easy |]. cbn [app Front_Model.do_calls]. destruct (do_call s c); [apply IH | easy]. Qed.

(** What a call does. *)
Lemma call_kind s c s' : do_call s c = Some s' -> s_kind V M C s' = s_kind V M C s /\ s_prefix V M C s' = s_prefix V M C s /\
  (forall h, (forall m, s_fields V M C s m = value (s_kind V M C s) m h) -> forall m, s_fields V M C s' m = value (s_kind V M C s) m (h ++ given [c])).
Proof.
  destruct c as [n t | A | rhs sol | | o]; cbn [Front_Model.do_call].
  - intros H. injection H as <-. cbn [set_parameter s_kind s_prefix s_fields]. split; [easy |]. split; [easy |]. intros h H. now apply set_field_value.
  - unfold set_matrix. destruct (s_method V M C s); [| easy]. intros H. injection H as <-. cbn [s_kind s_prefix s_fields]. split; [easy |]. split; [easy |]. intros h H m0. cbn [given flat_map]. now rewrite app_nil_r.
  - pose proof (solve_cases rhs sol s) as G. destruct (solve rhs sol s) as [((s1, b), y) | e |]; [| | easy].
    + destruct G as (m & A & x & _ & _ & -> & _). intros H. injection H as <-. cbn [s_kind s_prefix s_fields]. split; [easy |]. split; [easy |]. intros h H m0. cbn [given flat_map]. now rewrite app_nil_r.
    + intros H. injection H as <-. split; [easy |]. split; [easy |]. intros h H m0. cbn [given flat_map]. now rewrite app_nil_r.
  - intros H. injection H as <-. cbn [clear s_kind s_prefix s_fields]. split; [easy |]. split; [easy |]. intros h H m0. cbn [given flat_map]. now rewrite app_nil_r.
  - intros H. injection H as <-. cbn [assign fst s_kind s_prefix s_fields]. split; [easy |]. split; [easy |]. intros h H m0. cbn [given flat_map]. now rewrite app_nil_r.
Qed.
Lemma calls_kind l : forall s s', do_calls s l = Some s' -> s_kind V M C s' = s_kind V M C s /\ s_prefix V M C s' = s_prefix V M C s /\
  (forall h, (forall m, s_fields V M C s m = value (s_kind V M C s) m h) -> forall m, s_fields V M C s' m = value (s_kind V M C s) m (h ++ given l)).
Proof.
  induction l as [| c l IH]; intros s s' H; cbn [Front_Model.do_calls] in H.
  - injection H as <-. split; [easy |]. split; [easy |]. intros h H m. cbn [given flat_map]. now rewrite app_nil_r.
  - destruct (do_call s c) as [s1 |] eqn:E; [| easy]. destruct (call_kind s c s1 E) as (K1 & P1 & F1). destruct (IH s1 s' H) as (K2 & P2 & F2).
    split; [congruence |]. split; [congruence |]. intros h HH m. specialize (F1 h HH). rewrite K1 in F2. specialize (F2 _ F1 m). rewrite <- app_assoc in F2. unfold given in *. cbn [flat_map] in F2 |- *. now rewrite app_nil_r in F2.
Qed.

(** * Values handed to the method *)
Lemma assoc_filter n k (m : list (string * V)) : assoc n (filter (fun q => negb (fst q =? k)%string) m) = if (k =? n)%string then None else assoc n m.
Proof.
  induction m as [| (a, v) m IH]; cbn [filter assoc]; [now destruct (k =? n)%string |]. cbn [fst]. destruct (String.eqb_spec a k) as [-> | NE]; cbn [negb].
  - rewrite IH. now destruct (String.eqb_spec k n).
  - cbn [assoc]. rewrite IH. destruct (String.eqb_spec a n) as [-> | NE2]; [| easy]. destruct (String.eqb_spec k n) as [-> | _]; easy.
Qed.
Lemma assoc_pass l f : forall m n, assoc n (pass V l f m) = match last_given n l with Some p => Some (f p) | None => assoc n m end.
Proof.
  induction l as [| (a, p) l IH]; intros m n; cbn [pass fold_left last_given fst snd]; [easy |].
  change (assoc n (pass V l f ((a, f p) :: filter (fun q => negb (fst q =? a)%string) m)) = match match last_given n l with Some u => Some u | None => if (a =? n)%string then Some p else None end with Some q => Some (f q) | None => assoc n m end).
  rewrite IH. destruct (last_given n l); [easy |]. cbn [assoc]. destruct (String.eqb_spec a n) as [-> | NE]; [easy |]. rewrite assoc_filter. now destruct (String.eqb_spec a n).
Qed.
Lemma pass_ext l f g : (forall p, In p (map snd l) -> f p = g p) -> forall m, pass V l f m = pass V l g m.
Proof.
  induction l as [| (a, p) l IH]; intros H m; cbn [pass fold_left fst snd]; [easy |].
  change (pass V l f ((a, f p) :: filter (fun q => negb (fst q =? a)%string) m) = pass V l g ((a, g p) :: filter (fun q => negb (fst q =? a)%string) m)).
  rewrite (H p) by now left. apply IH. intros q Q. apply H. now right.
Qed.

(** * Parameters without effect *)
Definition effective (k : kind) : list string := map snd (passed k) ++ map snd passed_solve.
Definition same_but (n : string) (s s' : solver) : Prop :=
  s_kind V M C s = s_kind V M C s' /\ s_prefix V M C s = s_prefix V M C s' /\ s_comm V M C s = s_comm V M C s' /\ s_matrix V M C s = s_matrix V M C s' /\
  s_method V M C s = s_method V M C s' /\ s_solved V M C s = s_solved V M C s' /\ forall m, m <> n -> s_fields V M C s m = s_fields V M C s' m.
Lemma solve_same n s s' rhs sol : ~ In n (effective (s_kind V M C s)) -> same_but n s s' ->
  match solve rhs sol s, solve rhs sol s' with
  | Ok (t, b, y), Ok (t', b', y') => same_but n t t' /\ b = b' /\ y = y'
  | Throw e, Throw e' => e = e'
  | Crash, Crash => True
  | _, _ => False
  end.
Proof.
  intros NE (E1 & E2 & E3 & E4 & E5 & E6 & E7). unfold Front_Model.solve. rewrite <- E4, <- E3, <- E5, <- E1, <- E2.
  destruct (s_matrix V M C s) as [A |]; [| easy]. destruct (negb _ || negb _); [easy |].
  destruct (s_method V M C s) as [m |]; cbv zeta.
  - rewrite (pass_ext passed_solve (s_fields V M C s') (s_fields V M C s)).
    2: { intros p P. symmetry. apply E7. intros ->. apply NE. apply in_or_app. now right. }
    destruct (Nat.eqb _ _); [| destruct (v_data C W sol); [| easy]]; destruct (kernel _ _ _ _ _) as (b, y); (split; [| easy]); unfold same_but; cbn; auto 10.
  - destruct (Nat.eqb _ _); [easy |]. now destruct (v_data C W sol).
Qed.
Lemma call_same n s s' c : ~ In n (effective (s_kind V M C s)) -> same_but n s s' ->
  match do_call s c, do_call s' c with Some t, Some t' => same_but n t t' | None, None => True | _, _ => False end.
Proof.
  intros NE S. pose proof S as (E1 & E2 & E3 & E4 & E5 & E6 & E7). destruct c as [m t | A | rhs sol | | o]; cbn [Front_Model.do_call].
  - unfold same_but. cbn [set_parameter s_kind s_prefix s_comm s_fields s_matrix s_method s_solved]. rewrite <- E1. repeat (split; [easy |]). intros q Q.
    unfold Front_Model.set_field. destruct (_ || _); [| now apply E7]. destruct (q =? m)%string; [easy | now apply E7].
  - unfold set_matrix. rewrite <- E5. destruct (s_method V M C s) as [m |]; [| easy]. unfold same_but. cbn [s_kind s_prefix s_comm s_fields s_matrix s_method s_solved]. rewrite <- E1. split; [easy |]. split; [easy |]. split; [easy |]. split; [easy |]. split; [| auto].
    f_equal. apply pass_ext. intros p P. apply E7. intros ->. apply NE. apply in_or_app. now left.
  - pose proof (solve_same n s s' rhs sol NE S) as H. destruct (solve rhs sol s) as [((t, b), y) | e |], (solve rhs sol s') as [((t', b'), y') | e' |]; try easy.
  - unfold same_but, clear. cbn. auto 10.
  - unfold same_but, assign. cbn. auto 10.
Qed.
Lemma calls_same n l : forall s s', ~ In n (effective (s_kind V M C s)) -> same_but n s s' ->
  match do_calls s l, do_calls s' l with Some t, Some t' => same_but n t t' | None, None => True | _, _ => False end.
Proof using Type default.
  induction l as [| c l IH]; intros s s' NE S; cbn [Front_Model.do_calls]; [easy |]. pose proof (call_same n s s' c NE S) as H.
  destruct (do_call s c) as [t |] eqn:E, (do_call s' c) as [t' |]; try easy. apply IH; [| easy]. destruct (call_kind s c t E) as (K & _). now rewrite K.
Qed.

(** * Matrices *)
Fixpoint current (l : list call) (a : option M) : option M :=
  match l with
  | [] => a
  | CMatrix _ _ _ _ A :: r => current r (Some A)
  | CClear _ _ _ _ :: r => current r None
  | _ :: r => current r a
  end.
Lemma call_matrix s c s' : do_call s c = Some s' -> s_matrix V M C s' = current [c] (s_matrix V M C s) /\ (s_method V M C s' <> None <-> s_method V M C s <> None /\ is_clear c = false).
Proof.
  destruct c as [n t | A | rhs sol | | o]; cbn [Front_Model.do_call current is_clear].
  - intros H. injection H as <-. cbn. tauto.
  - unfold set_matrix. destruct (s_method V M C s); [| easy]. intros H. injection H as <-. cbn. split; [easy |]. split; [intros _; split; easy | intros _; easy].
  - pose proof (solve_cases rhs sol s) as G. destruct (solve rhs sol s) as [((s1, b), y) | e |]; [| | easy].
    + destruct G as (m & A & x & G1 & G2 & -> & _). intros H. injection H as <-. cbn. rewrite G1, G2. split; [easy |]. split; [intros _; split; easy | intros _; easy].
    + intros H. injection H as <-. tauto.
  - intros H. injection H as <-. cbn. split; [easy |]. split; [easy | intros (_ & H); easy].
  - intros H. injection H as <-. cbn. tauto.
Qed.
Lemma current_app a b m : current (a ++ b) m = current b (current a m).
Proof. revert m. induction a as [| [] a IH]; intros m; cbn [app current]; auto. Qed.
Lemma calls_matrix l : forall s s', do_calls s l = Some s' -> s_matrix V M C s' = current l (s_matrix V M C s) /\ (s_method V M C s' <> None <-> s_method V M C s <> None /\ forallb (fun c => negb (is_clear c)) l = true).
Proof.
  induction l as [| c l IH]; intros s s' H; cbn [Front_Model.do_calls] in H.
  - injection H as <-. cbn. tauto.
  - destruct (do_call s c) as [s1 |] eqn:E; [| easy]. destruct (call_matrix s c s1 E) as (A1 & B1). destruct (IH s1 s' H) as (A2 & B2).
    split; [rewrite A2, A1, <- current_app; reflexivity |]. rewrite B2, B1. cbn [forallb]. destruct (is_clear c); cbn [negb andb]; intuition congruence.
Qed.

(** A crash needs a cleared object. *)
Lemma call_crash s c : (s_method V M C s = None -> s_matrix V M C s = None) -> (do_call s c = None <-> s_method V M C s = None /\ is_matrix c = true).
Proof.
  intros I. destruct c as [n t | A | rhs sol | | o]; cbn [Front_Model.do_call is_matrix]; try (split; [easy | intros (_ & H); easy]).
  - unfold set_matrix. destruct (s_method V M C s); split; intros H; try easy; now destruct H.
  - pose proof (solve_cases rhs sol s) as G. destruct (solve rhs sol s) as [((s1, b), y) | e |]; split; try easy; try (intros (_ & H); easy).
    intros _. destruct G as (G1 & G2). exfalso. auto.
Qed.
Lemma call_inv s c s' : (s_method V M C s = None -> s_matrix V M C s = None) -> do_call s c = Some s' -> (s_method V M C s' = None -> s_matrix V M C s' = None).
Proof.
  intros I H. destruct (call_matrix s c s' H) as (A & B). rewrite A. destruct (s_method V M C s') eqn:E; [easy |]. intros _.
  destruct c as [n t | A0 | rhs sol | | o]; cbn [current is_clear] in *; try easy.
  - apply I. destruct (s_method V M C s); [exfalso; apply B; split; easy | easy].
  - exfalso. assert (s_method V M C s <> None) as J; [| now apply B]. intros J. cbn [Front_Model.do_call] in H. unfold set_matrix in H. now rewrite J in H.
  - apply I. destruct (s_method V M C s); [exfalso; apply B; split; easy | easy].
  - apply I. destruct (s_method V M C s); [exfalso; apply B; split; easy | easy].
Qed.
(** Matrix given after the object was cleared. *)
Fixpoint misuse (cleared : bool) (l : list call) : bool :=
  match l with
  | [] => false
  | c :: r => is_matrix c && cleared || misuse (cleared || is_clear c) r
  end.
Lemma calls_crash l : forall s, (s_method V M C s = None -> s_matrix V M C s = None) ->
  (do_calls s l = None <-> misuse (match s_method V M C s with None => true | Some _ => false end) l = true).
Proof.
  induction l as [| c l IH]; intros s I; cbn [Front_Model.do_calls misuse]; [easy |]. pose proof (call_crash s c I) as H.
  destruct (do_call s c) as [s1 |] eqn:E.
  - rewrite (IH s1 (call_inv s c s1 I E)). destruct (call_matrix s c s1 E) as (_ & B).
    assert (is_matrix c && (match s_method V M C s with None => true | Some _ => false end) = false) as ->.
    { destruct (is_matrix c) eqn:X; [| easy]. destruct (s_method V M C s); [easy |]. destruct H as (_ & H). now specialize (H (conj eq_refl eq_refl)). }
    cbn [orb]. replace (match s_method V M C s1 with None => true | Some _ => false end) with ((match s_method V M C s with None => true | Some _ => false end) || is_clear c); [easy |].
    destruct (s_method V M C s1), (s_method V M C s), (is_clear c); cbn [orb]; try easy; exfalso; intuition congruence.
  - destruct H as (H & _). destruct (H eq_refl) as (H1 & H2). rewrite H1, H2. easy.
Qed.
End Proofs.
