(** Properties of the class Solver: parameters, database of parameters, life cycle, copies. *)
From Coq Require Import Ascii String List Bool Arith Lia.
From Verif Require Import Util Front_Spec Front_Model Front_Proofs.
Import ListNotations.
Local Open Scope string_scope.
Local Open Scope list_scope.

Lemma last_none p (l : history) : ~ In p (map fst l) -> last_given p l = None.
Proof.
  induction l as [| (a, t) l IH]; intros NI; cbn [last_given map fst] in *; [easy |]. rewrite IH by (intros J; apply NI; now right). destruct (String.eqb_spec a p); [exfalso; apply NI; now left | easy].
Qed.

Section Props.
Variable V : Type.
Variable atoi atof : string -> V.
Variable show : V -> string.
Variable default : kind -> string -> V.
Variable files : string -> option (list (string * string)).
Variable M C : Type.
Variable same_comm : C -> C -> bool.
Variable W : Type.
Variable zero : W.
Variable kernel : kind -> M -> method V -> vector C W -> vector C W -> bool * vector C W.
Notation solver := (solver V M C).
Notation call := (call V M C W).
Notation create := (create V atoi atof default files M C).
Notation do_call := (do_call V atoi atof M C same_comm W zero kernel).
Notation do_calls := (do_calls V atoi atof M C same_comm W zero kernel).
Notation solve := (solve V M C same_comm W zero kernel).
Notation set := (CSet V M C W).
Notation matrix := (CMatrix V M C W).
Notation convert := (convert V atoi atof).
Notation Vector := (Vector C W).

(** Texts for parameters that a new solver takes from the database. *)
Definition initial (db : list entry) (name prefix : string) : history :=
  match lookup db (lower name) (lower prefix) with Some e => setup_values files e | None => [] end.
(** Value of parameter [n] after the texts of [h] were given. *)
Definition expected (k : kind) (n : string) (h : history) : V :=
  match last_given n h with Some t => convert n t | None => default k n end.

Lemma create_ok db name prefix comm s : create db name prefix comm = Ok s ->
  get_solver name = Some (s_kind V M C s) /\ s_prefix V M C s = lower prefix /\ s_comm V M C s = comm /\ s_matrix V M C s = None /\ s_method V M C s = Some [] /\
  forall n, s_fields V M C s n = value (atoi := atoi) (atof := atof) (default := default) (s_kind V M C s) n (initial db name prefix).
Proof.
  unfold Front_Model.create. destruct (get_solver name) as [k |]; [| easy]. intros H. injection H as <-. cbn [s_kind s_prefix s_comm s_matrix s_method s_fields].
  do 5 (split; [easy |]). intros n. fold (initial db name prefix). rewrite (set_all_value (default := default) k (initial db name prefix) []); [easy |].
  intros m. unfold value. now destruct (accepted k m).
Qed.
Lemma value_expected k n h : accepted k n = true -> value (atoi := atoi) (atof := atof) (default := default) k n h = expected k n h.
Proof. unfold value, expected. now intros ->. Qed.
Lemma passed_accepted k n : In n (effective k) -> accepted k n = true.
Proof.
  assert (forallb (accepted k) (effective k) = true) as H by now destruct k. intros I. rewrite forallb_forall in H. now apply H.
Qed.
Lemma general_accepted k n : In n general -> accepted k n = true.
Proof. intros I. unfold accepted. apply orb_true_iff. right. now apply member_iff. Qed.

(** * C165: parameters *)
(** After any calls a general parameter shows the last text given, by the database or by the user. *)
Theorem C165_get : forall (db : list entry) (name prefix : string) (comm : C) (s0 s : solver) (l : list call) (n : string),
  create db name prefix comm = Ok s0 -> do_calls s0 l = Some s -> In n general ->
  get_parameter V show M C n s = show (match last_given n (initial db name prefix ++ given l) with Some t => convert n t | None => default (s_kind V M C s0) n end).
Proof.
  intros db name prefix comm s0 s l n H D I. destruct (create_ok _ _ _ _ _ H) as (_ & _ & _ & _ & _ & F). destruct (calls_kind (default := default) l s0 s D) as (K & _ & G).
  unfold get_parameter. rewrite (proj2 (member_iff n general) I). rewrite (G _ F). now rewrite value_expected by now apply general_accepted.
Qed.
(** Any other parameter shows nothing, whatever was given for it. *)
Theorem C165_get_refuted : forall (s : solver) (n t : string), ~ In n general ->
  get_parameter V show M C n (set_parameter V atoi atof M C n t s) = "".
Proof.
  intros s n t I. unfold get_parameter. destruct (member n general) eqn:E; [exfalso; apply I; now apply member_iff | easy].
Qed.

Opaque pass.
(** What the method works with: parameters of the preconditioner as they were when the matrix
    was given, parameters of the iterations as they are when the system is solved. *)
Theorem C165_solve : forall (db : list entry) (name prefix : string) (comm : C) (s0 s : solver) (l1 l2 : list call) (A : M) (rhs sol : vector C W),
  create db name prefix comm = Ok s0 -> do_calls s0 (l1 ++ matrix A :: l2) = Some s -> Forall (fun c => is_matrix c = false /\ is_clear c = false) l2 ->
  same_comm (v_comm C W rhs) (s_comm V M C s) = true -> same_comm (v_comm C W sol) (s_comm V M C s) = true ->
  length (v_data C W sol) = length (v_data C W rhs) \/ v_data C W sol = [] ->
  let k := s_kind V M C s0 in
  exists m s' b y, solve rhs sol s = Ok (s', b, y) /\
    (b, y) = kernel k A m rhs (match v_data C W sol with [] => Vector (v_comm C W sol) (match v_data C W rhs with [] => v_first C W sol | _ => v_first C W rhs end) (repeat zero (length (v_data C W rhs))) | _ => sol end) /\
    (forall p n, In (p, n) (passed k) -> assoc p m = Some (expected k n (initial db name prefix ++ given l1))) /\
    (forall p n, In (p, n) passed_solve -> assoc p m = Some (expected k n (initial db name prefix ++ given (l1 ++ l2)))) /\
    (forall p, ~ In p (map fst (passed k) ++ map fst passed_solve) -> assoc p m = None).
Proof.
  intros db name prefix comm s0 s l1 l2 A rhs sol H D F2 C1 C2 SZ k. destruct (create_ok _ _ _ _ _ H) as (_ & _ & _ & _ & M0 & F).
  rewrite do_calls_app in D. destruct (do_calls s0 l1) as [s1 |] eqn:D1; [| easy]. destruct (calls_kind (default := default) l1 s0 s1 D1) as (K1 & _ & G1). specialize (G1 _ F).
  assert (K : s_kind V M C s = k /\ s_matrix V M C s = Some A /\ exists m0,
    s_method V M C s = Some m0 /\ forall p, ~ In p (map fst passed_solve) -> assoc p m0 = match last_given p (passed k) with Some n => Some (s_fields V M C s1 n) | None => None end).
  2: { destruct K as (K & EA & m0 & EM & Q).
    assert (FS : forall n, s_fields V M C s n = value (atoi := atoi) (atof := atof) (default := default) k n (initial db name prefix ++ given (l1 ++ l2))).
    { cbn [Front_Model.do_calls Front_Model.do_call] in D. destruct (set_matrix V M C A s1) as [s2 | |] eqn:E2; [| | easy].
      - assert (D' : do_calls s1 (matrix A :: l2) = Some s). { cbn [Front_Model.do_calls Front_Model.do_call]. now rewrite E2. }
        destruct (calls_kind (default := default) (matrix A :: l2) s1 s D') as (_ & _ & G2).
        rewrite K1 in G2. intros n. rewrite (G2 _ G1). unfold given. rewrite flat_map_app, app_assoc. easy.
      - exfalso. unfold set_matrix in E2. now destruct (s_method V M C s1). }
    set (m := pass V passed_solve (s_fields V M C s) m0).
    set (x := match v_data C W sol with [] => Vector (v_comm C W sol) (match v_data C W rhs with [] => v_first C W sol | _ => v_first C W rhs end) (repeat zero (length (v_data C W rhs))) | _ => sol end).
    destruct (kernel k A m rhs x) as (b, y) eqn:KR.
    exists m, (Front_Model.Solver V M C k (s_prefix V M C s) (s_comm V M C s) (s_fields V M C s) (Some A) (Some m) b), b, y. split.
    { unfold Front_Model.solve. rewrite EA, C1, C2, EM, K. cbn [negb orb]. cbv zeta. fold m. unfold x in KR.
      destruct sol as [sc sf sd]. cbn [v_data v_comm v_first] in *. destruct sd as [| w sd].
      - destruct (v_data C W rhs) as [| r rd] eqn:ER; cbn [length Nat.eqb repeat] in *; now rewrite KR.
      - destruct SZ as [SZ | SZ]; [| easy]. rewrite SZ, Nat.eqb_refl. now rewrite KR. }
    split; [now rewrite KR |]. split; [| split].
    - intros p n I. unfold m. rewrite assoc_pass. assert (~ In p (map fst passed_solve) /\ last_given p (passed k) = Some n /\ In n (effective k)) as (N1 & N2 & N3).
      { clear - I. split; [| split].
        - assert (forallb (fun q => negb (member (fst q) (map fst passed_solve))) (passed k) = true) as T by now destruct k. rewrite forallb_forall in T. specialize (T _ I). cbn [fst] in T. intros J. apply member_iff in J. now rewrite J in T.
        - assert (forallb (fun q => match last_given (fst q) (passed k) with Some u => (u =? snd q)%string | None => false end) (passed k) = true) as T by now destruct k. rewrite forallb_forall in T. specialize (T _ I). cbn [fst snd] in T. destruct (last_given p (passed k)); [| easy]. apply String.eqb_eq in T. now subst.
        - apply in_or_app. left. now apply (in_map snd) in I. }
      rewrite (last_none p passed_solve) by easy.
      rewrite (Q p N1), N2, G1. f_equal. apply value_expected. now apply passed_accepted.
    - intros p n I. unfold m. rewrite assoc_pass. assert (last_given p passed_solve = Some n /\ In n (effective k)) as (N2 & N3).
      { clear - I. split.
        - assert (forallb (fun q => match last_given (fst q) passed_solve with Some u => (u =? snd q)%string | None => false end) passed_solve = true) as T by easy. rewrite forallb_forall in T. specialize (T _ I). cbn [fst snd] in T. destruct (last_given p passed_solve); [| easy]. apply String.eqb_eq in T. now subst.
        - apply in_or_app. right. now apply (in_map snd) in I. }
      rewrite N2, FS. f_equal. apply value_expected. now apply passed_accepted.
    - intros p NI. unfold m. rewrite assoc_pass. rewrite in_app_iff in NI.
      rewrite (last_none p passed_solve) by tauto. rewrite Q by tauto. now rewrite (last_none p (passed k)) by tauto. }
  cbn [Front_Model.do_calls Front_Model.do_call] in D. unfold set_matrix in D. 
  destruct (s_method V M C s1) as [m1 |] eqn:E1; [| easy].
  assert (Q1 : forall p, ~ In p (map fst passed_solve) -> match last_given p (passed k) with Some _ => True | None => assoc p m1 = None end).
  { clear - default D1 M0 E1. (* the method knows only parameters of the solver *)
    assert (G : forall l s s', do_calls s l = Some s' -> (forall m, s_method V M C s = Some m -> forall p, ~ In p (map fst passed_solve) -> match last_given p (passed (s_kind V M C s)) with Some _ => True | None => assoc p m = None end) ->
      (forall m, s_method V M C s' = Some m -> forall p, ~ In p (map fst passed_solve) -> match last_given p (passed (s_kind V M C s)) with Some _ => True | None => assoc p m = None end)).
    { induction l as [| c l IH]; intros s s' D H; cbn [Front_Model.do_calls] in D; [now injection D as <- |].
      destruct (do_call s c) as [s2 |] eqn:E; [| easy]. destruct (call_kind (default := default) s c s2 E) as (K & _). rewrite <- K in *. apply (IH s2 s' D). clear IH D.
      intros m EM p NI. destruct c as [n t | A | rhs sol | | o]; cbn [Front_Model.do_call] in E.
      - injection E as <-. now apply H.
      - unfold set_matrix in E. destruct (s_method V M C s) as [mm |] eqn:X; [| easy]. injection E as <-. cbn [s_kind s_method] in *. injection EM as <-. rewrite assoc_pass. specialize (H mm eq_refl p NI). revert H. now destruct (last_given p (passed (s_kind V M C s))).
      - pose proof (solve_cases (same_comm := same_comm) (zero := zero) (kernel := kernel) rhs sol s) as G. destruct (solve rhs sol s) as [((s3, b), y) | e |]; [| | easy].
        + destruct G as (mm & A & x & X & _ & -> & _). injection E as <-. cbn [s_kind s_method] in *. injection EM as <-. rewrite assoc_pass. specialize (H mm X p NI). revert H.
          destruct (last_given p (passed (s_kind V M C s))); [easy |]. intros H.
          now rewrite (last_none p passed_solve) by easy.
        + injection E as <-. now apply H.
      - injection E as <-. easy.
      - injection E as <-. now apply H. }
    apply (G l1 s0 s1 D1); [| easy]. intros m EM p _. rewrite M0 in EM. injection EM as <-. now destruct (last_given p _). }
  assert (G : forall l s2, Forall (fun c => is_matrix c = false /\ is_clear c = false) l -> do_calls s2 l = Some s -> s_matrix V M C s2 = Some A ->
    s_kind V M C s = s_kind V M C s2 /\ s_matrix V M C s = Some A /\
    (forall m2, s_method V M C s2 = Some m2 -> exists m0, s_method V M C s = Some m0 /\ forall p, ~ In p (map fst passed_solve) -> assoc p m0 = assoc p m2)).
  { clear - default. induction l as [| c l IH]; intros s2 FA D EA; cbn [Front_Model.do_calls] in D; [injection D as <-; split; [easy |]; split; [easy |]; intros m2 E; exists m2; auto |].
    destruct (do_call s2 c) as [s3 |] eqn:E; [| easy]. inversion FA as [| ? ? (X & Y) FB]; subst. destruct (call_kind (default := default) s2 c s3 E) as (K & _). destruct (call_matrix s2 c s3 E) as (MA & _).
    assert (EA3 : s_matrix V M C s3 = Some A) by (rewrite MA; now destruct c). destruct (IH s3 FB D EA3) as (K2 & EA2 & Z). split; [congruence |]. split; [easy |].
    intros m2 E2. assert (exists m3, s_method V M C s3 = Some m3 /\ forall p, ~ In p (map fst passed_solve) -> assoc p m3 = assoc p m2) as (m3 & E3 & Z3).
    { destruct c as [n t | A' | rhs sol | | o]; cbn [Front_Model.do_call] in E; try easy.
      - injection E as <-. now exists m2.
      - pose proof (solve_cases (same_comm := same_comm) (zero := zero) (kernel := kernel) rhs sol s2) as G. destruct (solve rhs sol s2) as [((s4, b), y) | e |]; [| | easy].
        + destruct G as (mm & A' & x & XX & _ & -> & _). injection E as <-. cbn [s_method]. eexists. split; [reflexivity |]. rewrite XX in E2. injection E2 as ->. intros p NI. rewrite assoc_pass.
          now rewrite (last_none p passed_solve) by easy.
        + injection E as <-. now exists m2.
      - injection E as <-. now exists m2. }
    destruct (Z m3 E3) as (m0 & E0 & Z0). exists m0. split; [easy |]. intros p NI. rewrite Z0, Z3; easy. }
  specialize (G l2 _ F2 D eq_refl). cbn [s_kind s_method] in G. destruct G as (GK & GA & GM). split; [unfold k; congruence |]. split; [easy |].
  destruct (GM _ eq_refl) as (m0 & E0 & Z0). exists m0. split; [easy |]. intros p NI. rewrite Z0 by easy. rewrite assoc_pass, K1. fold k. specialize (Q1 p NI). revert Q1. now destruct (last_given p (passed k)).
Qed.

Transparent pass.
(** A parameter that is not passed to the method never changes the outcome of a solution. *)
Theorem C165_ignored : forall (s : solver) (l1 l2 : list call) (n t : string) (rhs sol : vector C W),
  ~ In n (map snd (passed (s_kind V M C s)) ++ map snd passed_solve) ->
  match do_calls s (l1 ++ set n t :: l2), do_calls s (l1 ++ l2) with
  | Some a, Some b =>
    match solve rhs sol a, solve rhs sol b with
    | Ok (_, c, y), Ok (_, c', y') => c = c' /\ y = y'
    | Throw e, Throw e' => e = e'
    | Crash, Crash => True
    | _, _ => False
    end
  | None, None => True
  | _, _ => False
  end.
Proof.
  intros s l1 l2 n t rhs sol NE. rewrite !do_calls_app. destruct (do_calls s l1) as [s1 |] eqn:E1; [| easy]. destruct (calls_kind (default := default) l1 s s1 E1) as (K1 & _). rewrite <- K1 in NE. clear K1 E1.
  cbn [Front_Model.do_calls Front_Model.do_call]. set (s2 := set_parameter V atoi atof M C n t s1).
  assert (S : same_but n s2 s1). { unfold same_but, s2, set_parameter. cbn [s_kind s_prefix s_comm s_matrix s_method s_solved s_fields]. do 6 (split; [easy |]). intros m NM. unfold set_field. destruct (_ || _); [| easy]. now destruct (String.eqb_spec m n). }
  pose proof (calls_same (default := default) (same_comm := same_comm) (zero := zero) (kernel := kernel) (atoi := atoi) (atof := atof) n l2 s2 s1 NE S) as H.
  destruct (do_calls s2 l2) as [a |] eqn:EA, (do_calls s1 l2) as [b |]; try easy.
  destruct (calls_kind (default := default) l2 s2 a EA) as (KA & _). assert (NA : ~ In n (effective (s_kind V M C a))) by now rewrite KA.
  pose proof (solve_same (same_comm := same_comm) (zero := zero) (kernel := kernel) n a b rhs sol NA H) as G.
  destruct (solve rhs sol a) as [((a', c), y) | e |], (solve rhs sol b) as [((b', c'), y') | e' |]; tauto.
Qed.
End Props.

(** Not every parameter that a solver accepts reaches its method: these never do. *)
Theorem C165_accepted_refuted : forall k : kind,
  filter (fun n => negb (member n (map snd (passed k) ++ map snd passed_solve))) (special k) =
  match k with
  | ILU2 => ["gmres_substeps"; "reorder_nonzeros"]
  | DDPQILUC2 => ["gmres_substeps"]
  | MPTILUC | MLMPTILUC | MPTILU2 => ["gmres_substeps"; "reorder_nonzeros"; "fill_level"]
  end.
Proof. now intros []. Qed.

(** Every parameter of the method comes from the parameter of the user that stands for it, read
    as a number of the right kind. *)
Theorem C165_meaning : forall (V : Type) (atoi atof : string -> V) (k : kind) (p n : string), In (p, n) (passed k ++ passed_solve) ->
  exists r, assoc p meaning = Some (n, r) /\ forall t, convert V atoi atof n t = if r then atof t else atoi t.
Proof.
  intros V atoi atof k p n I.
  assert (T : forallb (fun q => match assoc (fst q) meaning with Some (m, r) => (m =? snd q)%string && eqb r (real_parameter (snd q)) | None => false end) (passed k ++ passed_solve) = true) by now destruct k.
  rewrite forallb_forall in T. specialize (T _ I). cbn [fst snd] in T. destruct (assoc p meaning) as [(m, r) |]; [| easy]. apply andb_true_iff in T as (T1 & T2).
  apply String.eqb_eq in T1. apply eqb_prop in T2. subst m r. exists (real_parameter n). easy.
Qed.

(** A concrete instance: values are texts, the method returns the parameters it was given. *)
Definition ex_kernel (_ : kind) (_ : nat) (m : method string) (_ x : vector unit string) : bool * vector unit string :=
  (true, Vector unit string tt (v_first unit string x) (map (fun p => fst p ++ "=" ++ snd p)%string m ++ v_data unit string x)).
Definition ex_db : list entry := [Entry "inner_ilu2" "main" "" [("drop_tolerance", "1e-3"); ("maximum_iterations", "7")]; Entry "inner_ilu2" "main" "" [("drop_tolerance", "1e-2")]].
Definition ex_create (name prefix : string) := create string (fun t => t) (fun t => t) (fun _ _ => "0") (fun _ => None) nat unit ex_db name prefix tt.
Definition ex_calls := do_calls string (fun t => t) (fun t => t) nat unit (fun _ _ => true) string "z" ex_kernel.
Definition ex_solve := solve string nat unit (fun _ _ => true) string "z" ex_kernel.
Definition ex_vec (l : list string) : vector unit string := Vector unit string tt 0 l.
Example C165_nonvacuous : exists s0 s s',
  ex_create "inner_ilu2" "Main" = Ok s0 /\
  ex_calls s0 [CSet _ _ _ _ "fill_level" "4"; CMatrix _ _ _ _ 5; CSet _ _ _ _ "fill_level" "6"; CSet _ _ _ _ "relative_tolerance" "1e-9"] = Some s /\
  get_parameter string (fun t => t) nat unit "relative_tolerance" s = "1e-9" /\ get_parameter string (fun t => t) nat unit "fill_level" s = "" /\
  ex_solve (ex_vec ["b"]) (ex_vec []) s = Ok (s', true, ex_vec ["divtol=0"; "atol=0"; "rtol=1e-9"; "maxits=0"; "verbosity=0"; ":verbosity=0"; ":fill=4"; ":scale_iters=0"; ":tau2=0"; ":tau=1e-2"; "overlap=0"; "z"]).
Proof. do 3 eexists. split; [reflexivity |]. split; [reflexivity |]. split; [reflexivity |]. split; reflexivity. Qed.

(** * C166: database of parameters and names of solvers *)
(** The last entry of the database for the solver and the prefix is the one used. *)
Theorem C166_last : forall (db : list entry) (solver prefix : string),
  match lookup db solver prefix with
  | Some e => e_solver e = solver /\ e_prefix e = prefix /\ exists a b, db = a ++ e :: b /\ Forall (fun e' => ~ (e_solver e' = solver /\ e_prefix e' = prefix)) b
  | None => Forall (fun e' => ~ (e_solver e' = solver /\ e_prefix e' = prefix)) db
  end.
Proof.
  intros db solver prefix. unfold lookup. set (f := fun e => _).
  assert (FF : forall e, f e = false -> ~ (e_solver e = solver /\ e_prefix e = prefix)).
  { intros e E (<- & <-). unfold f in E. now rewrite !String.eqb_refl in E. }
  induction db as [| e db IH] using rev_ind; cbn [rev find]; [constructor |]. rewrite rev_app_distr. cbn [rev app find].
  destruct (f e) eqn:E.
  - unfold f in E. apply andb_true_iff in E as (E1 & E2). apply String.eqb_eq in E1, E2. split; [easy |]. split; [easy |]. exists db, []. split; [easy | constructor].
  - destruct (find f (rev db)) as [e1 |].
    + destruct IH as (H1 & H2 & a & b & -> & H). split; [easy |]. split; [easy |]. exists a, (b ++ [e]). split; [now rewrite <- app_assoc |]. apply Forall_app. split; [easy |]. constructor; [now apply FF | constructor].
    + apply Forall_app. split; [easy |]. constructor; [now apply FF | constructor].
Qed.
(** Contents of the database. *)
Theorem C166_parse : forall (attributes : list (string * string)) (children : list xml) (e : entry),
  In e (parse (Tag "SolverParameters" attributes children)) <->
  exists n a c, In (Tag n a c) children /\ e_solver e = lower n /\
    (c = [] /\ e_prefix e = "" /\ e_file e = file_attribute a /\ e_values e = [] \/
     exists p pa pc, In (Tag p pa pc) c /\ e_prefix e = lower p /\ e_file e = file_attribute pa /\ e_values e = flat_map value_of pc).
Proof.
  intros attributes children e. cbn [parse]. change ("SolverParameters" =? "SolverParameters")%string with true. cbn iota. rewrite in_flat_map. split.
  - intros ([n a c] & I & J). exists n, a, c. split; [easy |]. destruct c as [| x c]; cbn [parse_solver] in J.
    + destruct J as [<- | []]. split; [easy |]. now left.
    + apply in_map_iff in J as ([p pa pc] & <- & J). cbn [parse_prefix e_solver]. split; [easy |]. right. now exists p, pa, pc.
  - intros (n & a & c & I & ES & D). exists (Tag n a c). split; [easy |]. destruct e as [es ep ef ev]. cbn [e_solver e_prefix e_file e_values] in *. subst es. destruct D as [(-> & -> & -> & ->) | (p & pa & pc & J & -> & -> & ->)].
    + now left.
    + destruct c as [| x c]; [easy |]. cbn [parse_solver]. apply in_map_iff. now exists (Tag p pa pc).
Qed.
(** A value counts only if "value" or "Value" is its single attribute. *)
Theorem C166_values : forall (children : list xml) (n v : string),
  In (n, v) (flat_map value_of children) <-> exists c, In (Tag n [("value", v)] c) children \/ In (Tag n [("Value", v)] c) children.
Proof.
  intros children n v. rewrite in_flat_map. split.
  - intros ([m a c] & I & J). destruct a as [| (an, av) [| x a]]; try easy. cbn [value_of] in J. destruct (member an ["value"; "Value"]) eqn:E; [| easy].
    destruct J as [J | []]. injection J as -> ->. exists c. apply member_iff in E. destruct E as [<- | [<- | []]]; auto.
  - intros (c & [I | I]); eexists; (split; [exact I |]); now left.
Qed.

Section Names.
Variable V : Type.
Variable atoi atof : string -> V.
Variable default : kind -> string -> V.
Variable files : string -> option (list (string * string)).
Variable M C : Type.
Notation create := (create V atoi atof default files M C).

(** Names reported as available are those with which solvers can be created, and no parameters
    of the database or prefix can make it fail. *)
Theorem C166_available : forall (db : list entry) (name prefix : string) (comm : C),
  (In name available -> exists s, create db name prefix comm = Ok s) /\ (~ In name available -> create db name prefix comm = Throw SolverNotFound).
Proof.
  intros db name prefix comm. unfold Front_Model.create, get_solver, available. cbn [In].
  repeat (match goal with |- context [(name =? ?a)%string] => destruct (String.eqb_spec name a) as [-> | ?] end; [split; [intros _; eexists; reflexivity | tauto] |]).
  split; [| easy]. intros. exfalso. intuition congruence.
Qed.
(** The case of letters of the prefix does not matter. *)
Theorem C166_prefix : forall (db : list entry) (name p q : string) (comm : C), lower p = lower q -> create db name p comm = create db name q comm.
Proof. intros db name p q comm H. unfold Front_Model.create. now rewrite H. Qed.
(** That of the name of the solver does, though the database accepts it in any case. *)
Theorem C166_case_refuted : forall (db : list entry) (prefix : string) (comm : C),
  lower "INNER_ILU2" = lower "inner_ilu2" /\ create db "INNER_ILU2" prefix comm = Throw SolverNotFound /\ create db "inner_ilu2" prefix comm <> Throw SolverNotFound.
Proof. easy. Qed.
(** A solver tells the name with which it was created, except for one. *)
Theorem C166_name : forall (db : list entry) (name prefix : string) (comm : C) (s : solver V M C),
  create db name prefix comm = Ok s -> name <> "inner_mlmptiluc" -> solver_name (s_kind V M C s) = name.
Proof.
  intros db name prefix comm s H N. unfold Front_Model.create in H. destruct (get_solver name) as [k |] eqn:G; [| easy]. injection H as <-. cbn [s_kind]. unfold get_solver in G.
  repeat (match type of G with context [(name =? ?a)%string] => destruct (String.eqb_spec name a) as [-> | ?] end; [injection G as <-; easy |]). easy.
Qed.
Theorem C166_name_refuted : forall (db : list entry) (prefix : string) (comm : C), exists s,
  create db "inner_mlmptiluc" prefix comm = Ok s /\ solver_name (s_kind V M C s) = "inner_mptiluc".
Proof. intros. eexists. split; reflexivity. Qed.
(** A file named in the entry replaces its values. *)
Theorem C166_file : forall (e : entry),
  (e_file e = "" -> setup_values files e = e_values e) /\ (e_file e <> "" -> setup_values files e = match files (e_file e) with Some l => l | None => [] end).
Proof. intros e. unfold setup_values. destruct (String.eqb_spec (e_file e) ""); split; intros; try easy; now destruct (files (e_file e)). Qed.
End Names.
Example C166_nonvacuous :
  let db := parse (Tag "SolverParameters" [] [Tag "Inner_ILU2" [] [Tag "Main" [] [Tag "drop_tolerance" [("value", "1e-3")] []; Tag "fill_level" [("value", "2"); ("note", "x")] []]; Tag "aux" [("File", "p.txt")] []]; Tag "inner_mptiluc" [] []]) in
  db = [Entry "inner_ilu2" "main" "" [("drop_tolerance", "1e-3")]; Entry "inner_ilu2" "aux" "p.txt" []; Entry "inner_mptiluc" "" "" []] /\
  lookup db (lower "inner_ilu2") (lower "MAIN") = Some (Entry "inner_ilu2" "main" "" [("drop_tolerance", "1e-3")]) /\ lookup db "inner_ilu2" "" = None.
Proof. split; [reflexivity |]. split; reflexivity. Qed.

(** * C167: life cycle *)
Section Life.
Variable V : Type.
Variable atoi atof : string -> V.
Variable default : kind -> string -> V.
Variable files : string -> option (list (string * string)).
Variable M C : Type.
Variable same_comm : C -> C -> bool.
Variable W : Type.
Variable zero : W.
Variable kernel : kind -> M -> method V -> vector C W -> vector C W -> bool * vector C W.
Notation solver := (solver V M C).
Notation call := (call V M C W).
Notation create := (create V atoi atof default files M C).
Notation do_calls := (do_calls V atoi atof M C same_comm W zero kernel).
Notation solve := (solve V M C same_comm W zero kernel).
Notation Vector := (Vector C W).

(** Which exception a solution ends with, after any calls: it never crashes. *)
Theorem C167_solve : forall (db : list entry) (name prefix : string) (comm : C) (s0 s : solver) (l : list call) (rhs sol : vector C W),
  create db name prefix comm = Ok s0 -> do_calls s0 l = Some s ->
  match solve rhs sol s with
  | Crash => False
  | Throw e =>
    e = MatrixNotSet /\ current l None = None \/
    e = DifferentCommunicator /\ current l None <> None /\ (same_comm (v_comm C W rhs) (s_comm V M C s) = false \/ same_comm (v_comm C W sol) (s_comm V M C s) = false) \/
    e = InconsistentSizes /\ current l None <> None /\ length (v_data C W rhs) <> length (v_data C W sol) /\ v_data C W sol <> []
  | Ok _ => current l None <> None
  end.
Proof.
  intros db name prefix comm s0 s l rhs sol H D.
  assert (s_matrix V M C s0 = None /\ s_method V M C s0 <> None) as (M0 & N0). { unfold Front_Model.create in H. destruct (get_solver name); [| easy]. injection H as <-. easy. }
  destruct (calls_matrix l s0 s D) as (MA & MM). rewrite M0 in MA.
  assert (I : s_method V M C s = None -> s_matrix V M C s = None).
  { assert (G : forall l s s', do_calls s l = Some s' -> (s_method V M C s = None -> s_matrix V M C s = None) -> (s_method V M C s' = None -> s_matrix V M C s' = None)).
    { clear. induction l as [| c l IH]; intros s s' D I; cbn [Front_Model.do_calls] in D; [now injection D as <- |]. destruct (Front_Model.do_call _ _ _ _ _ _ _ _ _ s c) as [s1 |] eqn:E; [| easy]. apply (IH s1 s' D). exact (call_inv s c s1 I E). }
    apply (G l s0 s D). easy. }
  unfold Front_Model.solve. rewrite MA in *. destruct (current l None) as [A |]; [| now left].
  destruct (same_comm (v_comm C W rhs) (s_comm V M C s)) eqn:C1, (same_comm (v_comm C W sol) (s_comm V M C s)) eqn:C2; cbn [negb orb]; try (right; left; split; [easy |]; split; [easy |]; auto; fail).
  destruct (s_method V M C s) as [m |]; [| now specialize (I eq_refl)]. cbv zeta.
  destruct (Nat.eqb_spec (length (v_data C W rhs)) (length (v_data C W sol))) as [E | E].
  - now destruct (kernel _ _ _ _ _).
  - destruct (v_data C W sol); [now destruct (kernel _ _ _ _ _) |]. right. right. easy.
Qed.
(** A sequence of calls ends in a crash exactly if a matrix is given after the object was cleared. *)
Theorem C167_crash : forall (db : list entry) (name prefix : string) (comm : C) (s0 : solver) (l : list call),
  create db name prefix comm = Ok s0 ->
  (do_calls s0 l = None <-> exists a b c A, l = a ++ CClear _ _ _ _ :: b ++ CMatrix _ _ _ _ A :: c).
Proof.
  intros db name prefix comm s0 l H.
  assert (s_matrix V M C s0 = None /\ s_method V M C s0 = Some []) as (M0 & N0). { unfold Front_Model.create in H. destruct (get_solver name); [| easy]. injection H as <-. easy. }
  rewrite (calls_crash l s0) by now rewrite M0. rewrite N0. clear.
  assert (T : forall l, misuse (V := V) (M := M) (C := C) (W := W) true l = true <-> exists b c A, l = b ++ CMatrix _ _ _ _ A :: c).
  { clear l. induction l as [| x l IH]; cbn [misuse]; [split; [easy | intros ([| q1 q2] & c & A & E); easy] |]. rewrite andb_true_r, orb_true_l. split.
    - intros E. apply orb_true_iff in E as [E | E]; [destruct x as [| A | | |]; try easy; now exists [], l, A |]. apply IH in E as (b & c & A & ->). now exists (x :: b), c, A.
    - intros ([| y b] & c & A & E); injection E as -> ->; [easy |]. apply orb_true_iff. right. apply IH. now exists b, c, A. }
  induction l as [| x l IH]; cbn [misuse]; [split; [easy | intros ([| q1 q2] & b & c & A & E); easy] |]. rewrite andb_false_r. cbn [orb]. split.
  - intros E. destruct (is_clear x) eqn:X.
    + destruct x; try easy. apply T in E as (b & c & A & ->). now exists [], b, c, A.
    + apply IH in E as (a & b & c & A & ->). now exists (x :: a), b, c, A.
  - intros ([| y a] & b & c & A & E); injection E as -> ->.
    + cbn [is_clear]. apply T. now exists b, c, A.
    + destruct (is_clear y); [apply T; exists (a ++ CClear _ _ _ _ :: b), c, A; now rewrite <- app_assoc | apply IH; now exists a, b, c, A].
Qed.
(** A cleared object cannot be used again: whatever follows, giving it a matrix crashes. *)
Theorem C167_clear_refuted : forall (s : solver) (A : M), set_matrix V M C A (clear V M C s) = Crash /\ iterations_known V M C (clear V M C s) = Crash.
Proof. easy. Qed.
(** Vectors of the same number of entries over different index ranges are not told apart. *)
Theorem C167_interval_refuted : forall (db : list entry) (prefix : string) (comm : C) (A : M) (f g : nat) (x y : list W), same_comm comm comm = true -> length x = length y ->
  exists s0 s s' b z, create db "inner_ilu2" prefix comm = Ok s0 /\ do_calls s0 [CMatrix _ _ _ _ A] = Some s /\ solve (Vector comm f x) (Vector comm g y) s = Ok (s', b, z).
Proof.
  intros db prefix comm A f g x y SC E. do 2 eexists.
  enough (G : exists s' b z, solve (Vector comm f x) (Vector comm g y) (Front_Model.Solver V M C ILU2 (lower prefix) comm (set_all V atoi atof ILU2 (match lookup db (lower "inner_ilu2") (lower prefix) with Some e => setup_values files e | None => [] end) (default ILU2)) (Some A)
    (Some (pass V (passed ILU2) (set_all V atoi atof ILU2 (match lookup db (lower "inner_ilu2") (lower prefix) with Some e => setup_values files e | None => [] end) (default ILU2)) [])) false) = Ok (s', b, z)).
  { destruct G as (s' & b & z & G). exists s', b, z. split; [reflexivity |]. split; [reflexivity |]. exact G. }
  unfold Front_Model.solve. cbn [s_matrix s_method s_comm v_comm v_data s_kind]. rewrite SC, E, Nat.eqb_refl. cbn [negb orb]. cbv zeta. destruct (kernel _ _ _ _ _) as (b, z). now exists (Front_Model.Solver V M C ILU2 (lower prefix) comm (set_all V atoi atof ILU2 (match lookup db (lower "inner_ilu2") (lower prefix) with Some e => setup_values files e | None => [] end) (default ILU2)) (Some A) (Some (pass V passed_solve (set_all V atoi atof ILU2 (match lookup db (lower "inner_ilu2") (lower prefix) with Some e => setup_values files e | None => [] end) (default ILU2)) (pass V (passed ILU2) (set_all V atoi atof ILU2 (match lookup db (lower "inner_ilu2") (lower prefix) with Some e => setup_values files e | None => [] end) (default ILU2)) []))) b), b, z.
Qed.

(** * C168: copies *)
(** A solver is never copied: both ways end with an exception. *)
Theorem C168_copy : forall (s o : solver), copy V M C s = Throw Unsupported /\ snd (assign V M C false o s) = Throw Unsupported /\ assign V M C true s s = (s, Ok tt).
Proof. intros s o. split; [unfold copy; now destruct (s_kind V M C s) |]. easy. Qed.
(** The failed assignment keeps parameters, matrix and method of the target, *)
Theorem C168_kept : forall (s o : solver), let s' := fst (assign V M C false o s) in
  s_kind V M C s' = s_kind V M C s /\ s_fields V M C s' = s_fields V M C s /\ s_matrix V M C s' = s_matrix V M C s /\ s_method V M C s' = s_method V M C s /\ s_comm V M C s' = s_comm V M C o.
Proof. easy. Qed.
(** but not its communicator: a system that could be solved before cannot be solved after. *)
Theorem C168_assign_refuted : forall (s o : solver) (rhs sol : vector C W) r,
  solve rhs sol s = Ok r -> same_comm (v_comm C W rhs) (s_comm V M C o) = false -> solve rhs sol (fst (assign V M C false o s)) = Throw DifferentCommunicator.
Proof.
  intros s o rhs sol r H E. unfold Front_Model.solve in *. cbn [assign fst s_matrix s_comm]. destruct (s_matrix V M C s); [| easy]. now rewrite E.
Qed.
(** Without assignments the communicator is the one given at creation. *)
Theorem C168_communicator : forall (db : list entry) (name prefix : string) (comm : C) (s0 s : solver) (l : list call),
  create db name prefix comm = Ok s0 -> do_calls s0 l = Some s -> Forall (fun c => match c with CAssign _ _ _ _ _ => False | _ => True end) l -> s_comm V M C s = comm.
Proof.
  intros db name prefix comm s0 s l H D F. assert (s_comm V M C s0 = comm) as <-. { unfold Front_Model.create in H. destruct (get_solver name); [| easy]. injection H as <-. easy. }
  clear H. revert s0 D. induction F as [| c l X F IH]; intros s0 D; cbn [Front_Model.do_calls] in D; [now injection D as <- |].
  destruct (Front_Model.do_call _ _ _ _ _ _ _ _ _ s0 c) as [s1 |] eqn:E; [| easy]. rewrite (IH s1 D). clear IH D. destruct c as [n t | A | rhs sol | | o]; cbn [Front_Model.do_call] in E; try easy.
  - now injection E as <-.
  - unfold set_matrix in E. destruct (s_method V M C s0); [| easy]. now injection E as <-.
  - pose proof (solve_cases (same_comm := same_comm) (zero := zero) (kernel := kernel) rhs sol s0) as G. destruct (solve rhs sol s0) as [((s2, b), y) | e |]; [| | easy]; injection E as <-; [| easy]. destruct G as (m & A & x & _ & _ & -> & _). easy.
  - now injection E as <-.
Qed.
End Life.
Example C167_nonvacuous : exists s0, ex_create "inner_mptiluc" "" = Ok s0 /\
  ex_solve (ex_vec []) (ex_vec []) s0 = Throw MatrixNotSet /\
  (exists s, ex_calls s0 [CMatrix _ _ _ _ 1; CSolve _ _ _ _ (ex_vec ["a"]) (ex_vec []); CClear _ _ _ _; CSet _ _ _ _ "drop_tolerance" "1"] = Some s /\ ex_solve (ex_vec ["a"]) (ex_vec ["b"; "c"]) s = Throw MatrixNotSet) /\
  (exists s, ex_calls s0 [CMatrix _ _ _ _ 1] = Some s /\ ex_solve (ex_vec ["a"]) (ex_vec ["b"; "c"]) s = Throw InconsistentSizes) /\
  ex_calls s0 [CMatrix _ _ _ _ 1; CClear _ _ _ _; CMatrix _ _ _ _ 1] = None.
Proof. eexists. split; [reflexivity |]. split; [reflexivity |]. split; [eexists; split; reflexivity |]. split; [eexists; split; reflexivity | reflexivity]. Qed.
Example C168_nonvacuous :
  let cr c := create nat (fun _ => 0) (fun _ => 0) (fun _ _ => 0) (fun _ => None) nat nat [] "inner_ilu2" "" c in
  let sv := solve nat nat nat Nat.eqb nat 0 (fun _ _ _ _ x => (true, x)) in
  exists s o s1 r, cr 1 = Ok s /\ cr 2 = Ok o /\ set_matrix nat nat nat 9 s = Ok s1 /\
  sv (Vector nat nat 1 0 [3]) (Vector nat nat 1 0 []) s1 = Ok r /\ snd r = Vector nat nat 1 0 [0] /\ sv (Vector nat nat 1 0 [3]) (Vector nat nat 1 0 []) (fst (assign nat nat nat false o s1)) = Throw DifferentCommunicator.
Proof. do 4 eexists. split; [reflexivity |]. split; [reflexivity |]. split; [reflexivity |]. split; [reflexivity |]. split; reflexivity. Qed.

Print Assumptions C165_get.
Print Assumptions C165_get_refuted.
Print Assumptions C165_solve.
Print Assumptions C165_ignored.
Print Assumptions C165_accepted_refuted.
Print Assumptions C165_meaning.
Print Assumptions C166_last.
Print Assumptions C166_parse.
Print Assumptions C166_values.
Print Assumptions C166_available.
Print Assumptions C166_prefix.
Print Assumptions C166_case_refuted.
Print Assumptions C166_name.
Print Assumptions C166_name_refuted.
Print Assumptions C166_file.
Print Assumptions C167_solve.
Print Assumptions C167_crash.
Print Assumptions C167_clear_refuted.
Print Assumptions C167_interval_refuted.
Print Assumptions C168_copy.
Print Assumptions C168_kept.
Print Assumptions C168_assign_refuted.
Print Assumptions C168_communicator.
