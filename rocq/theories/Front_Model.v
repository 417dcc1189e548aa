(** Model of the class Solver (Source/Solver/solver.cpp 16-327), of SolverMaster
    (Source/Solver/SolverMaster.cpp 51-143) and of the inner solvers
    (Source/Solver/solver_inner/SolverInner.cpp 6-95, solver_ilu2/SolverILU2.cpp,
    solver_ddpqiluc2/SolverDDPQILUC2.cpp, solver_mptiluc/SolverMPTILUC.cpp,
    solver_mlmptiluc/SolverMLMPTILUC.cpp, solver_mptilu2/SolverMPTILU2.cpp).

    Values of parameters are of any type; conversion of texts to values and back (atoi, atof,
    to_string) and the default values are parameters of the model, as is the iterative method
    itself.  Left out: external packages, timers, verbosity level, metadata line, MPI
    initialization, reading of XML text and of parameter files (a file is the list of its
    lines with two words).  KSOLVER is BCGS_solver, so gmres_substeps is never passed on.
    [Crash] is the dereference of a null pointer. *)
From Coq Require Import Ascii String List Bool NArith.
Import ListNotations.
Local Open Scope string_scope.
Local Open Scope list_scope.

Inductive kind := ILU2 | DDPQILUC2 | MPTILUC | MLMPTILUC | MPTILU2.
Definition member (n : string) (l : list string) : bool := existsb (String.eqb n) l.

(** SolverMaster::getSolver, SolverMaster.cpp 67-96; None is the exception SolverNotFound *)
Definition get_solver (n : string) : option kind :=
  if (n =? "inner_ilu2")%string then Some ILU2
  else if (n =? "inner_ddpqiluc2")%string then Some DDPQILUC2
  else if (n =? "inner_mptiluc")%string then Some MPTILUC
  else if (n =? "inner_mlmptiluc")%string then Some MLMPTILUC
  else if (n =? "inner_mptilu2")%string then Some MPTILU2
  else None.
(** SolverName of the five classes; SolverMLMPTILUC.cpp 77-80 *)
Definition solver_name (k : kind) : string :=
  match k with
  | ILU2 => "inner_ilu2"
  | DDPQILUC2 => "inner_ddpqiluc2"
  | MPTILUC => "inner_mptiluc"
  | MLMPTILUC => "inner_mptiluc"
  | MPTILU2 => "inner_mptilu2"
  end.
(** getAvailableSolvers, SolverMaster.cpp 98-128 *)
Definition available : list string := ["inner_ilu2"; "inner_ddpqiluc2"; "inner_mptiluc"; "inner_mlmptiluc"; "inner_mptilu2"].

(** SolverInner::SetParameter, SolverInner.cpp 75-84 *)
Definition general : list string := ["maximum_iterations"; "absolute_tolerance"; "relative_tolerance"; "divergence_tolerance"].
(** SetParameter: SolverILU2.cpp 52-63, SolverDDPQILUC2.cpp 54-66, SolverMPTILUC.cpp 53-65,
    SolverMLMPTILUC.cpp 60-75, SolverMPTILU2.cpp 51-65 *)
Definition special (k : kind) : list string :=
  match k with
  | ILU2 => ["rescale_iterations"; "schwartz_overlap"; "gmres_substeps"; "reorder_nonzeros"; "fill_level"; "drop_tolerance"; "reuse_tolerance"; "verbosity"]
  | DDPQILUC2 => ["rescale_iterations"; "condition_estimation"; "adapt_ddpq_tolerance"; "schwartz_overlap"; "gmres_substeps"; "reorder_nonzeros"; "drop_tolerance"; "reuse_tolerance"; "ddpq_tolerance"]
  | MPTILUC => ["rescale_iterations"; "condition_estimation"; "schwartz_overlap"; "gmres_substeps"; "reorder_nonzeros"; "fill_level"; "drop_tolerance"; "reuse_tolerance"; "verbosity"]
  | MLMPTILUC => ["rescale_iterations"; "condition_estimation"; "schwartz_overlap"; "gmres_substeps"; "reorder_nonzeros"; "fill_level"; "drop_tolerance"; "reuse_tolerance"; "pivot_condition"; "pivot_diag"; "verbosity"]
  | MPTILU2 => ["rescale_iterations"; "schwartz_overlap"; "gmres_substeps"; "reorder_nonzeros"; "absolute_tolerance"; "relative_tolerance"; "divergence_tolerance"; "drop_tolerance"; "reuse_tolerance"; "fill_level"; "verbosity"]
  end.
(** parameters read by atof, all others by atoi *)
Definition real_parameter (n : string) : bool :=
  member n ["absolute_tolerance"; "relative_tolerance"; "divergence_tolerance"; "drop_tolerance"; "reuse_tolerance"; "ddpq_tolerance"; "pivot_condition"; "pivot_diag"].
(** SetMatrix: what is passed to the method, by the name of the method's parameter; "overlap"
    is the argument of PrepareMatrix. SolverILU2.cpp 25-50, SolverDDPQILUC2.cpp 26-52,
    SolverMPTILUC.cpp 26-51, SolverMLMPTILUC.cpp 33-58, SolverMPTILU2.cpp 25-49 *)
Definition passed (k : kind) : list (string * string) :=
  ("overlap", "schwartz_overlap") :: (":tau", "drop_tolerance") :: (":tau2", "reuse_tolerance") :: (":scale_iters", "rescale_iterations") ::
  match k with
  | ILU2 => [(":fill", "fill_level"); (":verbosity", "verbosity"); ("verbosity", "verbosity")]
  | DDPQILUC2 => [(":ddpq_tau", "ddpq_tolerance"); (":reorder_nnz", "reorder_nonzeros"); (":estimator", "condition_estimation"); (":ddpq_tau_adapt", "adapt_ddpq_tolerance")]
  | MPTILUC => [(":estimator", "condition_estimation"); (":verbosity", "verbosity"); ("verbosity", "verbosity")]
  | MLMPTILUC => [(":estimator", "condition_estimation"); (":verbosity", "verbosity"); ("verbosity", "verbosity"); (":pivot_cond", "pivot_condition"); (":pivot_diag", "pivot_diag")]
  | MPTILU2 => [(":verbosity", "verbosity"); ("verbosity", "verbosity")]
  end.
(** SolverInner::Solve, SolverInner.cpp 36-43 *)
Definition passed_solve : list (string * string) :=
  [("maxits", "maximum_iterations"); ("rtol", "relative_tolerance"); ("atol", "absolute_tolerance"); ("divtol", "divergence_tolerance")].

(** * The database of parameters *)
Record entry := Entry { e_solver : string; e_prefix : string; e_file : string; e_values : list (string * string) }.
(** string_to_lower, Source/Misc/utils.cpp 31-36 *)
Definition lower_char (c : ascii) : ascii :=
  let n := N_of_ascii c in if (65 <=? n)%N && (n <=? 90)%N then ascii_of_N (n + 32) else c.
Fixpoint lower (s : string) : string :=
  match s with EmptyString => EmptyString | String c r => String (lower_char c) (lower r) end.
Inductive xml := Tag (name : string) (attributes : list (string * string)) (children : list xml).
(** 277-283 and 294-300: the last attribute with the name of a file *)
Definition file_attribute (a : list (string * string)) : string :=
  fold_left (fun r p => if member (fst p) ["File"; "file"; "FILE"] then snd p else r) a "".
(** 304-311 *)
Definition value_of (x : xml) : list (string * string) :=
  match x with
  | Tag n [(a, v)] _ => if member a ["value"; "Value"] then [(n, v)] else []
  | _ => []
  end.
(** 290-313 *)
Definition parse_prefix (solver : string) (x : xml) : entry :=
  match x with Tag n a c => Entry solver (lower n) (file_attribute a) (flat_map value_of c) end.
(** 273-318 *)
Definition parse_solver (x : xml) : list entry :=
  match x with
  | Tag n a [] => [Entry (lower n) "" (file_attribute a) []]
  | Tag n a c => map (parse_prefix (lower n)) c
  end.
(** parseXMLDatabase, 252-327 *)
Definition parse (x : xml) : list entry :=
  match x with Tag n _ c => if (n =? "SolverParameters")%string then flat_map parse_solver c else [] end.
(** 27-36: from the end of the database *)
Definition lookup (db : list entry) (solver prefix : string) : option entry :=
  find (fun e => (e_solver e =? solver)%string && (e_prefix e =? prefix)%string) (rev db).

Section Solver.
Variable V : Type.                        (** values of parameters *)
Variable atoi : string -> V.
Variable atof : string -> V.
Variable show : V -> string.              (** to_string *)
Variable default : kind -> string -> V.   (** values set by the constructors *)
Variable files : string -> option (list (string * string)).
Variable M : Type.                        (** matrices *)
Variable C : Type.                        (** communicators *)
Variable same_comm : C -> C -> bool.
Variable W : Type.                        (** entries of vectors *)
Variable zero : W.

Record vector := Vector { v_comm : C; v_first : nat; v_data : list W }.
(** values given to the method, the others are its own defaults *)
Definition method : Type := list (string * V).
Variable kernel : kind -> M -> method -> vector -> vector -> bool * vector.

Record solver := Solver {
  s_kind : kind;
  s_prefix : string;
  s_comm : C;
  s_fields : string -> V;
  s_matrix : option M;
  s_method : option method;    (** None: the pointer is null *)
  s_solved : bool
}.
Inductive exception := SolverNotFound | MatrixNotSet | DifferentCommunicator | InconsistentSizes | Unsupported.
Inductive outcome (A : Type) := Ok (a : A) | Throw (e : exception) | Crash.
Arguments Ok {A}. Arguments Throw {A}. Arguments Crash {A}.

Definition convert (n t : string) : V := if real_parameter n then atof t else atoi t.
Definition set_field (k : kind) (n t : string) (f : string -> V) : string -> V :=
  if member n (special k) || member n general then fun m => if (m =? n)%string then convert n t else f m else f.
Definition set_all (k : kind) (l : list (string * string)) (f : string -> V) : string -> V := fold_left (fun g p => set_field k (fst p) (snd p) g) l f.
(** SolverInner::Setup, SolverInner.cpp 25-34; SetInnerParametersFromFile, SolverParameters.cpp 20-32 *)
Definition setup_values (e : entry) : list (string * string) :=
  if (e_file e =? "")%string then e_values e else match files (e_file e) with None => [] | Some l => l end.
(** the constructor, 20-42 *)
Definition create (db : list entry) (name prefix : string) (comm : C) : outcome solver :=
  match get_solver name with
  | None => Throw SolverNotFound
  | Some k =>
    let p := lower prefix in
    let l := match lookup db (lower name) p with Some e => setup_values e | None => [] end in
    Ok (Solver k p comm (set_all k l (default k)) None (Some []) false)
  end.
(** 195-197 *)
Definition set_parameter (n t : string) (s : solver) : solver :=
  Solver (s_kind s) (s_prefix s) (s_comm s) (set_field (s_kind s) n t (s_fields s)) (s_matrix s) (s_method s) (s_solved s).
(** 191-193; SolverInner::GetParameter, SolverInner.cpp 62-73 *)
Definition get_parameter (n : string) (s : solver) : string := if member n general then show (s_fields s n) else "".
Definition pass (l : list (string * string)) (f : string -> V) (m : method) : method :=
  fold_left (fun m p => (fst p, f (snd p)) :: filter (fun q => negb (fst q =? fst p)%string) m) l m.
(** 147-152 and SetMatrix of the inner solvers *)
Definition set_matrix (A : M) (s : solver) : outcome solver :=
  match s_method s with
  | None => Crash
  | Some m => Ok (Solver (s_kind s) (s_prefix s) (s_comm s) (s_fields s) (Some A) (Some (pass (passed (s_kind s)) (s_fields s) m)) (s_solved s))
  end.
(** 154-185 *)
Definition solve (rhs sol : vector) (s : solver) : outcome (solver * bool * vector) :=
  match s_matrix s with
  | None => Throw MatrixNotSet
  | Some A =>
    if negb (same_comm (v_comm rhs) (s_comm s)) || negb (same_comm (v_comm sol) (s_comm s)) then Throw DifferentCommunicator
    else
      let go x := match s_method s with
        | None => Crash
        | Some m =>
          let m' := pass passed_solve (s_fields s) m in
          let (b, y) := kernel (s_kind s) A m' rhs x in
          Ok (Solver (s_kind s) (s_prefix s) (s_comm s) (s_fields s) (s_matrix s) (Some m') b, b, y)
        end in
      if Nat.eqb (length (v_data rhs)) (length (v_data sol)) then go sol
      else match v_data sol with
        | [] => go (Vector (v_comm sol) (v_first rhs) (repeat zero (length (v_data rhs))))
        | _ => Throw InconsistentSizes
        end
  end.
(** 187-189; SolverInner::Clear, SolverInner.cpp 45-56 *)
Definition clear (s : solver) : solver := Solver (s_kind s) (s_prefix s) (s_comm s) (s_fields s) None None (s_solved s).
(** 199-209: asks the method *)
Definition iterations_known (s : solver) : outcome unit := match s_method s with None => Crash | Some _ => Ok tt end.
(** the copy constructor, 44-65; SolverInner::Copy, SolverInner.cpp 13-17 *)
Definition copy (s : solver) : outcome solver :=
  match get_solver (solver_name (s_kind s)) with None => Throw SolverNotFound | Some _ => Throw Unsupported end.
(** operator =, 67-79; SolverInner::Assign, SolverInner.cpp 19-23: the object afterwards and the outcome *)
Definition assign (same : bool) (other s : solver) : solver * outcome unit :=
  if same then (s, Ok tt)
  else (Solver (s_kind s) (s_prefix s) (s_comm other) (s_fields s) (s_matrix s) (s_method s) (s_solved s), Throw Unsupported).

(** Calls of a user; exceptions are caught, None is a crash. *)
Inductive call := CSet (n t : string) | CMatrix (A : M) | CSolve (rhs sol : vector) | CClear | CAssign (other : solver).
Definition do_call (s : solver) (c : call) : option solver :=
  match c with
  | CSet n t => Some (set_parameter n t s)
  | CMatrix A => match set_matrix A s with Ok s' => Some s' | Throw _ => Some s | Crash => None end
  | CSolve rhs sol => match solve rhs sol s with Ok (s', _, _) => Some s' | Throw _ => Some s | Crash => None end
  | CClear => Some (clear s)
  | CAssign other => Some (fst (assign false other s))
  end.
Fixpoint do_calls (s : solver) (l : list call) : option solver :=
  match l with
  | [] => Some s
  | c :: r => match do_call s c with None => None | Some s' => do_calls s' r end
  end.
End Solver.
Arguments Ok {A}. Arguments Throw {A}. Arguments Crash {A}.
