(** Model of the class Model (Source/Autodiff/model.cpp 1-735, Source/Headers/inmost_model.h):
    the registry of entries, meshes, submodels, coupling terms, functions and operators,
    and the phases of a computation.  Numbers stand for names and for the addresses of
    registered objects; address 0 is NULL.  What the objects do is given by functions over
    an arbitrary state.  [None] is a failed assertion or the use of an iterator that
    points to no element.  [checked] tells whether assertions are compiled.  Left out:
    timers, ReportErrors, the reduction over processes, and objects that add to the model
    while one of its phases runs. *)
From Coq Require Import List Bool Arith.
Import ListNotations.

Definition named := list (nat * nat).
Record model := Model {
  submodels : named; entries : named; meshes : named; scalars : named; matrices : named; operators : named;
  couplings : list (nat * named);    (* std::map by the address of the submodel *)
  active_entries : list (nat * bool); active_submodels : list (nat * bool);
  registered : list nat;             (* entries in the automatizator, in the order of RegisterEntry *)
  initialized : bool }.
(** inmost_model.h 181, constructor *)
Definition new_model : model := Model [] [] [] [] [] [] [] [] [] [] false.

(** model.cpp 80-97, 107-124, 134-151, 208-225, 237-254, 268-285: the first with the name *)
Fixpoint get (l : named) (n : nat) : option nat :=
  match l with [] => None | (k, a) :: r => if k =? n then Some a else get r n end.
Definition present (l : named) (n : nat) : bool := match get l n with Some _ => true | None => false end.
Definition names (l : named) : list nat := map fst l.

(** the assertions in front of every Add *)
Definition may_add (checked : bool) (m : model) (l : named) (n : nat) : bool := negb (checked && (initialized m || present l n)).

Definition with_entries (m : model) (l : named) : model :=
  Model (submodels m) l (meshes m) (scalars m) (matrices m) (operators m) (couplings m) (active_entries m) (active_submodels m) (registered m) (initialized m).
Definition with_couplings (m : model) (l : list (nat * named)) : model :=
  Model (submodels m) (entries m) (meshes m) (scalars m) (matrices m) (operators m) l (active_entries m) (active_submodels m) (registered m) (initialized m).

(** model.cpp 7-12 AddEntry, 14-19 AddFirstEntry *)
Definition add_entry (checked : bool) (m : model) (n a : nat) : option model :=
  if may_add checked m (entries m) n then Some (with_entries m (entries m ++ [(n, a)])) else None.
Definition add_first_entry (checked : bool) (m : model) (n a : nat) : option model :=
  if may_add checked m (entries m) n then Some (with_entries m ((n, a) :: entries m)) else None.
(** model.cpp 21-33 AddAfterEntry *)
Fixpoint insert_after (l : named) (after : nat) (e : nat * nat) : named :=
  match l with
  | [] => [e]
  | (k, a) :: r => if k =? after then (k, a) :: e :: r else (k, a) :: insert_after r after e
  end.
Definition add_after_entry (checked : bool) (m : model) (n a after : nat) : option model :=
  if may_add checked m (entries m) n then Some (with_entries m (insert_after (entries m) after (n, a))) else None.
(** model.cpp 35-47, 59-78: AddMesh, AddSubModel, AddScalarFunction, AddMatrixFunction, AddOperator *)
Inductive kind := Mesh | SubModel | Scalar | Matrix | Operator.
Definition listed (k : kind) (m : model) : named :=
  match k with Mesh => meshes m | SubModel => submodels m | Scalar => scalars m | Matrix => matrices m | Operator => operators m end.
Definition with_list (k : kind) (m : model) (l : named) : model :=
  match k with
  | SubModel => Model l (entries m) (meshes m) (scalars m) (matrices m) (operators m) (couplings m) (active_entries m) (active_submodels m) (registered m) (initialized m)
  | Mesh => Model (submodels m) (entries m) l (scalars m) (matrices m) (operators m) (couplings m) (active_entries m) (active_submodels m) (registered m) (initialized m)
  | Scalar => Model (submodels m) (entries m) (meshes m) l (matrices m) (operators m) (couplings m) (active_entries m) (active_submodels m) (registered m) (initialized m)
  | Matrix => Model (submodels m) (entries m) (meshes m) (scalars m) l (operators m) (couplings m) (active_entries m) (active_submodels m) (registered m) (initialized m)
  | Operator => Model (submodels m) (entries m) (meshes m) (scalars m) (matrices m) l (couplings m) (active_entries m) (active_submodels m) (registered m) (initialized m)
  end.
Definition add (checked : bool) (k : kind) (m : model) (n a : nat) : option model :=
  if may_add checked m (listed k m) n then Some (with_list k m (listed k m ++ [(n, a)])) else None.

(** model.cpp 228-235 GetScalarFunctionNames, 257-264 GetMatrixFunctionNames; the others,
    98-105, 125-132, 163-170, 286-293, list the names of their own kind *)
Definition scalar_names (m : model) : list nat := names (matrices m).
Definition matrix_names (m : model) : list nat := names (matrices m).

(** the address of the submodel, NULL if there is none *)
Definition sub_address (m : model) (s : nat) : nat := match get (submodels m) s with Some a => a | None => 0 end.
Fixpoint find_key (l : list (nat * named)) (k : nat) : option named :=
  match l with [] => None | (j, v) :: r => if j =? k then Some v else find_key r k end.
(** model.cpp 172-192 GetCouplingTerm: the outer [None] is CouplingTerms.end()->second *)
Definition get_coupling (m : model) (s n : nat) : option (option nat) :=
  match find_key (couplings m) (sub_address m s) with None => None | Some ts => Some (get ts n) end.
(** CouplingTerms[subm].push_back *)
Fixpoint push_key (l : list (nat * named)) (k : nat) (e : nat * nat) : list (nat * named) :=
  match l with
  | [] => [(k, [e])]
  | (j, v) :: r => if k =? j then (j, v ++ [e]) :: r else if k <? j then (k, [e]) :: l else (j, v) :: push_key r k e
  end.
(** model.cpp 49-57 AddCouplingTerm *)
Definition add_coupling (checked : bool) (m : model) (s n a : nat) : option model :=
  let ok := if checked then
              if initialized m then None
              else match get_coupling m s n with None => None | Some (Some _) => None | Some None => Some tt end
            else Some tt in
  match ok with None => None | Some _ => Some (with_couplings m (push_key (couplings m) (sub_address m s) (n, a))) end.
(** model.cpp 152-161 GetSubModelName: the name, 0 for an unknown address *)
Fixpoint name_of (l : named) (a : nat) : nat := match l with [] => 0 | (k, b) :: r => if b =? a then k else name_of r a end.
Definition sub_name (m : model) (a : nat) : nat := if a =? 0 then 0 else name_of (submodels m) a.
(** model.cpp 194-206 GetCouplingTermNames *)
Definition coupling_names (m : model) : list (nat * list nat) := map (fun kv => (sub_name m (fst kv), names (snd kv))) (couplings m).

(** inmost_model.h 187-191: ActivateSubModel, DeactivateSubModel, ActivateEntry, DeactivateEntry (std::map from names) *)
Fixpoint put (l : list (nat * bool)) (n : nat) (b : bool) : list (nat * bool) :=
  match l with
  | [] => [(n, b)]
  | (k, c) :: r => if n =? k then (k, b) :: r else if n <? k then (n, b) :: l else (k, c) :: put r n b
  end.
Definition set_active (m : model) (n : nat) (b : bool) : model :=
  Model (submodels m) (entries m) (meshes m) (scalars m) (matrices m) (operators m) (couplings m) (active_entries m) (put (active_submodels m) n b) (registered m) (initialized m).
Definition set_entry (m : model) (n : nat) (b : bool) : model :=
  Model (submodels m) (entries m) (meshes m) (scalars m) (matrices m) (operators m) (couplings m) (put (active_entries m) n b) (active_submodels m) (registered m) (initialized m).
Fixpoint flag (l : list (nat * bool)) (n : nat) : option bool := match l with [] => None | (k, b) :: r => if k =? n then Some b else flag r n end.
(** model.cpp 379-384, 415-420, 497-502 *)
Definition skipped (m : model) (n : nat) : bool :=
  match active_submodels m with
  | [] => false
  | l => match flag l n with Some false => true | _ => false end
  end.

Section Phases.
  (** the state of everything, and what an object does in a phase *)
  Variable W : Type.
  Inductive phase := Prepare | Init | Iterations | Fill | Solution | Update | Step | Restore.
  Variable act : phase -> nat -> W -> W * bool.

  (** success &= it->second->F() *)
  Fixpoint run (p : phase) (l : list nat) (st : W * bool) : W * bool :=
    match l with
    | [] => st
    | a :: r => let (w, b) := act p a (fst st) in run p r (w, snd st && b)
    end.
  Definition addresses (l : named) : list nat := map snd l.
  (** the double loop over coupling terms, e.g. model.cpp 393-403 *)
  Definition run_couplings (p : phase) (m : model) (st : W * bool) : W * bool :=
    fold_left (fun st kv => run p (addresses (snd kv)) st) (couplings m) st.
  (** the loop over submodels with the test of activity *)
  Fixpoint run_active (p : phase) (m : model) (l : named) (st : W * bool) : W * bool :=
    match l with
    | [] => st
    | (n, a) :: r => if skipped m n then run_active p m r st else run_active p m r (run p [a] st)
    end.
  (** model.cpp 295-303 PrepareEntries *)
  Definition prepare_entries (m : model) (w : W) : W * bool := run Prepare (addresses (submodels m)) (w, true).
  (** model.cpp 305-340 Initialize *)
  Definition initialize (m : model) (w : W) : model * (W * bool) :=
    let st := run Init (addresses (submodels m)) (w, true) in
    let st := run Init (addresses (operators m)) st in
    let reg := registered m ++ addresses (entries m) in
    let st := run_couplings Init m st in
    let st := run Init (addresses (scalars m)) st in
    let st := run Init (addresses (matrices m)) st in
    (Model (submodels m) (entries m) (meshes m) (scalars m) (matrices m) (operators m) (couplings m) (active_entries m) (active_submodels m) reg (snd st), st).
  (** model.cpp 342-368 PrepareIterations *)
  Definition prepare_iterations (m : model) (w : W) : W * bool :=
    let st := run Iterations (addresses (submodels m)) (w, true) in
    let st := run Iterations (addresses (operators m)) st in
    let st := run_couplings Iterations m st in
    let st := run Iterations (addresses (scalars m)) st in
    run Iterations (addresses (matrices m)) st.
  (** model.cpp 370-407 FillResidual; [clear] is R.Clear() *)
  Definition fill_residual (clear : W -> W) (m : model) (w : W) : W * bool :=
    run_couplings Fill m (run_active Fill m (submodels m) (clear w, true)).
  (** model.cpp 409-424 UpdateSolution *)
  Definition update_solution (m : model) (w : W) : W * bool := run_active Solution m (submodels m) (w, true).
  (** model.cpp 426-489 UpdateTimeStep, SetTimeStep, RestoreTimeStep *)
  Definition time_step (p : phase) (m : model) (w : W) : W * bool :=
    let st := run p (addresses (submodels m)) (w, true) in
    let st := run_couplings p m st in
    let st := run p (addresses (scalars m)) st in
    run p (addresses (matrices m)) st.
End Phases.

Section Least.
  Variable T : Type.
  Variable ltb : T -> T -> bool.
  (** std::min(a,b) *)
  Definition min2 (a b : T) : T := if ltb b a then b else a.
  (** what an object answers *)
  Variable ans : nat -> T.
  Definition least (l : list nat) (s : T) : T := fold_left (fun s a => min2 s (ans a)) l s.
  Definition least_couplings (m : model) (s : T) : T := fold_left (fun s kv => least (addresses (snd kv)) s) (couplings m) s.
  Fixpoint least_active (m : model) (l : named) (s : T) : T :=
    match l with [] => s | (n, a) :: r => if skipped m n then least_active m r s else least_active m r (min2 s (ans a)) end.
  (** model.cpp 491-523 UpdateMultiplier, [one] = 1 *)
  Definition update_multiplier (one : T) (m : model) : T :=
    least (addresses (matrices m)) (least (addresses (scalars m)) (least_couplings m (least_active m (submodels m) one))).
  (** model.cpp 525-549 AdjustTimeStep *)
  Definition adjust_time_step (dt : T) (m : model) : T :=
    least (addresses (matrices m)) (least (addresses (scalars m)) (least_couplings m (least (addresses (submodels m)) dt))).
End Least.

(** model.cpp 721-733 ToggleEntryState: the entries that are switched, in order; the
    automatizator is enumerated afterwards unless the map is empty *)
Fixpoint toggles (m : model) (l : list (nat * bool)) : option (list (nat * bool)) :=
  match l with
  | [] => Some []
  | (n, b) :: r =>
    match get (entries m) n with
    | None => None
    | Some a => match toggles m r with None => None | Some q => Some ((a, b) :: q) end
    end
  end.
Definition toggle_entry_state (m : model) : option (list (nat * bool)) := toggles m (active_entries m).

(** Calls that build a model. *)
Inductive call :=
| CEntry (n a : nat) | CFirst (n a : nat) | CAfter (n a after : nat) | CAdd (k : kind) (n a : nat) | CCoupling (s n a : nat)
| CActive (n : nat) (b : bool) | CEntryActive (n : nat) (b : bool).
Definition perform (checked : bool) (m : model) (c : call) : option model :=
  match c with
  | CEntry n a => add_entry checked m n a
  | CFirst n a => add_first_entry checked m n a
  | CAfter n a x => add_after_entry checked m n a x
  | CAdd k n a => add checked k m n a
  | CCoupling s n a => add_coupling checked m s n a
  | CActive n b => Some (set_active m n b)
  | CEntryActive n b => Some (set_entry m n b)
  end.
Fixpoint perform_all (checked : bool) (m : model) (cs : list call) : option model :=
  match cs with [] => Some m | c :: r => match perform checked m c with Some m' => perform_all checked m' r | None => None end end.
