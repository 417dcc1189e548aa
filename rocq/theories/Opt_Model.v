(** Model of the parameter optimizers: Source/Optimizer/optimizers.cpp and
    optimizers/{noop,alternating,annealing}.  Values and metrics are elements of an
    ordered field.  Names of parameters, printing and MPI are left out.  [None] is an
    exception that leaves the library, an access outside a container or an endless
    loop. *)
From Coq Require Import Ascii String List Arith Lia Bool.
From Verif Require Import Util OField.
Import ListNotations.
Open Scope nat_scope.

(** Lines 26-35: the loop of the constructor from a range, for any arithmetic;
    [n] is the size the array was created with. *)
Fixpoint fill {T} (lt : T -> T -> bool) (add : T -> T -> T) (n : nat) (value last step : T) : option (list T) :=
  if lt value last then
    match n with
    | O => None
    | S n' => match fill lt add n' (add value step) last step with None => None | Some r => Some (value :: r) end
    end
  else Some [].

(** Elements the loop leaves unwritten stay zero. *)
Definition range_values {T} (zero : T) (lt : T -> T -> bool) (add : T -> T -> T) (n : nat) (first last step : T) : option (list T) :=
  match fill lt add n first last step with
  | None => None
  | Some r => Some (r ++ repeat zero (n - length r))
  end.

(** [std::min_element]: position of the first smallest element. *)
Fixpoint min_at {A} (lt : A -> A -> bool) (l : list A) (best : A) (besti i : nat) : nat :=
  match l with
  | [] => besti
  | x :: r => if lt x best then min_at lt r x i (S i) else min_at lt r best besti (S i)
  end.
Definition min_element {A} (lt : A -> A -> bool) (l : list A) : nat :=
  match l with [] => 0 | x :: r => min_at lt r x 0 1 end.

Section Model.
Variable F : ofield.

(** PARAMETER_TYPE_DEFAULT, PARAMETER_TYPE_EXPONENT; [pow10] is the function
    applied to the latter. *)
Inductive ptype := Default | Exponent.
Variable pow10 : F -> F.

(** The class OptimizationParameter. *)
Record param := mk_param { p_values : list F; p_default : F; p_type : ptype }.

(** Lines 107-117 GetClosestTo, GetClosestIndexTo. *)
Definition closest_index (p : param) (to : F) : nat :=
  min_element (fun x y => (fabs (x - to) <? fabs (y - to))%F) (p_values p).
Definition closest_to (p : param) (to : F) : option F := nth_error (p_values p) (closest_index p to).

(** Lines 64-70 GetMinimalValue, GetMaximumValue. *)
Definition minimal (p : param) : option F := nth_error (p_values p) 0.
Definition maximal (p : param) : option F :=
  match p_values p with [] => None | _ => nth_error (p_values p) (length (p_values p) - 1) end.

(** Lines 152-161 OptimizationParameterPoint::convert. *)
Definition convert (v : F) (t : ptype) : F := match t with Default => v | Exponent => pow10 v end.

(** The class OptimizationParameters. *)
Record params := mk_params { entries : list (param * F); metrics : F }.

(** Lines 263-272 GetPoints. *)
Definition points (ps : params) : list F := map (fun e => convert (snd e) (p_type (fst e))) (entries ps).

(** Lines 292-314 GetPointsWithChangedParameters: the first change of an index is
    used. *)
Definition changed := list (nat * F).
Fixpoint points_with (c : changed) (i : nat) (es : list (param * F)) : list F :=
  match es with
  | [] => []
  | e :: r =>
      (match find (fun x => fst x =? i) c with
       | None => convert (snd e) (p_type (fst e))
       | Some x => convert (snd x) (p_type (fst e))
       end) :: points_with c (S i) r
  end.

(** Line 318: [entries[i].second = v]. *)
Definition set_entry (i : nat) (v : F) (es : list (param * F)) : option (list (param * F)) :=
  match nth_error es i with None => None | Some (p, _) => Some (lset es i (p, v)) end.

(** Lines 316-322 Update with a list of changes. *)
Fixpoint set_entries (c : changed) (es : list (param * F)) : option (list (param * F)) :=
  match c with
  | [] => Some es
  | (i, v) :: r => match set_entry i v es with None => None | Some es' => set_entries r es' end
  end.
Definition update (c : changed) (m : F) (ps : params) : option params :=
  match set_entries c (entries ps) with None => None | Some es => Some (mk_params es m) end.

(** Lines 324-327 Update of one parameter. *)
Definition update1 (i : nat) (v m : F) (ps : params) : option params :=
  match set_entry i v (entries ps) with None => None | Some es => Some (mk_params es m) end.

(** The class OptimizationParameterResult. *)
Record result := mk_result {
  r_changed : changed; r_before : list F; r_after : list F; r_mbefore : F; r_mafter : F; r_good : bool }.

(** Lines 416-421 push on the buffer; the list has the oldest result first, as the
    deque. *)
Definition push (cap : nat) (buf : list result) (r : result) : option (list result) :=
  if length buf =? cap then
    match buf with [] => None | _ :: b => Some (b ++ [r]) end
  else Some (buf ++ [r]).

(** Lines 404-414 cbegin .. cend: newest first. *)
Definition view (buf : list result) : list result := rev buf.

(** Lines 431-447. *)
Definition last_successful (buf : list result) : option result := find r_good (view buf).
Definition last_result_successful (buf : list result) : bool := match view buf with [] => false | r :: _ => r_good r end.
Definition successful_exists (buf : list result) : bool := existsb r_good (view buf).

(** Lines 456-466: two results with the same points up to 1e-8. *)
Fixpoint same_points (r u : list F) : option bool :=
  match r, u with
  | [], _ => Some true
  | x :: r', y :: u' => if (e_minus 8 <? fabs (x - y))%F then Some false else same_points r' u'
  | _ :: _, [] => None
  end.
Fixpoint find_same (r : result) (us : list result) : option bool :=
  match us with
  | [] => Some false
  | u :: us' =>
      match same_points (r_after r) (r_after u) with
      | None => None
      | Some true => Some true
      | Some false => find_same r us'
      end
  end.

(** Lines 449-476 GetLastUniqueEntries. *)
Fixpoint unique_loop (max : nat) (rs : list result) (uniq : list result) : option (list result) :=
  match rs with
  | [] => Some uniq
  | r :: rs' =>
      if length uniq <=? max then
        match find_same r uniq with
        | None => None
        | Some true => unique_loop max rs' uniq
        | Some false => unique_loop max rs' (uniq ++ [r])
        end
      else unique_loop max rs' uniq
  end.
Definition last_unique (max : nat) (buf : list result) : option (list result) := unique_loop max (view buf) [].

(** The class OptimizationParametersSuggestion. *)
Record suggestion := mk_sugg { s_changed : changed; s_before : list F; s_metrics : F; s_after : list F }.

(** The two virtual functions AlgorithmMakeSuggestion and
    UpdateSpaceWithLatestResults; [A] is the state of the derived class. *)
Record algorithm (A : Type) := mk_alg {
  alg_make : A -> params -> option (A * changed);
  alg_update : A -> params -> list result -> option (A * params * bool) }.
Arguments alg_make {A}. Arguments alg_update {A}.

(** The class OptimizerInterface; [o_restart] is RESTART_STRATEGY_WITH_BEST. *)
Record optimizer (A : Type) := mk_opt {
  o_params : params; o_cap : nat; o_results : list result; o_restart : bool; o_max : nat; o_fails : nat;
  o_suggestions : list suggestion; o_alg : A }.
Arguments mk_opt {A}. Arguments o_params {A}. Arguments o_cap {A}. Arguments o_results {A}. Arguments o_restart {A}.
Arguments o_max {A}. Arguments o_fails {A}. Arguments o_suggestions {A}. Arguments o_alg {A}.

(** Lines 478-487 RestartWithBestStrategy.  Pointers to the best result dangle if
    storing the copy removes it; other invalidation of iterators by the deque is not
    modelled. *)
Definition restart {A} (o : optimizer A) : option (optimizer A) :=
  if o_max o <=? length (view (o_results o)) then
    let k := min_element (fun l r => (r_mafter l <? r_mafter r)%F) (firstn (o_max o) (view (o_results o))) in
    match nth_error (view (o_results o)) k with
    | None => None
    | Some best =>
        match push (o_cap o) (o_results o) best with
        | None => None
        | Some buf =>
            if (length (o_results o) =? o_cap o) && (k =? length (o_results o) - 1) then None
            else match update (r_changed best) (r_mafter best) (o_params o) with
                 | None => None
                 | Some ps => Some (mk_opt ps (o_cap o) buf (o_restart o) (o_max o) 0 (o_suggestions o) (o_alg o))
                 end
        end
    end
  else None.

(** Lines 489-495: the default UpdateSpaceWithLatestResults. *)
Definition update_base (ps : params) (buf : list result) : option (params * bool) :=
  match view buf with
  | [] => Some (ps, true)
  | last :: _ => match update (r_changed last) (r_mafter last) ps with None => None | Some ps' => Some (ps', true) end
  end.

(** Lines 497-526 Suggest. *)
Definition suggest {A} (alg : algorithm A) (o : optimizer A) : option (optimizer A * suggestion) :=
  match alg_make alg (o_alg o) (o_params o) with
  | None => None
  | Some (a, c) =>
      let s := mk_sugg c (points (o_params o)) (metrics (o_params o)) (points_with c 0 (entries (o_params o))) in
      Some (mk_opt (o_params o) (o_cap o) (o_results o) (o_restart o) (o_max o) (o_fails o) (s :: tl (o_suggestions o)) a, s)
  end.

(** Lines 528-599 SaveResult with all arguments. *)
Definition save_full {A} (alg : algorithm A) (o : optimizer A) (r : result) : option (optimizer A) :=
  match push (o_cap o) (o_results o) r with
  | None => None
  | Some buf =>
      match (if r_good r then alg_update alg (o_alg o) (o_params o) buf else Some (o_alg o, o_params o, false)) with
      | None => None
      | Some (a, ps, updated) =>
          let fails := if updated then 0 else S (o_fails o) in
          let o1 := mk_opt ps (o_cap o) buf (o_restart o) (o_max o) fails (o_suggestions o) a in
          if (o_max o <? fails) && o_restart o then restart o1 else Some o1
      end
  end.

(** Lines 601-608 SaveResult of a suggestion. *)
Definition save {A} (alg : algorithm A) (o : optimizer A) (s : suggestion) (m : F) (good : bool) : option (optimizer A) :=
  save_full alg o (mk_result (s_changed s) (points (o_params o)) (s_after s) (metrics (o_params o)) m good).

(** Line 635-638 SetRestartStrategy. *)
Definition set_restart {A} (o : optimizer A) (b : bool) (mx : nat) : optimizer A :=
  mk_opt (o_params o) (o_cap o) (o_results o) b mx (o_fails o) (o_suggestions o) (o_alg o).

(** A new optimizer; [max_fails] is initially the largest number, [max0]. *)
Definition create {A} (ps : params) (cap max0 : nat) (a : A) : optimizer A := mk_opt ps cap [] false max0 0 [] a.

(** optimizers/noop/noop.cpp 12-14. *)
Definition noop : algorithm unit :=
  mk_alg unit
    (fun _ ps => match nth_error (entries ps) 0 with None => None | Some (p, _) => Some (tt, [(0, p_default p)]) end)
    (fun _ ps buf => match update_base ps buf with None => None | Some (ps', b) => Some (tt, ps', b) end).

(** optimizers/alternating/alternating.h: direction and handler of a parameter. *)
Inductive direction := Right | Stay | Left.
Record handler := mk_h { h_param : param; h_index : nat; h_dir : direction }.
Record alternating := mk_alt { a_cur : nat; a_handlers : list handler }.

(** alternating.cpp 9-10. *)
Definition new_handler (p : param) : handler := mk_h p (closest_index p (p_default p)) Right.

(** alternating.cpp 28-61 NextIndex: new direction and index.  [count] is unsigned:
    for a parameter without values it is huge. *)
Definition next_index (h : handler) : direction * nat :=
  let n := length (p_values (h_param h)) in
  let index := h_index h in
  if (1 <=? n) && (n - 1 <? 2) then (h_dir h, index)
  else match h_dir h with
       | Right => if (1 <=? n) && (index =? n - 1) then (Left, if index =? 0 then S index else index - 1) else (Right, S index)
       | Stay => (Stay, index)
       | Left => if index =? 0 then (Right, S index) else (Left, index - 1)
       end.

(** alternating.cpp 63-77 NextDirection. *)
Definition next_dir (d : direction) : direction := match d with Right => Stay | Stay => Left | Left => Right end.

(** alternating.cpp 92-95 AlgorithmMakeSuggestion: also changes the direction of the
    handler. *)
Definition alt_make (a : alternating) (ps : params) : option (alternating * changed) :=
  match nth_error (a_handlers a) (a_cur a) with
  | None => None
  | Some h =>
      let (d, i) := next_index h in
      match nth_error (p_values (h_param h)) i with
      | None => None
      | Some v => Some (mk_alt (a_cur a) (lset (a_handlers a) (a_cur a) (mk_h (h_param h) (h_index h) d)), [(a_cur a, v)])
      end
  end.

(** alternating.cpp 97-118 UpdateSpaceWithLatestResults. *)
Definition is_stay (d : direction) : bool := match d with Stay => true | _ => false end.
Definition alt_update (a : alternating) (ps : params) (buf : list result) : option (alternating * params * bool) :=
  match nth_error (a_handlers a) (a_cur a), view buf with
  | Some h, last :: _ =>
      let better := ((r_mbefore last <? 0)%F || (r_mafter last <? r_mbefore last)%F)%bool in
      match (if r_good last && (better || is_stay (h_dir h)) then
               let (d, i) := next_index h in
               match nth_error (entries ps) (a_cur a) with
               | None => None
               | Some (p, _) =>
                   match nth_error (p_values p) i with
                   | None => None
                   | Some v =>
                       match update1 (a_cur a) v (r_mafter last) ps with
                       | None => None
                       | Some ps' => Some (mk_h (h_param h) i d, ps', true)
                       end
                   end
               end
             else Some (h, ps, false)) with
      | None => None
      | Some (h', ps', updated) =>
          let h2 := if better then h' else mk_h (h_param h') (h_index h') (next_dir (h_dir h')) in
          Some (mk_alt (S (a_cur a) mod length (a_handlers a)) (lset (a_handlers a) (a_cur a) h2), ps', updated)
      end
  | _, _ => None
  end.
Definition alternating_alg : algorithm alternating := mk_alg alternating alt_make alt_update.

(** alternating.cpp 83-90: the constructor. *)
Definition new_alternating (ps : params) : alternating := mk_alt 0 (map (fun e => new_handler (fst e)) (entries ps)).

(** annealing.cpp.  [shape count alpha] is the displacement computed from the
    temperature after [count] updates and the random number [alpha]; [accept count d]
    the probability of accepting a change [d] of the metrics.  Every handler has its
    random numbers [rnd], of which [n_rnd] are used up. *)
Variable shape : nat -> F -> F.
Variable accept : nat -> F -> F.
Record ahandler := mk_ah {
  ah_param : param; ah_value : F; ah_count : nat; ah_strict : bool; ah_closest : bool; ah_barrier : F;
  ah_rnd : nat -> F; ah_n : nat }.

(** annealing.cpp 173-179: drawing until the value is in the range; [fuel] bounds the
    number of draws. *)
Fixpoint draw (fuel : nat) (h : ahandler) (n : nat) (a b bound : F) : option (nat * F) :=
  match fuel with
  | O => None
  | S fuel' =>
      let next := (ah_value h + shape (ah_count h) (ah_rnd h n) * bound)%F in
      if negb (next <? a)%F && negb (b <? next)%F then Some (S n, next) else draw fuel' h (S n) a b bound
  end.

(** Division that may fail. *)
Definition div (x y : F) : option F := if (negb (y <? 0)%F && negb (0 <? y)%F)%bool then None else Some (x / y)%F.

(** annealing.cpp 150-197 GetNextValue. *)
Definition next_value (fuel : nat) (h : ahandler) : option (nat * F) :=
  match minimal (ah_param h), maximal (ah_param h) with
  | Some a, Some b =>
      let aa := (ah_value h - a)%F in
      let bb := (b - ah_value h)%F in
      let bound := if ah_strict h then (if (bb <? aa)%F then (1 + 1) * bb else (1 + 1) * aa)%F else (b - a)%F in
      match draw fuel h (ah_n h) a b bound with
      | None => None
      | Some (n, next) =>
          match (if (0 <? ah_barrier h)%F then
                   match div (ah_value h - a)%F (b - a)%F, div (next - a)%F (b - a)%F with
                   | Some nc, Some nn =>
                       let nn' := if (ah_barrier h <? fabs (nn - nc))%F then (nc + ah_barrier h * (nn - nc))%F else nn in
                       Some (nn' * (b - a) + a)%F
                   | _, _ => None
                   end
                 else Some next) with
          | None => None
          | Some next' =>
              if ah_closest h then match closest_to (ah_param h) next' with None => None | Some v => Some (n, v) end
              else Some (n, next')
          end
      end
  | _, _ => None
  end.

Record annealing := mk_ann { n_cur : nat; n_handlers : list ahandler }.

(** annealing.cpp 222-224. *)
Definition ann_make (fuel : nat) (a : annealing) (ps : params) : option (annealing * changed) :=
  match nth_error (n_handlers a) (n_cur a) with
  | None => None
  | Some h =>
      match next_value fuel h with
      | None => None
      | Some (n, v) =>
          Some (mk_ann (n_cur a) (lset (n_handlers a) (n_cur a)
                  (mk_ah (ah_param h) (ah_value h) (ah_count h) (ah_strict h) (ah_closest h) (ah_barrier h) (ah_rnd h) n)),
                [(n_cur a, v)])
      end
  end.

(** annealing.cpp 226-248. *)
Definition ann_update (a : annealing) (ps : params) (buf : list result) : option (annealing * params * bool) :=
  match nth_error (n_handlers a) (n_cur a), view buf with
  | Some h, last :: _ =>
      let delta := (r_mafter last - r_mbefore last)%F in
      let alpha := ah_rnd h (ah_n h) in
      let ok := (r_good last && ((r_mbefore last <? 0)%F || ((delta <? 0)%F || (alpha <? accept (ah_count h) delta)%F)))%bool in
      match (if ok then
               match nth_error (r_changed last) 0 with
               | None => None
               | Some (_, v) =>
                   match update1 (n_cur a) v (r_mafter last) ps with
                   | None => None
                   | Some ps' => Some (v, S (ah_count h), ps', true)
                   end
               end
             else Some (ah_value h, ah_count h, ps, false)) with
      | None => None
      | Some (v, cnt, ps', updated) =>
          Some (mk_ann (S (n_cur a) mod length (n_handlers a)) (lset (n_handlers a) (n_cur a)
                  (mk_ah (ah_param h) v cnt (ah_strict h) (ah_closest h) (ah_barrier h) (ah_rnd h) (S (ah_n h)))), ps', updated)
      end
  | _, _ => None
  end.
Definition annealing_alg (fuel : nat) : algorithm annealing := mk_alg annealing (ann_make fuel) ann_update.

(** Lines 672-702 SaveOptimizerOrReplace and GetSavedOptimizer: a map from names to
    pointers; [make] returns the null pointer ([None]) for an unknown type. *)
Definition saved (O : Type) := list (string * option O).
Definition lookup {O} (s : saved O) (name : string) : option (option O) :=
  match find (fun e => String.eqb (fst e) name) s with None => None | Some e => Some (snd e) end.
Definition store {O} (s : saved O) (name : string) (v : option O) : saved O :=
  (name, v) :: filter (fun e => negb (String.eqb (fst e) name)) s.
Definition save_or_replace {O} (make : string -> option O) (s : saved O) (name type : string) (count : nat) : saved O :=
  if count =? 0 then s else store s name (make type).
Definition get_saved {O} (s : saved O) (name : string) : option O :=
  match lookup s name with None => None | Some v => v end.

End Model.
