(** What a user of the class Solver expects: the last text given for a parameter counts. *)
From Coq Require Import List Bool String.
Import ListNotations.
Local Open Scope string_scope.

(** Texts given for parameters, in the order in which they were given. *)
Definition history : Type := list (string * string).
Fixpoint last_given (n : string) (h : history) : option string :=
  match h with
  | [] => None
  | (m, t) :: r => match last_given n r with Some u => Some u | None => if m =? n then Some t else None end
  end.

(** The value under a name in a list of names and values. *)
Fixpoint assoc {V : Type} (n : string) (l : list (string * V)) : option V :=
  match l with
  | [] => None
  | (m, v) :: r => if m =? n then Some v else assoc n r
  end.

(** The parameter of the user that stands for each parameter of the methods, and whether it is a
    real number. *)
Definition meaning : list (string * (string * bool)) :=
  [("overlap", ("schwartz_overlap", false)); (":tau", ("drop_tolerance", true)); (":tau2", ("reuse_tolerance", true)); (":scale_iters", ("rescale_iterations", false));
   (":fill", ("fill_level", false)); (":verbosity", ("verbosity", false)); ("verbosity", ("verbosity", false)); (":estimator", ("condition_estimation", false));
   (":ddpq_tau", ("ddpq_tolerance", true)); (":reorder_nnz", ("reorder_nonzeros", false)); (":ddpq_tau_adapt", ("adapt_ddpq_tolerance", false));
   (":pivot_cond", ("pivot_condition", true)); (":pivot_diag", ("pivot_diag", true));
   ("maxits", ("maximum_iterations", false)); ("rtol", ("relative_tolerance", true)); ("atol", ("absolute_tolerance", true)); ("divtol", ("divergence_tolerance", true))].
