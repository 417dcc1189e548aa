(** Automatic differentiation: expression objects.
    Source: Source/Headers/inmost_expression.h, Source/Autodiff/autodiff.cpp 43-68.
    Values are real numbers (no rounding, no infinities); division by zero,
    logarithms of non-positive numbers etc. are the totalised functions of the
    Coq library, the theorems exclude them.
    The template expression classes are one tree; a class name is quoted at
    each operation. *)
From Coq Require Import Reals List Bool Arith.
From Verif Require Import Util Row_Model Merger_Model.
Import ListNotations.
Open Scope R_scope.

Definition isz (x : R) : bool := if Req_EM_T x 0 then true else false.
Definition ltz (x : R) : bool := if Rlt_dec x 0 then true else false.
Definition gez (x : R) : bool := if Rge_dec x 0 then true else false.

(** ::pow of the C library: a positive base, a zero base with a non-negative
    exponent, and a negative base with an integral exponent (otherwise the
    library returns an infinity or NaN). *)
Definition c_pow (x y : R) : R :=
  if Rlt_dec 0 x then Rpower x y
  else if Req_EM_T x 0 then (if Req_EM_T y 0 then 1 else 0)
  else powerRZ x (Int_part y).
(** ::atan2(y,x) *)
Definition c_atan2 (y x : R) : R :=
  if Rlt_dec 0 y then PI / 2 - atan (x / y)
  else if Rlt_dec y 0 then - (PI / 2) - atan (x / y)
  else if Rlt_dec x 0 then PI else 0.

Inductive unop :=
| UCMul (k : R)        (* const_multiplication_expression, 1150-1175 *)
| UVariation (k : R)   (* variation_multiplication_expression, 1177-1202 *)
| UCDiv (k : R)        (* const_division_expression, 1205-1231 *)
| UCAdd (k : R)        (* const_addition_expression, 1233-1258 *)
| UCSub (k : R)        (* const_subtraction_expression, 1260-1285 *)
| URecip (k : R)       (* reciprocal_expression, 1289-1322 *)
| UNeg                 (* unary_minus_expression, 1324-1346 *)
| UPlus                (* unary_plus_expression, 1348-1370 *)
| UAbs                 (* abs_expression, 1372-1401 *)
| UExp                 (* exp_expression, 1404-1435 *)
| ULog                 (* log_expression, 1437-1469 *)
| USin                 (* sin_expression, 1472-1505 *)
| UCos                 (* cos_expression, 1507-1538 *)
| USqrt                (* sqrt_expression, 1540-1574 *)
| USoftAbs (tol : R)   (* soft_abs_expression, 1577-1605 *)
| USoftSign (tol : R)  (* soft_sign_expression, 1607-1637 *)
| UPowC (k : R)        (* pow_const_expression, 1986-2028 *)
| UCPow (k : R).       (* const_pow_expression, 2030-2062 *)
Inductive binop :=
| BMul                 (* multiplication_expression, 1715-1763 *)
| BDiv                 (* division_expression, 1765-1818 *)
| BAdd                 (* addition_expression, 1820-1861 *)
| BSub                 (* subtraction_expression, 1863-1899 *)
| BPow                 (* pow_expression, 1901-1945 *)
| BAtan2               (* atan2_expression, 1948-1984 *)
| BSoftMax (tol : R)   (* soft_max_expression, 1639-1675 *)
| BSoftMin (tol : R).  (* soft_min_expression, 1677-1713 *)

Notation rrow := (list (nat * R)).
Notation rhrow := (list ((nat * nat) * R)).

Inductive expr :=
| EConst (v : R)                           (* const_expression, 72-88 *)
| EVar (v : R) (i : option nat)            (* var_expression, 91-126; None is ENUMUNDEF *)
| EMulti (v : R) (r : rrow)                (* multivar_expression, 135-380 *)
| EHess (v : R) (r : rrow) (h : rhrow)     (* hessian_multivar_expression, 387-606 *)
| ESelf                                    (* the variable that is being assigned *)
| EUn (u : unop) (a : expr)
| EBin (b : binop) (l r : expr)
| ECond (c l r : expr)                     (* condition_expression, 2064-2105 *)
| EBranch (c : bool) (l r : expr).         (* branch_expression, 2107-2157 *)

(** ** Values computed by the constructors *)
Definition uval (u : unop) (x : R) : R :=
  match u with
  | UCMul k => x * k
  | UVariation k => x
  | UCDiv k => x * (1 / k)
  | UCAdd k => x + k
  | UCSub k => k - x
  | URecip k => k * (1 / x)
  | UNeg => - x
  | UPlus => x
  | UAbs => Rabs x
  | UExp => exp x
  | ULog => ln x
  | USin => sin x
  | UCos => cos x
  | USqrt => sqrt x
  | USoftAbs tol => sqrt (x * x + tol * tol)
  | USoftSign tol => x / sqrt (x * x + tol * tol)
  | UPowC k => c_pow x k
  | UCPow k => c_pow k x
  end.
Definition bval (b : binop) (l r : R) : R :=
  match b with
  | BMul => l * r
  | BDiv => if isz r then 0 else l * (1 / r)
  | BAdd => l + r
  | BSub => l - r
  | BPow => c_pow l r
  | BAtan2 => c_atan2 l r
  | BSoftMax tol => / 2 * (l + r + sqrt ((l - r) * (l - r) + tol * tol))
  | BSoftMin tol => / 2 * (l + r - sqrt ((l - r) * (l - r) + tol * tol))
  end.

(** [s] is the value of the variable being assigned when the expression object
    was built. *)
Fixpoint value (s : R) (e : expr) : R :=
  match e with
  | EConst v | EVar v _ | EMulti v _ | EHess v _ _ => v
  | ESelf => s
  | EUn u a => uval u (value s a)
  | EBin b l r => bval b (value s l) (value s r)
  | ECond c l r => if gez (value s c) then value s l else value s r
  | EBranch c l r => if c then value s l else value s r
  end.
(** GetValue() called later: operations return the stored value, a variable
    its present value [s']. *)
Definition value_now (s s' : R) (e : expr) : R := match e with ESelf => s' | _ => value s e end.

(** ** GetJacobian: multiplier given to the argument; None when the argument is
    not visited.  [x] is the argument's value when the object was built. *)
Definition ucoef (u : unop) (x mult : R) : option R :=
  match u with
  | UCMul k => Some (mult * k)
  | UVariation k => Some (mult * k)
  | UCDiv k => Some (mult * (1 / k))
  | UCAdd k => Some mult
  | UCSub k => Some (- mult)
  | URecip k => Some (- mult * (k * (1 / x)) * (1 / x))
  | UNeg => Some (- mult)
  | UPlus => Some mult
  | UAbs => Some ((if isz (Rabs x) then (if ltz mult then -1 else 1) else 1) * mult * (if ltz x then -1 else 1))
  | UExp => Some (mult * exp x)
  | ULog => Some (mult * (1 / x))
  | USin => Some (mult * cos x)
  | UCos => Some (mult * - sin x)
  | USqrt => if isz (sqrt x) then None else Some (/ 2 * mult / sqrt x)
  | USoftAbs tol => Some (mult * (x / sqrt (x * x + tol * tol)))
  | USoftSign tol => Some (mult * ((1 - x * x / (x * x + tol * tol)) / sqrt (x * x + tol * tol)))
  | UPowC k => Some (mult * (if isz x then 0 else c_pow x k * k / x))
  | UCPow k => Some (mult * (if isz k then 0 else c_pow k x * ln k))
  end.
(** l, r: values when the object was built; l', r': values when GetJacobian is
    called (only multiplication_expression asks again, 1732-1733) *)
Definition lcoef (b : binop) (l r r' mult : R) : R :=
  match b with
  | BMul => mult * r'
  | BDiv => mult * (if isz r then 0 else 1 / r)
  | BAdd => mult
  | BSub => mult
  | BPow => mult * (if isz l then 0 else c_pow l r * r / l)
  | BAtan2 => mult * (r / (r * r + l * l))
  | BSoftMax tol => mult * (/ 2 * (1 + (l - r) / sqrt ((l - r) * (l - r) + tol * tol)))
  | BSoftMin tol => mult * (/ 2 * (1 - (l - r) / sqrt ((l - r) * (l - r) + tol * tol)))
  end.
Definition rcoef (b : binop) (l r l' mult : R) : R :=
  match b with
  | BMul => mult * l'
  | BDiv => - mult * (if isz r then 0 else l * (1 / r)) * (if isz r then 0 else 1 / r)
  | BAdd => mult
  | BSub => - mult
  | BPow => mult * (if isz l then 0 else c_pow l r * ln l)
  | BAtan2 => mult * (- l / (r * r + l * l))
  | BSoftMax tol => mult * (/ 2 * (1 - (l - r) / sqrt ((l - r) * (l - r) + tol * tol)))
  | BSoftMin tol => mult * (/ 2 * (1 + (l - r) / sqrt ((l - r) * (l - r) + tol * tol)))
  end.

(** What GetJacobian does to the row or merger it is given: r[i] += m, or
    AddRow(m,row) / the loop r[it->first] += it->second*m. *)
Inductive event := EvAdd (i : nat) (m : R) | EvRow (m : R) (r : rrow).
(** s, s': value of the assigned variable when the expression was built and
    now; sr: its row. *)
Fixpoint jac (s s' : R) (sr : rrow) (e : expr) (mult : R) : list event :=
  match e with
  | EConst _ => []
  | EVar _ (Some i) => if isz mult then [] else [EvAdd i mult]
  | EVar _ None => []
  | EMulti _ r => [EvRow mult r]
  | EHess _ r _ => [EvRow mult r]
  | ESelf => [EvRow mult sr]
  | EUn u a => match ucoef u (value s a) mult with
               | Some c => jac s s' sr a c
               | None => []
               end
  | EBin b l r =>
      jac s s' sr l (lcoef b (value s l) (value s r) (value_now s s' r) mult) ++
      jac s s' sr r (rcoef b (value s l) (value s r) (value_now s s' l) mult)
  | ECond c l r => if gez (value s c) then jac s s' sr l mult else jac s s' sr r mult
  | EBranch c l r => if c then jac s s' sr l mult else jac s s' sr r mult
  end.

(** ** Sparse::Row as the target (no current Automatizator) *)
Definition row_add (r : rrow) (i : nat) (m : R) : rrow := upd_at 0 Nat.eqb r i (fun v => v + m).
Definition row_event (r : rrow) (ev : event) : rrow :=
  match ev with
  | EvAdd i m => row_add r i m
  | EvRow m es => fold_left (fun r e => row_add r (fst e) (snd e * m)) es r
  end.
Definition row_run (r : rrow) (evs : list event) : rrow := fold_left row_event evs r.
Definition row_scale (c : R) (r : rrow) : rrow := map (fun e => (fst e, snd e * c)) r.

(** ** Sparse::RowMerger as the target, autodiff.cpp 43-59 *)
Definition mop_of (ev : event) : @mop R :=
  match ev with
  | EvAdd i m => OUpd i (fun v => v + m)
  | EvRow m es => OAdd m es
  end.
Definition merger_run (ops : list (@mop R)) (mg : @merger R) : option (rrow * @merger R) :=
  match run 0 Rplus Rmult isz mg ops with
  | Some mg' =>
      match retrieve isz mg', clear 0 mg' with
      | Some r, Some mg'' => Some (r, mg'')
      | _, _ => None
      end
  | None => None
  end.
(** FromBasicExpression and AddBasicExpression *)
Definition from_basic (mg : @merger R) (evs : list event) : option (rrow * @merger R) :=
  merger_run (map mop_of evs) mg.
Definition add_basic (mg : @merger R) (multme : R) (sr : rrow) (evs : list event) : option (rrow * @merger R) :=
  merger_run (OPush multme sr :: map mop_of evs) mg.

(** ** Assignments.  [tgt]: None without a current Automatizator, Some merger
    with one.  A result is (value, row). *)
Notation target := (option (@merger R)).
Definition into (tgt : target) (multme : R) (sr : rrow) (evs : list event) : option rrow :=
  match tgt with
  | None => Some (row_run (row_scale multme sr) evs)
  | Some mg => match add_basic mg multme sr evs with Some (r, _) => Some r | None => None end
  end.
Definition into_new (tgt : target) (evs : list event) : option rrow :=
  match tgt with
  | None => Some (row_run [] evs)
  | Some mg => match from_basic mg evs with Some (r, _) => Some r | None => None end
  end.
Definition with_val (v : R) (o : option rrow) : option (R * rrow) :=
  match o with Some r => Some (v, r) | None => None end.
Inductive assign := AsgVar | AsgRef | AsgAdd | AsgSub | AsgMul | AsgDiv.
(** x = e for multivar_expression builds a temporary first, 150-156 and 191-196;
    multivar_expression_reference stores the value first, 678-690;
    +=, -=, *=, /= : 232-286 (and the same code in 701-771).
    Without Automatizator += and -= do not scale the row: row_scale 1. *)
Definition do_assign (a : assign) (tgt : target) (s : R) (sr : rrow) (e : expr) : option (R * rrow) :=
  let v := value s e in
  match a with
  | AsgVar => with_val v (into_new tgt (jac s s sr e 1))
  | AsgRef => with_val v (into_new tgt (jac s v sr e 1))
  | AsgAdd => with_val (s + v) (into tgt 1 sr (jac s (s + v) sr e 1))
  | AsgSub => with_val (s - v) (into tgt 1 sr (jac s (s - v) sr e (-1)))
  | AsgMul => with_val (s * v) (into tgt v sr (jac s s sr e s))
  | AsgDiv => with_val (s * (1 / v)) (into tgt (1 / v) sr (jac s (s * (1 / v)) sr e (- (s * (1 / v)) * (1 / v))))
  end.

(** ** GetHessian.  The rows J and H are empty before the call.  None is a
    thrown NotImplemented, a failed assert or an access outside of a row. *)
(** std::sort(J.Begin(),J.End()) when the row is not sorted: insertion by index *)
Fixpoint ins (e : nat * R) (l : rrow) : rrow :=
  match l with
  | [] => [e]
  | x :: l' => if (fst e <=? fst x)%nat then e :: l else x :: ins e l'
  end.
Definition sort_row (l : rrow) : rrow := if is_sorted Nat.ltb l then l else fold_right ins [] l.
Definition hscale_row (c : R) (h : rhrow) : rhrow := map (fun e => (fst e, snd e * c)) h.
Definition msr := merge_sorted Rplus Rmult Nat.eqb Nat.ltb.
Definition msh := merge_sorted Rplus Rmult heq hlt.
Definition mjh1 := merge_jh1 Rplus Rmult (/ 2).
Definition mjh2 := merge_jh2 Rplus Rmult (/ 2).
Definition pair_opt {A B} (a : option A) (b : option B) : option (A * B) :=
  match a, b with Some x, Some y => Some (x, y) | _, _ => None end.
Definition sgn (x : R) : R := if ltz x then -1 else 1.

Fixpoint hess (s : R) (sr : rrow) (sh : rhrow) (e : expr) (mJ mH : R) : option (rrow * rhrow) :=
  match e with
  | EConst _ | EVar _ None => Some ([], [])
  | EVar _ (Some i) => Some ([(i, mJ)], [])
  | EMulti _ r => Some (row_scale mJ (sort_row r), [])
  | EHess _ r h => Some (row_scale mJ (sort_row r), hscale_row mH h)
  | ESelf => Some (row_scale mJ (sort_row sr), hscale_row mH sh)
  | EUn u a =>
      let x := value s a in
      match u with
      | UCMul k | UVariation k => hess s sr sh a (mJ * k) (mH * k)
      | UCDiv k => hess s sr sh a (mJ * (1 / k)) (mH * (1 / k))
      | UCAdd _ | UPlus => hess s sr sh a mJ mH
      | UCSub _ | UNeg => hess s sr sh a (- mJ) (- mH)
      | URecip k =>
          let v := k * (1 / x) in let rv := 1 / x in
          let coefJ := - mJ * v * rv in
          match hess s sr sh a (sgn coefJ) (-2 * mH * v * rv) with
          | Some (J, ArgH) =>
              match mjh1 (2 * v * rv * rv * sgn coefJ) J J 1 ArgH with
              | Some H => Some (row_scale (coefJ * sgn coefJ) J, H)
              | None => None
              end
          | None => None
          end
      | UAbs =>
          let z m := if isz (Rabs x) then (if ltz m then -1 else 1) else 1 in
          let d := if ltz x then -1 else 1 in
          hess s sr sh a (z mJ * mJ * d) (z mH * mH * d)
      | UExp =>
          let coefJ := mJ * exp x in
          match hess s sr sh a (sgn coefJ) (mH * exp x) with
          | Some (J, ArgH) =>
              match mjh1 (coefJ * sgn coefJ) J J 1 ArgH with
              | Some H => Some (row_scale (coefJ * sgn coefJ) J, H)
              | None => None
              end
          | None => None
          end
      | ULog =>
          let d := 1 / x in
          let coefJ := mJ * d in
          match hess s sr sh a (sgn coefJ) (2 * mH * d) with
          | Some (J, ArgH) =>
              match mjh1 (- coefJ * sgn coefJ * d) J J 1 ArgH with
              | Some H => Some (row_scale (coefJ * sgn coefJ) J, H)
              | None => None
              end
          | None => None
          end
      | USin =>
          match hess s sr sh a 1 1 with
          | Some (J, htmp) =>
              match mjh1 (- sin x * mH) J J (cos x * mH) htmp with
              | Some H => Some (row_scale (cos x * mJ) J, H)
              | None => None
              end
          | None => None
          end
      | UCos =>
          match hess s sr sh a 1 1 with
          | Some (J, htmp) =>
              match mjh1 (- cos x * mH) J J (- sin x * mH) htmp with
              | Some H => Some (row_scale (- sin x * mJ) J, H)
              | None => None
              end
          | None => None
          end
      | USqrt =>
          if isz (sqrt x) then Some ([], []) else
          match hess s sr sh a 1 1 with
          | Some (J, htmp) =>
              match mjh1 (- / 4 / (sqrt x) ^ 3 * mH) J J (/ 2 / sqrt x * mH) htmp with
              | Some H => Some (row_scale (/ 2 / sqrt x * mJ) J, H)
              | None => None
              end
          | None => None
          end
      | UPowC k =>
          let d := if isz x then 0 else c_pow x k * k / x in
          let d2 := if isz x then 0 else d * (k - 1) / x in
          match hess s sr sh a 1 1 with
          | Some (JL, HL) =>
              match mjh1 (mH * d2) JL JL (mH * d) HL with
              | Some H => Some ([], H)       (* JL is scaled, J is not assigned *)
              | None => None
              end
          | None => None
          end
      | USoftAbs _ | USoftSign _ | UCPow _ => None
      end
  | EBin b l r =>
      match b with
      | BMul | BAdd | BSub =>
          match hess s sr sh l 1 1, hess s sr sh r 1 1 with
          | Some (JL, HL), Some (JR, HR) =>
              let vl := value s l in let vr := value s r in
              match b with
              | BMul => pair_opt (msr (vr * mJ) JL (vl * mJ) JR)
                                 (mjh2 (2 * mH) JL JR (vr * mH) HL (vl * mH) HR)
              | BAdd => pair_opt (msr mJ JL mJ JR) (msh mH HL mH HR)
              | _ => pair_opt (msr mJ JL (- mJ) JR) (msh mH HL (- mH) HR)
              end
          | _, _ => None
          end
      | _ => None
      end
  | ECond c l r => if gez (value s c) then hess s sr sh l mJ mH else hess s sr sh r mJ mH
  | EBranch c l r => if c then hess s sr sh l mJ mH else hess s sr sh r mJ mH
  end.
