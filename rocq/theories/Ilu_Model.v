(** Model of the preconditioner of the solver "inner_ilu2"
    (Source/Solver/solver_inner/solver_ilu2/solver_ilu2.hpp): rescaling, factorization with two
    thresholds, solution with the factors.

    One process: the overlapping, the local and the vector regions are [0,n); Accumulate and
    Update do nothing. Numbers are real numbers, rounding is not modelled. LFILL and
    DIAGONAL_PERTURBATION are not defined. *)
From Coq Require Import List Arith Bool Reals.
Import ListNotations.
Open Scope R_scope.

(** Sparse::Row and Sparse::Matrix; a vector is a function of the index *)
Definition row := list (nat * R).
Definition mat := list row.
Definition upd {A} (f : nat -> A) (i : nat) (v : A) : nat -> A := fun j => if Nat.eqb j i then v else f j.

(** 81: tol_modif = 1e-12, eps = 1.0e-54, subst = 1.0 *)
Definition tol_modif : R := / 10 ^ 12.
Definition eps : R := / 10 ^ 54.

(** * Rescaling (111-144) *)
(** if (x < eps) x = 1.0/subst; else x = 1.0/x; (120, 130, 135) *)
Definition safe_inv (x : R) : R := if Rlt_dec x eps then 1 / 1 else 1 / x.
Definition sumsq (w : nat -> R) (r : row) (s : R) : R := fold_left (fun s e => s + w (fst e) * snd e * snd e) r s.
(** 116-121; the old content of DL is not cleared by SetInterval *)
Definition scale_start (A : mat) (dl0 : nat -> R) : nat -> R :=
  fun k => safe_inv (sumsq (fun _ => 1) (nth k A []) (dl0 k)).
(** 124-130 *)
Fixpoint col_sums (dl : nat -> R) (k : nat) (A : mat) (dr : nat -> R) : nat -> R :=
  match A with
  | [] => dr
  | r :: A' => col_sums dl (S k) A' (fold_left (fun dr e => upd dr (fst e) (dr (fst e) + dl k * snd e * snd e)) r dr)
  end.
Definition scale_cols (A : mat) (dl : nat -> R) : nat -> R := fun k => safe_inv (col_sums dl 0 A (fun _ => 0) k).
(** 131-135 *)
Definition scale_rows (A : mat) (dr : nat -> R) : nat -> R := fun k => safe_inv (sumsq dr (nth k A []) 0).
(** 122-136 *)
Fixpoint scale_iter (A : mat) (iters : nat) (d : (nat -> R) * (nat -> R)) : (nat -> R) * (nat -> R) :=
  match iters with
  | O => d
  | S it => let dr := scale_cols A (fst d) in scale_iter A it (scale_rows A dr, dr)
  end.
(** 137-138; [dl0], [dr0]: the content of DL and DR before (zeros at first, PrepareVector) *)
Definition scaling (A : mat) (iters : nat) (dl0 dr0 : nat -> R) : (nat -> R) * (nat -> R) :=
  let d := scale_iter A iters (scale_start A dl0, dr0) in
  (fun k => sqrt (fst d k), fun k => sqrt (snd d k)).
Fixpoint map_rows (f : nat -> nat * R -> R) (k : nat) (A : mat) : mat :=
  match A with [] => [] | r :: A' => map (fun e => (fst e, f k e)) r :: map_rows f (S k) A' end.
(** 139-141 *)
Definition scale_matrix (d : (nat -> R) * (nat -> R)) (A : mat) : mat := map_rows (fun k e => fst d k * snd e * snd d (fst e)) 0 A.
(** 423-425 *)
Definition unscale_matrix (d : (nat -> R) * (nat -> R)) (A : mat) : mat := map_rows (fun k e => snd e / fst d k / snd d (fst e)) 0 A.

(** * The working row: RowIndeces (linked list with the head at vbeg-1) and RowValues *)
Inductive link := Undef | Eol | At (i : nat).
Record work := Work { hd : link; nx : nat -> link; vl : nat -> R }.
(** RowIndeces[prev] = l, None is vbeg-1 *)
Definition set_link (w : work) (prev : option nat) (l : link) : work :=
  match prev with None => Work l (nx w) (vl w) | Some i => Work (hd w) (upd (nx w) i l) (vl w) end.
Definition get_link (w : work) (prev : option nat) : link := match prev with None => hd w | Some i => nx w i end.
Definition set_val (w : work) (i : nat) (v : R) : work := Work (hd w) (nx w) (upd (vl w) i v).
(** EOL and UNDEF are larger than all indices *)
Definition link_lt (l : link) (k : nat) : bool := match l with At i => Nat.ltb i k | _ => false end.
Definition lt_link (k : nat) (l : link) : bool := match l with At i => Nat.ltb k i | _ => true end.
Definition is_undef (l : link) : bool := match l with Undef => true | _ => false end.

(** std::sort (179) *)
Fixpoint insert (x : nat) (l : list nat) : list nat :=
  match l with [] => [x] | y :: r => if Nat.leb x y then x :: l else y :: insert x r end.
Definition sort (l : list nat) : list nat := fold_right insert [] l.
(** 167-178 *)
Definition big (e : nat * R) : bool := if Rlt_dec eps (Rabs (snd e)) then true else false.
Definition load (r : row) (w : work) : work * list nat :=
  fold_left (fun s e => if big e then (set_val (fst s) (fst e) (snd e), snd s ++ [fst e]) else s) r (w, []).
(** 180-189; state: the working row, prev, ipred *)
Definition chain_up (k : nat) (l : list nat) (w : work) : work * option nat * option nat :=
  fold_left (fun s ind => let '(w, prev, ipred) := s in
    (set_link w prev (At ind), Some ind, if Nat.leb ind k then Some ind else ipred)) l (w, None, None).
(** 163-201 *)
Definition uncompress (k : nat) (r : row) (w : work) : work :=
  let '(w, l) := load r w in
  let '(w, prev, ipred) := chain_up k (sort l) w in
  let w := set_link w prev Eol in
  match ipred with
  | Some i => if Nat.eqb i k then w
              else let w := set_val w k 0 in let ind := get_link w ipred in set_link (set_link w ipred (At k)) (Some k) ind
  | None => let w := set_val w k 0 in let ind := get_link w ipred in set_link (set_link w ipred (At k)) (Some k) ind
  end.

(** One row of the factors. luv, lui hold for every row the entries of L, the inverted diagonal
    of L (ld), the inverted diagonal of U (ud) and the entries of U; rv, ri hold those of U2. *)
Record lurow := Lurow { lo : row; ld : R; ud : R; up : row; up2 : row }.

(** while (foll < ind) { curr = foll; foll = RowIndeces[curr]; } (231-236, 261-266); None: out of fuel *)
Fixpoint walk (fuel : nat) (w : work) (curr : nat) (foll : link) (ind : nat) : option (nat * link) :=
  match foll with
  | At f => if Nat.ltb f ind then match fuel with O => None | S fuel' => walk fuel' w f (nx w f) ind end else Some (curr, foll)
  | _ => Some (curr, foll)
  end.
(** 217-248, 250-279: row j of U times [v] is subtracted; None: an assertion fails *)
Definition update1 (n j : nat) (s : option (work * nat)) (e : nat * R) : option (work * nat) :=
  match s with
  | None => None
  | Some (w, curr) =>
    let ind := fst e in
    if negb (is_undef (nx w ind)) then Some (set_val w ind (vl w ind - vl w j * snd e), ind)
    else
      let flin := - vl w j * snd e in
      match walk n w curr (At curr) ind with
      | None => None
      | Some (curr, foll) =>
        if Nat.ltb curr ind && lt_link ind foll then
          Some (set_val (set_link (set_link w (Some curr) (At ind)) (Some ind) foll) ind flin, ind)
        else None
      end
  end.
Definition update (n j : nat) (r : row) (w : work) : option work :=
  match fold_left (update1 n j) r (Some (w, j)) with Some (w', _) => Some w' | None => None end.
(** 207-284: elimination of the lower part, from link [l]; [fs] are the rows before k *)
Fixpoint elim (fuel n k : nat) (tau tau2 : R) (fs : list lurow) (l : link) (w : work) : option work :=
  if link_lt l k then
    match l, fuel with
    | At j, S fuel' =>
      match nth_error fs j with
      | None => None
      | Some f =>
        let w := set_val w j (vl w j * ud f) in
        let leabs := Rabs (vl w j) in
        let w1 := if Rlt_dec tau2 leabs then
            match update n j (up f) w with
            | None => None
            | Some w' => if Rlt_dec tau leabs then update n j (up2 f) w' else Some w'
            end
          else Some w in
        match w1 with None => None | Some w' => elim fuel' n k tau tau2 fs (nx w' j) w' end
      end
    | _, _ => None
    end
  else Some w.

(** 289-297: the largest value from the diagonal on *)
Fixpoint row_max (fuel : nat) (w : work) (l : link) (m : R) : option R :=
  match l with
  | Eol => Some m
  | Undef => None
  | At j => match fuel with O => None | S fuel' => row_max fuel' w (nx w j) (Rmax m (Rabs (vl w j))) end
  end.
(** 298-303 *)
Definition row_scale (tau2 m : R) : R := if Rlt_dec m tau2 then 1 / tau2 else 1 / m.
(** 307-312 *)
Fixpoint scale_row (fuel : nat) (s : R) (l : link) (w : work) : option work :=
  match l with
  | Eol => Some w
  | Undef => None
  | At j => match fuel with O => None | S fuel' => scale_row fuel' s (nx w j) (set_val w j (vl w j * s)) end
  end.
(** mva > tau2*tau2 && mva > tau, and the second threshold (317-319, 365-382) *)
Definition keep (tau tau2 v : R) : bool :=
  if Rlt_dec (tau2 * tau2) (Rabs v) then if Rlt_dec tau (Rabs v) then true else false else false.
Definition keep2 (tau tau2 v : R) : bool :=
  if Rlt_dec (tau2 * tau2) (Rabs v) then
    if Rlt_dec tau (Rabs v) then false else if Rlt_dec tau2 (Rabs v) then true else false
  else false.
(** 313-332: the lower part is stored, the list is cleared *)
Fixpoint store_lower (fuel k : nat) (tau tau2 : R) (l : link) (w : work) (acc : row) : option (work * link * row) :=
  if link_lt l k then
    match l, fuel with
    | At j, S fuel' => store_lower fuel' k tau tau2 (nx w j) (set_link w (Some j) Undef) (if keep tau tau2 (vl w j) then acc ++ [(j, vl w j)] else acc)
    | _, _ => None
    end
  else Some (w, l, acc).
(** 342-348 *)
Definition pivot_inv (v : R) : R :=
  if Rlt_dec tol_modif (Rabs v) then 1 / v else (if Rlt_dec v 0 then -1 else 1) / tol_modif.
(** 363-389 *)
Fixpoint store_upper (fuel : nat) (tau tau2 : R) (l : link) (w : work) (acc acc2 : row) : option (work * row * row) :=
  match l with
  | Eol => Some (w, acc, acc2)
  | Undef => None
  | At j => match fuel with
    | O => None
    | S fuel' => store_upper fuel' tau tau2 (nx w j) (set_link w (Some j) Undef)
        (if keep tau tau2 (vl w j) then acc ++ [(j, vl w j)] else acc)
        (if keep2 tau tau2 (vl w j) then acc2 ++ [(j, vl w j)] else acc2)
    end
  end.
(** 285-394 *)
Definition compress (n k : nat) (tau tau2 : R) (w : work) : option (work * lurow) :=
  match row_max (S n) w (At k) 0 with
  | None => None
  | Some m =>
    let s := row_scale tau2 m in
    match scale_row (S n) s (At k) w with
    | None => None
    | Some w =>
      match store_lower (S n) k tau tau2 (hd w) w [] with
      | Some (w, At j, low) =>
        let d := pivot_inv (vl w j) in
        let jn := nx w j in
        match store_upper (S n) tau tau2 jn (set_link w (Some j) Undef) [] [] with
        | None => None
        | Some (w, u, u2) => Some (w, Lurow low s d u u2)
        end
      | _ => None
      end
    end
  end.
(** 149-396: one row and all rows *)
Definition factor_row (n : nat) (tau tau2 : R) (k : nat) (r : row) (w : work) (fs : list lurow) : option (work * lurow) :=
  let w := uncompress k r w in
  match elim (S n) n k tau tau2 fs (hd w) w with
  | None => None
  | Some w => compress n k tau tau2 w
  end.
Fixpoint factor_from (n : nat) (tau tau2 : R) (rows : mat) (w : work) (fs : list lurow) : option (list lurow) :=
  match rows with
  | [] => Some fs
  | r :: rows' =>
    match factor_row n tau tau2 (length fs) r w fs with
    | None => None
    | Some (w', f) => factor_from n tau tau2 rows' w' (fs ++ [f])
    end
  end.
(** 143-148: RowIndeces is UNDEF; RowValues are not initialized *)
Definition factor (tau tau2 : R) (vl0 : nat -> R) (A : mat) : option (list lurow) :=
  factor_from (length A) tau tau2 A (Work Undef (fun _ => Undef) vl0) [].
(** 400-420 *)
Definition rescale1 (d : (nat -> R) * (nat -> R)) (k : nat) (f : lurow) : lurow :=
  Lurow (map (fun e => (fst e, snd e / fst d k)) (lo f)) (ld f * fst d k) (ud f * snd d k)
        (map (fun e => (fst e, snd e / snd d (fst e))) (up f)) (up2 f).
Fixpoint rescale_from (d : (nat -> R) * (nat -> R)) (k : nat) (fs : list lurow) : list lurow :=
  match fs with [] => [] | f :: fs' => rescale1 d k f :: rescale_from d (S k) fs' end.
Definition rescale d fs := rescale_from d 0 fs.
(** Initialize (59-457): the factors and the matrix afterwards *)
Definition initialize (iters : nat) (tau tau2 : R) (dl0 dr0 vl0 : nat -> R) (A : mat) : option (list lurow * mat) :=
  let d := scaling A iters dl0 dr0 in
  let B := scale_matrix d A in
  match factor tau tau2 vl0 B with
  | None => None
  | Some fs => Some (rescale d fs, unscale_matrix d B)
  end.

(** * Solve (508-552) *)
(** output[k] -= sum; output[k] *= diag; *)
Definition lower_step (out : nat -> R) (kf : nat * lurow) : nat -> R :=
  let k := fst kf in let f := snd kf in
  let out := fold_left (fun o e => upd o k (o k - snd e * o (fst e))) (rev (lo f)) out in
  upd out k (out k * ld f).
Definition upper_step (out : nat -> R) (kf : nat * lurow) : nat -> R :=
  let k := fst kf in let f := snd kf in
  let out := fold_left (fun o e => upd o k (o k - snd e * o (fst e))) (up f) out in
  upd out k (out k * ud f).
Definition numbered (fs : list lurow) : list (nat * lurow) := combine (seq 0 (length fs)) fs.
Definition solve (fs : list lurow) (input : nat -> R) : nat -> R :=
  let out := fold_left lower_step (numbered fs) input in
  fold_left upper_step (rev (numbered fs)) out.
