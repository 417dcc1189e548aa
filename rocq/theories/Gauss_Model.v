(** Dense linear algebra: Solve, Invert, CholeskySolve, CholeskyInvert, Det of
    Source/Headers/inmost_dense.h, in exact arithmetic over an ordered field.

    A matrix is a function from row and column to value together with its sizes
    (passed separately); [operator()(i,j)] on the storage is the subject of
    Dense_Model.v.  Loops are folds that run in the order of the code and update
    the matrices in place. *)
From Coq Require Import List Arith Bool.
From Verif Require Import OField.
Import ListNotations.
Open Scope nat_scope.

Section Gauss.
Variable F : ofield.
Local Open Scope of_scope.

Definition mat := nat -> nat -> F.

(** Assignment M(i,j) = v (inmost_dense.h 1416-1422). *)
Definition upd (M : mat) (i j : nat) (v : F) : mat :=
  fun a b => if (a =? i)%nat && (b =? j)%nat then v else M a b.

(** for(k = lo; k < hi; ++k) body *)
Definition for_ {S : Type} (lo hi : nat) (body : nat -> S -> S) (s : S) : S :=
  fold_left (fun s k => body k s) (seq lo (hi - lo)) s.

(** MatrixMul (2847-2868): an n by m product of n by p and p by m; the first
    column of the left factor initialises the entry, so p must not be 0. *)
Definition mat_mul (p : nat) (A B : mat) : mat :=
  fun i k => for_ 1 p (fun j acc => acc + A i j * B j k) (A i 0%nat * B 0%nat k).

(** ConstMatrixTranspose (2309-2341). *)
Definition transpose (A : mat) : mat := fun i j => A j i.

(** MatrixUnit (2127-2148). *)
Definition unit_mat : mat := fun i j => if (i =? j)%nat then 1 else 0.

(** ** Solve (4341-4498) *)

(** "Find best pivot" (4375-4392): the largest entry in absolute value of the
    block from (i,i) to (m,m); the state is (max, maxk, maxq). *)
Definition find_pivot (m i : nat) (a : mat) : F * nat * nat :=
  for_ i m (fun k s =>
    for_ i m (fun q s =>
      let '(mx, mk, mq) := s in
      let v := fabs (a k q) in
      if mx <? v then (v, k, q) else (mx, mk, mq)) s) (fabs (a i i), i, i).

(** "Exchange rows" (4393-4411) of a matrix with [w] columns. *)
Definition swap_rows (w : nat) (p i : nat) (a : mat) : mat :=
  for_ 0 w (fun q a => let temp := a p q in upd (upd a p q (a i q)) i q temp) a.

(** "Exchange columns" (4412-4421). *)
Definition swap_cols (m : nat) (p i : nat) (a : mat) : mat :=
  for_ 0 m (fun k a => let temp := a k p in upd (upd a k p (a k i)) k i temp) a.

(** "remember order in sol" (4422-4428). *)
Definition swap_ord (p i : nat) (o : nat -> nat) : nat -> nat :=
  fun x => if (x =? i)%nat then o p else if (x =? p)%nat then o i else o x.

(** The matrix AtA, the right hand side AtB, the array order, and the list of
    pivots met (bookkeeping, not in the code). *)
Record gst := mk_gst { ga : mat; gb : mat; go : nat -> nat; gp : list F }.

(** Pivoting of one step (4375-4430). *)
Definition pivot_step (m l i : nat) (s : gst) : gst :=
  let '(_, maxk, maxq) := find_pivot m i (ga s) in
  let '(a, b) := if (maxk =? i)%nat then (ga s, gb s)
                 else (swap_rows m maxk i (ga s), swap_rows l maxk i (gb s)) in
  let '(a, o) := if (maxq =? i)%nat then (a, go s)
                 else (swap_cols m maxq i a, swap_ord maxq i (go s)) in
  mk_gst a b o (gp s).

(** "Check small entry" (4431-4461): a small pivot is replaced by 1e-12 with its
    sign when the row of the right hand side is small too, otherwise the
    function gives up. *)
Definition small_ok (l i : nat) (b : mat) : bool :=
  forallb (fun k => negb (1 <? fabs (b i k / e_minus 54))) (seq 0 l).

Definition check_small (l i : nat) (s : gst) : option gst :=
  let s := mk_gst (ga s) (gb s) (go s) (ga s i i :: gp s) in
  if fabs (ga s i i) <? e_minus 54 then
    if small_ok l i (gb s)
    then Some (mk_gst (upd (ga s) i i (if ga s i i <? 0 then - e_minus 12 else e_minus 12)) (gb s) (go s) (gp s))
    else None
  else Some s.

(** "Divide row and column by diagonal values" (4462-4467). *)
Definition divide (m i : nat) (a : mat) : mat :=
  for_ (S i) m (fun k a =>
    let a := upd a i k (a i k / a i i) in
    upd a k i (a k i / a i i)) a.

(** "Elimination step for matrix" (4468-4473). *)
Definition eliminate (m i : nat) (a : mat) : mat :=
  for_ (S i) m (fun k a =>
    for_ (S i) m (fun q a => upd a k q (a k q - a k i * a i i * a i q)) a) a.

(** "Elimination step for right hand side" (4474-4482). *)
Definition eliminate_rhs (m l i : nat) (a b : mat) : mat :=
  for_ 0 l (fun k b =>
    let b := for_ (S i) m (fun j b => upd b j k (b j k - b i k * a j i)) b in
    upd b i k (b i k / a i i)) b.

(** One iteration of the main loop (4373-4483). *)
Definition gauss_step (m l i : nat) (s : gst) : option gst :=
  match check_small l i (pivot_step m l i s) with
  | None => None
  | Some s =>
      let a := eliminate m i (divide m i (ga s)) in
      Some (mk_gst a (eliminate_rhs m l i a (gb s)) (go s) (gp s))
  end.

(** Outcome: the solution with *ierr = 0, or *ierr = i+1. *)
Inductive outcome := Solved (X : mat) | Failed (ierr : nat).

(** "Back substitution step" (4484-4494), including the final scatter by order. *)
Definition back_subst (m : nat) (a b : mat) (k : nat) : mat :=
  fold_left (fun b i => for_ (S i) m (fun j b => upd b i k (b i k - b j k * a i j)) b) (rev (seq 0 m)) b.

Definition back (m l : nat) (s : gst) : mat :=
  snd (for_ 0 l (fun k br =>
         let b := back_subst m (ga s) (fst br) k in
         (b, for_ 0 m (fun i r => upd r (go s i) k (b i k)) (snd br))) (gb s, fun _ _ => 0)).

(** The main loop over a list of indices; returns the outcome and the pivots
    that were met, most recent first. *)
Fixpoint gauss_loop (m l : nat) (is : list nat) (s : gst) : outcome * list F :=
  match is with
  | [] => (Solved (back m l s), gp s)
  | i :: rest =>
      match gauss_step m l i s with
      | None => (Failed (S i), ga (pivot_step m l i s) i i :: gp s)
      | Some s' => gauss_loop m l rest s'
      end
  end.

(** Solve of an n by m matrix with an n by l right hand side (4344-4498). *)
Definition solve_pivots (n m l : nat) (A B : mat) : outcome * list F :=
  gauss_loop m l (seq 0 m) (mk_gst (mat_mul n (transpose A) A) (mat_mul n (transpose A) B) (fun i => i) []).

Definition solve (n m l : nat) (A B : mat) : outcome := fst (solve_pivots n m l A B).

(** Invert (3868-3875). *)
Definition invert (n m : nat) (A : mat) : outcome := solve n m n A unit_mat.

(** ** CholeskySolve (3887-3991) *)

(** SymmetricMatrix element access (947-968): the entry is stored once. *)
Definition sget (L : mat) (i j : nat) : F := if (j <? i)%nat then L j i else L i j.
Definition sset (L : mat) (i j : nat) (v : F) : mat := if (j <? i)%nat then upd L j i v else upd L i j v.

(** "Outer product" (3928-3963); [sq] is sqrt. *)
Definition chol_step (sq : F -> F) (n k : nat) (L : mat) : option mat :=
  if sget L k k <? 0 then None else
  let L := sset L k k (sq (sget L k k)) in
  if fabs (sget L k k) <? e_minus 24 then None else
  let L := for_ (S k) n (fun i L => sset L i k (sget L i k / sget L k k)) L in
  Some (for_ (S k) n (fun j L =>
          for_ j n (fun i L => sset L i j (sget L i j - sget L i k * sget L j k)) L) L).

Fixpoint chol_loop (sq : F -> F) (n : nat) (ks : list nat) (L : mat) : mat + nat :=
  match ks with
  | [] => inl L
  | k :: rest =>
      match chol_step sq n k L with
      | None => inr (S k)
      | Some L => chol_loop sq n rest L
      end
  end.

(** "LY=B" (3964-3974). *)
Definition forward (n l : nat) (L Y : mat) : mat :=
  for_ 0 n (fun i Y =>
    for_ 0 l (fun k Y =>
      let Y := for_ 0 i (fun j Y => upd Y i k (Y i k - Y j k * sget L j i)) Y in
      upd Y i k (Y i k / sget L i i)) Y) Y.

(** "L^TX = Y" (3975-3989); the inner loop also runs downwards. *)
Definition backward (n l : nat) (L X : mat) : mat :=
  fold_left (fun X i =>
    for_ 0 l (fun k X =>
      let X := fold_left (fun X j => upd X i k (X i k - X j k * sget L i j)) (rev (seq (S i) (n - S i))) X in
      upd X i k (X i k / sget L i i)) X) (rev (seq 0 n)) X.

(** "*L = A" (3899) copies the part with i <= j only (SymmetricMatrix::operator=,
    931-941); the copy into a function needs no statement because [sget] and
    [sset] look at that part only. *)
Definition chol_solve (sq : F -> F) (n l : nat) (A B : mat) : outcome :=
  match chol_loop sq n (seq 0 n) A with
  | inr e => Failed e
  | inl L => Solved (backward n l L (forward n l L B))
  end.

(** CholeskyInvert (3877-3884). *)
Definition chol_invert (sq : F -> F) (n : nat) (A : mat) : outcome := chol_solve sq n n A unit_mat.

(** ** Det (209-241) *)

(** "find unvisited row with non-zero value in column d" (221-229): the row and
    the sign, or None where the code returns zero.  [vis r] is
    row_visited(r,0) != -1; [fuel] counts the rows from r on.  The third
    component lists the values that were compared with eps (bookkeeping). *)
Fixpoint det_find (eps : F) (fuel : nat) (vis : nat -> bool) (A : mat) (d r : nat) (sign : F)
  : option (nat * F) * list F :=
  match fuel with
  | O => (None, [])
  | S fuel' =>
      if vis r then det_find eps fuel' vis A d (S r) sign
      else if fabs (A r d) <? eps then
        let '(res, seen) := det_find eps fuel' vis A d (S r) (- sign) in (res, A r d :: seen)
      else (Some (r, sign), [A r d])
  end.

(** The elimination (232-238). *)
Definition det_elim (eps : F) (n : nat) (vis : nat -> bool) (r d : nat) (A : mat) : mat * list F :=
  for_ 0 n (fun i (s : mat * list F) =>
    let '(A, seen) := s in
    if vis i then s else
    let coef := A i d / A r d in
    if eps <? fabs coef
    then (for_ 0 n (fun j A => upd A i j (A i j - coef * A r j)) A, coef :: seen)
    else (A, coef :: seen)) (A, []).

Fixpoint det_loop (eps : F) (n : nat) (ds : list nat) (vis : nat -> bool) (A : mat) (ret : F) (seen : list F)
  : F * list F :=
  match ds with
  | [] => (ret, seen)
  | d :: rest =>
      let '(res, s1) := det_find eps n vis A d 0 1 in
      match res with
      | None => (0, s1 ++ seen)
      | Some (r, sign) =>
          let vis := fun x => (x =? r)%nat || vis x in
          let '(A', s2) := det_elim eps n vis r d A in
          det_loop eps n rest vis A' (ret * (sign * A r d)) (s2 ++ s1 ++ seen)
      end
  end.

Definition det_seen (n : nat) (A : mat) : F * list F :=
  det_loop (e_minus 13) n (seq 0 n) (fun _ => false) A 1 [].

Definition det (n : nat) (A : mat) : F := fst (det_seen n A).

End Gauss.
