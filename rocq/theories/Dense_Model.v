(** Dense matrices as the library stores them (row by row in one array), the lazy
    views on them, and assignment through views: Matrix, SymmetricMatrix and the
    view classes of Source/Headers/inmost_dense.h.  Values are taken from an
    ordered field (only its arithmetic is used). *)
From Coq Require Import List Arith Bool.
From Verif Require Import OField Util.
Import ListNotations.
Open Scope nat_scope.

Section Dense.
Variable F : ofield.

(** ** Matrix (1180-1790) *)

(** Rows(), Cols() and the array space. *)
Record mtx := mk_mtx { mr : nat; mc : nat; sp : list F }.

(** operator()(i,j) (1416-1440); None is a failed assertion. *)
Definition get (A : mtx) (i j : nat) : option F :=
  if (i <? mr A) && (j <? mc A) then nth_error (sp A) (i * mc A + j) else None.

Definition set (A : mtx) (i j : nat) (v : F) : option mtx :=
  if (i <? mr A) && (j <? mc A) && (i * mc A + j <? length (sp A))
  then Some (mk_mtx (mr A) (mc A) (lset (sp A) (i * mc A + j) v)) else None.

(** storage resize: keeps a prefix, new entries are zero. *)
Definition resize (l : list F) (k : nat) : list F := firstn k l ++ repeat f0 (k - length l).

(** for(i = lo; i < hi; ++i) with a body that can fail. *)
Definition forM {S : Type} (lo hi : nat) (body : nat -> S -> option S) (s : S) : option S :=
  fold_left (fun s k => match s with None => None | Some s => body k s end) (seq lo (hi - lo)) (Some s).

(** (B)(i,j) = (A)(k,l) *)
Definition copy_cell (i j k l : nat) (A B : mtx) : option mtx :=
  match get A k l with None => None | Some v => set B i j v end.

(** RemoveRow (1195-1204) and RemoveRows (1210-1223). *)
Definition remove_rows (first last : nat) (A : mtx) : option mtx :=
  if (first <? mr A) && (last <=? mr A) && (first <=? last) then
    let shift := last - first in
    match forM last (mr A) (fun k A => forM 0 (mc A) (fun l A => copy_cell (k - shift) l k l A A) A) A with
    | None => None
    | Some A => Some (mk_mtx (mr A - shift) (mc A) (resize (sp A) ((mr A - shift) * mc A)))
    end
  else None.

Definition remove_row (row : nat) (A : mtx) : option mtx :=
  if row <? mr A then
    match forM (S row) (mr A) (fun k A => forM 0 (mc A) (fun l A => copy_cell (k - 1) l k l A A) A) A with
    | None => None
    | Some A => Some (mk_mtx (mr A - 1) (mc A) (resize (sp A) ((mr A - 1) * mc A)))
    end
  else None.

(** Matrix(n,m): zero entries in a new array. *)
Definition new_mtx (n m : nat) : mtx := mk_mtx n m (repeat f0 (n * m)).

(** RemoveColumns (1244-1260); RemoveColumn (1226-1238) is the case last = first+1. *)
Definition remove_cols (first last : nat) (A : mtx) : option mtx :=
  if (first <? mc A) && (last <=? mc A) && (first <=? last) then
    let shift := last - first in
    forM 0 (mr A) (fun k T =>
      match forM 0 first (fun l T => copy_cell k l k l A T) T with
      | None => None
      | Some T => forM last (mc A) (fun l T => copy_cell k (l - shift) k l A T) T
      end) (new_mtx (mr A) (mc A - shift))
  else None.

(** RemoveSubset (1266-1285); no assertion on the arguments. *)
Definition remove_subset (fr lr fc lc : nat) (A : mtx) : option mtx :=
  let shr := lr - fr in
  let shc := lc - fc in
  let row k k' T :=
    match forM 0 fc (fun l T => copy_cell k' l k l A T) T with
    | None => None
    | Some T => forM lc (mc A) (fun l T => copy_cell k' (l - shc) k l A T) T
    end in
  match forM 0 fr (fun k T => row k k T) (new_mtx (mr A - shr) (mc A - shc)) with
  | None => None
  | Some T => forM lr (mr A) (fun k T => row k (k - shr) T) T
  end.

(** ** SymmetricMatrix (803-990) *)

(** operator()(i,j) (947-968): position in space. *)
Definition sym_index (n i j : nat) : nat :=
  let '(i, j) := if j <? i then (j, i) else (i, j) in j + n * i - i * (i + 1) / 2.

Record smtx := mk_smtx { sn : nat; ssp : list F }.

Definition sym_get (A : smtx) (i j : nat) : option F :=
  if (i <? sn A) && (j <? sn A) then nth_error (ssp A) (sym_index (sn A) i j) else None.

Definition sym_set (A : smtx) (i j : nat) (v : F) : option smtx :=
  if (i <? sn A) && (j <? sn A) && (sym_index (sn A) i j <? length (ssp A))
  then Some (mk_smtx (sn A) (lset (ssp A) (sym_index (sn A) i j) v)) else None.

(** Construction from another matrix, read through [rd] (890-898). *)
Definition sym_from (n : nat) (rd : nat -> nat -> option F) : option smtx :=
  forM 0 n (fun i A => forM i n (fun j A =>
    match rd i j with None => None | Some v => sym_set A i j v end) A)
    (mk_smtx n (repeat f0 (n * (n + 1) / 2))).

(** ** Views *)

(** Variables of type Matrix by number, and the static zero of
    BlockOfMatrix::operator() (2031). *)
Record store := mk_store { sm : nat -> mtx; sz : F }.

(** The coefficient of A*c and A/c is kept as a pointer (MatrixMulCoef 3145,
    MatrixDivCoef 3184): to a value of its own or to an entry of a matrix. *)
Inductive coef := Val (c : F) | Entry (x i j : nat).

Inductive view :=
| Whole (x : nat)                               (* a Matrix variable *)
| Sub (v : view) (r0 r1 c0 c1 : nat)            (* SubMatrix 1792-1892, ConstSubMatrix 1895-1952 *)
| Block (v : view) (nr nc r c : nat)            (* BlockOfMatrix 1955-2064, ConstBlockOfMatrix 2067-2124 *)
| Tr (v : view)                                 (* MatrixTranspose 2378-2425, ConstMatrixTranspose 2309-2341 *)
| CatRows (v w : view)                          (* MatrixConcatRows 2513-2567 *)
| CatCols (v w : view)                          (* MatrixConcatCols 2655-2709 *)
| Repack (v : view) (n m : nat)                 (* MatrixRepack 2752-2812 *)
| Sum (v w : view)                              (* MatrixSum 2223-2263 *)
| Diff (v w : view)                             (* MatrixDifference 2266-2306 *)
| Neg (v : view)                                (* MatrixUnaryMinus 2344-2375 *)
| Scale (v : view) (c : coef)                   (* MatrixMulCoef 3137-3173 *)
| DivBy (v : view) (c : coef)                   (* MatrixDivCoef 3176-3213 *)
| Kron (v w : view)                             (* KroneckerProduct 3295-3331 *)
| Lit (n m : nat) (f : nat -> nat -> F).        (* MatrixUnit, Row, Col, Diag 2127-2220; MatrixMul 2815-2875 holds its own matrix *)

Fixpoint rows (s : store) (v : view) : nat :=
  match v with
  | Whole x => mr (sm s x)
  | Sub _ r0 r1 _ _ => r1 - r0
  | Block _ nr _ _ _ => nr
  | Tr v => cols s v
  | CatRows v w => rows s v + rows s w
  | CatCols v _ => rows s v
  | Repack _ n _ => n
  | Sum v _ | Diff v _ | Neg v | Scale v _ | DivBy v _ => rows s v
  | Kron v w => rows s v * rows s w
  | Lit n _ _ => n
  end
with cols (s : store) (v : view) : nat :=
  match v with
  | Whole x => mc (sm s x)
  | Sub _ _ _ c0 c1 => c1 - c0
  | Block _ _ nc _ _ => nc
  | Tr v => rows s v
  | CatRows v _ => cols s v
  | CatCols v w => cols s v + cols s w
  | Repack _ _ m => m
  | Sum v _ | Diff v _ | Neg v | Scale v _ | DivBy v _ => cols s v
  | Kron v w => cols s v * cols s w
  | Lit _ m _ => m
  end.

Definition read_coef (s : store) (c : coef) : option F :=
  match c with Val a => Some a | Entry x i j => get (sm s x) i j end.

Definition lift2 (op : F -> F -> F) (a b : option F) : option F :=
  match a, b with Some a, Some b => Some (op a b) | _, _ => None end.

(** The const operator()(i,j) of the views. *)
Fixpoint read (s : store) (v : view) (i j : nat) : option F :=
  match v with
  | Whole x => get (sm s x) i j
  | Sub v r0 r1 c0 c1 => if (i <? r1 - r0) && (j <? c1 - c0) then read s v (i + r0) (j + c0) else None
  | Block v nr nc r c =>
      if (i <? nr) && (j <? nc) then
        if (i <? r) || (r + rows s v <=? i) || (j <? c) || (c + cols s v <=? j) then Some f0
        else read s v (i - r) (j - c)
      else None
  | Tr v => read s v j i
  | CatRows v w => if i <? rows s v then read s v i j else read s w (i - rows s v) j
  | CatCols v w => if j <? cols s v then read s v i j else read s w i (j - cols s v)
  | Repack v _ m => let p := i * m + j in read s v (p / cols s v) (p mod cols s v)
  | Sum v w => lift2 fadd (read s v i j) (read s w i j)
  | Diff v w => lift2 fsub (read s v i j) (read s w i j)
  | Neg v => match read s v i j with None => None | Some a => Some (fopp a) end
  | Scale v c => lift2 fmul (read s v i j) (read_coef s c)
  | DivBy v c => lift2 fdiv (read s v i j) (read_coef s c)
  | Kron v w => lift2 fmul (read s v (i / rows s w) (j / cols s w)) (read s w (i mod rows s w) (j mod cols s w))
  | Lit n m f => if (i <? n) && (j <? m) then Some (f i j) else None
  end.

(** The reference that the non-const operator()(i,j) returns: an entry of a
    matrix variable, or the static zero; None: assertion, or not writable. *)
Inductive place := Cell (x k l : nat) | Zero.

Fixpoint addr (s : store) (v : view) (i j : nat) : option place :=
  match v with
  | Whole x => if (i <? mr (sm s x)) && (j <? mc (sm s x)) then Some (Cell x i j) else None
  | Sub v r0 r1 c0 c1 => if (i <? r1 - r0) && (j <? c1 - c0) then addr s v (i + r0) (j + c0) else None
  | Block v nr nc r c =>
      if (i <? nr) && (j <? nc) then
        if (i <? r) || (r + rows s v <=? i) || (j <? c) || (c + cols s v <=? j) then Some Zero
        else addr s v (i - r) (j - c)
      else None
  | Tr v => addr s v j i
  | CatRows v w => if i <? rows s v then addr s v i j else addr s w (i - rows s v) j
  | CatCols v w => if j <? cols s v then addr s v i j else addr s w i (j - cols s v)
  | Repack v _ m => let p := i * m + j in addr s v (p / cols s v) (p mod cols s v)
  | _ => None
  end.

Definition put (s : store) (p : place) (a : F) : option store :=
  match p with
  | Zero => Some (mk_store (sm s) a)
  | Cell x k l =>
      match set (sm s x) k l a with
      | None => None
      | Some A => Some (mk_store (fun y => if y =? x then A else sm s y) (sz s))
      end
  end.

Definition fetch (s : store) (p : place) : option F :=
  match p with Zero => Some (sz s) | Cell x k l => get (sm s x) k l end.

(** v(i,j) = a *)
Definition write (s : store) (v : view) (i j : nat) (a : F) : option store :=
  match addr s v i j with None => None | Some p => put s p a end.

(** The element loop of operator= (1405-1409, 1834-1837, 682-685): the sizes are
    those of the right hand side, asked again in every round. *)
Definition copy_loop (t v : view) (s : store) : option store :=
  forM 0 (rows s v) (fun i s => forM 0 (cols s v) (fun j s =>
    match read s v i j with None => None | Some a => write s t i j a end) s) s.

(** A new value for the variable x. *)
Definition put_mtx (x : nat) (s : store) (A : mtx) : store := mk_store (fun y => if y =? x then A else sm s y) (sz s).

(** Matrix::operator=(AbstractMatrixReadOnly) (1399-1411). *)
Definition assign_mtx (x : nat) (v : view) (s : store) : option store :=
  let A := sm s x in
  let s := if mc A * mr A =? cols s v * rows s v then s
           else put_mtx x s (mk_mtx (mr A) (mc A) (resize (sp A) (cols s v * rows s v))) in
  let s := put_mtx x s (mk_mtx (rows s v) (mc (sm s x)) (sp (sm s x))) in
  let s := put_mtx x s (mk_mtx (mr (sm s x)) (cols s v) (sp (sm s x))) in
  copy_loop (Whole x) v s.

(** Matrix::operator=(Matrix) (1384-1397): x = y for two matrix variables. *)
Definition assign_same (x y : nat) (s : store) : option store :=
  if x =? y then Some s
  else
    let A := sm s x in
    let B := sm s y in
    let a := if mr A * mc A =? mr B * mc B then sp A else resize (sp A) (mr B * mc B) in
    match forM 0 (mr B * mc B) (fun i a =>
        match nth_error (sp B) i with
        | Some e => if i <? length a then Some (lset a i e) else None
        | None => None
        end) a with
    | None => None
    | Some a => Some (put_mtx x s (mk_mtx (mr B) (mc B) a))
    end.

(** Assignment to a view that cannot change its size (1829-1839, 676-700):
    sizes must agree. *)
Definition assign_view (t v : view) (s : store) : option store :=
  if (rows s t =? rows s v) && (cols s t =? cols s v) then copy_loop t v s else None.

(** += and -= (AbstractMatrix 3459-3469, 3489-3499). *)
Definition update_view (op : F -> F -> F) (t v : view) (s : store) : option store :=
  if (rows s t =? rows s v) && (cols s t =? cols s v) then
    forM 0 (rows s t) (fun i s => forM 0 (cols s t) (fun j s =>
      match lift2 op (read s t i j) (read s v i j) with None => None | Some a => write s t i j a end) s) s
  else None.

(** A product is computed into the view object when it is formed (2834-2868). *)
Definition product (s : store) (v w : view) : option view :=
  if cols s v =? rows s w then
    let entry i k :=
      let at_ j := match lift2 fmul (read s v i j) (read s w j k) with Some a => a | None => f0 end in
      fold_left (fun acc j => fadd acc (at_ j)) (seq 1 (cols s v - 1)) (at_ 0) in
    Some (Lit (rows s v) (cols s w) entry)
  else None.

(** S = T for two named SubMatrix objects of one type: the implicitly defined
    copy assignment copies the elements (AbstractMatrix::operator=, 676-685) and
    then the members (M, brow, erow, bcol, ecol), so S denotes T from then on. *)
Definition assign_sub (S T : view) (s : store) : option (store * view) :=
  match assign_view S T s with None => None | Some s => Some (s, T) end.

End Dense.
