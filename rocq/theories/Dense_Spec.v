(** What is said about dense matrices and views, apart from how the library
    computes it. *)
From Coq Require Import List Arith Bool.
From Verif Require Import OField Util Dense_Model.
Import ListNotations.
Open Scope nat_scope.

Section Dense.
Variable F : ofield.

(** A matrix has an array of as many entries as its size says. *)
Definition stored (A : mtx F) : Prop := length (sp F A) = mr F A * mc F A.
Definition stored_all (s : store F) : Prop := forall x, stored (sm F s x).

(** Two states in which the matrices have the same sizes. *)
Definition same_shape (s s' : store F) : Prop :=
  forall x, mr F (sm F s' x) = mr F (sm F s x) /\ mc F (sm F s' x) = mc F (sm F s x).

(** The conditions under which a view may be formed. *)
Fixpoint proper (s : store F) (v : view F) : Prop :=
  let good c := match c with Val _ _ => True | Entry _ x i j => i < mr F (sm F s x) /\ j < mc F (sm F s x) end in
  match v with
  | Whole _ _ => True
  | Sub _ v r0 r1 c0 c1 => proper s v /\ r0 <= r1 <= rows F s v /\ c0 <= c1 <= cols F s v
  | Block _ v nr nc r c => proper s v /\ r + rows F s v <= nr /\ c + cols F s v <= nc
  | Tr _ v | Neg _ v => proper s v
  | CatRows _ v w => proper s v /\ proper s w /\ cols F s v = cols F s w
  | CatCols _ v w => proper s v /\ proper s w /\ rows F s v = rows F s w
  | Repack _ v n m => proper s v /\ rows F s v * cols F s v = n * m
  | Sum _ v w | Diff _ v w => proper s v /\ proper s w /\ rows F s v = rows F s w /\ cols F s v = cols F s w
  | Scale _ v c | DivBy _ v c => proper s v /\ good c
  | Kron _ v w => proper s v /\ proper s w
  | Lit _ _ _ _ => True
  end.

(** Two views show the same matrix. *)
Definition shows (s : store F) (v w : view F) : Prop :=
  rows F s v = rows F s w /\ cols F s v = cols F s w /\
  forall i j, i < rows F s v -> j < cols F s v -> read F s v i j = read F s w i j.

(** The entries row by row. *)
Definition row_list (s : store F) (v : view F) : list (option F) :=
  flat_map (fun i => map (fun j => read F s v i j) (seq 0 (cols F s v))) (seq 0 (rows F s v)).

(** Entry (i,j), zero outside. *)
Definition val (s : store F) (v : view F) (i j : nat) : F := match read F s v i j with Some a => a | None => f0 end.

(** The matrix variables a view looks at. *)
Fixpoint uses (x : nat) (v : view F) : Prop :=
  let in_coef c := match c with Val _ _ => False | Entry _ y _ _ => x = y end in
  match v with
  | Whole _ y => x = y
  | Sub _ v _ _ _ _ | Block _ v _ _ _ _ | Tr _ v | Neg _ v | Repack _ v _ _ => uses x v
  | CatRows _ v w | CatCols _ v w | Sum _ v w | Diff _ v w | Kron _ v w => uses x v \/ uses x w
  | Scale _ v c | DivBy _ v c => uses x v \/ in_coef c
  | Lit _ _ _ _ => False
  end.

(** Views whose entries are entries of matrices, no entry twice. *)
Fixpoint window (v : view F) : Prop :=
  match v with
  | Whole _ _ => True
  | Sub _ v _ _ _ _ | Tr _ v | Repack _ v _ _ => window v
  | CatRows _ v w | CatCols _ v w => window v /\ window w /\ forall x, ~ (uses x v /\ uses x w)
  | _ => False
  end.

(** Entry (k,l) of w does not change, whatever is written to t(i,j), in any state
    of the same sizes. *)
Definition unaffected (s : store F) (w : view F) (k l : nat) (t : view F) (i j : nat) : Prop :=
  forall s1 s2 a, stored_all s1 -> same_shape s s1 -> write F s1 t i j a = Some s2 ->
    read F s2 w k l = read F s1 w k l.

(** Row by row. *)
Definition earlier (i' j' i j : nat) : Prop := i' < i \/ (i' = i /\ j' < j).

(** Entry (i,j) of v is not affected by writing the entries of t that come before it. *)
Definition no_overtaking (s : store F) (t v : view F) : Prop :=
  forall i j i' j', i < rows F s v -> j < cols F s v -> i' < rows F s v -> j' < cols F s v ->
    earlier i' j' i j -> unaffected s v i j t i' j'.

(** The views in which entry (i,j) depends only on entries (i,j) of x. *)
Fixpoint aligned (x : nat) (v : view F) : Prop :=
  let apart c := match c with Val _ _ => True | Entry _ y _ _ => x <> y end in
  match v with
  | Whole _ _ => True
  | Sum _ v w | Diff _ v w => aligned x v /\ aligned x w
  | Neg _ v => aligned x v
  | Scale _ v c | DivBy _ v c => aligned x v /\ apart c
  | _ => ~ uses x v
  end.

End Dense.
