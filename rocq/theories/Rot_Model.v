(** Vectors of three entries: CrossProduct and Transform of
    AbstractMatrixReadOnly (Source/Headers/inmost_dense.h), over the reals.
    Rounding is not modelled. *)
From Coq Require Import Reals.
Open Scope R_scope.

(** A(0,0), A(1,0), A(2,0). *)
Record vec := mk_vec { v0 : R; v1 : R; v2 : R }.

(** CrossProduct (3366-3385), one column of B. *)
Definition cross (A B : vec) : vec :=
  mk_vec (v1 A * v2 B - v2 A * v1 B) (v2 A * v0 B - v0 A * v2 B) (v0 A * v1 B - v1 A * v0 B).

(** DotProduct and FrobeniusNorm (408-436) for a column of three. *)
Definition dot (A B : vec) : R := 0 + v0 A * v0 B + v1 A * v1 B + v2 A * v2 B.
Definition norm (A : vec) : R := sqrt (0 + v0 A * v0 A + v1 A * v1 A + v2 A * v2 A).

(** A 3x3 matrix by rows. *)
Record mat3 := mk_mat3 { r0 : vec; r1 : vec; r2 : vec }.

(** Transform (3387-3425). *)
Definition transform (A B : vec) : mat3 :=
  let x := - (v1 B * v2 A - v2 B * v1 A) in
  let y := - (v2 B * v0 A - v0 B * v2 A) in
  let z := - (v0 B * v1 A - v1 B * v0 A) in
  let w := norm A * norm B + dot A B in
  let l := norm B / norm A in
  let n := 2 * l / (x * x + y * y + z * z + w * w) in
  mk_mat3
    (mk_vec (l - (y * y + z * z) * n) ((x * y - z * w) * n) ((x * z + y * w) * n))
    (mk_vec ((x * y + z * w) * n) (l - (x * x + z * z) * n) ((y * z - x * w) * n))
    (mk_vec ((x * z - y * w) * n) ((y * z + x * w) * n) (l - (x * x + y * y) * n)).
