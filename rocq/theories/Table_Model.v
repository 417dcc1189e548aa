(** Model of [keyval_table] (Source/Headers/inmost_expression.h 2204-2290): search,
    value, derivative, assignment.  Numbers are elements of an ordered field (no
    rounding, no NaN); [int] is unbounded.  Access outside the arrays is [None]. *)
From Coq Require Import List Arith ZArith Lia Bool.
From Verif Require Import Util OField.
Import ListNotations.
Open Scope Z_scope.

Section Model.
Variable F : ofield.

(** The fields [args], [vals], [size]; a null pointer is the empty array. *)
Record keyval := mk_kv { kv_args : list F; kv_vals : list F; kv_size : nat }.

(** Reading an array at an index. *)
Definition at_ (l : list F) (i : Z) : option F := if i <? 0 then None else nth_error l (Z.to_nat i).

(** Lines 2211-2218: the loop; [fuel] is larger than the number of entries. *)
Fixpoint search (fuel : nat) (args : list F) (arg : F) (l r : Z) : option (Z * Z) :=
  match fuel with
  | O => None
  | S fuel' =>
      if r <? l then Some (l, r)
      else
        let mid := Z.quot (l + r) 2 in
        match at_ args mid with
        | None => None
        | Some a =>
            if (arg <? a)%F then search fuel' args arg l (mid - 1)
            else if (a <? arg)%F then search fuel' args arg (mid + 1) r
            else Some (l, r)
        end
  end.

(** Lines 2209-2222 [binary_search]; [size - 2] is converted back to [int]. *)
Definition binary_search (t : keyval) (arg : F) : option Z :=
  match search (S (kv_size t)) (kv_args t) arg 0 (Z.of_nat (kv_size t) - 1) with
  | None => None
  | Some (l, r) =>
      let mid := Z.quot (l + r) 2 in
      let bound := Z.of_nat (kv_size t) - 2 in
      Some (if bound <? mid then bound else mid)
  end.

(** The four numbers used by the queries. *)
Definition segment (t : keyval) (i : Z) : option (F * F * F * F) :=
  match at_ (kv_args t) i, at_ (kv_args t) (i + 1), at_ (kv_vals t) i, at_ (kv_vals t) (i + 1) with
  | Some a, Some b, Some u, Some w => Some (a, b, u, w)
  | _, _, _, _ => None
  end.

(** Lines 2224-2229 [GetValue]. *)
Definition get_value (t : keyval) (arg : F) : option F :=
  match at_ (kv_args t) 0 with
  | None => None
  | Some a0 =>
      if (arg <? a0)%F then at_ (kv_vals t) 0
      else match binary_search t arg with
           | None => None
           | Some i =>
               match segment t i with
               | Some (a, b, u, w) => Some (u + (w - u) * (arg - a) / (b - a))%F
               | None => None
               end
           end
  end.

(** Lines 2230-2235 [GetDerivative]. *)
Definition get_derivative (t : keyval) (arg : F) : option F :=
  match at_ (kv_args t) 0 with
  | None => None
  | Some a0 =>
      if (arg <? a0)%F then Some 0%F
      else match binary_search t arg with
           | None => None
           | Some i =>
               match segment t i with
               | Some (a, b, u, w) => Some ((w - u) / (b - a))%F
               | None => None
               end
           end
  end.

(** Lines 2236-2242 [GetBoth]. *)
Definition get_both (t : keyval) (arg : F) : option (F * F) :=
  match at_ (kv_args t) 0 with
  | None => None
  | Some a0 =>
      if (arg <? a0)%F then match at_ (kv_vals t) 0 with Some u => Some (u, 0%F) | None => None end
      else match binary_search t arg with
           | None => None
           | Some i =>
               match segment t i with
               | Some (a, b, u, w) =>
                   let der := ((w - u) / (b - a))%F in Some ((u + der * (arg - a))%F, der)
               | None => None
               end
           end
  end.

(** Lines 2244-2254: the constructor from arrays of [n] entries. *)
Definition make (args vals : list F) (n : nat) : keyval := mk_kv (firstn n args) (firstn n vals) n.

(** Lines 2286-2292 [Clear]. *)
Definition clear (t : keyval) : keyval := mk_kv [] [] 0.

(** Lines 2266-2278: assignment of table number [y] to number [x] of a list of
    tables: [Clear] acts on the left side before the right side is read. *)
Definition assign (ts : list keyval) (x y : nat) : list keyval :=
  match nth_error ts x with
  | None => ts
  | Some t =>
      let ts1 := lset ts x (clear t) in
      match nth_error ts1 y with
      | None => ts1
      | Some other => lset ts1 x (mk_kv (firstn (kv_size other) (kv_args other)) (firstn (kv_size other) (kv_vals other)) (kv_size other))
      end
  end.

End Model.
