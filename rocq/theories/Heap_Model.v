(** Model of BinaryHeap (Source/Misc/utils.h lines 36-122) and
    BinaryHeapCustom<KeyType,Comparator> (lines 124-227).

    Both classes have the same code up to the comparison: [cmp] is
    [Comparator()(a,b)]; BinaryHeap is the instance [cmp a b := a <= b]
    (its tests [keys[x] > keys[y]] are [!(keys[x] <= keys[y])], the same for
    numbers; NaN keys are not modelled).  Indices are naturals, ENUMUNDEF is
    [None], reads and writes outside of a vector give [None] (undefined
    behaviour).  The arrays [heap], [index] have size_max+1 entries. *)
From Coq Require Import List Bool Arith.
From Verif Require Import Util.
Import ListNotations.

Section Heap.
Context {K : Type}.
Variable cmp : K -> K -> bool.

(** lines 38-41 / 126-129 *)
Record hstate := { hsize : nat; heap : list (option nat); index : list (option nat); keys : list K }.

(** v[i] = x with bounds check *)
Definition vset {T} (v : list T) (i : nat) (x : T) : option (list T) :=
  if i <? length v then Some (lset v i x) else None.
(** heap[p] as an index into another vector: ENUMUNDEF is out of every vector *)
Definition hget (s : hstate) (p : nat) : option nat :=
  match nth_error (heap s) p with Some (Some a) => Some a | _ => None end.
(** keys[heap[p]] *)
Definition kat (s : hstate) (p : nat) : option K :=
  match hget s p with Some a => nth_error (keys s) a | None => None end.

(** lines 43-50 / 131-138 *)
Definition swap (s : hstate) (i j : nat) : option hstate :=
  match hget s i, hget s j with
  | Some t, Some u =>
      match vset (heap s) i (Some u) with
      | Some h1 => match vset h1 j (Some t) with
        | Some h2 => match vset (index s) u (Some i) with
          | Some x1 => match vset x1 t (Some j) with
            | Some x2 => Some {| hsize := hsize s; heap := h2; index := x2; keys := keys s |}
            | None => None end
          | None => None end
        | None => None end
      | None => None end
  | _, _ => None
  end.
(** lines 51-58 / 139-146; [fuel = k] suffices *)
Fixpoint bubble_up (fuel : nat) (s : hstate) (k : nat) : option hstate :=
  match fuel with
  | O => None
  | S f =>
      if k <=? 1 then Some s
      else match kat s (k / 2), kat s k with
           | Some a, Some b =>
               if cmp a b then Some s
               else match swap s k (k / 2) with
                    | Some s' => bubble_up f s' (k / 2)
                    | None => None end
           | _, _ => None end
  end.
(** the child chosen at lines 65-66 / 153-154 *)
Definition child (s : hstate) (k : nat) : option nat :=
  let j := 2 * k in
  if j <? hsize s
  then match kat s j, kat s (S j) with
       | Some a, Some b => Some (if cmp a b then j else S j)
       | _, _ => None end
  else Some j.
(** lines 59-72 / 147-160; [fuel = S size] suffices *)
Fixpoint bubble_down (fuel : nat) (s : hstate) (k : nat) : option hstate :=
  match fuel with
  | O => None
  | S f =>
      if hsize s <? 2 * k then Some s
      else match child s k with
           | None => None
           | Some j =>
               match kat s k, kat s j with
               | Some a, Some b =>
                   if cmp a b then Some s
                   else match swap s k j with
                        | Some s' => bubble_down f s' j
                        | None => None end
               | _, _ => None end
           end
  end.

(** lines 74-83 / 162-171; resize zero-fills the heap vector *)
Definition make (ks : list K) (len : nat) : hstate :=
  {| hsize := 0; heap := repeat (Some 0) (S len); index := repeat None (S len); keys := ks |}.
(** keys[i] = key *)
Definition set_key (s : hstate) (i : nat) (key : K) : option hstate :=
  match vset (keys s) i key with
  | Some ks => Some {| hsize := hsize s; heap := heap s; index := index s; keys := ks |}
  | None => None end.
(** lines 84-91 / 172-179 *)
Definition push (s : hstate) (i : nat) (key : K) : option hstate :=
  let n := S (hsize s) in
  match vset (index s) i (Some n) with
  | Some x => match vset (heap s) n (Some i) with
    | Some h => match vset (keys s) i key with
      | Some ks => bubble_up n {| hsize := n; heap := h; index := x; keys := ks |} n
      | None => None end
    | None => None end
  | None => None end.
(** lines 92-101 / 180-189; the result [None] is ENUMUNDEF *)
Definition pop (s : hstate) : option (hstate * option nat) :=
  if hsize s =? 0 then Some (s, None)
  else match hget s 1 with
       | None => None
       | Some m =>
           match swap s 1 (hsize s) with
           | None => None
           | Some s1 =>
               let s2 := {| hsize := hsize s - 1; heap := heap s1; index := index s1; keys := keys s1 |} in
               match bubble_down (S (hsize s2)) s2 1 with
               | None => None
               | Some s3 =>
                   match vset (index s3) m None, vset (heap s3) (S (hsize s3)) None with
                   | Some x, Some h => Some ({| hsize := hsize s3; heap := h; index := x; keys := keys s3 |}, Some m)
                   | _, _ => None end
               end
           end
       end.
(** lines 102-106 / 190-194 *)
Definition peek (s : hstate) : option (option nat) :=
  if hsize s =? 0 then Some None else option_map Some (hget s 1).
(** index[i] as an argument of bubbleUp/bubbleDown *)
Definition ipos (s : hstate) (i : nat) : option nat :=
  match nth_error (index s) i with Some (Some p) => Some p | _ => None end.
(** lines 107-111 / 195-199 *)
Definition decrease_key (s : hstate) (i : nat) (key : K) : option hstate :=
  match set_key s i key with
  | Some s1 => match ipos s1 i with Some p => bubble_up (S p) s1 p | None => None end
  | None => None end.
(** lines 200-204 *)
Definition increase_key (s : hstate) (i : nat) (key : K) : option hstate :=
  match set_key s i key with
  | Some s1 => match ipos s1 i with Some p => bubble_down (S (hsize s1)) s1 p | None => None end
  | None => None end.
(** lines 205-212: the comparison is made after the assignment *)
Definition change_key (s : hstate) (i : nat) (key : K) : option hstate :=
  match set_key s i key with
  | Some s1 =>
      match nth_error (keys s1) i, ipos s1 i with
      | Some ki, Some p => if negb (cmp ki key) then bubble_up (S p) s1 p
                           else bubble_down (S (hsize s1)) s1 p
      | _, _ => None end
  | None => None end.
(** lines 112-115 ([mx = Some max]) and 215-218 ([mx = None]) *)
Fixpoint clear_loop (fuel : nat) (mx : option K) (s : hstate) : option hstate :=
  match fuel with
  | O => None
  | S f => if hsize s =? 0 then Some s
           else match pop s with
                | Some (s', Some m) =>
                    match mx with
                    | Some v => match set_key s' m v with Some s'' => clear_loop f mx s'' | None => None end
                    | None => clear_loop f mx s' end
                | _ => None end
  end.
Definition clear (mx : option K) (s : hstate) : option hstate := clear_loop (S (hsize s)) mx s.
(** lines 116-119 / 219-222 *)
Definition contains (s : hstate) (i : nat) : option bool :=
  match nth_error (index s) i with Some (Some _) => Some true | Some None => Some false | None => None end.
End Heap.
Arguments hstate : clear implicits.
