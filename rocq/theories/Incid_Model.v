(** Model of the class incident_matrix (Source/Mesh/incident_matrix.hpp, the variant without
    NEW_ALGORITHM, 92-702), with which Face::SplitFace (Source/Mesh/modify.cpp 1481-1640) and
    Cell::SplitCell (1674-1745) find the loops that become new faces and cells.

    An element given to the constructor is a column; its number is its position.  [head] are
    the handles of the columns, [low] the handles of their lower elements (LowConn), [meas] the
    geometric measure of the columns as a rational number.  The sub-elements are the rows.
    Left out: printing, RECORD_PATH, DEEP_RECURSE (not defined), hide_row (written, never
    read), exit_recurse (only ever false), the private markers (a marked handle is a handle in
    the list), copying of matrices.  Rounding of measures is not modelled.  The result [None]
    means that the fuel ran out or that insert_order and the length of the loop disagree
    (temp_loop would then hold invalid handles). *)
From Coq Require Import List Bool Arith ZArith QArith Qabs.
Import ListNotations.
Local Close Scope Q_scope.
Local Open Scope nat_scope.

(** incident_matrix.hpp 5 *)
Definition eps : Q := 1 # 100000000000.
(** 647 *)
Definition huge : Q := inject_Z (10 ^ 20).

Definition has (l : list nat) (h : nat) : bool := existsb (Nat.eqb h) l.
Definition tab {A : Type} (n : nat) (f : nat -> A) : list A := map f (seq 0 n).

(** head_row, 561-575: lower elements in the order of their first appearance *)
Definition add_new (rows : list nat) (h : nat) : list nat := if has rows h then rows else rows ++ [h].
Definition row_heads (low : list (list nat)) : list nat := fold_left (fun rs l => fold_left add_new l rs) low [].
(** mat_num, 576-581 *)
Fixpoint row_of (rows : list nat) (h : nat) : nat :=
  match rows with
  | [] => 0
  | r :: t => if r =? h then 0 else S (row_of t h)
  end.

Section Matrix.
Variable head : list nat.
Variable low : list (list nat).
Variable meas : list Q.

Definition columns : nat := length head.
Definition rows : nat := length (row_heads low).
(** matrix, 585-596 *)
Definition matrix (q i : nat) : bool := existsb (fun h => row_of (row_heads low) h =? i) (nth q low []).

Record state := State {
  count : list nat;        (** head_row_count *)
  hidden : list bool;      (** hide_column *)
  stub : list bool;        (** stub_row *)
  order : list nat;        (** insert_order *)
  best : list nat;         (** min_loop *)
  best_measure : Q         (** min_loop_measure *)
}.
(** 597-600 *)
Definition start : state := State (tab rows (fun _ => 0)) (tab columns (fun _ => true)) (tab rows (fun _ => false)) [] [] 0%Q.
(** 558-559 *)
Definition first_visits (inner : nat) : list Z := tab columns (fun q => if q <? inner then 2%Z else 1%Z).

Definition put {A : Type} (l : list A) (k : nat) (v d : A) : list A := tab (length l) (fun i => if i =? k then v else nth i l d).

(** do_hide_row, 114-132 *)
Definition do_hide (k : nat) (s : state) : state :=
  if nth k (hidden s) true then s else
  let c := tab rows (fun i => if matrix k i then nth i (count s) 0 - 1 else nth i (count s) 0) in
  State c (put (hidden s) k true true)
    (tab rows (fun i => if matrix k i && (nth i c 0 =? 0) then false else nth i (stub s) false))
    (removelast (order s)) (best s) (best_measure s).
(** do_show_row, 134-162 *)
Definition do_show (k : nat) (s : state) : bool * state :=
  if nth k (hidden s) true then
    let c := tab rows (fun i => if matrix k i then S (nth i (count s) 0) else nth i (count s) 0) in
    let success := forallb (fun i => negb (matrix k i && (2 <? nth i c 0))) (seq 0 rows) in
    let s' := State c (put (hidden s) k false true) (stub s) (order s ++ [k]) (best s) (best_measure s) in
    (success, if success then s' else do_hide k s')
  else (true, s).
(** test_success, 163-175 *)
Definition test_success (s : state) : bool := forallb (fun i => negb (nth i (count s) 0 =? 1)) (seq 0 rows).
(** compute_measure, 176-185 *)
Definition compute_measure (l : list nat) : Q := fold_left (fun a q => (a + nth q meas 0)%Q) l 0%Q.
(** 404-440: a closed loop is compared with the best one so far *)
Definition record_loop (len : nat) (s : state) : option state :=
  if length (order s) =? len then
    let m := compute_measure (order s) in
    Some (if (length (best s) =? 0) || Qle_bool m (best_measure s + eps) then
            if negb (negb (Qle_bool eps (Qabs (best_measure s - m))) && (length (best s) <? length (order s)))
            then State (count s) (hidden s) (stub s) (order s) (order s) m
            else s
          else s)
  else None.
Definition set_stub (j : nat) (s : state) : state :=
  State (count s) (hidden s) (put (stub s) j true false) (order s) (best s) (best_measure s).

Section Find.
Variable visits : list Z.
(** 448-454 and 469-475: all elements that continue over row [j] *)
Fixpoint explore (go : nat -> state -> option state) (j : nat) (qs : list nat) (s : state) : option state :=
  match qs with
  | [] => Some s
  | q :: r =>
    if (0 <? nth q visits 0)%Z && matrix q j && nth q (hidden s) true
    then match go q s with None => None | Some s' => explore go j r s' end
    else explore go j r s
  end.
(** 444-462 with [own] true, 464-484 with [own] false; the boolean is the variable stub *)
Fixpoint scan (go : nat -> state -> option state) (own : bool) (node : nat) (js : list nat) (s : state) : option (bool * state) :=
  match js with
  | [] => Some (false, s)
  | j :: r =>
    if negb (nth j (stub s) false) && eqb (matrix node j) own && (nth j (count s) 0 =? 1) then
      match explore go j (seq 0 columns) s with
      | None => None
      | Some s' => if nth j (count s') 0 =? 1 then Some (true, set_stub j s') else scan go own node r s'
      end
    else scan go own node r s
  end.
(** recursive_find, 384-492 *)
Fixpoint recursive_find (f node len : nat) (s : state) : option state :=
  match f with
  | O => None
  | S f' =>
    if negb (length (best s) =? 0) && (length (best s) <? len) then Some s else
    let reset s := if len =? 1 then State (count s) (hidden s) (tab rows (fun _ => false)) (order s) (best s) (best_measure s) else s in
    let (shown, s1) := do_show node s in
    if shown then
      if test_success s1 then
        match record_loop len s1 with None => None | Some s2 => Some (reset (do_hide node s2)) end
      else
        match scan (fun q => recursive_find f' q (S len)) true node (seq 0 rows) s1 with
        | None => None
        | Some (true, s2) => Some (reset (do_hide node s2))
        | Some (false, s2) =>
          match scan (fun q => recursive_find f' q (S len)) false node (seq 0 rows) s2 with
          | None => None
          | Some (_, s3) => Some (reset (do_hide node s3))
          end
        end
    else Some (reset s1)
  end.
End Find.

(** find_shortest_loop, 631-664: the element to start from, given up if nothing is found *)
Fixpoint search (f : nat) (visits : list Z) (s : state) : option (list Z * state) :=
  match f with
  | O => None
  | S f' =>
    match find (fun q => (nth q visits 0 =? 1)%Z) (seq 0 columns) with
    | None => Some (visits, s)
    | Some q =>
      match recursive_find visits (S columns) q 1 (State (count s) (hidden s) (stub s) (order s) (best s) huge) with
      | None => None
      | Some s' => if length (best s') =? 0 then search f' (put visits q (nth q visits 0 - 1)%Z 0%Z) s' else Some (visits, s')
      end
    end
  end.
(** 665-697: the handles of the loop; every column with such a handle was visited *)
Definition find_shortest_loop (visits : list Z) (s : state) : option (list Z * state * list nat) :=
  match search (S columns) visits s with
  | None => None
  | Some (v, s') =>
    let ret := map (fun q => nth q head 0) (best s') in
    let s'' := State (count s') (hidden s') (stub s') (order s') [] (best_measure s') in
    if length ret =? 0 then Some (v, s'', ret)
    else Some (tab columns (fun q => if has ret (nth q head 0) then (nth q v 0 - 1)%Z else nth q v 0%Z), s'', ret)
  end.
(** modify.cpp 1582-1640 and 1716-1727: loops are taken until there is none *)
Fixpoint all_loops (f : nat) (visits : list Z) (s : state) : option (list (list nat) * list Z) :=
  match f with
  | O => None
  | S f' =>
    match find_shortest_loop visits s with
    | None => None
    | Some (v, s', ret) =>
      if length ret =? 0 then Some ([], v)
      else match all_loops f' v s' with None => None | Some (l, v') => Some (ret :: l, v') end
    end
  end.
Definition split (f inner : nat) : option (list (list nat) * list Z) := all_loops f (first_visits inner) start.
End Matrix.
