(** Maximum product transversal of the inner solver mlmptiluc.
    Source: Source/Solver/solver_inner/solver_mlmptiluc/solver_mlmtiluc2.cpp 1851-2126
    (MLMTILUC_preconditioner::MaximalTransversal), solver_mlmtiluc2.hpp 74 (check_zero),
    Source/Misc/utils.h 36-122 (BinaryHeap, see Heap_Model).
    Real numbers are exact, so check_zero(u), that is tau + u == tau, is u = 0.
    numeric_limits::max() is None: max - x is max for the numbers x that occur, max - max is 0.
    Simplified: the block starts at row and column 0; instead of the position of an element in
    C_Entries the cost stored there is kept (C_Entries does not change after line 1919); the linked
    list ColumnList, ColumnBegin is a list and a set of marked columns. *)
From Coq Require Import List Bool Arith Reals.
From Verif Require Import Util Heap_Model.
Import ListNotations.

Definition ext := option R.
Definition lt_ext (a b : ext) : bool :=
  match a, b with
  | Some x, Some y => if Rlt_dec x y then true else false
  | Some _, None => true
  | None, _ => false
  end.
(** <= for numbers that are not NaN *)
Definition le_ext (a b : ext) : bool := negb (lt_ext b a).
(** std::min(a,b) *)
Definition min_ext (a b : ext) : ext := if lt_ext b a then b else a.
(** c - u; a number minus max does not occur, the U of a column is at most its costs *)
Definition sub_ext (c u : ext) : ext :=
  match c, u with
  | Some c, Some u => Some (c - u)%R
  | None, None => Some 0%R
  | _, _ => None
  end.
(** fabs(sp + c - v - u) *)
Definition absred (sp : R) (c v u : ext) : ext :=
  match c, v, u with
  | Some c, Some v, Some u => Some (Rabs (sp + c - v - u))
  | None, None, Some u => Some (Rabs u)
  | None, Some v, None => Some (Rabs v)
  | None, None, None => None
  | _, _, _ => None
  end.
(** check_zero *)
Definition is_zero (x : R) : bool := if Req_EM_T x 0 then true else false.
Definition is_zero_ext (x : ext) : bool := match x with Some x => is_zero x | None => false end.

Definition is_none {A} (o : option A) : bool := match o with None => true | Some _ => false end.
Definition upd {A} (f : nat -> A) (i : nat) (x : A) : nat -> A := fun j => if j =? i then x else f j.

(** a row of the matrix: columns and values *)
Definition arow := list (nat * R).
Definition crow := list (nat * ext).

Section Init.
Variable A : list arow.
(** 1892-1893 *)
Definition cmax (i : nat) : R :=
  fold_left (fun m e => if fst e =? i then Rmax m (Rabs (snd e)) else m) (concat A) 0%R.
(** 1908-1919 *)
Definition cost (e : nat * R) : ext :=
  if is_zero (cmax (fst e)) || is_zero (Rabs (snd e)) then None
  else Some (ln (cmax (fst e)) - ln (Rabs (snd e)))%R.
Definition costs : list crow := map (map (fun e => (fst e, cost e))) A.
(** 1919 *)
Definition u0 (i : nat) : ext :=
  fold_left (fun u e => if fst e =? i then match snd e with Some c => min_ext u (Some c) | None => u end else u) (concat costs) None.
(** 1922-1931 *)
Definition v0 (k : nat) : ext :=
  fold_left (fun v e => min_ext v (sub_ext (snd e) (u0 (fst e)))) (nth k costs []) None.
End Init.

(** Perm (row of a column), IPerm (column of a row), C_Entries[ColumnPosition[row]],
    C_Entries[AugmentPosition[column]], Parent, U, V, ColumnList[column] != ENUMUNDEF, the heap with
    its keys Dist; 1863-1876 *)
Record mstate := MS {
  perm : nat -> option nat; iperm : nat -> option nat; cpos : nat -> ext; apos : nat -> ext;
  parent : nat -> option nat; du : nat -> ext; dv : nat -> ext; marked : nat -> bool; hp : hstate ext }.
Definition set_match (s : mstate) (k i : nat) (c : ext) : mstate :=
  MS (upd (perm s) i (Some k)) (upd (iperm s) k (Some i)) (upd (cpos s) k c) (apos s) (parent s) (du s) (dv s) (marked s) (hp s).
Definition set_heap (s : mstate) (h : hstate ext) : mstate :=
  MS (perm s) (iperm s) (cpos s) (apos s) (parent s) (du s) (dv s) (marked s) h.
Definition start (A : list arow) (m : nat) : mstate :=
  MS (fun _ => None) (fun _ => None) (fun _ => None) (fun _ => None) (fun _ => None) (u0 A) (v0 A) (fun _ => false)
     (make (repeat None (S m)) m).

Section Run.
Variable C : list crow.
Definition tight (s : mstate) (k : nat) (e : nat * ext) : bool := is_zero_ext (absred 0 (snd e) (dv s k) (du s (fst e))).

(** Update cost and match, 1933-1948 *)
Definition match_entry (k : nat) (s : mstate) (e : nat * ext) : mstate :=
  if tight s k e && is_none (perm s (fst e)) && is_none (iperm s k) then set_match s k (fst e) (snd e) else s.
Definition match_row (s : mstate) (k : nat) : mstate := fold_left (match_entry k) (nth k C []) s.
Definition match_all (s : mstate) : mstate := fold_left match_row (seq 0 (length C)) s.

(** 1-step augmentation, 1949-1985; None: the assertion of line 1962 fails *)
Fixpoint one_row (k : nat) (row : crow) (s : mstate) : option mstate :=
  match row with
  | [] => Some s
  | e :: row' =>
      if negb (is_none (iperm s k)) then Some s
      else if tight s k e then
        match perm s (fst e) with
        | None => None
        | Some li =>
            match find (fun e' => tight s li e' && is_none (perm s (fst e'))) (nth li C []) with
            | Some e' => one_row k row' (set_match (set_match s k (fst e) (snd e)) li (fst e') (snd e'))
            | None => one_row k row' s
            end
        end
      else one_row k row' s
  end.
Fixpoint one_all (ks : list nat) (s : mstate) : option mstate :=
  match ks with
  | [] => Some s
  | k :: ks' => match one_row k (nth k C []) s with Some s' => one_all ks' s' | None => None end
  end.

(** Weighted bipartite matching, 1986-2083 *)
(** the state, PathEnd, Trace, AugmentPath *)
Record search := SR { sst : mstate; pend : option nat; trace : nat; aug : ext }.
(** 2001-2034; ShortestPath = sp *)
Definition scan_entry (li : nat) (sp : R) (x : search) (e : nat * ext) : option search :=
  let s := sst x in let i := fst e in
  if marked s i then Some x
  else
    let l := absred sp (snd e) (dv s li) (du s i) in
    if lt_ext l (aug x) then
      match perm s i with
      | None => Some (SR (MS (perm s) (iperm s) (cpos s) (upd (apos s) i (snd e)) (parent s) (du s) (dv s) (marked s) (hp s)) (Some i) li l)
      | Some r =>
          match nth_error (keys (hp s)) i with
          | None => None
          | Some d =>
              if lt_ext l d then
                match contains (hp s) i with
                | None => None
                | Some b =>
                    match (if b then decrease_key le_ext (hp s) i l else push le_ext (hp s) i l) with
                    | None => None
                    | Some h => Some (SR (MS (perm s) (iperm s) (cpos s) (upd (apos s) i (snd e)) (upd (parent s) r (Some li)) (du s) (dv s) (marked s) h)
                                         (pend x) (trace x) (aug x))
                    end
                end
              else Some x
          end
      end
    else Some x.
Fixpoint scan (li : nat) (sp : R) (x : search) (row : crow) : option search :=
  match row with
  | [] => Some x
  | e :: row' => match scan_entry li sp x e with Some x' => scan li sp x' row' | None => None end
  end.
Definition with_heap (x : search) (h : hstate ext) : search := SR (set_heap (sst x) h) (pend x) (trace x) (aug x).
Definition mark (s : mstate) (i : nat) : mstate :=
  MS (perm s) (iperm s) (cpos s) (apos s) (parent s) (du s) (dv s) (upd (marked s) i true) (hp s).
(** 1998-2056; a key that is max is never in the heap *)
Fixpoint grow (fuel : nat) (li : nat) (sp : R) (tree : list nat) (x : search) : option (search * list nat) :=
  match fuel with
  | O => None
  | S f =>
      match scan li sp x (nth li C []) with
      | None => None
      | Some x =>
          match pop le_ext (hp (sst x)) with
          | None => None
          | Some (h, None) => Some (with_heap x h, tree)
          | Some (h, Some i) =>
              match nth_error (keys h) i with
              | Some (Some d) =>
                  if le_ext (aug x) (Some d) then
                    match set_key h i None with Some h' => Some (with_heap x h', tree) | None => None end
                  else
                    match perm (sst x) i with
                    | None => None
                    | Some r => let x' := with_heap x h in grow f r d (i :: tree) (SR (mark (sst x') i) (pend x') (trace x') (aug x'))
                    end
              | _ => None
              end
          end
      end
  end.
(** 2059-2067 *)
Fixpoint update (a : R) (tree : list nat) (s : mstate) : option mstate :=
  match tree with
  | [] => Some s
  | i :: tree' =>
      match nth_error (keys (hp s)) i with
      | Some (Some d) =>
          let ui := match du s i with Some u => Some (u + (d - a))%R | None => None end in
          let du' := upd (du s) i ui in
          let dv' := match perm s i with Some r => upd (dv s) r (sub_ext (cpos s r) ui) | None => dv s end in
          match set_key (hp s) i None with
          | Some h => update a tree' (MS (perm s) (iperm s) (cpos s) (apos s) (parent s) du' dv' (upd (marked s) i false) h)
          | None => None
          end
      | _ => None
      end
  end.
(** 2069-2081; None: a column number ENUMUNDEF is used *)
Fixpoint path (fuel : nat) (ui tr : option nat) (s : mstate) : option mstate :=
  match tr with
  | None => Some s
  | Some r =>
      match fuel, ui with
      | S f, Some i =>
          path f (iperm s r) (parent s r)
            (MS (upd (perm s) i (Some r)) (upd (iperm s) r (Some i)) (upd (cpos s) r (apos s i)) (apos s) (parent s)
                (du s) (upd (dv s) r (sub_ext (apos s i) (du s i))) (marked s) (hp s))
      | _, _ => None
      end
  end.
(** 1987-2083 for one row; [m]: number of columns *)
Definition augment (m : nat) (s : mstate) (k : nat) : option mstate :=
  if negb (is_none (iperm s k)) then Some s
  else
    let s := MS (perm s) (iperm s) (cpos s) (apos s) (upd (parent s) k None) (du s) (dv s) (marked s) (hp s) in
    match grow (m + 2) k 0 [] (SR s None k None) with
    | None => None
    | Some (x, tree) =>
        match pend x, aug x with
        | None, _ => Some (sst x)
        | Some i, Some a =>
            match update a tree (sst x) with
            | None => None
            | Some s =>
                match path (m + 2) (Some i) (Some (trace x)) s with
                | None => None
                | Some s => match clear le_ext (Some None) (hp s) with Some h => Some (set_heap s h) | None => None end
                end
            end
        | Some _, None => None
        end
    end.
Fixpoint augment_all (m : nat) (ks : list nat) (s : mstate) : option mstate :=
  match ks with
  | [] => Some s
  | k :: ks' => match augment m s k with Some s' => augment_all m ks' s' | None => None end
  end.
End Run.

(** Perm, DL, DR *)
Record result := Res { q : nat -> option nat; left_ : nat -> R; right_ : nat -> R }.
(** 2085-2123 *)
Definition scalings (A : list arow) (s : mstate) : result :=
  let dl k := match dv s k with None => 1%R | Some v => exp v end in
  let dr i := match du s i with None => 1%R | Some u => if is_zero (cmax A i) then 1%R else (exp u / cmax A i)%R end in
  let flip k := existsb (fun e => match perm s (fst e) with
                                  | Some j => (j =? k) && (if Rlt_dec (dl k * snd e * dr (fst e)) 0 then true else false)
                                  | None => false end) (nth k A []) in
  Res (perm s) (fun k => if flip k then (dl k * -1)%R else dl k) dr.
(** the whole function; a row without elements violates the assertion of line 1895 *)
Definition transversal (A : list arow) (m : nat) : option result :=
  if existsb (fun r => match r with [] => true | _ => false end) A then None
  else
    let C := costs A in
    let ks := seq 0 (length A) in
    match one_all C ks (match_all C (start A m)) with
    | None => None
    | Some s => match augment_all C m ks s with Some s' => Some (scalings A s') | None => None end
    end.
