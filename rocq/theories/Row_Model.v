(** Sparse rows, Hessian rows and their merging.
    Source: Source/Headers/inmost_sparse.h 159-434, Source/Solver/sparse.cpp
    325-653.
    Values range over an arbitrary type with ring operations (exact arithmetic;
    rounding is not modelled).  A row is the list of its (index, value) entries.
    Column numbers are natural numbers below ENUMUNDEF. *)
From Coq Require Import List Bool Arith.
From Verif Require Import Util.
Import ListNotations.

Notation row R := (list (nat * R)).
Definition hindex := (nat * nat)%type.
Notation hrow R := (list (hindex * R)).

Section Row.
Context {R : Type} (r0 : R) (radd rmul : R -> R -> R).

(** ** Access by index, for any index type (columns or pairs of columns) *)
Section Key.
Context {K : Type} (keqb kltb : K -> K -> bool).

(** Row::operator[] const and get_safe, inmost_sparse.h 229-244, 380-391; the
    assert of operator[] is [None]. *)
Fixpoint get_at (r : list (K * R)) (i : K) : option R :=
  match r with
  | [] => None
  | (k, v) :: r' => if keqb k i then Some v else get_at r' i
  end.
Definition get_safe (r : list (K * R)) (i : K) : R :=
  match get_at r i with Some v => v | None => r0 end.

(** Row::operator[], inmost_sparse.h 215-221, 372-378, followed by an update of
    the referenced value. *)
Fixpoint upd_at (r : list (K * R)) (i : K) (f : R -> R) : list (K * R) :=
  match r with
  | [] => [(i, f r0)]
  | (k, v) :: r' => if keqb k i then (k, f v) :: r' else (k, v) :: upd_at r' i f
  end.

(** Row::isSorted, sparse.cpp 342-347, 591-596 *)
Fixpoint is_sorted (r : list (K * R)) : bool :=
  match r with
  | [] => true
  | (k, _) :: r' =>
      match r' with
      | [] => true
      | (k', _) :: _ => negb (kltb k' k) && is_sorted r'
      end
  end.

(** Loops of MergeSortedRows, sparse.cpp 349-405 and 597-653.  [acc] is the
    output written so far, last entry first (q is its length). *)
Fixpoint merge_both (alpha beta : R) (l : list (K * R)) :
  list (K * R) -> list (K * R) -> list (K * R) * list (K * R) * list (K * R) :=
  fix go (r acc : list (K * R)) :=
    match l, r with
    | (kl, vl) :: l', (kr, vr) :: r' =>
        if kltb kl kr then merge_both alpha beta l' r ((kl, rmul alpha vl) :: acc)
        else if keqb kl kr
             then merge_both alpha beta l' r'
                    ((kl, radd (rmul alpha vl) (rmul beta vr)) :: acc)
        else go r' ((kr, rmul beta vr) :: acc)
    | _, _ => (l, r, acc)
    end.

(** Loops over the rest of one operand, sparse.cpp 380-403, 628-651. *)
Fixpoint merge_rest (c : R) (l acc : list (K * R)) : list (K * R) :=
  match l with
  | [] => acc
  | (k, v) :: l' =>
      merge_rest c l'
        (match acc with
         | (k', v') :: acc' =>
             if keqb k' k then (k', radd v' (rmul c v)) :: acc'
             else (k, rmul c v) :: acc
         | [] => [(k, rmul c v)]
         end)
  end.

(** MergeSortedRows; a failed assert is [None]. *)
Definition merge_sorted (alpha : R) (l : list (K * R)) (beta : R) (r : list (K * R))
  : option (list (K * R)) :=
  if is_sorted l && is_sorted r then
    let '(l1, r1, acc) := merge_both alpha beta l r [] in
    Some (rev (merge_rest beta r1 (merge_rest alpha l1 acc)))
  else None.
End Key.

(** ** Hessian rows *)

(** hessian_index_s comparisons, inmost_sparse.h 333-334 *)
Definition hlt (a b : hindex) : bool :=
  (fst a <? fst b) || ((fst a =? fst b) && (snd a <? snd b)).
Definition heq (a b : hindex) : bool := (fst a =? fst b) && (snd a =? snd b).

(** make_index, inmost_sparse.h 336-342 *)
Definition make_index (a b : nat) : hindex :=
  (if b <? a then b else a, if a <? b then b else a).

(** ** MergeJacobianHessian, sparse.cpp 407-579.
    One model for both overloads: [hs] lists the coefficients and the remaining
    entries of the Hessian operands (two of them, or one).  [None] is an access
    outside of a row or a failed assert. *)
Context (half : R).

(** candidates 2 and 3, sparse.cpp 428, 430 *)
Definition pair_entry (a : R) (JL JR : row R) (k l : nat) : option (hindex * R) :=
  match nth_error JL k, nth_error JR l with
  | Some (ci, vi), Some (cj, vj) =>
      let w := rmul (rmul a vi) vj in
      Some (make_index ci cj, if ci =? cj then rmul half w else w)
  | _, _ => None
  end.

(** while(kk1 < JL.Size() && JL.GetIndex(kk1) < JR.GetIndex(l1)) kk1++;
    sparse.cpp 418, 468.  The symmetric loop over ll2 (420, 484) is the same
    function with JL and JR swapped. *)
Fixpoint skip_lower (fuel : nat) (A B : row R) (kk l : nat) : option nat :=
  match nth_error A kk with
  | None => Some kk
  | Some (ca, _) =>
      match nth_error B l with
      | None => None
      | Some (cb, _) =>
          if ca <? cb
          then match fuel with
               | O => None
               | S f => skip_lower f A B (S kk) l
               end
          else Some kk
      end
  end.

Record mstate := MS {
  hs : list (R * hrow R);        (* coefficient and remaining entries *)
  k1 : nat; l1 : nat; kk1 : nat;
  k2 : nat; l2 : nat; ll2 : nat;
  out : hrow R                   (* last entry first *)
}.

(** The candidate array; [None] is the stub entry (index ENUMUNDEF,ENUMUNDEF).
    The code caches the candidates; they are recomputed here from the counters
    they depend on. *)
Definition cand_h (x : R * hrow R) : option (hindex * R) :=
  match snd x with
  | [] => None
  | (i, v) :: _ => Some (i, rmul (fst x) v)
  end.
Definition cands (a : R) (JL JR : row R) (s : mstate) : list (option (hindex * R)) :=
  map cand_h (hs s) ++ [pair_entry a JL JR (k1 s) (l1 s); pair_entry a JL JR (k2 s) (l2 s)].

(** candidate[i].first < candidate[r].first *)
Definition clt (x y : option (hindex * R)) : bool :=
  match x, y with
  | Some (i, _), Some (j, _) => hlt i j
  | Some _, None => true
  | None, _ => false
  end.

(** r = 0; if( candidate[i] < candidate[r] ) r = i; ... *)
Fixpoint pick (best : nat * option (hindex * R)) (i : nat) (l : list (option (hindex * R)))
  : nat * option (hindex * R) :=
  match l with
  | [] => best
  | c :: l' => pick (if clt c (snd best) then (i, c) else best) (S i) l'
  end.

(** record the selected entry, sparse.cpp 441-448; [cap] is the size given to
    the output in line 416/506, writing at or after it is [None]. *)
Definition record (cap : nat) (c : hindex * R) (o : hrow R) : option (hrow R) :=
  let push := if length o <? cap then Some (c :: o) else None in
  match o with
  | (i, v) :: o' => if heq i (fst c) then Some ((i, radd v (snd c)) :: o') else push
  | [] => push
  end.

(** update the counters, sparse.cpp 449-492 *)
Definition advance (JL JR : row R) (r : nat) (s : mstate) (o : hrow R) : option mstate :=
  let n := length (hs s) in
  if r <? n then
    Some (MS (match nth_error (hs s) r with
              | Some (c, h) => lset (hs s) r (c, tl h)
              | None => hs s
              end) (k1 s) (l1 s) (kk1 s) (k2 s) (l2 s) (ll2 s) o)
  else if r =? n then
    if S (k1 s) =? length JL then
      if S (l1 s) <? length JR then
        match skip_lower (length JL) JL JR (kk1 s) (S (l1 s)) with
        | Some kk => Some (MS (hs s) kk (S (l1 s)) kk (k2 s) (l2 s) (ll2 s) o)
        | None => None
        end
      else Some (MS (hs s) (S (k1 s)) (S (l1 s)) (kk1 s) (k2 s) (l2 s) (ll2 s) o)
    else Some (MS (hs s) (S (k1 s)) (l1 s) (kk1 s) (k2 s) (l2 s) (ll2 s) o)
  else
    if S (l2 s) =? length JR then
      if S (k2 s) <? length JL then
        match skip_lower (length JR) JR JL (ll2 s) (S (k2 s)) with
        | Some ll => Some (MS (hs s) (k1 s) (l1 s) (kk1 s) (S (k2 s)) ll ll o)
        | None => None
        end
      else Some (MS (hs s) (k1 s) (l1 s) (kk1 s) (S (k2 s)) (S (l2 s)) (ll2 s) o)
    else Some (MS (hs s) (k1 s) (l1 s) (kk1 s) (k2 s) (S (l2 s)) (ll2 s) o).

(** do ... while(true), sparse.cpp 431-494 *)
Fixpoint mloop (fuel cap : nat) (a : R) (JL JR : row R) (s : mstate) : option (hrow R) :=
  match cands a JL JR s with
  | [] => None
  | c0 :: cs =>
      let '(r, c) := pick (0, c0) 1 cs in
      match c with
      | None => Some (rev (out s))
      | Some e =>
          match fuel with
          | O => None
          | S f =>
              match record cap e (out s) with
              | Some o =>
                  match advance JL JR r s o with
                  | Some s' => mloop f cap a JL JR s'
                  | None => None
                  end
              | None => None
              end
          end
      end
  end.

Definition merge_jh (a : R) (JL JR : row R) (H : list (R * hrow R)) : option (hrow R) :=
  if is_sorted Nat.ltb JL && is_sorted Nat.ltb JR &&
     forallb (fun x => is_sorted hlt (snd x)) H
  then
    match skip_lower (length JL) JL JR 0 0, skip_lower (length JR) JR JL 0 0 with
    | Some kk, Some ll =>
        let sz := fold_right (fun x n => length (snd x) + n) 0 H in
        mloop (sz + 2 * (length JL * length JR)) (sz + length JL * length JR) a JL JR
              (MS H kk 0 kk 0 ll ll [])
    | _, _ => None
    end
  else None.

(** Both overloads. *)
Definition merge_jh2 (a : R) (JL JR : row R) (b : R) (HL : hrow R) (c : R) (HR : hrow R) :=
  merge_jh a JL JR [(b, HL); (c, HR)].
Definition merge_jh1 (a : R) (JL JR : row R) (b : R) (H : hrow R) :=
  merge_jh a JL JR [(b, H)].
End Row.
