(** Linked-list accumulator for sparse rows.
    Source: Source/Headers/inmost_sparse.h 617-765, Source/Solver/sparse.cpp
    60-322 (class RowMerger).
    Values range over an arbitrary type with ring operations and a zero test
    (exact arithmetic).  [nodes] are the entries of LinkedList; entry k here is
    LinkedList[IntervalBeg+k], so the head is entry 0 and column pos is entry
    pos-IntervalBeg+1 (the code compares such positions with each other only).
    Columns are natural numbers below EOL.  [None] is a failed assert, a thrown
    exception, an access outside of an array or a loop that does not end. *)
From Coq Require Import List Bool Arith.
From Verif Require Import Util Row_Model.
Import ListNotations.

(** UNDEF, EOL or the position of a node, inmost_sparse.h 626-627 *)
Inductive link := Undef | Eol | At (k : nat).

(** next < t and t < next for unsigned positions with EOL and UNDEF on top *)
Definition link_lt (l : link) (t : nat) : bool := match l with At k => k <? t | _ => false end.
Definition lt_link (t : nat) (l : link) : bool := match l with At k => t <? k | _ => true end.
Definition is_undef (l : link) : bool := match l with Undef => true | _ => false end.

Section Merger.
Context {R : Type} (r0 : R) (radd rmul : R -> R -> R) (iszero : R -> bool).

Record merger := Mg {
  msorted : bool;
  nonzeros : nat;
  ibeg : nat;
  iend : nat;
  nodes : list (link * R);
  nonlocal : list (nat * R)      (* std::map: ordered by column *)
}.

(** Constructor and Resize, sparse.cpp 119-137 *)
Definition fresh (b e : nat) (srt : bool) : merger :=
  Mg srt 0 b e ((Eol, r0) :: repeat (Undef, r0) (e - b)) [].

(** MapIndex, inmost_sparse.h 667; the node of a local column. *)
Definition node_of (s : merger) (pos : nat) : option nat :=
  if (pos <? ibeg s) || (iend s <=? pos) then None else Some (S (pos - ibeg s)).

(** Nonlocal[pos] followed by an update of the referenced value *)
Fixpoint map_upd (m : list (nat * R)) (pos : nat) (f : R -> R) : list (nat * R) :=
  match m with
  | [] => [(pos, f r0)]
  | (k, v) :: m' =>
      if pos <? k then (pos, f r0) :: m
      else if k =? pos then (k, f v) :: m'
      else (k, v) :: map_upd m' pos f
  end.

Definition set_link (ns : list (link * R)) (i : nat) (l : link) : option (list (link * R)) :=
  match nth_error ns i with Some (_, v) => Some (lset ns i (l, v)) | None => None end.
Definition set_val (ns : list (link * R)) (i : nat) (v : R) : option (list (link * R)) :=
  match nth_error ns i with Some (l, _) => Some (lset ns i (l, v)) | None => None end.
Definition link_at (ns : list (link * R)) (i : nat) : option link :=
  match nth_error ns i with Some (l, _) => Some l | None => None end.
Definition val_at (ns : list (link * R)) (i : nat) : option R :=
  match nth_error ns i with Some (_, v) => Some v | None => None end.

(** next = index; while(next < map+1) { index = next; next = LinkedList[index].first; }
    sparse.cpp 76-81, 264-269 *)
Fixpoint seek (fuel : nat) (ns : list (link * R)) (index : nat) (next : link) (t : nat)
  : option (nat * link) :=
  if link_lt next t then
    match fuel, next with
    | S f, At k => match link_at ns k with Some n => seek f ns k n t | None => None end
    | _, _ => None
    end
  else Some (index, next).

(** Insertion of node t after a node, sparse.cpp 82-95, 270-283 *)
Definition link_after (ns : list (link * R)) (index t : nat) (next : link) : option (list (link * R)) :=
  match set_link ns index (At t) with
  | Some ns' => set_link ns' t next
  | None => None
  end.
Definition insert_from (srt : bool) (ns : list (link * R)) (index t : nat)
  : option (nat * list (link * R)) :=
  if srt then
    match seek (S (length ns)) ns index (At index) t with
    | Some (i, next) =>
        if (i <? t) && lt_link t next
        then match link_after ns i t next with Some ns' => Some (i, ns') | None => None end
        else None
    | None => None
    end
  else
    match link_at ns index with
    | Some next => match link_after ns index t next with Some ns' => Some (index, ns') | None => None end
    | None => None
    end.

(** operator[], sparse.cpp 64-100, followed by an update of the value. *)
Definition upd (s : merger) (pos : nat) (f : R -> R) : option merger :=
  match node_of s pos with
  | None => Some (Mg (msorted s) (nonzeros s) (ibeg s) (iend s) (nodes s) (map_upd (nonlocal s) pos f))
  | Some t =>
      let fin nz ns :=
        match val_at ns t with
        | Some v => match set_val ns t (f v) with
                    | Some ns' => Some (Mg (msorted s) nz (ibeg s) (iend s) ns' (nonlocal s))
                    | None => None
                    end
        | None => None
        end in
      match link_at (nodes s) t with
      | None => None
      | Some l =>
          if is_undef l then
            match insert_from (msorted s) (nodes s) 0 t with
            | Some (_, ns) => fin (S (nonzeros s)) ns
            | None => None
            end
          else fin (nonzeros s) (nodes s)
      end
  end.

(** operator[] const, sparse.cpp 102-114 *)
Definition get (s : merger) (pos : nat) : option R :=
  match node_of s pos with
  | None => get_at Nat.eqb (nonlocal s) pos
  | Some t =>
      match nth_error (nodes s) t with
      | Some (l, v) => if is_undef l then None else Some v
      | None => None
      end
  end.

(** Clear, sparse.cpp 184-197 *)
Fixpoint clear_loop (fuel : nat) (ns : list (link * R)) (i : link) : option (list (link * R)) :=
  match i with
  | Eol => Some ns
  | Undef => None
  | At k =>
      match fuel, link_at ns k with
      | S f, Some j => clear_loop f (lset ns k (Undef, r0)) j
      | _, _ => None
      end
  end.
Definition clear (s : merger) : option merger :=
  match link_at (nodes s) 0 with
  | Some i =>
      match set_link (nodes s) 0 Eol with
      | Some ns =>
          match clear_loop (S (length ns)) ns i with
          | Some ns' => Some (Mg (msorted s) 0 (ibeg s) (iend s) ns' [])
          | None => None
          end
      | None => None
      end
  | None => None
  end.

(** Multiply, sparse.cpp 206-220 *)
Fixpoint mul_loop (fuel : nat) (c : R) (ns : list (link * R)) (i : link) : option (list (link * R)) :=
  match i with
  | Eol => Some ns
  | Undef => None
  | At k =>
      match fuel, nth_error ns k with
      | S f, Some (j, v) => mul_loop f c (lset ns k (j, rmul v c)) j
      | _, _ => None
      end
  end.
Definition multiply (s : merger) (c : R) : option merger :=
  match link_at (nodes s) 0 with
  | Some i =>
      match mul_loop (S (length (nodes s))) c (nodes s) i with
      | Some ns => Some (Mg (msorted s) (nonzeros s) (ibeg s) (iend s) ns
                            (map (fun e => (fst e, rmul (snd e) c)) (nonlocal s)))
      | None => None
      end
  | None => None
  end.

(** assert(!Sorted || it == r.End() || jt->first < it->first) *)
Definition next_ok (srt : bool) (pos : nat) (r : list (nat * R)) : bool :=
  negb srt || match r with [] => true | (k, _) :: _ => pos <? k end.

(** PushRow, sparse.cpp 223-252 *)
Fixpoint push_loop (s : merger) (coef : R) (index : nat) (r : list (nat * R)) : option merger :=
  match r with
  | [] => Some s
  | (pos, v) :: r' =>
      match node_of s pos with
      | None =>
          if next_ok (msorted s) pos r' then
            push_loop (Mg (msorted s) (nonzeros s) (ibeg s) (iend s) (nodes s)
                          (map_upd (nonlocal s) pos (fun _ => rmul v coef))) coef index r'
          else None
      | Some t =>
          match link_after (nodes s) index t Eol with
          | Some ns =>
              match set_val ns t (rmul v coef) with
              | Some ns' =>
                  if next_ok (msorted s) pos r' then
                    push_loop (Mg (msorted s) (S (nonzeros s)) (ibeg s) (iend s) ns' (nonlocal s)) coef t r'
                  else None
              | None => None
              end
          | None => None
          end
      end
  end.
Definition push_row (s : merger) (coef : R) (r : list (nat * R)) : option merger :=
  match link_at (nodes s) 0 with
  | Some Eol => if nonzeros s =? 0 then
                  if iszero coef then Some s else push_loop s coef 0 r
                else None
  | _ => None
  end.

(** AddRow, sparse.cpp 260-298 *)
Fixpoint add_loop (s : merger) (coef : R) (index : nat) (r : list (nat * R)) : option merger :=
  match r with
  | [] => Some s
  | (pos, v) :: r' =>
      let go s' i := if next_ok (msorted s) pos r' then add_loop s' coef i r' else None in
      match node_of s pos with
      | None =>
          go (Mg (msorted s) (nonzeros s) (ibeg s) (iend s) (nodes s)
                 (map_upd (nonlocal s) pos (fun x => radd x (rmul coef v)))) index
      | Some t =>
          match nth_error (nodes s) t with
          | None => None
          | Some (l, x) =>
              if is_undef l then
                match insert_from (msorted s) (nodes s) index t with
                | Some (i, ns) =>
                    match set_val ns t (rmul coef v) with
                    | Some ns' => go (Mg (msorted s) (S (nonzeros s)) (ibeg s) (iend s) ns' (nonlocal s)) i
                    | None => None
                    end
                | None => None
                end
              else
                match set_val (nodes s) t (radd x (rmul coef v)) with
                | Some ns' => go (Mg (msorted s) (nonzeros s) (ibeg s) (iend s) ns' (nonlocal s)) index
                | None => None
                end
          end
      end
  end.
Definition add_row (s : merger) (coef : R) (r : list (nat * R)) : option merger :=
  if iszero coef then Some s else add_loop s coef 0 r.

(** RetrieveRow, sparse.cpp 301-322.  The row is resized to Nonzeros plus the
    number of non-local columns first; writing more is [None]. *)
Fixpoint retrieve_loop (fuel : nat) (s : merger) (i : link) : option (list (nat * R)) :=
  match i with
  | Eol => Some []
  | Undef => None
  | At k =>
      match fuel, nth_error (nodes s) k with
      | S f, Some (j, v) =>
          match retrieve_loop f s j with
          | Some r => Some (if iszero v then r else (ibeg s + k - 1, v) :: r)
          | None => None
          end
      | _, _ => None
      end
  end.
Definition retrieve (s : merger) : option (list (nat * R)) :=
  match link_at (nodes s) 0 with
  | Some i =>
      match retrieve_loop (S (length (nodes s))) s i with
      | Some l =>
          let r := l ++ filter (fun e => negb (iszero (snd e))) (nonlocal s) in
          if length r <=? nonzeros s + length (nonlocal s) then Some r else None
      | None => None
      end
  | None => None
  end.

(** Merge, inmost_sparse.h 754-760 *)
Definition merge (s : merger) (alpha : R) (a : list (nat * R)) (beta : R) (b : list (nat * R))
  : option (list (nat * R) * merger) :=
  match push_row s alpha a with
  | Some s1 =>
      match add_row s1 beta b with
      | Some s2 =>
          match retrieve s2, clear s2 with
          | Some c, Some s3 => Some (c, s3)
          | _, _ => None
          end
      | None => None
      end
  | None => None
  end.

(** Calls on a merger *)
Inductive mop :=
| OPush (coef : R) (r : list (nat * R))
| OAdd (coef : R) (r : list (nat * R))
| OMul (c : R)
| OUpd (pos : nat) (f : R -> R)
| OClear
| OResize (b e : nat) (srt : bool).
Definition step (s : merger) (o : mop) : option merger :=
  match o with
  | OPush c r => push_row s c r
  | OAdd c r => add_row s c r
  | OMul c => multiply s c
  | OUpd p f => upd s p f
  | OClear => clear s
  | OResize b e srt => Some (fresh b e srt)
  end.
Fixpoint run (s : merger) (os : list mop) : option merger :=
  match os with
  | [] => Some s
  | o :: os' => match step s o with Some s' => run s' os' | None => None end
  end.
End Merger.
