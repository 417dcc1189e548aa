(** Distribution of matrix rows between processors and vector exchange.
    Source: Source/Solver/OrderInfo.cpp (class Solver::OrderInfo).
    Processors are numbered from 0.  Global indices are natural numbers; in the
    repair of intervals they are integers with unsigned 32-bit subtraction.
    [None] is a failed assert, an access outside of an array or a message that
    is missing or of a different length than the receive.
    Modelled: overlap = 0.  Message tags are not modelled: a pair of processors
    exchanges one message of each kind, so tags never decide the matching. *)
From Coq Require Import List Bool Arith ZArith.
From Verif Require Import Util Algo Merger_Model.
Import ListNotations.

(** ** Owner of a global index, OrderInfo.cpp 630-638.
    [gtp] is global_to_proc: 0 followed by the ends of the intervals. *)
Definition get_processor (gtp : list nat) (g : nat) : option nat :=
  let find := lower_bound (fun x => x <? g) gtp in
  match nth_error gtp find with
  | None => None
  | Some x => Some (if (x =? g) && negb (S find =? length gtp) then find else find - 1)
  end.

(** ** Repair of overlapping intervals, OrderInfo.cpp 159-170.
    unsigned subtraction *)
Definition usub (a b : Z) : Z := ((a - b) mod 4294967296)%Z.
(** while(end_k > beg_{k+1}) ...; lines 162-169; the two intervals after the loop *)
Fixpoint move_bounds (fuel : nat) (b0 e0 b1 e1 : Z) : option (Z * Z) :=
  if (b1 <? e0)%Z then
    match fuel with
    | O => None
    | S f => if (usub e0 b0 <? usub e1 b1)%Z
             then move_bounds f b0 (usub e0 1) b1 e1
             else move_bounds f b0 e0 (b1 + 1)%Z e1
    end
  else Some (e0, b1).
(** for(k = 0; k < size-1; k++), lines 161-169 *)
Fixpoint repair_from (fuel : nat) (b0 e0 : Z) (l : list (Z * Z)) : option (list (Z * Z)) :=
  match l with
  | [] => Some [(b0, e0)]
  | (b1, e1) :: l' =>
      match move_bounds fuel b0 e0 b1 e1 with
      | Some (e0', b1') =>
          match repair_from fuel b1' e1 l' with
          | Some r => Some ((b0, e0') :: r)
          | None => None
          end
      | None => None
      end
  end.
Definition repair (fuel : nat) (l : list (Z * Z)) : option (list (Z * Z)) :=
  match l with [] => Some [] | (b, e) :: t => repair_from fuel b e t end.

Section Exchange.
Context {V : Type}.
Notation row := (list (nat * V)).

(** ** Numbering of columns outside of the local interval, OrderInfo.cpp 203-220.
    State: global_to_local (std::map ordered by the global index) and ext_pos;
    global_to_local[ind] creates the value 0, which means not assigned. *)
Notation num_state := (list (nat * nat) * nat)%type.
Definition outside (lb le ind : nat) : bool := (ind <? lb) || (le <=? ind).
Definition find_map (m : list (nat * nat)) (ind : nat) : option nat :=
  match find (fun e => fst e =? ind) m with Some e => Some (snd e) | None => None end.
Definition number_one (lb le : nat) (s : num_state) (ind : nat) : num_state :=
  let '(m, ext) := s in
  if outside lb le ind then
    (map_upd 0 m ind (fun v => if v =? 0 then ext else v),
     if match find_map m ind with Some v => v | None => 0 end =? 0 then S ext else ext)
  else s.
Definition number (lb le : nat) (rows : list row) : num_state :=
  fold_left (number_one lb le) (map fst (concat rows)) ([], le).

(** Rows of the local interval of a matrix that starts at [mb]. *)
Definition local_rows (mb lb le : nat) (rows : list row) : list row :=
  firstn (le - lb) (skipn (lb - mb) rows).

(** Reordering of the off-diagonal part, OrderInfo.cpp 318-329; None is one of
    the asserts of lines 326-327. *)
Definition renum_entry (lb le : nat) (m : list (nat * nat)) (e : nat * V) : option (nat * V) :=
  match find_map m (fst e) with
  | Some p => Some (p, snd e)
  | None => if outside lb le (fst e) then None else Some e
  end.
Fixpoint all_some {A} (l : list (option A)) : option (list A) :=
  match l with
  | [] => Some []
  | Some x :: t => match all_some t with Some r => Some (x :: r) | None => None end
  | None :: _ => None
  end.
Definition renum_rows (lb le : nat) (m : list (nat * nat)) (rows : list row) : option (list row) :=
  all_some (map (fun r => all_some (map (renum_entry lb le m) r)) rows).

(** extended_indexes, OrderInfo.cpp 370-372 *)
Definition extended (le : nat) (m : list (nat * nat)) (ext : nat) : list nat :=
  fold_left (fun l e => lset l (snd e - le) (fst e)) m (repeat 0 (ext - le)).

(** PrepareMatrix without overlap seen from one processor: the matrix has rows
    from mb, the (possibly repaired) local interval is [lb,le).  Result: matrix,
    global_to_local, extended_indexes, end of the extended vector. *)
Definition prepare (mb lb le : nat) (rows : list row)
  : option (list row * list (nat * nat) * list nat * nat) :=
  let loc := local_rows mb lb le rows in
  let '(m, ext) := number lb le loc in
  match renum_rows lb le m loc with
  | Some loc' =>
      Some (firstn (lb - mb) rows ++ loc' ++ skipn (le - mb) rows, m, extended le m ext, ext)
  | None => None
  end.

(** RestoreMatrix, OrderInfo.cpp 486-500.  The interval of the matrix was not
    changed by PrepareMatrix (overlap 0), so SetInterval has no effect. *)
Definition restore_entry (me : nat) (ei : list nat) (e : nat * V) : nat * V :=
  if me <=? fst e then
    match nth_error ei (fst e - me) with Some g => (g, snd e) | None => e end
  else e.
Definition restore (me : nat) (ei : list nat) (rows : list row) : list row :=
  map (map (restore_entry me ei)) rows.

(** ** Request lists, OrderInfo.cpp 236-271.  [keys] are the external indices in
    ascending order; one block (processor, indices) per processor asked. *)
Fixpoint span_lt (b : nat) (l : list nat) : list nat * list nat :=
  match l with
  | [] => ([], [])
  | k :: t => if k <? b then let '(p, q) := span_lt b t in (k :: p, q) else ([], l)
  end.
Fixpoint make_blocks (gtp : list nat) (procs : list nat) (keys : list nat)
  : option (list (nat * list nat)) :=
  match procs with
  | [] => Some []
  | p :: ps =>
      match nth_error gtp (S p) with
      | None => None
      | Some b =>
          let '(blk, rest) := span_lt b keys in
          match make_blocks gtp ps rest with
          | Some bl => Some (match blk with [] => bl | _ => (p, blk) :: bl end)
          | None => None
          end
      end
  end.
(** vector_exchange layout: number of blocks, then processor, count, indices *)
Definition pack (bl : list (nat * list nat)) : list nat :=
  length bl :: flat_map (fun b => fst b :: length (snd b) :: snd b) bl.
Definition build_recv (gtp : list nat) (keys : list nat) : option (list nat) :=
  match keys with
  | [] => Some (pack [])
  | k :: _ =>
      match get_processor gtp k, get_processor gtp (last keys k) with
      | Some pb, Some pe =>
          match make_blocks gtp (seq pb (S pe - pb)) keys with
          | Some bl => Some (pack bl)
          | None => None
          end
      | _, _ => None
      end
  end.

(** Reading the layout: i-loop with j += count + 2, e.g. OrderInfo.cpp 679-685 *)
Fixpoint read_blocks (n : nat) (l : list nat) : option (list (nat * list nat)) :=
  match n with
  | O => Some []
  | S n' =>
      match l with
      | p :: c :: t =>
          if length t <? c then None else
          match read_blocks n' (skipn c t) with
          | Some bl => Some ((p, firstn c t) :: bl)
          | None => None
          end
      | _ => None
      end
  end.
Definition blocks_of (v : list nat) : option (list (nat * list nat)) :=
  match v with n :: l => read_blocks n l | [] => None end.

(** Change of the indices of the receive array, OrderInfo.cpp 338-350; writing
    in place keeps the layout. *)
Definition to_positions (le : nat) (m : list (nat * nat)) (v : list nat) : option (list nat) :=
  match blocks_of v with
  | None => None
  | Some bl =>
      match all_some (map (fun b =>
              match all_some (map (fun g => match find_map m g with
                                            | Some p => if p <? le then None else Some p
                                            | None => None end) (snd b)) with
              | Some ps => Some (fst b, ps) | None => None end) bl) with
      | Some bl' => Some (pack bl')
      | None => None
      end
  end.

(** ** All processors *)
Definition bound (gtp : list nat) (p : nat) : nat := nth p gtp 0.

Record pstate := PS {
  p_map : list (nat * nat);      (* global_to_local *)
  p_ext : nat;                   (* local_vector_end *)
  p_req : list nat;              (* vector_exchange_recv with global indices *)
  p_recv : list nat;             (* vector_exchange_recv with positions *)
}.
(** One processor up to the requests *)
Definition make_pstate (gtp : list nat) (p : nat) (rows : list row) : option pstate :=
  let lb := bound gtp p in let le := bound gtp (S p) in
  let '(m, ext) := number lb le rows in
  match build_recv gtp (map fst m) with
  | Some rq => match to_positions le m rq with
               | Some rv => Some (PS m ext rq rv)
               | None => None
               end
  | None => None
  end.
Definition prepare_all (gtp : list nat) (mats : list (list row)) : option (list pstate) :=
  all_some (map (fun pr => make_pstate gtp (fst pr) (snd pr)) (combine (seq 0 (length mats)) mats)).

(** Requests that arrive at processor p: the sizes and the indices sent by
    every processor that asks p, OrderInfo.cpp 278-284. *)
Definition requests_to (p : nat) (st : list pstate) : list (nat * list nat) :=
  flat_map (fun qs =>
    match blocks_of (p_req (snd qs)) with
    | Some bl => map (fun b => (fst qs, snd b)) (filter (fun b => fst b =? p) bl)
    | None => []
    end) (combine (seq 0 (length st)) st).

(** vector_exchange_send is filled in the order in which the requests arrive
    (MPI_ANY_SOURCE), OrderInfo.cpp 290-302: [arr p] is that order. *)
Definition send_of (arr : nat -> list (nat * list nat)) (p : nat) : list nat := pack (arr p).

(** ** Update, OrderInfo.cpp 657-717.  x_p is a list starting at index lb_p. *)
Record message := Msg { m_src : nat; m_dst : nat; m_val : list V }.
Definition read_at (lb : nat) (x : list V) (i : nat) : option V :=
  if i <? lb then None else nth_error x (i - lb).
(** lines 686-695 *)
Definition send_msgs (lb p : nat) (x : list V) (v : list nat) : option (list message) :=
  match blocks_of v with
  | None => None
  | Some bl => all_some (map (fun b =>
      match all_some (map (read_at lb x) (snd b)) with
      | Some vs => Some (Msg p (fst b) vs)
      | None => None
      end) bl)
  end.
(** x[vector_exchange_recv[k+j+2]] = recv_storage[l+k], lines 700-706 *)
Fixpoint write_at (lb : nat) (x : list V) (ps : list nat) (vs : list V) : option (list V) :=
  match ps, vs with
  | [], [] => Some x
  | p :: ps', v :: vs' =>
      if (p <? lb) || (length x <=? p - lb) then None else write_at lb (lset x (p - lb) v) ps' vs'
  | _, _ => None
  end.
Definition message_for (src dst : nat) (pool : list message) : option message :=
  find (fun m => (m_src m =? src) && (m_dst m =? dst)) pool.
Fixpoint recv_blocks (lb p : nat) (pool : list message) (x : list V) (bl : list (nat * list nat))
  : option (list V) :=
  match bl with
  | [] => Some x
  | (src, ps) :: bl' =>
      match message_for src p pool with
      | Some m => match write_at lb x ps (m_val m) with
                  | Some x' => recv_blocks lb p pool x' bl'
                  | None => None
                  end
      | None => None
      end
  end.
Definition recv_msgs (lb p : nat) (pool : list message) (x : list V) (v : list nat) : option (list V) :=
  match blocks_of v with Some bl => recv_blocks lb p pool x bl | None => None end.

Definition update (gtp : list nat) (arr : nat -> list (nat * list nat)) (st : list pstate)
  (xs : list (list V)) : option (list (list V)) :=
  match all_some (map (fun px => send_msgs (bound gtp (fst px)) (fst px) (snd px) (send_of arr (fst px)))
                      (combine (seq 0 (length xs)) xs)) with
  | None => None
  | Some pools =>
      all_some (map (fun pxs => let '(p, (x, s)) := pxs in
                        recv_msgs (bound gtp p) p (concat pools) x (p_recv s))
                    (combine (seq 0 (length xs)) (combine xs st)))
  end.

(** ** Accumulate, OrderInfo.cpp 719-785: positions of the receive array are
    sent back and added by the owner. *)
Context (vadd : V -> V -> V).
Fixpoint add_at (lb : nat) (x : list V) (ps : list nat) (vs : list V) : option (list V) :=
  match ps, vs with
  | [], [] => Some x
  | p :: ps', v :: vs' =>
      match read_at lb x p with
      | Some w => add_at lb (lset x (p - lb) (vadd w v)) ps' vs'
      | None => None
      end
  | _, _ => None
  end.
Fixpoint add_blocks (lb p : nat) (pool : list message) (x : list V) (bl : list (nat * list nat))
  : option (list V) :=
  match bl with
  | [] => Some x
  | (src, ps) :: bl' =>
      match message_for src p pool with
      | Some m => match add_at lb x ps (m_val m) with
                  | Some x' => add_blocks lb p pool x' bl'
                  | None => None
                  end
      | None => None
      end
  end.
Definition accumulate (gtp : list nat) (arr : nat -> list (nat * list nat)) (st : list pstate)
  (xs : list (list V)) : option (list (list V)) :=
  match all_some (map (fun pxs => let '(p, (x, s)) := pxs in
                          send_msgs (bound gtp p) p x (p_recv s))
                      (combine (seq 0 (length xs)) (combine xs st))) with
  | None => None
  | Some pools =>
      all_some (map (fun px =>
                  match blocks_of (send_of arr (fst px)) with
                  | Some bl => add_blocks (bound gtp (fst px)) (fst px) (concat pools) (snd px) bl
                  | None => None
                  end) (combine (seq 0 (length xs)) xs))
  end.

(** ** Products with vectors.  Row::RowVec, sparse.cpp 583-589 *)
Context (v0 : V) (vmul : V -> V -> V).
Fixpoint row_vec (lb : nat) (x : list V) (r : row) (acc : V) : option V :=
  match r with
  | [] => Some acc
  | (c, v) :: r' =>
      match read_at lb x c with
      | Some y => row_vec lb x r' (vadd acc (vmul y v))
      | None => None
      end
  end.
(** Matrix::MatVec, sparse.cpp 932-954; the matrix and [out] start at [lb],
    [out] is not empty or the matrix is. *)
Fixpoint mat_vec (lb : nat) (alpha beta : V) (rows : list row) (x out : list V) : option (list V) :=
  match rows, out with
  | [], _ => Some out
  | r :: rows', o :: out' =>
      match row_vec lb x r v0 with
      | Some y => match mat_vec lb alpha beta rows' x out' with
                  | Some t => Some (vadd (vmul beta o) (vmul alpha y) :: t)
                  | None => None
                  end
      | None => None
      end
  | _ :: _, [] => None
  end.
(** Matrix::MatVecTranspose, sparse.cpp 960-987, lines 981-985:
    out[it->first] += alpha * x[ind] * it->second *)
Fixpoint row_vec_tr (lb : nat) (alpha xi : V) (r : row) (out : list V) : option (list V) :=
  match r with
  | [] => Some out
  | (c, v) :: r' =>
      match read_at lb out c with
      | Some o => row_vec_tr lb alpha xi r' (lset out (c - lb) (vadd o (vmul (vmul alpha xi) v)))
      | None => None
      end
  end.
Fixpoint mat_vec_tr_rows (lb : nat) (alpha : V) (rows : list row) (x out : list V) : option (list V) :=
  match rows, x with
  | [], _ => Some out
  | r :: rows', xi :: x' =>
      match row_vec_tr lb alpha xi r out with
      | Some out' => mat_vec_tr_rows lb alpha rows' x' out'
      | None => None
      end
  | _ :: _, [] => None
  end.
(** lines 976-977 *)
Definition mat_vec_tr (iszero : V -> bool) (lb : nat) (alpha beta : V) (rows : list row) (x out : list V) : option (list V) :=
  mat_vec_tr_rows lb alpha rows x (map (fun o => if iszero beta then v0 else vmul o beta) out).
End Exchange.
Arguments message : clear implicits.
