(** Sending and receiving buffers between processors: cutting a buffer into
    messages, waiting for the messages, and finding out who sends how much.
    Source: Source/Mesh/parallel.cpp 5596-5684 (ExchangeBuffersInner), 5686-5846
    (PrepareReceiveInner), 5848-5893 (FinishRequests), Source/Headers/
    inmost_mesh.h 2287-2306 (exch_recv_reqs_t).
    [limit] is INT_MAX, the largest number of bytes in one message.
    MPI is modelled by what it promises: MPI_Waitsome returns the requests
    completed since the last call, in any order and any grouping; a list of
    such answers is a schedule.  Message contents, errors of MPI and the
    reporting macros are not modelled. *)
From Coq Require Import List Bool Arith ZArith.
From Verif Require Import Util Algo.
Import ListNotations.

Section S.
Variable limit : nat.

(** parallel.cpp 5629-5648 (and 5659-5677): do { chunk = min(INT_MAX, datasize -
    shift); ...; shift += chunk; } while( shift != datasize ).  The messages of a
    buffer as pairs (first byte, number of bytes). *)
Fixpoint split_loop (fuel shift datasize : nat) : list (nat * nat) :=
  match fuel with
  | O => []
  | S f =>
      let chunk := Nat.min limit (datasize - shift) in
      (shift, chunk) ::
      (if shift + chunk =? datasize then [] else split_loop f (shift + chunk) datasize)
  end.
Definition messages (datasize : nat) : list (nat * nat) := split_loop (S datasize) 0 datasize.

(** inmost_mesh.h 2287-2306; [nreq] is requests.size() *)
Record reqs := Reqs { buf : list nat; cnt : list Z; nreq : nat }.

(** inmost_mesh.h 2299-2305 *)
Definition clear : reqs := Reqs [0] [] 0.

Definition bump {A} (f : A -> A) (l : list A) (d : A) : list A :=
  lset l (length l - 1) (f (last l d)).

(** parallel.cpp 5640-5642 *)
Definition post_one (r : reqs) (m : nat * nat) : reqs :=
  Reqs (bump S (buf r) 0) (bump (fun c => (c + 1) mod 2 ^ 32)%Z (cnt r) 0%Z) (S (nreq r)).
(** parallel.cpp 5619-5649 for one receive buffer *)
Definition post_buffer (r : reqs) (datasize : nat) : reqs :=
  fold_left post_one (messages datasize) (Reqs (buf r ++ [last (buf r) 0]) (cnt r ++ [0%Z]) (nreq r)).
(** parallel.cpp 5614-5649: the receives posted for buffers of these sizes *)
Definition post (sizes : list nat) : reqs := fold_left post_buffer sizes clear.

(** inmost_mesh.h 2292-2298 *)
Definition count (c : list Z) : Z := (fold_left Z.add c 0 mod 2 ^ 32)%Z.

(** parallel.cpp 5877-5884: one closed request [p]; None is a write outside cnt *)
Definition close_one (b : list nat) (s : option (list Z * list nat)) (p : nat)
    : option (list Z * list nat) :=
  match s with
  | None => None
  | Some (c, ret) =>
      let k := lower_bound (fun x => x <? p) b in
      match nth_error c k with
      | None => None
      | Some v =>
          let v' := ((v - 1) mod 2 ^ 32)%Z in
          Some (lset c k v', if (v' =? 0)%Z then ret ++ [k] else ret)
      end
  end.

(** parallel.cpp 5848-5893 FinishRequests: the buffers found complete, the new
    counters and the rest of the schedule.  An empty schedule: MPI_Waitsome
    answers MPI_UNDEFINED (5868-5873). *)
Fixpoint finish (b : list nat) (c : list Z) (sched : list (list nat))
    : option (list nat * list Z * list (list nat)) :=
  if (count c =? 0)%Z then Some ([], c, sched)
  else match sched with
       | [] => Some ([], c, [])
       | batch :: rest =>
           match fold_left (close_one b) batch (Some (c, [])) with
           | None => None
           | Some (c', []) => finish b c' rest
           | Some (c', ret) => Some (ret, c', rest)
           end
       end.

(** The loop of every caller, e.g. parallel.cpp 3675-3707: while( !(done =
    FinishRequests(recv_reqs)).empty() ) for each of done: unpack that buffer.
    The result lists the unpacked buffers with the messages not yet arrived. *)
Fixpoint drain (fuel : nat) (b : list nat) (c : list Z) (sched : list (list nat))
    : option (list (list nat * list (list nat))) :=
  match fuel with
  | O => Some []
  | S f =>
      match finish b c sched with
      | None => None
      | Some ([], _, _) => Some []
      | Some (done, c', rest) =>
          match drain f b c' rest with
          | None => None
          | Some evs => Some ((done, rest) :: evs)
          end
      end
  end.
Definition receive (sizes : list nat) (sched : list (list nat)) :=
  let r := post sizes in drain (S (length sched)) (buf r) (cnt r) sched.
End S.

(** ** Message tags.  parallel.cpp 5608-5613, 5621, 5633 and 5652, 5664. *)
Open Scope Z_scope.
Definition int_max : Z := 2 ^ 31 - 1.
(** 5621 (who = own rank, a receive), 5652 (who = destination, a send);
    size_t arithmetic, the result converted to int *)
Definition base_tag (uid mpisize who rand_num max_tag : Z) : Z :=
  ((((uid + 1) * mpisize * mpisize) mod 2 ^ 64 + (who + mpisize + rand_num)) mod 2 ^ 64) mod max_tag.
(** 5633, 5664: int arithmetic; None is signed overflow *)
Definition chunk_tag (t it max_tag : Z) : option Z :=
  if t * 1000 + it <=? int_max then Some ((t * 1000 + it) mod max_tag) else None.
Close Scope Z_scope.

(** ** Who sends how much.  PrepareReceiveInner, parallel.cpp 5686-5846.
    [sends] lists for every processor the (destination, size) of its buffers. *)

(** 5806-5811: the array one processor contributes *)
Fixpoint dest_and_size (l : list (nat * nat)) : list nat :=
  match l with [] => [] | (d, s) :: t => d :: s :: dest_and_size t end.

(** 5816-5820: displs[0] = 0, displs[k] = displs[k-1] + allsize[k-1] *)
Fixpoint displs_loop (d : nat) (allsize : list nat) : list nat :=
  d :: match allsize with [] => [] | a :: t => displs_loop (d + a) t end.

(** 5826-5834: for(j = displs[k]; j < displs[k+1]; j += 2) *)
Fixpoint pick_loop (fuel j hi me k : nat) (recvs : list nat) : option (list (nat * nat)) :=
  match fuel with
  | O => Some []
  | S f =>
      if j <? hi then
        match nth_error recvs j, nth_error recvs (j + 1), pick_loop f (j + 2) hi me k recvs with
        | Some d, Some s, Some r => Some (if d =? me then (k, s) :: r else r)
        | _, _, _ => None
        end
      else Some []
  end.

(** 5825: for(k = 0; k < mpisize; k++) *)
Fixpoint pick_all (n k me : nat) (displs recvs : list nat) : option (list (nat * nat)) :=
  match n with
  | O => Some []
  | S n' =>
      match nth_error displs k, nth_error displs (k + 1) with
      | Some lo, Some hi =>
          match pick_loop (S hi) lo hi me k recvs, pick_all n' (k + 1) me displs recvs with
          | Some a, Some r => Some (a ++ r)
          | _, _ => None
          end
      | _, _ => None
      end
  end.

(** UnknownSource with MPI-1 (5803-5836): the receive buffers of processor [me]
    as (source, size).  MPI_Allgather and MPI_Allgatherv concatenate; the array
    has one more (unused) entry. *)
Definition prepare_source (sends : list (list (nat * nat))) (me : nat) : option (list (nat * nat)) :=
  let allsize := map (fun l => 2 * length l) sends in
  pick_all (length sends) 0 me (displs_loop 0 allsize) (concat (map dest_and_size sends) ++ [0]).

(** UnknownSource with MPI-2 windows (5778-5801): zeroed window of [me], every
    processor k puts size+1 at displacement k of the window of the destination *)
Definition window (sends : list (list (nat * nat))) (me : nat) : list nat :=
  fold_left (fun w kl => fold_left (fun w ds => if fst ds =? me then lset w (fst kl) (snd ds + 1) else w)
                                   (snd kl) w)
            (combine (seq 0 (length sends)) sends) (repeat 0 (length sends)).
Definition prepare_source_window (sends : list (list (nat * nat))) (me : nat) : list (nat * nat) :=
  let w := window sends me in
  flat_map (fun ii => if 0 <? nth ii w 0 then [(ii, nth ii w 0 - 1)] else []) (seq 0 (length sends)).

(** UnknownSize with MPI-2 windows (5692-5713): sizes for the given sources;
    None is the size 0 - 1 when that source sends nothing *)
Definition prepare_size_window (sends : list (list (nat * nat))) (me : nat) (srcs : list nat)
    : list (option nat) :=
  let w := window sends me in
  map (fun p => match nth p w 0 with O => None | S s => Some s end) srcs.
