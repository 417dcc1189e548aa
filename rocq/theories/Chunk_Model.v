(** Model of linked_array<T,base> and chunk_array<T,block_bits>
    (Source/Headers/container.hpp lines 1017-1098 and 1100-1339).

    A chunk is a pair of an allocation number (its address: every [new] takes a
    fresh number) and its cells; a cell is [None] until it is written.  NULL
    chunk pointers are [None].  Accesses through NULL, outside of a chunk or
    outside of the chunk table give [None] (undefined behaviour / assertion).
    Shifts and masks by powers of two are written as division and remainder.
    Sizes are unbounded naturals (size_t is 64 bits wide). *)
From Coq Require Import List Bool Arith.
From Verif Require Import Util.
Import ListNotations.

(** ** linked_array *)
Section Linked.
Context {T : Type}.
Variable base : nat.
Variable dflt : T.

(** lines 1020-1022: [e], [ne], [next]; [Null] is a NULL [next]. *)
Inductive la := Null | Node (e : list T) (ne : nat) (next : la).

(** line 1026; the storage [e] holds unspecified values, here [dflt]. *)
Definition la_new : la := Node (repeat dflt base) 0 Null.
(** lines 1027-1036 *)
Definition la_clear (x : la) : la := match x with Null => Null | Node e _ _ => Node e 0 Null end.
(** lines 1037-1049 *)
Fixpoint la_get (x : la) (n : nat) : option T :=
  match x with
  | Null => None
  | Node e ne next => if n <? base then if n <? ne then nth_error e n else None
                      else la_get next (n - base)
  end.
Fixpoint la_set (x : la) (n : nat) (v : T) : option la :=
  match x with
  | Null => None
  | Node e ne next => if n <? base then if n <? ne then Some (Node (lset e n v) ne next) else None
                      else option_map (Node e ne) (la_set next (n - base) v)
  end.
(** for(k = a; k < b; ++k) e[k] = c, lines 1074-1075, 1090-1091 *)
Fixpoint fill_from (e : list T) (a n : nat) (c : T) : list T :=
  match n with O => e | S n' => fill_from (lset e a c) (S a) n' c end.
(** lines 1070-1097; [fuel] bounds the recursion ([S new_n] suffices). *)
Fixpoint la_resize (fuel : nat) (x : la) (new_n : nat) (c : T) : option la :=
  match fuel with
  | O => None
  | S f =>
      match x with
      | Null => None
      | Node e ne next =>
          if new_n <=? base
          then Some (Node (fill_from e ne (new_n - ne) c) new_n Null)
          else
            let next' := match next with Null => la_new | _ => next end in
            let e' := if ne <? base then fill_from e ne (base - ne) c else e in
            let ne' := if ne <? base then base else ne in
            option_map (Node e' ne') (la_resize f next' (new_n - base) c)
      end
  end.
End Linked.
Arguments la : clear implicits.

(** ** chunk_array *)
Section Chunk.
Context {A : Type}.
Variable block_bits : nat.

Definition cell := option A.
Definition chunk := (nat * list cell)%type.
(** [next_addr] is ghost state: the next allocation number. *)
Record carr := { chunks : la (option chunk); m_size : nat; next_addr : nat }.

(** lines 1107-1113; fwd_alloc_chunk_size = sizeof(element pointer)*64 = 512. *)
Definition bval : nat := 2 ^ block_bits.
Definition fwd_val : nat := 64.
Definition fwd_size : nat := 512.
Definition la_base : nat := 512.

Definition cget (c : la (option chunk)) := la_get la_base c.
Definition cset (c : la (option chunk)) := la_set la_base c.
Definition cresize (c : la (option chunk)) (n : nat) :=
  la_resize la_base None (S n) c n None.

(** lines 1223-1226: ceil(n / 2^bits), twice. *)
Definition nchunks (n : nat) : nat := n / bval + (if n mod bval =? 0 then 0 else 1).
Definition nfwd (n : nat) : nat := nchunks n / fwd_val + (if nchunks n mod fwd_val =? 0 then 0 else 1).

(** lines 1227-1232: delete chunks [q, q+n). *)
Fixpoint free_chunks (c : la (option chunk)) (q n : nat) : option (la (option chunk)) :=
  match n with
  | O => Some c
  | S n' => match cget c q with
            | Some (Some _) => match cset c q None with
                               | Some c' => free_chunks c' (S q) n'
                               | None => None end
            | _ => None
            end
  end.
(** lines 1240-1248: allocate chunks [q, q+n). *)
Fixpoint new_chunks (c : la (option chunk)) (addr q n : nat) : option (la (option chunk) * nat) :=
  match n with
  | O => Some (c, addr)
  | S n' => match cget c q with
            | Some None => match cset c q (Some (addr, repeat None bval)) with
                           | Some c' => new_chunks c' (S addr) (S q) n'
                           | None => None end
            | _ => None
            end
  end.
(** lines 1221-1250 *)
Definition inner_resize (a : carr) (new_size : nat) : option carr :=
  let oldc := nchunks (m_size a) in
  let newc := nchunks new_size in
  let oldn := nfwd (m_size a) in
  let newn := nfwd new_size in
  match free_chunks (chunks a) newc (oldc - newc) with
  | None => None
  | Some c1 =>
      match (if newn =? oldn then Some c1
             else if 0 <? newn then cresize c1 (fwd_size * newn) else Some (la_clear c1)) with
      | None => None
      | Some c2 =>
          match new_chunks c2 (next_addr a) oldc (newc - oldc) with
          | None => None
          | Some (c3, ad) => Some {| chunks := c3; m_size := m_size a; next_addr := ad |}
          end
      end
  end.

(** lines 1120-1127: access_element *)
Definition rd (c : la (option chunk)) (k : nat) : option cell :=
  match cget c (k / bval) with
  | Some (Some (_, cells)) => nth_error cells (k mod bval)
  | _ => None
  end.
Definition wr (c : la (option chunk)) (k : nat) (v : cell) : option (la (option chunk)) :=
  match cget c (k / bval) with
  | Some (Some (ad, cells)) =>
      if k mod bval <? length cells then cset c (k / bval) (Some (ad, lset cells (k mod bval) v)) else None
  | _ => None
  end.
Definition with_chunks (a : carr) (c : la (option chunk)) (n : nat) : carr :=
  {| chunks := c; m_size := n; next_addr := next_addr a |}.

(** lines 1128-1147 *)
Definition get (a : carr) (k : nat) : option cell :=
  if k <? m_size a then rd (chunks a) k else None.
Definition set (a : carr) (k : nat) (v : A) : option carr :=
  if k <? m_size a then option_map (fun c => with_chunks a c (m_size a)) (wr (chunks a) k (Some v)) else None.
(** lines 1272-1275 *)
Definition empty : carr := {| chunks := la_new la_base None; m_size := 0; next_addr := 0 |}.
(** lines 1260-1270 *)
Definition clear (a : carr) : option carr :=
  match free_chunks (chunks a) 0 (nchunks (m_size a)) with
  | Some c => Some (with_chunks a (la_clear c) 0)
  | None => None
  end.
(** lines 1305-1310 *)
Definition pop_back (a : carr) : option carr :=
  if m_size a =? 0 then None
  else match inner_resize a (m_size a - 1) with
       | Some a' => Some (with_chunks a' (chunks a') (m_size a - 1))
       | None => None end.
(** lines 1311-1316; the argument may be an element of the array itself. *)
Definition push_back (a : carr) (e : A + nat) : option carr :=
  match inner_resize a (S (m_size a)) with
  | None => None
  | Some a' =>
      match (match e with inl x => Some (Some x)
                        | inr i => if i <? m_size a then rd (chunks a') i else None end) with
      | None => None
      | Some v => option_map (fun c => with_chunks a' c (S (m_size a))) (wr (chunks a') (m_size a) v)
      end
  end.
(** for(k = a; ...; n times) access_element(k) = e *)
Fixpoint fill_cells (c : la (option chunk)) (k n : nat) (e : A) : option (la (option chunk)) :=
  match n with
  | O => Some c
  | S n' => match wr c k (Some e) with Some c' => fill_cells c' (S k) n' e | None => None end
  end.
(** lines 1317-1323 *)
Definition resize (a : carr) (n : nat) (e : A) : option carr :=
  match inner_resize a n with
  | None => None
  | Some a' => option_map (fun c => with_chunks a' c n) (fill_cells (chunks a') (m_size a) (n - m_size a) e)
  end.
(** while(it != end()) *jt++ = *it++, line 1328 *)
Fixpoint shift_down (c : la (option chunk)) (j n : nat) : option (la (option chunk)) :=
  match n with
  | O => Some c
  | S n' => match rd c (S j) with
            | Some v => match wr c j v with Some c' => shift_down c' (S j) n' | None => None end
            | None => None end
  end.
(** lines 1325-1332 *)
Definition erase (a : carr) (d : nat) : option carr :=
  if d <? m_size a then
    match shift_down (chunks a) d (m_size a - 1 - d) with
    | None => None
    | Some c => match inner_resize (with_chunks a c (m_size a)) (m_size a - 1) with
                | Some a' => Some (with_chunks a' (chunks a') (m_size a - 1))
                | None => None end
    end
  else None.

(** for(k = 0; k < other.size(); k++) access_element(k) = other.access_element(k) *)
Fixpoint copy_cells (src dst : la (option chunk)) (k n : nat) : option (la (option chunk)) :=
  match n with
  | O => Some dst
  | S n' => match rd src k with
            | Some v => match wr dst k v with Some d => copy_cells src d (S k) n' | None => None end
            | None => None end
  end.
(** lines 1276-1283; the copy allocates from its own numbering *)
Definition fill_copy (a other : carr) : option carr :=
  match inner_resize a (m_size other) with
  | None => None
  | Some a' => option_map (fun c => with_chunks a' c (m_size other))
                          (copy_cells (chunks other) (chunks a') 0 (m_size other))
  end.
Definition copy_ctor (other : carr) : option carr := fill_copy empty other.
(** lines 1284-1294, for [this != &other] *)
Definition assign_op (a other : carr) : option carr :=
  match clear a with Some a' => fill_copy a' other | None => None end.

(** Where element [k] lives: the allocation and the offset in it. *)
Definition address (a : carr) (k : nat) : option (nat * nat) :=
  match cget (chunks a) (k / bval) with
  | Some (Some (ad, _)) => Some (ad, k mod bval)
  | _ => None
  end.
Definition content (a : carr) : list (option cell) := map (get a) (seq 0 (m_size a)).

Inductive op :=
| OPush (x : A) | OPushOwn (i : nat) | OPop | OResize (n : nat) (e : A) | OClear
| OSet (k : nat) (x : A) | OErase (d : nat).
Definition step (a : carr) (o : op) : option carr :=
  match o with
  | OPush x => push_back a (inl x)
  | OPushOwn i => push_back a (inr i)
  | OPop => pop_back a
  | OResize n e => resize a n e
  | OClear => clear a
  | OSet k x => set a k x
  | OErase d => erase a d
  end.
Fixpoint run (a : carr) (ops : list op) : option carr :=
  match ops with
  | [] => Some a
  | o :: r => match step a o with Some a' => run a' r | None => None end
  end.
End Chunk.
Arguments carr : clear implicits.
Arguments op : clear implicits.
