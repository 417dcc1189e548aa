(** Model of Source/Mesh/eset.cpp (element sets) and Source/Mesh/earray.cpp
    (set operations of ElementArray). A handle is a number, 0 is
    InvalidHandle(). [None] stands for undefined behaviour: a marker read on an
    invalid handle, a read past an array, a failed assertion.
    A set is LowConn (the handles) and HighConn: the reserved entry hSorted and
    the positions of removed handles after the reserved ones; [holes] lists them
    with the back of HighConn first. The links to parent, sibling and child
    are in SetTree_Model.v. Simplified: sizes do not overflow. *)
From Coq Require Import List Bool Arith.
From Verif Require Import Util Algo.
Import ListNotations.

(** ** Private markers of one thread: marker, handle *)
Definition marks := nat -> nat -> bool.
(** mesh.cpp:268-296 GetPrivateMarker, SetPrivateMarker, RemPrivateMarker *)
Definition mark (m : marks) (k h : nat) (b : bool) : marks :=
  fun k' h' => if (k' =? k) && (h' =? h) then b else m k' h'.
Definition get_mark (m : marks) (k h : nat) : option bool :=
  if h =? 0 then None else Some (m k h).
Definition put_mark (m : marks) (k h : nat) (b : bool) : option marks :=
  if h =? 0 then None else Some (mark m k h b).

(** inmost_mesh.h:2022, 2039 SetPrivateMarkerArray, RemPrivateMarkerArray *)
Fixpoint mark_array (m : marks) (k : nat) (b : bool) (l : list nat) : marks :=
  match l with
  | [] => m
  | h :: t => mark_array (if h =? 0 then m else mark m k h b) k b t
  end.

(** earray.cpp:88-100 ElementArray::SetPrivateMarker, RemPrivateMarker *)
Fixpoint mark_all (m : marks) (k : nat) (b : bool) (l : list nat) : option marks :=
  match l with
  | [] => Some m
  | h :: t => match put_mark m k h b with Some m' => mark_all m' k b t | None => None end
  end.

(** eset.cpp:209-227, 247-265 SetPrivateMarkerElements, RemPrivateMarkerElements;
    [sel h]: the type of h is among NODE..ESET and h is not hidden *)
Fixpoint mark_elements (sel : nat -> bool) (m : marks) (k : nat) (b : bool) (l : list nat) : marks :=
  match l with
  | [] => m
  | h :: t => mark_elements sel (if negb (h =? 0) && sel h then mark m k h b else m) k b t
  end.

(** ** ElementArray, earray.cpp *)

(** earray.cpp:14-19 the loop of Unite *)
Fixpoint unite_loop (m : marks) (k : nat) (c h : list nat) : option (marks * list nat) :=
  match h with
  | [] => Some (m, c)
  | x :: t =>
    match get_mark m k x with
    | None => None
    | Some true => unite_loop m k c t
    | Some false => unite_loop (mark m k x true) k (c ++ [x]) t
    end
  end.

(** earray.cpp:6-23 Unite *)
Definition arr_unite (m : marks) (k : nat) (c h : list nat) : option (marks * list nat) :=
  match c with
  | [] => Some (m, h)
  | _ =>
    match mark_all m k true c with
    | None => None
    | Some m1 =>
      match unite_loop m1 k c h with
      | None => None
      | Some (m2, c') =>
        match mark_all m2 k false c' with Some m3 => Some (m3, c') | None => None end
      end
    end
  end.

(** earray.cpp:34-43, 58-67 the loops of Subtract ([keep] = false) and
    Intersect ([keep] = true): the kept entries move to the front, rest cut *)
Fixpoint keep_loop (m : marks) (k : nat) (keep : bool) (c : list nat) : option (list nat) :=
  match c with
  | [] => Some []
  | x :: t =>
    match get_mark m k x, keep_loop m k keep t with
    | Some b, Some r => Some (if Bool.eqb b keep then x :: r else r)
    | _, _ => None
    end
  end.

(** earray.cpp:25-48 Subtract, 49-72 Intersect *)
Definition arr_keep (keep : bool) (m : marks) (k : nat) (c h : list nat) : option (marks * list nat) :=
  match c with
  | [] => Some (m, c)
  | _ =>
    let m1 := mark_array m k true h in
    match keep_loop m1 k keep c with
    | None => None
    | Some r => Some (mark_array m1 k false h, r)
    end
  end.
Definition arr_subtract := arr_keep false.
Definition arr_intersect := arr_keep true.

(** ** Results of set algebra *)

(** eset.cpp:985-992, 994-1001, 1043-1050 append the valid unmarked handles *)
Fixpoint push_new (m : marks) (k : nat) (ret l : list nat) : option (marks * list nat) :=
  match l with
  | [] => Some (m, ret)
  | h :: t =>
    if h =? 0 then push_new m k ret t else
    match get_mark m k h with
    | None => None
    | Some true => push_new m k ret t
    | Some false => push_new (mark m k h true) k (ret ++ [h]) t
    end
  end.

(** eset.cpp:978-1033 Union, both overloads *)
Definition union (m : marks) (k : nat) (a b : list nat) : option (marks * list nat) :=
  match push_new m k [] a with
  | None => None
  | Some (m1, r1) =>
    match push_new m1 k r1 b with
    | None => None
    | Some (m2, r2) =>
      match mark_all m2 k false r2 with Some m3 => Some (m3, r2) | None => None end
    end
  end.

(** eset.cpp:1035-1055 Difference(ElementSet) *)
Definition difference_set (sel : nat -> bool) (m : marks) (k : nat) (a b : list nat)
  : option (marks * list nat) :=
  match push_new (mark_elements sel m k true b) k [] a with
  | None => None
  | Some (m1, r) =>
    match mark_all (mark_elements sel m1 k false b) k false r with
    | Some m2 => Some (m2, r) | None => None end
  end.

(** eset.cpp:1057-1077 Difference(handles) *)
Definition difference_array (m : marks) (k : nat) (a b : list nat) : option (marks * list nat) :=
  match push_new (mark_array m k true b) k [] a with
  | None => None
  | Some (m1, r) =>
    match mark_all (mark_array m1 k false b) k false r with
    | Some m2 => Some (m2, r) | None => None end
  end.

(** eset.cpp:1087-1094, 1110-1117 *)
Fixpoint push_common (m : marks) (k k2 : nat) (ret l : list nat) : option (marks * list nat) :=
  match l with
  | [] => Some (m, ret)
  | h :: t =>
    if h =? 0 then push_common m k k2 ret t else
    match get_mark m k h, get_mark m k2 h with
    | Some true, Some false => push_common (mark m k2 h true) k k2 (ret ++ [h]) t
    | Some _, Some _ => push_common m k k2 ret t
    | _, _ => None
    end
  end.

(** eset.cpp:1079-1100 Intersection(ElementSet) *)
Definition intersection_set (sel : nat -> bool) (m : marks) (k k2 : nat) (a b : list nat)
  : option (marks * list nat) :=
  match push_common (mark_elements sel m k true b) k k2 [] a with
  | None => None
  | Some (m1, r) =>
    match mark_all (mark_elements sel m1 k false b) k2 false r with
    | Some m2 => Some (m2, r) | None => None end
  end.

(** eset.cpp:1102-1123 Intersection(handles) *)
Definition intersection_array (m : marks) (k k2 : nat) (a b : list nat)
  : option (marks * list nat) :=
  match push_common (mark_array m k true b) k k2 [] a with
  | None => None
  | Some (m1, r) =>
    match mark_all (mark_array m1 k false b) k2 false r with
    | Some m2 => Some (m2, r) | None => None end
  end.

(** ** Sets *)
Record eset := ESet { lc : list nat; holes : list nat; srtd : nat }.
Definition empty_set : eset := ESet [] [] 0.

(** Size, eset.cpp:1717-1723, and Empty, 1709-1715 *)
Definition size (s : eset) : nat := length (lc s) - length (holes s).
Definition is_empty (s : eset) : bool := size s =? 0.

(** the common tail: reuse the position at the back of HighConn or append *)
Definition place (s : eset) (e : nat) : eset :=
  match holes s with
  | i :: t => ESet (lset (lc s) i e) t (srtd s)
  | [] => ESet (lc s ++ [e]) [] (srtd s)
  end.

(** PutElement of an unsorted set, eset.cpp:539-549 *)
Definition put_element (s : eset) (e : nat) : eset := place s e.
(** PutElement of a sorted set, eset.cpp:550-555 *)
Definition put_element_sorted (s : eset) (e : nat) : eset :=
  ESet (lc s ++ [e]) (holes s) (srtd s).

(** PutElements of an unsorted set, eset.cpp:566-578; the loop runs over the
    holes and reads the input without a check *)
Fixpoint put_loop (l hs h : list nat) : option (list nat * list nat) :=
  match hs with
  | [] => Some (l, h)
  | i :: t => match h with
              | x :: h' => put_loop (lset l i x) t h'
              | [] => None
              end
  end.
Definition put_elements (s : eset) (h : list nat) : option eset :=
  match put_loop (lc s) (holes s) h with
  | Some (l, rest) => Some (ESet (l ++ rest) [] (srtd s))
  | None => None
  end.

(** AddElement of an unsorted set, eset.cpp:598-607 *)
Definition add_element (s : eset) (e : nat) : eset :=
  if existsb (Nat.eqb e) (lc s) then s else place s e.

(** the loop of AddElements of an unsorted set, eset.cpp:644-656 *)
Fixpoint add_loop (m : marks) (k : nat) (s : eset) (h : list nat) : option eset :=
  match h with
  | [] => Some s
  | x :: t =>
    match get_mark m k x with
    | None => None
    | Some b => add_loop m k (if b then s else place s x) t
    end
  end.
(** eset.cpp:638-660 *)
Definition add_elements (sel : nat -> bool) (m : marks) (k : nat) (s : eset) (h : list nat)
  : option (marks * eset) :=
  let m1 := mark_elements sel m k true (lc s) in
  match add_loop m1 k s h with
  | None => None
  | Some s' => Some (mark_elements sel m1 k false (lc s'), s')
  end.

(** position of the first entry equal to [e] *)
Fixpoint index_of (e : nat) (l : list nat) : option nat :=
  match l with
  | [] => None
  | x :: t => if x =? e then Some 0 else option_map S (index_of e t)
  end.

(** lc[i] = InvalidHandle(); hc.push_back(i) *)
Definition drop_at (s : eset) (i : nat) : eset :=
  ESet (lset (lc s) i 0) (i :: holes s) (srtd s).

(** RemoveElement of an unsorted set, eset.cpp:919-927 *)
Definition remove_element (s : eset) (e : nat) : eset :=
  match index_of e (lc s) with Some i => drop_at s i | None => s end.

(** the loops of RemoveElements, Subtract ([b] = true) and Intersect
    ([b] = false): eset.cpp:966-973, 1230-1237, 1250-1257, 1270-1277, 1290-1297.
    [n] entries are left, from position length - n *)
Fixpoint drop_loop (m : marks) (k : nat) (b : bool) (s : eset) (i n : nat) : option eset :=
  match n with
  | O => Some s
  | S n' =>
    match nth_error (lc s) i with
    | None => None
    | Some h =>
      if h =? 0 then drop_loop m k b s (S i) n' else
      match get_mark m k h with
      | None => None
      | Some c => drop_loop m k b (if Bool.eqb c b then drop_at s i else s) (S i) n'
      end
    end
  end.

(** RemoveElements, eset.cpp:957-976, and Subtract(handles), 1242-1260;
    Intersect(handles), 1282-1300 *)
Definition drop_array (b : bool) (m : marks) (k : nat) (s : eset) (h : list nat)
  : option (marks * eset) :=
  let m1 := mark_array m k true h in
  match drop_loop m1 k b s 0 (length (lc s)) with
  | None => None
  | Some s' => Some (mark_array m1 k false h, s')
  end.
Definition remove_elements := drop_array true.
Definition subtract_array := drop_array true.
Definition intersect_array := drop_array false.

(** Subtract(ElementSet), eset.cpp:1222-1240; Intersect(ElementSet), 1262-1280 *)
Definition drop_set (b : bool) (sel : nat -> bool) (m : marks) (k : nat) (s : eset) (other : list nat)
  : option (marks * eset) :=
  let m1 := mark_elements sel m k true other in
  match drop_loop m1 k b s 0 (length (lc s)) with
  | None => None
  | Some s' => Some (mark_elements sel m1 k false other, s')
  end.
Definition subtract_set := drop_set true.
Definition intersect_set := drop_set false.

(** s.Subtract(s), eset.cpp:1222-1240 with other == this: the marker is removed
    from the elements left in the set *)
Definition subtract_self (sel : nat -> bool) (m : marks) (k : nat) (s : eset) : option (marks * eset) :=
  let m1 := mark_elements sel m k true (lc s) in
  match drop_loop m1 k true s 0 (length (lc s)) with
  | None => None
  | Some s' => Some (mark_elements sel m1 k false (lc s'), s')
  end.

(** Erase(iterator), eset.cpp:1615-1628, with its assertions *)
Definition erase (s : eset) (i : nat) : option eset :=
  match nth_error (lc s) i with
  | Some h => if h =? 0 then None else Some (drop_at s i)
  | None => None
  end.

(** Clear, eset.cpp:1725-1734 *)
Definition clear (s : eset) : eset := ESet [] [] (srtd s).

(** FindHandle without the comparator, eset.cpp:1584-1590 *)
Definition find_handle (s : eset) (h : nat) : bool := existsb (Nat.eqb h) (lc s).

(** eset.cpp:11-25 iterator::operator++, 1593-1605 Begin and End: positions;
    [hid] says which elements are hidden *)
Fixpoint next_pos (hid : nat -> bool) (l : list nat) (pos : nat) : nat :=
  match l with
  | [] => pos
  | h :: t => if (h =? 0) || hid h then next_pos hid t (S pos) else pos
  end.
Definition iter_next (hid : nat -> bool) (l : list nat) (pos : nat) : nat :=
  next_pos hid (skipn (S pos) l) (S pos).
Definition iter_begin (hid : nat -> bool) (l : list nat) : nat := next_pos hid l 0.
(** a loop of the user: for(it = Begin(); it < End(); ++it) collect *it *)
Fixpoint iter_loop (fuel : nat) (hid : nat -> bool) (l : list nat) (pos : nat) : list nat :=
  match fuel with
  | O => []
  | S f => match nth_error l pos with
           | Some h => h :: iter_loop f hid l (iter_next hid l pos)
           | None => []
           end
  end.
Definition iterate (hid : nat -> bool) (s : eset) : list nat :=
  iter_loop (length (lc s)) hid (lc s) (iter_begin hid (lc s)).

(** ** ReorderEmpty of an unsorted set, eset.cpp:1656-1675 *)

(** while(cend >= 0 && lc[cend] == InvalidHandle()) --cend; [c] = cend + 1 *)
Fixpoint trim (l : list nat) (c : nat) : nat :=
  match c with
  | O => O
  | S c' => if nth c' l 0 =? 0 then trim l c' else c
  end.

(** eset.cpp:1661-1671; [c] = cend + 1 *)
Fixpoint reorder_loop (fuel : nat) (l hs : list nat) (c : nat) : option (list nat * nat) :=
  match fuel with
  | O => None
  | S f =>
    match c, hs with
    | S cend, b :: t =>
      if cend <=? b then reorder_loop f l t c
      else if negb (nth cend l 0 =? 0)
      then reorder_loop f (lset (lset l b (nth cend l 0)) cend 0) hs c
      else reorder_loop f l hs cend
    | _, _ => Some (l, c)
    end
  end.

(** eset.cpp:1656-1675; resize to a negative size is [None] *)
Definition reorder_unsorted (s : eset) : option eset :=
  match reorder_loop (2 * length (lc s) + length (holes s) + 2) (lc s) (holes s)
          (trim (lc s) (length (lc s))) with
  | None => None
  | Some (l, c) =>
    match trim l c with
    | O => None
    | S cend => Some (ESet (firstn cend l) [] (srtd s))
    end
  end.

(** ReorderEmpty of a sorted set, eset.cpp:1685-1702: positions i, j *)
Fixpoint compact_loop (l : list nat) (i j n : nat) : list nat * nat :=
  match n with
  | O => (l, j)
  | S n' =>
    if nth i l 0 =? 0 then compact_loop l (S i) j n'
    else compact_loop (lset (lset l j (nth i l 0)) i 0) (S i) (S j) n'
  end.
Definition reorder_sorted (s : eset) : eset :=
  match holes s with
  | [] => s
  | _ =>
    let '(l1, j1) := compact_loop (lc s) 0 0 (srtd s) in
    let '(l2, j2) := compact_loop l1 (srtd s) j1 (length (lc s) - srtd s) in
    ESet (firstn j2 l2) [] j1
  end.

(** ** Sets sorted by a comparator; [less] is operator< on handles for
    HANDLE_COMPARATOR and the comparator object otherwise *)
Section Sorted.
Variable less : nat -> nat -> bool.

Definition bound (s : eset) (e : nat) : nat :=
  lower_bound (fun x => less x e) (firstn (srtd s) (lc s)).

(** AddElement, eset.cpp:608-628 *)
Definition add_element_sorted (s : eset) (e : nat) : eset :=
  let i := bound s e in
  if (i <? srtd s) && (nth i (lc s) 0 =? e) then s
  else ESet (firstn i (lc s) ++ e :: skipn i (lc s)) (holes s) (S (srtd s)).

(** eset.cpp:949-954 all entries equal to e in the unsorted part *)
Fixpoint drop_equal (s : eset) (e i n : nat) : eset :=
  match n with
  | O => s
  | S n' => drop_equal (if nth i (lc s) 0 =? e then drop_at s i else s) e (S i) n'
  end.

(** RemoveElement, eset.cpp:928-955 *)
Definition remove_element_sorted (s : eset) (e : nat) : eset :=
  let i := bound s e in
  if i <? srtd s then (if nth i (lc s) 0 =? e then drop_at s i else s)
  else drop_equal s e (srtd s) (length (lc s) - srtd s).

(** FindHandle with the comparator, eset.cpp:1533-1571; the position found
    by the value of h is that of [bound] *)
Definition find_sorted (s : eset) (h : nat) : bool :=
  let i := bound s h in
  if i <? srtd s then nth i (lc s) 0 =? h
  else existsb (Nat.eqb h) (skipn (srtd s) (lc s)).

(** *** SortSet *)

(** eset.cpp:1344-1350, 1370-1376, 1396-1402, 1422-1428 *)
Fixpoint sort_merge (fuel : nat) (i j out : list nat) : list nat * list nat * list nat :=
  match fuel with
  | O => (i, j, out)
  | S f =>
    match i, j with
    | a :: i', b :: j' =>
      if a =? 0 then sort_merge f i' j out
      else if b =? 0 then sort_merge f i j' out
      else if less a b then sort_merge f i' j (out ++ [a])
      else sort_merge f i j' (out ++ [b])
    | _, _ => (i, j, out)
    end
  end.
(** while(it != iend && *it != InvalidHandle()) *t++ = *it++ *)
Fixpoint take_valid (l : list nat) : list nat :=
  match l with
  | [] => []
  | h :: t => if h =? 0 then [] else h :: take_valid t
  end.

(** the merge of both parts, eset.cpp:1416-1435 (also 1338-1357, 1364-1383,
    1390-1409), with the assertion on the number of holes *)
Definition sort_parts (start : nat) (l : list nat) (nholes : nat) : option (list nat) :=
  if start =? 0 then Some l else
  let '(i, j, out) := sort_merge (S (length l)) (firstn start l) (skipn start l) [] in
  let t := out ++ take_valid i ++ take_valid j in
  if length l - length t =? nholes then Some (t ++ repeat 0 (length l - length t)) else None.

(** eset.cpp:1441-1447 *)
Definition sort_finish (s : eset) (l : list nat) : eset :=
  let n := length l - length (holes s) in ESet (firstn n l) [] n.

(** SortSet by handle, centroid or hierarchy, eset.cpp:1360-1437; [srt] sorts
    an array; a sorted part longer than the array is out of bounds *)
Definition sort_set (srt : list nat -> list nat) (s : eset) : option eset :=
  let start := srtd s in
  if length (lc s) <? start then None else
  let l := firstn start (lc s) ++ srt (skipn start (lc s)) in
  option_map (sort_finish s) (sort_parts start l (length (holes s))).

(** SortSet by global id, eset.cpp:1319-1359: i from start, j from 0 *)
Definition sort_set_gid (srt : list nat -> list nat) (s : eset) : option eset :=
  let start := srtd s in
  if length (lc s) <? start then None else
  let l1 := match holes s with
            | [] => lc s
            | _ => fst (compact_loop (lc s) start 0 (length (lc s) - start))
            end in
  let k := match holes s with
           | [] => 0
           | _ => (length (lc s) - start) - snd (compact_loop (lc s) start 0 (length (lc s) - start))
           end in
  let num := length (lc s) - start - k in
  let l := firstn start l1 ++ srt (firstn num (skipn start l1)) ++ skipn (start + num) l1 in
  option_map (sort_finish s) (sort_parts start l (length (holes s))).

(** *** AddElements *)

(** eset.cpp:707-711, 770-774, 831-835: the rest of LowConn *)
Fixpoint attach (m : marks) (k : nat) (out l : list nat) : marks * list nat :=
  match l with
  | [] => (m, out)
  | h :: t => if (h =? 0) || m k h then (m, out) else attach (mark m k h true) k (out ++ [h]) t
  end.

(** eset.cpp:672-678 *)
Fixpoint merge_first (fuel : nat) (i j : list nat) : list nat * list nat * list nat :=
  match fuel with
  | O => (i, j, [])
  | S f =>
    match i, j with
    | a :: i', b :: j' =>
      if a =? 0 then merge_first f i' j
      else if b =? 0 then merge_first f i j'
      else if a <? b then (i', j, [a]) else (i, j', [b])
    | _, _ => (i, j, [])
    end
  end.
(** eset.cpp:680-686; [prev] is *mitprev *)
Fixpoint merge_next (fuel : nat) (i j : list nat) (prev : nat) (out : list nat)
  : list nat * list nat * nat * list nat :=
  match fuel with
  | O => (i, j, prev, out)
  | S f =>
    match i, j with
    | a :: i', b :: j' =>
      if (a =? 0) || (a =? prev) then merge_next f i' j prev out
      else if (b =? 0) || (b =? prev) then merge_next f i j' prev out
      else if a <? b then merge_next f i' j a (out ++ [a])
      else merge_next f i j' b (out ++ [b])
    | _, _ => (i, j, prev, out)
    end
  end.
(** eset.cpp:688-701 *)
Fixpoint merge_rest (l : list nat) (prev : nat) (out : list nat) : list nat * nat * list nat :=
  match l with
  | [] => (l, prev, out)
  | h :: t => if (h =? 0) || (h =? prev) then (l, prev, out) else merge_rest t h (out ++ [h])
  end.

(** AddElements by handle, eset.cpp:661-720; [h] already sorted *)
Definition add_elements_handle (m : marks) (k : nat) (s : eset) (h : list nat) : marks * eset :=
  let l := firstn (srtd s) (lc s) in
  let fuel := S (length l + length h) in
  let '(i, j, out) := merge_first fuel l h in
  let '(i, j, prev, out) := merge_next fuel i j (hd 0 out) out in
  let '(i, prev, out) := merge_rest i prev out in
  let '(j, prev, out) := merge_rest j prev out in
  let n := length out in
  let m1 := mark_array m k true out in
  let '(m2, out) := attach m1 k out (i ++ skipn (srtd s) (lc s)) in
  (mark_array m2 k false out, ESet out [] n).

(** eset.cpp:733-751, 796-812, 857-873: duplicates are found by a marker;
    [wrong]: the last branch advances the wrong iterator (871, by centroid) *)
Fixpoint merge_marked (wrong : bool) (fuel : nat) (m : marks) (k : nat) (i j out : list nat)
  : marks * list nat * list nat * list nat :=
  match fuel with
  | O => (m, i, j, out)
  | S f =>
    match i, j with
    | a :: i', b :: j' =>
      if (a =? 0) || m k a then merge_marked wrong f m k i' j out
      else if (b =? 0) || m k b then merge_marked wrong f m k i j' out
      else if less a b then merge_marked wrong f (mark m k a true) k i' j (out ++ [a])
      else if wrong then merge_marked wrong f (mark m k b true) k i' j (out ++ [b])
      else merge_marked wrong f (mark m k b true) k i j' (out ++ [b])
    | _, _ => (m, i, j, out)
    end
  end.

(** eset.cpp:753-766 and the like *)
Fixpoint rest_marked (m : marks) (k : nat) (l out : list nat) : marks * list nat * list nat :=
  match l with
  | [] => (m, l, out)
  | h :: t => if (h =? 0) || m k h then (m, l, out)
              else rest_marked (mark m k h true) k t (out ++ [h])
  end.

(** AddElements by global id, hierarchy ([wrong] = false, 721-844) and centroid
    ([wrong] = true, 845-905); [h] already sorted *)
Definition add_elements_marked (wrong : bool) (m : marks) (k : nat) (s : eset) (h : list nat)
  : marks * eset :=
  let l := firstn (srtd s) (lc s) in
  let '(m1, i, j, out) := merge_marked wrong (S (length l + length h)) m k l h [] in
  let '(m2, i, out) := rest_marked m1 k i out in
  let '(m3, j, out) := rest_marked m2 k j out in
  let n := length out in
  let '(m4, out) := attach m3 k out (i ++ skipn (srtd s) (lc s)) in
  (mark_array m4 k false out, ESet out [] n).

(** Unite(ElementSet) with the same comparator, eset.cpp:1134-1212 *)
Definition unite_set (m : marks) (k : nat) (s o : eset) : marks * eset :=
  let l := firstn (srtd s) (lc s) in
  let h := firstn (srtd o) (lc o) in
  let '(m1, i, j, out) := merge_marked false (S (length l + length h)) m k l h [] in
  let '(m2, i, out) := rest_marked m1 k i out in
  let '(m3, j, out) := rest_marked m2 k j out in
  let n := length out in
  let '(m4, out) := attach m3 k out (i ++ skipn (srtd s) (lc s)) in
  let '(m5, out) := attach m4 k out (j ++ skipn (srtd o) (lc o)) in
  (mark_array m5 k false out, ESet out [] n).

End Sorted.
