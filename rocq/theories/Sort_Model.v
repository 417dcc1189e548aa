(** Model of Source/Mesh/comparator.cpp: Mesh::SortHandles,
    Mesh::SortByGlobalID (radix sort by bytes), and the comparators.
    Handles are integers; an array is a list. [w] is the number of bytes of a
    handle (integer): 4 or 8. Coordinates are rational numbers, subtraction is
    exact. Not modelled: arrays of 2^32 elements and more; std::sort is any
    function that sorts (see Sort_Props.v). *)
From Coq Require Import ZArith List Bool QArith Qabs.
From Verif Require Import Util.
Import ListNotations.
Open Scope Z_scope.

Definition u32 (x : Z) : Z := x mod 2 ^ 32.

(** comparator.cpp:91, 181 *)
Definition kHist : nat := 256.

(** comparator.cpp:97-104, 189-195: the histogram of one byte *)
Definition hist (key : Z -> nat) (l : list Z) : list Z :=
  fold_left (fun b x => lset b (key x) (u32 (nth (key x) b 0 + 1))) l (repeat 0 kHist).

(** comparator.cpp:105-112, 196-203: b[i] becomes the number of smaller ones
    minus one, in unsigned arithmetic *)
Fixpoint starts (b : list Z) (sum : Z) : list Z :=
  match b with
  | [] => []
  | c :: t => u32 (sum - 1) :: starts t (u32 (c + sum))
  end.

(** comparator.cpp:113-116, 204-207: for each i, dst[++b[byte of src[i]]] = src[i] *)
Definition scatter (key : Z -> nat) (src dst b : list Z) : list Z :=
  fst (fold_left
         (fun db x =>
            let c := u32 (nth (key x) (snd db) 0 + 1) in
            (lset (fst db) (Z.to_nat c) x, lset (snd db) (key x) c))
         src (dst, b)).

(** comparator.cpp:113-116 (159-166, 204-207, 255-262): [n] passes from byte [i];
    the two arrays change roles, the histograms are those of the input [h0] *)
Fixpoint passes (key : nat -> Z -> nat) (h0 : list Z) (i n : nat)
    (src dst : list Z) : list Z :=
  match n with
  | O => src
  | S n' => passes key h0 (S i) n'
              (scatter (key i) src dst (starts (hist (key i) h0) 0)) src
  end.

(** byte [i] in memory of the [w] byte number [x]; [big]: big-endian machine *)
Definition byte_at (big : bool) (w i : nat) (x : Z) : nat :=
  Z.to_nat (x / 256 ^ Z.of_nat (if big then w - 1 - i else i) mod 256).

(** comparator.cpp:173, 211: length from which SortHandles uses the radix sort *)
Definition handles_limit (w : nat) : nat := if (w =? 4)%nat then 32 else 64.
(** comparator.cpp:85, 118 *)
Definition ids_limit (w : nat) : nat := if (w =? 4)%nat then 64 else 128.

(** ENUMUNDEF, inmost_common.h:204, 216 *)
Definition undef (w : nat) : Z := 256 ^ Z.of_nat w - 1.

(** comparator.cpp:171-267 SortHandles; [tmp] is the uninitialised buffer,
    [srt] is std::sort *)
Definition SortHandles (big : bool) (w : nat) (srt : list Z -> list Z)
    (h tmp : list Z) : list Z :=
  if (handles_limit w <? length h)%nat then
    let h1 := map (fun x => if x =? 0 then undef w else x) h in
    let r := passes (byte_at big w) h1 0 w h1 tmp in
    map (fun x => if x =? undef w then 0 else x) r
  else srt h.

(** comparator.cpp:83-169 SortByGlobalID; [gid] gives the (signed) global ids *)
Definition SortByGlobalID (big : bool) (w : nat) (gid : Z -> Z)
    (srt : list Z -> list Z) (h tmp : list Z) : list Z :=
  if (ids_limit w <? length h)%nat then
    passes (fun i x => byte_at big w i (gid x mod 256 ^ Z.of_nat w)) h 0 w h tmp
  else srt h.

(** ** Comparators *)

(** comparator.cpp:5-17 CentroidComparator::Compare, 45-59 CompareNodes:
    coordinates that differ by more than [e] decide *)
Fixpoint compare_coords (e : Q) (a b : list Q) : Z :=
  match a, b with
  | x :: a', y :: b' =>
    if Qlt_le_dec e (Qabs (x - y)) then
      (if Qlt_le_dec y x then 1 else -1)
    else compare_coords e a' b'
  | _, _ => 0
  end.

(** comparator.cpp:19-26 CentroidComparator::operator()(handle,handle) *)
Definition centroid_less (e : Q) (cen : Z -> list Q) (a b : Z) : bool :=
  if (a =? 0) || (b =? 0) then b <? a
  else compare_coords e (cen a) (cen b) <? 0.

(** comparator.cpp:28-34 operator()(handle, point) *)
Definition centroid_less_point (e : Q) (cen : Z -> list Q) (a : Z) (cb : list Q) : bool :=
  if a =? 0 then true else compare_coords e (cen a) cb <? 0.

(** comparator.cpp:36-42 operator()(point, handle) *)
Definition point_less_centroid (e : Q) (cen : Z -> list Q) (ca : list Q) (b : Z) : bool :=
  if b =? 0 then false else compare_coords e ca (cen b) <? 0.

(** inmost_mesh.h:3428 GlobalIDComparator, 3465 RealComparator, 3476
    IntegerComparator, 3487 BulkComparator (and the DF/DV variants):
    operator()(handle,handle); [key] is the value of the tag *)
Definition tag_less (key : Z -> Z) (a b : Z) : bool :=
  if (a =? 0) || (b =? 0) then b <? a else key a <? key b.

(** inmost_mesh.h:3429 GlobalIDComparator::operator()(handle, value) *)
Definition gid_less_value (key : Z -> Z) (a v : Z) : bool :=
  if a =? 0 then false else key a <? v.

(** inmost_mesh.h:3466, 3477, 3488 operator()(handle, value) of the tag comparators *)
Definition tag_less_value (key : Z -> Z) (a v : Z) : bool :=
  if a =? 0 then true else key a <? v.

(** An element with its lower adjacencies: a node with its coordinates or an
    element of type number [num] (LowConn is unfolded to a tree) *)
Inductive elem : Type :=
| ENode (coords : list Q)
| EHigh (num : Z) (low : list elem).

(** GetHandleElementNum *)
Definition enum (e : elem) : Z := match e with ENode _ => 0 | EHigh n _ => n end.

(** comparator.cpp:60-81 HierarchyComparator::CompareElements *)
Fixpoint compare_elements (eps : Q) (a b : elem) {struct a} : Z :=
  match a, b with
  | ENode ca, ENode cb => compare_coords eps ca cb
  | EHigh na la, EHigh nb lb =>
    if na =? nb then
      if (length la =? length lb)%nat then
        (fix go (la lb : list elem) {struct la} : Z :=
           match la, lb with
           | x :: la', y :: lb' =>
             let r := compare_elements eps x y in
             if r =? 0 then go la' lb' else r
           | _, _ => 0
           end) la lb
      else Z.of_nat (length la) - Z.of_nat (length lb)
    else na - nb
  | _, _ => enum a - enum b
  end.

(** inmost_mesh.h:3455 HierarchyComparator::operator(); [el] unfolds a handle *)
Definition hierarchy_less (eps : Q) (el : Z -> elem) (a b : Z) : bool :=
  if (a =? 0) || (b =? 0) then b <? a else compare_elements eps (el a) (el b) <? 0.
