(** Radix sort of the search tree entries by a float coordinate, kdtree.cpp:174-206.

    The bit pattern of the coordinate is a number below 2^32; unsigned int is a number modulo 2^32.
    An access outside of an array is None. *)
From Coq Require Import List Bool Arith ZArith Lia.
From Verif Require Import Util.
Import ListNotations.
Open Scope Z_scope.

Definition w32 (x : Z) : Z := x mod 2 ^ 32.

(** kdtree.cpp:174-178 flip: mask = -((int)(fp >> 31)) | 0x80000000 *)
Definition flip (fp : Z) : Z :=
  let mask := Z.lor (w32 (- (Z.shiftr fp 31))) (2 ^ 31) in
  Z.lxor fp mask.

(** kdtree.cpp:4-6 _m0, _m1, _m2 *)
Definition m0 (x : Z) : Z := Z.land x 2047.
Definition m1 (x : Z) : Z := Z.land (Z.shiftr x 11) 2047.
Definition m2 (x : Z) : Z := Z.shiftr x 22.

Definition put {B} (l : list B) (i : Z) (x : B) : option (list B) :=
  if (0 <=? i) && (i <? Z.of_nat (length l)) then Some (lset l (Z.to_nat i) x) else None.
Definition get {B} (l : list B) (i : Z) : option B := if 0 <=? i then nth_error l (Z.to_nat i) else None.
Definition obind {B C} (o : option B) (f : B -> option C) : option C := match o with Some x => f x | None => None end.
Notation "'do' x <- o ; f" := (obind o (fun x => f)) (at level 200, x name, o at level 100, f at level 200).

Section Sort.
Variable E : Type.
Variable digit : E -> Z.

(** kdtree.cpp:188-192 one of the three histograms: ++b[digit] *)
Fixpoint histogram (set : list E) (b : list Z) : option (list Z) :=
  match set with
  | [] => Some b
  | e :: r =>
      do x <- get b (digit e);
      do b <- put b (digit e) (w32 (x + 1));
      histogram r b
  end.

(** kdtree.cpp:193-201 b[kHist-1] = b[i] + sum; b[i] = sum - 1; sum = b[kHist-1]; *)
Fixpoint offsets (fuel : nat) (i last : Z) (b : list Z) (sum : Z) : option (list Z) :=
  match fuel with
  | O => Some b
  | S f =>
      do x <- get b i;
      do b <- put b last (w32 (x + sum));
      do b <- put b i (w32 (sum - 1));
      do sum <- get b last;
      offsets f (i + 1) last b sum
  end.

(** kdtree.cpp:202-204 dst[++b[digit]] = src[i] *)
Fixpoint scatter (src : list E) (b : list Z) (dst : list E) : option (list E) :=
  match src with
  | [] => Some dst
  | e :: r =>
      do x <- get b (digit e);
      do b <- put b (digit e) (w32 (x + 1));
      do dst <- put dst (w32 (x + 1)) e;
      scatter r b dst
  end.
End Sort.

(** kdtree.cpp:180-206 radix_sort; [temp] may be longer than [set]: it is shared by the whole tree *)
Definition radix_with {E} (kHist : nat) (key : E -> Z) (set temp : list E) : option (list E) :=
  let d0 := fun e => m0 (flip (key e)) in
  let d1 := fun e => m1 (flip (key e)) in
  let d2 := fun e => m2 (flip (key e)) in
  do b0 <- histogram E d0 set (repeat 0 kHist);
  do b1 <- histogram E d1 set (repeat 0 kHist);
  do b2 <- histogram E d2 set (repeat 0 kHist);
  do b0 <- offsets kHist 0 (Z.of_nat kHist - 1) b0 0;
  do b1 <- offsets kHist 0 (Z.of_nat kHist - 1) b1 0;
  do b2 <- offsets kHist 0 (Z.of_nat kHist - 1) b2 0;
  do temp <- scatter E d0 set b0 temp;
  do set <- scatter E d1 (firstn (length set) temp) b1 set;
  do temp <- scatter E d2 set b2 temp;
  Some (firstn (length set) temp).
Definition radix_sort {E} (key : E -> Z) (set temp : list E) : option (list E) := radix_with 2048 key set temp.
