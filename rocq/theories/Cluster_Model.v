(** Model of the built-in k-means partitioners of Source/Partitioner/partitioner.cpp:
    [INNER_KMEANS] (lines 1347-1808) and [INNER_SKMEANS] (lines 1809-2421), as
    run by P processes on their owned cells.

    Simplifications.  Real numbers are elements of an ordered field (no
    rounding, no overflow; [l < vmax] for every distance [l]).  A cluster centre
    that became 0.0/0 = NaN is [None]; NaN compares false with everything and
    stays NaN under the damping, as in the code.  A cell is its centroid; a
    process is the list of the centroids of its owned cells in the order of
    [points_node].  Buffers are measured in points (the factors 3 of the
    coordinate buffers are left out).  Threads are not modelled.  [rand()] is an
    arbitrary function.  The library has USE_MPI; K is the number of processes.
    Collective calls on MPI_COMM_WORLD are functions of the data of all
    processes.  Access outside a vector is [None]. *)
From Coq Require Import List Arith Lia Bool.
From Verif Require Import Util OField Cluster_Spec.
Import ListNotations.

Section Model.
Variable F : ofield.
Notation pt := (pt F).
Notation center := (option pt).

(** Pointwise combination of two lists. *)
Fixpoint map2 {A B C} (f : A -> B -> C) (l : list A) (l' : list B) : list C :=
  match l, l' with
  | x :: r, y :: r' => f x y :: map2 f r r'
  | _, _ => []
  end.

(* ----- collective calls ----- *)

(** [displs[0] = 0; displs[k] = displs[k-1] + counts[k-1]]
    (partitioner.cpp 1511-1517, 1519-1525, 1778-1784, 1787-1793). *)
Fixpoint displs_from (d : nat) (counts : list nat) : list nat :=
  match counts with
  | [] => []
  | c :: r => d :: displs_from (d + c) r
  end.

(** Overwriting part of the receive buffer. *)
Definition put {A} (buf : list A) (d : nat) (chunk : list A) : list A :=
  firstn d buf ++ chunk ++ skipn (d + length chunk) buf.

(** [MPI_Gatherv] into a buffer of the root. *)
Fixpoint gatherv {A} (buf : list A) (chunks : list (list A)) (displs : list nat) : list A :=
  match chunks, displs with
  | ch :: r, d :: r' => gatherv (put buf d ch) r r'
  | _, _ => buf
  end.

(** [MPI_Scatterv] from a buffer of the root. *)
Definition scatterv {A} (buf : list A) (counts displs : list nat) : list (list A) :=
  map2 (fun c d => firstn c (skipn d buf)) counts displs.

(** Counts of the even distribution, lines 1505, 1519-1526 and 1778-1785:
    [floor(total/P)] each, the last process takes the rest. *)
Definition even_counts (tot P : nat) : list nat :=
  let part := tot / P in
  let counts := repeat part P in
  let displs := displs_from 0 counts in
  lset counts (P - 1) (tot - last displs 0).

(** Lines 1486-1502: the largest ratio of the numbers of points of two
    processes against 1.2. *)
Definition fmax (a b : F) : F := if (a <? b)%F then b else a.
Definition ratio (a b : nat) : F := ((nat_f F a + e_minus 15) / (nat_f F b + e_minus 15))%F.
Fixpoint imbalance_from (npoints : list nat) (acc : F) : F :=
  match npoints with
  | [] => acc
  | a :: r => imbalance_from r (fold_left (fun x b => fmax (fmax x (ratio a b)) (ratio b a)) r acc)
  end.
Definition balance (npoints : list nat) : bool :=
  (nat_f F 12 / nat_f F 10 <? imbalance_from npoints 1)%F.

(** Lines 1503-1531: points are gathered on process 0 and handed out evenly. *)
Definition spread (pss : list (list pt)) : list (list pt) :=
  let npoints := map (@length pt) pss in
  let tot := fold_right plus 0 npoints in
  let buf := gatherv (repeat (origin F) tot) pss (displs_from 0 npoints) in
  let counts := even_counts tot (length pss) in
  scatterv buf counts (displs_from 0 counts).

(** Lines 1774-1797: the clusters are gathered with the even counts and handed
    back with the original ones. *)
Definition give_back (npoints : list nat) (cls : list (list (option nat))) : list (list (option nat)) :=
  let tot := fold_right plus 0 npoints in
  let buf := gatherv (repeat None tot) cls (displs_from 0 (even_counts tot (length npoints))) in
  scatterv buf npoints (displs_from 0 npoints).

(* ----- rounds ----- *)

(** Lines 1619-1646: the loop over the centres; [l < lmin] with [lmin]
    initially the largest number ([None]). *)
Fixpoint nearest_from (cs : list center) (p : pt) (j : nat) (lmin : option F) (id : option nat) : option nat :=
  match cs with
  | [] => id
  | None :: r => nearest_from r p (S j) lmin id
  | Some c :: r =>
      let l := dist2 F p c in
      if match lmin with None => true | Some m => (l <? m)%F end
      then nearest_from r p (S j) (Some l) (Some j)
      else nearest_from r p (S j) lmin id
  end.
Definition nearest_center (cs : list center) (p : pt) : option nat := nearest_from cs p 0 None None.

Definition same_cluster (a b : option nat) : bool :=
  match a, b with
  | Some x, Some y => x =? y
  | None, None => true
  | _, _ => false
  end.

(** Lines 1640-1646 and 1649-1652: cells whose cluster changed, over all processes. *)
Fixpoint changed_on (old new : list (option nat)) : nat :=
  match old, new with
  | a :: r, b :: r' => (if same_cluster a b then 0 else 1) + changed_on r r'
  | _, _ => 0
  end.
Definition assign (cs : list center) (pss : list (list pt)) : list (list (option nat)) :=
  map (map (nearest_center cs)) pss.
Definition changed (old new : list (list (option nat))) : nat :=
  fold_right plus 0 (map2 changed_on old new).

(** Lines 1677-1695: sums and numbers of points of the clusters on one process;
    [points_cluster[j]] is used as an index. *)
Fixpoint accumulate (ps : list pt) (cl : list (option nat)) (acc : list (pt * nat)) : option (list (pt * nat)) :=
  match ps, cl with
  | p :: ps', c :: cl' =>
      match c with
      | None => None
      | Some j =>
          match nth_error acc j with
          | None => None
          | Some (s, n) => accumulate ps' cl' (lset acc j (padd F s p, S n))
          end
      end
  | _, _ => Some acc
  end.

Definition add_sums (a b : list (pt * nat)) : list (pt * nat) :=
  map2 (fun x y => (padd F (fst x) (fst y), snd x + snd y)) a b.

(** Lines 1660-1713: the sums over all processes ([MPI_Allreduce]). *)
Fixpoint all_sums (K : nat) (pss : list (list pt)) (cls : list (list (option nat))) : option (list (pt * nat)) :=
  match pss, cls with
  | ps :: pss', cl :: cls' =>
      match accumulate ps cl (repeat (origin F, 0) K), all_sums K pss' cls' with
      | Some a, Some b => Some (add_sums a b)
      | _, _ => None
      end
  | _, _ => Some (repeat (origin F, 0) K)
  end.

(** Division of a sum by the number of points; 0.0/0 is NaN. *)
Definition divide (t : pt * nat) : center :=
  match snd t with
  | O => None
  | n => Some (mk_pt F (px F (fst t) / nat_f F n)%F (py F (fst t) / nat_f F n)%F (pz F (fst t) / nat_f F n)%F)
  end.

(** [old*0.15 + new*0.85]. *)
Definition damp (o c : pt) : pt :=
  mk_pt F (px F o * (nat_f F 15 / nat_f F 100) + px F c * (nat_f F 85 / nat_f F 100))%F
          (py F o * (nat_f F 15 / nat_f F 100) + py F c * (nat_f F 85 / nat_f F 100))%F
          (pz F o * (nat_f F 15 / nat_f F 100) + pz F c * (nat_f F 85 / nat_f F 100))%F.

(** Lines 1716-1727 (INNER_KMEANS). *)
Definition recentre (iter : nat) (cs : list center) (sums : list (pt * nat)) : list center :=
  map2 (fun o t =>
    let c := divide t in
    if 1 <? iter then
      match o, c with Some o', Some c' => Some (damp o' c') | _, _ => None end
    else c) cs sums.

Definition max_iterations : nat := 100.

(** Lines 1609-1771 (INNER_KMEANS): the rounds; [left] is [max_iterations - iter]. *)
Fixpoint kloop (left iter : nat) (cs : list center) (pss : list (list pt)) (cls : list (list (option nat)))
  : option (list center * list (list (option nat))) :=
  let new := assign cs pss in
  if changed cls new =? 0 then Some (cs, new)
  else match left with
       | O => Some (cs, new)
       | S left' =>
           match all_sums (length cs) pss new with
           | None => None
           | Some sums => kloop left' (S iter) (recentre iter cs sums) pss new
           end
       end.

(** Lines 1384-1410, 1468-1481: the sum of the points of each process over
    their number. *)
Definition own_center (ps : list pt) : center := divide (fold_left (padd F) ps (origin F), length ps).

(** Lines 1543-1572 (INNER_KMEANS; K = P, so Kpart = 1 and process [i] seeds
    cluster [i] only): a cluster of a process without cells starts at a random
    point of those handed to the process, or in the bounding box ([box i]).  All
    points are still marked -1, so the first draw is accepted.  Lines 1574-1595
    gather the centres. *)
Definition seed (draw : nat -> nat) (box : nat -> pt) (i : nat) (own local : list pt) : center * list (option nat) :=
  let blank := repeat None (length local) in
  match own with
  | _ :: _ => (own_center own, blank)
  | [] =>
      match local with
      | [] => (Some (box i), blank)
      | _ :: _ =>
          let k := draw i mod length local in
          (nth_error local k, lset blank k (Some i))
      end
  end.

Definition seeds (draw : nat -> nat) (box : nat -> pt) (pss locals : list (list pt)) : list (center * list (option nat)) :=
  map2 (fun i ol => seed draw box i (fst ol) (snd ol)) (seq 0 (length pss)) (combine pss locals).

(** INNER_KMEANS: the value of the redistribution tag for the owned cells of
    every process. *)
Definition kmeans (draw : nat -> nat) (box : nat -> pt) (pss : list (list pt)) : option (list (list (option nat))) :=
  let npoints := map (@length pt) pss in
  let b := balance npoints in
  let locals := if b then spread pss else pss in
  let st := seeds draw box pss locals in
  match kloop (max_iterations - 1) 1 (map fst st) locals (map snd st) with
  | None => None
  | Some (_, cls) => Some (if b then give_back npoints cls else cls)
  end.

(* ----- INNER_SKMEANS ----- *)

(** Lines 2126-2137 and 2291-2302: the number of cells of each cluster. *)
Definition count_on (K : nat) (cl : list (option nat)) : list nat :=
  fold_left (fun acc c => match c with
    | Some j => if j <? K then lset acc j (S (nth j acc 0)) else acc
    | None => acc end) cl (repeat 0 K).
Definition counts_of (K : nat) (cls : list (list (option nat))) : list nat :=
  fold_right (map2 plus) (repeat 0 K) (map (count_on K) cls).

(** Lines 2148-2150, 2307-2309: the first of the largest clusters. *)
Definition donor (counts : list nat) : nat :=
  fold_left (fun d j => if nth d counts 0 <? nth j counts 0 then j else d) (seq 1 (length counts - 1)) 0.

(** Lines 2156-2168, 2311-2319: the first cell of the donor on a process. *)
Fixpoint steal_on (cl : list (option nat)) (d j : nat) : option nat :=
  match cl with
  | [] => None
  | c :: r => if same_cluster c (Some d) then Some j else steal_on r d (S j)
  end.
(** Lines 2170-2173, 2321-2325: the process of the smallest rank that has one. *)
Fixpoint steal (cls : list (list (option nat))) (d r : nat) : option (nat * nat) :=
  match cls with
  | [] => None
  | cl :: rest => match steal_on cl d 0 with Some j => Some (r, j) | None => steal rest d (S r) end
  end.

Definition set_at {A} (l : list (list A)) (r j : nat) (x : A) : list (list A) :=
  match nth_error l r with Some row => lset l r (lset row j x) | None => l end.

Record sstate := mk_ss { ss_counts : list nat; ss_cs : list center; ss_cls : list (list (option nat)) }.

(** Lines 2146-2193: one empty cluster gets the first cell of the largest one
    as its centre and its cell. *)
Definition revive_one (pss : list (list pt)) (s : sstate) (i : nat) : sstate :=
  if nth i (ss_counts s) 0 =? 0 then
    let d := donor (ss_counts s) in
    match steal (ss_cls s) d 0 with
    | Some (r, j) =>
        let c1 := lset (ss_counts s) d (nth d (ss_counts s) 0 - 1) in
        mk_ss (lset c1 i (S (nth i c1 0)))
              (lset (ss_cs s) i (match nth_error pss r with Some ps => nth_error ps j | None => None end))
              (set_at (ss_cls s) r j (Some i))
    | None => mk_ss (ss_counts s) (lset (ss_cs s) i (nth d (ss_cs s) None)) (ss_cls s)
    end
  else s.

(** Lines 2304-2341: the same at the end, without moving centres and never
    taking the last cell of a cluster. *)
Definition repair_one (s : list nat * list (list (option nat))) (i : nat) : list nat * list (list (option nat)) :=
  let (counts, cls) := s in
  if nth i counts 0 =? 0 then
    let d := donor counts in
    if nth d counts 0 <=? 1 then s
    else match steal cls d 0 with
         | Some (r, j) =>
             let c1 := lset counts d (nth d counts 0 - 1) in
             (lset c1 i (S (nth i c1 0)), set_at cls r j (Some i))
         | None => s
         end
  else s.
Definition repair (K : nat) (cls : list (list (option nat))) : list (list (option nat)) :=
  snd (fold_left repair_one (seq 0 K) (counts_of K cls, cls)).

(** Lines 2243-2262: a cluster without cells keeps its centre. *)
Definition recentre_s (iter : nat) (cs : list center) (sums : list (pt * nat)) : list center :=
  map2 (fun o t =>
    match divide t with
    | Some c' => if 1 <? iter then match o with Some o' => Some (damp o' c') | None => None end else Some c'
    | None => o
    end) cs sums.

(** Lines 2071-2285: the rounds.  Empty clusters are revived when there are
    enough cells and it is not the last round; then [changed = 1]. *)
Fixpoint sloop (left iter N : nat) (cs : list center) (pss : list (list pt)) (cls : list (list (option nat)))
  : option (list center * list (list (option nat))) :=
  let K := length cs in
  let new := assign cs pss in
  let counts := counts_of K new in
  let have_empty := existsb (fun n => n =? 0) counts in
  let revived := have_empty && (K <=? N) && (match left with O => false | _ => true end) in
  let s := if revived then fold_left (revive_one pss) (seq 0 K) (mk_ss counts cs new) else mk_ss counts cs new in
  if (changed cls new =? 0) && negb revived then Some (cs, new)
  else match left with
       | O => Some (cs, new)
       | S left' =>
           match all_sums K pss (ss_cls s) with
           | None => None
           | Some sums => sloop left' (S iter) N (recentre_s iter (ss_cs s) sums) pss (ss_cls s)
           end
       end.

(** Lines 2014-2019: the process that provides the seed of cluster [i]. *)
Definition picker (lens : list nat) (i : nat) : nat :=
  let P := length lens in
  match find (fun r => 0 <? nth r lens 0) (map (fun t => (i + t) mod P) (seq 0 P)) with
  | Some r => r
  | None => 0
  end.

(** Lines 2022-2034: draws until an unmarked point is met, at most as often as
    there are points; then any point. *)
Fixpoint draw_free (draw : nat -> nat) (cl : list (option nat)) (attempts a : nat) : nat :=
  match attempts with
  | O => draw a mod length cl
  | S k => let c := draw a mod length cl in
           match nth c cl None with None => c | Some _ => draw_free draw cl k (S a) end
  end.

(** Lines 2009-2059: seeds of the clusters of processes without cells. *)
Definition seed_s (N : nat) (draw : nat -> nat -> nat) (box : nat -> pt) (pss locals : list (list pt))
  (st : list center * list (list (option nat))) (i : nat) : list center * list (list (option nat)) :=
  let (cs, cls) := st in
  match nth i pss [] with
  | _ :: _ => st
  | [] =>
      if length pss <=? N then
        let r := picker (map (@length pt) locals) i in
        let cl := nth r cls [] in
        match cl with
        | [] => (lset cs i (Some (origin F)), cls)
        | _ :: _ =>
            let k := draw_free (draw i) cl (length cl) 0 in
            (lset cs i (nth_error (nth r locals []) k), set_at cls r k (Some i))
        end
      else (lset cs i (Some (box i)), cls)
  end.

(** Lines 1961-1967 of INNER_SKMEANS: centre of the cells of a process; the
    division is skipped for a process without cells. *)
Definition own_center_s (ps : list pt) : center :=
  match own_center ps with Some c => Some c | None => Some (origin F) end.

(** INNER_SKMEANS: the value of the redistribution tag for the owned cells of
    every process. *)
Definition skmeans (draw : nat -> nat -> nat) (box : nat -> pt) (pss : list (list pt)) : option (list (list (option nat))) :=
  let npoints := map (@length pt) pss in
  let N := fold_right plus 0 npoints in
  let K := length pss in
  let b := balance npoints in
  let locals := if b then spread pss else pss in
  let st := fold_left (seed_s N draw box pss locals) (seq 0 K)
              (map own_center_s pss, map (fun ps => repeat None (length ps)) locals) in
  match sloop (max_iterations - 1) 1 N (fst st) locals (snd st) with
  | None => None
  | Some (_, cls) =>
      let cls' := if K <=? N then repair K cls else cls in
      Some (if b then give_back npoints cls' else cls')
  end.

End Model.
