(** Clustering of the cells of a distributed mesh, stated without reference to
    how the library computes it: points of space, a list of cluster centres
    (an absent centre attracts nothing), the nearest centre, means of groups of
    points, and the runs of the damped Lloyd iteration on one list of points. *)
From Coq Require Import List Arith Lia Bool.
From Verif Require Import Util OField.
Import ListNotations.

Section Spec.
Variable F : ofield.

Record pt := mk_pt { px : F; py : F; pz : F }.

Definition origin : pt := mk_pt 0%F 0%F 0%F.
Definition padd (a b : pt) : pt := mk_pt (px a + px b)%F (py a + py b)%F (pz a + pz b)%F.
Definition pscale (k : F) (a : pt) : pt := mk_pt (k * px a)%F (k * py a)%F (k * pz a)%F.

(** The natural number [n] as an element of the field. *)
Fixpoint nat_f (n : nat) : F := match n with O => 0%F | S k => (nat_f k + 1)%F end.

(** Squared distance. *)
Definition dist2 (a b : pt) : F :=
  ((px a - px b) * (px a - px b) + (py a - py b) * (py a - py b) + (pz a - pz b) * (pz a - pz b))%F.

(** Centre number [j] exists, no centre is nearer to [p], and those with a
    smaller number are farther. *)
Definition nearest (cs : list (option pt)) (p : pt) (j : nat) : Prop :=
  exists c, nth_error cs j = Some (Some c) /\
    forall i c', nth_error cs i = Some (Some c') ->
      (dist2 p c' <? dist2 p c)%F = false /\ (i < j -> (dist2 p c <? dist2 p c')%F = true).

(** The points put in cluster [j] by the assignment [a]. *)
Fixpoint members (j : nat) (ps : list pt) (a : list nat) : list pt :=
  match ps, a with
  | p :: ps', i :: a' => if i =? j then p :: members j ps' a' else members j ps' a'
  | _, _ => []
  end.

Definition total (l : list pt) : pt := fold_right padd origin l.

(** [m] is the mean of the non-empty group [l]. *)
Definition mean (l : list pt) (m : pt) : Prop :=
  l <> [] /\ pscale (nat_f (length l)) m = total l.

(** 0.15 and 0.85. *)
Definition old_part : F := (nat_f 15 / nat_f 100)%F.
Definition new_part : F := (nat_f 85 / nat_f 100)%F.

(** The centres [cs'] that follow [cs] after round number [k] with the
    assignment [a]: a cluster without points loses its centre; the others move
    to the mean of their points in the first round and 85% of the way later. *)
Definition recentred (k : nat) (cs : list (option pt)) (ps : list pt) (a : list nat) (cs' : list (option pt)) : Prop :=
  length cs' = length cs /\
  forall j, j < length cs ->
    (members j ps a = [] -> nth_error cs' j = Some None) /\
    (members j ps a <> [] -> exists m c', mean (members j ps a) m /\ nth_error cs' j = Some (Some c') /\
       (k = 1 -> c' = m) /\
       (1 < k -> exists c, nth_error cs j = Some (Some c) /\ c' = padd (pscale old_part c) (pscale new_part m))).

(** One run of the iteration on one list of points, from round [k] with the
    centres [cs] and the assignment [old] (entries may still be absent), to the
    centres and the assignment it stops with: when a round changes nothing or
    at round [limit]. *)
Inductive run (limit : nat) (ps : list pt) : nat -> list (option pt) -> list (option nat) -> list (option pt) -> list nat -> Prop :=
| run_stop : forall k cs old a,
    Forall2 (nearest cs) ps a -> (map Some a = old \/ limit <= k) ->
    run limit ps k cs old cs a
| run_round : forall k cs old a cs' cs'' a'',
    Forall2 (nearest cs) ps a -> map Some a <> old -> k < limit ->
    recentred k cs ps a cs' ->
    run limit ps (S k) cs' (map Some a) cs'' a'' ->
    run limit ps k cs old cs'' a''.

(** Sum over the points of the squared distance to the centre of the cluster
    each is put in. *)
Fixpoint cost (cs : list (option pt)) (ps : list pt) (a : list nat) : F :=
  match ps, a with
  | p :: ps', j :: a' =>
      ((match nth_error cs j with Some (Some c) => dist2 p c | _ => 0 end) + cost cs ps' a')%F
  | _, _ => 0%F
  end.

(** The number of entries equal to [j], and the number of positions at which
    two lists differ. *)
Fixpoint occurrences (j : nat) (a : list nat) : nat :=
  match a with [] => 0 | i :: r => (if i =? j then 1 else 0) + occurrences j r end.
Fixpoint differences (a b : list nat) : nat :=
  match a, b with
  | x :: a', y :: b' => (if x =? y then 0 else 1) + differences a' b'
  | _, _ => 0
  end.
(** The number of clusters below [K] that [a] leaves without points. *)
Definition idle (K : nat) (a : list nat) : nat := length (filter (fun j => occurrences j a =? 0) (seq 0 K)).

(** The starting centres of the iteration for the cells [pss] of the processes:
    the mean of the cells of process number [i]; for a process without cells
    some cell or, when there are fewer cells than processes, the point [box i]. *)
Definition starts (box : nat -> pt) (pss : list (list pt)) (cs : list (option pt)) : Prop :=
  length cs = length pss /\
  forall i own, nth_error pss i = Some own ->
    (own <> [] -> exists m, mean own m /\ nth_error cs i = Some (Some m)) /\
    (own = [] -> exists c, nth_error cs i = Some (Some c) /\
       (In c (concat pss) \/ (length (concat pss) < length pss /\ c = box i))).

(** What the cells may be marked with before the first round: nothing, or the
    number of a process without cells. *)
Definition marks_ok (pss : list (list pt)) (marks : list (option nat)) : Prop :=
  length marks = length (concat pss) /\
  forall k j, nth_error marks k = Some (Some j) -> nth_error pss j = Some [].

(** [b] gives a point to every cluster below [K] that [a] leaves without points
    and changes nothing else: it differs from [a] in as many places as there are
    such clusters, those places go to such clusters, and in the end every
    cluster has a point. *)
Definition refilled (K : nat) (a b : list nat) : Prop :=
  length b = length a /\ differences a b = idle K a /\
  (forall k x y, nth_error a k = Some x -> nth_error b k = Some y -> x <> y -> occurrences y a = 0) /\
  (forall j, j < K -> 0 < occurrences j b).

(** The centres after refilling: a refilled cluster has its point as centre. *)
Definition refilled_centres (cs : list (option pt)) (ps : list pt) (a b : list nat) (cs' : list (option pt)) : Prop :=
  length cs' = length cs /\
  forall j, j < length cs ->
    (0 < occurrences j a -> nth_error cs' j = nth_error cs j) /\
    (occurrences j a = 0 -> exists k p, nth_error ps k = Some p /\ nth_error b k = Some j /\ nth_error cs' j = Some (Some p)).

(** As [recentred], but a cluster without points keeps its centre. *)
Definition recentred_keep (k : nat) (cs : list (option pt)) (ps : list pt) (a : list nat) (cs' : list (option pt)) : Prop :=
  length cs' = length cs /\
  forall j, j < length cs ->
    (members j ps a = [] -> nth_error cs' j = nth_error cs j) /\
    (members j ps a <> [] -> exists m c', mean (members j ps a) m /\ nth_error cs' j = Some (Some c') /\
       (k = 1 -> c' = m) /\
       (1 < k -> exists c, nth_error cs j = Some (Some c) /\ c' = padd (pscale old_part c) (pscale new_part m))).

(** Runs of the iteration with refilling: clusters without points are refilled
    in every round but the last if there are enough points. *)
Inductive keep_run (limit : nat) (ps : list pt) : nat -> list (option pt) -> list (option nat) -> list (option pt) -> list nat -> Prop :=
| keep_stop : forall k cs old a,
    Forall2 (nearest cs) ps a ->
    (limit <= k \/ (map Some a = old /\ (idle (length cs) a = 0 \/ length ps < length cs))) ->
    keep_run limit ps k cs old cs a
| keep_round : forall k cs old a cs' cs'' a'',
    Forall2 (nearest cs) ps a -> map Some a <> old -> k < limit ->
    (idle (length cs) a = 0 \/ length ps < length cs) ->
    recentred_keep k cs ps a cs' ->
    keep_run limit ps (S k) cs' (map Some a) cs'' a'' ->
    keep_run limit ps k cs old cs'' a''
| keep_refill : forall k cs old a a1 cs1 cs' cs'' a'',
    Forall2 (nearest cs) ps a -> k < limit ->
    0 < idle (length cs) a -> length cs <= length ps ->
    refilled (length cs) a a1 -> refilled_centres cs ps a a1 cs1 ->
    recentred_keep k cs1 ps a1 cs' ->
    keep_run limit ps (S k) cs' (map Some a1) cs'' a'' ->
    keep_run limit ps k cs old cs'' a''.

End Spec.
