(** Properties of the built-in k-means partitioners (C130-C134). *)
From Coq Require Import List Arith Lia Bool QArith Qcanon.
From Verif Require Import Util OField Cluster_Spec Cluster_Model Cluster_Proofs Cluster2_Proofs Cluster3_Proofs.
Import ListNotations.
Open Scope nat_scope.

(** C130.  Every owned cell of every process receives one destination; it is the
    number of an existing process, the one whose centre, in one list of centres
    common to all processes, is nearest to the cell.  No access outside a vector
    happens, whatever the numbers of cells of the processes (also none). *)
Theorem C130_destinations : forall (F : ofield) draw box (pss : list (list (pt F))), pss <> [] ->
  exists asgs cs, kmeans F draw box pss = Some (map (map Some) asgs) /\
    map (@length nat) asgs = map (@length (pt F)) pss /\
    Forall (fun j => j < length pss) (concat asgs) /\
    length cs = length pss /\ Forall2 (Forall2 (nearest F cs)) pss asgs.
Proof.
  intros F draw box pss N.
  destruct (kmeans_ok F draw box pss N) as [cs0 [marks [cs [asgs [E [L [_ [_ [LC R]]]]]]]]].
  exists asgs, cs. pose proof (run_final F _ _ _ _ _ _ _ R) as A.
  split; [exact E|]. split; [exact L|]. split; [rewrite <- LC; eapply Forall2_lt; exact A|]. split; [exact LC|].
  clear - L A. revert asgs L A. induction pss as [|ps pss IH]; intros [|a asgs] L A; cbn in L; try discriminate; [constructor|].
  injection L as L1 L2. cbn in A. apply Forall2_app_inv_l in A as [a1 [a2 [A1 [A2 E]]]].
  assert (X : a = a1 /\ concat asgs = a2).
  { pose proof (f2_len _ _ _ _ _ A1) as LL. rewrite <- L1 in LL. clear - LL E. revert a1 LL E.
    induction a; intros [|y a1] LL E; cbn in *; try discriminate; [auto|].
    injection E as -> E. destruct (IHa a1) as [-> ->]; auto. }
  destruct X as [-> X]. constructor; [exact A1|]. apply IH; [exact L2|]. now rewrite X.
Qed.

(** C131.  Whatever way the cells are spread over the processes, and whether or
    not they are handed around to balance the work, the destinations are those
    of one run of the damped Lloyd iteration on the list of all cells, started
    from the mean of the cells of every process (and from a cell for a process
    without cells when there are enough cells). *)
Theorem C131_sequential : forall (F : ofield) draw box (pss : list (list (pt F))), pss <> [] ->
  exists cs0 marks cs asgs, kmeans F draw box pss = Some (map (map Some) asgs) /\
    map (@length nat) asgs = map (@length (pt F)) pss /\
    starts F box pss cs0 /\ marks_ok F pss marks /\
    run F 100 (concat pss) 1 cs0 marks cs (concat asgs).
Proof.
  intros F draw box pss N.
  destruct (kmeans_ok F draw box pss N) as [cs0 [marks [cs [asgs [E [L [S [M [LC R]]]]]]]]].
  exists cs0, marks, cs, asgs. auto 10.
Qed.

(** The run determines its result: the same cells in the same order and the same
    starting centres give the same destinations. *)
Theorem C131_determined : forall (F : ofield) limit ps k cs old cs1 a1 cs2 a2, 1 <= k ->
  run F limit ps k cs old cs1 a1 -> run F limit ps k cs old cs2 a2 -> cs1 = cs2 /\ a1 = a2.
Proof. intros F limit ps k cs old cs1 a1 cs2 a2 K A B. exact (run_unique F limit ps k cs old cs1 a1 K A cs2 a2 B). Qed.

(** C132.  Exact condition under which INNER_KMEANS leaves a process idle from
    the start: if no cell is nearest to the starting centre of process [j], then
    process [j] receives no cell at all. *)
Theorem C132_idle_for_ever : forall (F : ofield) draw box (pss : list (list (pt F))), pss <> [] ->
  exists cs0 asgs, kmeans F draw box pss = Some (map (map Some) asgs) /\ starts F box pss cs0 /\
    forall a0 j, Forall2 (nearest F cs0) (concat pss) a0 -> j < length pss -> ~ In j a0 -> ~ In j (concat asgs).
Proof.
  intros F draw box pss N.
  destruct (kmeans_ok F draw box pss N) as [cs0 [marks [cs [asgs [E [L [S [M [LC R]]]]]]]]].
  exists cs0, asgs. split; [exact E|]. split; [exact S|]. intros a0 j A J I.
  eapply (empty_stays F _ _ _ _ _ _ a0 _ j R A); [|exact I]. destruct S as [SL _]. lia.
Qed.

Definition q (z : Z) : Qc_ofield := Q2Qc (inject_Z z).
Definition at_x (z : Z) : pt Qc_ofield := mk_pt Qc_ofield (q z) (q 0) (q 0).

(** INNER_KMEANS can leave a process without cells although there are more cells
    than processes and every process had cells: four cells at -10, 10 (process
    0), -6 (process 1) and 6 (process 2); process 0 ends with nothing. *)
Theorem C132_every_process_refuted : exists pss : list (list (pt Qc_ofield)),
  length pss = 3 /\ Forall (fun ps => ps <> []) pss /\
  forall draw box, exists asgs, kmeans Qc_ofield draw box pss = Some (map (map Some) asgs) /\ ~ In 0 (concat asgs).
Proof.
  exists [[at_x (-10); at_x 10]; [at_x (-6)]; [at_x 6]].
  split; [reflexivity|]. split; [repeat constructor; discriminate|].
  intros draw box. exists [[1; 2]; [1]; [2]]. split.
  - vm_compute. reflexivity.
  - cbn. intuition discriminate.
Qed.

(** C133.  The sum of the squared distances of the cells to the centres of their
    destinations is not larger than that of the first assignment to the nearest
    starting centre. *)
Theorem C133_not_worse : forall (F : ofield) draw box (pss : list (list (pt F))), pss <> [] ->
  exists cs0 cs asgs, kmeans F draw box pss = Some (map (map Some) asgs) /\ starts F box pss cs0 /\
    Forall2 (nearest F cs) (concat pss) (concat asgs) /\
    forall a0, Forall2 (nearest F cs0) (concat pss) a0 ->
      (cost F cs0 (concat pss) a0 <? cost F cs (concat pss) (concat asgs))%F = false.
Proof.
  intros F draw box pss N.
  destruct (kmeans_ok F draw box pss N) as [cs0 [marks [cs [asgs [E [L [S [M [LC R]]]]]]]]].
  exists cs0, cs, asgs. split; [exact E|]. split; [exact S|]. split; [eapply run_final; exact R|].
  intros a0 A. exact (run_cost F _ _ _ _ _ _ _ (le_n 1) R a0 A).
Qed.

(** Every single round does not increase it either. *)
Theorem C133_round : forall (F : ofield) limit ps k cs old cs' a' a, 1 <= k ->
  run F limit ps k cs old cs' a' -> Forall2 (nearest F cs) ps a ->
  (cost F cs ps a <? cost F cs' ps a')%F = false.
Proof. intros F limit ps k cs old cs' a' a K R A. exact (run_cost F limit ps k cs old cs' a' K R a A). Qed.

(** C134.  INNER_SKMEANS gives every owned cell the number of a process, and
    every process gets a cell when there are at least as many cells as
    processes. *)
Theorem C134_every_process : forall (F : ofield) draw box (pss : list (list (pt F))), pss <> [] ->
  exists asgs, skmeans F draw box pss = Some (map (map Some) asgs) /\
    map (@length nat) asgs = map (@length (pt F)) pss /\
    Forall (fun j => j < length pss) (concat asgs) /\
    (length pss <= length (concat pss) -> forall j, j < length pss -> In j (concat asgs)).
Proof.
  intros F draw box pss N.
  destruct (skmeans_ok F draw box pss N) as [cs0 [marks [cs [a [asgs [E [L [S [M [LC [R [X [Y Z]]]]]]]]]]]]].
  exists asgs. split; [exact E|]. split; [exact L|]. split; [exact Z|].
  intros LE j J. apply occ_in. now apply (Y LE).
Qed.

(** Its result: a run of the iteration in which empty clusters are refilled,
    then one refill.  So every cell goes to its nearest final centre except as
    many cells as that assignment leaves processes idle, and these go to the
    idle processes. *)
Theorem C134_sequential : forall (F : ofield) draw box (pss : list (list (pt F))), pss <> [] ->
  exists cs0 marks cs a asgs, skmeans F draw box pss = Some (map (map Some) asgs) /\
    map (@length nat) asgs = map (@length (pt F)) pss /\
    starts F box pss cs0 /\ marks_ok F pss marks /\
    keep_run F 100 (concat pss) 1 cs0 marks cs a /\ Forall2 (nearest F cs) (concat pss) a /\
    (length (concat pss) < length pss -> concat asgs = a) /\
    (length pss <= length (concat pss) -> refilled (length pss) a (concat asgs)).
Proof.
  intros F draw box pss N.
  destruct (skmeans_ok F draw box pss N) as [cs0 [marks [cs [a [asgs [E [L [S [M [LC [R [X [Y Z]]]]]]]]]]]]].
  exists cs0, marks, cs, a, asgs. repeat (split; [assumption|]). split; [|auto].
  clear - R. induction R; assumption.
Qed.

(** On the cells of the counterexample above, and when all cells coincide. *)
Example C134_nonvacuous :
  skmeans Qc_ofield (fun _ _ => 0) (fun _ => at_x 0) [[at_x (-10); at_x 10]; [at_x (-6)]; [at_x 6]]
    = Some [[Some 0; Some 2]; [Some 1]; [Some 2]] /\
  skmeans Qc_ofield (fun _ _ => 0) (fun _ => at_x 0) [[at_x 1; at_x 1]; []; [at_x 1]]
    = Some [[Some 1; Some 2]; []; [Some 0]].
Proof. split; vm_compute; reflexivity. Qed.

(** Two separated groups mixed over three processes, the last without cells; the
    points are handed around. *)
Example C130_nonvacuous :
  balance Qc_ofield [3; 2; 0] = true /\
  kmeans Qc_ofield (fun _ => 7) (fun _ => at_x 0) [[at_x 0; at_x 100; at_x 1]; [at_x 2; at_x 101]; []]
    = Some [[Some 2; Some 1; Some 2]; [Some 2; Some 1]; []].
Proof. split; vm_compute; reflexivity. Qed.

Print Assumptions C130_destinations.
Print Assumptions C131_sequential.
Print Assumptions C131_determined.
Print Assumptions C132_idle_for_ever.
Print Assumptions C132_every_process_refuted.
Print Assumptions C133_not_worse.
Print Assumptions C133_round.
Print Assumptions C134_every_process.
Print Assumptions C134_sequential.
