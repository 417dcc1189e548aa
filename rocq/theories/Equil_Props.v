(** Properties of the choice of owners by EquilibrateGhost. *)
From Coq Require Import List Bool Arith Lia Permutation.
From Verif Require Import Util Equil_Spec Equil_Model Equil_Proofs.
Import ListNotations.

Definition agree (holders : nat -> list nat) (T : tables) : Prop := consistent holders (t_owner T) (t_status T).
(** Cells of each process and their neighbours there. *)
Record local_meshes (holders : nat -> list nat) (cells : nat -> list nat) (near : nat -> nat -> list nat) : Prop := {
  m_cells : forall p c, In c (cells p) <-> In p (holders c);
  m_nodup : forall p, NoDup (cells p);
  m_near : forall p c x, In c (cells p) -> In x (near p c) -> In x (cells p)
}.
(** Cells that are on process [p] only; neighbours on process [p]; distance to such cells there. *)
Definition own_cell (holders : nat -> list nat) (p c : nat) : Prop := holders c = [p].
Definition next_to (cells : nat -> list nat) (near : nat -> nat -> list nat) (p a b : nat) : Prop := In a (cells p) /\ In b (near p a).
Definition away (holders cells : nat -> list nat) (near : nat -> nat -> list nat) (p d c : nat) : Prop := distance (own_cell holders p) (next_to cells near p) d c.

Lemma agree_owned holders T p l : agree holders T -> In p (holders l) -> (is_owned (t_status T p l) = true <-> own_cell holders p l) /\ (own_cell holders p l -> t_owner T p l = p).
Proof.
  intros A I. destruct (A l) as (o & O & H); [now destruct (holders l) |]. destruct (H p I) as (E1 & E2). rewrite E2. split.
  - pose proof (right_owned (holders l) o p I) as R. unfold own_cell. rewrite <- R. now destruct (right_status (holders l) o p).
  - intros E. unfold own_cell in E. rewrite E in O. destruct O as [<- | []]. easy.
Qed.

(** * C169: distances *)
(** On every process the search ends without failure and gives the exact distance of each cell
    to the nearest cell that is on this process only. *)
Theorem C169_distances : forall (holders cells : nat -> list nat) (near : nat -> nat -> list nat) (T : tables) (p : nat),
  agree holders T -> local_meshes holders cells near ->
  exists t, local_tag (cells p) (near p) (t_status T p) (t_owner T p) = Some t /\
  forall c,
    (forall o d, t c = Some (o, d) <-> o = p /\ away holders cells near p d c) /\
    (t c = None <-> forall d, ~ walk (own_cell holders p) (next_to cells near p) d c).
Proof.
  intros holders cells near T p A [M1 M2 M3].
  destruct (local_tag_spec (cells p) (near p) (t_status T p) (t_owner T p) (own_cell holders p) p (M2 p)) as (t & E & S).
  - intros c x. apply M3.
  - intros l L. apply M1 in L. now destruct (agree_owned holders T p l A L).
  - intros l L O. apply M1 in L. now apply (agree_owned holders T p l A L).
  - exists t. split; [exact E |]. intros c. destruct (S c) as (S1 & S2). split.
    + intros o d. split; [apply S1 |]. intros (-> & W). destruct (t c) as [(o', d') |] eqn:TC.
      * destruct (S1 o' d' eq_refl) as (-> & W1 & W2). destruct W as (W3 & W4). assert (d = d') as ->; [| easy]. pose proof (W2 d W3). pose proof (W4 d' W1). lia.
      * destruct W as (W & _). now destruct (S2 eq_refl d).
    + split; [exact S2 |]. intros H. destruct (t c) as [(o', d') |]; [| easy]. destruct (S1 o' d' eq_refl) as (_ & W & _). now destruct (H d').
Qed.

(** * C170: owners of cells *)
(** After the call all processes agree again.  A cell that is on several processes goes to the
    one with the nearest own cell, of several such processes to the first; if no process can
    reach it, the owner stays.  Other cells stay.  The order of messages does not matter. *)
Theorem C170_owners : forall (holders cells : nat -> list nat) (near : nat -> nat -> list nat) (T : tables) (tags : nat -> tag) (arrivals : nat -> nat -> list nat),
  agree holders T -> local_meshes holders cells near ->
  (forall p, local_tag (cells p) (near p) (t_status T p) (t_owner T p) = Some (tags p)) ->
  (forall p c, In p (holders c) -> t_owner T p c = p -> Permutation (p :: arrivals p c) (holders c)) ->
  let T' := equilibrate_cells arrivals tags T in
  agree holders T' /\
  forall c q, In q (holders c) ->
    (holders c = [q] -> t_owner T' q c = q) /\
    (holders c <> [q] ->
      (exists p d, In p (holders c) /\ away holders cells near p d c /\ t_owner T' q c = p /\
        forall p' d', In p' (holders c) -> away holders cells near p' d' c -> d < d' \/ d = d' /\ p <= p') \/
      t_owner T' q c = t_owner T q c /\ forall p d, In p (holders c) -> ~ walk (own_cell holders p) (next_to cells near p) d c).
Proof.
  intros holders cells near T tags arrivals A M TG AR T'.
  assert (SP : forall p c, (forall o d, tags p c = Some (o, d) <-> o = p /\ away holders cells near p d c) /\ (tags p c = None <-> forall d, ~ walk (own_cell holders p) (next_to cells near p) d c)).
  { intros p c. destruct (C169_distances holders cells near T p A M) as (t & E & S). rewrite TG in E. injection E as <-. apply S. }
  assert (KEY : forall c q, In q (holders c) -> exists o, In o (holders c) /\ (forall q, In q (holders c) -> t_owner T q c = o /\ t_status T q c = right_status (holders c) o q) /\
    ((exists a, holders c = [a]) \/ 2 <= length (holders c) /\ forall q, In q (holders c) -> exchanged min_distance arrivals T tags q c = reduced min_distance arrivals tags o c)).
  { intros c q Q. destruct (A c) as (o & O & H); [now destruct (holders c) |]. exists o. split; [easy |]. split; [easy |].
    destruct (holders c) as [| a [| b h]] eqn:HC; [easy | left; now exists a | right]. split; [cbn [length]; lia |]. intros q' Q'. destruct (H q' Q') as (E1 & E2). apply (exchanged_value _ _ _ _ (a :: b :: h)); [cbn [length]; lia | easy | easy]. }
  assert (RED : forall c o, In o (holders c) -> t_owner T o c = o -> match reduced min_distance arrivals tags o c with
    | Some (p, d) => In p (holders c) /\ away holders cells near p d c /\ (forall p' d', In p' (holders c) -> away holders cells near p' d' c -> d < d' \/ d = d' /\ p <= p')
    | None => forall p d, In p (holders c) -> ~ walk (own_cell holders p) (next_to cells near p) d c end).
  { intros c o O EO. pose proof (AR o c O EO) as P. unfold reduced. pose proof (min_distance_fold (fun q => tags q c) (arrivals o c) (tags o c)) as F. cbv beta in F.
    assert (IN : forall p, In p (holders c) <-> o = p \/ In p (arrivals o c)). { intros p. split; intros J; [apply (Permutation_in _ (Permutation_sym P)) in J | apply (Permutation_in _ P)]; exact J. }
    destruct (fold_left _ _ _) as [(p, d) |].
    - destruct F as (F1 & F2). assert (exists x, In x (holders c) /\ tags x c = Some (p, d)) as (x & X1 & X2).
      { destruct F1 as [F1 | (x & X & E)]; [exists o; now split | exists x; split; [apply IN; now right | easy]]. }
      apply (proj1 (SP x c)) in X2 as (-> & X3). split; [easy |]. split; [easy |]. intros p' d' P' W'.
      assert (tags p' c = Some (p', d')) as TP by (apply (proj1 (SP p' c)); now split). apply IN in P'. apply (F2 (p', d')). destruct P' as [<- | P']; [now left | right; now exists p'].
    - destruct F as (F1 & F2). intros p d J. apply IN in J. apply (proj2 (SP p c)). destruct J as [<- | J]; [easy | now apply F2]. }
  assert (OWN : forall c q o, In q (holders c) -> 2 <= length (holders c) -> t_status T q c = right_status (holders c) o q -> is_owned (t_status T q c) = false).
  { intros c q o Q L E. rewrite E, right_several by easy. unfold role. now destruct (q =? o). }
  split.
  - intros c NE. destruct (holders c) as [| q0 h0] eqn:HC; [easy |]. rewrite <- HC in *. assert (Q0 : In q0 (holders c)) by (rewrite HC; now left). destruct (KEY c q0 Q0) as (o & O & H & [(a & S) | (L & X)]).
    + exists o. split; [easy |]. intros q Q. destruct (H q Q) as (E1 & E2). unfold T', equilibrate_cells, new_cells. cbn [t_owner t_status].
      assert (t_status T q c = Owned) as -> by (rewrite E2, S; easy). cbn [is_owned]. split; [easy |]. now rewrite S.
    + specialize (RED c o O). destruct (H o O) as (EO & _). specialize (RED EO). unfold T', equilibrate_cells, new_cells. cbn [t_owner t_status].
      destruct (reduced min_distance arrivals tags o c) as [(p, d) |].
      * exists p. split; [easy |]. intros q Q. destruct (H q Q) as (E1 & E2). rewrite (X q Q), (OWN c q o Q L E2). split; [easy |]. now rewrite right_several.
      * exists o. split; [easy |]. intros q Q. destruct (H q Q) as (E1 & E2). rewrite (X q Q), (OWN c q o Q L E2). now split.
  - intros c q Q. destruct (KEY c q Q) as (o & O & H & [(a & S) | (L & X)]).
    + destruct (H q Q) as (E1 & E2). rewrite S in Q |- *. destruct Q as [-> | []]. split; [intros _ | easy].
      unfold T', equilibrate_cells, new_cells. cbn [t_owner t_status]. assert (t_status T q c = Owned) as -> by (rewrite E2, S; easy). cbn [is_owned]. rewrite E1. rewrite S in O. now destruct O as [O | []].
    + split; [intros E; rewrite E in L; cbn [length] in L; lia |]. intros _.
      specialize (RED c o O). destruct (H o O) as (EO & _). specialize (RED EO). destruct (H q Q) as (E1 & E2). unfold T', equilibrate_cells, new_cells. cbn [t_owner t_status]. rewrite (X q Q), (OWN c q o Q L E2).
      destruct (reduced min_distance arrivals tags o c) as [(p, d) |]; [left | right].
      * exists p, d. tauto.
      * split; [easy |]. exact RED.
Qed.

(** A process may be left without any element of its own: here process 1 owns a cell before the
    call and none after it. *)
Theorem C170_idle_refuted : exists (holders cells : nat -> list nat) (near : nat -> nat -> list nat) (T : tables) (tags : nat -> tag) (arrivals : nat -> nat -> list nat),
  agree holders T /\ local_meshes holders cells near /\
  (forall p, local_tag (cells p) (near p) (t_status T p) (t_owner T p) = Some (tags p)) /\
  (forall p c, In p (holders c) -> t_owner T p c = p -> Permutation (p :: arrivals p c) (holders c)) /\
  t_owner T 1 1 = 1 /\ forall c, In 1 (holders c) -> t_owner (equilibrate_cells arrivals tags T) 1 c = 0.
Proof.
  set (holders := fun c => match c with 0 => [0] | 1 => [0; 1] | _ => [] end). set (cells := fun p => match p with 0 => [0; 1] | 1 => [1] | _ => [] end).
  set (near := fun p c => match p, c with 0, 0 => [1] | 0, 1 => [0] | _, _ => [] end).
  set (T := Tables (fun _ c => match c with 0 => 0 | _ => 1 end) (fun p c => match c with 0 => Owned | _ => role p 1 end)).
  exists holders, cells, near, T, (fun p => match local_tag (cells p) (near p) (t_status T p) (t_owner T p) with Some t => t | None => fun _ => None end), (fun p c => match c with 1 => [1 - p] | _ => [] end).
  split; [| split; [| split; [| split; [| split]]]].
  - intros c NE. destruct c as [| [| c]]; [exists 0 | exists 1 | now destruct NE]; (split; [cbn; auto |]); intros q Q.
    + destruct Q as [<- | []]. now split.
    + destruct Q as [<- | [<- | []]]; now split.
  - constructor.
    + intros p c. destruct p as [| [| p]], c as [| [| c]]; cbn; intuition lia.
    + intros [| [| p]]; repeat constructor; cbn; intuition lia.
    + intros p c x. destruct p as [| [| p]], c as [| [| c]]; cbn; intuition lia.
  - intros [| [| p]]; reflexivity.
  - intros p c I O. destruct c as [| [| c]]; [| | easy].
    + destruct I as [<- | []]. apply Permutation_refl.
    + cbn in O. subst p. cbn. apply perm_swap.
  - reflexivity.
  - intros [| [| c]] I; [destruct I as [I | []]; easy | reflexivity | easy].
Qed.

(** * C171: owners of faces, edges and nodes *)
(** All processes agree again, and an element goes to the first of the processes that own the
    elements above it on any process; if there are none, the owner stays. *)
Theorem C171_lower : forall (above holders : nat -> list nat) (U T : tables) (upper arrivals : nat -> nat -> list nat),
  agree above U -> agree holders T ->
  (forall p e u, In p (holders e) -> In u (upper p e) -> In p (above u) /\ incl (above u) (holders e)) ->
  (forall p e, In p (holders e) -> t_owner T p e = p -> Permutation (p :: arrivals p e) (holders e)) ->
  let T' := equilibrate_lower arrivals upper U T in
  agree holders T' /\
  forall e q, In q (holders e) ->
    (exists p u, In p (holders e) /\ In u (upper p e) /\ t_owner T' q e = t_owner U p u /\
       forall p' u', In p' (holders e) -> In u' (upper p' e) -> t_owner T' q e <= t_owner U p' u') \/
    t_owner T' q e = t_owner T q e /\ forall p, In p (holders e) -> upper p e = [].
Proof.
  intros above holders U T upper arrivals AU A CL AR T'. set (v := fun p e => smallest (upper p e) (t_owner U p)).
  assert (SM : forall p e, match v p e with
    | Some a => (exists u, In u (upper p e) /\ t_owner U p u = a) /\ forall u, In u (upper p e) -> a <= t_owner U p u
    | None => upper p e = [] end).
  { intros p e. unfold v, smallest. pose proof (min_owner_fold (fun u => Some (t_owner U p u)) (upper p e) None) as F. cbv beta in F. destruct (fold_left _ _ _) as [a |].
    - destruct F as ([F1 | (u & I & E)] & F2); [easy |]. split; [exists u; split; [easy | congruence] |]. intros u' I'. apply F2. right. now exists u'.
    - destruct F as (_ & F). destruct (upper p e) as [| u l]; [easy |]. now specialize (F u (or_introl eq_refl)). }
  assert (UIN : forall p e u, In p (holders e) -> In u (upper p e) -> In (t_owner U p u) (holders e)).
  { intros p e u P I. destruct (CL p e u P I) as (J & K). destruct (AU u) as (o & O & H); [now destruct (above u) |]. destruct (H p J) as (E & _). rewrite E. now apply K. }
  assert (RED : forall e o, In o (holders e) -> t_owner T o e = o -> match reduced min_owner arrivals v o e with
    | Some a => (exists p u, In p (holders e) /\ In u (upper p e) /\ t_owner U p u = a) /\ (forall p' u', In p' (holders e) -> In u' (upper p' e) -> a <= t_owner U p' u')
    | None => forall p, In p (holders e) -> upper p e = [] end).
  { intros e o O EO. pose proof (AR o e O EO) as P. unfold reduced. pose proof (min_owner_fold (fun q => v q e) (arrivals o e) (v o e)) as F. cbv beta in F.
    assert (IN : forall p, In p (holders e) <-> o = p \/ In p (arrivals o e)). { intros p. split; intros J; [apply (Permutation_in _ (Permutation_sym P)) in J | apply (Permutation_in _ P)]; exact J. }
    destruct (fold_left _ _ _) as [a |].
    - destruct F as (F1 & F2). split.
      + assert (exists p, In p (holders e) /\ v p e = Some a) as (p & P1 & P2). { destruct F1 as [F1 | (x & X & E)]; [exists o; now split | exists x; split; [apply IN; now right | easy]]. }
        pose proof (SM p e) as Q. rewrite P2 in Q. destruct Q as ((u & Q1 & Q2) & _). now exists p, u.
      + intros p' u' P' U'. pose proof (SM p' e) as Q. destruct (v p' e) as [b |] eqn:VB; [| rewrite Q in U'; easy]. destruct Q as (_ & Q). specialize (Q u' U').
        assert (a <= b); [| lia]. apply F2. apply IN in P'. destruct P' as [<- | P']; [now left | right; now exists p'].
    - destruct F as (F1 & F2). intros p J. pose proof (SM p e) as Q. apply IN in J. assert (v p e = None) as VN by (destruct J as [<- | J]; [easy | now apply F2]). now rewrite VN in Q. }
  (* what each process does with its copy *)
  assert (KEY : forall e q, In q (holders e) -> exists o o', In o (holders e) /\ In o' (holders e) /\
    ((exists p u, In p (holders e) /\ In u (upper p e) /\ t_owner U p u = o') /\ (forall p' u', In p' (holders e) -> In u' (upper p' e) -> o' <= t_owner U p' u') \/ o' = o /\ forall p, In p (holders e) -> upper p e = []) /\
    forall q, In q (holders e) -> t_owner T q e = o /\ t_owner T' q e = o' /\ t_status T' q e = right_status (holders e) o' q).
  { intros e q Q. destruct (A e) as (o & O & H); [now destruct (holders e) |]. destruct (H o O) as (EO & _). pose proof (RED e o O EO) as R.
    destruct (holders e) as [| a [| b h]] eqn:HE; [easy | |].
    - destruct O as [-> | []]. exists o, o. split; [now left |]. split; [now left |].
      assert (UO : forall u, In u (upper o e) -> t_owner U o u = o). { intros u I. specialize (UIN o e u). rewrite HE in UIN. destruct (UIN (or_introl eq_refl) I) as [<- | []]. easy. }
      split.
      + destruct (upper o e) as [| u l] eqn:UE; [right; split; [easy |]; intros p [<- | []]; easy |]. left. split.
        * exists o, u. split; [now left |]. split; [rewrite UE; now left |]. apply UO. now left.
        * intros p' u' [<- | []] I. rewrite UE in I. rewrite (UO u' I). lia.
      + intros q' [<- | []]. destruct (H o (or_introl eq_refl)) as (E1 & E2). split; [easy |]. unfold T', equilibrate_lower, new_lower. cbv zeta. cbn [t_owner t_status]. rewrite E2. cbn [right_status is_owned negb andb]. fold v.
        now destruct (exchanged min_owner arrivals T v o e).
    - rewrite <- HE in *. assert (L : 2 <= length (holders e)) by (rewrite HE; cbn [length]; lia). clear a b h HE.
      assert (X : forall q, In q (holders e) -> exchanged min_owner arrivals T v q e = reduced min_owner arrivals v o e).
      { intros q' Q'. destruct (H q' Q') as (E1 & E2). now apply (exchanged_value _ _ _ _ (holders e)). }
      assert (W : forall q, In q (holders e) -> is_owned (t_status T q e) = false). { intros q' Q'. destruct (H q' Q') as (_ & E2). rewrite E2, right_several by easy. unfold role. now destruct (q' =? o). }
      destruct (reduced min_owner arrivals v o e) as [a |].
      + exists o, a. split; [easy |]. split; [destruct R as ((p & u & P1 & P2 & <-) & _); now apply UIN |]. split; [now left |].
        intros q' Q'. destruct (H q' Q') as (E1 & E2). split; [easy |]. unfold T', equilibrate_lower, new_lower. cbv zeta. cbn [t_owner t_status]. fold v. rewrite (X q' Q'), (W q' Q'), E1. cbn [negb andb].
        destruct (Nat.eqb_spec o a) as [-> | N]; cbn [negb]; [now split |]. split; [easy |]. now rewrite right_several.
      + exists o, o. split; [easy |]. split; [easy |]. split; [now right |]. intros q' Q'. destruct (H q' Q') as (E1 & E2). split; [easy |]. unfold T', equilibrate_lower, new_lower. cbv zeta. cbn [t_owner t_status]. fold v. rewrite (X q' Q'). now split. }
  split.
  - intros e NE. destruct (holders e) as [| q0 h0] eqn:HE; [easy |]. rewrite <- HE in *. assert (Q0 : In q0 (holders e)) by (rewrite HE; now left). destruct (KEY e q0 Q0) as (o & o' & _ & O' & _ & H). exists o'. split; [easy |]. intros q Q. now destruct (H q Q).
  - intros e q Q. destruct (KEY e q Q) as (o & o' & _ & _ & D & H). destruct (H q Q) as (E1 & E2 & _). rewrite E1, E2. destruct D as [((p & u & P1 & P2 & P3) & M) | (-> & N)]; [left; exists p, u; auto | right; auto].
Qed.

(** The whole call keeps agreement of the processes for all types of elements, and the owner of
    a node owns a cell with this node. *)
Theorem C171_all : forall (hc hf he hn : nat -> list nat) (cells : nat -> list nat) (near : nat -> nat -> list nat) (tags : nat -> tag)
    (arr_c arr_f arr_e arr_n up_f up_e up_n : nat -> nat -> list nat) (TC TF TE TN C F E N : tables),
  agree hc TC -> agree hf TF -> agree he TE -> agree hn TN -> local_meshes hc cells near ->
  (forall p, local_tag (cells p) (near p) (t_status TC p) (t_owner TC p) = Some (tags p)) ->
  (forall p c, In p (hc c) -> t_owner TC p c = p -> Permutation (p :: arr_c p c) (hc c)) ->
  (forall p c, In p (hf c) -> t_owner TF p c = p -> Permutation (p :: arr_f p c) (hf c)) ->
  (forall p c, In p (he c) -> t_owner TE p c = p -> Permutation (p :: arr_e p c) (he c)) ->
  (forall p c, In p (hn c) -> t_owner TN p c = p -> Permutation (p :: arr_n p c) (hn c)) ->
  (forall p e u, In p (hf e) -> In u (up_f p e) -> In p (hc u) /\ incl (hc u) (hf e)) ->
  (forall p e u, In p (he e) -> In u (up_e p e) -> In p (hf u) /\ incl (hf u) (he e)) ->
  (forall p e u, In p (hn e) -> In u (up_n p e) -> In p (he u) /\ incl (he u) (hn e)) ->
  equilibrate tags arr_c arr_f arr_e arr_n up_f up_e up_n TC TF TE TN = (C, F, E, N) ->
  agree hc C /\ agree hf F /\ agree he E /\ agree hn N /\
  ((forall p f, In p (hf f) -> up_f p f <> []) -> (forall p e, In p (he e) -> up_e p e <> []) -> (forall p n, In p (hn n) -> up_n p n <> []) ->
   forall n q, In q (hn n) -> exists p1 e p2 f p3 c,
     In p1 (hn n) /\ In e (up_n p1 n) /\ In p2 (he e) /\ In f (up_e p2 e) /\ In p3 (hf f) /\ In c (up_f p3 f) /\ t_owner N q n = t_owner C p3 c).
Proof.
  intros hc hf he hn cells near tags arr_c arr_f arr_e arr_n up_f up_e up_n TC TF TE TN C F E N AC AF AE AN LM TG P1 P2 P3 P4 U1 U2 U3 EQ.
  unfold equilibrate in EQ. cbv zeta in EQ. injection EQ as <- <- <- <-.
  pose proof (C170_owners hc cells near TC tags arr_c AC LM TG P1) as (A1 & _).
  pose proof (C171_lower hc hf _ TF up_f arr_f A1 AF U1 P2) as (A2 & B2).
  pose proof (C171_lower hf he _ TE up_e arr_e A2 AE U2 P3) as (A3 & B3).
  pose proof (C171_lower he hn _ TN up_n arr_n A3 AN U3 P4) as (A4 & B4).
  split; [exact A1 |]. split; [exact A2 |]. split; [exact A3 |]. split; [exact A4 |].
  intros NF NE NN n q Q. destruct (B4 n q Q) as [(p1 & e & I1 & J1 & K1 & _) | (_ & Z)]; [| now destruct (NN q n Q (Z q Q))].
  assert (I2 : In p1 (he e)) by now destruct (U3 p1 n e I1 J1).
  destruct (B3 e p1 I2) as [(p2 & f & I3 & J3 & K3 & _) | (_ & Z)]; [| now destruct (NE p1 e I2 (Z p1 I2))].
  assert (I4 : In p2 (hf f)) by now destruct (U2 p2 e f I3 J3).
  destruct (B2 f p2 I4) as [(p3 & c & I5 & J5 & K5 & _) | (_ & Z)]; [| now destruct (NF p2 f I4 (Z p2 I4))].
  exists p1, e, p2, f, p3, c. do 6 (split; [easy |]). congruence.
Qed.

(** Three processes in a row: the cell 1 of processes 0 and 1 goes to 0, the cell 3 between 1
    and 2 is nearest to 2, the node 0 goes with cell 1. *)
Definition ex_holders (c : nat) : list nat := match c with 0 => [0] | 1 | 2 => [0; 1] | 3 => [0; 1; 2] | 4 => [2] | _ => [] end.
Definition ex_cells (p : nat) : list nat := match p with 0 => [0; 1; 2; 3] | 1 => [1; 2; 3] | 2 => [3; 4] | _ => [] end.
Definition ex_near (p c : nat) : list nat := filter (fun x => (x =? c + 1) || (c =? x + 1)) (ex_cells p).
Definition ex_T : tables := Tables (fun _ c => match c with 0 => 0 | 4 => 2 | _ => 1 end) (fun p c => right_status (ex_holders c) (match c with 0 => 0 | 4 => 2 | _ => 1 end) p).
Definition ex_tags (p : nat) : tag := match local_tag (ex_cells p) (ex_near p) (t_status ex_T p) (t_owner ex_T p) with Some t => t | None => fun _ => None end.
Definition ex_arrivals (p c : nat) : list nat := filter (fun q => negb (q =? p)) (rev (ex_holders c)).
Example C169_nonvacuous : map (ex_tags 0) [1; 2; 3] = [Some (0, 1); Some (0, 2); Some (0, 3)] /\ map (ex_tags 1) [1; 2; 3] = [None; None; None] /\ ex_tags 2 3 = Some (2, 1).
Proof. split; [reflexivity |]. split; reflexivity. Qed.
Example C170_nonvacuous : agree ex_holders ex_T /\ local_meshes ex_holders ex_cells ex_near /\
  (forall p, local_tag (ex_cells p) (ex_near p) (t_status ex_T p) (t_owner ex_T p) = Some (ex_tags p)) /\
  (forall p c, In p (ex_holders c) -> t_owner ex_T p c = p -> Permutation (p :: ex_arrivals p c) (ex_holders c)) /\
  map (t_owner (equilibrate_cells ex_arrivals ex_tags ex_T) 1) [1; 2; 3] = [0; 0; 2] /\
  map (fun q => t_status (equilibrate_cells ex_arrivals ex_tags ex_T) q 3) [0; 1; 2] = [Ghost; Ghost; Shared].
Proof.
  split; [| split; [| split; [| split]]].
  - intros c NE. destruct c as [| [| [| [| [| c]]]]]; [exists 0 | exists 1 | exists 1 | exists 1 | exists 2 | now destruct NE]; (split; [cbn; auto |]); intros q Q; cbn in Q; intuition (subst; easy).
  - constructor.
    + intros p c. destruct p as [| [| [| p]]], c as [| [| [| [| [| c]]]]]; cbn; intuition lia.
    + intros [| [| [| p]]]; repeat constructor; cbn; intuition lia.
    + intros p c x _ I. now apply filter_In in I.
  - intros [| [| [| p]]]; reflexivity.
  - intros p c I O. destruct c as [| [| [| [| [| c]]]]]; cbn in O; subst p; cbn in I |- *; try (exfalso; intuition lia); try apply Permutation_refl; try apply perm_swap.
    eapply perm_trans; [| apply perm_swap]. apply perm_skip. apply perm_swap.
  - split; reflexivity.
Qed.
Example C171_nonvacuous :
  let T := Tables (fun _ _ => 1) (fun p _ => right_status [0; 1] 1 p) in
  let up p n := match p, n with 0, 0 => [0; 1] | 1, 0 => [1] | _, _ => [] end in
  let C := equilibrate_cells ex_arrivals ex_tags ex_T in
  agree ex_holders C /\ agree (fun n => match n with 0 => [0; 1] | _ => [] end) T /\
  t_owner (equilibrate_lower (fun p _ => [1 - p]) up C T) 1 0 = 0 /\ t_status (equilibrate_lower (fun p _ => [1 - p]) up C T) 1 0 = Ghost.
Proof.
  split; [| split; [| split; reflexivity]].
  - destruct C170_nonvacuous as (A & L & TG & P & _). exact (proj1 (C170_owners ex_holders ex_cells ex_near ex_T ex_tags ex_arrivals A L TG P)).
  - intros [| n] NE; [| now destruct NE]. exists 1. split; [cbn; auto |]. intros q [<- | [<- | []]]; now split.
Qed.

Print Assumptions C169_distances.
Print Assumptions C170_owners.
Print Assumptions C170_idle_refuted.
Print Assumptions C171_lower.
Print Assumptions C171_all.
