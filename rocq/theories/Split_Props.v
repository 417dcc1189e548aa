(** Property C37: split_string returns the maximal pieces without delimiters. *)
From Coq Require Import List Bool Ascii String Arith Lia.
From Verif Require Import Split_Model Split_Proofs.
Import ListNotations.

(** [ws] are the maximal delimiter-free pieces of [s], in order: the string is
    delimiters, piece, delimiters, piece, ..., delimiters, every piece is
    non-empty and followed by a delimiter or the end. (Same relation as in
    Split_Proofs.v, spelled out.) *)
Definition cut_into (s delims : str) (ws : list str) : Prop :=
  exists gaps : list str,
    List.length gaps = S (List.length ws) /\
    Forall (fun g => incl g delims) gaps /\
    Forall (fun w => w <> [] /\ forall c, In c w -> ~ In c delims) ws /\
    (forall i, 0 < i < List.length ws -> nth i gaps [] <> []) /\
    s = nth 0 gaps [] ++ List.concat (map (fun p => fst p ++ snd p) (combine ws (tl gaps))).

Lemma pieces_cut : forall delims s ws,
  pieces (fun c => In c delims) s ws -> cut_into s delims ws.
Proof.
  intros delims s ws H. induction H as [s Hs|d w r ws Hd Hw Fw Hr Hp IH].
  - exists [s]. split; [reflexivity|]. split; [constructor; [|constructor]|].
    { intros c Hc. rewrite Forall_forall in Hs. auto. }
    split; [constructor|]. split; [cbn; lia|]. cbn. now rewrite app_nil_r.
  - destruct IH as [gaps [H1 [H2 [H3 [H4 H5]]]]].
    exists (d :: gaps). split; [cbn; lia|].
    split. { constructor; auto. intros c Hc. rewrite Forall_forall in Hd. auto. }
    split. { constructor; auto. split; auto. rewrite Forall_forall in Fw. auto. }
    destruct gaps as [|g gaps]; [discriminate|].
    split.
    { intros i Hi. destruct i as [|i]; [lia|]. cbn [nth].
      destruct i as [|i].
      - cbn [nth]. cbn [nth] in H5. intros ->. cbn [app] in H5.
        destruct ws as [|w2 ws]; [cbn in Hi; lia|].
        inversion H3 as [|? ? [Hn Hd2] H3']; subst.
        destruct w2 as [|c w2]; [congruence|].
        destruct gaps as [|g2 gaps]; [cbn in H1; lia|].
        cbn [tl combine map List.concat fst snd app] in Hr.
        apply (Hd2 c); [now left|exact Hr].
      - apply (H4 (S i)). cbn in Hi. lia. }
    cbn [nth tl combine map List.concat fst snd]. cbn [nth tl] in H5.
    rewrite H5. rewrite <- app_assoc. reflexivity.
Qed.

(** The call never throws and appends exactly the pieces to the list. *)
Theorem C37_split_string : forall s old delims,
  exists ws, split_string s old delims = Some (old ++ ws) /\ cut_into s delims ws.
Proof.
  intros s old delims. destruct (split_string_ok s old delims) as [ws [H1 H2]].
  exists ws. split; auto. now apply pieces_cut.
Qed.
Print Assumptions C37_split_string.

Lemma cut_pieces : forall delims ws s, cut_into s delims ws ->
  pieces (fun c => In c delims) s ws.
Proof.
  intros delims ws. induction ws as [|w ws IH]; intros s [gaps [H1 [H2 [H3 [H4 H5]]]]].
  - destruct gaps as [|g [|? ?]]; try discriminate. cbn in H5. rewrite app_nil_r in H5.
    subst. constructor. inversion H2; subst. apply Forall_forall. auto.
  - destruct gaps as [|g [|g2 gaps]]; try discriminate.
    cbn [nth tl combine map List.concat fst snd] in H5. rewrite <- app_assoc in H5.
    inversion H2 as [|? ? Hg H2']; subst. inversion H3 as [|? ? [Hw Hwd] H3']; subst.
    set (r := g2 ++ List.concat (map (fun p => fst p ++ snd p) (combine ws gaps))) in *.
    assert (Hr : pieces (fun c => In c delims) r ws).
    { apply IH. exists (g2 :: gaps). split; [cbn in H1 |- *; lia|].
      split; [exact H2'|]. split; [exact H3'|]. split; [|reflexivity].
      intros i Hi. apply (H4 (S i)). cbn. lia. }
    constructor; auto.
    + apply Forall_forall. auto.
    + apply Forall_forall. auto.
    + unfold r. destruct g2 as [|c g2].
      * destruct ws as [|w2 ws]; [exact I|].
        exfalso. apply (H4 1); [cbn; lia|reflexivity].
      * cbn [app]. inversion H2' as [|? ? Hg2 _]; subst. apply Hg2. now left.
Qed.

(** No other list of pieces fits: the answer is determined by the string. *)
Theorem C37_pieces_unique : forall s delims ws ws',
  cut_into s delims ws -> cut_into s delims ws' -> ws = ws'.
Proof.
  intros s delims ws ws' H H'. eapply pieces_unique; apply cut_pieces; eauto.
Qed.
Print Assumptions C37_pieces_unique.

Definition of_string (s : string) : str := list_ascii_of_string s.

Example C37_nonvacuous :
  split_string (of_string ",a,,bc; d,") [of_string "old"] (of_string ",;") =
    Some [of_string "old"; of_string "a"; of_string "bc"; of_string " d"] /\
  split_string (of_string "plain") [] [] = Some [of_string "plain"] /\
  split_string [] [] (of_string ",") = Some [] /\
  cut_into (of_string ",a,b") (of_string ",") [of_string "a"; of_string "b"].
Proof.
  split; [reflexivity|]. split; [reflexivity|]. split; [reflexivity|].
  destruct (C37_split_string (of_string ",a,b") [] (of_string ",")) as [ws [E H]].
  vm_compute in E. injection E as <-. exact H.
Qed.
