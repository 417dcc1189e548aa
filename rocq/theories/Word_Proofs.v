(** Words and data sets of the XML mesh format: proofs. *)
From Coq Require Import Ascii String.
From Coq Require Import List Arith NArith ZArith Bool Lia.
From Verif Require Import Util Mtx_Model Mtx_Spec Mtx_Proofs Expr_Model Handle_Model Word_Model Word_Spec.
Import ListNotations.
Open Scope nat_scope.

(** * Characters *)
Lemma is_space_ok c : is_space c = true <-> space c.
Proof. unfold is_space, space. cbn [In]. rewrite orb_true_iff, andb_true_iff, !Nat.leb_le, Nat.eqb_eq. lia. Qed.
Lemma is_space_no c : is_space c = false <-> ~ space c.
Proof. rewrite <- is_space_ok. destruct (is_space c); split; congruence. Qed.
Lemma squeeze_eq t : squeeze t = filter (fun c => negb (is_space c)) t.
Proof.
  unfold squeeze. induction t as [|c t IH]; [reflexivity|]. cbn [filter]. rewrite IH.
  destruct (in_dec Nat.eq_dec c [9; 10; 11; 12; 13; 32]) as [H|H].
  - replace (is_space c) with true by (symmetry; apply is_space_ok; exact H). reflexivity.
  - replace (is_space c) with false by (symmetry; apply is_space_no; exact H). reflexivity.
Qed.
Lemma squeeze_cons c t : squeeze (c :: t) = if is_space c then squeeze t else c :: squeeze t.
Proof. rewrite !squeeze_eq. cbn [filter]. destruct (is_space c); reflexivity. Qed.
Lemma no_space_cons c t : no_space (c :: t) <-> is_space c = false /\ no_space t.
Proof.
  unfold no_space. split.
  - intros H. split; [apply is_space_no, H; left; reflexivity|]. intros d Hd. apply H. right. exact Hd.
  - intros [H1 H2] d [<-|Hd]; [apply is_space_no; exact H1|apply H2; exact Hd].
Qed.
Lemma without_cons cs c t : without cs (c :: t) <-> (forall x, In x cs -> c <> ch x) /\ without cs t.
Proof.
  unfold without. split.
  - intros H. split; intros x Hx; [intros ->; apply (H x Hx); left; reflexivity|]. intros F. apply (H x Hx). right. exact F.
  - intros [H1 H2] x Hx [F|F]; [apply (H1 x Hx); exact F|exact (H2 x Hx F)].
Qed.
Lemma without_one cs x t : In x cs -> without cs t -> ~ In (ch x) t.
Proof. intros H W. exact (W x H). Qed.

(** * One step of the reader away from the end *)
Lemma word_step st ret c inp : (c <> rbrack \/ st = Quotes) ->
  word st 0 ret (c :: inp) =
  match st with
  | Wait =>
      if is_space c then word Wait 0 ret inp
      else if c =? lbrace then word InVector 0 (c :: ret) inp
      else if c =? star then word Mult 0 (c :: ret) inp
      else if c =? quote then word Quotes 0 (c :: ret) inp
      else word Read 0 (c :: ret) inp
  | Read =>
      if is_space c then Word (rev ret) inp
      else if c =? star then word Mult 0 (c :: ret) inp
      else word Read 0 (c :: ret) inp
  | InVector =>
      if c =? rbrace then word Read 0 (c :: ret) inp
      else if is_space c then word InVector 0 ret inp
      else word InVector 0 (c :: ret) inp
  | Mult =>
      if is_space c then if hd 0 ret =? star then word Mult 0 ret inp else Word (rev ret) inp
      else if (c =? lpar) && (hd 0 ret =? star) then word Skopes 0 (c :: ret) inp
      else word Mult 0 (c :: ret) inp
  | Skopes =>
      if c =? rpar then Word (rev (c :: ret)) inp
      else if is_space c then word Skopes 0 ret inp
      else word Skopes 0 (c :: ret) inp
  | Quotes =>
      if c =? quote then if hd 0 ret =? backslash then word Quotes 0 (c :: tl ret) inp else word Read 0 (c :: ret) inp
      else word Quotes 0 (c :: ret) inp
  end.
Proof.
  intros H. cbn [word]. replace ((c =? gt) && (0 =? 2)) with false by (rewrite andb_false_r; reflexivity). cbn [andb].
  replace ((c =? rbrack) && match st with Quotes => false | _ => true end) with false; [destruct st; reflexivity|].
  symmetry. destruct H as [H| ->]; [|apply andb_false_r]. apply Nat.eqb_neq in H. rewrite H. reflexivity.
Qed.
Lemma space_not_brack c : space c -> c <> rbrack.
Proof. unfold space, rbrack. cbn [In]. lia. Qed.
Lemma wait_spaces ws : forall ret r, spaces ws -> word Wait 0 ret (ws ++ r) = word Wait 0 ret r.
Proof.
  induction ws as [|c ws IH]; intros ret r H; [reflexivity|]. inversion H; subst. cbn [app]. rewrite word_step by (left; apply space_not_brack; assumption).
  replace (is_space c) with true by (symmetry; apply is_space_ok; assumption). apply IH. assumption.
Qed.
Ltac chars := unfold ch, star, rbrack, lbrace, rbrace, quote, backslash, lpar, rpar, comma, gt, colon in *; cbn in *.
Lemma read_run t : forall ret r, no_space t -> without ["*"; "]"]%char t -> word Read 0 ret (t ++ r) = word Read 0 (rev t ++ ret) r.
Proof.
  induction t as [|c t IH]; intros ret r S W; [reflexivity|]. apply no_space_cons in S. apply without_cons in W. destruct S as [S1 S2], W as [W1 W2].
  pose proof (W1 "*"%char ltac:(cbn; tauto)) as E1. pose proof (W1 "]"%char ltac:(cbn; tauto)) as E2.
  cbn [app]. rewrite word_step by (left; exact E2). rewrite S1. replace (c =? star) with false by (symmetry; apply Nat.eqb_neq; exact E1).
  rewrite IH by assumption. cbn [rev]. rewrite <- app_assoc. reflexivity.
Qed.
Lemma vector_run t : forall ret r, without ["}"; "]"]%char t -> word InVector 0 ret (t ++ r) = word InVector 0 (rev (squeeze t) ++ ret) r.
Proof.
  induction t as [|c t IH]; intros ret r W; [reflexivity|]. apply without_cons in W. destruct W as [W1 W2].
  pose proof (W1 "}"%char ltac:(cbn; tauto)) as E1. pose proof (W1 "]"%char ltac:(cbn; tauto)) as E2.
  cbn [app]. rewrite word_step by (left; exact E2). replace (c =? rbrace) with false by (symmetry; apply Nat.eqb_neq; exact E1).
  rewrite squeeze_cons. destruct (is_space c); rewrite IH by assumption; [reflexivity|]. cbn [rev]. rewrite <- app_assoc. reflexivity.
Qed.
Lemma skopes_run t : forall ret r, without [")"; "]"]%char t -> word Skopes 0 ret (t ++ r) = word Skopes 0 (rev (squeeze t) ++ ret) r.
Proof.
  induction t as [|c t IH]; intros ret r W; [reflexivity|]. apply without_cons in W. destruct W as [W1 W2].
  pose proof (W1 ")"%char ltac:(cbn; tauto)) as E1. pose proof (W1 "]"%char ltac:(cbn; tauto)) as E2.
  cbn [app]. rewrite word_step by (left; exact E2). replace (c =? rpar) with false by (symmetry; apply Nat.eqb_neq; exact E1).
  rewrite squeeze_cons. destruct (is_space c); rewrite IH by assumption; [reflexivity|]. cbn [rev]. rewrite <- app_assoc. reflexivity.
Qed.
Lemma quotes_run t : forall ret r, without ["\"]%char t -> hd 0 ret <> backslash -> word Quotes 0 ret (guard t ++ r) = word Quotes 0 (rev t ++ ret) r /\ hd 0 (rev t ++ ret) <> backslash.
Proof.
  induction t as [|c t IH]; intros ret r W B; [split; [reflexivity|exact B]|]. apply without_cons in W. destruct W as [W1 W2].
  pose proof (W1 "\"%char ltac:(cbn; tauto)) as E1. unfold guard. cbn [flat_map]. fold (guard t). rewrite <- app_assoc. destruct (c =? ch """") eqn:E.
  - apply Nat.eqb_eq in E. subst c. cbn [app]. rewrite word_step by (right; reflexivity). replace (ch "\" =? quote) with false by reflexivity.
    rewrite word_step by (right; reflexivity). change (ch """" =? quote) with true. cbv iota. change (hd 0 (ch "\" :: ret) =? backslash) with true. cbv iota. cbn [tl].
    destruct (IH (ch """" :: ret) r W2) as [I1 I2]; [cbn; chars; lia|]. rewrite I1. cbn [rev]. rewrite <- app_assoc. cbn [app]. split; [reflexivity|exact I2].
  - cbn [app]. rewrite word_step by (right; reflexivity). change quote with (ch """"). rewrite E.
    destruct (IH (c :: ret) r W2) as [I1 I2]; [exact E1|]. rewrite I1. cbn [rev]. rewrite <- app_assoc. cbn [app]. split; [reflexivity|exact I2].
Qed.
Lemma mult_spaces ws : forall ret r, spaces ws -> hd 0 ret = star -> word Mult 0 ret (ws ++ r) = word Mult 0 ret r.
Proof.
  induction ws as [|c ws IH]; intros ret r H E; [reflexivity|]. inversion H; subst. cbn [app]. rewrite word_step by (left; apply space_not_brack; assumption).
  replace (is_space c) with true by (symmetry; apply is_space_ok; assumption). rewrite E, Nat.eqb_refl. apply IH; assumption.
Qed.
Lemma mult_run t : forall ret r, no_space t -> without ["*"; "]"]%char t -> hd 0 ret <> star -> word Mult 0 ret (t ++ r) = word Mult 0 (rev t ++ ret) r /\ hd 0 (rev t ++ ret) <> star.
Proof.
  induction t as [|c t IH]; intros ret r S W B; [split; [reflexivity|exact B]|]. apply no_space_cons in S. apply without_cons in W. destruct S as [S1 S2], W as [W1 W2].
  pose proof (W1 "*"%char ltac:(cbn; tauto)) as E1. pose proof (W1 "]"%char ltac:(cbn; tauto)) as E2.
  cbn [app]. rewrite word_step by (left; exact E2). rewrite S1. replace (hd 0 ret =? star) with false by (symmetry; apply Nat.eqb_neq; exact B). rewrite andb_false_r.
  destruct (IH (c :: ret) r S2 W2) as [I1 I2]; [exact E1|]. rewrite I1. cbn [rev]. rewrite <- app_assoc. split; [reflexivity|exact I2].
Qed.

(** * One item *)
(** after the base the reader is in the state Read *)
Lemma base_run b : forall ws r, spaces ws -> base_ok b -> word Wait 0 [] (ws ++ base_text b ++ r) = word Read 0 (rev (base_word b)) r.
Proof.
  intros ws r Hs Ok. rewrite wait_spaces by exact Hs. destruct b as [t|t|t]; cbn [base_ok base_text base_word] in *.
  - destruct Ok as (N & S & W & H1 & H2). destruct t as [|c t]; [congruence|]. cbn [hd] in *. apply no_space_cons in S. apply without_cons in W. destruct S as [S1 S2], W as [W1 W2].
    pose proof (W1 "*"%char ltac:(cbn; tauto)) as E1. pose proof (W1 "]"%char ltac:(cbn; tauto)) as E2.
    cbn [app]. rewrite word_step by (left; exact E2). rewrite S1. replace (c =? lbrace) with false by (symmetry; apply Nat.eqb_neq; exact H1).
    replace (c =? star) with false by (symmetry; apply Nat.eqb_neq; exact E1). replace (c =? quote) with false by (symmetry; apply Nat.eqb_neq; exact H2).
    rewrite read_run by assumption. reflexivity.
  - cbn [app]. rewrite word_step by (left; chars; lia). change (is_space (ch "{")) with false. change (ch "{" =? lbrace) with true. cbv iota.
    rewrite <- app_assoc, vector_run by exact Ok. cbn [app]. rewrite word_step by (left; chars; lia). change (ch "}" =? rbrace) with true. cbv iota.
    cbn [rev]. rewrite rev_app_distr. cbn [rev app]. reflexivity.
  - cbn [app]. rewrite word_step by (left; chars; lia). change (is_space (ch """")) with false. change (ch """" =? lbrace) with false. change (ch """" =? star) with false. change (ch """" =? quote) with true. cbv iota.
    rewrite <- app_assoc. destruct (quotes_run t [ch """"] ([ch """"] ++ r) Ok) as [I1 I2]; [cbn; chars; lia|]. rewrite I1. cbn [app]. rewrite word_step by (right; reflexivity).
    change (ch """" =? quote) with true. cbv iota. replace (hd 0 (rev t ++ [ch """"]) =? backslash) with false by (symmetry; apply Nat.eqb_neq; exact I2).
    cbn [rev]. rewrite rev_app_distr. cbn [rev app]. reflexivity.
Qed.
Lemma item_run i ws s r : spaces ws -> item_ok i -> gap_ok i s -> exists s', spaces s' /\ get_word (ws ++ item_text i ++ s ++ r) = Word (item_word i) (s' ++ r).
Proof.
  intros Hs [Ob Om] [Gs Gn]. destruct i as [b m]. cbn [fst snd] in *. unfold get_word, item_text, item_word. cbn [fst snd]. rewrite <- app_assoc, base_run by assumption.
  destruct m as [|ms t|ms t]; cbn [times_text times_word times_ok] in *.
  - destruct s as [|c s]; [destruct (Gn eq_refl) as (? & ? & E); discriminate|]. inversion Gs; subst. exists s. split; [assumption|]. cbn [app].
    rewrite word_step by (left; apply space_not_brack; assumption). replace (is_space c) with true by (symmetry; apply is_space_ok; assumption). rewrite rev_involutive, app_nil_r. reflexivity.
  - destruct s as [|c s]; [destruct (Gn eq_refl) as (? & ? & E); discriminate|]. inversion Gs; subst. exists s. split; [assumption|]. destruct Om as (Ms & N & S & W & Hp).
    cbn [app]. rewrite word_step by (left; chars; lia). change (is_space (ch "*")) with false. change (ch "*" =? star) with true. cbv iota.
    rewrite <- app_assoc, mult_spaces by (try assumption; reflexivity). destruct t as [|d t]; [congruence|]. cbn [hd] in Hp. apply no_space_cons in S. apply without_cons in W. destruct S as [S1 S2], W as [W1 W2].
    pose proof (W1 "*"%char ltac:(cbn; tauto)) as E1. pose proof (W1 "]"%char ltac:(cbn; tauto)) as E2. cbn [app].
    rewrite word_step by (left; exact E2). rewrite S1. replace (d =? lpar) with false by (symmetry; apply Nat.eqb_neq; exact Hp). cbn [andb].
    destruct (mult_run t (d :: ch "*" :: rev (base_word b)) (c :: s ++ r) S2 W2 E1) as [I1 I2]. rewrite I1. rewrite word_step by (left; apply space_not_brack; assumption).
    replace (is_space c) with true by (symmetry; apply is_space_ok; assumption). replace (hd 0 (rev t ++ d :: ch "*" :: rev (base_word b)) =? star) with false by (symmetry; apply Nat.eqb_neq; exact I2).
    f_equal. rewrite rev_app_distr. cbn [rev]. rewrite !rev_involutive, <- !app_assoc. reflexivity.
  - exists s. split; [exact Gs|]. destruct Om as (Ms & W). cbn [app]. rewrite word_step by (left; chars; lia). change (is_space (ch "*")) with false. change (ch "*" =? star) with true. cbv iota.
    rewrite <- app_assoc, mult_spaces by (try assumption; reflexivity). cbn [app]. rewrite word_step by (left; chars; lia). change (is_space (ch "(")) with false. change ((ch "(" =? lpar) && (hd 0 (ch "*" :: rev (base_word b)) =? star)) with true. cbv iota.
    rewrite <- app_assoc, skopes_run by exact W. cbn [app]. rewrite word_step by (left; chars; lia). change (ch ")" =? rpar) with true. cbv iota.
    f_equal. cbn [rev]. rewrite rev_app_distr. cbn [rev]. rewrite !rev_involutive, <- !app_assoc. reflexivity.
Qed.
Lemma end_run ws r : spaces ws -> get_word (ws ++ text_of "]]>" ++ r) = Ended [] (ch ">" :: r).
Proof. intros H. unfold get_word. rewrite wait_spaces by exact H. reflexivity. Qed.
Lemma words_items l : forall ws fuel r, spaces ws -> items_ok l -> length l < fuel -> words_fuel fuel (ws ++ items_text l ++ text_of "]]>" ++ r) = Some (map (fun p => item_word (fst p)) l, ch ">" :: r).
Proof.
  induction l as [|[i s] l IH]; intros ws fuel r Hs Ok F; (destruct fuel as [|fuel]; [lia|]); cbn [words_fuel items_text].
  - cbn [app]. rewrite end_run by exact Hs. reflexivity.
  - inversion Ok as [|? ? [O1 O2] O3]; subst. cbn [fst snd] in *. rewrite <- !app_assoc. destruct (item_run i ws s (items_text l ++ text_of "]]>" ++ r) Hs O1 O2) as (s' & Hs' & E). rewrite E.
    cbn [length] in F. rewrite IH by (try assumption; lia). reflexivity.
Qed.
Lemma item_nonempty i : item_ok i -> item_text i <> [].
Proof. intros [H _]. unfold item_text. destruct (fst i) as [t|t|t]; cbn [base_text base_ok] in *; [|discriminate|discriminate]. destruct H as (N & _). destruct t; [congruence|discriminate]. Qed.
Lemma items_length l : items_ok l -> length l <= length (items_text l).
Proof.
  induction l as [|[i s] l IH]; intros Ok; [cbn; lia|]. inversion Ok as [|? ? [O1 O2] O3]; subst. cbn [fst] in *. cbn [items_text length]. rewrite !app_length.
  pose proof (item_nonempty i O1). destruct (item_text i); [congruence|]. cbn [length]. specialize (IH O3). lia.
Qed.
Lemma words_ok l ws r : spaces ws -> items_ok l -> words (ws ++ items_text l ++ text_of "]]>" ++ r) = Some (map (fun p => item_word (fst p)) l, ch ">" :: r).
Proof. intros. unfold words. apply words_items; try assumption. rewrite !app_length. pose proof (items_length l H0). lia. Qed.
(** pairs of items *)
Fixpoint pairs_of {A} (l : list A) : list (A * A) := match l with a :: b :: l' => (a, b) :: pairs_of l' | _ => [] end.
Lemma pairs_items n : forall l ws fuel r, spaces ws -> items_ok l -> length l = n + n -> n < fuel ->
  pairs_fuel fuel (ws ++ items_text l ++ text_of "]]>" ++ r) = Some (pairs_of (map (fun p => item_word (fst p)) l), ch ">" :: r).
Proof.
  induction n as [|n IH]; intros l ws fuel r Hs Ok L F; (destruct fuel as [|fuel]; [lia|]); cbn [pairs_fuel].
  - destruct l; [|discriminate]. cbn [items_text app]. rewrite end_run by exact Hs. reflexivity.
  - destruct l as [|[i s] [|[j u] l]]; [discriminate|cbn in L; lia|]. inversion Ok as [|? ? [O1 O2] O3]; subst. inversion O3 as [|? ? [P1 P2] P3]; subst. cbn [fst snd] in *.
    cbn [items_text]. rewrite <- !app_assoc. destruct (item_run i ws s (item_text j ++ u ++ items_text l ++ text_of "]]>" ++ r) Hs O1 O2) as (s' & Hs' & E). rewrite E.
    destruct (item_run j s' u (items_text l ++ text_of "]]>" ++ r) Hs' P1 P2) as (u' & Hu' & E'). rewrite E'. cbn [length] in L. rewrite IH by (try assumption; lia). reflexivity.
Qed.
Lemma pairs_ok l ws r n : spaces ws -> items_ok l -> length l = n + n -> pairs (ws ++ items_text l ++ text_of "]]>" ++ r) = Some (pairs_of (map (fun p => item_word (fst p)) l), ch ">" :: r).
Proof. intros. unfold pairs. apply (pairs_items n); try assumption. rewrite !app_length. pose proof (items_length l H0). lia. Qed.

(** * Values of a word *)
Lemma cut_none c s : ~ In c s -> cut c s = None.
Proof. induction s as [|x s IH]; intros H; [reflexivity|]. cbn [cut]. destruct (x =? c) eqn:E; [apply Nat.eqb_eq in E; subst; exfalso; apply H; left; reflexivity|]. rewrite IH; [reflexivity|]. intros F. apply H. right. exact F. Qed.
Lemma cut_some c a b : ~ In c a -> cut c (a ++ c :: b) = Some (a, b).
Proof.
  induction a as [|x a IH]; intros H; cbn [app cut]; [rewrite Nat.eqb_refl; reflexivity|].
  destruct (x =? c) eqn:E; [apply Nat.eqb_eq in E; subst; exfalso; apply H; left; reflexivity|]. rewrite IH; [reflexivity|]. intros F. apply H. right. exact F.
Qed.
Lemma split_once v : ~ In star v -> split_mult v = (v, []).
Proof. intros H. unfold split_mult. rewrite cut_none by exact H. reflexivity. Qed.
Lemma split_times v m : ~ In star v -> split_mult (v ++ star :: m) = (v, m).
Proof. intros H. unfold split_mult. rewrite cut_some by exact H. reflexivity. Qed.
Section ValuesP.
  Context {A : Type} (elem : text -> option A).
  Lemma vec_ok (ts : list text) : forall vs fuel r, length ts <= fuel -> ts <> [] -> Forall (fun t => ~ In comma t /\ ~ In rbrace t) ts -> ~ In comma r ->
    Forall2 (fun t a => elem t = Some a) (filter (fun t => negb (blank t)) ts) vs -> vec elem fuel (commas ts ++ rbrace :: r) = Some vs.
  Proof.
    induction ts as [|t ts IH]; intros vs fuel r L N F R V; [congruence|]. destruct fuel as [|fuel]; [cbn in L; lia|]. inversion F as [|? ? [F1 F2] F3]; subst. cbn [vec].
    destruct ts as [|t' ts].
    - cbn [commas]. rewrite cut_none; [|rewrite in_app_iff; intros [G|[G|G]]; [exact (F1 G)|unfold rbrace, comma in G; lia|exact (R G)]]. rewrite cut_some by exact F2. cbn [filter] in V. unfold push.
      destruct (blank t); cbn [negb] in V; [inversion V; reflexivity|]. inversion V as [|? a ? vs' E V']; subst. inversion V'; subst. rewrite E. reflexivity.
    - change (commas (t :: t' :: ts)) with (t ++ comma :: commas (t' :: ts)). rewrite <- app_assoc. cbn [app]. rewrite cut_some by exact F1. cbn [filter] in V. unfold push. destruct (blank t); cbn [negb] in V.
      + apply IH; try assumption; [cbn [length] in *; lia|discriminate].
      + inversion V as [|? a ? vs' E V']; subst. rewrite (IH vs' fuel r); try assumption; [rewrite E; reflexivity|cbn [length] in *; lia|discriminate].
  Qed.
End ValuesP.
Lemma commas_length (ts : list text) : length ts <= S (length (commas ts)).
Proof. induction ts as [|t ts IH]; [cbn; lia|]. destruct ts as [|t' ts]; [cbn; lia|]. change (commas (t :: t' :: ts)) with (t ++ comma :: commas (t' :: ts)). rewrite app_length. cbn [length] in *. lia. Qed.
Lemma commas_in c ts : In c (commas ts) -> c = comma \/ exists t, In t ts /\ In c t.
Proof.
  induction ts as [|t ts IH]; [intros []|]. destruct ts as [|t' ts]; [intros H; right; exists t; split; [left; reflexivity|exact H]|].
  change (commas (t :: t' :: ts)) with (t ++ comma :: commas (t' :: ts)). rewrite in_app_iff. intros [H|[H|H]].
  - right. exists t. split; [left; reflexivity|exact H].
  - left. congruence.
  - destruct (IH H) as [E|(u & U1 & U2)]; [left; exact E|right; exists u; split; [right; exact U1|exact U2]].
Qed.

Lemma skipn_twice {B} (l : list B) : forall a b, skipn a (skipn b l) = skipn (b + a) l.
Proof. induction l as [|x l IH]; intros a b; [rewrite !skipn_nil; reflexivity|]. destruct b as [|b]; [reflexivity|]. cbn. apply IH. Qed.
Section DataP.
  Context {A : Type} (single : text -> option (list A)) (elem : text -> option A) (convert : text -> Z -> option Z).
  (** a word with its multiplier *)
  Lemma parse_single v m size : ~ In star v -> hd 0 v <> lbrace -> parse single elem convert (v ++ star :: m) size = match single v, convert m size with Some l, Some r => Some (l, r) | _, _ => None end.
  Proof. intros S H. unfold parse. rewrite split_times by exact S. destruct v as [|c v]; [reflexivity|]. cbn [hd] in H. apply Nat.eqb_neq in H. rewrite H. reflexivity. Qed.
  Lemma parse_single_once v size : ~ In star v -> hd 0 v <> lbrace -> parse single elem convert v size = match single v, convert [] size with Some l, Some r => Some (l, r) | _, _ => None end.
  Proof. intros S H. unfold parse. rewrite split_once by exact S. destruct v as [|c v]; [reflexivity|]. cbn [hd] in H. apply Nat.eqb_neq in H. rewrite H. reflexivity. Qed.
  Lemma vec_word (ts : list text) vs : ts <> [] -> Forall (fun t => ~ In comma t /\ ~ In rbrace t) ts -> Forall2 (fun t a => elem t = Some a) (filter (fun t => negb (blank t)) ts) vs ->
    vec elem (S (length (commas ts ++ [rbrace]))) (commas ts ++ [rbrace]) = Some vs.
  Proof. intros N F V. apply vec_ok; try assumption; [rewrite app_length; pose proof (commas_length ts); cbn [length]; unfold text in *; lia|intros []]. Qed.
  Lemma no_star_vec (ts : list text) : Forall (fun t => ~ In star t) ts -> ~ In star (lbrace :: commas ts ++ [rbrace]).
  Proof.
    intros F [H|H]; [discriminate|]. apply in_app_iff in H. destruct H as [H|[H|[]]]; [|discriminate]. apply commas_in in H. destruct H as [H|(t & T1 & T2)]; [discriminate|].
    rewrite Forall_forall in F. exact (F t T1 T2).
  Qed.
  Lemma parse_vector (ts : list text) vs m size : ts <> [] -> Forall (fun t => ~ In comma t /\ ~ In rbrace t) ts -> Forall (fun t => ~ In star t) ts -> Forall2 (fun t a => elem t = Some a) (filter (fun t => negb (blank t)) ts) vs ->
    parse single elem convert (lbrace :: commas ts ++ rbrace :: star :: m) size = match convert m size with Some r => Some (vs, r) | _ => None end.
  Proof.
    intros N F S V. unfold parse. replace (lbrace :: commas ts ++ rbrace :: star :: m) with ((lbrace :: commas ts ++ [rbrace]) ++ star :: m) by (cbn [app]; rewrite <- app_assoc; reflexivity).
    rewrite split_times by (apply no_star_vec; exact S). rewrite Nat.eqb_refl, (vec_word ts vs) by assumption. reflexivity.
  Qed.
  Lemma parse_vector_once (ts : list text) vs size : ts <> [] -> Forall (fun t => ~ In comma t /\ ~ In rbrace t) ts -> Forall (fun t => ~ In star t) ts -> Forall2 (fun t a => elem t = Some a) (filter (fun t => negb (blank t)) ts) vs ->
    parse single elem convert (lbrace :: commas ts ++ [rbrace]) size = match convert [] size with Some r => Some (vs, r) | _ => None end.
  Proof. intros N F S V. unfold parse. rewrite split_once by (apply no_star_vec; exact S). rewrite Nat.eqb_refl, (vec_word ts vs) by assumption. reflexivity. Qed.

  (** * Filling of records *)
  Lemma nth_lset_same (D : list (list A)) i x : i < length D -> nth i (lset D i x) [] = x.
  Proof. intros H. apply nth_lset_eq. exact H. Qed.
  Lemma lset_twice {B} (D : list B) : forall i x y, lset (lset D i x) i y = lset D i y.
  Proof. induction D as [|d D IH]; intros [|i] x y; cbn; try reflexivity. rewrite IH. reflexivity. Qed.
  Lemma lset_split {B} (a : list B) x b y : lset (a ++ x :: b) (length a) y = a ++ y :: b.
  Proof. induction a as [|z a IH]; cbn; [reflexivity|]. rewrite IH. reflexivity. Qed.
  (** the values of one record *)
  Lemma fill_part sz n (a2 : list A) : forall k a1 old2 b it pre post, 0 < sz -> k mod sz = 0 -> length a1 + length a2 = sz -> length old2 = length a2 -> a2 <> [] -> length pre = it ->
    fill sz n (k + length a1) (a2 ++ b) it it (pre ++ (a1 ++ old2) :: post) = fill sz n (k + sz) b (S it) (if S it <? n then S it else it) (pre ++ (a1 ++ a2) :: post).
  Proof.
    induction a2 as [|v a2 IH]; intros k a1 old2 b it pre post P K L1 L2 N Li; [congruence|]. destruct old2 as [|o old2]; [discriminate|]. cbn [app fill].
    assert (M : (k + length a1) mod sz = length a1).
    { rewrite <- Nat.add_mod_idemp_l, K by lia. apply Nat.mod_small. cbn [length] in L1. lia. }
    rewrite M. subst it. rewrite nth_middle, lset_split, lset_split. cbn [length] in *. destruct a2 as [|v' a2].
    - replace (S (k + length a1) mod sz) with 0; [|replace (S (k + length a1)) with (k + 1 * sz) by (cbn [length] in L1; lia); rewrite Nat.mod_add by lia; lia]. rewrite Nat.eqb_refl.
      destruct old2; [|discriminate]. replace (S (k + length a1)) with (k + sz) by (cbn [length] in L1; lia). reflexivity.
    - replace (S (k + length a1) mod sz) with (S (length a1)); [|replace (S (k + length a1)) with (k + S (length a1)) by lia; rewrite <- Nat.add_mod_idemp_l, K by lia; symmetry; apply Nat.mod_small; cbn [length] in L1; lia].
      cbn [Nat.eqb]. replace (S (k + length a1)) with (k + length (a1 ++ [v])) by (rewrite app_length; cbn [length]; lia).
      replace (a1 ++ v :: old2) with ((a1 ++ [v]) ++ old2) by (rewrite <- app_assoc; reflexivity).
      rewrite (IH k (a1 ++ [v]) old2 b (length pre) pre post); try assumption; try reflexivity; [|rewrite app_length; cbn [length] in *; lia|cbn [length] in *; lia|discriminate].
      rewrite <- app_assoc. reflexivity.
  Qed.
  (** records of [sz] values each *)
  Lemma fill_records sz n (recs : list (list A)) : forall k it pre olds post, 0 < sz -> k mod sz = 0 -> Forall (fun r : list A => length r = sz) recs -> Forall (fun r : list A => length r = sz) olds -> length olds = length recs -> length pre = it ->
    length pre + length olds + length post = n ->
    fill sz n k (concat recs) it it (pre ++ olds ++ post) = (it + length recs, pre ++ recs ++ post).
  Proof.
    induction recs as [|r recs IH]; intros k it pre olds post P K F1 F2 L Li Ln.
    - destruct olds; [|discriminate]. cbn. rewrite Nat.add_0_r. reflexivity.
    - destruct olds as [|o olds]; [discriminate|]. inversion F1; subst. inversion F2; subst. cbn [concat app]. rewrite <- (Nat.add_0_r k).
      change (o :: olds ++ post) with (([] ++ o) :: (olds ++ post)). change 0 with (length (@nil A)) at 1.
      rewrite (fill_part (length r) _ r k [] o (concat recs) (length pre) pre (olds ++ post)); try assumption; try reflexivity; [|destruct r; [cbn in P; lia|discriminate]].
      cbn [app]. destruct recs as [|r' recs].
      + destruct olds; [|discriminate]. cbn. f_equal. lia.
      + cbn [length] in L. destruct olds as [|o' olds]; [discriminate|]. replace (S (length pre) <? length pre + length (o :: o' :: olds) + length post) with true by (symmetry; apply Nat.ltb_lt; cbn [length]; lia).
        pose proof (IH (k + length r) (S (length pre)) (pre ++ [r]) (o' :: olds) post) as X. rewrite <- !app_assoc in X. cbn [app] in X. cbn [app].
        rewrite X; try assumption; [|rewrite <- Nat.add_mod_idemp_l, K by lia; rewrite Nat.add_0_l; apply Nat.mod_same; lia|cbn [length] in *; lia|rewrite app_length; cbn [length]; lia|rewrite app_length; cbn [length] in *; lia].
        f_equal. cbn [length]. lia.
  Qed.
  (** every list of a multiple of [sz] values consists of records *)
  Lemma records_of sz j : forall F : list A, length F = j * sz -> exists recs, F = concat recs /\ Forall (fun r : list A => length r = sz) recs /\ length recs = j.
  Proof.
    induction j as [|j IH]; intros F L.
    - exists []. destruct F; [|discriminate]. repeat constructor.
    - destruct (IH (skipn sz F)) as (recs & E & Fr & Lr); [rewrite skipn_length; cbn in L; lia|]. exists (firstn sz F :: recs). cbn [concat]. rewrite <- E, firstn_skipn. split; [reflexivity|]. split; [|cbn; lia].
      constructor; [rewrite firstn_length; cbn in L; lia|exact Fr].
  Qed.
  Definition flat_eq (V : list A) R : flat V R = times_list (Z.to_nat R) V.
  Proof. unfold flat. induction (Z.to_nat R) as [|k IH]; [reflexivity|]. cbn. rewrite IH. reflexivity. Qed.
  Lemma put_fixed sz ws : forall size vrs done rest, 0 < sz -> Forall (fun r : list A => length r = sz) rest ->
    Forall2 (fun w p => parse single elem convert w size = Some p) ws vrs ->
    Forall (fun p => flat (fst p) (snd p) <> [] /\ exists j, length (flat (fst p) (snd p)) = j * sz) vrs ->
    length (concat (map (fun p => flat (fst p) (snd p)) vrs)) <= length rest * sz ->
    exists recs, Forall (fun r : list A => length r = sz) recs /\ concat recs = concat (map (fun p => flat (fst p) (snd p)) vrs) /\ length recs <= length rest /\
      put_words single elem convert (Some sz) size ws (length done) (done ++ rest) = Some (done ++ recs ++ skipn (length recs) rest).
  Proof.
    induction ws as [|w ws IH]; intros size vrs done rest P Fr W J L; inversion W as [|? p ? vrs' E W']; subst.
    - exists []. repeat split; try constructor; cbn; try reflexivity; lia.
    - inversion J as [|? ? (N & j & Lj) J']; subst. cbn [map concat] in L |- *. rewrite app_length, Lj in L. destruct p as [V R]. cbn [fst snd] in *.
      destruct (records_of sz j (flat V R) Lj) as (recs & E1 & F1 & L1). assert (Hj : j <= length rest) by nia.
      destruct (IH size vrs' (done ++ recs) (skipn j rest) P) as (recs' & G1 & G2 & G3 & G4); try assumption.
      { rewrite <- (firstn_skipn j rest) in Fr. apply Forall_app in Fr. tauto. }
      { rewrite skipn_length. nia. }
      exists (recs ++ recs'). rewrite skipn_length in G3. split; [apply Forall_app; split; assumption|]. split; [rewrite concat_app, G2, <- E1; reflexivity|]. split; [rewrite app_length; lia|].
      cbn [put_words]. rewrite E. unfold put_dense. assert (1 <= j) by (destruct j; [|lia]; destruct (flat V R); [congruence|discriminate]).
      replace (length done <? length (done ++ rest)) with true by (symmetry; apply Nat.ltb_lt; rewrite app_length; lia).
      rewrite E1. rewrite <- (firstn_skipn j rest) at 2. rewrite (fill_records sz _ recs 0 (length done) done (firstn j rest) (skipn j rest)); try assumption; try reflexivity.
      + rewrite L1. replace (length done + j) with (length (done ++ recs)) by (rewrite app_length; lia). rewrite app_assoc, G4. f_equal. rewrite !app_length, L1, <- !app_assoc. do 2 f_equal.
        rewrite skipn_twice. reflexivity.
      + apply Nat.mod_0_l. lia.
      + rewrite <- (firstn_skipn j rest) in Fr. apply Forall_app in Fr. tauto.
      + rewrite firstn_length. lia.
      + rewrite firstn_length, skipn_length, app_length. lia.
  Qed.
  Lemma put_variable ws : forall size vrs done rest, Forall2 (fun w p => parse single elem convert w size = Some p) ws vrs -> Forall (fun p : list A * Z => (0 <= snd p)%Z) vrs -> length vrs <= length rest ->
    put_words single elem convert None size ws (length done) (done ++ rest) = Some (done ++ map (fun p => flat (fst p) (snd p)) vrs ++ skipn (length vrs) rest).
  Proof.
    induction ws as [|w ws IH]; intros size vrs done rest W J L; inversion W as [|? p ? vrs' E W']; subst; [reflexivity|]. inversion J as [|? ? P J']; subst. destruct p as [V R]. cbn [snd] in P.
    destruct rest as [|o rest]; [cbn in L; lia|]. cbn [put_words]. rewrite E. unfold put_dense. replace (length done <? length (done ++ o :: rest)) with true by (symmetry; apply Nat.ltb_lt; rewrite app_length; cbn [length]; lia).
    replace (R <? 0)%Z with false by (symmetry; apply Z.ltb_ge; exact P). rewrite lset_split. replace (S (length done)) with (length (done ++ [flat V R])) by (rewrite app_length; cbn; lia).
    replace (done ++ flat V R :: rest) with ((done ++ [flat V R]) ++ rest) by (rewrite <- app_assoc; reflexivity). rewrite (IH size vrs' (done ++ [flat V R]) rest) by (try assumption; cbn [length] in L; lia).
    rewrite <- app_assoc. reflexivity.
  Qed.
End DataP.

(** * Writing and reading back *)
Definition itemized (T : text) (Ws : list text) : Prop :=
  exists ws l, spaces ws /\ items_ok l /\ T = ws ++ items_text l /\ map (fun p => item_word (fst p)) l = Ws.
Lemma itemized_spaces s : spaces s -> itemized s [].
Proof. intros H. exists s, []. cbn. rewrite app_nil_r. repeat split; [exact H|constructor]. Qed.
Lemma itemized_pre s T Ws : spaces s -> itemized T Ws -> itemized (s ++ T) Ws.
Proof. intros H (ws & l & H1 & H2 & -> & H4). exists (s ++ ws), l. rewrite <- app_assoc. repeat split; [apply Forall_app; split; assumption|exact H2|exact H4]. Qed.
Lemma itemized_item i s T Ws : item_ok i -> spaces s -> s <> [] -> itemized T Ws -> itemized (item_text i ++ s ++ T) (item_word i :: Ws).
Proof.
  intros O H N (ws & l & H1 & H2 & -> & H4). exists [], ((i, s ++ ws) :: l). cbn [app items_text map fst]. repeat split; [constructor| |rewrite <- !app_assoc; reflexivity|rewrite H4; reflexivity].
  constructor; [|exact H2]. cbn [fst snd]. split; [exact O|]. split; [apply Forall_app; split; assumption|]. intros E. destruct s; [congruence|discriminate].
Qed.
Lemma itemized_words T Ws r : itemized T Ws -> words (T ++ text_of "]]>" ++ r) = Some (Ws, ch ">" :: r).
Proof. intros (ws & l & H1 & H2 & -> & <-). rewrite <- app_assoc. apply words_ok; assumption. Qed.
Lemma itemized_pairs T Ws r n : itemized T Ws -> length Ws = n + n -> pairs (T ++ text_of "]]>" ++ r) = Some (pairs_of Ws, ch ">" :: r).
Proof. intros (ws & l & H1 & H2 & -> & <-) L. rewrite <- app_assoc. apply (pairs_ok l ws r n); try assumption. rewrite map_length in L. exact L. Qed.
Lemma newline_spaces : spaces newline.
Proof. unfold spaces, newline, space. repeat constructor; cbn; tauto. Qed.
Lemma sep_spaces c : spaces (fst (separator c)) /\ fst (separator c) <> [].
Proof. unfold separator. destruct (8 <? c); cbn [fst]; (split; [|discriminate]); [exact newline_spaces|]. unfold spaces, space, sp. repeat constructor; cbn; tauto. Qed.

Lemma clean_in t c : clean t -> In c t -> is_space c = false /\ c <> comma /\ c <> lbrace /\ c <> rbrace /\ c <> star /\ c <> quote /\ c <> rbrack.
Proof.
  intros (N & S & W) H. split; [apply is_space_no, S, H|]. repeat split; intros ->.
  - apply (W ","%char); cbn; tauto.
  - apply (W "{"%char); cbn; tauto.
  - apply (W "}"%char); cbn; tauto.
  - apply (W "*"%char); cbn; tauto.
  - apply (W """"%char); cbn; tauto.
  - apply (W "]"%char); cbn; tauto.
Qed.
Lemma clean_not_blank t : clean t -> blank t = false.
Proof. intros C. destruct t as [|c t]; [destruct C; congruence|]. unfold blank. cbn [forallb]. destruct (clean_in _ c C) as (E & _); [left; reflexivity|]. rewrite E. reflexivity. Qed.
Lemma clean_plain t : clean t -> base_ok (Plain t).
Proof.
  intros C. pose proof C as (N & S & W). cbn [base_ok]. split; [exact N|]. split; [exact S|]. split; [intros c Hc; apply W; cbn in Hc |- *; intuition congruence|].
  destruct t as [|c t]; [congruence|]. cbn [hd]. destruct (clean_in _ c C) as (_ & _ & E1 & _ & _ & E2 & _); [left; reflexivity|]. split; [exact E1|exact E2].
Qed.
Section WriterP.
  Context {A : Type} (show : A -> text).
  Lemma join_commas l : join show l = commas (map show l).
  Proof. induction l as [|a l IH]; [reflexivity|]. destruct l as [|b l]; [reflexivity|]. change (join show (a :: b :: l)) with (show a ++ comma :: join show (b :: l)). rewrite IH. reflexivity. Qed.
  Lemma join_chars l c : Forall (fun a => clean (show a)) l -> In c (join show l) -> is_space c = false /\ c <> rbrace /\ c <> rbrack /\ c <> star.
  Proof.
    intros F H. rewrite join_commas in H. apply commas_in in H. destruct H as [-> |(t & T1 & T2)]; [repeat split; discriminate|].
    apply in_map_iff in T1. destruct T1 as (a & <- & Ha). rewrite Forall_forall in F. destruct (clean_in _ c (F a Ha) T2) as (X1 & X2 & X3 & X4 & X5 & X6 & X7). repeat split; assumption.
  Qed.
  Lemma squeeze_id t : (forall c, In c t -> is_space c = false) -> squeeze t = t.
  Proof. induction t as [|c t IH]; intros H; [reflexivity|]. rewrite squeeze_cons, (H c) by (left; reflexivity). rewrite IH; [reflexivity|]. intros d Hd. apply H. right. exact Hd. Qed.
  (** the word for a record *)
  Definition rword (d : list A) : text := match d with [a] => show a | _ => lbrace :: commas (map show d) ++ [rbrace] end.
  Definition ritem (d : list A) : item := match d with [] => (Braces [sp], Once) | [a] => (Plain (show a), Once) | _ => (Braces (join show d), Once) end.
  Lemma ritem_ok d : Forall (fun a => clean (show a)) d -> item_ok (ritem d) /\ item_word (ritem d) = rword d /\ (d <> [] -> item_text (ritem d) = record show d).
  Proof.
    intros F. destruct d as [|a [|b d]].
    - split; [|split; [reflexivity|congruence]]. split; [|exact I]. cbn. intros c Hc. cbn in Hc. cbn. intuition (subst; discriminate).
    - inversion F; subst. split; [|split; [apply app_nil_r|intros _; apply app_nil_r]]. split; [|exact I]. apply clean_plain. assumption.
    - set (l := a :: b :: d) in *. assert (E : ritem l = (Braces (join show l), Once)) by reflexivity. rewrite E. split; [|split].
      + split; [|exact I]. intros c Hc HI. destruct (join_chars l _ F HI) as (_ & E1 & E2 & _). cbn in Hc. destruct Hc as [<-|[<-|[]]]; [apply E1|apply E2]; reflexivity.
      + unfold item_word. cbn [fst snd base_word times_word]. rewrite app_nil_r, squeeze_id by (intros c Hc; apply (join_chars l c F Hc)). rewrite join_commas. reflexivity.
      + intros _. unfold item_text. cbn [fst snd base_text times_text]. rewrite app_nil_r. reflexivity.
  Qed.
  Lemma dense_itemized D : forall count, Forall (Forall (fun a => clean (show a))) D -> itemized (write_dense show count D ++ newline) (map rword D).
  Proof.
    induction D as [|d D IH]; intros count F; [apply itemized_spaces, newline_spaces|]. inversion F as [|? ? F1 F2]; subst. destruct (ritem_ok d F1) as (O & Ew & Et). cbn [map]. rewrite <- Ew.
    destruct d as [|a d].
    - change (write_dense show count ([] :: D)) with ([sp] ++ item_text (ritem []) ++ [sp] ++ write_dense show count D). rewrite <- !app_assoc.
      assert (S1 : spaces [sp]) by (unfold spaces, space, sp; repeat constructor; cbn; tauto).
      apply itemized_pre; [exact S1|]. apply itemized_item; [exact O|exact S1|discriminate|]. apply IH. exact F2.
    - cbn [write_dense]. pose proof (sep_spaces (count + length (a :: d))) as (S1 & S2). destruct (separator (count + length (a :: d))) as [s count']. cbn [fst] in *.
      rewrite <- Et by discriminate. rewrite <- !app_assoc. apply itemized_item; try assumption. apply IH. exact F2.
  Qed.
  (** the records of a sparse data set with their numbers *)
  Fixpoint numbered (i : nat) (D : list (option (list A))) : list (nat * list A) :=
    match D with
    | [] => []
    | Some (a :: l) :: D' => (i, a :: l) :: numbered (S i) D'
    | _ :: D' => numbered (S i) D'
    end.
  Definition pair_words (p : nat * list A) : list text := [show_uint (N.of_nat (fst p)); rword (snd p)].
  Lemma digits_clean n : clean (show_uint n).
  Proof.
    destruct (show_uint_ok n) as (ds & E & F & Ne & _). rewrite E. split; [exact Ne|]. rewrite Forall_forall in F. split.
    - intros c Hc. apply is_space_no, digit_not_space, F, Hc.
    - intros c Hc Hd. specialize (F _ Hd). apply is_digit_ok in F. cbn in Hc. repeat (destruct Hc as [<-|Hc]; [discriminate F|]). destruct Hc.
  Qed.
  Lemma sparse_itemized D : forall i count, Forall (fun d => Forall (fun a => clean (show a)) (match d with Some l => l | None => [] end)) D ->
    itemized (write_sparse show i count D ++ newline) (flat_map pair_words (numbered i D)).
  Proof.
    assert (S1 : spaces [sp]) by (unfold spaces, space, sp; repeat constructor; cbn; tauto).
    induction D as [|d D IH]; intros i count F; [apply itemized_spaces, newline_spaces|]. inversion F as [|? ? F1 F2]; subst. destruct d as [[|a l]|]; [apply IH; exact F2| |apply IH; exact F2].
    cbn [write_sparse numbered flat_map]. pose proof (sep_spaces (S count + length (a :: l))) as (T1 & T2). destruct (separator (S count + length (a :: l))) as [s count']. cbn [fst] in *.
    destruct (ritem_ok (a :: l) F1) as (O & Ew & Et). unfold pair_words at 1. cbn [fst snd app]. rewrite <- Ew, <- Et by discriminate.
    replace (show_uint (N.of_nat i)) with (item_word (Plain (show_uint (N.of_nat i)), Once)) at 2 by (apply app_nil_r).
    replace (show_uint (N.of_nat i) ++ sp :: item_text (ritem (a :: l)) ++ s ++ write_sparse show (S i) count' D) with
      (item_text (Plain (show_uint (N.of_nat i)), Once) ++ [sp] ++ item_text (ritem (a :: l)) ++ s ++ write_sparse show (S i) count' D) by (unfold item_text at 1; cbn [fst snd base_text times_text app]; rewrite app_nil_r; reflexivity).
    rewrite <- !app_assoc. apply itemized_item; [|exact S1|discriminate|].
    - split; [apply clean_plain, digits_clean|exact I].
    - apply itemized_item; try assumption. apply IH. exact F2.
  Qed.
  (** reading of the words *)
  Context (single : text -> option (list A)) (elem : text -> option A) (convert : text -> Z -> option Z).
  Definition readable (a : A) : Prop := clean (show a) /\ single (show a) = Some [a] /\ elem (show a) = Some a.
  Hypothesis convert_none : forall size, convert [] size = Some 1%Z.
  Lemma parse_rword d size : Forall readable d -> parse single elem convert (rword d) size = Some (d, 1%Z).
  Proof.
    intros F. assert (G : forall l, l = d -> l <> [] -> parse single elem convert (lbrace :: commas (map show l) ++ [rbrace]) size = Some (l, 1%Z)).
    { intros l -> N. rewrite (parse_vector_once single elem convert (map show d) d), convert_none; [reflexivity| | | |].
      - destruct d; [congruence|discriminate].
      - apply Forall_map. eapply Forall_impl; [|exact F]. intros a (C & _ & _). split; intros X; destruct (clean_in _ _ C X) as (_ & X1 & _ & X2 & _); congruence.
      - apply Forall_map. eapply Forall_impl; [|exact F]. intros a (C & _ & _) X. destruct (clean_in _ _ C X) as (_ & _ & _ & _ & X1 & _); congruence.
      - clear N. induction F as [|a l (C & _ & E) F IH]; [constructor|]. cbn [map filter]. rewrite clean_not_blank by exact C. cbn [negb]. constructor; [exact E|exact IH]. }
    destruct d as [|a [|b d]].
    - unfold rword. cbn. unfold parse. cbn. rewrite convert_none. reflexivity.
    - inversion F as [|? ? (C & E & _) _]; subst. cbn [rword]. rewrite parse_single_once, E, convert_none; [reflexivity| |].
      + intros X. destruct (clean_in _ _ C X) as (_ & _ & _ & _ & X1 & _); congruence.
      + destruct (show a) as [|c t]; [discriminate|]. destruct (clean_in _ c C) as (_ & _ & X1 & _); [left; reflexivity|exact X1].
    - apply (G (a :: b :: d)); [reflexivity|discriminate].
  Qed.
  Lemma flat_one (V : list A) : flat V 1 = V.
  Proof. unfold flat. cbn. apply app_nil_r. Qed.
  Lemma readable_clean D : Forall (Forall readable) D -> Forall (Forall (fun a => clean (show a))) D.
  Proof. intros F. eapply Forall_impl; [|exact F]. intros d Fd. eapply Forall_impl; [|exact Fd]. intros a (C & _). exact C. Qed.
  Lemma read_variable D D0 r : Forall (Forall readable) D -> length D0 = length D -> read_dense single elem convert None D0 (contents (write_dense show 0 D) ++ r) = Some (D, ch ">" :: r).
  Proof.
    intros F L. unfold read_dense, contents. replace ((newline ++ write_dense show 0 D ++ newline ++ str "]]>") ++ r) with ((newline ++ write_dense show 0 D ++ newline) ++ text_of "]]>" ++ r) by (rewrite <- !app_assoc; reflexivity).
    rewrite (itemized_words _ (map rword D)) by (apply itemized_pre; [exact newline_spaces|apply dense_itemized, readable_clean, F]).
    pose proof (put_variable single elem convert (map rword D) (Z.of_nat (length D0)) (map (fun d => (d, 1%Z)) D) [] D0) as X. cbn [app length] in X. rewrite X.
    - rewrite map_length, <- L, skipn_all, app_nil_r, map_map. cbn [fst snd]. do 2 f_equal. clear. induction D as [|d D IH]; [reflexivity|]. cbn [map]. rewrite flat_one, IH. reflexivity.
    - clear X. induction F as [|d D Fd F IH]; [constructor|]. cbn [map]. constructor; [apply parse_rword; exact Fd|]. clear IH L. induction F as [|d' D' Fd' F' IH]; [constructor|]. cbn [map]. constructor; [apply parse_rword; exact Fd'|exact IH].
    - apply Forall_map. apply Forall_forall. intros. cbn. lia.
    - rewrite map_length. lia.
  Qed.
  Lemma same_records sz : forall D E : list (list A), Forall (fun r => length r = sz) D -> Forall (fun r => length r = sz) E -> 0 < sz -> concat D = concat E -> D = E.
  Proof.
    induction D as [|d D IH]; intros E F1 F2 P H.
    - destruct E as [|e E]; [reflexivity|]. inversion F2; subst. cbn in H. symmetry in H. apply app_eq_nil in H. destruct H as [-> _]. cbn in P. lia.
    - inversion F1 as [|? ? Hd F1']; subst. destruct E as [|e E]; [cbn in H; apply app_eq_nil in H; destruct H as [-> _]; cbn in P; lia|]. inversion F2 as [|? ? He F2']; subst. cbn in H.
      assert (d = e /\ concat D = concat E) as [-> H'].
      { clear - He H. revert e He H. induction d as [|x d IHd]; intros [|y e] He H; try discriminate; [split; [reflexivity|exact H]|]. cbn in H. injection H as -> H. destruct (IHd e) as [-> G]; [cbn in He; lia|exact H|]. split; [reflexivity|exact G]. }
      f_equal. apply IH; assumption.
  Qed.
  Lemma read_fixed sz D D0 r : 0 < sz -> Forall (Forall readable) D -> Forall (fun d => length d = sz) D -> Forall (fun d => length d = sz) D0 -> length D0 = length D ->
    read_dense single elem convert (Some sz) D0 (contents (write_dense show 0 D) ++ r) = Some (D, ch ">" :: r).
  Proof.
    intros P F FD FD0 L. unfold read_dense, contents. replace ((newline ++ write_dense show 0 D ++ newline ++ str "]]>") ++ r) with ((newline ++ write_dense show 0 D ++ newline) ++ text_of "]]>" ++ r) by (rewrite <- !app_assoc; reflexivity).
    rewrite (itemized_words _ (map rword D)) by (apply itemized_pre; [exact newline_spaces|apply dense_itemized, readable_clean, F]).
    assert (Em : map (fun p => flat (fst p) (snd p)) (map (fun d => (d, 1%Z)) D) = D).
    { rewrite map_map. cbn [fst snd]. clear. induction D as [|d D IH]; [reflexivity|]. cbn [map]. rewrite flat_one, IH. reflexivity. }
    destruct (put_fixed single elem convert sz (map rword D) (Z.of_nat (length D0)) (map (fun d => (d, 1%Z)) D) [] D0) as (recs & R1 & R2 & R3 & R4); try assumption.
    - generalize (Z.of_nat (length D0)). clear L Em FD. intros z. induction F as [|d D Fd F IH]; [constructor|]. cbn [map]. constructor; [apply parse_rword; exact Fd|exact IH].
    - apply Forall_map. eapply Forall_impl; [|exact FD]. intros d Ld. cbn [fst snd]. rewrite flat_one. split; [intros E; cbn beta in Ld; rewrite E in Ld; cbn in Ld; lia|exists 1; cbn beta in Ld; lia].
    - rewrite Em, L. clear - FD. induction FD as [|d D Hd F IH]; [cbn; lia|]. cbn [concat length]. rewrite app_length. cbn beta in Hd. rewrite Nat.mul_succ_l. lia.
    - cbn [app length] in R4. rewrite R4, Em in *. assert (recs = D) as -> by (apply (same_records sz); assumption). rewrite <- L, skipn_all, app_nil_r. reflexivity.
  Qed.
  (** * Sparse data *)
  Definition drop_empty (d : option (list A)) : option (list A) := match d with Some [] => None | _ => d end.
  Lemma pairs_numbered l : pairs_of (flat_map pair_words l) = map (fun p => (show_uint (N.of_nat (fst p)), rword (snd p))) l.
  Proof. induction l as [|p l IH]; [reflexivity|]. cbn [flat_map pair_words app pairs_of map]. rewrite IH. reflexivity. Qed.
  Lemma put_numbered (index : text -> option Z) sz size D : (forall n, index (show_uint (N.of_nat n)) = Some (Z.of_nat n)) ->
    forall done, Forall (fun d => Forall readable (match d with Some l => l | None => [] end)) D -> (forall s, sz = Some s -> Forall (fun d => match d with Some (a :: l) => length (a :: l) = s | _ => True end) D) ->
    put_pairs single elem convert index sz size (map (fun p => (show_uint (N.of_nat (fst p)), rword (snd p))) (numbered (length done) D)) (done ++ repeat None (length D)) = Some (done ++ map drop_empty D).
  Proof.
    intros Hi. induction D as [|d D IH]; intros done F Z; [reflexivity|]. inversion F as [|? ? F1 F2]; subst. cbn [length repeat map].
    assert (Z' : forall s, sz = Some s -> Forall (fun d => match d with Some (a :: l) => length (a :: l) = s | _ => True end) D) by (intros s Hs; specialize (Z s Hs); inversion Z; assumption).
    assert (G : forall x, done ++ x :: repeat None (length D) = (done ++ [x]) ++ repeat None (length D)) by (intros; rewrite <- app_assoc; reflexivity).
    assert (Ln : forall x : option (list A), S (length done) = length (done ++ [x])) by (intros; rewrite app_length; cbn; lia).
    destruct d as [[|a l]|]; cbn [numbered drop_empty].
    - rewrite G, (Ln None), IH by assumption. rewrite <- app_assoc. reflexivity.
    - cbn [map put_pairs fst snd]. rewrite Hi, parse_rword by exact F1. unfold put_sparse. rewrite flat_one.
      replace (Z.of_nat (length done) <? 0)%Z with false by (symmetry; apply Z.ltb_ge; lia).
      replace (Z.of_nat (length (done ++ None :: repeat None (length D))) <=? Z.of_nat (length done))%Z with false by (symmetry; apply Z.leb_gt; rewrite app_length; cbn [length]; lia).
      replace (1 <? 0)%Z with false by reflexivity. cbn [orb]. replace (match sz with Some s => length (a :: l) =? s | None => true end) with true.
      + rewrite Nat2Z.id, lset_split, G, (Ln (Some (a :: l))), IH by assumption. rewrite <- app_assoc. reflexivity.
      + symmetry. destruct sz as [s|]; [|reflexivity]. specialize (Z s eq_refl). inversion Z. apply Nat.eqb_eq. assumption.
    - rewrite G, (Ln None), IH by assumption. rewrite <- app_assoc. reflexivity.
  Qed.
  Lemma read_sparse_ok index sz D r : (forall n, index (show_uint (N.of_nat n)) = Some (Z.of_nat n)) ->
    Forall (fun d => Forall readable (match d with Some l => l | None => [] end)) D -> (forall s, sz = Some s -> Forall (fun d => match d with Some (a :: l) => length (a :: l) = s | _ => True end) D) ->
    read_sparse single elem convert index sz (repeat None (length D)) (contents (write_sparse show 0 0 D) ++ r) = Some (map drop_empty D, ch ">" :: r).
  Proof.
    intros Hi F Z. unfold read_sparse, contents. replace ((newline ++ write_sparse show 0 0 D ++ newline ++ str "]]>") ++ r) with ((newline ++ write_sparse show 0 0 D ++ newline) ++ text_of "]]>" ++ r) by (rewrite <- !app_assoc; reflexivity).
    rewrite (itemized_pairs _ (flat_map pair_words (numbered 0 D)) r (length (numbered 0 D))).
    - rewrite pairs_numbered. pose proof (put_numbered index sz (Z.of_nat (length (repeat (@None (list A)) (length D)))) D Hi [] F Z) as X. cbn [app length] in X. rewrite X. reflexivity.
    - apply itemized_pre; [exact newline_spaces|]. apply sparse_itemized. eapply Forall_impl; [|exact F]. intros d Fd. cbn in Fd. destruct d as [l|]; [|constructor]. eapply Forall_impl; [|exact Fd]. intros a (C & _). exact C.
    - induction (numbered 0 D) as [|p l IH]; [reflexivity|]. cbn [flat_map pair_words app length]. rewrite IH. lia.
  Qed.
End WriterP.

(** * Texts of values *)
Lemma read_uint_all n : fst (fst (read_digits (show_uint n) 0 0)) = n.
Proof.
  destruct (show_uint_ok n) as (ds & E & F & _ & _ & V). rewrite E. rewrite <- (app_nil_r ds), read_digits_app by (try exact F; exact I). cbn [fst]. rewrite V. lia.
Qed.
Lemma atoi_uint n : atoi (show_uint n) = Z.of_N n.
Proof.
  pose proof (read_uint_all n) as R. destruct (show_uint_ok n) as (ds & E & F & Ne & _). rewrite E in *. destruct ds as [|d ds]; [congruence|]. assert (D : 48 <= d <= 57) by exact (Forall_inv F). unfold atoi.
  rewrite skip_ws_id by (apply digit_not_space; exact D).
  replace (d =? minus) with false by (symmetry; apply Nat.eqb_neq; unfold minus; lia). replace (d =? plus) with false by (symmetry; apply Nat.eqb_neq; unfold plus; lia). rewrite R. reflexivity.
Qed.
Lemma atoi_int z : atoi (show_int z) = z.
Proof.
  destruct z as [|p|p]; cbn [show_int]; [reflexivity|rewrite atoi_uint; reflexivity|]. unfold atoi. rewrite skip_ws_id by reflexivity. rewrite Nat.eqb_refl, read_uint_all. reflexivity.
Qed.
Lemma show_int_clean z : clean (show_int z).
Proof.
  destruct z as [|p|p]; cbn [show_int]; try apply digits_clean. destruct (digits_clean (Npos p)) as (N & S & W). split; [discriminate|]. split; [apply no_space_cons; split; [reflexivity|exact S]|].
  apply without_cons. split; [|exact W]. intros x Hx. cbn in Hx. repeat (destruct Hx as [<-|Hx]; [discriminate|]). destruct Hx.
Qed.
(** all bytes *)
Definition byte_ok (c : nat) : bool := (atoc (hexchar (c / 16 mod 16)) (hexchar (c mod 16)) =? c) && forallb (fun x => (48 <=? x) && (x <=? 70) && negb (x =? 58)) (char_to_hex c).
Lemma all_bytes : forallb byte_ok (seq 0 256) = true.
Proof. vm_compute. reflexivity. Qed.
Lemma byte_all c : c < 256 -> atoc (hexchar (c / 16 mod 16)) (hexchar (c mod 16)) = c /\ Forall (fun x => 48 <= x <= 70) (char_to_hex c).
Proof.
  intros H. pose proof all_bytes as X. rewrite forallb_forall in X. specialize (X c). unfold byte_ok in X. rewrite andb_true_iff, Nat.eqb_eq, forallb_forall in X. destruct X as [X1 X2]; [apply in_seq; lia|]. split; [exact X1|].
  apply Forall_forall. intros x Hx. specialize (X2 x Hx). rewrite !andb_true_iff, !Nat.leb_le in X2. tauto.
Qed.
Lemma byte_readable c : c < 256 -> readable char_to_hex bulk_single bulk_elem c.
Proof.
  intros H. destruct (byte_all c H) as (E & F). assert (C : clean (char_to_hex c)).
  { rewrite Forall_forall in F. split; [discriminate|]. split; [intros x Hx; specialize (F x Hx); unfold space; cbn; lia|]. intros x Hx Hd. specialize (F _ Hd). cbn in Hx. repeat (destruct Hx as [<-|Hx]; [cbn in F; lia|]). destruct Hx. }
  split; [exact C|]. split; [|unfold bulk_elem, char_to_hex; cbn [nth]; rewrite E; reflexivity].
  unfold bulk_single. replace (hd 0 (char_to_hex c) =? quote) with false; [|symmetry; apply Nat.eqb_neq; inversion F; cbn; unfold quote; cbn in *; lia]. unfold char_to_hex. cbn [length Nat.leb andb]. replace (2 mod 2 =? 0) with true by reflexivity. cbn [bytes]. rewrite E. reflexivity.
Qed.
Lemma int_readable z : readable show_int int_single int_elem z.
Proof. split; [apply show_int_clean|]. unfold int_single, int_elem. rewrite atoi_int. split; reflexivity. Qed.
(** references *)
Definition element_type (ty : Z) : Prop := In ty [NODE; EDGE; FACE; CELL; ESET].
Lemma atoh_show ty p : In ty [NODE; EDGE; FACE; CELL; ESET; MESH] -> atoh (show_reference (ty, p)) = (ty, p).
Proof.
  intros H. assert (G : exists nm, show_reference (ty, p) = nm ++ colon :: show_int p /\ ~ In colon nm /\ atoe nm = ty /\ nm <> str "None").
  { exists (removelast (type_name ty)). unfold colon. cbn [In] in H. destruct H as [<-|[<-|[<-|[<-|[<-|[<-|[]]]]]]]; (split; [reflexivity|]; split; [cbn; lia|]; split; [reflexivity|discriminate]). }
  destruct G as (nm & E & G1 & G2 & G3). rewrite E. unfold atoh.
  assert (T1 : text_eqb (nm ++ colon :: show_int p) (str "None") = false).
  { unfold text_eqb. destruct (list_eq_dec _ _ _) as [X|X]; [|reflexivity]. exfalso. assert (Y : In colon (str "None")) by (rewrite <- X; apply in_app_iff; right; left; reflexivity). cbn in Y. unfold colon in Y. lia. }
  assert (T2 : text_eqb (nm ++ colon :: show_int p) (str "None:0") = false).
  { unfold text_eqb. destruct (list_eq_dec _ _ _) as [X|X]; [|reflexivity]. exfalso. apply G3. assert (Y : cut colon (nm ++ colon :: show_int p) = cut colon (str "None:0")) by (rewrite X; reflexivity).
    rewrite cut_some in Y by exact G1. cbn in Y. injection Y as Y _. exact Y. }
  rewrite T1, T2, cut_some by exact G1. rewrite G2, atoi_int. reflexivity.
Qed.
Lemma clean_app_int nm p : (forall x, In x nm -> 58 <= x <= 122 /\ x <> 93) -> clean (nm ++ show_int p).
Proof.
  intros H. destruct (show_int_clean p) as (N & S & W). split; [intros E; apply app_eq_nil in E; destruct E; congruence|]. split.
  - intros x Hx. apply in_app_iff in Hx. destruct Hx as [Hx|Hx]; [specialize (H x Hx); unfold space; cbn; lia|exact (S x Hx)].
  - intros x Hx Hd. apply in_app_iff in Hd. destruct Hd as [Hd|Hd]; [|exact (W x Hx Hd)]. specialize (H _ Hd). cbn in Hx. repeat (destruct Hx as [<-|Hx]; [cbn in H; lia|]). destruct Hx.
Qed.
Lemma ref_readable r : In (fst r) [NODE; EDGE; FACE; CELL; ESET; MESH] \/ r = (NONE, 0%Z) -> readable show_reference ref_single ref_elem r.
Proof.
  intros [H| ->].
  - destruct r as [ty p]. cbn [fst] in H. split; [|unfold ref_single, ref_elem; rewrite atoh_show by exact H; split; reflexivity].
    cbn in H. repeat (destruct H as [<-|H]; [apply (clean_app_int (type_name _)); intros x Hx; cbn in Hx; lia|]). destruct H.
  - split; [|split; reflexivity]. split; [discriminate|]. split; [intros x Hx; cbn in Hx; unfold space; cbn; lia|]. intros x Hx Hd. cbn in Hx. cbn in Hd. repeat (destruct Hx as [<-|Hx]; [cbn in Hd; lia|]). destruct Hx.
Qed.
(** remote references *)
Lemma atorh_show mesh ty p : ~ In colon mesh -> In ty [NODE; EDGE; FACE; CELL; ESET; MESH] -> atorh (show_remote mesh (ty, p)) = (mesh, (NONE, p)).
Proof.
  intros M H. assert (G : exists nm, show_remote mesh (ty, p) = mesh ++ colon :: nm ++ colon :: show_int p /\ ~ In colon nm /\ atoe (nm ++ [colon]) = NONE /\ nm <> str "None").
  { exists (removelast (type_name ty)). unfold colon. cbn [In] in H. destruct H as [<-|[<-|[<-|[<-|[<-|[<-|[]]]]]]]; (split; [reflexivity|]; split; [cbn; lia|]; split; [reflexivity|discriminate]). }
  destruct G as (nm & E & G1 & G2 & G3). rewrite E. unfold atorh.
  assert (T1 : text_eqb (mesh ++ colon :: nm ++ colon :: show_int p) (str "None") = false).
  { unfold text_eqb. destruct (list_eq_dec _ _ _) as [X|X]; [|reflexivity]. exfalso. assert (Y : In colon (str "None")) by (rewrite <- X; apply in_app_iff; right; left; reflexivity). cbn in Y. unfold colon in Y. lia. }
  assert (T2 : text_eqb (mesh ++ colon :: nm ++ colon :: show_int p) (str ":None:0") = false).
  { unfold text_eqb. destruct (list_eq_dec _ _ _) as [X|X]; [|reflexivity]. exfalso. apply G3. assert (Y : cut colon (mesh ++ colon :: nm ++ colon :: show_int p) = cut colon (str ":None:0")) by (rewrite X; reflexivity).
    rewrite cut_some in Y by exact M. cbn in Y. injection Y as _ Y. assert (Y' : cut colon (nm ++ colon :: show_int p) = cut colon (str "None:0")) by (rewrite Y; reflexivity). rewrite cut_some in Y' by exact G1. cbn in Y'. injection Y' as Y' _. exact Y'. }
  rewrite T1, T2, cut_some by exact M. rewrite cut_some by exact G1. rewrite G2, atoi_int. reflexivity.
Qed.
(** * The end is never found *)
Lemma word_no_gt inp : forall st te ret, ~ In gt inp -> match word st te ret inp with Ended _ _ => False | Word _ rest => ~ In gt rest | NoEnd => True end.
Proof.
  induction inp as [|c inp IH]; intros st te ret H; [exact I|]. assert (G : c <> gt) by (intros ->; apply H; left; reflexivity). assert (H' : ~ In gt inp) by (intros F; apply H; right; exact F).
  cbn [word]. replace (c =? gt) with false by (symmetry; apply Nat.eqb_neq; exact G). cbn [andb].
  destruct st; repeat match goal with |- context [if ?b then _ else _] => match b with context [if _ then _ else _] => fail 1 | _ => destruct b end end; try exact H'; try apply IH; try exact H'.
Qed.
Lemma words_no_gt fuel : forall inp, ~ In gt inp -> words_fuel fuel inp = None.
Proof.
  induction fuel as [|fuel IH]; intros inp H; [reflexivity|]. cbn [words_fuel]. pose proof (word_no_gt inp Wait 0 [] H) as X. unfold get_word. destruct (word Wait 0 [] inp); [|contradiction|reflexivity].
  rewrite IH by exact X. reflexivity.
Qed.

(** * Variables *)
Lemma strip_id t : no_space t -> strip t = t.
Proof.
  assert (K : forall u, no_space u -> skip_ws u = u) by (intros [|c u] H; [reflexivity|]; apply no_space_cons in H; destruct H as [H _]; cbn [skip_ws]; rewrite H; reflexivity).
  intros H. unfold strip. rewrite (K t H), K; [apply rev_involutive|]. intros c Hc. apply H. apply in_rev. exact Hc.
Qed.
Definition tailsemis (ts : list text) : text := flat_map (fun t => semicolon :: t) ts.
Lemma separated_ok ts : forall t fuel, length ts < fuel -> Forall (fun t => ~ In semicolon t /\ no_space t) (t :: ts) -> separated fuel semicolon (t ++ tailsemis ts) = t :: ts.
Proof.
  induction ts as [|u ts IH]; intros t fuel L F; (destruct fuel as [|fuel]; [lia|]); inversion F as [|? ? [F1 F2] F3]; subst; cbn [separated].
  - cbn [tailsemis flat_map]. rewrite app_nil_r, cut_none by exact F1. rewrite strip_id by exact F2. reflexivity.
  - change (tailsemis (u :: ts)) with (semicolon :: u ++ tailsemis ts). rewrite cut_some by exact F1. rewrite strip_id by exact F2. rewrite IH; [reflexivity|cbn [length] in L; lia|exact F3].
Qed.
Section VariableP.
  Context {num : Type} (atof : text -> num) (show : num -> text).
  Definition seg (p : num * N) : list text := [show (fst p); show_uint (snd p)].
  Lemma derivatives_segs l : show_derivatives show l = tailsemis (flat_map seg l).
  Proof. induction l as [|[d i] l IH]; [reflexivity|]. cbn [show_derivatives flat_map seg fst snd app]. rewrite IH. reflexivity. Qed.
  Lemma seg_length l : length (flat_map seg l) = 2 * length l.
  Proof. induction l as [|p l IH]; [reflexivity|]. cbn [flat_map seg app length]. rewrite IH. lia. Qed.
  Lemma seg_nth l : forall m p, nth_error l m = Some p -> nth_error (flat_map seg l) (2 * m) = Some (show (fst p)) /\ nth_error (flat_map seg l) (S (2 * m)) = Some (show_uint (snd p)).
  Proof.
    induction l as [|q l IH]; intros [|m] p H; try discriminate; cbn [nth_error] in H.
    - injection H as ->. split; reflexivity.
    - destruct (IH m p H) as [I1 I2]. replace (2 * S m) with (S (S (2 * m))) by lia. cbn [flat_map seg app nth_error]. split; assumption.
  Qed.
  Lemma set_entries_ok d f : forall q es, length es <= q + 2 * f -> S (length es) <= length d -> exists es', set_entries atof f q d es = Some es' /\ length es' = length es /\
    forall j, j < length es -> nth_error es' j = if (q <=? j) && Nat.even (j - q) then match nth_error d j, nth_error d (S j) with Some a, Some b => Some (atof a, atoi b) | _, _ => None end else nth_error es j.
  Proof.
    induction f as [|f IH]; intros q es L Ld; cbn [set_entries].
    - exists es. split; [reflexivity|]. split; [reflexivity|]. intros j Hj. replace (q <=? j) with false by (symmetry; apply Nat.leb_gt; lia). reflexivity.
    - destruct (Nat.ltb_spec q (length es)).
      + destruct (nth_error d q) as [a|] eqn:Ea; [|apply nth_error_None in Ea; lia]. destruct (nth_error d (S q)) as [b|] eqn:Eb; [|apply nth_error_None in Eb; lia].
        destruct (IH (q + 2) (lset es q (atof a, atoi b))) as (es' & E1 & E2 & E3); [rewrite lset_length; lia|rewrite lset_length; lia|]. rewrite lset_length in *. exists es'. split; [exact E1|]. split; [exact E2|].
        intros j Hj. rewrite E3 by exact Hj. destruct (Nat.eq_dec j q) as [->|Nq].
        * replace (q + 2 <=? q) with false by (symmetry; apply Nat.leb_gt; lia). cbn [andb]. rewrite nth_error_lset_eq by lia. rewrite Nat.leb_refl, Nat.sub_diag, Ea, Eb. reflexivity.
        * rewrite nth_error_lset_ne by lia. destruct (Nat.leb_spec (q + 2) j).
          -- replace (q <=? j) with true by (symmetry; apply Nat.leb_le; lia). replace (j - q) with (S (S (j - (q + 2)))) by lia. cbn [Nat.even]. reflexivity.
          -- cbn [andb]. destruct (Nat.leb_spec q j); [|reflexivity]. replace (j - q) with 1 by lia. reflexivity.
      + exists es. split; [reflexivity|]. split; [reflexivity|]. intros j Hj. replace (q <=? j) with false by (symmetry; apply Nat.leb_gt; lia). reflexivity.
  Qed.
  Hypothesis good : forall x, atof (show x) = x /\ ~ In semicolon (show x) /\ no_space (show x).
  Lemma uint_seg n : ~ In semicolon (show_uint n) /\ no_space (show_uint n).
  Proof.
    destruct (digits_clean n) as (_ & S & _). split; [|exact S]. intros H. destruct (show_uint_ok n) as (ds & E & F & _). rewrite E in H. rewrite Forall_forall in F. specialize (F _ H). unfold digit_char, semicolon in F. lia.
  Qed.
  Lemma atov_ok fresh x l : exists es, atov atof fresh (show_variable show (x, l)) = Some (x, es) /\ length es = length l /\
    forall j, j < length l -> nth_error es j = if (2 <=? j) && Nat.even j then match nth_error l ((j - 2) / 2) with Some p => Some (fst p, Z.of_N (snd p)) | None => None end else Some fresh.
  Proof.
    unfold show_variable. cbn [fst snd]. set (body := show x ++ semicolon :: show_uint (N.of_nat (length l)) ++ show_derivatives show l).
    assert (Eb : lpar :: show x ++ semicolon :: show_uint (N.of_nat (length l)) ++ show_derivatives show l ++ [rpar] = lpar :: body ++ [rpar]) by (unfold body; rewrite <- !app_assoc; cbn [app]; rewrite <- !app_assoc; reflexivity).
    rewrite Eb. unfold atov. cbn [tl]. rewrite removelast_last.
    assert (Es : separated (S (length (lpar :: body ++ [rpar]))) semicolon body = show x :: show_uint (N.of_nat (length l)) :: flat_map seg l).
    { unfold body. rewrite derivatives_segs. change (semicolon :: show_uint (N.of_nat (length l)) ++ tailsemis (flat_map seg l)) with (tailsemis (show_uint (N.of_nat (length l)) :: flat_map seg l)). apply separated_ok.
      - cbn [length tailsemis flat_map]. repeat first [rewrite app_length | progress cbn [length]]. assert (T : forall ts, length ts <= length (tailsemis ts)) by (clear; induction ts as [|t ts IH]; [cbn; lia|]; cbn [tailsemis flat_map length app]; rewrite app_length; fold (tailsemis ts); lia).
        specialize (T (flat_map seg l)). fold (tailsemis (flat_map seg l)). unfold text in T |- *. lia.
      - constructor; [apply good|]. constructor; [apply uint_seg|]. apply Forall_forall. intros t Ht. apply in_flat_map in Ht. destruct Ht as (p & _ & [<-|[<-|[]]]); [apply good|apply uint_seg]. }
    rewrite Es. cbn [nth_error]. rewrite atoi_uint, nat_N_Z, Nat2Z.id. destruct (good x) as (Gx & _). rewrite Gx.
    set (d := show x :: show_uint (N.of_nat (length l)) :: flat_map seg l).
    destruct (set_entries_ok d (length l) 2 (repeat fresh (length l))) as (es & E1 & E2 & E3); [rewrite repeat_length; lia|unfold d; cbn [length]; rewrite repeat_length, seg_length; lia|].
    rewrite repeat_length in *. rewrite E1. exists es. split; [reflexivity|]. split; [exact E2|]. intros j Hj. rewrite E3 by exact Hj. destruct (Nat.leb_spec 2 j); [|cbn [andb]; apply nth_error_repeat; exact Hj].
    replace (Nat.even j) with (Nat.even (j - 2)) by (replace j with (S (S (j - 2))) at 2 by lia; reflexivity). cbn [andb]. destruct (Nat.even (j - 2)) eqn:Ev; [|apply nth_error_repeat; exact Hj].
    apply Nat.even_spec in Ev. destruct Ev as [m Em]. replace j with (S (S (2 * m))) by lia. change (nth_error d (S (S (2 * m)))) with (nth_error (flat_map seg l) (2 * m)). change (nth_error d (S (S (S (2 * m))))) with (nth_error (flat_map seg l) (S (2 * m))). replace (S (S (2 * m)) - 2) with (m * 2) by lia. rewrite Nat.div_mul by lia.
    destruct (nth_error l m) as [p|] eqn:Ep; [|apply nth_error_None in Ep; lia]. destruct (seg_nth l m p Ep) as [N1 N2]. rewrite N1, N2. destruct (good (fst p)) as (Gp & _). rewrite Gp, atoi_uint. reflexivity.
  Qed.
End VariableP.
