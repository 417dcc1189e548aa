(** Proofs about the interpreter of expressions. *)
From Coq Require Import Ascii String.
From Coq Require Import List Arith NArith ZArith Bool Lia.
From Verif Require Import Mtx_Model Mtx_Spec Mtx_Proofs Expr_Model Expr_Spec.
Import ListNotations.

Definition single (c : nat) : text := [c].
Definition op_of (o : bop) : nat := match o with Add => plus | Sub => minus | Mul => star | Div => slash end.
Lemma sign_op o : sign o = op_of o. Proof. destruct o; reflexivity. Qed.
Lemma special_prio c : special c <-> prio c <> None.
Proof.
  unfold special, prio, lpar, rpar, plus, minus, star, slash, tilde. cbn [map In]. change (code "(") with 40. change (code ")") with 41. change (code "+") with 43. change (code "-") with 45.
  change (code "*") with 42. change (code "/") with 47. change (code "~") with 126.
  destruct (Nat.eqb_spec c 40), (Nat.eqb_spec c 41), (Nat.eqb_spec c 43), (Nat.eqb_spec c 45), (Nat.eqb_spec c 42), (Nat.eqb_spec c 47), (Nat.eqb_spec c 126); cbn [orb]; subst; try lia; split; intros H; try congruence; try tauto; try (repeat (destruct H as [H|H]; [congruence|]); contradiction).
Qed.
Lemma number_oper t : number t -> oper t = None.
Proof.
  intros (N & F). destruct t as [|c [|d t]]; [reflexivity| |reflexivity]. cbn. inversion F as [|? ? H _]; subst. rewrite special_prio in H. destruct (prio c); [exfalso; apply H; discriminate|reflexivity].
Qed.

(** * Expand *)
Fixpoint tokens (e : expr) : list text :=
  match e with
  | Num t => [t]
  | Par e' => single lpar :: tokens e' ++ [single rpar]
  | Neg e' => single minus :: tokens e'
  | Bin o a b => tokens a ++ single (op_of o) :: tokens b
  end.
Lemma parsed_leaves e : forall k, parsed k e -> Forall number (leaves e).
Proof.
  induction e as [t|e IH|e IH|o a IHa b IHb]; intros k H; cbn [parsed leaves] in *.
  - constructor; [exact H|constructor].
  - exact (IH _ H).
  - destruct H as (_ & H). exact (IH _ H).
  - apply Forall_app. destruct o; destruct H as (_ & Ha & Hb); split; eauto.
Qed.
Definition ready (rest : text) : Prop := match rest with [] => True | c :: _ => prio c <> None end.
Lemma expand_number t : forall put rest, Forall (fun c => ~ special c) t -> expand_from put (t ++ rest) = expand_from (put ++ t) rest.
Proof.
  induction t as [|c t IH]; intros put rest F; [rewrite app_nil_r; reflexivity|]. inversion F as [|? ? H F']; subst. cbn [app expand_from].
  rewrite special_prio in H. destruct (prio c); [exfalso; apply H; discriminate|]. rewrite IH by exact F'. rewrite <- app_assoc. reflexivity.
Qed.
Lemma expand_flush put rest : ready rest -> put <> [] -> expand_from put rest = put :: expand_from [] rest.
Proof.
  intros R N. destruct rest as [|c rest]; cbn [expand_from].
  - destruct put; [contradiction|reflexivity].
  - cbn in R. destruct (prio c); [|contradiction]. destruct put; [contradiction|reflexivity].
Qed.
Lemma prio_op o : exists p, prio (op_of o) = Some p.
Proof. destruct o; eexists; reflexivity. Qed.
Lemma expand_op c rest : prio c <> None -> expand_from [] (c :: rest) = single c :: expand_from [] rest.
Proof. intros H. cbn [expand_from]. destruct (prio c); [reflexivity|contradiction]. Qed.
Lemma expand_print e : forall rest, Forall number (leaves e) -> ready rest -> expand_from [] (print e ++ rest) = tokens e ++ expand_from [] rest.
Proof.
  induction e as [t|e IH|e IH|o a IHa b IHb]; intros rest F R; cbn [print tokens leaves] in *.
  - inversion F as [|? ? (N & H) _]; subst. rewrite expand_number by exact H. rewrite expand_flush by assumption. reflexivity.
  - change (code "(") with lpar. change (code ")") with rpar. cbn [app]. rewrite expand_op by discriminate. rewrite <- !app_assoc, IH by (try exact F; cbn; discriminate). cbn [app]. rewrite expand_op by discriminate. reflexivity.
  - change (code "-") with minus. cbn [app]. rewrite expand_op by discriminate. rewrite IH by assumption. reflexivity.
  - apply Forall_app in F. destruct F as (Fa & Fb). rewrite sign_op, <- !app_assoc. cbn [app]. destruct (prio_op o) as (p & Ep). rewrite IHa by (try exact Fa; cbn; congruence).
    rewrite expand_op by congruence. rewrite IHb by assumption. reflexivity.
Qed.

(** * Run *)
Section Num.
  Context {num : Type} (add sub mul div : num -> num -> num) (neg : num -> num) (atof : text -> num).
  Notation run_from := (run_from add sub mul div neg atof).
  Notation run1 := (run1 add sub mul div neg atof).
  Definition op (o : bop) : num -> num -> num := match o with Add => add | Sub => sub | Mul => mul | Div => div end.
  Notation value := (value op neg atof).
  Lemma run_from_app a : forall b s, run_from (a ++ b) s = match run_from a s with Some s' => run_from b s' | None => None end.
  Proof. induction a as [|t a IH]; intros b s; cbn [app Expr_Model.run_from]; [reflexivity|]. destruct (run1 t s); [apply IH|reflexivity]. Qed.
  Lemma run_op o l r s : run1 (single (op_of o)) (r :: l :: s) = Some (op o l r :: s).
  Proof. destruct o; reflexivity. Qed.

  (** * MakePolish *)
  Definition above (p : nat) (c : nat) : Prop := exists q, prio c = Some q /\ p <= q.
  Definition below (p : nat) (stack : list nat) : Prop := match stack with [] => True | c :: _ => exists q, prio c = Some q /\ q < p end.
  Lemma below_le p q stack : p <= q -> below p stack -> below q stack.
  Proof. destruct stack as [|c s]; cbn; [auto|]. intros L (x & E & H). exists x. split; [exact E|lia]. Qed.
  Lemma above_le p q c : q <= p -> above p c -> above q c.
  Proof. intros L (x & E & H). exists x. split; [exact E|lia]. Qed.
  Lemma pop_ops p ops : forall stack ret, Forall (above p) ops -> below p stack -> pop_while p (ops ++ stack) ret = (stack, ret ++ map single ops).
  Proof.
    induction ops as [|c ops IH]; intros stack ret A B; cbn [app map].
    - rewrite app_nil_r. destruct stack as [|s stack]; [reflexivity|]. cbn [pop_while]. destruct B as (q & -> & L). destruct (Nat.leb_spec p q); [lia|reflexivity].
    - inversion A as [|? ? (q & E & L) A']; subst. cbn [pop_while]. rewrite E. destruct (Nat.leb_spec p q); [|lia]. rewrite IH by assumption. rewrite <- app_assoc. reflexivity.
  Qed.
  Definition unary (prev : option text) : Prop := match prev with None => True | Some t => oper t <> None end.
  Definition bound (k : kind) : nat := match k with Sum => 8 | First => 9 | Product => 9 | Atom => 11 end.
  Definition guard (k : kind) (prev : option text) (stack : list nat) : Prop :=
    match k with Sum | First => unary prev /\ below 8 stack | Product => below 9 stack | Atom => True end.
  Definition claim (k : kind) (e : expr) : Prop :=
    forall prev rest stack ret vs, run_from ret [] = Some vs -> guard k prev stack ->
    exists last ops ret' vs', polish_loop prev (tokens e ++ rest) stack ret = polish_loop (Some last) rest (ops ++ stack) ret' /\
      run_from ret' [] = Some vs' /\ run_from (map single ops) vs' = Some (value e :: vs) /\ Forall (above (bound k)) ops /\ (closed e = false -> oper last = None).
  Lemma guard_first k prev stack : k <> Atom -> guard k prev stack -> guard (match k with Product => Product | _ => First end) prev stack.
  Proof. destruct k; cbn; auto; congruence. Qed.

  Lemma shunt e : forall k, parsed k e -> no_close_minus e -> claim k e.
  Proof.
    induction e as [t|e IH|e IH|o a IHa b IHb]; intros k P M; cbn [parsed no_close_minus] in *; intros prev rest stack ret vs R G; cbn [tokens app].
    - exists t, [], (ret ++ [t]), (atof t :: vs). cbn [polish_loop app map]. rewrite (number_oper t P). split; [reflexivity|]. split; [|split; [reflexivity|split; [constructor|reflexivity]]].
      rewrite run_from_app, R. cbn [Expr_Model.run_from]. unfold Expr_Model.run1. rewrite (number_oper t P). reflexivity.
    - cbn [polish_loop]. change (oper (single lpar)) with (Some (lpar, 0)). cbn iota beta. change (lpar =? lpar) with true. change (lpar =? rpar) with false. change (lpar =? minus) with false. cbn iota. cbn [andb].
      rewrite <- app_assoc. destruct (IH Sum P M (Some (single lpar)) (single rpar :: rest) (lpar :: stack) ret vs R) as (last & ops & ret' & vs' & E & R' & V & A & _).
      { split; [discriminate|]. exists 0. split; [reflexivity|lia]. }
      cbn [app]. rewrite E. cbn [polish_loop]. change (oper (single rpar)) with (Some (rpar, 1)). cbn iota beta. change (rpar =? lpar) with false. cbn iota.
      rewrite (pop_ops 1 ops (lpar :: stack) ret'). 2: { eapply Forall_impl; [|exact A]. intros c. apply above_le. cbn. lia. } 2: { exists 0. split; [reflexivity|lia]. }
      change (rpar =? rpar) with true. change (lpar =? lpar) with true. cbn iota.
      exists (single rpar), [], (ret' ++ map single ops), (value e :: vs). cbn [app map]. split; [reflexivity|]. split; [rewrite run_from_app, R'; exact V|]. split; [reflexivity|]. split; [constructor|]. cbn [closed]. discriminate.
    - destruct P as (K & P). assert (G' : unary prev /\ below 8 stack) by (destruct K; subst k; exact G). destruct G' as (U & B). cbn [polish_loop]. change (oper (single minus)) with (Some (minus, 8)). cbn iota beta.
      change (minus =? lpar) with false. cbn iota. pose proof (pop_ops 8 [] stack ret (Forall_nil _) B) as Xp. cbn [app map] in Xp. rewrite app_nil_r in Xp. rewrite Xp. change (minus =? rpar) with false. change (minus =? minus) with true. cbn iota. cbn [andb map].
      assert (Eu : match prev with None => true | Some t' => match oper t' with Some _ => true | None => false end end = true) by (destruct prev as [t'|]; [|reflexivity]; cbn in U; destruct (oper t'); [reflexivity|contradiction]).
      rewrite Eu. destruct (IH Atom P M (Some (single minus)) rest (tilde :: stack) ret vs R I) as (last & ops & ret' & vs' & E & R' & V & A & C). rewrite E.
      assert (ops = []) as ->. { destruct ops as [|c ops]; [reflexivity|]. inversion A as [|? ? (q & Eq & L) _]; subst. exfalso. revert Eq L. unfold prio. cbn [bound]. destruct (c =? lpar), (c =? rpar), ((c =? plus) || (c =? minus)), ((c =? star) || (c =? slash)), (c =? tilde); intros X; try discriminate; injection X as <-; lia. }
      cbn in V. injection V as ->. exists last, [tilde], ret', (value e :: vs). split; [reflexivity|]. split; [exact R'|]. split; [reflexivity|]. split; [|exact C].
      constructor; [|constructor]. exists 10. split; [reflexivity|]. destruct K; subst k; cbn; lia.
    - rewrite <- app_assoc. cbn [app]. destruct o; cbn [op_of].
      + destruct P as (-> & Pa & Pb). destruct M as (Ma & Mb & _). destruct (IHa Sum Pa Ma prev (single plus :: tokens b ++ rest) stack ret vs R G) as (last & ops & ret' & vs' & E & R' & V & A & _). rewrite E.
        cbn [polish_loop]. change (oper (single plus)) with (Some (plus, 8)). cbn iota beta. change (plus =? lpar) with false. cbn iota. rewrite (pop_ops 8 ops stack ret' A (proj2 G)).
        change (plus =? rpar) with false. change (plus =? minus) with false. cbn iota. cbn [andb].
        destruct (IHb Product Pb Mb (Some (single plus)) rest (plus :: stack) (ret' ++ map single ops) (value a :: vs)) as (last2 & ops2 & ret2 & vs2 & E2 & R2 & V2 & A2 & C2).
        { rewrite run_from_app, R'. exact V. } { exists 8. split; [reflexivity|lia]. }
        rewrite E2. exists last2, (ops2 ++ [plus]), ret2, vs2. rewrite <- app_assoc. split; [reflexivity|]. split; [exact R2|]. split; [rewrite map_app, run_from_app, V2; reflexivity|]. split; [|exact C2].
        apply Forall_app. split; [eapply Forall_impl; [|exact A2]; intros c; apply above_le; cbn; lia|]. constructor; [exists 8; split; [reflexivity|cbn; lia]|constructor].
      + destruct P as (-> & Pa & Pb). destruct M as (Ma & Mb & Mc). destruct (IHa Sum Pa Ma prev (single minus :: tokens b ++ rest) stack ret vs R G) as (last & ops & ret' & vs' & E & R' & V & A & C). rewrite E.
        cbn [polish_loop]. change (oper (single minus)) with (Some (minus, 8)). cbn iota beta. change (minus =? lpar) with false. cbn iota. rewrite (pop_ops 8 ops stack ret' A (proj2 G)).
        rewrite (C (Mc eq_refl)). change (minus =? rpar) with false. cbn iota. rewrite andb_false_r.
        destruct (IHb Product Pb Mb (Some (single minus)) rest (minus :: stack) (ret' ++ map single ops) (value a :: vs)) as (last2 & ops2 & ret2 & vs2 & E2 & R2 & V2 & A2 & C2).
        { rewrite run_from_app, R'. exact V. } { exists 8. split; [reflexivity|lia]. }
        rewrite E2. exists last2, (ops2 ++ [minus]), ret2, vs2. rewrite <- app_assoc. split; [reflexivity|]. split; [exact R2|]. split; [rewrite map_app, run_from_app, V2; reflexivity|]. split; [|exact C2].
        apply Forall_app. split; [eapply Forall_impl; [|exact A2]; intros c; apply above_le; cbn; lia|]. constructor; [exists 8; split; [reflexivity|cbn; lia]|constructor].
      + destruct P as (K & Pa & Pb). destruct M as (Ma & Mb & _). assert (B : below 9 stack) by (destruct k; cbn in G; try contradiction; try exact G; apply (below_le 8); [lia|exact (proj2 G)|lia|exact (proj2 G)]).
        destruct (IHa _ Pa Ma prev (single star :: tokens b ++ rest) stack ret vs R (guard_first k prev stack K G)) as (last & ops & ret' & vs' & E & R' & V & A & _). rewrite E.
        assert (A9 : Forall (above 9) ops) by (eapply Forall_impl; [|exact A]; intros c; apply above_le; destruct k; cbn; lia).
        cbn [polish_loop]. change (oper (single star)) with (Some (star, 9)). cbn iota beta. change (star =? lpar) with false. cbn iota. rewrite (pop_ops 9 ops stack ret' A9 B).
        change (star =? rpar) with false. change (star =? minus) with false. cbn iota. cbn [andb].
        destruct (IHb Atom Pb Mb (Some (single star)) rest (star :: stack) (ret' ++ map single ops) (value a :: vs)) as (last2 & ops2 & ret2 & vs2 & E2 & R2 & V2 & A2 & C2); [rewrite run_from_app, R'; exact V|exact I|].
        rewrite E2. exists last2, (ops2 ++ [star]), ret2, vs2. rewrite <- app_assoc. split; [reflexivity|]. split; [exact R2|]. split; [rewrite map_app, run_from_app, V2; reflexivity|]. split; [|exact C2].
        apply Forall_app. split; [eapply Forall_impl; [|exact A2]; intros c; apply above_le; destruct k; cbn; lia|]. constructor; [exists 9; split; [reflexivity|destruct k; try contradiction; cbn; lia]|constructor].
      + destruct P as (K & Pa & Pb). destruct M as (Ma & Mb & _). assert (B : below 9 stack) by (destruct k; cbn in G; try contradiction; try exact G; apply (below_le 8); [lia|exact (proj2 G)|lia|exact (proj2 G)]).
        destruct (IHa _ Pa Ma prev (single slash :: tokens b ++ rest) stack ret vs R (guard_first k prev stack K G)) as (last & ops & ret' & vs' & E & R' & V & A & _). rewrite E.
        assert (A9 : Forall (above 9) ops) by (eapply Forall_impl; [|exact A]; intros c; apply above_le; destruct k; cbn; lia).
        cbn [polish_loop]. change (oper (single slash)) with (Some (slash, 9)). cbn iota beta. change (slash =? lpar) with false. cbn iota. rewrite (pop_ops 9 ops stack ret' A9 B).
        change (slash =? rpar) with false. change (slash =? minus) with false. cbn iota. cbn [andb].
        destruct (IHb Atom Pb Mb (Some (single slash)) rest (slash :: stack) (ret' ++ map single ops) (value a :: vs)) as (last2 & ops2 & ret2 & vs2 & E2 & R2 & V2 & A2 & C2); [rewrite run_from_app, R'; exact V|exact I|].
        rewrite E2. exists last2, (ops2 ++ [slash]), ret2, vs2. rewrite <- app_assoc. split; [reflexivity|]. split; [exact R2|]. split; [rewrite map_app, run_from_app, V2; reflexivity|]. split; [|exact C2].
        apply Forall_app. split; [eapply Forall_impl; [|exact A2]; intros c; apply above_le; destruct k; cbn; lia|]. constructor; [exists 9; split; [reflexivity|destruct k; try contradiction; cbn; lia]|constructor].
  Qed.

  Lemma evaluate_ok e : parsed Sum e -> no_close_minus e -> evaluate add sub mul div neg atof (print e) = (Some (value e), false).
  Proof.
    intros P M. unfold evaluate, polish, expand. pose proof (expand_print e [] (parsed_leaves e _ P) I) as X. rewrite app_nil_r in X. rewrite X. cbn [expand_from flush].
    destruct (shunt e Sum P M None [] [] [] [] eq_refl (conj I I)) as (last & ops & ret' & vs' & E & R & V & _ & _). rewrite E. cbn [polish_loop]. rewrite app_nil_r.
    unfold run. rewrite run_from_app, R. replace (map (fun c : nat => [c]) ops) with (map single ops) by reflexivity. rewrite V. reflexivity.
  Qed.

End Num.

  (** the message "expected left bracket" is never printed: after the loop the top is a left bracket *)
  Definition clean (stack : list nat) : Prop := Forall (fun c => prio c <> None /\ c <> rpar) stack.
  Lemma pop_clean p stack : forall ret, clean stack -> clean (fst (pop_while p stack ret)).
  Proof.
    induction stack as [|c stack IH]; intros ret C; cbn [pop_while]; [constructor|]. inversion C as [|? ? (H1 & H2) C']; subst. destruct (prio c) as [q|] eqn:E; [|exact C]. destruct (p <=? q); [apply IH, C'|exact C].
  Qed.
  Lemma pop_top stack : forall ret, clean stack -> match fst (pop_while 1 stack ret) with [] => True | c :: _ => c = lpar end.
  Proof.
    induction stack as [|c stack IH]; intros ret C; cbn [pop_while]; [exact I|]. inversion C as [|? ? (H1 & H2) C']; subst. destruct (prio c) as [q|] eqn:E; [|contradiction].
    destruct (Nat.leb_spec 1 q) as [L|L]; [apply IH, C'|]. cbn [fst]. revert E. unfold prio. destruct (Nat.eqb_spec c lpar); [auto|]. destruct (c =? rpar), ((c =? plus) || (c =? minus)), ((c =? star) || (c =? slash)), (c =? tilde); intros X; try discriminate; injection X as <-; lia.
  Qed.
  Lemma polish_bracket : forall inp prev stack ret s r, clean stack -> polish_loop prev inp stack ret = (s, r, true) -> s = [].
  Proof.
    induction inp as [|t inp IH]; intros prev stack ret s r C E; cbn [polish_loop] in E; [discriminate|]. destruct (oper t) as [(c, p)|] eqn:Eo; [|exact (IH _ _ _ _ _ C E)].
    assert (Ep : prio c = Some p) by (unfold oper in Eo; destruct t as [|d [|? ?]]; try discriminate; destruct (prio d) eqn:Ed; [|discriminate]; injection Eo as <- <-; exact Ed).
    destruct (if c =? lpar then (stack, ret) else pop_while p stack ret) as (st1, r1) eqn:E1.
    assert (C1 : clean st1) by (destruct (c =? lpar); [injection E1 as <- <-; exact C|pose proof (pop_clean p stack ret C) as X; rewrite E1 in X; exact X]).
    destruct (Nat.eqb_spec c rpar) as [->|N].
    - change (prio rpar) with (Some 1) in Ep. injection Ep as <-. change (rpar =? lpar) with false in E1. cbn iota in E1. pose proof (pop_top stack ret C) as T. rewrite E1 in T. cbn [fst] in T.
      destruct st1 as [|x st1]; [injection E as <- <-; reflexivity|]. subst x. change (lpar =? lpar) with true in E. cbn iota in E. inversion C1; subst. exact (IH _ _ _ _ _ H2 E).
    - destruct (_ && _).
      + apply (IH (Some t) (tilde :: st1) r1 s r); [|exact E]. constructor; [split; discriminate|exact C1].
      + apply (IH (Some t) (c :: st1) r1 s r); [|exact E]. constructor; [split; [congruence|exact N]|exact C1].
  Qed.

(** * SetSize *)
Fixpoint subst (by_ : text) (e : expr) : expr :=
  match e with
  | Num t => if list_eq_dec Nat.eq_dec t key then Num by_ else Num t
  | Par e' => Par (subst by_ e') | Neg e' => Neg (subst by_ e') | Bin o a b => Bin o (subst by_ a) (subst by_ b)
  end.
Lemma prefix_app p : forall a c b, ~ In c p -> is_prefix p (a ++ c :: b) = is_prefix p a.
Proof.
  induction p as [|x p IH]; intros a c b N; [reflexivity|]. destruct a as [|y a]; cbn [app is_prefix].
  - destruct (Nat.eqb_spec x c) as [->|]; [exfalso; apply N; left; reflexivity|reflexivity].
  - rewrite IH by (intros X; apply N; right; exact X). reflexivity.
Qed.
Lemma prefix_length p : forall s, is_prefix p s = true -> length p <= length s.
Proof. induction p as [|x p IH]; intros [|y s] H; cbn [is_prefix length] in *; try lia; try discriminate. apply andb_prop in H. specialize (IH s (proj2 H)). lia. Qed.
Lemma replace_app by_ c b : ~ In c key -> forall a k, k <= length a -> replace by_ k (a ++ c :: b) = replace by_ k a ++ c :: replace by_ 0 b.
Proof.
  intros N. induction a as [|x a IH]; intros k L.
  - cbn [length] in L. assert (k = 0) by lia. subst. cbn [app replace]. change (c :: b) with ([] ++ c :: b). rewrite prefix_app by exact N. reflexivity.
  - cbn [app replace]. destruct k as [|k].
    + change (x :: a ++ c :: b) with ((x :: a) ++ c :: b). rewrite prefix_app by exact N. destruct (is_prefix key (x :: a)) eqn:P.
      * apply prefix_length in P. cbn [length] in P. change (length key) with 7 in P. rewrite IH by lia. rewrite <- app_assoc. reflexivity.
      * rewrite IH by lia. reflexivity.
    + apply IH. cbn [length] in L. lia.
Qed.
Definition no_S (t : text) : Prop := ~ In 83 t.
Lemma replace_none by_ t : no_S t -> replace by_ 0 t = t.
Proof.
  unfold no_S. induction t as [|x t IH]; intros N; [reflexivity|]. cbn [replace]. assert (P : is_prefix key (x :: t) = false).
  { change key with (83 :: tl key). cbn [is_prefix]. destruct (Nat.eqb_spec 83 x) as [E|]; [exfalso; apply N; left; symmetry; exact E|reflexivity]. }
  rewrite P, IH by (intros X; apply N; right; exact X). reflexivity.
Qed.
Lemma special_not_key c : special c -> ~ In c key.
Proof. intros H. cbn [map In] in H. unfold special in H. intros X. cbn in H, X. repeat (destruct H as [H|H]; [subst c; repeat (destruct X as [X|X]; [discriminate|]); contradiction|]). contradiction. Qed.
(** the numbers in the expression: "SetSize" or text without the letter S *)
Definition sized (e : expr) : Prop := Forall (fun t => t = key \/ no_S t) (leaves e).
Lemma replace_print by_ e : sized e -> replace by_ 0 (print e) = print (subst by_ e).
Proof.
  assert (SP : forall o, special (sign o)) by (intros o; rewrite sign_op; apply special_prio; destruct (prio_op o) as (p & ->); discriminate).
  unfold sized. induction e as [t|e IH|e IH|o a IHa b IHb]; intros F; cbn [print leaves subst] in *.
  - inversion F as [|? ? H _]; subst. destruct (list_eq_dec Nat.eq_dec t key) as [->|N]; [cbn [print]; cbn; rewrite app_nil_r; reflexivity|]. destruct H as [H|H]; [contradiction|]. cbn [print]. apply replace_none, H.
  - change (code "(" :: print e ++ [code ")"]) with ([] ++ code "(" :: print e ++ [code ")"]). rewrite replace_app by (try (apply special_not_key; left; reflexivity); cbn; lia).
    rewrite replace_app by (try (apply special_not_key; right; left; reflexivity); lia). rewrite IH by exact F. reflexivity.
  - change (code "-" :: print e) with ([] ++ code "-" :: print e). rewrite replace_app by (try (apply special_not_key; cbn; tauto); cbn; lia). rewrite IH by exact F. reflexivity.
  - apply Forall_app in F. destruct F as (Fa & Fb). rewrite replace_app by (try (apply special_not_key, SP); lia). rewrite IHa, IHb by assumption. reflexivity.
Qed.
Lemma subst_parsed by_ e : number by_ -> forall k, parsed k e -> parsed k (subst by_ e).
Proof.
  intros N. induction e as [t|e IH|e IH|o a IHa b IHb]; intros k P; cbn [subst parsed] in *.
  - destruct (list_eq_dec Nat.eq_dec t key); [exact N|exact P].
  - apply IH, P.
  - split; [tauto|]. apply IH. tauto.
  - destruct o; destruct P as (K & Pa & Pb); auto.
Qed.
Lemma subst_closed by_ e : closed (subst by_ e) = closed e.
Proof. induction e as [t|e IH|e IH|o a IHa b IHb]; cbn [subst closed]; auto. destruct (list_eq_dec _ _ _); reflexivity. Qed.
Lemma subst_minus by_ e : no_close_minus e -> no_close_minus (subst by_ e).
Proof.
  induction e as [t|e IH|e IH|o a IHa b IHb]; cbn [subst no_close_minus]; auto.
  - destruct (list_eq_dec _ _ _); auto.
  - rewrite subst_closed. tauto.
Qed.
Lemma print_nonempty e : Forall number (leaves e) -> print e <> [].
Proof.
  induction e as [t|e IH|e IH|o a IHa b IHb]; cbn [print leaves]; intros F; try discriminate.
  - inversion F as [|? ? (N & _) _]; subst. exact N.
  - intros X. apply app_eq_nil in X. destruct X as (_ & X). discriminate.
Qed.
Lemma show_uint_number n : number (show_uint n).
Proof.
  destruct (show_uint_ok n) as (ds & -> & F & N & _ & _). split; [exact N|]. eapply Forall_impl; [|exact F]. intros c (L1 & L2) S. unfold special in S. cbn in S. lia.
Qed.

(** * Parentheses *)
Fixpoint over (d : nat) (ts : list text) : bool :=
  match ts with
  | [] => false
  | t :: ts' =>
      match oper t with
      | Some (c, _) => if c =? lpar then over (S d) ts' else if c =? rpar then match d with O => true | S d' => over d' ts' end else over d ts'
      | None => over d ts'
      end
  end.
Fixpoint opens (stack : list nat) : nat := match stack with [] => 0 | c :: s => (if c =? lpar then 1 else 0) + opens s end.
Lemma pop_opens p stack : forall ret, 0 < p -> clean stack -> opens (fst (pop_while p stack ret)) = opens stack.
Proof.
  induction stack as [|c stack IH]; intros ret P C; cbn [pop_while]; [reflexivity|]. inversion C as [|? ? (H1 & H2) C']; subst. destruct (prio c) as [q|] eqn:E; [|reflexivity].
  destruct (Nat.leb_spec p q) as [L|L]; [|reflexivity]. rewrite IH by assumption. cbn [opens]. destruct (Nat.eqb_spec c lpar) as [->|]; [|reflexivity]. change (prio lpar) with (Some 0) in E. injection E as <-. lia.
Qed.
Lemma prio_pos c p : prio c = Some p -> c <> lpar -> 0 < p.
Proof. unfold prio. destruct (Nat.eqb_spec c lpar); [contradiction|]. destruct (c =? rpar), ((c =? plus) || (c =? minus)), ((c =? star) || (c =? slash)), (c =? tilde); intros X; try discriminate; injection X as <-; lia. Qed.
Lemma polish_over : forall inp prev stack ret, clean stack -> snd (polish_loop prev inp stack ret) = over (opens stack) inp.
Proof.
  induction inp as [|t inp IH]; intros prev stack ret C; cbn [polish_loop over]; [reflexivity|]. destruct (oper t) as [(c, p)|] eqn:Eo; [|apply IH, C].
  assert (Ep : prio c = Some p) by (unfold oper in Eo; destruct t as [|d [|? ?]]; try discriminate; destruct (prio d) eqn:Ed; [|discriminate]; injection Eo as <- <-; exact Ed).
  destruct (Nat.eqb_spec c lpar) as [->|NL].
  - change (lpar =? rpar) with false. change (lpar =? minus) with false. cbn [andb]. rewrite IH by (constructor; [split; discriminate|exact C]). reflexivity.
  - pose proof (pop_opens p stack ret (prio_pos c p Ep NL) C) as O1. pose proof (pop_clean p stack ret C) as C1. pose proof (pop_top stack ret C) as T1.
    destruct (pop_while p stack ret) as (st1, r1) eqn:E1. cbn [fst] in *. destruct (Nat.eqb_spec c rpar) as [->|NR].
    + change (prio rpar) with (Some 1) in Ep. injection Ep as <-. rewrite E1 in T1. cbn [fst] in T1. destruct st1 as [|x st1].
      * cbn [snd]. rewrite <- O1. reflexivity.
      * subst x. change (lpar =? lpar) with true. cbn iota. inversion C1; subst. rewrite IH by assumption. rewrite <- O1. cbn [opens]. change (lpar =? lpar) with true. reflexivity.
    + destruct (_ && _); rewrite IH.
      * cbn [opens]. rewrite O1. reflexivity.
      * constructor; [split; discriminate|exact C1].
      * cbn [opens]. destruct (Nat.eqb_spec c lpar); [contradiction|]. rewrite O1. reflexivity.
      * constructor; [split; [congruence|exact NR]|exact C1].
Qed.
Lemma over_number d t ts : Forall (fun c => prio c = None) t -> over d (t :: ts) = over d ts.
Proof. intros F. cbn [over]. unfold oper. destruct t as [|c [|e t]]; try reflexivity. inversion F as [|? ? E _]; subst. rewrite E. reflexivity. Qed.
Lemma expand_unmatched : forall s put d, Forall (fun c => prio c = None) put -> over d (expand_from put s) = unmatched d s.
Proof.
  induction s as [|c s IH]; intros put d F; cbn [expand_from unmatched].
  - destruct put; [reflexivity|]. unfold flush. rewrite over_number by exact F. reflexivity.
  - change (code "(") with lpar. change (code ")") with rpar. destruct (prio c) as [p|] eqn:E.
    + assert (X : over d (flush put ++ [c] :: expand_from [] s) = over d ([c] :: expand_from [] s)) by (destruct put; [reflexivity|]; cbn [flush app]; apply over_number, F).
      rewrite X. cbn [over oper]. rewrite E. destruct (c =? lpar); [apply IH; constructor|]. destruct (c =? rpar); [destruct d; [reflexivity|apply IH; constructor]|apply IH; constructor].
    + rewrite IH by (apply Forall_app; split; [exact F|constructor; [exact E|constructor]]).
      destruct (Nat.eqb_spec c lpar) as [->|]; [discriminate|]. destruct (Nat.eqb_spec c rpar) as [->|]; [discriminate|]. reflexivity.
Qed.
Lemma polish_error s : snd (polish (expand s)) = unmatched 0 s.
Proof.
  unfold polish. pose proof (polish_over (expand s) None [] [] (Forall_nil _)) as X. destruct (polish_loop None (expand s) [] []) as ((st, r), e). cbn [snd] in *. rewrite X. apply expand_unmatched. constructor.
Qed.
