(** The interpreter of expressions of the XML reader: the theorems. *)
From Coq Require Import Ascii String.
From Coq Require Import List Arith NArith ZArith Bool Lia.
From Verif Require Import Mtx_Model Mtx_Spec Mtx_Proofs Expr_Model Expr_Spec Expr_Proofs.
Import ListNotations.

(** * C118: the value of an expression *)
Theorem C118_value {num : Type} (add sub mul div : num -> num -> num) (neg : num -> num) (atof : list nat -> num) e :
  parsed Sum e -> no_close_minus e ->
  evaluate add sub mul div neg atof (print e) = (Some (value (fun o => match o with Add => add | Sub => sub | Mul => mul | Div => div end) neg atof e), false).
Proof. exact (evaluate_ok add sub mul div neg atof e). Qed.
(** whatever the text: a closing parenthesis without an open one is an error; when there is none and
    no value is found, that is an error too; there are no other errors *)
Theorem C118_error {num : Type} (add sub mul div : num -> num -> num) (neg : num -> num) (atof : list nat -> num) s :
  snd (evaluate add sub mul div neg atof s) = true <-> unmatched 0 s = true \/ fst (evaluate add sub mul div neg atof s) = None.
Proof.
  unfold evaluate. pose proof (polish_error s) as X. destruct (polish (expand s)) as (p, e). cbn [snd] in X. subst e. cbn [fst snd]. destruct (run add sub mul div neg atof p).
  - split; [intros H; left; exact H|intros [H|H]; [exact H|discriminate]].
  - split; [intros _; right; reflexivity|reflexivity].
Qed.

(** integers for the examples *)
Definition digits_value (t : list nat) : Z := Z.of_N (fst (fst (read_digits t 0 0))).
Notation eval s := (evaluate Z.add Z.sub Z.mul Z.div Z.opp digits_value (str s)).
(** a minus sign after a closing parenthesis is taken for a change of sign: the expression has no value *)
Theorem C118_minus_after_parenthesis_refuted :
  exists e, parsed Sum e /\ print e = str "(3)-2" /\ evaluate Z.add Z.sub Z.mul Z.div Z.opp digits_value (print e) = (None, true).
Proof.
  exists (Bin Sub (Par (Num (str "3"))) (Num (str "2"))). split; [|split; reflexivity]. cbn. unfold number. repeat split; try discriminate; repeat constructor; unfold special; cbn; lia.
Qed.
(** a minus sign after an operation is an error *)
Theorem C118_sign_after_operation_refuted : eval "2*-3" = (None, true) /\ eval "1+-3" = (None, true) /\ eval "--3" = (None, true).
Proof. repeat split; reflexivity. Qed.
(** ... while the internal sign ~ works there *)
Theorem C118_tilde : eval "2*~3" = (Some (-6)%Z, false).
Proof. reflexivity. Qed.
(** malformed text gets a value without error: an open parenthesis, operands before the operation *)
Theorem C118_malformed_accepted_refuted : eval "(3" = (Some 3%Z, false) /\ eval "3(4)+" = (Some 7%Z, false) /\ eval "((2+(3" = (Some 5%Z, false).
Proof. repeat split; reflexivity. Qed.
(** a value is returned together with the error *)
Theorem C118_value_with_error_refuted : eval "3)" = (Some 3%Z, true).
Proof. reflexivity. Qed.
(** a space before a parenthesis is taken for a number; an exponent with a sign is torn apart *)
Theorem C118_space_refuted : eval "2* (3)" = (None, true).
Proof. reflexivity. Qed.
Theorem C118_exponent_refuted : expand (str "1e-5") = [str "1e"; str "-"; str "5"] /\ eval "1e-5" = (Some (-4)%Z, false).
Proof. split; reflexivity. Qed.
Example C118_nonvacuous :
  let e := Bin Sub (Bin Add (Bin Mul (Neg (Num (str "2"))) (Num (str "3"))) (Bin Div (Par (Bin Sub (Num (str "20")) (Num (str "4")))) (Num (str "5")))) (Num (str "7")) in
  parsed Sum e /\ no_close_minus e /\ print e = str "-2*3+(20-4)/5-7" /\ eval "-2*3+(20-4)/5-7" = (Some (-10)%Z, false).
Proof.
  cbv zeta. split; [|split; [|split; reflexivity]].
  - cbn. unfold number. repeat split; try discriminate; try tauto; repeat constructor; unfold special; cbn; lia.
  - cbn. repeat split; discriminate.
Qed.

(** * C119: the multiplier *)
(** "SetSize" stands for the size *)
Definition with_size {num : Type} (atof : list nat -> num) (size : N) (t : list nat) : num := if list_eq_dec Nat.eq_dec t (str "SetSize") then atof (show_uint size) else atof t.
Theorem C119_multiplier {num : Type} (add sub mul div : num -> num -> num) (neg : num -> num) (atof : list nat -> num) (to_int : num -> Z) e size :
  parsed Sum e -> no_close_minus e -> Forall (fun t => t = str "SetSize" \/ ~ In (code "S") t) (leaves e) ->
  convert add sub mul div neg atof to_int (print e) (Z.of_N size) =
    Some (to_int (value (fun o => match o with Add => add | Sub => sub | Mul => mul | Div => div end) neg (with_size atof size) e)).
Proof.
  intros P M F. unfold convert. destruct (print e) as [|c s] eqn:Ep; [exfalso; exact (print_nonempty e (parsed_leaves e _ P) Ep)|]. rewrite <- Ep.
  assert (Es : show_int (Z.of_N size) = show_uint size) by (destruct size; reflexivity). rewrite Es, replace_print by exact F.
  rewrite (evaluate_ok add sub mul div neg atof (subst (show_uint size) e)) by (try (apply subst_parsed; [apply show_uint_number|exact P]); apply subst_minus, M). cbn [fst]. f_equal. f_equal.
  clear. change (fun o : bop => match o with Add => add | Sub => sub | Mul => mul | Div => div end) with (op add sub mul div).
  induction e as [t|e IH|e IH|o a IHa b IHb]; cbn [subst value]; [|exact IH|rewrite IH; reflexivity|rewrite IHa, IHb; reflexivity].
  unfold with_size. change (str "SetSize") with key. destruct (list_eq_dec Nat.eq_dec t key); reflexivity.
Qed.
(** no multiplier means one *)
Theorem C119_no_multiplier {num : Type} (add sub mul div : num -> num -> num) neg (atof : list nat -> num) to_int size : convert add sub mul div neg atof to_int [] size = Some 1%Z.
Proof. reflexivity. Qed.
Example C119_nonvacuous :
  convert Z.add Z.sub Z.mul Z.div Z.opp digits_value (fun z => z) (str "(SetSize/2)") 12 = Some 6%Z /\
  convert Z.add Z.sub Z.mul Z.div Z.opp digits_value (fun z => z) (str "(SetSize*SetSize-1)") 12 = Some 143%Z.
Proof. split; reflexivity. Qed.

Print Assumptions C118_value.
Print Assumptions C118_error.
Print Assumptions C118_minus_after_parenthesis_refuted.
Print Assumptions C118_sign_after_operation_refuted.
Print Assumptions C118_tilde.
Print Assumptions C118_malformed_accepted_refuted.
Print Assumptions C118_value_with_error_refuted.
Print Assumptions C118_space_refuted.
Print Assumptions C118_exponent_refuted.
Print Assumptions C119_multiplier.
Print Assumptions C119_no_multiplier.
