(** Arithmetic expressions: trees, the text of a tree, its value. *)
From Coq Require Import Ascii String.
From Coq Require Import List Arith NArith ZArith Bool.
Import ListNotations.

Inductive bop := Add | Sub | Mul | Div.
(** parentheses are part of the tree *)
Inductive expr := Num (t : list nat) | Par (e : expr) | Neg (e : expr) | Bin (o : bop) (a b : expr).
Definition code (c : ascii) : nat := nat_of_ascii c.
Definition sign (o : bop) : nat := match o with Add => code "+" | Sub => code "-" | Mul => code "*" | Div => code "/" end.
Fixpoint print (e : expr) : list nat :=
  match e with
  | Num t => t
  | Par e' => code "(" :: print e' ++ [code ")"]
  | Neg e' => code "-" :: print e'
  | Bin o a b => print a ++ sign o :: print b
  end.
Section Value.
  Context {num : Type} (op : bop -> num -> num -> num) (neg : num -> num) (atof : list nat -> num).
  Fixpoint value (e : expr) : num :=
    match e with Num t => atof t | Par e' => value e' | Neg e' => neg (value e') | Bin o a b => op o (value a) (value b) end.
End Value.
(** a number: not empty, without signs of operations and parentheses *)
Definition special (c : nat) : Prop := In c (map code ["("; ")"; "+"; "-"; "*"; "/"; "~"]%char).
Definition number (t : list nat) : Prop := t <> [] /\ Forall (fun c => ~ special c) t.
(** the usual rules: * and / bind stronger than + and -, operations of one kind are done from left to
    right; a minus sign of a number or parentheses stands only at the beginning or after an opening
    parenthesis. [Sum]: any expression, [First]: a product that may start with a minus sign *)
Inductive kind := Sum | First | Product | Atom.
(** the last character is a closing parenthesis *)
Fixpoint closed (e : expr) : bool := match e with Num _ => false | Par _ => true | Neg e' => closed e' | Bin _ _ b => closed b end.
Fixpoint parsed (k : kind) (e : expr) : Prop :=
  match e with
  | Num t => number t
  | Par e' => parsed Sum e'
  | Neg e' => (k = Sum \/ k = First) /\ parsed Atom e'
  | Bin o a b =>
      match o with
      | Mul | Div => k <> Atom /\ parsed (match k with Product => Product | _ => First end) a /\ parsed Atom b
      | Add | Sub => k = Sum /\ parsed Sum a /\ parsed Product b
      end
  end.
(** no subtraction directly after a closing parenthesis *)
Fixpoint no_close_minus (e : expr) : Prop :=
  match e with
  | Num _ => True
  | Par e' => no_close_minus e'
  | Neg e' => no_close_minus e'
  | Bin o a b => no_close_minus a /\ no_close_minus b /\ (o = Sub -> closed a = false)
  end.
(** going through the text with d open parentheses, some closing parenthesis finds none open *)
Fixpoint unmatched (d : nat) (s : list nat) : bool :=
  match s with
  | [] => false
  | c :: s' =>
      if c =? code "(" then unmatched (S d) s'
      else if c =? code ")" then match d with O => true | S d' => unmatched d' s' end
      else unmatched d s'
  end.
(** the numbers of an expression *)
Fixpoint leaves (e : expr) : list (list nat) := match e with Num t => [t] | Par e' => leaves e' | Neg e' => leaves e' | Bin _ a b => leaves a ++ leaves b end.
