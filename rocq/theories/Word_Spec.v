(** What may be written between <![CDATA[ and ]]> in a mesh file, and what it means. *)
From Coq Require Import Ascii String.
From Coq Require Import List Arith NArith ZArith Bool.
Import ListNotations.

Definition ch (c : ascii) : nat := nat_of_ascii c.
Definition text_of (s : string) : list nat := map ch (list_ascii_of_string s).
Definition space (c : nat) : Prop := In c [9; 10; 11; 12; 13; 32].
Definition spaces (t : list nat) : Prop := Forall space t.
Definition without (cs : list ascii) (t : list nat) : Prop := forall c, In c cs -> ~ In (ch c) t.
Definition no_space (t : list nat) : Prop := forall c, In c t -> ~ space c.
(** the text without spaces *)
Definition squeeze (t : list nat) : list nat := filter (fun c => if in_dec Nat.eq_dec c [9; 10; 11; 12; 13; 32] then false else true) t.

(** a value: a word, a list in braces, or quoted text; then possibly * and the number of repetitions,
    a number or an expression in parentheses, with spaces between *)
Inductive base := Plain (t : list nat) | Braces (t : list nat) | Quoted (t : list nat).
Inductive times := Once | Times (ws t : list nat) | TimesPar (ws t : list nat).
Definition item := (base * times)%type.
(** a quote inside of quoted text is guarded by a backslash *)
Definition guard (t : list nat) : list nat := flat_map (fun c => if c =? ch """" then [ch "\"; c] else [c]) t.
Definition base_text (b : base) : list nat :=
  match b with Plain t => t | Braces t => ch "{" :: t ++ [ch "}"] | Quoted t => ch """" :: guard t ++ [ch """"] end.
Definition times_text (m : times) : list nat :=
  match m with Once => [] | Times ws t => ch "*" :: ws ++ t | TimesPar ws t => ch "*" :: ws ++ ch "(" :: t ++ [ch ")"] end.
Definition item_text (i : item) : list nat := base_text (fst i) ++ times_text (snd i).
(** the word the reader has to see: spaces inside of braces and expressions and guards are gone *)
Definition base_word (b : base) : list nat :=
  match b with Plain t => t | Braces t => ch "{" :: squeeze t ++ [ch "}"] | Quoted t => ch """" :: t ++ [ch """"] end.
Definition times_word (m : times) : list nat :=
  match m with Once => [] | Times _ t => ch "*" :: t | TimesPar _ t => ch "*" :: ch "(" :: squeeze t ++ [ch ")"] end.
Definition item_word (i : item) : list nat := base_word (fst i) ++ times_word (snd i).
Definition base_ok (b : base) : Prop :=
  match b with
  | Plain t => t <> [] /\ no_space t /\ without ["*"; "]"]%char t /\ hd 0 t <> ch "{" /\ hd 0 t <> ch """"
  | Braces t => without ["}"; "]"]%char t
  | Quoted t => without ["\"]%char t
  end.
Definition times_ok (m : times) : Prop :=
  match m with
  | Once => True
  | Times ws t => spaces ws /\ t <> [] /\ no_space t /\ without ["*"; "]"]%char t /\ hd 0 t <> ch "("
  | TimesPar ws t => spaces ws /\ without [")"; "]"]%char t
  end.
Definition item_ok (i : item) : Prop := base_ok (fst i) /\ times_ok (snd i).
(** the next word starts after a space; no space is needed after a closing parenthesis *)
Definition gap_ok (i : item) (s : list nat) : Prop := spaces s /\ (s = [] -> exists ws t, snd i = TimesPar ws t).
Fixpoint items_text (l : list (item * list nat)) : list nat := match l with [] => [] | (i, s) :: l' => item_text i ++ s ++ items_text l' end.
Definition items_ok (l : list (item * list nat)) : Prop := Forall (fun p => item_ok (fst p) /\ gap_ok (fst p) (snd p)) l.

(** the text of a value that can be written into a data set *)
Definition clean (t : list nat) : Prop := t <> [] /\ no_space t /\ without [","; "{"; "}"; "*"; """"; "]"]%char t.
(** a record with its repetitions written out *)
Fixpoint times_list {A : Type} (n : nat) (V : list A) : list A := match n with O => [] | S n' => V ++ times_list n' V end.
(** segments separated by commas *)
Fixpoint commas (ts : list (list nat)) : list nat := match ts with [] => [] | [t] => t | t :: ts' => t ++ ch "," :: commas ts' end.
