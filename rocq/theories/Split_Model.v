(** Model of INMOST::split_string (Source/Misc/utils.cpp:52-64).
    A string is a list of characters, std::string::npos is None. *)
From Coq Require Import List Bool Ascii Arith.
Import ListNotations.

Definition str := list ascii.

(** membership in the string of delimiters *)
Definition is_delim (delims : str) (c : ascii) : bool :=
  existsb (Ascii.eqb c) delims.

Fixpoint find_at (p : ascii -> bool) (s : str) (i : nat) : option nat :=
  match s with
  | [] => None
  | c :: t => if p c then Some i else find_at p t (S i)
  end.

(** std::string::find_first_of / find_first_not_of: first position at or after
    [i] whose character satisfies [p]; npos as start gives npos *)
Definition find_first (p : ascii -> bool) (s : str) (i : option nat) : option nat :=
  match i with
  | None => None
  | Some i => find_at p (skipn i s) i
  end.

(** utils.cpp:56-61 the loop; None if substr throws (start past the end) or the
    loop does not end *)
Fixpoint split_loop (fuel : nat) (s delims : str) (e pos : option nat)
    (acc : list str) : option (list str) :=
  match fuel with
  | O => None
  | S fuel' =>
    match e, pos with
    | None, None => Some acc
    | None, Some _ => None
    | Some b, _ =>
      let w := match pos with
               | Some p => firstn (p - b) (skipn b s)
               | None => skipn b s
               end in
      let e' := find_first (fun c => negb (is_delim delims c)) s pos in
      let pos' := find_first (is_delim delims) s e' in
      split_loop fuel' s delims e' pos' (acc ++ [w])
    end
  end.

(** utils.cpp:52-64 split_string; [old] is the content of str_list before *)
Definition split_string (s : str) (old : list str) (delims : str) : option (list str) :=
  let e := find_first (fun c => negb (is_delim delims c)) s (Some 0) in
  let pos := find_first (is_delim delims) s e in
  split_loop (S (length s)) s delims e pos old.
