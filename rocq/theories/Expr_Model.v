(** The interpreter of arithmetic expressions of the XML reader.
    Source: Source/Misc/xml.cpp 19-32 (get_priority), 130-151 (Expand), 153-200 (MakePolish), 207-292
    (Run), 302-311 (Evaluate), 1223-1246 (EvaluateExpression, ConvertMultiplier).
    Text is a list of character codes. Numbers are an arbitrary type with four operations, a change of
    sign and a conversion from text (atof), so the results hold for double. The messages to the console
    are not modelled. *)
From Coq Require Import Ascii String.
From Coq Require Import List Arith NArith ZArith Bool.
From Verif Require Import Mtx_Model.
Import ListNotations.

Definition lpar := 40. Definition rpar := 41. Definition star := 42. Definition plus := 43. Definition minus := 45.
Definition slash := 47. Definition tilde := 126.
(** get_priority, 19-32; None is -1 *)
Definition prio (c : nat) : option nat :=
  if c =? lpar then Some 0 else if c =? rpar then Some 1
  else if (c =? plus) || (c =? minus) then Some 8
  else if (c =? star) || (c =? slash) then Some 9
  else if c =? tilde then Some 10 else None.

(** Expand, 130-151 *)
Definition flush (put : text) : list text := match put with [] => [] | _ => [put] end.
Fixpoint expand_from (put inp : text) : list text :=
  match inp with
  | [] => flush put
  | c :: inp' => match prio c with Some _ => flush put ++ [c] :: expand_from [] inp' | None => expand_from (put ++ [c]) inp' end
  end.
Definition expand (inp : text) : list text := expand_from [] inp.

(** input[k].size() == 1 && get_priority(input[k][0]) != -1 *)
Definition oper (t : text) : option (nat * nat) := match t with [c] => match prio c with Some p => Some (c, p) | None => None end | _ => None end.
(** 166-170; the stack holds single characters, the top comes first *)
Fixpoint pop_while (p : nat) (stack : list nat) (ret : list text) : list nat * list text :=
  match stack with
  | [] => ([], ret)
  | s :: stack' =>
      match prio s with
      | Some q => if p <=? q then pop_while p stack' (ret ++ [[s]]) else (stack, ret)
      | None => (stack, ret)
      end
  end.
(** 157-194; [prev]: the token before; stack, output, error_state was set *)
Fixpoint polish_loop (prev : option text) (inp : list text) (stack : list nat) (ret : list text) : list nat * list text * bool :=
  match inp with
  | [] => (stack, ret, false)
  | t :: inp' =>
      match oper t with
      | None => polish_loop (Some t) inp' stack (ret ++ [t])
      | Some (c, p) =>
          let '(stack, ret) := if c =? lpar then (stack, ret) else pop_while p stack ret in
          if c =? rpar then
            match stack with
            | [] => (stack, ret, true)
            | s :: stack' => if s =? lpar then polish_loop (Some t) inp' stack' ret else (stack, ret, true)
            end
          else if (c =? minus) && (match prev with None => true | Some t' => match oper t' with Some _ => true | None => false end end) then polish_loop (Some t) inp' (tilde :: stack) ret
          else polish_loop (Some t) inp' (c :: stack) ret
      end
  end.
(** 195-200 *)
Definition polish (inp : list text) : list text * bool :=
  let '(stack, ret, e) := polish_loop None inp [] [] in (ret ++ map (fun c => [c]) stack, e).

Section Num.
  Context {num : Type} (add sub mul div : num -> num -> num) (neg : num -> num) (atof : text -> num) (to_int : num -> Z).
  (** one step of Run, 212-284; None: less arguments than needed *)
  Definition run1 (t : text) (stack : list num) : option (list num) :=
    match oper t with
    | None => Some (atof t :: stack)
    | Some (c, _) =>
        let binary f := match stack with r :: l :: stack' => Some (f l r :: stack') | _ => None end in
        if c =? plus then binary add
        else if c =? minus then binary sub
        else if c =? star then binary mul
        else if c =? slash then binary div
        else if c =? tilde then match stack with l :: stack' => Some (neg l :: stack') | [] => None end
        else Some stack
    end.
  Fixpoint run_from (ts : list text) (stack : list num) : option (list num) :=
    match ts with [] => Some stack | t :: ts' => match run1 t stack with Some s => run_from ts' s | None => None end end.
  (** 285-292: None is 1.0e+20 with error_state set *)
  Definition run (ts : list text) : option num := match run_from ts [] with Some [x] => Some x | _ => None end.
  (** Evaluate: the value (None: 1.0e+20) and whether an error was noted *)
  Definition evaluate (s : text) : option num * bool :=
    let '(p, e) := polish (expand s) in
    let v := run p in (v, match v with Some _ => e | None => true end).

  (** 1233-1243: every "SetSize" is replaced; [skip]: characters of the current occurrence left *)
  Definition key : text := str "SetSize".
  Fixpoint is_prefix (p s : text) : bool :=
    match p, s with [], _ => true | a :: p', b :: s' => (a =? b) && is_prefix p' s' | _ :: _, [] => false end.
  Fixpoint replace (by_ : text) (skip : nat) (s : text) : text :=
    match s with
    | [] => []
    | c :: s' =>
        match skip with
        | S k => replace by_ k s'
        | O => if is_prefix key s then by_ ++ replace by_ 6 s' else c :: replace by_ 0 s'
        end
    end.
  (** operator << for int *)
  Definition show_int (z : Z) : text := match z with Z.neg p => minus :: show_uint (Npos p) | _ => show_uint (Z.to_N z) end.
  (** ConvertMultiplier; (int)intrp.Evaluate(expression); None: the conversion of 1.0e+20 *)
  Definition convert (s : text) (size : Z) : option Z :=
    match s with
    | [] => Some 1%Z
    | _ => match fst (evaluate (replace (show_int size) 0 s)) with Some x => Some (to_int x) | None => None end
    end.
End Num.
