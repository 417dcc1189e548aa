(** Words and data sets of the XML mesh format.
    Source: Source/Misc/xml.cpp 34-61 (ConvertHex, atoc, CharToHex, isspacestr), 63-78
    (ReferenceToString), 81-127 (sstrip, VariableToString), 981-1135 (GetContentsWord,
    ReadCloseContents), 1138-1221 (atoe, atoh, atorh, atov), 1248-1479 (SplitValueMultiplier,
    ParseCommaSeparated, ParseReal, ParseInteger, ParseBulk, ParseReference, ParseVariable);
    Source/IO/mesh_xml_file.cpp 612-620, 727-960 (reading of data), 1204-1460 (writing of data).
    Text is a list of character codes. Reports to the console and names of included files are not
    modelled. None as a result stands for an exception, for an access outside of an array and for a
    loop that does not end. *)
From Coq Require Import Ascii String.
From Coq Require Import List Arith NArith ZArith Bool Reals.
From Flocq Require Import Core.Core.
From Verif Require Import Util Mtx_Model Expr_Model Handle_Model.
Import ListNotations.
Open Scope nat_scope.

Definition quote := 34. Definition apos := 39. Definition comma := 44. Definition colon := 58. Definition semicolon := 59.
Definition gt := 62. Definition backslash := 92. Definition rbrack := 93. Definition lbrace := 123. Definition rbrace := 125.

(** * GetContentsWord, xml.cpp 981-1098 *)
Inductive lexstate := Wait | Read | InVector | Mult | Skopes | Quotes.
(** the word and the rest; [Ended]: the state is EndContents; [NoEnd]: the file ends *)
Inductive wordres := Word (w rest : text) | Ended (w rest : text) | NoEnd.
(** one call; [te]: testend, [ret]: the word so far, last character first *)
Fixpoint word (st : lexstate) (te : nat) (ret : text) (inp : text) : wordres :=
  match inp with
  | [] => NoEnd
  | c :: inp' =>
      let brack := (c =? rbrack) && match st with Quotes => false | _ => true end in
      let maybe := (c =? gt) && (te =? 2) in
      if maybe && match ret with a :: b :: _ => (a =? rbrack) && (b =? rbrack) | _ => false end then Ended (rev (skipn 2 ret)) inp
      else
        let te := if brack then S te else if maybe then 0 else te in
        match st with
        | Wait =>
            if is_space c then word Wait te ret inp'
            else if c =? lbrace then word InVector te (c :: ret) inp'
            else if c =? star then word Mult te (c :: ret) inp'
            else if c =? quote then word Quotes te (c :: ret) inp'
            else word Read te (c :: ret) inp'
        | Read =>
            if is_space c then Word (rev ret) inp'
            else if c =? star then word Mult te (c :: ret) inp'
            else word Read te (c :: ret) inp'
        | InVector =>
            if c =? rbrace then word Read te (c :: ret) inp'
            else if is_space c then word InVector te ret inp'
            else word InVector te (c :: ret) inp'
        | Mult =>
            if is_space c then if hd 0 ret =? star then word Mult te ret inp' else Word (rev ret) inp'
            else if (c =? lpar) && (hd 0 ret =? star) then word Skopes te (c :: ret) inp'
            else word Mult te (c :: ret) inp'
        | Skopes =>
            if c =? rpar then Word (rev (c :: ret)) inp'
            else if is_space c then word Skopes te ret inp'
            else word Skopes te (c :: ret) inp'
        | Quotes =>
            if c =? quote then if hd 0 ret =? backslash then word Quotes te (c :: tl ret) inp' else word Read te (c :: ret) inp'
            else word Quotes te (c :: ret) inp'
        end
  end.
Definition get_word (inp : text) : wordres := word Wait 0 [] inp.
(** for(val = GetContentsWord(); !isContentsEnded(); val = GetContentsWord()): the words seen by the
    body of the loop; what is left starts with the > that closes the contents *)
Fixpoint words_fuel (fuel : nat) (inp : text) : option (list text * text) :=
  match fuel with
  | O => None
  | S fuel' =>
      match get_word inp with
      | NoEnd => None
      | Ended _ rest => Some ([], rest)
      | Word w rest => match words_fuel fuel' rest with Some (ws, rest') => Some (w :: ws, rest') | None => None end
      end
  end.
Definition words (inp : text) : option (list text * text) := words_fuel (S (length inp)) inp.
(** the same loop when the body takes a second word (mesh_xml_file.cpp 729-756): after the end of the
    contents GetContentsWord returns an empty word and the loop stops *)
Fixpoint pairs_fuel (fuel : nat) (inp : text) : option (list (text * text) * text) :=
  match fuel with
  | O => None
  | S fuel' =>
      match get_word inp with
      | NoEnd => None
      | Ended _ rest => Some ([], rest)
      | Word a rest =>
          match get_word rest with
          | NoEnd => None
          | Ended b rest' => Some ([(a, b)], rest')
          | Word b rest' => match pairs_fuel fuel' rest' with Some (ps, rest'') => Some ((a, b) :: ps, rest'') | None => None end
          end
      end
  end.
Definition pairs (inp : text) : option (list (text * text) * text) := pairs_fuel (S (length inp)) inp.

(** * Values of a word *)
(** std::string::find and substr: what comes before and after the first [c] *)
Fixpoint cut (c : nat) (s : text) : option (text * text) :=
  match s with
  | [] => None
  | x :: s' => if x =? c then Some ([], s') else match cut c s' with Some (a, b) => Some (x :: a, b) | None => None end
  end.
(** SplitValueMultiplier, 1248-1261 *)
Definition split_mult (w : text) : text * text := match cut star w with Some p => p | None => (w, []) end.
(** isspacestr, 55-60 *)
Definition blank (s : text) : bool := forallb is_space s.
Section Values.
  Context {A : Type} (single : text -> option (list A)) (elem : text -> option A) (convert : text -> Z -> option Z).
  (** the loop of ParseReal and others, 1301-1316; [s]: the value from comma_prev on *)
  Definition push (s : text) (r : option (list A)) : option (list A) :=
    if blank s then r else match elem s, r with Some a, Some l => Some (a :: l) | _, _ => None end.
  Fixpoint vec (fuel : nat) (s : text) : option (list A) :=
    match fuel with
    | O => None
    | S fuel' =>
        match cut comma s with
        | Some (a, rest) => push a (vec fuel' rest)
        | None => match cut rbrace s with Some (a, _) => push a (Some []) | None => None end
        end
    end.
  (** ParseReal, ParseInteger, ParseBulk, ParseReference: the values and the number of repetitions *)
  Definition parse (w : text) (size : Z) : option (list A * Z) :=
    let '(v, m) := split_mult w in
    match match v with c :: v' => if c =? lbrace then vec (S (length v')) v' else single v | [] => single v end, convert m size with
    | Some l, Some r => Some (l, r)
    | _, _ => None
    end.
End Values.

(** atoi; numbers outside of int are not treated apart *)
Definition atoi (t : text) : Z :=
  match skip_ws t with
  | c :: t' => if c =? minus then (- Z.of_N (fst (fst (read_digits t' 0 0))))%Z
               else if c =? plus then Z.of_N (fst (fst (read_digits t' 0 0))) else Z.of_N (fst (fst (read_digits (c :: t') 0 0)))
  | [] => 0%Z
  end.
(** ConvertHex 34-40, atoc 41-44, CharToHex 46-53; characters are numbers 0 to 255 *)
Definition tolower (c : nat) : nat := if (65 <=? c) && (c <=? 90) then c + 32 else c.
Definition convert_hex (c : nat) : Z :=
  let r := (Z.of_nat (tolower c) - 48)%Z in
  let r := if (10 <? r)%Z then (r - 7)%Z else r in
  if (15 <? r)%Z then (r - 32)%Z else r.
Definition atoc (a b : nat) : nat := Z.to_nat ((convert_hex a * 16 + convert_hex b) mod 256).
Definition hexchar (k : nat) : nat := nth k (str "0123456789ABCDEF") 0.
Definition char_to_hex (c : nat) : text := [hexchar (c / 16 mod 16); hexchar (c mod 16)].
(** ParseBulk, 1385-1426 *)
Fixpoint bytes (v : text) : list nat := match v with a :: b :: v' => atoc a b :: bytes v' | _ => [] end.
Definition bulk_single (v : text) : option (list nat) :=
  if hd 0 v =? quote then if length v <? 2 then None else Some (firstn (length v - 2) (tl v))
  else if (2 <=? length v) && (length v mod 2 =? 0) then Some (bytes v) else Some [].
Definition bulk_elem (t : text) : option nat := Some (atoc (nth 0 t 0) (nth 1 t 0)).
Definition int_single (v : text) : option (list Z) := Some [atoi v].
Definition int_elem (t : text) : option Z := Some (atoi t).
(** atoe, 1154-1167; the element types are the numbers of the code *)
Definition text_eqb (a b : text) : bool := if list_eq_dec Nat.eq_dec a b then true else false.
Definition atoe (t : text) : Z :=
  if text_eqb t (str "Cell") then CELL else if text_eqb t (str "Edge") then EDGE else if text_eqb t (str "Face") then FACE
  else if text_eqb t (str "Node") then NODE else if text_eqb t (str "Set") then ESET else if text_eqb t (str "Mesh") then MESH else NONE.
(** atoh, 1169-1182 *)
Definition atoh (t : text) : Z * Z :=
  if text_eqb t (str "None") then (NONE, 0%Z) else if text_eqb t (str "None:0") then (NONE, 0%Z)
  else match cut colon t with None => (NONE, 1%Z) | Some (ty, off) => (atoe ty, atoi off) end.
(** ReferenceToString, 63-78, and the writer's text of an invalid reference, mesh_xml_file.cpp 1344 *)
Definition type_name (ty : Z) : text :=
  if (ty =? NODE)%Z then str "Node:" else if (ty =? EDGE)%Z then str "Edge:" else if (ty =? FACE)%Z then str "Face:"
  else if (ty =? CELL)%Z then str "Cell:" else if (ty =? ESET)%Z then str "Set:" else if (ty =? MESH)%Z then str "Mesh:" else [].
Definition show_reference (r : Z * Z) : text := if (fst r =? NONE)%Z then str "None:0" else type_name (fst r) ++ show_int (snd r).
Definition ref_single (v : text) : option (list (Z * Z)) := Some [atoh v].
Definition ref_elem (t : text) : option (Z * Z) := Some (atoh t).
(** links[ElementNum(type)][pos - offset], mesh_xml_file.cpp 878; [links] has five tables (612-620) *)
Definition resolve {H : Type} (links : list (list H)) (offset : Z) (r : Z * Z) : option H :=
  let p := (snd r - offset)%Z in
  if (p <? 0)%Z then None else match nth_error links (Z.to_nat (ElementNum (fst r))) with Some l => nth_error l (Z.to_nat p) | None => None end.
(** atorh, 1184-1200; str.substr(dots1+1, dots2-dots1) *)
Definition atorh (t : text) : text * (Z * Z) :=
  if text_eqb t (str "None") then ([], (NONE, 0%Z)) else if text_eqb t (str ":None:0") then ([], (NONE, 0%Z))
  else match cut colon t with
       | None => ([], (NONE, 1%Z))
       | Some (mesh, rest) =>
           match cut colon rest with
           | Some (ty, off) => (mesh, (atoe (ty ++ [colon]), atoi off))
           | None => (mesh, (atoe rest, atoi t))
           end
       end.
Definition show_remote (mesh : text) (r : Z * Z) : text := if (fst r =? NONE)%Z then str ":None:0" else mesh ++ colon :: show_reference r.

(** sstrip, 81-89; text of at least 2048 characters is left as it is *)
Definition strip (s : text) : text := rev (skip_ws (rev (skip_ws s))).
(** ParseCommaSeparated, 1272-1286 *)
Fixpoint separated (fuel sym : nat) (s : text) : list text :=
  match fuel with
  | O => []
  | S f => match cut sym s with Some (a, rest) => strip a :: separated f sym rest | None => [strip s] end
  end.
Section Variable_.
  (** a number type with its text; a variable: the value and the pairs of derivative and index *)
  Context {num : Type} (atof : text -> num) (show : num -> text).
  (** VariableToString, 102-127, with derivatives *)
  Fixpoint show_derivatives (l : list (num * N)) : text :=
    match l with
    | [] => []
    | (d, i) :: l' => semicolon :: show d ++ semicolon :: show_uint i ++ show_derivatives l'
    end.
  Definition show_variable (v : num * list (num * N)) : text :=
    lpar :: show (fst v) ++ semicolon :: show_uint (N.of_nat (length (snd v))) ++ show_derivatives (snd v) ++ [rpar].
  (** 1216-1220: for(q = 2; q < Size; q += 2) *)
  Fixpoint set_entries (fuel q : nat) (d : list text) (es : list (num * Z)) : option (list (num * Z)) :=
    match fuel with
    | O => Some es
    | S f =>
        if q <? length es then
          match nth_error d q, nth_error d (S q) with
          | Some a, Some b => set_entries f (q + 2) d (lset es q (atof a, atoi b))
          | _, _ => None
          end
        else Some es
    end.
  (** atov, 1203-1221; [fresh]: what Resize puts into new entries *)
  Definition atov (fresh : num * Z) (t : text) : option (num * list (num * Z)) :=
    let d := separated (S (length t)) semicolon (removelast (tl t)) in
    match nth_error d 0, nth_error d 1 with
    | Some v, Some k => let size := Z.to_nat (atoi k) in match set_entries size 2 d (repeat fresh size) with Some es => Some (atof v, es) | None => None end
    | _, _ => None
    end.
End Variable_.

(** * Reading of a data set, mesh_xml_file.cpp 727-960 *)
Section Data.
  Context {A : Type} (single : text -> option (list A)) (elem : text -> option A) (convert : text -> Z -> option Z).
  (** the values of a word with their repetitions; [l] from 0 to Repeat-1, [q] through the vector *)
  Definition flat (V : list A) (R : Z) : list A := concat (repeat V (Z.to_nat R)).
  (** 770-781: fixed size tag, dense: value number k goes to data[k % size], a full record moves [it];
      [cur] is the record that data refers to, it is not moved past the last element *)
  Fixpoint fill (sz n k : nat) (vs : list A) (it cur : nat) (D : list (list A)) : nat * list (list A) :=
    match vs with
    | [] => (it, D)
    | v :: vs' =>
        let D := lset D cur (lset (nth cur D []) (k mod sz) v) in
        if S k mod sz =? 0 then fill sz n (S k) vs' (S it) (if S it <? n then S it else cur) D else fill sz n (S k) vs' it cur D
    end.
  (** one word; the size of the tag: [Some] fixed, [None] variable. RealArray of *it beyond the last
      element is an access outside. A variable record is resized and filled *)
  Definition put_dense (sz : option nat) (V : list A) (R : Z) (it : nat) (D : list (list A)) : option (nat * list (list A)) :=
    if it <? length D then
      match sz with
      | Some s => Some (fill s (length D) 0 (flat V R) it it D)
      | None => if (R <? 0)%Z then None else Some (S it, lset D it (flat V R))
      end
    else None.
  Fixpoint put_words (sz : option nat) (size : Z) (ws : list text) (it : nat) (D : list (list A)) : option (list (list A)) :=
    match ws with
    | [] => Some D
    | w :: ws' =>
        match parse single elem convert w size with
        | None => None
        | Some (V, R) => match put_dense sz V R it D with Some (it', D') => put_words sz size ws' it' D' | None => None end
        end
    end.
  Definition read_dense (sz : option nat) (D : list (list A)) (inp : text) : option (list (list A) * text) :=
    match words inp with
    | None => None
    | Some (ws, rest) => match put_words sz (Z.of_nat (length D)) ws 0 D with Some D' => Some (D', rest) | None => None end
    end.
  (** sparse: an index and a value; a record of wrong size is BadFile *)
  Definition put_sparse (sz : option nat) (off : Z) (V : list A) (R : Z) (D : list (option (list A))) : option (list (option (list A))) :=
    if (off <? 0)%Z || (Z.of_nat (length D) <=? off)%Z || (R <? 0)%Z then None
    else if match sz with Some s => length (flat V R) =? s | None => true end then Some (lset D (Z.to_nat off) (Some (flat V R))) else None.
  Fixpoint put_pairs (index : text -> option Z) (sz : option nat) (size : Z) (ps : list (text * text)) (D : list (option (list A))) : option (list (option (list A))) :=
    match ps with
    | [] => Some D
    | (a, b) :: ps' =>
        match index a, parse single elem convert b size with
        | Some off, Some (V, R) => match put_sparse sz off V R D with Some D' => put_pairs index sz size ps' D' | None => None end
        | _, _ => None
        end
    end.
  Definition read_sparse (index : text -> option Z) (sz : option nat) (D : list (option (list A))) (inp : text) : option (list (option (list A)) * text) :=
    match pairs inp with
    | None => None
    | Some (ps, rest) => match put_pairs index sz (Z.of_nat (length D)) ps D with Some D' => Some (D', rest) | None => None end
    end.
End Data.
(** the index of an element: 754 *)
Definition number_index (w : text) : option Z := Some (atoi w).
(** the index of a set: 732-753; names in apostrophes, or starting with two quotes *)
Fixpoint find_name (k : nat) (names : list text) (w : text) : option Z :=
  match names with [] => None | a :: l => if text_eqb a w then Some (Z.of_nat k) else find_name (S k) l w end.
Definition set_index (names : list text) (w : text) : option Z :=
  if ((hd 0 w =? apos) && (last w 0 =? apos)) || ((hd 0 w =? quote) && (nth 1 w 0 =? quote)) then find_name 0 names (removelast (tl w)) else Some (atoi w).

(** * Writing of a data set, mesh_xml_file.cpp 1204-1460 *)
Section Writer.
  Context {A : Type} (show : A -> text).
  Fixpoint join (l : list A) : text := match l with [] => [] | [a] => show a | a :: l' => show a ++ comma :: join l' end.
  (** one value, or values in braces *)
  Definition record (d : list A) : text := match d with [a] => show a | _ => lbrace :: join d ++ [rbrace] end.
  Definition newline : text := [10; 9; 9; 9].
  (** endl_count *)
  Definition separator (count : nat) : text * nat := if 8 <? count then (newline, 0) else ([sp], count).
  Fixpoint write_dense (count : nat) (D : list (list A)) : text :=
    match D with
    | [] => []
    | [] :: D' => str " { } " ++ write_dense count D'
    | d :: D' => let '(s, count') := separator (count + length d) in record d ++ s ++ write_dense count' D'
    end.
  (** [i]: the number of the element, None: HaveData is false *)
  Fixpoint write_sparse (i count : nat) (D : list (option (list A))) : text :=
    match D with
    | [] => []
    | Some (a :: l) :: D' => let '(s, count') := separator (S count + length (a :: l)) in show_uint (N.of_nat i) ++ sp :: record (a :: l) ++ s ++ write_sparse (S i) count' D'
    | _ :: D' => write_sparse (S i) count D'
    end.
  (** what follows "<![CDATA[" and what ends the contents *)
  Definition contents (records : text) : text := newline ++ records ++ newline ++ str "]]>".
End Writer.
(** * Real numbers *)
(** fout << data[q] and fout << xyz[q] with the default precision of a stream (mesh_xml_file.cpp 1052,
    1066, 1243: it is never changed): the text has the number rounded to six digits; atof rounds it to a
    double again. The text itself is not modelled *)
Definition text_value (x : R) : R := round radix10 (FLX_exp 6) ZnearestE x.
Definition reread6 (x : R) : R := rnd2 (text_value x).
