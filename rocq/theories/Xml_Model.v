(** Reading of XML files into trees and writing of trees.
    Source: Source/Misc/xml.cpp 321-423 (GetChar, RetChar, SkipComments), 493-522 (PushStream, PopStream),
    524-559 (ExpectOpenTag), 561-668 (ReadOpenTag), 669-693 (ReadCloseTag), 696-762 (ReadFinishTag), 764-846
    (AttributeName), 848-920 (AttributeValue), 1481-1554 (OpenTag, CloseTag), 1556-1578 (ReadUntil), 1582-1671
    (ReadXMLSub), 1673-1682 (ReadXML), 1684-1688 (Tabs), 1735-1752 (WriteXML);
    Source/Headers/inmost_xml.h 142-227 (XMLAttrib, XMLTag, XMLTree).
    The stack of input streams is one list of characters: at the end of an included file GetChar continues
    with the file that included it (333-339), so the text of the file is put in front of what is left.
    At the end of the last file the failbit is set together with the eofbit, so that the state becomes Failure
    (343-348) and never EndOfFile. Files are found by name only, folders are not modelled. Reports are not
    modelled. Characters above 126 are not printable. *)
From Coq Require Import Ascii String.
From Coq Require Import List Arith Bool.
From Verif Require Import Util Mtx_Model Expr_Model Word_Model.
Import ListNotations.
Open Scope nat_scope.

Definition lt_ := 60. Definition excl := 33. Definition quest := 63. Definition equal := 61. Definition lbrack := 91. Definition underscore := 95.
Definition tab := 9. Definition dot := 46.
(** isalpha, isprint of <cctype> *)
Definition is_alpha (c : nat) : bool := ((65 <=? c) && (c <=? 90)) || ((97 <=? c) && (c <=? 122)).
Definition is_print (c : nat) : bool := (32 <=? c) && (c <=? 126).

(** the states in which the functions below start and end, inmost_xml.h 45-75 *)
Inductive rstate := Intro | WaitTag | WaitAttribute | WaitAttributeValue | EndTag | ReadCloseTagSlash | Failure.

(** * ExpectOpenTag, 521-559: true, WaitTag after <; false, Intro before any other character *)
Fixpoint expect_open_tag (inp : text) : bool * rstate * text :=
  match inp with
  | [] => (false, Failure, [])
  | c :: inp' => if c =? lt_ then (true, WaitTag, inp') else if is_space c then expect_open_tag inp' else (false, Intro, inp)
  end.

(** * ReadOpenTag, 560-666, with SkipComments, 365-423.
    [Bang], [BangDash]: the characters read at 600 and 603; [InExcl p q], [InQuest p]: inside of SkipComments,
    p is the last character and q the one before; [InTag ret]: state ReadTag, last character first *)
Inductive openstate := OIntro | OWait | Bang | BangDash | InExcl (p q : nat) | InQuest (p : nat) | InTag (ret : text).
Definition cdata : text := str "![CDATA[".
Fixpoint read_open_tag (st : openstate) (inp : text) : text * rstate * text :=
  match inp with
  | [] => (match st with InTag ret => rev ret | _ => [] end, Failure, [])
  | c :: inp' =>
      match st with
      | OIntro => if c =? lt_ then read_open_tag OWait inp' else if is_space c then read_open_tag OIntro inp' else ([], Failure, inp')
      | OWait =>
          if c =? quest then read_open_tag (InQuest 0) inp'
          else if c =? excl then read_open_tag Bang inp'
          else if c =? slash then ([], ReadCloseTagSlash, inp)
          else if is_alpha c || (c =? underscore) then read_open_tag (InTag [c]) inp'
          else read_open_tag OWait inp'
      | Bang =>
          if c =? minus then read_open_tag BangDash inp'
          else if c =? lbrack then read_open_tag (InTag [c; excl]) inp'
          else read_open_tag OWait inp'
      | BangDash => if c =? minus then read_open_tag (InExcl 0 0) inp' else read_open_tag OWait inp'
      | InExcl p q => if (c =? gt) && (p =? minus) && (q =? minus) then read_open_tag OIntro inp' else read_open_tag (InExcl c p) inp'
      | InQuest p => if (c =? gt) && (p =? quest) then read_open_tag OIntro inp' else read_open_tag (InQuest c) inp'
      | InTag ret =>
          if is_space c then (rev ret, WaitAttribute, inp')
          else if (c =? slash) || (c =? gt) then (rev ret, EndTag, inp)
          else if is_alpha c || is_print c then
            if text_eqb (rev (c :: ret)) cdata then (rev (c :: ret), EndTag, inp') else read_open_tag (InTag (c :: ret)) inp'
          else read_open_tag (InTag ret) inp'
      end
  end.

(** * ReadCloseTag, 667-693; it can leave the state Failure *)
Definition read_close_tag (inp : text) : nat * rstate * text :=
  match inp with
  | [] => (0, Failure, [])
  | c :: inp' =>
      if c =? gt then (1, Intro, inp')
      else if c =? slash then
        match inp' with
        | [] => (0, Failure, [])
        | d :: inp'' => if d =? gt then (2, Intro, inp'') else (0, Failure, inp'')
        end
      else (0, Failure, inp')
  end.

(** * ReadFinishTag, 696-766: whether the name read is the given one *)
Inductive finstate := FWait | FSlash | FExcl (p q : nat) | FQuest (p : nat) | FName (ret : text).
Fixpoint read_finish (name : text) (st : finstate) (inp : text) : bool * rstate * text :=
  match inp with
  | [] => (false, Failure, [])
  | c :: inp' =>
      match st with
      | FWait => if is_space c then read_finish name FWait inp' else if c =? lt_ then read_finish name FSlash inp' else (false, Failure, inp')
      | FSlash =>
          if c =? quest then read_finish name (FQuest 0) inp'
          else if c =? excl then read_finish name (FExcl 0 0) inp'
          else if c =? slash then read_finish name (FName []) inp'
          else (false, Failure, inp')
      | FExcl p q => if (c =? gt) && (p =? minus) && (q =? minus) then read_finish name FWait inp' else read_finish name (FExcl c p) inp'
      | FQuest p => if (c =? gt) && (p =? quest) then read_finish name FWait inp' else read_finish name (FQuest c) inp'
      | FName ret =>
          if c =? gt then (text_eqb (rev ret) name, Intro, inp')
          else if is_alpha c || (negb (match ret with [] => true | _ => false end) && is_print c) then read_finish name (FName (c :: ret)) inp'
          else read_finish name (FName ret) inp'
      end
  end.
Definition read_finish_tag (name : text) (st : rstate) (inp : text) : bool * rstate * text :=
  match st with
  | Intro => read_finish name FWait inp
  | ReadCloseTagSlash => read_finish name FSlash inp
  | _ => (false, Failure, inp)
  end.

(** * AttributeName, 768-846; [ALt]: the character read at 784 *)
Inductive attrstate := AWait | ALt | AExcl (p q : nat) | AQuest (p : nat) | AName (ret : text).
Definition name_char (c : nat) : bool := is_alpha c || is_digit c || (c =? underscore) || (c =? minus) || (c =? dot) || (c =? colon).
Fixpoint read_attr_name (st : attrstate) (inp : text) : text * rstate * text :=
  match inp with
  | [] => (match st with AName ret => rev ret | _ => [] end, Failure, [])
  | c :: inp' =>
      match st with
      | AWait =>
          if is_space c then read_attr_name AWait inp'
          else if c =? lt_ then read_attr_name ALt inp'
          else if is_alpha c || (c =? underscore) then read_attr_name (AName [c]) inp'
          else if (c =? gt) || (c =? slash) then ([], EndTag, inp)
          else read_attr_name AWait inp'
      | ALt =>
          if c =? quest then read_attr_name (AQuest 0) inp'
          else if c =? excl then read_attr_name (AExcl 0 0) inp'
          else ([], Failure, inp')
      | AExcl p q => if (c =? gt) && (p =? minus) && (q =? minus) then read_attr_name AWait inp' else read_attr_name (AExcl c p) inp'
      | AQuest p => if (c =? gt) && (p =? quest) then read_attr_name AWait inp' else read_attr_name (AQuest c) inp'
      | AName ret =>
          if c =? equal then (rev ret, WaitAttributeValue, inp)
          else if is_space c then (rev ret, WaitAttributeValue, inp')
          else if name_char c then read_attr_name (AName (c :: ret)) inp'
          else (rev ret, Failure, inp')
      end
  end.
Definition attribute_name (st : rstate) (inp : text) : text * rstate * text :=
  match st with WaitAttribute => read_attr_name AWait inp | _ => ([], st, inp) end.

(** * AttributeValue, 848-931; in [VRead] the > or / that ends the tag is not returned to the stream *)
Inductive valstate := VWait | VRead | VQuote.
Fixpoint read_attr_value (st : valstate) (ret inp : text) : text * rstate * text :=
  match inp with
  | [] => (rev ret, Failure, [])
  | c :: inp' =>
      match st with
      | VWait => if is_space c then read_attr_value VWait ret inp' else if c =? equal then read_attr_value VRead ret inp' else read_attr_value VWait ret inp'
      | VRead =>
          let empty := match ret with [] => true | _ => false end in
          if is_space c && empty then read_attr_value VRead ret inp'
          else if (c =? quote) && empty then read_attr_value VQuote ret inp'
          else if (c =? gt) || (c =? slash) then (rev ret, EndTag, inp')
          else if is_space c then (rev ret, WaitAttribute, inp')
          else read_attr_value VRead (c :: ret) inp'
      | VQuote =>
          if c =? quote then (rev ret, WaitAttribute, inp')
          else if is_print c then read_attr_value VQuote (c :: ret) inp'
          else (rev ret, Failure, inp')
      end
  end.
Definition attribute_value (st : rstate) (inp : text) : text * rstate * text :=
  match st with WaitAttributeValue => read_attr_value VWait [] inp | EndTag => ([], st, inp) | _ => ([], st, inp) end.

(** * OpenTag, 1480-1534 *)
(** XMLTag, inmost_xml.h 149-181; the tag without contents that ends the search has finish = 3 *)
Record tag := mk_tag { tag_name : text; tag_attrs : list (text * text); tag_finish : nat }.
(** the loop over attributes, 1504-1512: the attributes kept, the name of the included file (last one) *)
Definition include_name : text := str "Include".
Fixpoint read_attributes (fuel : nat) (st : rstate) (inp : text) (attrs : list (text * text)) (inc : text) : list (text * text) * text * rstate * text :=
  match fuel with
  | O => (attrs, inc, st, inp)
  | S fuel' =>
      let '(name, st1, r1) := attribute_name st inp in
      match st1 with
      | EndTag | Failure => (attrs, inc, st1, r1)
      | _ =>
          let '(val, st2, r2) := attribute_value st1 r1 in
          if text_eqb name include_name then read_attributes fuel' st2 r2 attrs val
          else read_attributes fuel' st2 r2 (attrs ++ [(name, val)]) inc
      end
  end.
(** PushStream, 486-507: a file that cannot be opened is not put on the stack *)
Definition push_stream (files : text -> option text) (inc : text) (inp : text) : text :=
  match inc with [] => inp | _ => match files inc with Some f => f ++ inp | None => inp end end.
Definition open_tag (files : text -> option text) (st : rstate) (inp : text) : tag * rstate * text :=
  match st with
  | Intro =>
      let '(istag, st1, r1) := expect_open_tag inp in
      match st1 with
      | Failure => (mk_tag [] [] 0, st1, r1)
      | _ =>
          if istag then
            let '(name, st2, r2) := read_open_tag OWait r1 in
            if text_eqb name cdata then (mk_tag name [] 4, st2, r2)
            else match st2 with
                 | ReadCloseTagSlash => (mk_tag [] [] 3, st2, r2)
                 | _ =>
                     let '(attrs, inc, _, r3) := read_attributes (S (length r2)) st2 r2 [] [] in
                     let '(fin, st4, r4) := read_close_tag r3 in
                     (mk_tag name attrs fin, st4, push_stream files inc r4)
                 end
          else (mk_tag [] [] 5, st1, r1)
      end
  | _ => (mk_tag [] [] 0, Failure, inp)
  end.
(** CloseTag, 1536-1551 *)
Definition close_tag (t : tag) (st : rstate) (inp : text) : bool * rstate * text :=
  if tag_finish t =? 3 then (false, st, inp)
  else if tag_finish t =? 2 then (true, st, inp)
  else if tag_finish t =? 0 then (false, st, inp)
  else read_finish_tag (tag_name t) st inp.

(** * ReadUntil, 1553-1576: what was read with the stop mark at its end, or up to the end of the file *)
Definition ends_with (stop ret : text) : bool := text_eqb (rev (firstn (length stop) ret)) stop && (length stop <=? length ret).
Fixpoint read_until (stop ret inp : text) : text * text :=
  match inp with
  | [] => (rev ret, [])
  | c :: inp' => if ends_with stop (c :: ret) then (rev (c :: ret), inp') else read_until stop (c :: ret) inp'
  end.

(** * ReadXMLSub, ReadXML, 1578-1680 *)
Inductive tree := Node (name : text) (attrs : list (text * text)) (finish : nat) (children : list tree) (contents : text).
Definition node (t : tag) : tree := Node (tag_name t) (tag_attrs t) (tag_finish t) [] [].
Definition add_child (r c : tree) : tree := match r with Node n a f cs t => Node n a f (cs ++ [c]) t end.
Definition add_contents (r : tree) (d : text) : tree := match r with Node n a f cs t => Node n a f cs (t ++ d) end.
(** 1609-1611: the last character goes, then the spaces at the end *)
Fixpoint drop_spaces (d : text) : text := match d with c :: d' => if is_space c then drop_spaces d' else d | [] => [] end.
Definition raw_data (d : text) : text := rev (drop_spaces (rev (removelast d))).
(** [Throws]: the exception of resize with a negative length, 1624; [NoFuel]: not finished yet *)
Inductive outcome (A : Type) := Done (a : A) | Throws | NoFuel.
Arguments Done {A}. Arguments Throws {A}. Arguments NoFuel {A}.
(** whether ReadXMLSub returns 0, the tree with what was added, the state and the rest of the file *)
Definition sub := outcome (bool * tree * rstate * text).
Fixpoint read_sub (files : text -> option text) (fuel : nat) (st : rstate) (inp : text) (root : tree) : sub :=
  match fuel with
  | O => NoFuel
  | S fuel' =>
      let '(t, st1, r1) := open_tag files st inp in
      if tag_finish t =? 3 then Done (true, root, st1, r1)
      else if tag_finish t =? 5 then
        let '(d, r2) := read_until [lt_] [] r1 in
        (* RetChar at 1618 returns the stop mark unless the file has ended *)
        read_sub files fuel' Intro (match rev d with c :: _ => if c =? lt_ then lt_ :: r2 else r2 | [] => r2 end) (add_contents root (raw_data d))
      else if tag_finish t =? 4 then
        let '(d, r2) := read_until (str "]]>") [] r1 in
        if length d <? 3 then Throws
        else read_sub files fuel' Intro r2 (add_contents root (firstn (length d - 3) d))
      else if tag_finish t =? 0 then Done (false, root, st1, r1)
      else
        match (if tag_finish t =? 1 then read_sub files fuel' st1 r1 (node t) else Done (true, node t, st1, r1)) with
        | Done (true, c, st2, r2) =>
            let '(ok, st3, r3) := close_tag t st2 r2 in
            if ok then read_sub files fuel' st3 r3 (add_child root c) else Done (false, add_child root c, st3, r3)
        | Done (false, c, st2, r2) => Done (false, add_child root c, st2, r2)
        | Throws => Throws
        | NoFuel => NoFuel
        end
  end.
(** the tree, the state of the reader and the rest of the file; that reading failed is only reported *)
Definition read_xml (files : text -> option text) (fuel : nat) (inp : text) : outcome (tree * rstate * text) :=
  let '(t, st1, r1) := open_tag files Intro inp in
  match read_sub files fuel st1 r1 (node t) with
  | Done (_, root, st2, r2) => let '(_, st3, r3) := close_tag t st2 r2 in Done (root, st3, r3)
  | Throws => Throws
  | NoFuel => NoFuel
  end.

(** * WriteXML, 1733-1752 *)
Definition tabs (n : nat) : text := repeat tab n.
Fixpoint write_attrs (off : nat) (attrs : list (text * text)) : text :=
  match attrs with
  | [] => []
  | (n, v) :: l => nl :: tabs (off + 1) ++ n ++ equal :: quote :: v ++ quote :: write_attrs off l
  end.
Fixpoint write_xml (off : nat) (t : tree) : text :=
  match t with
  | Node name attrs finish children contents =>
      tabs off ++ lt_ :: name ++ write_attrs off attrs ++
      (if finish =? 2 then [slash; gt; nl]
       else [gt; nl] ++ flat_map (write_xml (off + 1)) children ++
            (match contents with [] => [] | _ => tabs (off + 1) ++ str "<![CDATA[" ++ contents ++ str "]]>" ++ [nl] end) ++
            tabs off ++ lt_ :: slash :: name ++ [gt; nl])
  end.
