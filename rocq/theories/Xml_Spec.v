(** XML documents with all their spacing, the texts they have and the trees they describe. *)
From Coq Require Import Ascii String.
From Coq Require Import List Arith Bool.
From Verif Require Import Word_Spec Xml_Model.
Import ListNotations.

Definition alpha (c : nat) : Prop := 65 <= c <= 90 \/ 97 <= c <= 122.
Definition digit (c : nat) : Prop := 48 <= c <= 57.
Definition printable (c : nat) : Prop := 32 <= c <= 126.
(** the text before [stop] when [stop] comes first directly after it *)
Definition ends_first (stop t : list nat) : Prop := forall u v, t ++ stop = u ++ stop ++ v -> v = [].

(** comments, and spaces with comments between *)
Inductive comment := Dashes (t : list nat) | Question (t : list nat).
Definition comment_text (c : comment) : list nat := match c with Dashes t => text_of "<!--" ++ t ++ text_of "-->" | Question t => text_of "<?" ++ t ++ text_of "?>" end.
Definition comment_ok (c : comment) : Prop := match c with Dashes t => ends_first (text_of "-->") t | Question t => ends_first (text_of "?>") t end.
Definition misc := (list (list nat * comment) * list nat)%type.
Definition misc_text (g : misc) : list nat := flat_map (fun p => fst p ++ comment_text (snd p)) (fst g) ++ snd g.
Definition misc_ok (g : misc) : Prop := Forall (fun p => spaces (fst p) /\ comment_ok (snd p)) (fst g) /\ spaces (snd g).

(** an attribute, with the spaces before its name, before and after the equality sign *)
Record attribute := { before : list nat; attr_name : list nat; eq_left : list nat; eq_right : list nat; value : list nat }.
Definition attr_text (a : attribute) : list nat := before a ++ attr_name a ++ eq_left a ++ [ch "="] ++ eq_right a ++ [ch """"] ++ value a ++ [ch """"].
Definition attr_name_ok (n : list nat) : Prop :=
  match n with
  | [] => False
  | c :: n' => (alpha c \/ c = ch "_") /\ Forall (fun c => alpha c \/ digit c \/ In c (text_of "_-.:")) n'
  end.
Definition value_ok (v : list nat) : Prop := Forall (fun c => printable c /\ c <> ch """") v.
Definition attr_ok (a : attribute) : Prop := spaces (before a) /\ attr_name_ok (attr_name a) /\ spaces (eq_left a) /\ spaces (eq_right a) /\ value_ok (value a).
(** the name of the tag is followed by a space when there are attributes *)
Definition attrs_ok (l : list attribute) : Prop := Forall attr_ok l /\ match l with [] => True | a :: _ => before a <> [] end.
Definition is_include (a : attribute) : bool := if list_eq_dec Nat.eq_dec (attr_name a) (text_of "Include") then true else false.
Definition kept (l : list attribute) : list (list nat * list nat) := map (fun a => (attr_name a, value a)) (filter (fun a => negb (is_include a)) l).
(** the file that the last Include names *)
Definition included (files : list nat -> option (list nat)) (l : list attribute) : list nat :=
  match rev (filter is_include l) with
  | [] => []
  | a :: _ => match value a with [] => [] | v => match files v with Some f => f | None => [] end end
  end.
Definition tag_name_ok (n : list nat) : Prop :=
  match n with [] => False | c :: n' => alpha c /\ Forall (fun c => printable c /\ c <> ch " " /\ c <> ch "/" /\ c <> ch ">") n' end.

(** documents: <name attributes/>, or <name attributes> ... </name>; a tag that includes a file has the parts
    [file] in that file, followed by the parts in its own file *)
Inductive doc :=
  | Stub (name : list nat) (attrs : list attribute) (close : list nat)
  | Elem (name : list nat) (attrs : list attribute) (close : list nat) (file body : parts) (last : misc)
with parts :=
  | Nil
  | Child (g : misc) (d : doc) (ps : parts)
  | Raw (sp t : list nat) (ps : parts)
  | Data (g : misc) (t : list nat) (ps : parts).
Definition open_text (name : list nat) (attrs : list attribute) (close : list nat) : list nat := ch "<" :: name ++ flat_map attr_text attrs ++ close.
Fixpoint doc_text (d : doc) : list nat :=
  match d with
  | Stub n l c => open_text n l c ++ text_of "/>"
  | Elem n l c file body last => open_text n l c ++ text_of ">" ++ parts_text body ++ misc_text last ++ text_of "</" ++ n ++ text_of ">"
  end
with parts_text (ps : parts) : list nat :=
  match ps with
  | Nil => []
  | Child g d ps' => misc_text g ++ doc_text d ++ parts_text ps'
  | Raw sp t ps' => sp ++ t ++ parts_text ps'
  | Data g t ps' => misc_text g ++ text_of "<![CDATA[" ++ t ++ text_of "]]>" ++ parts_text ps'
  end.
(** text without <, trimmed; it does not follow a comment, and not other such text *)
Definition raw_ok (t : list nat) : Prop := t <> [] /\ without ["<"%char] t /\ ~ space (hd 0 t) /\ ~ space (last t 0).
Definition open_ok (n : list nat) (l : list attribute) (close : list nat) : Prop := tag_name_ok n /\ attrs_ok l /\ spaces close.
Definition not_raw (ps next : parts) : Prop := match ps with Nil => match next with Raw _ _ _ => False | _ => True end | Raw _ _ _ => False | _ => True end.
Fixpoint doc_ok (files : list nat -> option (list nat)) (d : doc) : Prop :=
  match d with
  | Stub n l c => open_ok n l c /\ included files l = []
  | Elem n l c file body last => open_ok n l c /\ included files l = parts_text file /\ parts_ok files file body /\ parts_ok files body Nil /\ misc_ok last
  end
with parts_ok (files : list nat -> option (list nat)) (ps next : parts) : Prop :=
  match ps with
  | Nil => True
  | Child g d ps' => misc_ok g /\ doc_ok files d /\ parts_ok files ps' next
  | Raw sp t ps' => spaces sp /\ raw_ok t /\ not_raw ps' next /\ parts_ok files ps' next
  | Data g t ps' => misc_ok g /\ ends_first (text_of "]]>") t /\ parts_ok files ps' next
  end.
(** the tree of a document: elements in order, and all text in order in one piece *)
Fixpoint texts (ps : parts) : list nat := match ps with Nil => [] | Child _ _ ps' => texts ps' | Raw _ t ps' => t ++ texts ps' | Data _ t ps' => t ++ texts ps' end.
Fixpoint doc_tree (d : doc) : tree :=
  match d with
  | Stub n l _ => Node n (kept l) 2 [] []
  | Elem n l _ file body _ => Node n (kept l) 1 (elements file ++ elements body) (texts file ++ texts body)
  end
with elements (ps : parts) : list tree :=
  match ps with Nil => [] | Child _ d ps' => doc_tree d :: elements ps' | Raw _ _ ps' => elements ps' | Data _ _ ps' => elements ps' end.
Definition is_elem (d : doc) : Prop := match d with Elem _ _ _ _ _ _ => True | Stub _ _ _ => False end.

(** trees that can be written *)
Fixpoint tree_ok (t : tree) : Prop :=
  match t with
  | Node n l f cs d =>
      tag_name_ok n /\ Forall (fun a => attr_name_ok (fst a) /\ fst a <> text_of "Include" /\ value_ok (snd a)) l /\
      (f = 1 \/ (f = 2 /\ cs = [] /\ d = [])) /\
      (fix all (cs : list tree) : Prop := match cs with [] => True | c :: cs' => tree_ok c /\ all cs' end) cs /\
      ends_first (text_of "]]>") d
  end.
Definition is_root (t : tree) : Prop := match t with Node _ _ f _ _ => f = 1 end.
