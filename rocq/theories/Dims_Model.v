(** Model of Mesh::SetDimensions (Source/Mesh/mesh.cpp 1892-1921) with the tags it deletes and creates
    (Source/Data/tag.cpp 337-424).  Values are integers; a tag keeps its values for nodes only, data of other
    types of elements are not part of the model. *)
From Coq Require Import Ascii String List Arith Bool ZArith.
Import ListNotations.
Local Open Scope nat_scope.

(** Data of a tag on nodes: not defined, one list of values for every local id, or sparse. *)
Inductive place := Absent | Dense (vals : list (list Z)) | Sparse.
Record tagd := mkTag { t_name : string; t_real : bool; t_size : option nat; t_place : place }.
(** [s_last] is NodeLastLocalID, [s_valid] is isValidElementNum(0,k), [s_coords] is the name of tag_coords *)
Record state := mkState { s_dim : nat; s_coords : string; s_last : nat; s_valid : nat -> bool; s_tags : list tagd }.
Inductive outcome := Done (s : state) | Thrown | Failed.

Definition find_tag (name : string) (tags : list tagd) : option tagd := find (fun t => String.eqb (t_name t) name) tags.
Definition delete_tag (name : string) (tags : list tagd) : list tagd := filter (fun t => negb (String.eqb (t_name t) name)) tags.
Definition set_place (name : string) (p : place) (tags : list tagd) : list tagd :=
  map (fun t => if String.eqb (t_name t) name then mkTag (t_name t) (t_real t) (t_size t) p else t) tags.
Definition zeros (n : nat) : list Z := repeat 0%Z n.
(** tag.cpp 343-371: an existing tag must have the type and the size; 372-402: storage on nodes if there
    was none; [None] is a failed assertion *)
Definition create_tag (name : string) (size last : nat) (tags : list tagd) : option (list tagd) :=
  match find_tag name tags with
  | Some t =>
      if t_real t && match t_size t with Some n => Nat.eqb n size | None => false end then
        match t_place t with
        | Absent => Some (set_place name (Dense (repeat (zeros size) last)) tags)
        | _ => Some tags
        end
      else None
  | None => Some (tags ++ [mkTag name true (Some size) (Dense (repeat (zeros size) last))])
  end.
(** memcpy to an array *)
Definition write (l : list Z) (pos : nat) (v : list Z) : list Z := firstn pos l ++ v ++ skipn (pos + length v) l.
Definition values (name : string) (tags : list tagd) : option (list (list Z)) :=
  match find_tag name tags with Some t => match t_place t with Dense v => Some v | _ => None end | None => None end.
(** mesh.cpp 1899-1905: copy of coordinates *)
Definition save_coords (s : state) (dims : nat) (vals : list (list Z)) : list Z :=
  let copy_dims := if s_dim s <? dims then s_dim s else dims in
  fold_left (fun temp k => if s_valid s k then write temp (k * dims) (firstn copy_dims (nth k vals [])) else temp) (seq 0 (s_last s)) (zeros (dims * s_last s)).
(** mesh.cpp 1911-1912 *)
Definition restore_coords (s : state) (dims : nat) (temp : list Z) (vals : list (list Z)) : list (list Z) :=
  map (fun k => if s_valid s k then firstn dims (skipn (k * dims) temp) else nth k vals []) (seq 0 (s_last s)).
Definition number_of_nodes (s : state) : nat := length (filter (s_valid s) (seq 0 (s_last s))).
(** mesh.cpp 1892-1921; [Failed] is a failed assertion or access to data that are not there *)
Definition set_dimensions (s : state) (dims : nat) : outcome :=
  if Nat.eqb (s_dim s) dims then Done s
  else if (dims <? 2) || (3 <? dims) then Thrown
  else if 0 <? number_of_nodes s then
    match values (s_coords s) (s_tags s) with
    | Some vals =>
        let temp := save_coords s dims vals in
        match create_tag "COORD" dims (s_last s) (delete_tag (s_coords s) (s_tags s)) with
        | Some tags =>
            match values "COORD" tags with
            | Some new => Done (mkState dims "COORD" (s_last s) (s_valid s) (set_place "COORD" (Dense (restore_coords s dims temp new)) tags))
            | None => Failed
            end
        | None => Failed
        end
    | None => Failed
    end
  else
    match create_tag "PROTECTED_COORD" dims (s_last s) (delete_tag (s_coords s) (s_tags s)) with
    | Some tags => Done (mkState dims "PROTECTED_COORD" (s_last s) (s_valid s) tags)
    | None => Failed
    end.
(** coordinates of a node *)
Definition coords (s : state) (k : nat) : option (list Z) :=
  match values (s_coords s) (s_tags s) with Some v => nth_error v k | None => None end.
