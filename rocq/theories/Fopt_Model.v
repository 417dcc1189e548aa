(** Model of options for files and of the selection of the file format
    (Source/IO/mesh_file.cpp 48-231).  Texts are lists of characters; std::set is the list of its
    members.  Reading and writing of the formats themselves are not part of this model. *)
From Coq Require Import Ascii String List Bool Arith.
From Verif Require Import Split_Model Front_Model Fopt_Spec.
Import ListNotations.
Local Open Scope list_scope.

Definition same (a b : text) : bool := if list_eq_dec ascii_dec a b then true else false.
Definition has (x : text) (l : list text) : bool := existsb (same x) l.

Definition options : Type := list (text * text).
(** SetFileOption, 48-58: replaces the values of the key and adds a new record in any case *)
Definition set_option (key val : text) (o : options) : options :=
  map (fun p => if same (fst p) key then (fst p, val) else p) o ++ [(key, val)].
(** GetFileOption, 60-70 *)
Definition get_option (key : text) (o : options) : text :=
  match find (fun p => same (fst p) key) o with Some p => snd p | None => [] end.
(** 78-84: the key before and after the first colon *)
Definition cut_key (k : text) : text * text :=
  match find_at (Ascii.eqb ":"%char) k 0 with
  | Some pos => (firstn pos k, skipn (S pos) k)
  | None => ([], k)
  end.
(** TagOptions, 72-102 *)
Definition tag_options (name : text) (o : options) : list text :=
  flat_map (fun p =>
    let (prefix, self) := cut_key (fst p) in
    if same prefix (lit "Tag") then
      match split_string (snd p) [] (lit ",") with
      | Some words => if has name words then [self] else []
      | None => []
      end
    else []) o.
(** CheckLoadSkip and CheckSaveSkip, 104-122 *)
Definition skip (name : text) (no only : list text) : bool :=
  if negb (match only with [] => true | _ => false end) && negb (has name only) then true
  else if has name no then true else false.
(** mesh_xml_file.cpp 46-47 and 457, mesh_pmf_file.cpp 628-629 and 1187, mesh_vtk_file.cpp 603-604
    and 734, mesh_vtu_file.cpp 451-452 and 927 *)
Definition load_skip (name : text) (o : options) : bool := skip name (tag_options (lit "noload") o) (tag_options (lit "loadonly") o).
(** mesh_xml_file.cpp 1049-1050 and 1174, mesh_pmf_file.cpp 74-75 and 90, mesh_vtk_file.cpp 189-190
    and 356, mesh_vtu_file.cpp 194-195 and 237 *)
Definition save_skip (name : text) (o : options) : bool := skip name (tag_options (lit "nosave") o) (tag_options (lit "saveonly") o).

(** std::string::find *)
Fixpoint starts (x s : text) : bool :=
  match x, s with
  | [], _ => true
  | a :: x', b :: s' => Ascii.eqb a b && starts x' s'
  | _ :: _, [] => false
  end.
Fixpoint contains (s x : text) : bool :=
  starts x s || match s with [] => false | _ :: r => contains r x end.

Inductive format := ECL | PVTK | PVTU | VTK | MKF | MSH | XML | VTU | PMF | GMV.
Definition extension (f : format) : text :=
  lit (match f with
  | ECL => ".grdecl" | PVTK => ".pvtk" | PVTU => ".pvtu" | VTK => ".vtk" | MKF => ".grid"
  | MSH => ".msh" | XML => ".xml" | VTU => ".vtu" | PMF => ".pmf" | GMV => ".gmv"
  end).
Definition choose (order : list format) (file : text) : option format := find (fun f => contains (map lower_char file) (extension f)) order.
(** Load, 124-178: the function called for the file; None is the exception NotImplemented *)
Definition load_format : text -> option format := choose [ECL; PVTK; PVTU; VTK; MKF; MSH; XML; VTU; PMF].
(** Save, 180-207 *)
Definition save_format : text -> option format := choose [PVTK; PVTU; XML; VTK; VTU; GMV; PMF].
(** isParallelFileFormat, 209-229 *)
Definition parallel_format (file : text) : option bool :=
  match choose [ECL; MSH; MKF; VTK; GMV; PVTK; PVTU; PMF; XML; VTU] file with
  | Some (ECL | PVTK | PVTU | PMF | XML) => Some true
  | Some _ => Some false
  | None => None
  end.
