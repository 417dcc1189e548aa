(** What an exchange of tag data should do, stated without the message format. *)
From Coq Require Import List Bool Arith ZArith NArith.
From Verif Require Import Util Handle_Model Handle_Proofs Pack_Model.
Import ListNotations.
Open Scope nat_scope.

Section S.
Variables we pad : nat.

Definition bytes_ok (l : list N) : Prop := Forall (fun b => (b < 256)%N) l.
(** fits into [w] bytes *)
Definition fits (w : nat) (x : N) : Prop := (x < 256 ^ N.of_nat w)%N.

(** well typed entries for a tag *)
Definition wf_val (t : tagd) (v : value) : Prop :=
  match tkind t, v with
  | Plain, VB bs => length bs = tbytes t /\ bytes_ok bs
  | Ref, VR h => tbytes t = we
  | Var, VV x row =>
      length x = 8 /\ bytes_ok x /\ fits we (N.of_nat (length row)) /\
      Forall (fun e => fits we (fst e) /\ length (snd e) = 8 /\ bytes_ok (snd e)) row
  | _, _ => False
  end.
Definition wf_vals (t : tagd) (vs : list value) : Prop :=
  Forall (wf_val t) vs /\
  match tsize t with Some n => length vs = n | None => fits we (N.of_nat (length vs)) end.

(** the bytes of entries in memory *)
Definition mem_val (v : value) : list N :=
  match v with
  | VB bs => bs
  | VR h => enc we (Z.to_N h)
  | VV x row => entry we pad (N.of_nat (length row)) x ++
                flat_map (fun e => entry we pad (fst e) (snd e)) row
  end.
Definition mem (vs : list value) : list N := flat_map mem_val vs.

(** ** References: the element [h] of the sender becomes the element of the
    receiver at the same place of the list of its type *)
Section Tr.
Variable valid : Z -> bool.
Variable ppos : Z -> option Z.
Variable unpacked : list (list Z).
Definition tr (h : Z) : Z :=
  if valid h then
    match ppos h with
    | Some p => nth (Z.to_nat p) (nth (Z.to_nat (GetHandleElementNum (hbits we) h)) unpacked []) 0%Z
    | None => 0%Z
    end
  else 0%Z.
Definition tr_val (v : value) : value := match v with VR h => VR (tr h) | _ => v end.
(** positions are inside the lists of the receiver *)
Definition refs_ok : Prop := forall h p, valid h = true -> ppos h = Some p ->
  (0 <= GetHandleElementNum (hbits we) h < 6)%Z /\
  (0 <= p)%Z /\ (p + 1 < 2 ^ (hbits we - 3))%Z /\
  Z.to_nat p < length (nth (Z.to_nat (GetHandleElementNum (hbits we) h)) unpacked []) /\
  (0 <= tr h < 2 ^ hbits we)%Z.
End Tr.

(** ** Events seen by the receiver *)
Inductive event :=
| EDefine (name i : nat) (sp : bool)            (* the tag becomes defined on type i *)
| EDeliver (name : nat) (e : Z) (vs : list value). (* entries given to op *)

Section Ev.
Variable trv : value -> value.
Variable sel : Z -> bool.
Variable data : Z -> option (list value).

(** one type: sender elements [es] against receiver elements [fs] *)
Fixpoint deliver (name : nat) (es fs : list Z) : list event :=
  match es, fs with
  | e :: es', f :: fs' =>
      (if sel e then
         match data e with
         | Some (v :: vs) => [EDeliver name f (map trv (v :: vs))]
         | _ => []
         end
       else []) ++ deliver name es' fs'
  | _, _ => []
  end.
(** type [i] takes part *)
Definition came (t : tagd) (mask : Z) (i : nat) : bool := Z.testbit mask (Z.of_nat i) && defined t i.
Definition type_events (t rt : tagd) (mask : Z) (E F : list (list Z)) (i : nat) : list event :=
  if came t mask i then
    (if defined rt i then [] else [EDefine (tname rt) i (sparse t i)]) ++
    deliver (tname rt) (nth i E []) (nth i F [])
  else [].
Definition tag_events (t rt : tagd) (mask : Z) (E F : list (list Z)) : list event :=
  flat_map (type_events t rt mask E F) (seq 0 6).
End Ev.

(** the receiver applies the operation in turn *)
Section Run.
Variable St : Type.
Variable op : nat -> St -> Z -> list N -> nat -> option St.
Variable create : nat -> nat -> bool -> St -> St.
Fixpoint run (l : list event) (s : St) : option St :=
  match l with
  | [] => Some s
  | EDefine n i sp :: r => run r (create n i sp s)
  | EDeliver n e vs :: r =>
      match op n s e (mem vs) (length vs) with
      | Some s' => run r s'
      | None => None
      end
  end.
End Run.

(** ** Agreement of the two sides *)
(** one tag seen by the sender ([t]) and the receiver ([rt]) *)
Definition same_tag (t rt : tagd) (mask : Z) : Prop :=
  tkind rt = tkind t /\ tsize rt = tsize t /\ tbytes rt = tbytes t /\
  length (tdef rt) = 6 /\ length (tspa rt) = 6 /\
  forall i, i < 6 -> came t mask i = true -> defined rt i = true -> sparse rt i = sparse t i.
(** the lists of elements correspond and the marker agrees *)
Definition same_lists (ssel rsel : Z -> bool) (E F : list (list Z)) : Prop :=
  forall i, i < 6 -> Forall2 (fun e f => ssel e = rsel f) (nth i E []) (nth i F []).
(** what the sender has *)
Definition sender_ok (data : Z -> option (list value)) (sel : Z -> bool) (t : tagd) (mask : Z)
    (E : list (list Z)) : Prop :=
  tkind t <> Remote /\
  (forall i e, i < 6 -> came t mask i = true -> In e (nth i E []) -> sel e = true ->
     match data e with
     | Some vs => wf_vals t vs
     | None => sparse t i = true
     end) /\
  (forall i, i < 6 -> fits we (N.of_nat (length (nth i E [])))).
End S.
