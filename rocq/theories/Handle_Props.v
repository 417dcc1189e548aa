(** Properties C03, C04. *)
From Coq Require Import ZArith List Bool Lia.
From Verif Require Import Util Handle_Model Handle_Proofs.
Import ListNotations.
Open Scope Z_scope.

(** C03: in both layouts, for each of the six types and every id that fits. *)
Theorem C03_handle_roundtrip : forall w t id,
  layout w -> In t single_types -> 0 <= id -> id + 1 < 2 ^ (w - 3) ->
  GetHandleElementType w (ComposeHandle w t id) = t /\
  GetHandleElementNum w (ComposeHandle w t id) = ElementNum t /\
  GetHandleID w (ComposeHandle w t id) = id /\
  isValidHandle (ComposeHandle w t id) = true.
Proof. exact compose_roundtrip. Qed.
Print Assumptions C03_handle_roundtrip.

Theorem C03_handle_injective : forall w t1 t2 i1 i2,
  layout w -> In t1 single_types -> In t2 single_types ->
  0 <= i1 -> i1 + 1 < 2 ^ (w - 3) -> 0 <= i2 -> i2 + 1 < 2 ^ (w - 3) ->
  ComposeHandle w t1 i1 = ComposeHandle w t2 i2 -> t1 = t2 /\ i1 = i2.
Proof. exact compose_injective. Qed.
Print Assumptions C03_handle_injective.

(** Every stored word is the handle of what it decodes to, except words with a
    zero id field, which decode to id -1 and re-encode to the invalid handle. *)
Theorem C03_handle_decode_encode : forall w h, layout w -> 0 <= h < 2 ^ w ->
  ComposeHandleNum w (GetHandleElementNum w h) (GetHandleID w h) =
  if h mod 2 ^ (w - 3) =? 0 then InvalidHandle else h.
Proof. exact decode_encode. Qed.
Print Assumptions C03_handle_decode_encode.

(** The bound on ids is exact. *)
Theorem C03_handle_bound_exact : forall w t id,
  layout w -> In t single_types -> 0 <= id ->
  (GetHandleElementType w (ComposeHandle w t id) = t /\
   GetHandleID w (ComposeHandle w t id) = id) <-> id + 1 < 2 ^ (w - 3).
Proof.
  intros w t id Hw Ht Hi. split.
  - intros [_ E]. destruct (Z.lt_ge_cases (id + 1) (2 ^ (w - 3))) as [L|G]; [exact L|].
    exfalso. exact (compose_overflow w (ElementNum t) id Hw Hi G E).
  - intros Hb. destruct (compose_roundtrip w t id Hw Ht Hi Hb) as (A & _ & B & _). auto.
Qed.
Print Assumptions C03_handle_bound_exact.

(** What happens at the first id that does not fit: an edge becomes a face
    with id -1, and a node id collides with an edge id above it. *)
Theorem C03_handle_overflow_refuted :
  GetHandleElementType 32 (ComposeHandle 32 EDGE (2 ^ 29 - 1)) = FACE /\
  GetHandleID 32 (ComposeHandle 32 EDGE (2 ^ 29 - 1)) = -1 /\
  ComposeHandle 32 NODE (2 ^ 29) = ComposeHandle 32 EDGE 0.
Proof. vm_compute. auto. Qed.
Print Assumptions C03_handle_overflow_refuted.

Example C03_nonvacuous :
  layout 64 /\ In ESET single_types /\ 123456 + 1 < 2 ^ (64 - 3) /\
  ComposeHandle 32 ESET 5 = 2147483654 /\ GetHandleElementType 32 2147483654 = ESET.
Proof.
  split; [right; reflexivity|]. split; [simpl; tauto|]. vm_compute. auto.
Qed.

(** C04 *)
Theorem C04_type_num_inverse :
  (forall t, In t single_types -> 0 <= ElementNum t < 6 /\ ElementTypeFromDim (ElementNum t) = t) /\
  (forall k, 0 <= k < 6 -> In (ElementTypeFromDim k) single_types /\ ElementNum (ElementTypeFromDim k) = k).
Proof. split; [exact type_num | exact num_type]. Qed.
Print Assumptions C04_type_num_inverse.

Theorem C04_one_type : forall t, 0 <= t < 256 ->
  (OneType t = true <-> exists k, 0 <= k < 8 /\ t = 2 ^ k).
Proof. exact one_type_spec. Qed.
Print Assumptions C04_one_type.

(** Starting from any type, GetNextType lists the types of the mask above it,
    in increasing order, and stops with NONE. *)
Theorem C04_walk_next : forall mask c, 0 <= mask < 256 -> In c single_types ->
  walk_next 7 c mask = Some (filter (fun t => c <? t) (types_of mask)).
Proof. exact walk_next_spec. Qed.
Print Assumptions C04_walk_next.

(** GetPrevType lists the types below, in decreasing order; from
    LastElementType() it lists the whole mask. *)
Theorem C04_walk_prev : forall mask c, 0 <= mask < 64 -> In c (LastElementType :: single_types) ->
  walk_prev 7 c mask = Some (rev (filter (fun t => t <? c) (types_of mask))).
Proof. exact walk_prev_spec. Qed.
Print Assumptions C04_walk_prev.

(** Starting GetNextType from NONE never returns. *)
Theorem C04_walk_from_none_refuted : forall fuel types, GetNextType fuel NONE types = None.
Proof. exact next_from_none_diverges. Qed.
Print Assumptions C04_walk_from_none_refuted.

Example C04_nonvacuous :
  types_of (NODE + FACE + CELL) = [NODE; FACE; CELL] /\
  walk_next 7 NODE (NODE + FACE + CELL) = Some [FACE; CELL] /\
  walk_prev 7 LastElementType (NODE + FACE + CELL) = Some [CELL; FACE; NODE].
Proof. vm_compute. auto. Qed.
