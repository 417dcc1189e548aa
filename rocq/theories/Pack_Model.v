(** Packing the data of a tag into a message and unpacking it on the other side.
    Source: Source/Mesh/parallel.cpp 114-273 (pack_data ... unpack_data_vector),
    278-309 (DefaultUnpack), 3098-3217 (PackTagData), 3259-3395 (UnpackTagData),
    3516-3544 (size of the receive buffer), Source/Mesh/mesh.cpp 2321-2357,
    2358-2398, 2424-2505 (GetDataCapacity, GetDataSize, GetData, SetData),
    Source/Headers/inmost_expression.h 329-370 (Record, Retrieve).
    A buffer is a list of bytes, a machine integer of [w] bytes is stored least
    byte first.  MPI_Pack is modelled as copying: MPI_Pack_size(n) = n * w.
    [we] is the number of bytes of INMOST_DATA_ENUM_TYPE and of a handle, [pad]
    the padding in Sparse::Row::entry, [limit] is INT_MAX.
    Failed asserts and accesses out of range give None. *)
From Coq Require Import List Bool Arith ZArith NArith.
From Verif Require Import Util Handle_Model.
Import ListNotations.
Open Scope nat_scope.

Fixpoint enc (w : nat) (x : N) : list N :=
  match w with O => [] | S w' => (x mod 256)%N :: enc w' (x / 256)%N end.
Definition dec (l : list N) : N := fold_right (fun b a => (b + 256 * a)%N) 0%N l.

Section S.
Variables we pad limit : nat.

(** ** Arrays of integers *)

(** parallel.cpp 167-169: chunk_bytes = min(rec_bytes*N, INT_MAX), / rec_bytes *)
Definition chunk_len (w n : nat) : nat := Nat.min (w * n) limit / w.

(** parallel.cpp 170-182: while( offset != N ) *)
Fixpoint pack_loop (fuel w chunk_size offset : nat) (data : list N) : list N :=
  match fuel with
  | O => []
  | S f =>
      if offset =? length data then [] else
      let chunk := Nat.min chunk_size (length data - offset) in
      flat_map (enc w) (firstn chunk (skipn offset data)) ++ pack_loop f w chunk_size (offset + chunk) data
  end.
(** parallel.cpp 156-184 pack_data_array: the bytes appended to the buffer *)
Definition pack_array (w : nat) (data : list N) : list N :=
  if length data =? 0 then []
  else pack_loop (S (length data)) w (chunk_len w (length data)) 0 data.
(** parallel.cpp 187-194 pack_data_vector; the length is a size_t *)
Definition pack_vector (w : nat) (data : list N) : list N :=
  enc 8 (N.of_nat (length data)) ++ (if length data =? 0 then [] else pack_array w data).

(** [n] integers of [w] bytes from the front of a buffer (MPI_Unpack) *)
Fixpoint get (w n : nat) (l : list N) : option (list N) :=
  match n with
  | O => Some []
  | S n' =>
      if length l <? w then None else
      match get w n' (skipn w l) with
      | Some r => Some (dec (firstn w l) :: r)
      | None => None
      end
  end.
(** parallel.cpp 249-259 *)
Fixpoint unpack_loop (fuel w chunk_size offset n : nat) (buf : list N) (pos : nat)
    : option (list N * nat) :=
  match fuel with
  | O => None
  | S f =>
      if offset =? n then Some ([], pos) else
      let chunk := Nat.min chunk_size (n - offset) in
      match get w chunk (skipn pos buf) with
      | None => None
      | Some xs =>
          match unpack_loop f w chunk_size (offset + chunk) n buf (pos + chunk * w) with
          | None => None
          | Some (ys, p) => Some (xs ++ ys, p)
          end
      end
  end.
(** parallel.cpp 236-261 unpack_data_array *)
Definition unpack_array (w n : nat) (buf : list N) (pos : nat) : option (list N * nat) :=
  if n =? 0 then Some ([], pos) else unpack_loop (S n) w (chunk_len w n) 0 n buf pos.
(** parallel.cpp 264-273 unpack_data_vector *)
Definition unpack_vector (w : nat) (buf : list N) (pos : nat) : option (list N * nat) :=
  match get 8 1 (skipn pos buf) with
  | Some [n] => unpack_array w (N.to_nat n) buf (pos + 8)
  | _ => None
  end.

(** parallel.cpp 196-220 pack_data_array_size, 223-228 pack_data_vector_size *)
Fixpoint size_loop (fuel w chunk_size offset n : nat) : nat :=
  match fuel with
  | O => 0
  | S f =>
      if offset =? n then 0 else
      let chunk := Nat.min chunk_size (n - offset) in
      chunk * w + size_loop f w chunk_size (offset + chunk) n
  end.
Definition pack_array_size (w n : nat) : nat :=
  if n =? 0 then 0 else size_loop (S n) w (chunk_len w n) 0 n.
Definition pack_vector_size (w n : nat) : nat :=
  8 + (if n =? 0 then 0 else pack_array_size w n).

(** ** Tags and values *)
Inductive kind := Plain | Ref | Var | Remote.

(** what GetSize, GetBytesSize, GetDataType, isDefinedByDim, isSparseByDim tell;
    [tsize] None is ENUMUNDEF; [tname] tells tags apart *)
Record tagd := Tagd {
  tname : nat; tkind : kind; tsize : option nat; tbytes : nat; tdef : list bool; tspa : list bool }.
Definition defined (t : tagd) (i : nat) : bool := nth i (tdef t) false.
Definition sparse (t : tagd) (i : nat) : bool := nth i (tspa t) false.

(** one entry of the data of an element: bytes of a real, integer or bulk, a
    handle, or a variable (8 bytes of the value, indices and 8 bytes of each
    derivative) *)
Inductive value := VB (bs : list N) | VR (h : Z) | VV (v : list N) (row : list (N * list N)).

(** Sparse::Row::entry: index, padding (the buffer is zeroed by resize), value *)
Definition entry (i : N) (v : list N) : list N := enc we i ++ repeat 0%N pad ++ v.
Definition ew : nat := we + pad + 8.

Definition hbits : Z := (8 * Z.of_nat we)%Z.

(** ** PackTagData *)
Section Pack.
Variable valid : Z -> bool.          (* refs[i].isValid() *)
Variable ppos : Z -> option Z.       (* HaveData(pack_position), pack_position[ref] *)
Variable sel : Z -> bool.            (* !select || GetMarker(e,select) *)
Variable data : Z -> option (list value).   (* HaveData and the entries *)

(** parallel.cpp 3152-3154 *)
Definition pack_ref (h : Z) : Z :=
  if valid h then
    match ppos h with
    | Some p => ComposeHandle hbits (GetHandleElementType hbits h) p
    | None => InvalidHandle
    end
  else InvalidHandle.

(** GetData, mesh.cpp 2424-2466 and Record, inmost_expression.h 329-342;
    references parallel.cpp 3146-3157 *)
Definition put_value (t : tagd) (v : value) : option (list N) :=
  match tkind t, v with
  | Plain, VB bs => Some bs
  | Ref, VR h => Some (enc we (Z.to_N (pack_ref h)))
  | Var, VV x row =>
      Some (entry (N.of_nat (length row)) x ++ flat_map (fun e => entry (fst e) (snd e)) row)
  | _, _ => None
  end.
Fixpoint put_values (t : tagd) (vs : list value) : option (list N) :=
  match vs with
  | [] => Some []
  | v :: r => match put_value t v, put_values t r with
              | Some a, Some b => Some (a ++ b)
              | _, _ => None
              end
  end.
(** RecordSize, inmost_expression.h 344-347 *)
Definition record_size (v : value) : nat := match v with VV _ row => 1 + length row | _ => 0 end.
(** GetDataCapacity(h,tag), mesh.cpp 2358-2398 *)
Definition capacity (t : tagd) (vs : list value) : nat :=
  match tkind t with
  | Var => fold_right (fun v a => record_size v + a) 0 vs * ew
  | _ => length vs * tbytes t
  end.
(** parallel.cpp 3141-3160, 3172-3190: resize by the capacity and fill; None is
    writing another number of bytes than were reserved *)
Definition append_data (t : tagd) (vs : list value) (out : list N) : option (list N) :=
  if length vs =? 0 then Some out else
  match put_values t vs with
  | Some bs => if length bs =? capacity t vs then Some (out ++ bs) else None
  | None => None
  end.
(** 3161, 3190: if( size == ENUMUNDEF ) array_size_send.push_back(s) *)
Definition push_size (t : tagd) (s : nat) (sizes : list N) : list N :=
  match tsize t with None => sizes ++ [N.of_nat s] | Some _ => sizes end.

(** parallel.cpp 3132-3164 *)
Fixpoint pack_sparse (t : tagd) (count j : nat) (es : list Z) (sizes out : list N)
    : option (list N * list N) :=
  match es with
  | [] => Some (sizes, out)
  | e :: r =>
      match (if sel e then data e else None) with
      | None => pack_sparse t count (S j) r sizes out
      | Some vs =>
          let sizes1 := sizes ++ [N.of_nat j] in
          let sizes2 := lset sizes1 count (nth count sizes1 0%N + 1)%N in
          match append_data t vs out with
          | None => None
          | Some out' => pack_sparse t count (S j) r (push_size t (length vs) sizes2) out'
          end
      end
  end.
(** parallel.cpp 3170-3192 *)
Fixpoint pack_dense (t : tagd) (es : list Z) (sizes out : list N) : option (list N * list N) :=
  match es with
  | [] => Some (sizes, out)
  | e :: r =>
      if sel e then
        match data e with
        | None => None
        | Some vs =>
            match append_data t vs out with
            | None => None
            | Some out' => pack_dense t r (push_size t (length vs) sizes) out'
            end
        end
      else pack_dense t r sizes out
  end.
(** parallel.cpp 3122-3196: for(i = NODE; i <= MESH; i++) *)
Fixpoint pack_types (t : tagd) (mask : Z) (elements : list (list Z)) (is : list nat)
    (t0 t1 : Z) (sizes out : list N) : option (Z * Z * list N * list N) :=
  match is with
  | [] => Some (t0, t1, sizes, out)
  | i :: r =>
      if Z.testbit mask (Z.of_nat i) && defined t i then
        let t0' := Z.lor t0 (ElementTypeFromDim (Z.of_nat i)) in
        if sparse t i then
          match pack_sparse t (length sizes) 0 (nth i elements []) (sizes ++ [0%N]) out with
          | None => None
          | Some (sizes', out') =>
              pack_types t mask elements r t0' (Z.lor t1 (ElementTypeFromDim (Z.of_nat i))) sizes' out'
          end
        else
          match pack_dense t (nth i elements []) sizes out with
          | None => None
          | Some (sizes', out') => pack_types t mask elements r t0' t1 sizes' out'
          end
      else pack_types t mask elements r t0 t1 sizes out
  end.
(** parallel.cpp 3098-3217 PackTagData: the bytes appended to the buffer *)
Definition pack_tag (t : tagd) (mask : Z) (elements : list (list Z)) : option (list N) :=
  match tkind t with
  | Remote => Some []
  | _ =>
      match pack_types t mask elements (seq 0 6) NONE NONE [] [] with
      | None => None
      | Some (t0, t1, sizes, out) =>
          Some (pack_array 1 [Z.to_N t0; Z.to_N t1] ++ pack_vector we sizes ++ pack_vector 1 out)
      end
  end.
End Pack.

(** ** UnpackTagData *)
Section Unpack.
Variable St : Type.
Variable sel : Z -> bool.
Variable unpacked : list (list Z).   (* unpack_elements by type *)
(** op(tag, element, bytes, size); the pointer is modelled by the bytes it may read *)
Variable op : nat -> St -> Z -> list N -> nat -> option St.
(** the effect on the data of CreateTag defining the tag on type i *)
Variable create : nat -> nat -> bool -> St -> St.

(** GetDataCapacity(data,size,tag), mesh.cpp 2340-2357; RetrieveSize reads the
    index of the entry *)
Fixpoint var_entries (size ret : nat) (l : list N) : option nat :=
  match size with
  | O => Some ret
  | S n =>
      match get we 1 (skipn (ret * ew) l) with
      | Some [c] => var_entries n (ret + (1 + N.to_nat c)) l
      | _ => None
      end
  end.
Definition data_capacity (t : tagd) (size : nat) (l : list N) : option nat :=
  match tkind t with
  | Var => match var_entries size 0 l with Some n => Some (n * ew) | None => None end
  | _ => Some (size * tbytes t)
  end.

(** parallel.cpp 3313-3325, 3347-3359: positions changed to handles *)
Definition unpack_ref (h : Z) : option Z :=
  if (h =? InvalidHandle)%Z then Some h
  else match nth_error unpacked (Z.to_nat (GetHandleElementNum hbits h)) with
       | None => None
       | Some l => nth_error l (Z.to_nat (GetHandleID hbits h))
       end.
Fixpoint convert_refs (t : tagd) (size : nat) (l : list N) : option (list N) :=
  match size with
  | O => Some l
  | S n =>
      match get we 1 l with
      | Some [h] =>
          match unpack_ref (Z.of_N h), convert_refs t n (skipn (tbytes t) l) with
          | Some h', Some r => Some (enc we (Z.to_N h') ++ skipn we (firstn (tbytes t) l) ++ r)
          | _, _ => None
          end
      | _ => None
      end
  end.

(** parallel.cpp 3307-3335, 3341-3369: one element *)
Definition unpack_one (t : tagd) (e : Z) (sizes dat : list N) (k pos : nat) (s : St)
    : option (nat * nat * list N * St) :=
  match (match tsize t with
         | Some n => Some (n, k)
         | None => match nth_error sizes k with Some n => Some (N.to_nat n, S k) | None => None end
         end) with
  | None => None
  | Some (n, k') =>
      match (match tkind t with
             | Ref => match convert_refs t n (skipn pos dat) with
                      | Some l => Some (firstn pos dat ++ l)
                      | None => None
                      end
             | _ => Some dat
             end) with
      | None => None
      | Some dat' =>
          if n =? 0 then Some (k', pos, dat', s) else
          match data_capacity t n (skipn pos dat') with
          | None => None
          | Some c =>
              if pos + c <=? length dat' then
                match op (tname t) s e (firstn c (skipn pos dat')) n with
                | None => None
                | Some s' => Some (k', pos + c, dat', s')
                end
              else None
          end
      end
  end.

(** parallel.cpp 3298-3336 *)
Fixpoint unpack_sparse (t : tagd) (cnt : nat) (es : list Z) (sizes dat : list N) (k pos : nat) (s : St)
    : option (nat * nat * list N * St) :=
  match cnt with
  | O => Some (k, pos, dat, s)
  | S c =>
      match nth_error sizes k with
      | None => None
      | Some j =>
          match nth_error es (N.to_nat j) with
          | None => None
          | Some e =>
              if sel e then
                match unpack_one t e sizes dat (S k) pos s with
                | None => None
                | Some (k', pos', dat', s') => unpack_sparse t c es sizes dat' k' pos' s'
                end
              else None
          end
      end
  end.
(** parallel.cpp 3337-3374 *)
Fixpoint unpack_dense (t : tagd) (es : list Z) (sizes dat : list N) (k pos : nat) (s : St)
    : option (nat * nat * list N * St) :=
  match es with
  | [] => Some (k, pos, dat, s)
  | e :: r =>
      if sel e then
        match unpack_one t e sizes dat k pos s with
        | None => None
        | Some (k', pos', dat', s') => unpack_dense t r sizes dat' k' pos' s'
        end
      else unpack_dense t r sizes dat k pos s
  end.
(** parallel.cpp 3283-3288: the tag is defined on a type it came with *)
Definition define (t : tagd) (i : nat) (sp : bool) : tagd :=
  Tagd (tname t) (tkind t) (tsize t) (tbytes t) (lset (tdef t) i true) (lset (tspa t) i sp).
(** parallel.cpp 3279-3380 *)
Fixpoint unpack_types (t : tagd) (elements : list (list Z)) (is : list nat) (m0 m1 : Z)
    (sizes dat : list N) (k pos : nat) (s : St) : option (tagd * St) :=
  match is with
  | [] => Some (t, s)
  | i :: r =>
      if Z.testbit m0 (Z.of_nat i) then
        let sp := Z.testbit m1 (Z.of_nat i) in
        let t' := if defined t i then t else define t i sp in
        let s' := if defined t i then s else create (tname t) i sp s in
        match (if sparse t' i then
                 match nth_error sizes k with
                 | None => None
                 | Some cnt => unpack_sparse t' (N.to_nat cnt) (nth i elements []) sizes dat (S k) pos s'
                 end
               else unpack_dense t' (nth i elements []) sizes dat k pos s') with
        | None => None
        | Some (k', pos', dat', s'') => unpack_types t' elements r m0 m1 sizes dat' k' pos' s''
        end
      else unpack_types t elements r m0 m1 sizes dat k pos s
  end.
(** parallel.cpp 3259-3395 UnpackTagData: the tag, the data and the position after *)
Definition unpack_tag (t : tagd) (elements : list (list Z)) (buf : list N) (bpos : nat) (s : St)
    : option (tagd * St * nat) :=
  if length buf =? 0 then Some (t, s, bpos) else
  match unpack_array 1 2 buf bpos with
  | Some ([m0; m1], p1) =>
      match unpack_vector we buf p1 with
      | Some (sizes, p2) =>
          match unpack_vector 1 buf p2 with
          | Some (dat, p3) =>
              match unpack_types t elements (seq 0 6) (Z.of_N m0) (Z.of_N m1) sizes dat 0 0 s with
              | Some (t', s') => Some (t', s', p3)
              | None => None
              end
          | None => None
          end
      | None => None
      end
  | _ => None
  end.
(** parallel.cpp 3702-3706: all tags of one message *)
Fixpoint unpack_tags (ts : list tagd) (elements : list (list Z)) (buf : list N) (bpos : nat) (s : St)
    : option (list tagd * St * nat) :=
  match ts with
  | [] => Some ([], s, bpos)
  | t :: r =>
      match unpack_tag t elements buf bpos s with
      | None => None
      | Some (t', s', p) =>
          match unpack_tags r elements buf p s' with
          | None => None
          | Some (ts', s'', p') => Some (t' :: ts', s'', p')
          end
      end
  end.
End Unpack.

(** parallel.cpp 3510-3511: all tags of one message *)
Fixpoint pack_tags (valid : Z -> bool) (ppos : Z -> option Z) (sel : Z -> bool)
    (ts : list (tagd * (Z -> option (list value)))) (mask : Z) (elements : list (list Z)) : option (list N) :=
  match ts with
  | [] => Some []
  | (t, d) :: r =>
      match pack_tag valid ppos sel d t mask elements, pack_tags valid ppos sel r mask elements with
      | Some a, Some b => Some (a ++ b)
      | _, _ => None
      end
  end.

(** parallel.cpp 3436-3468: number of elements sent or received; i < 5 *)
Definition count_elems (sel : Z -> bool) (mask : Z) (elements : list (list Z)) : nat :=
  fold_right (fun i a => (if Z.testbit mask (Z.of_nat i) then length (filter sel (nth i elements [])) else 0) + a)
    0 (seq 0 5).

(** parallel.cpp 3524-3543: bytes reserved for a message when every tag has a
    fixed size; [n] elements are received; GetPackedBytesSize, tag.cpp 39-53, is
    GetBytesSize for these tags *)
Definition recv_size (ts : list tagd) (n : nat) : nat :=
  fold_right (fun t a => pack_array_size 1 2 + pack_vector_size we (6 + 2 * n)
     + pack_vector_size 1 (n * match tsize t with Some s => s | None => 0 end * tbytes t) + a) 0 ts.

(** ** DefaultUnpack *)

(** Retrieve, inmost_expression.h 348-364 *)
Fixpoint get_row (n : nat) (l : list N) : list (N * list N) :=
  match n with
  | O => []
  | S m => (dec (firstn we l), firstn 8 (skipn (we + pad) l)) :: get_row m (skipn ew l)
  end.
(** what SetData(tag,0,size,bytes) stores, mesh.cpp 2467-2505 *)
Fixpoint get_values (t : tagd) (size : nat) (l : list N) : list value :=
  match size with
  | O => []
  | S n =>
      match tkind t with
      | Var =>
          let c := N.to_nat (dec (firstn we l)) in
          VV (firstn 8 (skipn (we + pad) l)) (get_row c (skipn ew l)) ::
          get_values t n (skipn ((1 + c) * ew) l)
      | Ref => VR (Z.of_N (dec (firstn we l))) :: get_values t n (skipn (tbytes t) l)
      | _ => VB (firstn (tbytes t) l) :: get_values t n (skipn (tbytes t) l)
      end
  end.
(** parallel.cpp 278-309 on the data of all tags; [tag] gives the tag by name,
    [dim] the number of the type of an element *)
Definition default_unpack (tag : nat -> tagd) (dim : Z -> nat) (name : nat)
    (d : nat -> Z -> option (list value)) (e : Z)
    (bytes : list N) (size : nat) : option (nat -> Z -> option (list value)) :=
  let t := tag name in
  let upd v := fun n x => if (n =? name) && (x =? e)%Z then v else d n x in
  if size =? 0 then
    if sparse t (dim e) then Some (upd None)
    else match tsize t with None => Some (upd (Some [])) | Some _ => None end
  else
    match tsize t with
    | None => Some (upd (Some (get_values t size bytes)))
    | Some n => if n =? size then Some (upd (Some (get_values t size bytes))) else None
    end.
End S.
