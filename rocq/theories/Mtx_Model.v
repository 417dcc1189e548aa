(** Reading and writing of sparse matrices and vectors as text.
    Source: Source/Solver/sparse.cpp 686-806 (Vector::Load, Vector::Save), 1033-1300
    (Matrix::Load, Matrix::Save), 1374-1420, 1450-1590 (HessianMatrix, same scheme, not modelled);
    Source/Headers/inmost_sparse.h 215-221 (Row::operator[]), 499 (SetInterval).
    A text is the list of its character codes.  Simplified: numbers with a sign where an unsigned
    number is expected count as unreadable; the order file is given by its numbers; open errors of
    files, the sign of zero and the overflow to infinity are not modelled. *)
From Coq Require Import Ascii String.
From Coq Require Import List Arith NArith ZArith Bool Reals.
From Flocq Require Import Core.Core.
From Verif Require Import Row_Model.
Import ListNotations.
Open Scope nat_scope.

Definition text := list nat.
Definition str (s : string) : text := map nat_of_ascii (list_ascii_of_string s).
Definition nl : nat := 10.
Definition sp : nat := 32.
Definition percent : nat := 37.

(** * Numbers *)
(** operator<< for INMOST_DATA_ENUM_TYPE (unsigned int): decimal digits *)
Fixpoint digits (fuel : nat) (n : N) (acc : text) : text :=
  match fuel with
  | O => acc
  | S f => let acc' := (48 + N.to_nat (n mod 10)) :: acc in
           if (n / 10 =? 0)%N then acc' else digits f (n / 10)%N acc'
  end.
Definition show_uint (n : N) : text := digits (S (N.to_nat (N.size n))) n [].
(** exactly [k] digits *)
Fixpoint fixdigits (k : nat) (m : N) : text :=
  match k with O => [] | S k' => fixdigits k' (m / 10)%N ++ [48 + N.to_nat (m mod 10)] end.

Definition is_digit (c : nat) : bool := (48 <=? c) && (c <=? 57).
(** isspace in the "C" locale *)
Definition is_space (c : nat) : bool := ((9 <=? c) && (c <=? 13)) || (c =? 32).
Fixpoint skip_ws (t : text) : text :=
  match t with c :: t' => if is_space c then skip_ws t' else t | [] => [] end.
(** value of the leading digits, their number and the rest *)
Fixpoint read_digits (t : text) (v : N) (k : nat) : N * nat * text :=
  match t with
  | c :: t' => if is_digit c then read_digits t' (10 * v + N.of_nat (c - 48))%N (S k) else (v, k, t)
  | [] => (v, k, [])
  end.
(** istream >> unsigned: None is a failure *)
Definition read_uint (t : text) : option (N * text) :=
  match read_digits (skip_ws t) 0 0 with
  | (_, O, _) => None
  | (v, _, rest) => if (v <? 2 ^ 32)%N then Some (v, rest) else None
  end.

(** A value of INMOST_DATA_REAL_TYPE *)
Inductive value := Fin (x : R) | Inf (neg : bool) | NaN (neg : bool).
(** 16 significant decimal digits: (-1)^neg * mant * 10^(expo-15), 10^15 <= mant < 10^16 or mant = 0 *)
Record decimal := Dec { neg : bool; mant : N; expo : Z }.
Definition radix10 : radix := Build_radix 10 eq_refl.
(** conversion of scientific output with precision(15), correctly rounded as in the C library *)
Definition rnd10 (x : R) : R := round radix10 (FLX_exp 16) ZnearestE x.
Definition to_dec (x : R) : decimal :=
  let y := rnd10 x in
  if Req_bool y 0 then Dec false 0 0
  else let m := Ztrunc (scaled_mantissa radix10 (FLX_exp 16) y) in
       Dec (m <? 0)%Z (Z.abs_N m) (cexp radix10 (FLX_exp 16) y + 15).
Definition show_dec (d : decimal) : text :=
  (if neg d then [45] else []) ++
  match fixdigits 16 (mant d) with
  | c :: f => c :: 46 :: f
  | [] => []
  end ++ [101; if (expo d <? 0)%Z then 45 else 43] ++
  (let a := Z.abs_N (expo d) in if (a <? 10)%N then 48 :: show_uint a else show_uint a).
(** operator<< of a double with std::scientific *)
Definition show_value (v : value) : text :=
  match v with
  | Fin x => show_dec (to_dec x)
  | Inf s => (if s then [45] else []) ++ str "inf"
  | NaN s => (if s then [45] else []) ++ str "nan"
  end.

(** correctly rounded conversion to double *)
Definition rnd2 (x : R) : R := round radix2 (FLT_exp (-1074) 53) ZnearestE x.
(** istream >> double: sign, digits, point, digits, exponent; a number that cannot be read gives
    zero *)
Definition read_sign (t : text) : bool * text :=
  match t with c :: t' => if c =? 45 then (true, t') else if c =? 43 then (false, t') else (false, t) | [] => (false, []) end.
Definition read_value (t : text) : value :=
  let '(s, t) := read_sign (skip_ws t) in
  let '(m1, k1, t) := read_digits t 0 0 in
  let '(m, k2, t) := match t with c :: t' => if c =? 46 then read_digits t' m1 0 else (m1, 0, t) | [] => (m1, 0, []) end in
  if k1 + k2 =? 0 then Fin 0
  else
    let num (e : Z) := Fin (rnd2 ((if s then -1 else 1) * IZR (Z.of_N m) * bpow radix10 (e - Z.of_nat k2))) in
    match t with
    | c :: t' =>
        if (c =? 101) || (c =? 69) then
          let '(se, t) := read_sign t' in
          match read_digits t 0 0 with
          | (_, O, _) => Fin 0
          | (e, _, _) => num (if se then - Z.of_N e else Z.of_N e)%Z
          end
        else num 0%Z
    | [] => num 0%Z
    end.

(** * Matrices *)
(** Sparse::Matrix: first row number and rows *)
Record matrix := Mat { first : nat; rows : list (row value) }.
Definition empty_matrix : matrix := Mat 0 [].
(** Matrix::SetInterval, inmost_sparse.h 499, container.hpp 948-1000: the rows are shifted, then
    cut off or filled up with empty rows *)
Definition set_interval {A} (a0 : A) (l : list A) (b e : nat) : list A :=
  firstn (e - b) l ++ repeat a0 (e - b - length l).

(** Matrix::Save: lines of one row, sparse.cpp 1149-1152 *)
Definition entry_line (r : nat) (e : nat * value) : text :=
  show_uint (N.of_nat (S r)) ++ [sp] ++ show_uint (N.of_nat (S (fst e))) ++ [sp] ++ show_value (snd e) ++ [nl].
(** 1141-1154; [annot] are the annotations of the rows, empty strings are not printed *)
Fixpoint save_rows (r : nat) (annot : nat -> text) (rs : list (row value)) : text :=
  match rs with
  | [] => []
  | rw :: rs' =>
      (match annot r with [] => [] | a => percent :: sp :: a ++ [nl] end) ++
      concat (map (entry_line r) rw) ++ save_rows (S r) annot rs'
  end.
(** the nonzeros, 1128 *)
Definition nonzeros (rs : list (row value)) : nat := fold_right (fun rw s => length rw + s) 0 rs.
(** header, 1291-1296 (and 1177-1182); the number of nonzeros is a 32 bit number *)
Definition header (name by_ : text) (n nnz : nat) : text :=
  str "%%MatrixMarket matrix coordinate real general" ++ [nl] ++
  str "% matrix " ++ name ++ [nl] ++
  str "% is written by INMOST" ++ [nl] ++ by_ ++ [nl] ++
  show_uint (N.of_nat n) ++ [sp] ++ show_uint (N.of_nat n) ++ [sp] ++ show_uint (N.of_nat nnz mod 2 ^ 32) ++ [nl].
(** Matrix::Save without MPI, 1290-1298 *)
Definition save (name : text) (annot : nat -> text) (m : matrix) : text :=
  header name (str "% by sequential write ") (length (rows m)) (nonzeros (rows m)) ++ save_rows (first m) annot (rows m).
(** Matrix::Save with MPI files, 1155-1213: sizes are summed, the texts follow each other in the
    order of the processes *)
Definition save_parallel (name : text) (annot : nat -> text) (ms : list matrix) : text :=
  header name (str "% by MPI_File_* api") (fold_right (fun m s => length (rows m) + s) 0 ms)
    (fold_right (fun m s => nonzeros (rows m) + s) 0 ms) ++
  concat (map (fun m => save_rows (first m) annot (rows m)) ms).
(** Matrix::Save with MPI but without MPI files, 1214-1289: process 0 receives the texts of the
    others at the offsets of their concatenation, but into the string with its own text
    ([senddata], 1247); a write past the end of that string is None.  [recvdata] gets only the own
    text (1239). *)
Definition write_at (buf : text) (off : nat) (t : text) : option text :=
  if off + length t <=? length buf then Some (firstn off buf ++ t ++ skipn (off + length t) buf) else None.
Fixpoint receive (buf : text) (off : nat) (ts : list text) : option text :=
  match ts with
  | [] => Some buf
  | t :: ts' =>
      match t with
      | [] => receive buf off ts'
      | _ => match write_at buf off t with Some b => receive b (off + length t) ts' | None => None end
      end
  end.
Definition gather (own : text) (others : list text) : option text :=
  match receive own (length own) others with
  | None => None
  | Some _ => Some (own ++ repeat 0 (length (concat others)))
  end.

(** * Load *)
(** complete lines and what follows the last line end *)
Fixpoint split_lines (t cur : text) : list text * text :=
  match t with
  | [] => ([], rev cur)
  | c :: t' => if c =? nl then let '(ls, tl) := split_lines t' [] in (rev cur :: ls, tl)
               else split_lines t' (c :: cur)
  end.
Inductive result (A : Type) := Hang | Undefined | Done (a : A).
Arguments Hang {A}. Arguments Undefined {A}. Arguments Done {A} a.
(** the buffer str[16384] of getline *)
Definition buffer : nat := N.to_nat 16383.
Fixpoint cstr (t : text) : text := match t with 0 :: _ => [] | c :: t' => c :: cstr t' | [] => [] end.

Section Loop.
Context {St : Type} (process : St -> text -> result St).
(** while( !input.getline(str,16384).eof() ), 1079-1084: comments and empty lines are skipped; a
    line that does not fit sets failbit, then getline reads nothing and eof() is never true; the
    text after the last line end is not processed *)
Definition line (s : St) (l : text) : result St :=
  let l := skip_ws (cstr l) in
  match l with
  | [] => Done s
  | c :: _ => if c =? percent then Done s else process s l
  end.
Fixpoint load_lines (s : St) (ls : list text) (tl : text) : result St :=
  match ls with
  | [] => if buffer <? length tl then Hang else Done s
  | l :: ls' =>
      match line s (firstn buffer l) with
      | Done s' => if buffer <? length l then Hang else load_lines s' ls' tl
      | r => r
      end
  end.
Definition load_text (s : St) (t : text) : result St := let '(ls, tl) := split_lines t [] in load_lines s ls tl.
End Loop.

(** The interval of a process, 1049-1052, 1091-1098 *)
Definition interval (mbeg mend : option nat) (rank size n : nat) : nat * nat :=
  let block := n / size in
  let b := match mbeg with Some b => b | None => rank * block end in
  let e := match mend with Some e => e | None => if rank =? size - 1 then n else b + block end in
  (b, e).
(** data[row][col] = val, 1106; a row outside of the matrix is undefined behaviour, see below *)
Definition put (m : matrix) (r c : nat) (v : value) : matrix :=
  Mat (first m) (firstn (r - first m) (rows m) ++
                 match skipn (r - first m) (rows m) with
                 | rw :: rs => upd_at (Fin 0) Nat.eqb rw c (fun _ => v) :: rs
                 | [] => []
                 end).
Record lstate := LS { headed : bool; lbeg : nat; lend : nat; lmat : matrix }.
(** 1086-1108; [ord]: the numbers of the order file (from zero) *)
Definition process_matrix (mbeg mend : option nat) (rank size : nat) (ord : option (list nat)) (s : lstate) (l : text) : result lstate :=
  if negb (headed s) then
    let n := match read_uint l with
             | None => 0
             | Some (_, l1) => match read_uint l1 with None => 0 | Some (n, _) => N.to_nat n end
             end in
    let '(b, e) := interval mbeg mend rank size n in
    Done (LS true b e (Mat b (set_interval [] (rows (lmat s)) b e)))
  else
    let renumber (k : N) : option nat :=
      match ord with
      | None => Some (N.to_nat k - 1)
      | Some o => if (k =? 0)%N then None else nth_error o (N.to_nat k - 1)
      end in
    match read_uint l with
    | None | Some (0%N, _) => match ord with None => Done s | Some _ => Undefined end
    | Some (r1, l1) =>
        match renumber r1 with
        | None => Undefined
        | Some r =>
            let here := (lbeg s <=? r) && (r <? lend s) in
            match read_uint l1 with
            | None | Some (0%N, _) => if here then Undefined else match ord with None => Done s | Some _ => Undefined end
            | Some (c1, l2) =>
                match renumber c1 with
                | None => Undefined
                | Some c =>
                    if here then
                      match skip_ws l2 with
                      | [] => Undefined
                      | _ => if r - first (lmat s) <? length (rows (lmat s)) then Done (LS true (lbeg s) (lend s) (put (lmat s) r c (read_value l2))) else Undefined
                      end
                    else Done s
                end
            end
        end
    end.
Definition load (mbeg mend : option nat) (rank size : nat) (ord : option (list nat)) (m : matrix) (t : text) : result matrix :=
  match load_text (process_matrix mbeg mend rank size ord) (LS false 0 0 m) t with
  | Done s => Done (lmat s)
  | Hang => Hang
  | Undefined => Undefined
  end.

(** * Vectors *)
(** Vector::Save without MPI, 775-778, 801-806 *)
Definition save_vector (v : list value) : text :=
  show_uint (N.of_nat (length v)) ++ [nl] ++ concat (map (fun x => show_value x ++ [nl]) v).
Record vstate := VS { vheaded : bool; vbeg : nat; vend : nat; vind : nat; vdat : list value }.
Fixpoint set_nth {A} (k : nat) (a : A) (l : list A) : list A :=
  match l, k with [], _ => [] | _ :: t, O => a :: t | x :: t, S k' => x :: set_nth k' a t end.
(** Vector::Load, 736-757 *)
Definition process_vector (mbeg mend : option nat) (rank size : nat) (ord : option (list nat)) (s : vstate) (l : text) : result vstate :=
  if negb (vheaded s) then
    let n := match read_uint l with None => 0 | Some (n, _) => N.to_nat n end in
    let '(b, e) := interval mbeg mend rank size n in
    Done (VS true b e 0 (set_interval (Fin 0) (vdat s) b e))
  else
    match (match ord with None => Some (vind s) | Some o => nth_error o (vind s) end) with
    | None => Undefined
    | Some k =>
        if (vbeg s <=? k) && (k <? vend s) then
          if k - vbeg s <? length (vdat s) then Done (VS true (vbeg s) (vend s) (S (vind s)) (set_nth (k - vbeg s) (read_value l) (vdat s)))
          else Undefined
        else Done (VS true (vbeg s) (vend s) (S (vind s)) (vdat s))
    end.
Definition load_vector (mbeg mend : option nat) (rank size : nat) (ord : option (list nat)) (v : list value) (t : text) : result (nat * list value) :=
  match load_text (process_vector mbeg mend rank size ord) (VS false 0 0 0 v) t with
  | Done s => Done (vbeg s, vdat s)
  | Hang => Hang
  | Undefined => Undefined
  end.
