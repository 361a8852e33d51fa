(** Model of funpy/colloc/sparse/csr.py and csc.py.

    A compressed sparse matrix is the triple of arrays scipy stores, plus its
    shape.  For CSR the major axis is the rows, for CSC the columns; the
    scipy classes are otherwise identical.  Integer dtypes are unbounded. *)
From Coq Require Import Reals ZArith List Arith Bool.
From Verif Require Import Base ToolsModel.
Import ListNotations.
Open Scope R_scope.

Record csm := mkCsm { data : list R; indices : list nat; indptr : list nat; nmaj : nat; nmin : nat }.

(** numpy slice assignment l[lo:hi] = src with 0 <= lo, hi already
    non-negative: the lengths must agree, or src has one entry and is
    broadcast; otherwise ValueError.  (An overlapping source is copied first.) *)
Definition set_slice {A} (l : list A) (lo hi : nat) (src : list A) : option (list A) :=
  let hi := Nat.min hi (length l) in
  let lo := Nat.min lo (length l) in
  if Nat.eqb (hi - lo) (length src) then Some (firstn lo l ++ src ++ skipn (Nat.max lo hi) l)
  else match src with
       | [v] => Some (firstn lo l ++ repeat v (hi - lo) ++ skipn (Nat.max lo hi) l)
       | _ => None
       end.

(** indptr handling common to delete_row_csr (csr.py 31-33) and
    delete_col_csc (csc.py 30-32); n is the number of stored entries removed. *)
Definition drop_indptr (ip : list nat) (i n : nat) : option (list nat) :=
  match set_slice ip i (length ip - 1) (skipn (i + 1) ip) with
  | None => None
  | Some ip1 =>
      let ip2 := firstn i ip1 ++ map (fun v => (v - n)%nat) (skipn i ip1) in
      Some (firstn (length ip2 - 1) ip2)
  end.

(** csc.py 22-33, delete_col_csc for 0 <= i; an index past the end raises
    IndexError. *)
Definition delete_col_csc (M : csm) (i : nat) : option csm :=
  match nth_error (indptr M) (i + 1), nth_error (indptr M) i with
  | Some q, Some p =>
      let n := (q - p)%nat in
      let dat := if Nat.ltb 0 n then
                   match set_slice (data M) p (length (data M) - n) (skipn q (data M)) with
                   | None => None | Some d => Some (firstn (length d - n) d) end
                 else Some (data M) in
      let idx := if Nat.ltb 0 n then
                   match set_slice (indices M) p (length (indices M) - n) (skipn q (indices M)) with
                   | None => None | Some d => Some (firstn (length d - n) d) end
                 else Some (indices M) in
      match dat, idx, drop_indptr (indptr M) i n with
      | Some d, Some x, Some ip => Some (mkCsm d x ip (nmaj M - 1) (nmin M))
      | _, _, _ => None
      end
  | _, _ => None
  end.

(** csr.py 21-33, delete_row_csr: as above, except for line 30 which keeps
    mat.indices[i+1:]. *)
Definition delete_row_csr (M : csm) (i : nat) : option csm :=
  match nth_error (indptr M) (i + 1), nth_error (indptr M) i with
  | Some q, Some p =>
      let n := (q - p)%nat in
      let dat := if Nat.ltb 0 n then
                   match set_slice (data M) p (length (data M) - n) (skipn q (data M)) with
                   | None => None | Some d => Some (firstn (length d - n) d) end
                 else Some (data M) in
      let idx := if Nat.ltb 0 n then
                   match set_slice (indices M) p (length (indices M) - n) (skipn q (indices M)) with
                   | None => None | Some d => Some (skipn (i + 1) d) end
                 else Some (indices M) in
      match dat, idx, drop_indptr (indptr M) i n with
      | Some d, Some x, Some ip => Some (mkCsm d x ip (nmaj M - 1) (nmin M))
      | _, _, _ => None
      end
  | _, _ => None
  end.

(** csr.py 8-18, csr_vappend; a.nnz is a.indptr[-1]. *)
Definition csr_vappend (a b : csm) : csm :=
  let nnz := last (indptr a) 0%nat in
  mkCsm (data a ++ data b) (indices a ++ indices b)
        (indptr a ++ tl (map (fun v => (v + nnz)%nat) (indptr b)))
        (nmaj a + nmaj b) (nmin b).

(** the stored (index, value) pairs of major line i *)
Definition seg {A} (l : list A) (p q : nat) : list A := firstn (q - p) (skipn p l).
Definition line (M : csm) (i : nat) : list (nat * R) :=
  let p := nth i (indptr M) 0%nat in let q := nth (i + 1) (indptr M) 0%nat in
  combine (seg (indices M) p q) (seg (data M) p q).

(** scipy's construction of a compressed matrix from its lines. *)
Fixpoint offsets (acc : nat) (ls : list (list (nat * R))) : list nat :=
  match ls with [] => [acc] | l :: r => acc :: offsets (acc + length l) r end.
Definition of_lines (ls : list (list (nat * R))) (m : nat) : csm :=
  mkCsm (map snd (concat ls)) (map fst (concat ls)) (offsets 0 ls) (length ls) m.

(** csr.py 36-45, delete_rows_csr.  mask[indices] = False with Python index
    semantics (negative indices count from the end, IndexError outside);
    mat[mask] is scipy's row selection (library code): the selected lines
    are copied in order. *)
Definition py_index (n : nat) (i : Z) : option nat :=
  if andb (Z.leb 0 i) (Z.ltb i (Z.of_nat n)) then Some (Z.to_nat i)
  else if andb (Z.leb (- Z.of_nat n) i) (Z.ltb i 0) then Some (Z.to_nat (i + Z.of_nat n)) else None.
Fixpoint set_false (mask : list bool) (idx : list Z) : option (list bool) :=
  match idx with
  | [] => Some mask
  | i :: r => match py_index (length mask) i with
              | None => None
              | Some k => match np_set mask k false with None => None | Some m => set_false m r end
              end
  end.
Definition delete_rows_csr (M : csm) (idx : list Z) : option csm :=
  match set_false (repeat true (nmaj M)) idx with
  | None => None
  | Some mask => Some (of_lines (map (line M) (filter (fun i => nth i mask false) (seq 0 (nmaj M)))) (nmin M))
  end.

(** csc.py 36-46, delete_cols_csc for a list of non-negative indices:
    sorted(indices, reverse=True), then one deletion after the other. *)
Fixpoint insert_desc (x : nat) (l : list nat) : list nat :=
  match l with [] => [x] | y :: r => if Nat.leb y x then x :: l else y :: insert_desc x r end.
Definition sort_desc (l : list nat) : list nat := fold_right insert_desc [] l.
Fixpoint delete_all (M : csm) (l : list nat) : option csm :=
  match l with [] => Some M | i :: r => match delete_col_csc M i with None => None | Some M' => delete_all M' r end end.
Definition delete_cols_csc (M : csm) (l : list nat) : option csm := delete_all M (sort_desc l).

(** csr.py 48-61 = csc.py 49-62, eliminate_zeros: small stored values are set
    to zero, then scipy drops the stored zeros of every line. *)
Definition eliminate_zeros (M : csm) (e : R) : csm :=
  let M' := mkCsm (map (fun v => if Rlt_dec (Rabs v) e then 0 else v) (data M)) (indices M) (indptr M) (nmaj M) (nmin M) in
  of_lines (map (fun i => filter (fun p => if Req_EM_T (snd p) 0 then false else true) (line M' i)) (seq 0 (nmaj M))) (nmin M).

(** np.argsort: the indices sorted by key *)
Fixpoint insert_key (key : nat -> nat) (x : nat) (l : list nat) : list nat :=
  match l with [] => [x] | y :: r => if Nat.leb (key x) (key y) then x :: l else y :: insert_key key x r end.
Definition argsort (l : list nat) : list nat :=
  fold_right (insert_key (fun k => nth k l 0%nat)) [] (seq 0 (length l)).

(** csr.py 64-70 flip_rows (= csc.py 65-71 flip_cols): tocoo lists the
    stored triples, the major index r is replaced by argsort(order)[r]
    (IndexError outside) and tocsr groups the triples by major index again
    (scipy also sums duplicates, which does not change the matrix; the number
    of rows is kept and a larger index is an error). *)
Definition to_coo (M : csm) : list (nat * (nat * R)) :=
  concat (map (fun i => map (fun p => (i, p)) (line M i)) (seq 0 (nmaj M))).
Fixpoint remap (s : list nat) (t : list (nat * (nat * R))) : option (list (nat * (nat * R))) :=
  match t with
  | [] => Some []
  | (r, p) :: t' => match nth_error s r, remap s t' with
                    | Some r', Some t'' => Some ((r', p) :: t'') | _, _ => None end
  end.
Definition flip_rows (M : csm) (order : list nat) : option csm :=
  match remap (argsort order) (to_coo M) with
  | None => None
  | Some t =>
      if forallb (fun x => Nat.ltb (fst x) (nmaj M)) t then
        Some (of_lines (map (fun r => map snd (filter (fun x => Nat.eqb (fst x) r) t)) (seq 0 (nmaj M))) (nmin M))
      else None
  end.
