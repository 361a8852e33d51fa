(** Model of colloc/trigspec/matrices.py, colloc/trigspec/trigspec.py and
    sptoeplitz (colloc/ultraS/transform.py).  One interval [a,b] of length
    [len]; exact complex arithmetic; sparse matrices are dense lists of rows. *)
From Coq Require Import Reals ZArith List Arith Bool.
From Coquelicot Require Import Coquelicot.
From Verif Require Import Base TrigSpec TrigModel TrigModel2.
Import ListNotations.
Open Scope R_scope.
Open Scope C_scope.

Definition cmat := list (list C).
Definition ment (M : cmat) (i j : nat) : C := nth j (nth i M []) C0.
Definition cmk (n : nat) (f : nat -> nat -> C) : cmat := mk n (fun i => mk n (fun j => f i j)).
Definition cmatvec (n : nat) (M : cmat) (v : list C) : list C := mk n (fun i => csum n (fun j => ment M i j * nth j v C0)).
Definition cmatmul (n : nat) (A B : cmat) : cmat := cmk n (fun i j => csum n (fun k => ment A i k * ment B k j)).
Definition cmatadd (n : nat) (A B : cmat) : cmat := cmk n (fun i j => ment A i j + ment B i j).
Definition cmatscal (n : nat) (s : C) (A : cmat) : cmat := cmk n (fun i j => s * ment A i j).
Definition cdiag (n : nat) (f : nat -> C) : cmat := cmk n (fun i j => if Nat.eqb i j then f i else C0).
Definition ceye (n : nat) : cmat := cdiag n (fun _ => RtoC 1).

(** matrices.py 15-37, diffmat with flag=False: the diagonal.  np.arange(-(n-1)/2, n/2)
    and np.arange(-n/2, n/2) are the numbers [freq n k]. *)
Definition diff_diag (n m k : nat) : C :=
  if Nat.odd n then cpow Ci m * cpow (RtoC (IZR (freq n k))) m
  else if Nat.odd m then cpow Ci m * cpow (if Nat.eqb k 0 then C0 else RtoC (IZR (freq n k))) m
  else cpow Ci m * cpow (RtoC (IZR (freq n k))) m.
Definition tdiffmat (n m : nat) : cmat := if Nat.eqb m 0 then ceye n else cdiag n (diff_diag n m).

(** transform.py 16-22, find, and 51-77, sptoeplitz(col, row) for two arrays of the same size. *)
Definition nzs (l : list C) : list nat := filter (fun k => negb (ceqb (nth k l C0) C0)) (seq 0 (length l)).
(** scipy.sparse.spdiags for constant diagonals (offset, value) with different offsets *)
Definition spdiags_entry (ds : list (Z * C)) (i j : nat) : C :=
  match find (fun p => Z.eqb (fst p) (Z.of_nat j - Z.of_nat i)) ds with Some p => snd p | None => C0 end.
(** scipy.linalg.toeplitz(col, row) *)
Definition toeplitz_entry (col row : list C) (i j : nat) : C :=
  if Nat.leb j i then nth (i - j) col C0 else nth (j - i) row C0.
Definition sptoeplitz (col row : list C) : cmat :=
  let m := length col in let n := length row in
  if Nat.ltb m 100 && Nat.ltb n 100 then
    match nzs col, nzs row with
    | [ic], [ir] =>
        if Nat.eqb ic 0 then cmk m (spdiags_entry [(0%Z, nth ic col C0)])
        else cmk m (spdiags_entry [((- Z.of_nat ic)%Z, nth ic col C0); (Z.of_nat ir, nth ir row C0)])
    | _, _ => cmk m (toeplitz_entry col row)
    end
  else
    let row := C0 :: tl row in
    let ds := map (fun k => (Z.of_nat k, nth k row C0)) (nzs row) ++ map (fun k => ((- Z.of_nat k)%Z, nth k col C0)) (nzs col) in
    cmk m (spdiags_entry ds).

(** Python slices l[start:stop] (a negative stop counts from the end) and l[start:stop:-1] *)
Definition py_idx (n : nat) (s : Z) : nat := Z.to_nat (if Z.ltb s 0 then s + Z.of_nat n else Z.min s (Z.of_nat n)).
Definition py_slice {A} (l : list A) (start stop : Z) : list A :=
  let s := py_idx (length l) start in firstn (py_idx (length l) stop - s) (skipn s l).
Definition py_slice_down {A} (l : list A) (start : nat) (stop : Z) : list A :=
  let e := py_idx (length l) stop in rev (firstn (start - e) (skipn (e + 1) l)).

(** matrices.py 39-73, multmat (np.asscalar taken as working). *)
Definition tmultmat (k : nat) (c : list C) : cmat :=
  if Nat.eqb (length c) 1 then cmatscal k (nth 0 c C0) (ceye k)
  else
    let c := if Nat.even (length c) then (RtoC (/ 2) * nth 0 c C0) :: tl c ++ [RtoC (/ 2) * nth 0 c C0] else c in
    let Na := (length c / 2)%nat in
    let '(col, row) :=
      if Nat.ltb Na k then (skipn Na c ++ repeat C0 (k - Na - 1), rev (firstn (Na + 1) c) ++ repeat C0 (k - Na - 1))
      else (py_slice c (Z.of_nat Na) (Z.of_nat k - Z.of_nat Na - 1), py_slice_down c Na (Z.of_nat Na - Z.of_nat k)) in
    sptoeplitz col row.

(** matrices.py 75-104, intmat *)
Definition tintmat (k : nat) : cmat :=
  let ind := if Nat.odd k then ((k + 1) / 2 - 1)%nat else (k / 2)%nat in
  cmk k (fun i j => if Nat.eqb i ind && Nat.eqb j ind then RtoC 2 else C0).
(** matrices.py 106-112, gen_m0 and gen_m1 *)
Definition gen_m0 (i : Z) (Rscl : R) : C := Ci * (if Z.eqb i 0 then C0 else RtoC ((1 - cos (Rscl * IZR i)) / (Rscl * IZR i))).
Definition gen_m1 (i : Z) (Rscl : R) : C := if Z.eqb i 0 then C0 else RtoC ((1 - cos (Rscl * IZR i)) / Rscl).
(** matrices.py 114-140, aggmat; m = 0 or 1 (an assertion) *)
Definition aggmat (n m : nat) (rescale : R) : option cmat :=
  let Rscl := (rescale * PI)%R in
  if Nat.leb m 1 then Some (cdiag n (fun k => if Nat.eqb m 0 then gen_m0 (freq n k) Rscl else gen_m1 (freq n k) Rscl)) else None.

(** trigspec.py 24-36, diff *)
Definition ts_diff (n m : nat) (len : R) : cmat :=
  if Nat.eqb m 0 then ceye n else cmatscal n (RtoC ((2 * PI / len) ^ m)) (tdiffmat n m).
(** trigspec.py 38-46, int *)
Definition ts_int (n : nat) (len : R) : cmat := cmatscal n (RtoC (/ 2 * len)) (tintmat n).
(** trigspec.py 48-55, mult (the first column / first block of its argument) *)
Definition ts_mult (n : nat) (c : list C) : cmat := tmultmat n c.
(** trigspec.py 57-72, aggregation *)
Definition ts_agg (n m : nat) (len : R) : option cmat := aggmat n m (1 / (/ 2 * len))%R.

(** A block of a quasi-linear operator (quasiOpBlock.py 10-57): flags of the derivative
    terms, flag of the integral term, coefficients, integral coefficients and integrands,
    flags and coefficients of the non-local terms. *)
Record tblock := mkTB { t_info : list bool; t_iflag : bool; t_coeffs : list (list C); t_ics : list (list C); t_ints : list (list C);
                        t_nlinfo : list bool; t_nlcoeffs : list (list C) }.
Definition tflag (l : list bool) (j : nat) : bool := nth j l false.
Definition czero (n : nat) : cmat := cmk n (fun _ _ => C0).
(** csr.py 48-61, eliminate_zeros *)
Definition celim (n : nat) (e : R) (M : cmat) : cmat := cmk n (fun i j => if Rlt_dec (Cmod (ment M i j)) e then C0 else ment M i j).
(** trigspec.py 82-126, quasi2diffmat: the matrix before eliminate_zeros.  The integrands
    are not used; mult(getICoeffs()) takes the first integral coefficient only.  The argument
    adjoint is accepted and ignored. *)
Definition ts_agg0 (n : nat) (len : R) : cmat := match ts_agg n 0 len with Some M => M | None => czero n end.
Definition ts_raw (n : nat) (len : R) (q : tblock) : cmat :=
  let L := fold_left (fun L j => if tflag (t_info q) j then cmatadd n L (cmatmul n (ts_mult n (nth j (t_coeffs q) [])) (ts_diff n j len)) else L)
             (seq 0 (length (t_coeffs q))) (czero n) in
  let L := if t_iflag q then cmatadd n L (cmatmul n (ts_mult n (nth 0 (t_ics q) [])) (ts_int n len)) else L in
  fold_left (fun L j => if tflag (t_nlinfo q) j
                        then cmatadd n L (cmatmul n (cmatmul n (ts_mult n (nth j (t_nlcoeffs q) [])) (ts_diff n j len)) (ts_agg0 n len)) else L)
             (seq 0 (length (t_nlcoeffs q))) L.
Definition ts_block (adjoint : bool) (n : nat) (len e : R) (q : tblock) : cmat := celim n e (ts_raw n len q).

(** coeffsDiscretization.py 54-77, instantiate, and trigspec.py 75-80, reduce: the matrix of a
    system (m x m blocks, no boundary conditions); with adjoint=True block (e,q) is built from
    source[q,e]. *)
Definition ts_matrix (adjoint : bool) (n m : nat) (len e : R) (Q : nat -> nat -> tblock) : cmat :=
  concat (mk m (fun i => let Bs := mk m (fun j => ts_block adjoint n len e (if adjoint then Q j i else Q i j)) in
     mk n (fun r => concat (map (fun B => nth r B []) Bs)))).
