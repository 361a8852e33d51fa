(** Model of funpy/colloc/ultraS: matrices of the ultraspherical spectral
    method.  Sparse n x n matrices are functions of row and column (the
    storage format is not modelled here); products sum over 0..n-1. *)
From Coq Require Import Reals ZArith List Arith Bool.
From Verif Require Import Base ChebSpec ChebModel UltraSpec.
Import ListNotations.
Open Scope R_scope.

(** scipy.sparse.spdiags(data, offsets, n, n): entry (j-d, j) of diagonal d is
    data[j]; diagonals are given as (offset, data). *)
Definition spdiags (ds : list (Z * (nat -> R))) : mat :=
  fun i j => fold_right (fun p s => (if Z.eqb (Z.of_nat j - Z.of_nat i) (fst p) then snd p j else 0) + s) 0 ds.
(** scipy.sparse.diags(diagonals, offsets): entry (i, i+k) of the diagonal
    k >= 0 is diagonal[i]. *)
Definition spdiags_row (ds : list (nat * (nat -> R))) : mat :=
  fun i j => fold_right (fun p s => (if Nat.eqb j (i + fst p) then snd p i else 0) + s) 0 ds.
(** scipy.sparse.eye *)
Definition eye : mat := fun i j => if Nat.eqb i j then 1 else 0.
(** product of n x n matrices; sum, scaling *)
Definition matmul (n : nat) (A B : mat) : mat := fun i j => rsum n (fun l => A i l * B l j).
Definition madd (A B : mat) : mat := fun i j => A i j + B i j.
Definition mscal (a : R) (A : mat) : mat := fun i j => a * A i j.

(** matrices.py 39-49, diffmat, m >= 0 *)
Definition diffmat (n m : nat) : mat :=
  match m with
  | O => eye
  | S q => fold_left (fun D s => matmul n (spdiags [(1%Z, fun _ => 2 * INR s)]) D) (seq 1 q) (spdiags [(1%Z, fun j => INR j)])
  end.

(** transform.py 92-106, spconvert (n >= 2): the diagonals 0 and 2 *)
Definition spconvert (n lam : nat) : mat :=
  match lam with
  | O => spdiags [(0%Z, fun j => nth j (1 :: / 2 :: repeat (/ 2) (n - 2)) 0); (2%Z, fun j => nth j (0 :: 0 :: repeat (- / 2) (n - 2)) 0)]
  | S _ => spdiags [(0%Z, fun j => nth j (1 :: INR lam / (INR lam + 1) :: map (fun p => INR lam / (INR lam + INR p)) (seq 2 (n - 2))) 0);
                    (2%Z, fun j => nth j (0 :: 0 :: map (fun p => - (INR lam / (INR lam + INR p))) (seq 2 (n - 2))) 0)]
  end.
(** transform.py 109-123, spconvert_inv *)
Definition conv_offsets (n : nat) : list nat := map (fun k => (2 * k)%nat) (seq 0 (if Nat.odd n then 1 + n / 2 else n / 2)).
Definition spconvert_inv (n lam : nat) : mat :=
  let dg := match lam with
            | O => 1 :: repeat 2 (n - 1)
            | S _ => 1 :: map (fun p => (INR lam + INR p) / INR lam) (seq 1 (n - 1))
            end in
  spdiags_row (map (fun k => (k, fun i => nth i dg 0)) (conv_offsets n)).
(** matrices.py 53-68, convertmat: range(K1, K2+1) ascending *)
Definition convertmat (n K1 K2 : nat) : mat :=
  fold_left (fun M s => matmul n (spconvert n s) M) (seq K1 (K2 + 1 - K1)) eye.
(** matrices.py 72-78, convertmat_inv: range(K2, K1-1, -1) descending *)
Definition convertmat_inv (n K1 K2 : nat) : mat :=
  fold_left (fun M s => matmul n (spconvert_inv n s) M) (rev (seq K1 (K2 + 1 - K1))) eye.

(** transform.py 22-48, sptoeplitz_fast of a column v; the two small branches
    and the one for 100 rows and more *)
Definition nzidx (v : list R) : list nat := filter (fun i => negb (Reqb (nth i v 0) 0)) (seq 0 (length v)).
Definition sptoeplitz_fast (v : list R) : mat :=
  if Nat.ltb (length v) 100 then
    match nzidx v with
    | [a] => if Nat.eqb a 0 then spdiags [(0%Z, fun _ => nth a v 0)]
             else spdiags [((- Z.of_nat a)%Z, fun _ => nth a v 0); (Z.of_nat a, fun _ => nth a v 0)]
    | _ => fun i j => nth (i - j + (j - i)) v 0      (* LA.toeplitz: v[|i-j|] *)
    end
  else spdiags (map (fun a => (Z.of_nat a, fun _ => nth a v 0)) (tl (nzidx v)) ++
                map (fun a => ((- Z.of_nat a)%Z, fun _ => nth a v 0)) (nzidx v)).
(** transform.py 82-89, sphankel: the columns of spdiags(flip r) reversed *)
Definition sphankel (r : list R) : mat :=
  let r' := rev r in
  fun i j => spdiags (map (fun a => (Z.of_nat a, fun _ => nth a r' 0)) (nzidx r')) i (length r - 1 - j)%nat.

(** matrices.py 101-105: pad or cut to k coefficients *)
Definition fitk (k : nat) (c : list R) : list R := mk k (fun i => nth i c 0).
(** matrices.py 81-147, multmat with the default eps (2.2e-16, so lines 94-98
    do nothing; k >= 2, and k >= 3 for lam = 1).  Lines 107-113, lam = 0. *)
Definition multmat0 (k : nat) (c : list R) : mat :=
  let c := map (fun a => a / 2) (fitk k c) in
  let v := 2 * nth 0 c 0 :: tl c in
  madd (sptoeplitz_fast v)
       (fun i j => if Nat.leb 1 i && Nat.ltb j (k - 1) then sphankel (tl c) (i - 1)%nat j else 0).
(** lines 114-120, lam = 1 *)
Definition multmat1 (k : nat) (c : list R) : mat :=
  let c := fitk k c in
  let v := 2 * nth 0 c 0 :: tl c in
  fun i j => sptoeplitz_fast v i j / 2 -
    (if Nat.ltb i (k - 2) && Nat.ltb j (k - 2) then sphankel (map (fun a => a / 2) (skipn 2 c)) i j else 0).
(** lines 121-144, lam >= 2: multiplication by x on 2k coefficients, the three
    term recurrence with early exit, the leading k x k block *)
Definition multx (lam m : nat) : mat :=
  madd (spdiags [((-1)%Z, fun j => (1 + INR j) / (2 * (INR lam + INR j)))])
       (spdiags [(1%Z, fun j => match j with O => 1 | S _ => (2 * INR lam + INR j - 1) / (2 * (INR lam + INR j)) end)]).
Fixpoint mult_loop (lam m : nat) (eps : R) (c : list R) (nn fuel : nat) (M M0 M1 : mat) : mat :=
  match fuel with
  | O => M
  | S fu =>
      let M2 := madd (mscal (2 * (1 + INR nn + INR lam) / (INR nn + 2)) (matmul m (multx lam m) M1))
                     (mscal (- ((INR nn + 2 * INR lam) / (INR nn + 2))) M0) in
      let M' := madd M (mscal (nth (nn + 2) c 0) M2) in
      if forallb (fun a => Rltb (Rabs a) eps) (skipn (nn + 3) c) then M'
      else mult_loop lam m eps c (S nn) fu M' M1 M2
  end.
Definition multmatL (k lam : nat) (eps : R) (c : list R) : mat :=
  let c := matvec k (convertmat k 0 (lam - 1)) (fitk k c) in
  let m := (2 * k)%nat in
  let M1 := mscal (2 * INR lam) (multx lam m) in
  mult_loop lam m eps c 0 (k - 2) (madd (mscal (nth 0 c 0) eye) (mscal (nth 1 c 0) M1)) eye M1.
(** lines 88-92: one coefficient is a number *)
Definition multmat (k : nat) (c : list R) (lam : nat) (eps : R) : mat :=
  if Nat.eqb (length c) 1 then mscal (nth 0 c 0) eye
  else match lam with O => multmat0 k c | 1%nat => multmat1 k c | _ => multmatL k lam eps c end.

(** matrices.py 150-170, intmat (k >= 2) *)
Definition intmat (k : nat) : mat :=
  fun i j => if Nat.eqb i 0 then (if Nat.odd j then 0 else if Nat.eqb j 0 then 2 else 2 / (1 - INR j ^ 2)) else 0.
(** matrices.py 172-178, realmat *)
Definition realmat (k : nat) : mat := fun i j => if Nat.eqb i 0 && Nat.eqb j 0 then 1 else 0.
