(** Model of the collocation differentiation matrices and objects:
    funpy/colloc/trigcolloc/matrices.py diffmat, funpy/trig/trigtech.py diffmat,
    funpy/colloc/chebcolloc/chebcolloc2.py and the parts of valsDiscretization.py it uses. *)
From Coq Require Import Reals ZArith List Arith Bool.
From Coquelicot Require Import Coquelicot.
From Verif Require Import Base TrigSpec TrigModel ChebModel ChebModel2 ChebModel3.
Import ListNotations.
Open Scope R_scope.

(** scipy.linalg.toeplitz(col, row): the first entry of row is not read *)
Definition toeplitz (col row : list R) : mat := fun i j => if Nat.leb j i then nth (i - j) col 0 else nth (j - i) row 0.
(** column[1::2] *= -1 and column[::2] *= -1 *)
Definition neg_odd (c : list R) : list R := mk (length c) (fun i => if Nat.even i then nth i c 0 else - nth i c 0).
Definition neg_even (c : list R) : list R := mk (length c) (fun i => if Nat.even i then - nth i c 0 else nth i c 0).
(** column[np.roll(np.arange(n)[::-1], 1)]: indices 0, n-1, ..., 1 *)
Definition roll_back (c : list R) : list R := mk (length c) (fun i => nth (if Nat.eqb i 0 then 0 else length c - i) c 0).
(** 1/sin(t) and 1/tan(t); the latter written cos/sin (the value of 1/tan at pi/2 is 0) *)
Definition csc (t : R) : R := 1 / sin t.
Definition cot (t : R) : R := cos t / sin t.
Definition mscale (a : R) (D : mat) : mat := fun i j => a * D i j.
Definition meye : mat := fun i j => if Nat.eqb i j then 1 else 0.

(** what diffmat returns: a matrix, the 0-dimensional array 0 (for one point), NotImplemented, or an exception *)
Inductive dres := DMat (D : mat) | DZero | DNotImplemented | DRaise.

(** colloc/trigcolloc/matrices.py 34-72: first columns for the orders 1, 2, 3 (before the sign change) *)
Definition tc_col1 (n : nat) : list R :=
  let h := 2 * PI / INR n in
  0 :: mk (n - 1) (fun i => let v := INR (S i) in if Nat.odd n then / 2 * csc (/ 2 * v * h) else / 2 * cot (/ 2 * v * h)).
Definition tc_col2 (n : nat) : list R :=
  let h := 2 * PI / INR n in
  (if Nat.odd n then PI ^ 2 / 3 / h ^ 2 - 1 / 12 else PI ^ 2 / 3 / h ^ 2 + 1 / 6)
  :: mk (n - 1) (fun i => let v := INR (S i) in if Nat.odd n then / 2 * csc (/ 2 * v * h) * cot (/ 2 * v * h) else / 2 * csc (/ 2 * v * h) ^ 2).
Definition tc_col3 (n : nat) : list R :=
  let h := 2 * PI / INR n in
  0 :: mk (n - 1) (fun i => let v := INR (S i) in let c := csc (/ 2 * v * h) in let t := cot (/ 2 * v * h) in
         if Nat.odd n then 3 / 8 * c * t ^ 2 + 3 / 8 * c ^ 3 - PI ^ 2 / 2 / h ^ 2 * c
         else 3 / 4 * (c ^ 2 * t) - PI ^ 2 / 2 / h ^ 2 * t).
(** colloc/trigcolloc/matrices.py 18-97: diffmat(n, m).  Orders 4 and higher call np.hstack(()), which raises. *)
Definition tc_diffmat (n m : nat) : dres :=
  if Nat.eqb n 0 then DNotImplemented
  else if Nat.eqb n 1 then DZero
  else match m with
  | 0%nat => DMat meye
  | 1%nat => let c := neg_odd (tc_col1 n) in DMat (mscale (PI ^ 1) (toeplitz c (roll_back c)))
  | 2%nat => let c := neg_even (tc_col2 n) in DMat (mscale (PI ^ 2) (toeplitz c c))
  | 3%nat => let c := neg_even (tc_col3 n) in DMat (mscale (PI ^ 3) (toeplitz c (roll_back c)))
  | _ => DRaise
  end.

(** trig/trigtech.py 706-764: diffmat(self, n, k), n >= 1 *)
Definition tt_h (n : nat) : R := 2 * PI / INR n.
Definition tt_n1 (n : nat) : nat := (n - 1) / 2.
Definition tt_n2 (n : nat) : nat := n / 2.
(** (-1)**arange(1,n) *)
Definition tt_sgn (n : nat) : list R := mk (n - 1) (fun i => (-1) ^ (S i)).
(** f(v) for v = arange(1, n2+1)*h/2 *)
Definition tt_tmp (f : R -> R) (n : nat) : list R := mk (tt_n2 n) (fun i => f (INR (S i) * tt_h n / 2)).
(** vstack((tmp, s*flipud(tmp[:n1]))) *)
Definition tt_stack (f : R -> R) (s : R) (n : nat) : list R := tt_tmp f n ++ map (Rmult s) (rev (firstn (tt_n1 n) (tt_tmp f n))).
Definition zipmul (a b : list R) : list R := mk (length a) (fun i => nth i a 0 * nth i b 0).
Definition tt_col1 (n : nat) : list R :=
  0 :: map (Rmult (PI / 2)) (zipmul (tt_sgn n) (if Nat.odd n then tt_stack csc 1 n else tt_stack cot (-1) n)).
Definition tt_col2 (n : nat) : list R :=
  map (Rmult (PI ^ 2))
    ((if Nat.odd n then - PI ^ 2 / (3 * tt_h n ^ 2) + 1 / 12 else - PI ^ 2 / (3 * tt_h n ^ 2) - 1 / 6)
     :: map (Rmult (- / 2)) (zipmul (tt_sgn n) (if Nat.odd n then tt_stack (fun v => csc v * cot v) (-1) n else tt_stack (fun v => csc v ^ 2) 1 n))).
(** trigtech.py 750-752; np.remainder(k+1, 1) is always 0 *)
Definition tt_wave (n k : nat) : list R :=
  map INR (seq 0 (tt_n1 n + 1)) ++ (if Nat.even n then [- INR n / 2 * INR ((k + 1) mod 1)] else []) ++ mk (tt_n1 n) (fun i => - INR (tt_n1 n) + INR i).
Definition tt_colk (n k : nat) : list R :=
  let w := tt_wave n k in
  let e := fft (RtoC 1 :: repeat (RtoC 0) (n - 1)) in
  map (fun z => PI ^ k * Re z) (ifft (mk n (fun i => Cmult (cpow (Cmult Ci (RtoC (nth i w 0))) k) (nth i e (RtoC 0))))).
Definition tt_diffmat (n k : nat) : mat :=
  match k with
  | 0%nat => meye
  | 1%nat => toeplitz (tt_col1 n) (map Ropp (tt_col1 n))
  | 2%nat => toeplitz (tt_col2 n) (tt_col2 n)
  | _ => if Nat.odd k then let c := 0 :: tl (tt_colk n k) in toeplitz c (map Ropp c) else toeplitz (tt_colk n k) (tt_colk n k)
  end.

(** chebcolloc2 objects: one list per column; the points are computed from the number of rows (chebcolloc2.py 20-22) *)
Record colloc := mkColloc { cvals : list (list R); cdom : R * R }.
Definition crows_of (f : colloc) : nat := length (hd [] (cvals f)).
(** chebpts_type2(N, interval): [0] for one point, whatever the interval *)
Definition cpoints (f : colloc) : list R :=
  if Nat.eqb (crows_of f) 1 then [0] else scaleNodes (chebpts_type2_compute (crows_of f)) (fst (cdom f)) (snd (cdom f)).
Definition cweights (f : colloc) : list R := if Nat.eqb (crows_of f) 1 then [1] else bary_weights (crows_of f).
(** product of a row of the barycentric matrix with a column of values *)
Definition xdot (r : list xreal) (v : list R) : option R :=
  fold_right (fun p acc => match fst p, acc with Fin a, Some s => Some (a * snd p + s) | _, _ => None end) (Some 0) (combine r v).
(** chebcolloc2.py 33-48: f(y) for one point y; the values of all columns *)
Definition colloc_call (f : colloc) (y : R) : option (list (option R)) :=
  if Rle_dec (fst (cdom f)) y then
    if Rle_dec y (snd (cdom f)) then Some (map (xdot (bary_row y (cpoints f) (cweights f))) (cvals f)) else None
  else None.
(** matrix times the columns *)
Definition mat_cols (N : nat) (D : mat) (A : list (list R)) : list (list R) := map (fun c => mk N (fun i => rsum N (fun j => D i j * nth j c 0))) A.
(** chebcolloc2.py 56-69, 86-89: np.diff(f, n=k).  cheb/diff.py 36-37: one point and k >= 1 give a 0x0 matrix and the product raises *)
Definition colloc_diff (f : colloc) (k : nat) : option colloc :=
  let N := crows_of f in
  if Nat.eqb N 0 then None
  else if Nat.eqb k 0 then Some (mkColloc (mat_cols N meye (cvals f)) (cdom f))
  else if Nat.eqb N 1 then None
  else Some (mkColloc (mat_cols N (ChebModel3.diffmat (cpoints f) k) (cvals f)) (cdom f)).
(** chebcolloc2.py 24-25: f[j] *)
Definition colloc_getitem (f : colloc) (j : nat) : option colloc :=
  if Nat.ltb j (length (cvals f)) then Some (mkColloc [nth j (cvals f) []] (cdom f)) else None.
