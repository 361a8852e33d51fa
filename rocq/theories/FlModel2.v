(** Differentiation, running integrals and sums of functions in floating point. *)
From Coq Require Import Reals List Arith Lia Lra ZArith Permutation.
From Verif Require Import Base ChebSpec ChebModel FlModel.
Import ListNotations.
Open Scope R_scope.

(** A slice with stride two: entries 0, 2, 4, ... *)
Fixpoint stride2 {A} (l : list A) : list A :=
  match l with [] => [] | a :: t => a :: match t with [] => [] | _ :: u => stride2 u end end.
(** The last entry of np.cumsum of the reversed list: starting from the last
    entry, one rounded addition per further entry. *)
Fixpoint fcum (l : list R) : R :=
  match l with [] => 0 | a :: t => match t with [] => a | _ => fadd (fcum t) a end end.
(** cheb/diff.py 8-25, computeDerCoeffs, one column.  The factors 2, 4, ... are
    integers (exact as doubles up to 2^53). *)
Definition fder (c : list R) : list R :=
  let n := length c in
  let v := mk (n - 1) (fun i => fmul (2 * INR (S i)) (nth (S i) c 0)) in
  let cout := mk (n - 1) (fun i => fcum (stride2 (skipn i v))) in
  upd cout 0 (fmul (/ 2) (nth 0 cout 0)).
(** fun.py 528-536, diff of order one on [a, b]: each coefficient is divided by
    (0.5 * (b - a))**1 (ufuncs.pyx 305-309; numpy's power returns x for x**1). *)
Definition ffun_diff (a b : R) (c : list R) : list R :=
  map (fun d => fdiv d (fmul (/ 2) (fsub b a))) (fder c).

(** chebtech.py 555-565, the coefficients of the running integral of one column:
    [b0] is the result of the product of the row 1, -1, 1, ... and the column
    b_1, b_2, ...; any order of summation. *)
Definition fcum_coeff (c : list R) (r : nat) : R :=
  match r with
  | O => 0
  | S O => fsub (nth 0 c 0) (fdiv (nth 2 c 0) 2)
  | _ => fdiv (fsub (nth (r - 1) c 0) (nth (r + 1) c 0)) (2 * INR r)
  end.
Definition fcumsum_coeffs (c b : list R) : Prop :=
  exists b0, fdot (map (fun j => ((if Nat.odd j then -1 else 1), fcum_coeff c (S j))) (seq 0 (length c))) b0 /\
    b = b0 :: map (fun j => fcum_coeff c (S j)) (seq 0 (length c)).
(** chebtech.py 572-579: what simplify returned, [s], is shifted by its value at
    the left end, chebtech.py 285-288: the signs of the odd coefficients are
    changed (c[1::2] *= -1) and np.sum adds the column in some order. *)
Definition flval (s : list R) (v : R) : Prop :=
  fdot (map (fun k => (1, fmul (nth k s 0) (if Nat.odd k then -1 else 1))) (seq 0 (length s))) v.
Definition fshift (s g : list R) : Prop := exists v, flval s v /\ g = upd s 0 (fsub (nth 0 s 0) v).
(** fun.py 546-551: multiplied by 0.5 * (b - a). *)
Definition fcum_scale (a b : R) (g : list R) : list R := map (fun t => fmul t (fmul (/ 2) (fsub b a))) g.

(** ufuncs.pyx 83-96, the sum of two columns: prolonged to the same length, then
    added entry by entry. *)
Definition fadd_cols (c d : list R) : list R :=
  mk (Nat.max (length c) (length d)) (fun k => fadd (nth k c 0) (nth k d 0)).
(** ufuncs.pyx 98-104: replaced by the constant zero if all entries are less than
    0.2 eps times the larger of the largest values [vscl] of the operands. *)
Definition fadd_fun (eps vscl : R) (c d : list R) : list R :=
  let s := fadd_cols c d in
  if forallb (fun t => if Rlt_dec (Rabs t) (fmul (fl (2 / 10)) (fmul eps vscl)) then true else false) s then [0] else s.
(** ufuncs.pyx 20-26 and 126-127. *)
Definition fneg_col (c : list R) : list R := map (fun t => fmul (-1) t) c.
Definition fsub_fun (eps vscl : R) (c d : list R) : list R := fadd_fun eps vscl c (fneg_col d).
(** ufuncs.pyx 182-193, multiplication by a number. *)
Definition fscale_col (c : list R) (t : R) : list R := map (fun s => fmul s t) c.
