(** Model of funpy/trig: one column is a list of complex numbers, an array a
    list of columns.  [None] is an exception.  Library FFTs are modelled by
    their defining sums, floating point by exact arithmetic. *)
From Coq Require Import Reals ZArith List Arith Bool.
From Coquelicot Require Import Coquelicot.
From Verif Require Import Base TrigSpec.
Import ListNotations.
Open Scope R_scope.
Open Scope C_scope.

Definition C0 : C := RtoC 0.
Definition Reqb (a b : R) : bool := if Req_EM_T a b then true else false.
Definition Rleb (a b : R) : bool := if Rle_dec a b then true else false.
Definition Rltb (a b : R) : bool := if Rlt_dec a b then true else false.
Definition carr := list (list C).
Definition crows (A : carr) : nat := length (hd [] A).

(** scipy.fft.fft, ifft, fftshift (roll by n//2), ifftshift (roll by -(n//2)). *)
Definition fft (v : list C) : list C :=
  let n := length v in
  mk n (fun k => csum n (fun j => nth j v C0 * cis (- (2 * PI * INR j * INR k / INR n)))).
Definition ifft (v : list C) : list C :=
  let n := length v in
  mk n (fun j => RtoC (/ INR n) * csum n (fun k => nth k v C0 * cis (2 * PI * INR j * INR k / INR n))).
Definition fftshift (v : list C) : list C :=
  let n := length v in mk n (fun k => nth ((k + (n - n / 2)) mod n) v C0).
Definition ifftshift (v : list C) : list C :=
  let n := length v in mk n (fun k => nth ((k + n / 2) mod n) v C0).

(** transform.py 49-53 = 70-73, even_odd_fix: (-1)**k for k = -(n-1)/2.. (odd
    n), -n/2.. (even n). *)
Definition eofix (n k : nat) : C := if Z.even (freq n k) then RtoC 1 else RtoC (-1).

(** transform.py 11-17, isHerm and isSkew of one column: the largest modulus
    of v -+ conj(v reversed) is zero. *)
Definition isHerm (v : list C) : bool :=
  forallb (fun p => Reqb (Cmod (fst p - Cconj (snd p))) 0) (combine v (rev v)).
Definition isSkew (v : list C) : bool :=
  forallb (fun p => Reqb (Cmod (fst p + Cconj (snd p))) 0) (combine v (rev v)).

(** transform.py 19-59, vals2coeffs, one column. *)
Definition vals2coeffs1 (v : list C) : list C :=
  let n := length v in
  if Nat.leb n 1 then v else
  let vals := v ++ [nth 0 v C0] in
  let c := map (fun a => RtoC (/ INR n) * a) (fftshift (fft v)) in
  let c := if isHerm vals then map (fun a => RtoC (Re a)) c else c in
  let c := if isSkew vals then map (fun a => Ci * RtoC (Im a)) c else c in
  mk n (fun k => eofix n k * nth k c C0).
Definition vals2coeffs (A : carr) : carr := map vals2coeffs1 A.

(** transform.py 61-90, coeffs2vals, one column.  Both corrections are
    computed from the uncorrected values; the second assignment wins. *)
Definition coeffs2vals1 (c : list C) : list C :=
  let n := length c in
  if Nat.leb n 1 then c else
  let c := mk n (fun k => eofix n k * nth k c C0) in
  let herm := forallb (fun a => Reqb (Rabs (Im a)) 0) c in
  let skew := forallb (fun a => Reqb (Rabs (Re a)) 0) c in
  let values := ifft (ifftshift (map (fun a => RtoC (INR n) * a) c)) in
  let vals := values ++ [nth 0 values C0] in
  let hermvals := map (fun p => (fst p + Cconj (snd p)) / RtoC 2) (combine vals (rev vals)) in
  let skewvals := map (fun p => (fst p - Cconj (snd p)) / RtoC 2) (combine vals (rev vals)) in
  let values := if herm then firstn n hermvals else values in
  let values := if skew then firstn n skewvals else values in
  values.
Definition coeffs2vals (A : carr) : carr := map coeffs2vals1 A.

(** eval.py 41-60 horner_scl_cmplx = 9-39 horner_vec_cmplx, one column, one
    point; c non-empty. *)
Definition horner_cmplx (c : list C) (x : R) : C :=
  let n := length c in
  if Nat.eqb n 1 then nth 0 c C0 else
  let z := cis (PI * x) in
  let q := fold_left (fun q j => nth j c C0 + z * q) (rev (seq 1 (n - 2))) (nth (n - 1) c C0) in
  if Nat.odd n then cis (- (PI * INR ((n - 1) / 2) * x)) * (nth 0 c C0 + z * q)
  else cis (- (PI * INR (n / 2 - 1) * x)) * q + RtoC (cos (INR (n / 2) * PI * x)) * nth 0 c C0.

(** eval.py 62-89 horner_scl_real = 91-122 horner_vec_real, one column, one
    point.  c[n-1::-1] and np.real / np.imag of it are views, so lines 73-75
    (103-105) halve the real part of coefficient 0 of the object and clear its
    imaginary part when the length is even: [touch] is the array afterwards. *)
Definition touch (c : list C) : list C :=
  match c with
  | [] => []
  | a :: t => if Nat.even (length c) then ((Re a / 2)%R, 0%R) :: t else c
  end.
Definition horner_real (c : list C) (x : R) : R :=
  let N := length c in
  let n := ((N + 2) / 2)%nat in
  let c' := rev (firstn n (touch c)) in
  let a := fun j => Re (nth j c' C0) in
  let b := fun j => Im (nth j c' C0) in
  if Nat.eqb N 1 then a 0%nat else
  let u := cos (PI * x) in
  let v := sin (PI * x) in
  let '(co, si) := fold_left (fun '(co, si) j => (a j + u * co + v * si, b j + u * si - v * co)%R)
                     (rev (seq 1 (n - 2))) (a (n - 1)%nat, b (n - 1)%nat) in
  (a 0%nat + 2 * (u * co + v * si))%R.

(** trig_simplify.py 20-22 = trigtech.py 280-282: an even length column is
    made symmetric. *)
Definition split_even (c : list C) : list C :=
  if Nat.even (length c) then (RtoC (/ 2) * nth 0 c C0) :: tl c ++ [RtoC (/ 2) * nth 0 c C0] else c.
(** trig_simplify.py 31-36 and 44-48: padding and chopping an odd length column *)
Definition pad_odd (c : list C) (N : nat) : list C :=
  repeat C0 ((N - length c + 1) / 2) ++ c ++ repeat C0 ((N - length c) / 2).
Definition chop_odd (c : list C) (N : nat) : option (list C) :=
  let kup := ((length c - N) / 2)%nat in
  let kdown := ((length c - N + 1) / 2)%nat in
  let d := firstn (length c - kdown - kup) (skipn kup c) in
  if Nat.ltb kup kdown then
    match d with [] => None | a :: t => Some (RtoC 2 * a :: t) end
  else Some d.
(** trigtech.py 270-310, prolong (coefficients of one column). *)
Definition prolong_col (c : list C) (N : nat) : option (list C) :=
  if Nat.eqb N (length c) then Some c else
  let c := split_even c in
  if Nat.eqb (length c) N then Some c
  else if Nat.ltb (length c) N then Some (pad_odd c N)
  else chop_odd c N.
(** trig_simplify.py 13-54, prolong: the same, except that for Nout = Nin it
    returns None, which the callers cannot unpack. *)
Definition prolong_fun_col (c : list C) (N : nat) : option (list C) :=
  if Nat.eqb N (length c) then None else prolong_col c N.
(** trigtech.py 444-476, prolong_coeffs: when the symmetrised length is the
    requested one, the original coefficients are returned. *)
Definition prolong_coeffs_col (c : list C) (N : nat) : option (list C) :=
  let s := split_even c in
  if Nat.eqb (length s) N then Some c
  else if Nat.ltb (length s) N then Some (pad_odd s N)
  else chop_odd s N.

Fixpoint cpow (a : C) (n : nat) : C := match n with O => RtoC 1 | S m => a * cpow a m end.

(** trigtech.py 566-581, diff, one column. *)
Definition tdiff_col (c : list C) (n : nat) : list C :=
  mk (length c) (fun k => nth k c C0 * cpow (Ci * RtoC PI * RtoC (IZR (freq (length c) k))) n).
(** trigtech.py 584-596, sum: entry floor((n+2)/2) - 1 doubled. *)
Definition tsum_col (c : list C) : C := RtoC 2 * nth ((length c + 2) / 2 - 1) c C0.

(** operations.py 11-45, circshift, the coefficients; exp(-i pi a)**k for an
    integral k and real a. *)
Definition circshift_col (c : list C) (a : R) : list C :=
  if Reqb a 0 then c
  else mk (length c) (fun k => nth k c C0 * cis (- (PI * a * IZR (freq (length c) k)))).

(** trigtech.py 692-717, inner, one column each: prolong both to
    n = len1 + len2 points, then sum f (2/n) conj(g) (trigpts.py 7-9,
    quadwts); the real part when both are flagged real. *)
Definition tinner_col (c d : list C) : option C :=
  let n := (length c + length d)%nat in
  match prolong_fun_col c n, prolong_fun_col d n with
  | Some c', Some d' =>
      Some (csum n (fun j => nth j (coeffs2vals1 c') C0 * RtoC (2 / INR n) * Cconj (nth j (coeffs2vals1 d') C0)))
  | _, _ => None
  end.

(** ufuncs.py 231-268, multiply, the coefficients before simplification:
    values at fn + gn - 1 points are multiplied. *)
Definition tmul_col (c d : list C) : option (list C) :=
  let n := (length c + length d - 1)%nat in
  match prolong_fun_col c n, prolong_fun_col d n with
  | Some c', Some d' =>
      Some (vals2coeffs1 (mk n (fun j => nth j (coeffs2vals1 c') C0 * nth j (coeffs2vals1 d') C0)))
  | _, _ => None
  end.

(** operations.py 47-79, circconv, for equal lengths: the coefficients. *)
Definition circconv_vals (u v : list C) : list C :=
  let n := length u in
  map (fun a => RtoC (2 / INR n) * a) (ifft (mk n (fun k => nth k (fft u) C0 * nth k (fft v) C0))).
Definition circconv_col (c d : list C) : list C :=
  vals2coeffs1 (circconv_vals (coeffs2vals1 c) (coeffs2vals1 (circshift_col d (-1)))).
