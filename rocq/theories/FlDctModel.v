(** The transforms between values at Chebyshev points and coefficients in double precision: detail.pyx 52-109 with
    rounding.  The discrete cosine transform of pocketfft (type I, unnormalised) is an argument of the model; all other
    operations round to nearest (FlModel.v).  Overflow and signed zeros are not modelled; N - 1 is exact as a double. *)
From Coq Require Import Reals List Arith Bool.
From Verif Require Import Base ChebModel FlModel.
Import ListNotations.
Open Scope R_scope.

(** detail.pyx 52-78, polyfit, one column *)
Definition fpolyfit (D : list R -> list R) (v : list R) : list R :=
  let N := length v in
  if Nat.eqb N 1 then v else
  let c := mk N (fun i => fdiv (nth (N - i - 1) v 0) (INR (N - 1))) in
  let c := D c in
  let c := upd c 0 (fdiv (nth 0 c 0) 2) in
  upd c (N - 1) (fdiv (nth (N - 1) c 0) 2).
(** detail.pyx 84-109, polyval, one column *)
Definition fpolyval (D : list R -> list R) (c : list R) : list R :=
  let N := length c in
  if Nat.eqb N 1 then c else
  let v := mk N (fun i => if Nat.eqb i 0 || Nat.eqb i (N - 1) then nth i c 0 else fdiv (nth i c 0) 2) in
  rev (D v).
