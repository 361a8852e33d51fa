(** Sampling a callable at the Chebyshev points in double precision: pts.py 88-95 and refine.py 72-113 with rounding.
    sin is that of a mathematical library given as an argument; the integers of arange and 2 (N - 1) are exact as doubles
    (N <= 2^52); the callable is a function from doubles to doubles.  Overflow and signed zeros are not modelled. *)
From Coq Require Import Reals List Arith Bool.
From Verif Require Import Base FlModel FlTrigModel FlDctModel.
Import ListNotations.
Open Scope R_scope.

(** cheb/pts.py 88-95, chebpts_type2_compute *)
Definition fchebpts (L : libm) (N : nat) : list R :=
  match N with
  | O => []
  | S O => [0]
  | _ => mk N (fun j => lsin L (fdiv (fmul fpi (2 * INR j - INR (N - 1))) (2 * INR (N - 1))))
  end.
(** cheb/refine.py 73-83, __resample, one component *)
Definition fsample (L : libm) (op : R -> R) (N : nat) : list R := map op (fchebpts L N).
(** cheb/refine.py 86-113, __nested, one component: the stored values go to the even places, the callable is evaluated at
    x[1:-1:2] of the new grid only *)
Definition fnested (L : libm) (op : R -> R) (v : list R) : list R :=
  let n := (2 * length v - 1)%nat in
  let x := fchebpts L n in
  let nv := map op (mk (length v - 1) (fun i => nth (2 * i + 1) x 0)) in
  mk n (fun i => if Nat.even i then nth (i / 2) v 0 else nth ((i - 1) / 2) nv 0).
(** cheb/chebtech.py 267-270, the coefficients of the sampled values *)
Definition fconstruct (D : list R -> list R) (L : libm) (op : R -> R) (N : nat) : list R := fpolyfit D (fsample L op N).
