(** Building a periodic function from a callable on a grid of given length, its integral and its derivative, in double
    precision.  Overflow and signed zeros are not modelled. *)
From Coq Require Import Reals List Arith Bool ZArith.
From Coquelicot Require Import Coquelicot.
From Verif Require Import Base TrigSpec TrigModel FlModel FlTrigModel FlFftModel.
Import ListNotations.
Open Scope R_scope.

(** trig/trigpts.py 18: np.linspace(-1, 1, n+1)[:-1]; numpy computes arange(n+1) * (2 / n) + (-1), each operation rounded *)
Definition ftrigpts (n : nat) : list R := mk n (fun j => fadd (fmul (INR j) (fdiv 2 (INR n))) (-1)).
(** trig/refine.py 62-76, __resample, one component: the callable is evaluated at the points and at 1; the values at -1
    and 1 are averaged *)
Definition ftsample (op : R -> C) (n : nat) : list C :=
  let v := map op (ftrigpts n) in
  fscale (/ 2) (fcadd (nth 0 v C0) (op 1)) :: tl v.
(** trig/refine.py 79-103, __nested, one component: the stored values go to the even places *)
Definition ftnested (op : R -> C) (v : list C) : list C :=
  let n := (2 * length v)%nat in
  let x := ftrigpts n in
  mk n (fun i => if Nat.even i then nth (i / 2) v C0 else op (nth i x 0)).
(** the coefficients of the sampled values, and fun.py 42-57: the callable is composed with the linear map *)
Definition ftbuild (F : cfftlib) (a b : R) (op : R -> C) (n : nat) : list C :=
  fvals2coeffs F (ftsample (fun y => op (ffwd a b y)) n).
(** trig/trigtech.py 592-596 and fun.py 539-543, the integral over [a, b]; [re] is the flag isReal *)
Definition fpsum (a b : R) (re : bool) (c : list C) : C :=
  let s := fscale 2 (nth ((length c + 2) / 2 - 1) c C0) in
  let s := if re then (fst s, 0) else s in
  let w := fmul (/ 2) (fsub b a) in
  (fmul (fst s) w, fmul (snd s) w).
(** trig/trigtech.py 571-581, one derivative on [-1, 1]: 1j * np.pi * k is (0, fl(pi k)), the power 1 leaves it as it is,
    and the product with (x + iy) is (- fl(y fl(pi k)), fl(x fl(pi k))) *)
Definition ftdiff (c : list C) : list C :=
  mk (length c) (fun k => let w := fmul fpi (IZR (freq (length c) k)) in (- fmul (snd (nth k c C0)) w, fmul (fst (nth k c C0)) w)).
