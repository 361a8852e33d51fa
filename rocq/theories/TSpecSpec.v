(** Vocabulary for linear operators on periodic functions over [a,b]. *)
From Coq Require Import Reals ZArith List Arith.
From Coquelicot Require Import Coquelicot.
From Verif Require Import Base TrigSpec.
Import ListNotations.
Open Scope R_scope.
Open Scope C_scope.

(** the affine map [a,b] -> [-1,1] *)
Definition tphi (a b x : R) : R := ((2 * x - a - b) / (b - a))%R.
(** the function on [a,b] (extended periodically) with Fourier coefficients [c] *)
Definition tfun (a b : R) (c : list C) (x : R) : C := evalF c (tphi a b x).
(** j-th derivative and integral of a complex function *)
Definition cder (u : R -> C) (j : nat) (x : R) : C := (Derive_n (fun t => Re (u t)) j x, Derive_n (fun t => Im (u t)) j x).
Definition cRInt (u : R -> C) (a b : R) : C := (RInt (fun t => Re (u t)) a b, RInt (fun t => Im (u t)) a b).
(** the non-local (aggregation) operator with the uniform kernel and sensing radius 1 *)
Definition nonlocal (u : R -> C) (x : R) : C := RtoC (/ 2) * cRInt (fun r => u (x + r)%R - u (x - r)%R) 0 1.
(** sum_j c_j u^(j) + sum_k i_k int_a^b d_k u + sum_j n_j (A u)^(j) *)
Definition trig_op (a b : R) (cs ics ints nls : list (list C)) (u : R -> C) (x : R) : C :=
  csum (length cs) (fun j => tfun a b (nth j cs []) x * cder u j x) +
  csum (length ics) (fun k => tfun a b (nth k ics []) x * cRInt (fun y => tfun a b (nth k ints []) y * u y) a b) +
  csum (length nls) (fun j => tfun a b (nth j nls []) x * cder (nonlocal u) j x).
(** flags: a term whose flag is off is zero; a term whose flag is on has coefficients *)
Definition tflags_ok (flag : nat -> bool) (cs : list (list C)) : Prop :=
  forall j, (j < length cs)%nat -> (flag j = false -> forall x, evalF (nth j cs []) x = RtoC 0) /\ (flag j = true -> (1 <= length (nth j cs []))%nat).
(** [c] (n entries) represents its function by coefficients of e^(i pi z x) only: always
    for odd n; for even n the first entry, which belongs to a cosine, has to vanish *)
Definition plain (c : list C) : Prop := Nat.even (length c) = true -> nth 0 c (RtoC 0) = RtoC 0.

(** z-th Fourier coefficient of a function on [a,b] *)
Definition tmode (a b : R) (z : Z) (x : R) : C := cis (PI * IZR z * tphi a b x).
Definition fourier (a b : R) (w : R -> C) (z : Z) : C := RtoC (/ (b - a)) * cRInt (fun x => w x * tmode a b (- z) x) a b.
(** the bilinear pairing with respect to which adjoints are taken *)
Definition pairing (a b : R) (u w : R -> C) : C := cRInt (fun x => u x * w x) a b.
