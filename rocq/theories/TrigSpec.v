(** Specification vocabulary for Fourier series on [-1,1]. *)
From Coq Require Import Reals ZArith List Arith.
From Coquelicot Require Import Coquelicot.
From Verif Require Import Base.
Import ListNotations.
Open Scope R_scope.
Open Scope C_scope.

Fixpoint csum (n : nat) (f : nat -> C) : C :=
  match n with O => RtoC 0 | S m => csum m f + f m end.

(** e^(i t) *)
Definition cis (t : R) : C := (cos t, sin t).

(** frequency of entry k of a coefficient vector of length n:
    -(n-1)/2 .. (n-1)/2 for odd n, -n/2 .. n/2-1 for even n *)
Definition freq (n k : nat) : Z := (Z.of_nat k - Z.of_nat (n / 2))%Z.

(** the basis function belonging to entry k: e^(i pi freq x), and the cosine
    for the unpaired highest frequency of an even length *)
Definition mode (n k : nat) (x : R) : C :=
  if andb (Nat.even n) (Nat.eqb k 0) then RtoC (cos (PI * INR (n / 2) * x))
  else cis (PI * IZR (freq n k) * x).

(** the trigonometric polynomial with coefficients c *)
Definition evalF (c : list C) (x : R) : C :=
  csum (length c) (fun k => nth k c (RtoC 0) * mode (length c) k x).

(** the n equispaced points of [-1,1) *)
Definition gridpt (n j : nat) : R := (-1 + 2 * INR j / INR n)%R.

(** the coefficients belong to a real function *)
Definition hermitian (c : list C) : Prop := forall x, Im (evalF c x) = 0%R.

(** the coefficient of e^(i pi z x) in the trigonometric polynomial with
    coefficient vector c: the unpaired entry of an even length is shared
    between +n/2 and -n/2 *)
Definition coef (c : list C) (z : Z) : C :=
  let h := Z.of_nat (length c / 2) in
  if Z.ltb h (Z.abs z) then RtoC 0
  else if andb (Nat.even (length c)) (Z.eqb (Z.abs z) h) then RtoC (/ 2) * nth 0 c (RtoC 0)
  else nth (Z.to_nat (z + h)) c (RtoC 0).

(** l is the n-th derivative of the complex function f at x *)
Definition cderive_n (f : R -> C) (n : nat) (x : R) (l : C) : Prop :=
  is_derive_n (fun t => Re (f t)) n x (Re l) /\ is_derive_n (fun t => Im (f t)) n x (Im l).

(** l is the integral of the complex function f from a to b *)
Definition cint (f : R -> C) (a b : R) (l : C) : Prop :=
  is_RInt (fun t => Re (f t)) a b (Re l) /\ is_RInt (fun t => Im (f t)) a b (Im l).

(** r consists of the coefficients of c with frequency below K in modulus *)
Definition truncation (K : nat) (r c : list C) : Prop :=
  length r = (2 * K - 1)%nat /\ (1 <= K)%nat /\ (K - 1 <= length c / 2)%nat /\
  (forall z, (Z.abs z < Z.of_nat K)%Z -> coef r z = coef c z) /\ (forall z, (Z.of_nat K <= Z.abs z)%Z -> coef r z = RtoC 0).
