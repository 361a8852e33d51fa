(** Specification vocabulary for the ultraspherical bases. *)
From Coq Require Import Reals List Arith.
From Verif Require Import Base ChebSpec.
Import ListNotations.
Open Scope R_scope.

(** ultraspherical (Gegenbauer) polynomials C^(lam)_n by their recurrence
    (n+2) C_(n+2) = 2 (n+1+lam) x C_(n+1) - (n+2 lam) C_n *)
Fixpoint gegen (lam n : nat) (x : R) : R :=
  match n with
  | O => 1
  | S m => match m with
           | O => 2 * INR lam * x
           | S p => (2 * (INR p + 1 + INR lam) * x * gegen lam m x - (INR p + 2 * INR lam) * gegen lam p x) / (INR p + 2)
           end
  end.
(** the basis number lam: Chebyshev polynomials of the first kind for lam = 0 *)
Definition ubasis (lam n : nat) (x : R) : R := match lam with O => T n x | S _ => gegen lam n x end.
(** the function with coefficients c in that basis *)
Definition evalU (lam : nat) (c : list R) (x : R) : R := rsum (length c) (fun j => nth j c 0 * ubasis lam j x).

(** an n x n matrix is a function of row and column; matrix times vector *)
Definition mat := nat -> nat -> R.
Definition matvec (n : nat) (A : mat) (c : list R) : list R := mk n (fun i => rsum n (fun j => A i j * nth j c 0)).

(** the first k coefficients of f g in basis lam: some coefficient vector h of
    f g starts with r *)
Definition leading_product (lam : nat) (f : R -> R) (g : list R) (r : list R) : Prop :=
  exists h, firstn (length r) h = r /\ forall x, evalU lam h x = f x * evalU lam g x.
