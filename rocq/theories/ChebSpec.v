(** Specification: Chebyshev polynomials and Chebyshev series, independent of
    the code. *)
From Coq Require Import Reals List.
From Verif Require Import Base.
Open Scope R_scope.

(** Chebyshev polynomials of the first and second kind, by their recurrences. *)
Fixpoint T (n : nat) (x : R) : R :=
  match n with
  | O => 1
  | S m => match m with O => x | S p => 2 * x * T m x - T p x end
  end.

Fixpoint U (n : nat) (x : R) : R :=
  match n with
  | O => 1
  | S m => match m with O => 2 * x | S p => 2 * x * U m x - U p x end
  end.

(** The function represented by one column of Chebyshev coefficients. *)
Definition evalT (c : list R) (x : R) : R :=
  rsum (length c) (fun k => nth k c 0 * T k x).

(** Second-kind Chebyshev points in ascending order: -cos(pi j/(N-1)). *)
Definition chebnode (N j : nat) : R := - cos (PI * INR j / INR (N - 1)).

(** A function that is a polynomial of degree below [n], written as a
    Chebyshev series with [n] terms. *)
Definition spanT (n : nat) (f : R -> R) : Prop :=
  exists c, length c = n /\ forall x, f x = evalT c x.
