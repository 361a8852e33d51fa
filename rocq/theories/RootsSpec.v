(** Specification for root finding: Chebyshev series at complex arguments and generalised
    eigenvalues.  No reference to the model. *)
From Coq Require Import Reals List Arith.
From Coquelicot Require Import Coquelicot.
From Verif Require Import Base TrigSpec.
Import ListNotations.
Open Scope C_scope.

(** T_n(z) and the series sum c_k T_k(z) for complex z *)
Fixpoint TC (n : nat) (z : C) : C :=
  match n with
  | O => RtoC 1
  | S m => match m with O => z | S p => RtoC 2 * z * TC m z - TC p z end
  end.
Definition evalTC (c : list R) (z : C) : C := csum (length c) (fun k => RtoC (nth k c 0%R) * TC k z).
(** z is a generalised eigenvalue: A v = z B v for some v <> 0 *)
Definition gen_eig (N : nat) (A B : nat -> nat -> R) (z : C) : Prop :=
  exists v : nat -> C, (exists i, (i < N)%nat /\ v i <> RtoC 0) /\
    forall i, (i < N)%nat -> csum N (fun j => RtoC (A i j) * v j) = z * csum N (fun j => RtoC (B i j) * v j).

Open Scope R_scope.
(** y is within h of a zero of the series q, and that zero is within h of the real line *)
Definition near_root (h : R) (q : list R) (y : R) : Prop :=
  exists z, evalTC q z = RtoC 0 /\ Rabs (Im z) < h /\ Rabs (y - Re z) <= h.
(** every zero of c is real and in [-1,1], or (for a series of three or more coefficients) at
    distance more than h from [-1,1] *)
Definition zeros_clear (h : R) (c : list R) : Prop :=
  forall z, evalTC c z = RtoC 0 -> (Im z = 0 /\ -1 <= Re z <= 1) \/ ((3 <= length c)%nat /\ (h <= Rabs (Im z) \/ 1 + h < Rabs (Re z))).
(** ((m, a), (M, b)): minimum m at a and maximum M at b of f on [-1,1] *)
Definition extrema (f : R -> R) (p : (R * R) * (R * R)) : Prop :=
  let '((m, a), (M, b)) := p in
  (-1 <= a <= 1 /\ f a = m /\ forall t, -1 <= t <= 1 -> m <= f t) /\ (-1 <= b <= 1 /\ f b = M /\ forall t, -1 <= t <= 1 -> f t <= M).
