(** Specification: norms of vector valued functions (mathematics only). *)
From Coq Require Import Reals List Arith.
From Coquelicot Require Import Coquelicot.
From Verif Require Import Base.
Open Scope R_scope.

(** I is the sum over the m components of the integrals of |f_j|^p over [a,b]. *)
Definition Lp_power (a b : R) (m p : nat) (f : nat -> R -> R) (I : R) : Prop :=
  exists J : nat -> R, (forall j, (j < m)%nat -> is_RInt (fun x => Rabs (f j x) ^ p) a b (J j)) /\ I = rsum m J.
(** v is the L^p norm, up to an error d of its p-th power *)
Definition Lp_norm_near (a b : R) (m p : nat) (f : nat -> R -> R) (v d : R) : Prop :=
  0 <= v /\ exists I, Lp_power a b m p f I /\ Rabs (v ^ p - I) <= d.
(** v is the largest value of |f_j| on [a,b] *)
Definition sup_norm (a b : R) (m : nat) (f : nat -> R -> R) (v : R) : Prop :=
  (forall j x, (j < m)%nat -> a <= x <= b -> Rabs (f j x) <= v) /\ exists j x, (j < m)%nat /\ a <= x <= b /\ Rabs (f j x) = v.
