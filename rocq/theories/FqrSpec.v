(** Specification: orthonormal functions, QR factorisations (mathematics only). *)
From Coq Require Import Reals Arith.
From Coquelicot Require Import Coquelicot.
From Verif Require Import Base.
Open Scope R_scope.

(** q_0, ..., q_{m-1} are orthonormal in L2(a, b). *)
Definition orthonormal (a b : R) (m : nat) (q : nat -> R -> R) : Prop :=
  forall i j, (i < m)%nat -> (j < m)%nat -> is_RInt (fun x => q i x * q j x) a b (if Nat.eqb i j then 1 else 0).
Definition upper_triangular (r : nat -> nat -> R) : Prop := forall i j, (j < i)%nat -> r i j = 0.
(** f_j(x) - sum_i q_i(x) r_ij *)
Definition qr_residual (m : nat) (f q : nat -> R -> R) (r : nat -> nat -> R) (j : nat) (x : R) : R :=
  f j x - rsum m (fun i => q i x * r i j).
(** the L2(a, b) norm of g is at most B *)
Definition L2_le (a b : R) (g : R -> R) (B : R) : Prop := exists I, is_RInt (fun x => g x * g x) a b I /\ I <= B * B.
