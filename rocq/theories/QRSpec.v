(** Specification vocabulary for the QR solver. *)
From Coq Require Import Reals List Arith Permutation.
From Verif Require Import Base LASpec BordModel DetSpec QRModel.
Import ListNotations.
Open Scope R_scope.

(** an elementary reflector of order n: I - tau v v^T is the identity or a
    reflection *)
Definition reflector (n : nat) (h : hh) : Prop := length (snd h) = n /\ (fst h = 0 \/ fst h * dotp (snd h) (snd h) = 2).
Definition column (n : nat) (A : rmat) (j : nat) : list R := mk n (fun i => A i j).
(** what geqp3 promises for a real m x n matrix with m <= n: m reflectors of
    order m, the last one (acting on one row) the identity, an upper triangular
    (trapezoidal) R, a permutation C of the columns, and A[:,C] = Q R *)
Definition qr_fact (m n : nat) (A : rmat) (h : list hh) (Rm : rmat) (C : list nat) : Prop :=
  length h = m /\ Forall (reflector m) h /\ fst (last h (0, [])) = 0 /\
  (forall i j, (i < m)%nat -> (j < i)%nat -> Rm i j = 0) /\
  Permutation (seq 0 n) C /\
  forall j, (j < n)%nat -> column m A (nth j C 0%nat) = ormqr_N h (column m Rm j).
