(** Specification vocabulary for the linear solvers: vectors are lists,
    matrices functions of row and column. *)
From Coq Require Import Reals List Arith.
From Verif Require Import Base.
Import ListNotations.
Open Scope R_scope.

Definition rmat := nat -> nat -> R.
(** the m x n matrix A times the vector x *)
Definition mv (m n : nat) (A : rmat) (x : list R) : list R := mk m (fun i => rsum n (fun j => A i j * nth j x 0)).
Definition transp (A : rmat) : rmat := fun i j => A j i.
Definition dotp (a b : list R) : R := rsum (length a) (fun i => nth i a 0 * nth i b 0).
Definition zeros (n : nat) : list R := mk n (fun _ => 0).
(** only the zero vector is mapped to zero *)
Definition nonsingular (n : nat) (A : rmat) : Prop := forall x, length x = n -> mv n n A x = zeros n -> x = zeros n.
(** the bordered matrix  / A c \
                         \ b d /  *)
Definition bord (n : nat) (A : rmat) (b c : list R) (d : R) : rmat :=
  fun i j => if Nat.ltb i n then (if Nat.ltb j n then A i j else nth i c 0) else (if Nat.ltb j n then nth j b 0 else d).
(** x solves M x = f *)
Definition solves (n : nat) (M : rmat) (x f : list R) : Prop := length x = n /\ mv n n M x = f.
(** borders 0..j-1 put around A one after the other: border k has the row b k
    and the column c k (of length n+k) and the corner d k *)
Fixpoint bords (n : nat) (A : rmat) (b c : nat -> list R) (d : nat -> R) (j : nat) : rmat :=
  match j with O => A | S k => bord (n + k) (bords n A b c d k) (b k) (c k) (d k) end.
