(** What SuperLU promises: L unit lower triangular, U upper triangular, and
    the entry (i, k) of A stands at (perm_r[i], perm_c[k]) of L U. *)
From Coq Require Import Reals List Arith Permutation.
From Verif Require Import Base LASpec.
Import ListNotations.
Open Scope R_scope.

Definition splu_fact (n : nat) (A L U : rmat) (pr pc : list nat) : Prop :=
  (forall i j, (i < n)%nat -> (i < j)%nat -> L i j = 0) /\ (forall i, (i < n)%nat -> L i i = 1) /\
  (forall i j, (i < n)%nat -> (j < i)%nat -> U i j = 0) /\
  Permutation (seq 0 n) pr /\ Permutation (seq 0 n) pc /\
  forall i k, (i < n)%nat -> (k < n)%nat -> A i k = rsum n (fun l => L (nth i pr 0%nat) l * U l (nth k pc 0%nat)).
