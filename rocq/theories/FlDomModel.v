(** Constructing a function on [a, b] from a callable, on a grid of given length, in double precision: fun.py 42-56 (the
    callable is composed with the computed linear map) and the construction on [-1, 1] of FlSampleModel. *)
From Coq Require Import Reals List Arith.
From Verif Require Import Base FlModel FlTrigModel FlDctModel FlSampleModel.
Open Scope R_scope.

(** fun.py 42-50 (get_op), 56-57; mapping.py 28; cheb/refine.py 73-83; cheb/chebtech.py 267-270 *)
Definition fbuild (D : list R -> list R) (L : libm) (a b : R) (op : R -> R) (N : nat) : list R :=
  fconstruct D L (fun y => op (ffwd a b y)) N.
