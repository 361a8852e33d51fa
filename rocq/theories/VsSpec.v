(** Vocabulary of the theorems about states (PropVs.v). *)
From Coq Require Import Reals List Arith Bool String.
From Verif Require Import Base ChebModel ChebObj VsModel FunModel FunProofs.
Import ListNotations.
Open Scope R_scope.

(** every namespace of the heap is a dict: no key twice *)
Definition nodup_heap (h : heap) := forall a, NoDup (ns_keys (hget h a)).

(** the entry used for indices out of range *)
Definition dpar := mkPar EmptyString 0.

(** a state that has the weights every constructor call without [weights] gives *)
Definition default_weights {F} (x : state F) : Prop :=
  s_weights x = repeat 1 (List.length (s_funcs x) + List.length (s_reals x)).
Definition same_shape {F} (x y : state F) : Prop :=
  s_kind x = s_kind y /\ List.length (s_funcs x) = List.length (s_funcs y) /\ List.length (s_reals x) = List.length (s_reals y).

(** a state as its constructor makes it, with well-formed functions *)
Definition nofun : Fun := mkFun (mkCheb [] 0 0 0 false) 0 0.
Definition st_ok (x : state Fun) : Prop :=
  List.length (s_reals x) = n_reals (s_kind x) /\ List.length (s_funcs x) = n_funcs (s_kind x) /\
  names_ok (s_kind x) (s_reals x) = true /\ List.Forall fwf (s_funcs x).
