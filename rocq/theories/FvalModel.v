(** Model of Fun.from_values (funpy/fun.py 222-234, funpy/cheb/chebtech.py 79-82).  [None] is an exception. *)
From Coq Require Import Reals ZArith List Arith Bool.
From Verif Require Import Base ChebModel ChebModel2 FunModel.
Import ListNotations.
Open Scope R_scope.

(** the argument values: an array with one dimension, or with two (given by columns); the argument type *)
Inductive varr := V1 (v : list R) | V2 (V : arr).
Inductive ftype := TCheb | TTrig | TOther.
Definition vsize (A : varr) : nat := match A with V1 v => length v | V2 V => nrows V * length V end.

(** chebtech.py 79-82, from_values(values, simplify=False): polyfit takes an
    argument of type double[:, :], so an array of one dimension raises; the
    other keywords of the constructor keep their defaults (hscale = 1). *)
Definition cheb_from_values (A : varr) : option chebtech :=
  match A with
  | V1 _ => None
  | V2 V => cheb_init (polyfit V) eps_default 1 maxLength_default true false
  end.

(** fun.py 222-234: the assertion on the size (size % 0 raises), then the
    wrapped function; trigtech has no from_values (AttributeError).  With
    onefun given, only the domain is used of the other keywords (fun.py 26-62). *)
Definition fun_from_values (A : varr) (k : nat) (t : ftype) (a b : R) : option Fun :=
  if Nat.eqb k 0 then None
  else if Nat.eqb (vsize A mod k) 0 then
    match t with
    | TCheb => option_map (fun f => mkFun f a b) (cheb_from_values A)
    | TTrig | TOther => None
    end
  else None.
