(** Model of constructing a periodic function from an array of values and of
    repr (funpy/fun.py, funpy/trig/trigtech.py; type 'trig', one column). *)
From Coq Require Import Reals ZArith List Arith Bool.
From Coquelicot Require Import Complex.
From Verif Require Import Base ChebModel TrigModel TrigModel2 FunModel FunTrig.
Import ListNotations.
Open Scope R_scope.

(** fun.py 26-69 and trigtech.py 48-61: Fun(op=v, domain=[a, b], type='trig')
    with v an array of numbers: values and coefficients (vals2coeffs), the
    flag isReal, and the real parts taken if it is set (trig_of_values); no
    simplification.  An empty array is an exception (see fun_of_values). *)
Definition pfun_of_values (v : list C) (a b : R) : option pfun :=
  match v with
  | [] => None
  | _ => Some {| pa := a; pb := b; pt := trig_of_values v |}
  end.

(** fun.py 120-122, __repr__ (what the text says): the values, each printed as
    a pair of decimal numbers, [rnd] of the value, "..." ([None]) if there are
    more than 1000 of them, and the domain.  eval of that text. *)
Definition pfun_repr (rnd : C -> C) (P : pfun) : option (list C) * (R * R) :=
  (if Nat.leb (length (tva (pt P))) 1000 then Some (map rnd (tva (pt P))) else None, (pa P, pb P)).
Definition pfun_eval (p : option (list C) * (R * R)) : option pfun :=
  match fst p with
  | None => None
  | Some v => pfun_of_values v (fst (snd p)) (snd (snd p))
  end.
