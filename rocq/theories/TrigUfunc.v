(** numpy functions applied to periodic functions: funpy/trig/trigtech.py 137-164 (__array_ufunc__) and the parts of
    funpy/trig/ufuncs.py that call it.  One column. *)
From Coq Require Import Reals ZArith List Arith Bool.
From Coquelicot Require Import Coquelicot.
From Verif Require Import Base ChebModel TrigSpec TrigModel TrigModel2 TrigCons.
Import ListNotations.
Open Scope R_scope.
Open Scope C_scope.

(** the second operand of a ufunc *)
Inductive toperand := TFun (g : trig) | TNum (a : C).

(** trigtech.py 151-154: np.u(f), u without a function of its name in trig/ufuncs.py (exp, sin, conjugate, ...): a new
    function is constructed from x -> u(f(x)) with the default tolerance.  np.conj is the ufunc np.conjugate: it comes
    here, and the function conj registered at trigtech.py 551 is not reached.  Simplified: f answers every call alike;
    this is so unless f is flagged real and has an even length (eval.py 76-78, see [tcalls]). *)
Definition tufunc (u : C -> C) (f : trig) : option (bool * list trig) := tconstruct [fun x => u (fst (tcall f x))] teps.

(** trigtech.py 155-157: np.u(f, g); a number as second operand is called like a function: TypeError *)
Definition tufunc2 (u : C -> C -> C) (f : trig) (g : toperand) : option (bool * list trig) :=
  match g with
  | TNum _ => None
  | TFun g => tconstruct [fun x => u (fst (tcall f x)) (fst (tcall g x))] teps
  end.

(** np.conj(f), see [tufunc] *)
Definition np_conj (f : trig) : option trig :=
  match tufunc Cconj f with Some (_, [g]) => Some g | _ => None end.

(** f after n evaluations (trigtech.py 412-420, eval.py 62-89): the construction above evaluates f once on a trial point
    (trigtech.py 359) and once on every grid (refine.py 72, 100) *)
Fixpoint tcalls (n : nat) (f : trig) : trig := match n with O => f | S m => tcalls m (snd (tcall f 0)) end.

(** ufuncs.py 228-300, product of two functions of one column.  After x1 == x2 the code tests np.conj(x1) == x2 (line 261),
    constructing np.conj(x1); if this is x2 the flags are the 1 x 1 array of line 283 and v[:, is_real] (line 288)
    raises IndexError.  Otherwise as in [tmul]. *)
Definition conj_is (f g : trig) : bool := match np_conj f with Some h => teqb h g | None => false end.
Definition tprod (f g : trig) : option trig :=
  if Nat.eqb (length (tco f)) 1 || Nat.eqb (length (tco g)) 1 || teqb f g then tmul f g
  else if conj_is f g then None else tmul f g.
