(** Model of constructing a function from an array of values and of repr
    (funpy/fun.py, funpy/cheb/chebtech.py; type 'cheb').  [None] is an
    exception. *)
From Coq Require Import Reals ZArith List Arith Bool.
From Verif Require Import Base ChebModel ChebModel2 FunModel.
Import ListNotations.
Open Scope R_scope.

(** chebtech.py 27-67, __init__ with op an array of values (the columns of the
    list; a one-dimensional array is one column): the coefficients of the
    interpolant, default tolerance and maxLength, happiness, then simplify. *)
Definition cheb_of_values (V : arr) (h : R) : option chebtech :=
  cheb_init (polyfit V) eps_default h maxLength_default false true.

(** fun.py 26-69: Fun(op=V, domain=[a, b]); an array is not callable, so
    neither branch on callables is taken, and hscale is that of the domain.
    An empty array is not modelled as a list of callables (the code takes that
    branch, all([]) being True, and fails when it calls the array). *)
Definition fun_of_values (V : arr) (a b : R) : option Fun :=
  option_map (fun f => mkFun f a b) (cheb_of_values V (fun_hscale a b)).

(** numpy's repr of an array under np.printoptions(precision=16): every entry
    is printed as a decimal number, [rnd] of the entry (an arbitrary function
    here), unless there are more than 1000 entries, in which case "..." stands
    for the inner ones ([None]). *)
Definition np_repr (rnd : R -> R) (A : arr) : option arr :=
  if Nat.leb (nrows A * length A) 1000 then Some (map (map rnd) A) else None.

(** fun.py 120-122, __repr__ (what the text says, not the text): the values,
    the domain (two numbers, printed in the same way) and the type, which is
    'cheb'.  chebtech.py 248-250, values. *)
Definition fun_repr (rnd : R -> R) (F : Fun) : option arr * (R * R) :=
  (np_repr rnd (polyval (coeffs (onefun F))), (rnd (dom0 F), rnd (dom1 F))).

(** eval of that text: Fun(op=array(...), domain=array([a, b]), type='cheb').
    An array with "..." in it is not an array of numbers, and polyfit's
    argument of type double[:, :] refuses it. *)
Definition fun_eval (p : option arr * (R * R)) : option Fun :=
  match fst p with
  | None => None
  | Some V => fun_of_values V (fst (snd p)) (snd (snd p))
  end.
