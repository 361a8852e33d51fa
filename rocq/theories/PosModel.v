(** The parameters of an equation are declared positive to sympy.
    Read with /repo/funpy/colloc/source/support.py. *)
From Coq Require Import String.
From Coq Require Import Reals List.
Import ListNotations.
Open Scope R_scope.

(** The part of the language of equations that matters here: numbers, parameters,
    the unknown functions and their derivatives at a point (any real numbers),
    sums, products, abs, sign (support.py 103) and square roots of squares. *)
Inductive ex :=
  | XNum (r : R) | XPar (p : string) | XVal (u : string)
  | XAdd (a b : ex) | XMul (a b : ex) | XAbs (a : ex) | XSgn (a : ex) | XRoot2 (a : ex).
Definition sgn (r : R) : R := if Rlt_dec 0 r then 1 else if Rlt_dec r 0 then -1 else 0.
(** The value of an equation as written. *)
Fixpoint meaning (pars vals : string -> R) (e : ex) : R :=
  match e with
  | XNum r => r | XPar p => pars p | XVal u => vals u
  | XAdd a b => meaning pars vals a + meaning pars vals b
  | XMul a b => meaning pars vals a * meaning pars vals b
  | XAbs a => Rabs (meaning pars vals a)
  | XSgn a => sgn (meaning pars vals a)
  | XRoot2 a => sqrt (meaning pars vals a * meaning pars vals a)
  end.

(** What sympy knows of the sign of an expression: [Some true] nonzero positive,
    [Some false] negative.  sympy's inference is not part of the repository; it is
    any function sound for positive parameters that knows what it was told,
    support.py 155: symbols(name, real=True, positive=True) for every parameter. *)
Definition inference := ex -> option bool.
Definition sound (k : inference) : Prop :=
  forall e pars vals, (forall p, 0 < pars p) ->
    match k e with Some true => 0 < meaning pars vals e | Some false => meaning pars vals e < 0 | None => True end.
Definition declared (k : inference) : Prop := forall p, k (XPar p) = Some true.

(** sympy evaluates while it builds: Abs and sign of an expression of known sign
    disappear, known factors are taken out of products, and the root of a square
    is the absolute value. *)
Fixpoint mk_abs (k : inference) (e : ex) : ex :=
  match k e with
  | Some true => e
  | Some false => XMul (XNum (-1)) e
  | None => match e with XMul a b => XMul (mk_abs k a) (mk_abs k b) | _ => XAbs e end
  end.
Fixpoint mk_sgn (k : inference) (e : ex) : ex :=
  match k e with
  | Some true => XNum 1
  | Some false => XNum (-1)
  | None => match e with XMul a b => XMul (mk_sgn k a) (mk_sgn k b) | _ => XSgn e end
  end.
(** support.py 171-195: the text of the equation is executed on the symbols. *)
Fixpoint build (k : inference) (e : ex) : ex :=
  match e with
  | XNum _ | XPar _ | XVal _ => e
  | XAdd a b => XAdd (build k a) (build k b)
  | XMul a b => XMul (build k a) (build k b)
  | XAbs a => mk_abs k (build k a)
  | XSgn a => mk_sgn k (build k a)
  | XRoot2 a => mk_abs k (build k a)
  end.
(** compiler.py 145-215: the compiled residual evaluates what was built with the
    numbers the parameters currently have. *)
Definition residual_value (k : inference) (pars vals : string -> R) (e : ex) : R := meaning pars vals (build k e).
