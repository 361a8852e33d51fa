(** Sums and products of a Chebyshev function and a periodic function, one column each: funpy/cheb/ufuncs.pyx 73-83 (add) and
    221-232 (multiply), funpy/trig/ufuncs.py 82-87 and 208-213.  numpy asks the first operand (chebtech.py 112-141,
    trigtech.py 137-164). *)
From Coq Require Import Reals ZArith List Arith Bool.
From Coquelicot Require Import Coquelicot.
From Verif Require Import Base ChebModel ChebModel2 TrigSpec TrigModel TrigModel2 TrigCons.
Import ListNotations.
Open Scope R_scope.

(** chebtech(op=lambda x: u(x), eps=e): cheb/refine.py 74 and 104 take the real part of the samples *)
Definition cheb_of (u : R -> C) (e : R) : option chebtech := construct [fun x => Re (u x)] e 1 maxLength_default 17.

(** trigtech(op=lambda x: q.feval(x), eps=e) *)
Definition trig_of (q : chebtech) (e : R) : option trig :=
  match tconstruct [fun x => RtoC (clenshaw_pt (nth 0 (coeffs q) []) x)] e with Some (_, [r]) => Some r | _ => None end.

(** f op g, f a chebtech, g a trigtech with the attribute eps = ge.  Simplified: g answers every call alike, which is so
    unless g is flagged real and has an even length (eval.py 76-78). *)
Definition mix_ct (op : chebtech -> chebtech -> option chebtech) (f : chebtech) (g : trig) (ge : R) : option trig :=
  match cheb_of (fun x => fst (tcall g x)) (Rmax (eps f) ge) with
  | None => None
  | Some gc => match op f gc with None => None | Some q => trig_of q (Rmax (eps f) ge) end
  end.

(** g op f, g a trigtech: both are sampled anew, with the default tolerances *)
Definition mix_tc (op : chebtech -> chebtech -> option chebtech) (g : trig) (f : chebtech) : option trig :=
  match cheb_of (fun x => fst (tcall g x)) eps_default, cheb_of (fun x => RtoC (clenshaw_pt (nth 0 (coeffs f) []) x)) eps_default with
  | Some gc, Some fc => match op gc fc with None => None | Some q => trig_of q teps end
  | _, _ => None
  end.
