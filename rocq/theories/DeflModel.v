(** Model of the deflation operator, its derivative and the deflated linear
    operators (newton/deflation.py, FrechetDeflated.py, FrechetDeflatedPrecond.py,
    deflated_residual.py, the deflated part of NewtonSystem.py).

    Functions live in a real vector space X with an inner product [ip]: h1norm
    (fun.py 449-450, wkpnorm 436-446 with p = 2, k = 1) is the norm
    sqrt(<f,f> + <f',f'>) of the H^1 product, and support/Functional.py 116-130
    with order = 1 evaluates the H^1 product with its generating function.
    (Simplification: exact real arithmetic; the quadrature used by that class to
    evaluate the product is not modelled here.)  Division by zero gives numpy
    inf/nan in the code, / 0 = 0 here: theorems assume u different from every
    known solution. *)
From Coq Require Import Reals List.
From Coquelicot Require Import Coquelicot.
Import ListNotations.
Open Scope R_scope.

Section Defl.
Context {X V : ModuleSpace R_Ring}.
Variable ip : X -> X -> R.

(** fun.py 436-450, h1norm. *)
Definition h1norm (f : X) : R := sqrt (ip f f).

(** deflation.py 10: shift + 1.0 / h1norm(u - ks)**power (positive base, real
    power). *)
Definition defl_factor (shift power : R) (u ks : X) : R :=
  shift + 1 / Rpower (h1norm (minus u ks)) power.

(** deflation.py 9-10, deflation; deflated_residual.py 97-106, __deflation. *)
Definition deflation (u : X) (known : list X) (shift power : R) : R :=
  match known with
  | [] => 1
  | _ => fold_left Rmult (map (defl_factor shift power u) known) 1
  end.

(** deflation.py 27-37: the loop, accumulating (eta, function). *)
Definition defl_step (shift power : R) (u : X) (st : R * X) (ks : X) : R * X :=
  let diff := minus u ks in
  let diff_norm := h1norm diff in
  let defl := shift + 1 / Rpower diff_norm power in
  (fst st * defl, plus (snd st) (scal (/ (defl * Rpower diff_norm (2 + power))) diff)).

(** Objects returned for the derivative of eta: the row-vector class
    funpy.functional.Functional, which defines no __call__, and the class
    support.Functional, which does (support/Functional.py 116-130). *)
Inductive functional := RowFunctional (g : X) | CallFunctional (g : X).
(** Calling it on a coefficient vector; None = TypeError (not callable). *)
Definition call (d : functional) (c : X) : option R :=
  match d with RowFunctional _ => None | CallFunctional g => Some (ip g c) end.

(** deflation.py 13-46, deflation_linearization.  [mkf] is the class bound to
    the name Functional in that module.  (The final prolong to the length of u
    leaves the function unchanged and is omitted.) *)
Definition deflation_linearization (mkf : X -> functional) (u : X) (known : list X) (shift power : R)
  : R * option functional :=
  match known with
  | [] => (1, None)
  | _ =>
    let st := fold_left (defl_step shift power u) known (1, zero) in
    (fst st, Some (mkf (scal (- power * fst st) (snd st))))
  end.

(** FrechetDeflated.py 46-59, _matvec: None = an exception. *)
Definition frechet_matvec (mat : X -> V) (eta : R) (b : V) (deta : option functional) (x : X) : option V :=
  match deta with
  | None => Some (mat x)
  | Some d =>
    match call d x with
    | None => None
    | Some t => Some (plus (scal eta (mat x)) (scal t b))
    end
  end.

(** NewtonSystem.py 79-88, the operator built at u with residual F(u) and
    matrix [mat]; default shift 1 and power 2 (deflation.py 13), Functional is
    fun.Functional = functional.Functional (deflation.py 6, fun.py 15). *)
Definition newton_system_matvec (mat : X -> V) (Fu : V) (u : X) (known : list X) (x : X) : option V :=
  let ed := deflation_linearization RowFunctional u known 1 2 in
  frechet_matvec mat (fst ed) Fu (snd ed) x.
(** NewtonSystem.py 67-77, rhs. *)
Definition newton_system_rhs (F : X -> V) (u : X) (known : list X) : V :=
  match known with [] => F u | _ => scal (deflation u known 1 2) (F u) end.

(** deflated_residual.py 31-81 and 146-161: b is multiplied by eta in __init__
    (81) when there are known solutions, then used as F(u) in _matvec (161).
    [imports_ok]: the absolute import `from cheb.chebpts import quadwts`
    (support/Functional.py 32) succeeds only if the package directory itself is
    on sys.path; otherwise the constructor raises. *)
Definition deflated_residual_matvec (imports_ok : bool) (mat : X -> V) (Fu : V) (u : X) (known : list X)
    (shift power : R) (c : X) : option V :=
  match known with
  | [] => Some (mat c)
  | _ =>
    if imports_ok then
      let ed := deflation_linearization CallFunctional u known shift power in
      let b := scal (fst ed) Fu in
      frechet_matvec mat (fst ed) b (snd ed) c
    else None
  end.
(** deflated_residual.py 83-90, rhs. *)
Definition deflated_residual_rhs (F : X -> V) (u : X) (known : list X) (shift power : R) : V :=
  match known with [] => F u | _ => scal (deflation u known shift power) (F u) end.
End Defl.
Arguments functional _ : clear implicits.

(** FrechetDeflatedPrecond.py 25-44 and deflated_residual.py 208-229: __init__
    computes denom = eta**2 + functional(b); _matvec with known solutions.
    [Pinv] is Pf.solve (resp. Pf.dot).  The vectors are coefficient vectors on
    both sides, so X = V. *)
Definition precond_matvec {X : ModuleSpace R_Ring} (ip : X -> X -> R) (Pinv : X -> X) (b : X) (nks : nat)
    (d : option (functional X)) (eta : R) (x : X) : option X :=
  match nks with
  | O => Some (Pinv x)
  | _ =>
    match d with
    | None => None
    | Some d =>
      match call ip d b, call ip d (Pinv x) with
      | Some db, Some dx =>
        let denom := eta ^ 2 + db in
        Some (scal (/ eta) (minus (Pinv x) (scal (dx / denom) b)))
      | _, _ => None
      end
    end
  end.
