(** Model of the code generation of funpy/cbcode.py (FunPyPrinter) and of the
    functions it is wrapped in (colloc/source/NonlinearOperatorSource.py,
    DiffOperatorSource.py, IntegralOperatorSource.py): from a sympy expression
    to the Python expression that is executed, and the value of that Python
    expression on functions (Fun objects are modelled by the functions they
    represent; their arithmetic is the subject of C11, C12, C139).
    Not modelled: the text of sums, products, powers and elementary functions,
    which sympy's own printers produce. *)
From Coq Require Import Reals List Arith Bool Lra Lia.
From Coquelicot Require Import Coquelicot.
Import ListNotations.
Open Scope R_scope.

(** The expressions of colloc/source/support.py 69-163 (the sympy base program):
    numbers, parameters, the variable x, the unknown (and constant) functions
    u_j(x), Derivative (diff), elementary functions (by number), Integral
    without limits (int(e), the integral over the domain) and with limits
    (int(e, (x, lo, hi))); a limit is a number or x. *)
Inductive limit := LNum (r : R) | LX.
Inductive sx :=
| XNum (r : R) | XPar (p : nat) | XVar | XFn (j : nat)
| XAdd (a b : sx) | XMul (a b : sx) | XDiv (a b : sx) | XPow (a : sx) (k : nat) | XEl (f : nat) (a : sx)
| XDer (a : sx) (n : nat) | XInt (a : sx) | XIntTo (a : sx) (lo hi : limit).

(** The Python expressions emitted. *)
Inductive py :=
| PNum (r : R) | PPar (p : nat) | PX | PU (j : nat)
| PAdd (a b : py) | PMul (a b : py) | PDiv (a b : py) | PPow (a : py) (k : nat) | PEl (f : nat) (a : py)
| PDiff (a : py) (n : nat) | PSum (a : py) | PCumsum (a : py) | PBad.

Definition limit_eq_dec : forall a b : limit, {a = b} + {a <> b}.
Proof. decide equality. apply Req_EM_T. Defined.
Definition sx_eq_dec : forall a b : sx, {a = b} + {a <> b}.
Proof. decide equality; try apply Nat.eq_dec; try apply Req_EM_T; apply limit_eq_dec. Defined.

(** integral.atoms(Function) of cbcode.py 88: the applied functions, undefined
    or elementary, occurring in an expression (to be taken without repetition). *)
Fixpoint atoms (e : sx) : list sx :=
  match e with
  | XNum _ | XPar _ | XVar => []
  | XFn j => [XFn j]
  | XAdd a b | XMul a b | XDiv a b => atoms a ++ atoms b
  | XPow a _ | XDer a _ | XInt a => atoms a
  | XEl f a => XEl f a :: atoms a
  | XIntTo a _ _ => atoms a
  end.
Definition n_atoms (e : sx) : nat := length (nodup sx_eq_dec (atoms e)).

(** cbcode.py 74-110, _print_Integral.  sympy's Integral denests: an Integral of
    an Integral is one object with the list of all limits.  [lim = false]: no
    limits have bounds, np.sum of the integrand (once, however many limits).
    [lim = true]: some limit has bounds; with one function atom np.cumsum of the
    integrand, whatever the bounds.  Two atoms: adhesion of the atom with one
    free symbol and that with two; as every function here depends on x only
    there is no kernel, the text is adhesion(f, None) and evaluating it raises.
    Otherwise the method returns NotImplemented, which is no code either. *)
Definition print_integral (lim : bool) (n : nat) (c : py) : py :=
  if lim then (if Nat.eqb n 1 then PCumsum c else PBad) else PSum c.
Definition close (m : option bool) (e : sx) (c : py) : py :=
  match m with None => c | Some lim => print_integral lim (n_atoms e) c end.

(** cbcode.py 28-45, _print_Derivative (no_evaluation, as in all emitters), and
    47-72, _print_Function.  [m]: None outside of an integral, otherwise the
    integrals around the expression so far and whether one has bounds. *)
Fixpoint prt (m : option bool) (e : sx) : py :=
  match e with
  | XNum r => close m e (PNum r)
  | XPar p => close m e (PPar p)
  | XVar => close m e PX
  | XFn j => close m e (PU j)
  | XAdd a b => close m e (PAdd (prt None a) (prt None b))
  | XMul a b => close m e (PMul (prt None a) (prt None b))
  | XDiv a b => close m e (PDiv (prt None a) (prt None b))
  | XPow a k => close m e (PPow (prt None a) k)
  | XEl f a => close m e (PEl f (prt None a))
  | XDer a n => close m e (PDiff (prt None a) n)
  | XInt a => prt (Some (match m with Some lim => lim | None => false end)) a
  | XIntTo a lo hi => prt (Some true) a
  end.
Definition print (e : sx) : py := prt None e.

(** Python values: a number (or an array with one entry) or a function. *)
Inductive pyval := VNum (r : R) | VFun (f : R -> R).
Record penv := mkP { p_par : nat -> R; p_fn : nat -> R -> R; p_el : nat -> R -> R; p_a : R; p_b : R }.

(** numpy's promotion: an operation with a function gives a function. *)
Definition lift2 (op : R -> R -> R) (v w : pyval) : pyval :=
  match v, w with
  | VNum r, VNum s => VNum (op r s)
  | VNum r, VFun g => VFun (fun x => op r (g x))
  | VFun f, VNum s => VFun (fun x => op (f x) s)
  | VFun f, VFun g => VFun (fun x => op (f x) (g x))
  end.
Definition lift1 (op : R -> R) (v : pyval) : pyval :=
  match v with VNum r => VNum (op r) | VFun f => VFun (fun x => op (f x)) end.
(** fun.py 527-551: np.diff, np.sum and np.cumsum of functions; of a number
    numpy's own functions are called: np.diff of an array with at most one
    entry raises or gives an empty array (None), np.sum and np.cumsum give the
    number. *)
Definition v_diff (n : nat) (v : pyval) : option pyval := match v with VFun f => Some (VFun (Derive_n f n)) | VNum _ => None end.
Definition v_sum (a b : R) (v : pyval) : pyval := match v with VFun f => VNum (RInt f a b) | VNum r => VNum r end.
Definition v_cumsum (a : R) (v : pyval) : pyval := match v with VFun f => VFun (fun x => RInt f a x) | VNum r => VNum r end.

Definition bind {A B} (o : option A) (k : A -> option B) : option B := match o with Some x => k x | None => None end.
(** Evaluation of the emitted code in the namespace of the operator. *)
Fixpoint run (E : penv) (c : py) : option pyval :=
  match c with
  | PNum r => Some (VNum r)
  | PPar p => Some (VNum (p_par E p))
  | PX => Some (VFun (fun x => x))
  | PU j => Some (VFun (p_fn E j))
  | PAdd a b => bind (run E a) (fun v => bind (run E b) (fun w => Some (lift2 Rplus v w)))
  | PMul a b => bind (run E a) (fun v => bind (run E b) (fun w => Some (lift2 Rmult v w)))
  | PDiv a b => bind (run E a) (fun v => bind (run E b) (fun w => Some (lift2 Rdiv v w)))
  | PPow a k => bind (run E a) (fun v => Some (lift1 (fun t => t ^ k) v))
  | PEl f a => bind (run E a) (fun v => Some (lift1 (p_el E f) v))
  | PDiff a n => bind (run E a) (v_diff n)
  | PSum a => bind (run E a) (fun v => Some (v_sum (p_a E) (p_b E) v))
  | PCumsum a => bind (run E a) (fun v => Some (v_cumsum (p_a E) v))
  | PBad => None
  end.

(** fun.py 303-315, asfun(v, domain): a number becomes a constant function on
    the domain given, a function keeps its own.  The result: domain and function. *)
Definition asfun (E : penv) (dom : R * R) (v : pyval) : R * R * (R -> R) :=
  match v with VNum r => (dom, fun _ => r) | VFun f => (p_a E, p_b E, f) end.
(** NonlinearOperatorSource.py 41-55: return asfun(code, domain=...). *)
Definition emit_residual (E : penv) (e : sx) : option (R * R * (R -> R)) :=
  option_map (asfun E (p_a E, p_b E)) (run E (print e)).
(** DiffOperatorSource.py 45-71: without functions the code is multiplied by
    ones(1, domain); otherwise asfun(code) without a domain, the default being
    [-1, 1] (fun.py 36). *)
Definition emit_coeff (E : penv) (e : sx) : option (R * R * (R -> R)) :=
  match atoms e with
  | [] => option_map (fun v => asfun E (p_a E, p_b E) (lift2 Rmult v (VFun (fun _ => 1)))) (run E (print e))
  | _ => option_map (asfun E (-1, 1)) (run E (print e))
  end.
(** IntegralOperatorSource.py 41-60 and 72-94 for a real coefficient or
    integrand: return code * ones(1, domain). *)
Definition emit_icoeff (E : penv) (e : sx) : option (R * R * (R -> R)) :=
  option_map (fun v => asfun E (p_a E, p_b E) (lift2 Rmult v (VFun (fun _ => 1)))) (run E (print e)).
