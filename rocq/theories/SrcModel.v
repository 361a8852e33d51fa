(** Model of the symbolic compiler colloc/source/compiler.py (linearize, bilinear,
    bilinear_dp, compile_dp, get_diff_order) together with the sympy operations it uses.
    Expressions are sympy trees; [Derivative(u(x), (x, k))] of a function symbol is the atom
    [SFun j k].  Integrals, non-integer powers and the non-local operator are not in this file. *)
From Coq Require Import Reals List Arith Bool.
From Coquelicot Require Import Coquelicot.
From Verif Require Import Base.
Import ListNotations.
Open Scope R_scope.

Inductive fn1 := FSin | FCos | FExp.
Inductive sexp :=
| SNum (r : R)                 (* number *)
| SX                           (* the space variable x *)
| SPar (p : nat)               (* parameter *)
| SCFun (j k : nat)            (* k-th derivative of a constant function symbol (support.py 127-134) *)
| SFun (j k : nat)             (* k-th derivative of the j-th unknown *)
| SPert (l j k : nat)          (* k-th derivative of the perturbation of level l (u_p, u_pp) of the j-th unknown (compiler.py 474-480) *)
| SEps                         (* the increment eps_p / eps_pp *)
| SAdd (a b : sexp) | SMul (a b : sexp) | SPow (a : sexp) (n : nat) | SInv (a : sexp) | SApp (f : fn1) (a : sexp)
| SD (a : sexp).               (* unevaluated Derivative(a, x) of a compound expression *)

(** ** sympy operations *)
(** 0*a = 0, 0+a = a are applied by sympy on construction *)
Definition isz (s : sexp) : bool := match s with SNum r => if Req_EM_T r 0 then true else false | _ => false end.
Definition sadd (a b : sexp) : sexp := if isz a then b else if isz b then a else SAdd a b.
Definition smul (a b : sexp) : sexp := if isz a then SNum 0 else if isz b then SNum 0 else SMul a b.
Definition dfn1 (f : fn1) (a : sexp) : sexp := match f with FSin => SApp FCos a | FCos => SMul (SNum (-1)) (SApp FSin a) | FExp => SApp FExp a end.

(** d/dx with x-dependent functions: evaluation of Derivative(a, x) *)
Fixpoint sdx (s : sexp) : sexp :=
  match s with
  | SNum _ | SPar _ | SEps => SNum 0
  | SX => SNum 1
  | SCFun j k => SCFun j (S k)
  | SFun j k => SFun j (S k)
  | SPert l j k => SPert l j (S k)
  | SAdd a b => SAdd (sdx a) (sdx b)
  | SMul a b => SAdd (SMul (sdx a) b) (SMul a (sdx b))
  | SPow a n => SMul (SMul (SNum (INR n)) (SPow a (n - 1))) (sdx a)
  | SInv a => SMul (SMul (SNum (-1)) (sdx a)) (SPow (SInv a) 2)
  | SApp f a => SMul (dfn1 f a) (sdx a)
  | SD a => SD (SD a)
  end.
(** all Derivatives of compound expressions evaluated (sympy does this when it differentiates through them) *)
Fixpoint norm (s : sexp) : sexp :=
  match s with
  | SAdd a b => SAdd (norm a) (norm b)
  | SMul a b => SMul (norm a) (norm b)
  | SPow a n => SPow (norm a) n
  | SInv a => SInv (norm a)
  | SApp f a => SApp f (norm a)
  | SD a => sdx (norm a)
  | _ => s
  end.
(** exp.replace(fun, fun + e * pfun) for the j-th unknown and the perturbation of level l *)
Fixpoint repl (l j : nat) (s : sexp) : sexp :=
  match s with
  | SFun i k => if Nat.eqb i j then SAdd (SFun i k) (SMul SEps (SPert l i k)) else s
  | SAdd a b => SAdd (repl l j a) (repl l j b)
  | SMul a b => SMul (repl l j a) (repl l j b)
  | SPow a n => SPow (repl l j a) n
  | SInv a => SInv (repl l j a)
  | SApp f a => SApp f (repl l j a)
  | SD a => SD (repl l j a)
  | _ => s
  end.
(** syp.diff(exp, e) and syp.diff(exp, p): derivative with respect to a symbol; [at'] is the derivative of the atoms *)
Fixpoint sdiff (at' : sexp -> R) (s : sexp) : sexp :=
  match s with
  | SAdd a b => SAdd (sdiff at' a) (sdiff at' b)
  | SMul a b => SAdd (SMul (sdiff at' a) b) (SMul a (sdiff at' b))
  | SPow a n => SMul (SMul (SNum (INR n)) (SPow a (n - 1))) (sdiff at' a)
  | SInv a => SMul (SMul (SNum (-1)) (sdiff at' a)) (SPow (SInv a) 2)
  | SApp f a => SMul (dfn1 f a) (sdiff at' a)
  | SD a => SD (sdiff at' a)
  | _ => SNum (at' s)
  end.
Definition diff_eps : sexp -> sexp := sdiff (fun s => match s with SEps => 1 | _ => 0 end).
Definition diff_par (p : nat) : sexp -> sexp := sdiff (fun s => match s with SPar q => if Nat.eqb p q then 1 else 0 | _ => 0 end).
(** .subs({e: 0}) *)
Fixpoint subs0 (s : sexp) : sexp :=
  match s with
  | SEps => SNum 0
  | SAdd a b => sadd (subs0 a) (subs0 b)
  | SMul a b => smul (subs0 a) (subs0 b)
  | SPow a n => SPow (subs0 a) n
  | SInv a => SInv (subs0 a)
  | SApp f a => SApp f (subs0 a)
  | SD a => SD (subs0 a)
  | _ => s
  end.
(** syp.expand: a sum of products of factors that are not sums or products *)
Definition tmul (A B : list (list sexp)) : list (list sexp) := flat_map (fun a => map (fun b => a ++ b) B) A.
Fixpoint tpow (A : list (list sexp)) (n : nat) : list (list sexp) := match n with 0%nat => [[]] | S n => tmul A (tpow A n) end.
Fixpoint expand (s : sexp) : list (list sexp) :=
  match s with
  | SAdd a b => expand a ++ expand b
  | SMul a b => tmul (expand a) (expand b)
  | SPow a n => tpow (expand a) n
  | _ => [[s]]
  end.
(** expr.coeff(Derivative(pfun, (x, k))): the terms in which this atom occurs exactly once, without it *)
Definition is_pert (l j k : nat) (s : sexp) : bool := match s with SPert l' j' k' => Nat.eqb l' l && Nat.eqb j' j && Nat.eqb k' k | _ => false end.
Definition coeff (l j k : nat) (ts : list (list sexp)) : list (list sexp) :=
  flat_map (fun m => if Nat.eqb (length (filter (is_pert l j k) m)) 1 then [filter (fun s => negb (is_pert l j k s)) m] else []) ts.
Definition of_terms (ts : list (list sexp)) : sexp := fold_right (fun m acc => SAdd (fold_right SMul (SNum 1) m) acc) (SNum 0) ts.

(** sympy.solvers.deutils.ode_order(expr, func) *)
Fixpoint contains (j : nat) (s : sexp) : bool :=
  match s with
  | SFun i _ => Nat.eqb i j
  | SAdd a b | SMul a b => contains j a || contains j b
  | SPow a _ | SInv a | SApp _ a | SD a => contains j a
  | _ => false
  end.
Fixpoint ode_order (j : nat) (s : sexp) : nat :=
  match s with
  | SFun i k => if Nat.eqb i j then k else 0
  | SAdd a b | SMul a b => Nat.max (ode_order j a) (ode_order j b)
  | SPow a _ | SInv a | SApp _ a => ode_order j a
  | SD a => if contains j a then S (ode_order j a) else 0
  | _ => 0
  end.

(** ** compiler.py *)
(** compiler.py 127-128 and 166: the orders of equation i in the i-th function; zip stops at the shorter list *)
Fixpoint orders_from (j nf : nat) (srcs : list sexp) : nat :=
  match srcs with
  | [] => 0
  | s :: r => if Nat.ltb j nf then Nat.max (ode_order j s) (orders_from (S j) nf r) else 0
  end.
Definition diff_order (nf : nat) (srcs : list sexp) : nat := orders_from 0 nf srcs.

(** compiler.py 502-509: DM[i,j] for the equation s (collect only rearranges) *)
Definition frechet (l j : nat) (s : sexp) : sexp := subs0 (diff_eps (repl l j (norm s))).
(** compiler.py 519-532: the coefficients of pfun, pfun', ..., up to diffOrder (term_simplify keeps the value) *)
Definition coeffs_of (l j K : nat) (dm : sexp) : list sexp := map (fun k => of_terms (coeff l j k (expand dm))) (seq 0 (S K)).
Definition lin_block (K j : nat) (s : sexp) : list sexp := coeffs_of 1 j K (frechet 1 j s).
(** compiler.py 482-555: linearize(matrix, diffOrder) *)
Definition linearize (K nf : nat) (srcs : list sexp) : list (list (list sexp)) := map (fun s => map (fun j => lin_block K j s) (seq 0 nf)) srcs.
(** compiler.py 158-188: the loop over 'eqn' and 'cts'; each kind is linearised with the order known so far *)
Definition compile_lin (nf : nat) (eqn cts : list sexp) : list (list (list sexp)) * list (list (list sexp)) * nat :=
  let K1 := diff_order nf eqn in
  let K2 := Nat.max K1 (diff_order nf cts) in
  (linearize K1 nf eqn, linearize K2 nf cts, K2).

(** DiffOperatorSource.expr and OperatorSourceBlock.expr: sum of coeffs[k] * Derivative(pfun, (x,k)) *)
Definition block_expr (l j : nat) (cs : list sexp) : sexp := fold_right (fun p acc => SAdd (SMul (fst p) (SPert l j (snd p))) acc) (SNum 0) (combine cs (seq 0 (length cs))).
(** OperatorSource.action (OperatorSource.py 43-60): row sums *)
Definition row_action (l : nat) (row : list (list sexp)) : sexp := fold_right (fun p acc => SAdd (block_expr l (snd p) (fst p)) acc) (SNum 0) (combine row (seq 0 (length row))).

(** compiler.py 370-448, adjoint=False: the second derivative of equation i; DM[j,k].  The first derivative was built
    with the order K1 known then, the second with the final order K2. *)
Definition bilin_block (K1 K2 j k : nat) (s : sexp) : list sexp := coeffs_of 2 k K2 (subs0 (diff_eps (repl 2 k (norm (block_expr 1 j (lin_block K1 j s)))))).
(** OperatorSource.biaction (62-79) *)
Definition biaction (K1 K2 nf : nat) (s : sexp) : sexp :=
  fold_right (fun j acc => SAdd (fold_right (fun k acc => SAdd (block_expr 2 k (bilin_block K1 K2 j k s)) acc) (SNum 0) (seq 0 nf)) acc) (SNum 0) (seq 0 nf).
(** compiler.py 311-368: d/dp of the linearisation *)
Definition dxdp_block (K1 K2 p j : nat) (s : sexp) : list sexp := coeffs_of 1 j K2 (diff_par p (norm (block_expr 1 j (lin_block K1 j s)))).
Definition dxdp_action (K1 K2 p nf : nat) (s : sexp) : sexp := row_action 1 (map (fun j => dxdp_block K1 K2 p j s) (seq 0 nf)).
(** compiler.py 450-472: derivative of the equations with respect to p, of the constraints if p does not occur in the equations
    (Derivative(a, x) is evaluated when sympy differentiates it; simplify keeps the value) *)
Fixpoint has_par (p : nat) (s : sexp) : bool :=
  match s with
  | SPar q => Nat.eqb p q
  | SAdd a b | SMul a b => has_par p a || has_par p b
  | SPow a _ | SInv a | SApp _ a | SD a => has_par p a
  | _ => false
  end.
Definition compile_dp (p : nat) (eqn cts : list sexp) : list sexp := map (fun s => diff_par p (norm s)) (if existsb (has_par p) eqn then eqn else cts).

(** compiler.py 391-398 and 402-445, adjoint=True: after transposing and renaming, entry (i,j) of the matrix is block (j,i) of the
    linearisation applied to the second perturbation of unknown j; DM[j,k] is its derivative in the direction of the first
    perturbation of unknown k; the coefficient of the m-th derivative of the second perturbation gets the sign (-1)^m
    (multiplying before expanding and taking the coefficient is multiplying the coefficient). s is equation j. *)
Definition adj_block (K1 K2 i j k : nat) (s : sexp) : list sexp :=
  map (fun m => SMul (SNum ((-1) ^ m)) (nth m (coeffs_of 2 j K2 (subs0 (diff_eps (repl 1 k (norm (block_expr 2 j (lin_block K1 i s))))))) (SNum 0))) (seq 0 (S K2)).
Definition adj_action (K1 K2 nf i : nat) (srcs : list sexp) : sexp :=
  fold_right (fun j acc => SAdd (fold_right (fun k acc => SAdd (block_expr 2 j (adj_block K1 K2 i j k (nth j srcs (SNum 0)))) acc) (SNum 0) (seq 0 nf)) acc) (SNum 0) (seq 0 nf).

(** ** tables of compiled parameter derivatives *)
(** the dictionary functions[p_name] (pDerivative.py 24-41, linearFunctional.py 30-48); None is KeyError *)
Fixpoint lookup {A} (t : list (nat * A)) (p : nat) : option A := match t with [] => None | (q, a) :: t => if Nat.eqb q p then Some a else lookup t p end.
(** pDerivative.py 43-64: DerivativeFunctional.__call__(u, pname=None); cpar is u.cpar *)
Definition dp_call {A} (t : list (nat * A)) (cpar : nat) (pname : option nat) : option A := lookup t (match pname with None => cpar | Some p => p end).
(** linearFunctional.py 72-80: call_dict(u, up, pname=None) *)
Definition lf_call_dict {A} (t : list (nat * A)) (cpar : nat) (pname : option nat) : option A := lookup t (match pname with None => cpar | Some p => p end).
(** linearFunctional.py 85-86: __call__(u, up, pname=None) passes only u and up on *)
Definition lf_call {A} (t : list (nat * A)) (cpar : nat) (pname : option nat) : option A := lf_call_dict t cpar None.
(** compiler.py 325 and 364 and the build loops: one entry for each continuation parameter *)
Definition table {A} (f : nat -> A) (cpars : list nat) : list (nat * A) := map (fun p => (p, f p)) cpars.
