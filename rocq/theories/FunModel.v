(** Model of funpy/mapping.py and funpy/fun.py (type 'cheb').

    The domain is the pair of its end points (a Fun with more than two break
    points is not supported by the code either).  [None] is an exception. *)
From Coq Require Import Reals ZArith List Arith Bool.
From Verif Require Import Base ChebModel ChebModel2.
Import ListNotations.
Open Scope R_scope.

(** mapping.py 27-29, the linear map. *)
Definition map_fwd (a b y : R) : R := (b * (y + 1) + a * (1 - y)) / 2.
Definition map_der (a b y : R) : R := (b - a) / 2 + 0 * y.
Definition map_bwd (a b x : R) : R := (2 * x - a - b) / (b - a).

(** fun.py 26-62: the wrapped function and the domain; the mapping is always
    the linear one of the domain. *)
Record Fun := mkFun { onefun : chebtech; dom0 : R; dom1 : R }.
Definition wrap (F : Fun) (o : option chebtech) : option Fun :=
  option_map (fun g => mkFun g (dom0 F) (dom1 F)) o.

(** fun.py 91-93, hscale: the sup norm of the domain. *)
Definition fun_hscale (a b : R) : R := Rmax (Rabs a) (Rabs b).

(** fun.py 26-69, construction from a list of callables (composed with fwd). *)
Definition fun_construct (ops : list (R -> R)) (e : R) (ml ms : Z) (a b : R) : option Fun :=
  option_map (fun f => mkFun f a b)
    (construct (map (fun op y => op (map_fwd a b y)) ops) e (fun_hscale a b) ml ms).

(** fun.py 129-133, __call__: the assertion on the mapped points
    (np.min of an empty array raises). *)
Definition fun_call (F : Fun) (x : list R) : option arr :=
  let z := map (map_bwd (dom0 F) (dom1 F)) x in
  match z with
  | [] => None
  | _ => if forallb (fun t => Rleb (-1) t && Rleb t 1) z then Some (feval (onefun F) z) else None
  end.

(** fun.py 167-175: the domain test of __array_ufunc__, [self] first. *)
Definition SMALL_EPS : R := / 10 ^ 8.
Definition dom_check (F G : Fun) : bool :=
  Rltb (dom0 G - dom0 F) SMALL_EPS && Rltb (dom1 G - dom1 F) SMALL_EPS.

(** fun.py 167-188, __array_ufunc__ for the binary and unary ufuncs of cheb
    (the first operand is [self]; its own domain passes the test). *)
Definition fun_binary (op : chebtech -> chebtech -> option chebtech) (F G : Fun) : option Fun :=
  if dom_check F F && dom_check F G then wrap F (op (onefun F) (onefun G)) else None.
Definition fun_add := fun_binary add.
Definition fun_subtract := fun_binary subtract.
Definition fun_multiply := fun_binary multiply.
Definition fun_negative (F : Fun) : option Fun :=
  if dom_check F F then wrap F (negative (onefun F)) else None.

(** fun.py 527-536, diff: the quotient by an array with one entry is the
    quotient by that number (ufuncs.pyx 303-308). *)
Definition fun_diff (F : Fun) (n : nat) : option Fun :=
  match cheb_diff (onefun F) n with
  | None => None
  | Some g => wrap F (divide_number g ((/ 2 * (dom1 F - dom0 F)) ^ n))
  end.

(** fun.py 539-543, sum. *)
Definition fun_sum (F : Fun) : list R :=
  map (fun s => s * (/ 2 * (dom1 F - dom0 F))) (cheb_sum (onefun F)).

(** fun.py 546-551, cumsum (product with an array of one entry). *)
Definition fun_cumsum (F : Fun) : option Fun :=
  match cheb_cumsum (onefun F) with
  | None => None
  | Some g => wrap F (multiply_number g (/ 2 * (dom1 F - dom0 F)))
  end.

(** fun.py 554-560, inner: the domains must be equal. *)
Definition dom_eqb (F G : Fun) : bool := Reqb (dom0 F) (dom0 G) && Reqb (dom1 F) (dom1 G).
Definition fun_inner (F G : Fun) : option arr :=
  if dom_eqb F G then
    option_map (map (map (fun s => s * (/ 2 * (dom1 F - dom0 F))))) (cheb_inner (onefun F) (onefun G))
  else None.

(** fun.py 314-327, dot of two Funs. *)
Definition fun_dot (F G : Fun) : option R :=
  if dom_eqb F G then
    option_map (fun s => s * (/ 2 * (dom1 F - dom0 F))) (cheb_dot (onefun F) (onefun G))
  else None.

(** fun.py 457-458, normh. *)
Definition fun_normh (F : Fun) : option R := option_map sqrt (fun_dot F F).

(** fun.py 563-571, innerw, per column. *)
Definition fun_innerw (F G : Fun) : option (list R) :=
  if dom_eqb F G then
    Some (map (fun s => s * (/ 2 * (dom1 F - dom0 F))) (cheb_innerw (onefun F) (onefun G)))
  else None.

(** fun.py 582-585, hstack: the domain of the first function, no check. *)
Definition fun_hstack (Fs : list Fun) : option Fun :=
  match Fs with
  | [] => None
  | F :: _ => wrap F (cheb_hstack (map onefun Fs))
  end.

(** fun.py 145-151, __getitem__. *)
Definition fun_getitem (F : Fun) (i : Z) : option Fun := wrap F (getitem (onefun F) i).

(** fun.py 110-111, flatten in Fortran order: the columns one after another. *)
Definition fun_flatten (F : Fun) : list R := concat (coeffs (onefun F)).

(** numpy reshape((m, k), order='F') of a vector of length m k: its consecutive
    pieces of length m as columns. *)
Fixpoint reshapeF (m k : nat) (v : list R) : arr :=
  match k with
  | O => []
  | S k' => firstn m v :: reshapeF m k' (skipn m v)
  end.

(** fun.py 213-219, from_coeffs (order='F'): size % 0 raises. *)
Definition fun_from_coeffs (v : list R) (k : nat) (a b : R) : option Fun :=
  if Nat.eqb k 0 then None
  else if Nat.eqb (length v mod k) 0 then
    option_map (fun f => mkFun f a b)
      (cheb_init (reshapeF (length v / k) k v) eps_default (fun_hscale a b) maxLength_default false false)
  else None.
