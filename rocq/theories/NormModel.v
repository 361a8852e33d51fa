(** Model of the norms of fun.py 363-485 and of abs and ** (cheb/ufuncs.pyx 31-46),
    for Chebyshev Funs; p a natural number. *)
From Coq Require Import Reals ZArith List Arith Bool.
From Coquelicot Require Import Coquelicot.
From Verif Require Import Base ChebModel ChebModel2 FunModel RootsModel.
Import ListNotations.
Open Scope R_scope.

(** ufuncs.pyx 31-33, absolute: at most 2^10 points *)
Definition cheb_absolute (f : chebtech) : option chebtech :=
  construct (map (fun c y => Rabs (clenshaw_pt c y)) (coeffs f)) (eps f) 1 (2 ^ 10) (Z.of_nat (nrows (coeffs f))).
(** ufuncs.pyx 35-46, power with a natural exponent: the first power is f itself *)
Definition cheb_power (f : chebtech) (p : nat) : option chebtech :=
  if Nat.eqb p 1 then Some f
  else construct (map (fun c y => clenshaw_pt c y ^ p) (coeffs f)) (eps f) 1 maxLength_default (Z.of_nat (nrows (coeffs f))).
(** through Fun.__array_ufunc__ (fun.py 166-187) *)
Definition fun_absolute (F : Fun) : option Fun := if dom_check F F then wrap F (cheb_absolute (onefun F)) else None.
Definition fun_power (F : Fun) (p : nat) : option Fun := if dom_check F F then wrap F (cheb_power (onefun F) p) else None.

Definition lsum (l : list R) : R := fold_right Rplus 0 l.
(** np.power(x, 1./p): NaN for x < 0 *)
Definition nroot (p : nat) (x : R) : option R :=
  if Rltb x 0 then None else if Reqb x 0 then Some 0 else Some (Rpower x (1 / INR p)).

(** fun.py 419-427, norm2, detail: the integrals of |f|^p, summed over the columns *)
Definition norm2_detail (F : Fun) (p : nat) : option R :=
  if Nat.eqb p 1 then option_map (fun G => lsum (fun_sum G)) (fun_absolute F)
  else if Nat.odd p then
    match fun_absolute F with None => None | Some A => option_map (fun G => lsum (fun_sum G)) (fun_power A p) end
  else option_map (fun G => lsum (fun_sum G)) (fun_power F p).
(** fun.py 409-433, norm2, not weighted *)
Definition fun_norm2 (F : Fun) (p : nat) : option R := if Nat.eqb p 0 then None else norm2_detail F p.
(** fun.py 374-387, norm, detail: for even p the absolute value is taken *)
Definition norm_detail (F : Fun) (p : nat) : option R :=
  option_map (fun s => if Nat.odd p then s else Rabs s) (norm2_detail F p).
(** fun.py 363-407, norm for finite p, not weighted *)
Definition fun_norm (F : Fun) (p : nat) : option R :=
  if Nat.eqb p 0 then None
  else match norm_detail F p with
       | None => None
       | Some s => if Nat.eqb p 1 then Some s else nroot p s
       end.
(** fun.py 389-392 and 402-406: weighted=True asserts p == 2 *)
Definition fun_norm_weighted (F : Fun) (p : nat) : option R :=
  if Nat.eqb p 2 then
    match fun_innerw F F with None => None | Some l => nroot 2 (lsum l) end
  else None.
(** fun.py 378-380: p = np.inf; the largest |value| among all minima and maxima *)
Definition fun_norm_inf (eigs : nat -> (nat -> nat -> R) -> (nat -> nat -> R) -> list C) (fuel : nat) (F : Fun) : option R :=
  option_map (fun l => fold_right Rmax 0 (map (fun r => Rmax (Rabs (fst (fst r))) (Rabs (fst (snd r)))) l)) (cheb_minandmax eigs fuel (onefun F)).
(** fun.py 436-446, wkpnorm: the loop over i = 1..k *)
Fixpoint wkp_loop (k : nat) (F : Fun) (p : nat) (acc : R) : option R :=
  match k with
  | O => Some acc
  | S k' =>
    match fun_diff F 1 with
    | None => None
    | Some G => match fun_norm2 G p with None => None | Some s => wkp_loop k' G p (acc + s) end
    end
  end.
Definition fun_wkpnorm (F : Fun) (p k : nat) : option R :=
  match fun_norm2 F p with
  | None => None
  | Some s => match wkp_loop k F p s with None => None | Some t => nroot p t end
  end.
(** fun.py 449-454 *)
Definition fun_h1norm (F : Fun) (p : nat) := fun_wkpnorm F p 1.
Definition fun_h2norm (F : Fun) (p : nat) := fun_wkpnorm F p 2.

(** value of every column at the left end of the domain: f(f.domain[0]) *)
Definition left_values (F : Fun) : option (list R) := option_map (map (fun v => nth 0 v 0)) (fun_call F [dom0 F]).
(** fun.py 461-469, sturm_norm, one entry per column if the derivative is not negligible *)
Definition fun_sturm_norm (F : Fun) (p : nat) : option (list R) :=
  match fun_diff F 1 with
  | None => None
  | Some D =>
    match fun_norm D p, fun_norm F p with
    | Some dn, Some v =>
      if Rltb (/ 10 ^ 7) dn then option_map (map (fun s => sign s * v)) (left_values D) else Some [v]
    | _, _ => None
    end
  end.
(** fun.py 472-480, sturm_norm_alt: the sign of f(a) *)
Definition fun_sturm_norm_alt (F : Fun) (p : nat) : option (list R) :=
  match fun_diff F 1 with
  | None => None
  | Some D =>
    match fun_norm D p, fun_norm F p with
    | Some dn, Some v =>
      if Rltb (/ 10 ^ 7) dn then option_map (map (fun s => sign s * v)) (left_values F) else Some [v]
    | _, _ => None
    end
  end.
(** fun.py 483-484, normalize: quotient by the norm (NaN for norm 0) *)
Definition fun_normalize (F : Fun) (p : nat) : option Fun :=
  match fun_norm F p with
  | None => None
  | Some v => if Reqb v 0 then None else if dom_check F F then wrap F (divide_number (onefun F) v) else None
  end.
