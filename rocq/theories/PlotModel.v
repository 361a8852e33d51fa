(** What a continuation state shows of itself: plot_values, mass and variation (vectorspaces/cont_state.py 106-123, State.py 86-103,
    tp_state.py 117-134, tp_cont_state.py 101-118, base_state.py 128-129 and 155-160), for Chebyshev functions. *)
From Coq Require Import Reals ZArith List Arith Bool.
From Coquelicot Require Import Coquelicot.
From Verif Require Import Base ChebModel ChebModel2 FunModel RootsModel NormModel.
Import ListNotations.
Open Scope R_scope.

Definition bindo {A B} (o : option A) (f : A -> option B) : option B := match o with None => None | Some a => f a end.

(** u - number, through Fun.__array_ufunc__ (fun.py 166-187) and ufuncs.pyx 48-70, 126-127 *)
Definition fun_sub_number (F : Fun) (a : R) : option Fun := if dom_check F F then wrap F (add_number (onefun F) (- a)) else None.

(** fun.py 449-450, h1norm(f, p, **kwargs) passes k=1 and kwargs on to wkpnorm: with k among kwargs this raises TypeError *)
Definition h1norm_kw (F : Fun) (p : nat) (k : option nat) : option R := match k with Some _ => None | None => fun_h1norm F p end.

(** the argument norm_type *)
Inductive norm_type := Sturm | Sturm0 | SturmNeumann | SturmNeumann0 | Wkp | OtherNorm.

(** the second coordinate; a number or an array with one entry (the sign of sturm_norm is taken of an array) *)
Definition plot_y (u : Fun) (cidx : Z) (t : norm_type) (p k : nat) : option (list R) :=
  match t with
  | Sturm => bindo (fun_getitem u cidx) (fun v => fun_sturm_norm v p)
  | Sturm0 => bindo (fun_sub_number u (lsum (fun_sum u) / INR (length (coeffs (onefun u))))) (fun u0 => bindo (fun_getitem u0 cidx) (fun v => fun_sturm_norm v p))
  | SturmNeumann => bindo (fun_getitem u cidx) (fun v => fun_sturm_norm_alt v p)
  | SturmNeumann0 => bindo (fun_getitem u cidx) (fun v => bindo (fun_sub_number v (1 / (dom1 u - dom0 u) * lsum (fun_sum v))) (fun v0 => fun_sturm_norm_alt v0 p))
  | Wkp => bindo (fun_getitem u cidx) (fun v => option_map (fun n => [n]) (h1norm_kw v p (Some k)))
  | OtherNorm => bindo (fun_getitem u cidx) (fun v => option_map (fun n => [n]) (fun_norm v p))
  end.
(** plot_values of a state with active parameter a and function u *)
Definition plot_values (a : R) (u : Fun) (cidx : Z) (t : norm_type) (p k : nat) : option (R * list R) := option_map (pair a) (plot_y u cidx t p k).

(** base_state.py 128-129, mass: one number per function of the state *)
Definition st_mass (funcs : list Fun) : list R := map (fun f => lsum (fun_sum f)) funcs.

(** base_state.py 155-160, variation *)
Definition st_variation (eigs : nat -> (nat -> nat -> R) -> (nat -> nat -> R) -> list C) (fuel : nat) (u : Fun) : option R :=
  if Nat.ltb 1 (nrows (coeffs (onefun u))) then option_map (fun l => lsum (map (fun r => fst (snd r) - fst (fst r)) l)) (cheb_minandmax eigs fuel (onefun u))
  else Some 0.
