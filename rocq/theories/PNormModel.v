(** Norms of periodic functions of one column on a domain (fun.py 363-450; trig/ufuncs.py 31-37; trigtech.py 137-164, 507-548). *)
From Coq Require Import Reals ZArith List Arith Bool.
From Coquelicot Require Import Coquelicot.
From Verif Require Import Base ChebModel TrigSpec TrigModel TrigModel2 TrigCons TrigUfunc FunModel FunTrig NormModel.
Import ListNotations.
Open Scope R_scope.

(** f ** p, through Fun.__array_ufunc__ (fun.py 160-185) and ufuncs.py 31-37 (minSamples is ignored by trigtech.__init__) *)
Definition ppow (f : pfun) (p : nat) : option pfun :=
  match tconstruct [tpow_samples (pt f) p] teps with Some (_, [g]) => Some (pset f g) | _ => None end.
(** abs(f): np.absolute has no function of its own, trigtech.py 151-154 *)
Definition pabs (f : pfun) : option pfun :=
  match tufunc (fun z => RtoC (Cmod z)) (pt f) with Some (_, [g]) => Some (pset f g) | _ => None end.
(** fun.py 417-425, norm2, detail: the real part of the integral of |f|^p *)
Definition pnorm2_detail (f : pfun) (p : nat) : option R :=
  let sum := fun g => Re (psum g) in
  if Nat.eqb p 1 then option_map sum (pabs f)
  else if Nat.odd p then match pabs f with None => None | Some a => option_map sum (ppow a p) end
  else option_map sum (ppow f p).
(** fun.py 374-387, norm, detail: the modulus of the integral for even p.  Simplified: for odd p the integral is complex with
    imaginary part 0 (the samples of the construction are real) and stands for its real part. *)
Definition pnorm_detail (f : pfun) (p : nat) : option R :=
  if Nat.odd p then pnorm2_detail f p else option_map (fun g => Cmod (psum g)) (ppow f p).
Definition preal (f : pfun) : pfun := pset f (treal_part (pt f)).
Definition pimag (f : pfun) : pfun := pset f (timag_part (pt f)).
Definition oplus (a b : option R) : option R := match a, b with Some x, Some y => Some (x + y) | _, _ => None end.
(** fun.py 409-433, norm2 with istrig: real and imaginary part on their own, added; weighted is ignored *)
Definition pnorm2 (f : pfun) (p : nat) : option R :=
  if Nat.eqb p 0 then None else oplus (pnorm2_detail (preal f) p) (pnorm2_detail (pimag f) p).
(** fun.py 363-402, norm with istrig, finite p *)
Definition pnorm (f : pfun) (p : nat) : option R :=
  if Nat.eqb p 0 then None
  else match oplus (pnorm_detail (preal f) p) (pnorm_detail (pimag f) p) with
       | None => None
       | Some s => if Nat.eqb p 1 then Some s else nroot p s
       end.
