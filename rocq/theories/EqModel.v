(** Model of the comparisons == and != of functions.

    A function is of type 'cheb' (any number of columns) or of type 'trig' (one column).  [None] is an exception. *)
From Coq Require Import Reals ZArith List Arith Bool.
From Coquelicot Require Import Complex.
From Verif Require Import Base ChebModel ChebModel2 FunModel DivModel TrigModel TrigModel2 FunTrig.
Import ListNotations.
Open Scope R_scope.

(** fun.py 26-62: the two kinds of functions. *)
Inductive gfun := GC (F : Fun) | GT (P : pfun).
(** fun.py 93-95: the domain; mapping.py 31-41: the mapping is the linear one of the domain and its ends are the domain. *)
Definition gdom (A : gfun) : R * R := match A with GC F => (dom0 F, dom1 F) | GT P => (pa P, pb P) end.
(** chebtech.py 203-205 and trigtech.py 190-192, shape: rows and columns of the coefficients. *)
Definition gshape (A : gfun) : nat * nat :=
  match A with GC F => (nrows (coeffs (onefun F)), length (coeffs (onefun F))) | GT P => (length (tco (pt P)), 1%nat) end.
(** the coefficients, one list per column, as complex numbers (== of numpy compares a real and a complex array by value). *)
Definition gcoeffs (A : gfun) : list (list C) :=
  match A with GC F => map (map RtoC) (coeffs (onefun F)) | GT P => [tco (pt P)] end.
(** chebtech.py 249-250, values of a chebtech: polyval of the coefficients; the stored values of a trigtech. *)
Definition gvalues (A : gfun) : list (list C) :=
  match A with GC F => map (map RtoC) (polyval (coeffs (onefun F))) | GT P => [tva (pt P)] end.

(** numpy == of two complex numbers, and np.all of == of two arrays of the same shape. *)
Definition Ceqb (z w : C) : bool := Reqb (fst z) (fst w) && Reqb (snd z) (snd w).
Definition all2 {X} (e : X -> X -> bool) (c d : list X) : bool :=
  Nat.eqb (length c) (length d) && forallb (fun p => e (fst p) (snd p)) (combine c d).
Definition carr_eqb (A B : list (list C)) : bool := all2 (all2 Ceqb) A B.
(** the comparison of two shapes (tuples). *)
Definition shape_eqb (s t : nat * nat) : bool := Nat.eqb (fst s) (fst t) && Nat.eqb (snd s) (snd t).
(** fun.py 94: np.all(self.domain == other.domain); mapping.py 40-41: the same for the ends of the mappings. *)
Definition dom_eqb (d e : R * R) : bool := Reqb (fst d) (fst e) && Reqb (snd d) (snd e).

(** chebtech.py 386-387 and trigtech.py 478-481, __eq__: that of the left operand is called. *)
Definition tech_eq (A B : gfun) : bool :=
  match A with
  | GC _ => shape_eqb (gshape A) (gshape B) && carr_eqb (gcoeffs A) (gcoeffs B)
  | GT _ => shape_eqb (gshape A) (gshape B) && carr_eqb (gcoeffs A) (gcoeffs B) && carr_eqb (gvalues A) (gvalues B)
  end.
(** fun.py 93-95, __eq__. *)
Definition geq (A B : gfun) : bool := dom_eqb (gdom A) (gdom B) && tech_eq A B && dom_eqb (gdom A) (gdom B).

(** A != B: Fun defines no __ne__ of its own, so the one of NDArrayOperatorsMixin is used: numpy.not_equal, which fun.py
    166-185 hands to chebtech.py 112-137.  There is no special not_equal, so a new chebtech is built from the callable
    x -> (f(x) != g(x)); refine.py 78 turns the truth values into 0.0 and 1.0. *)
Definition not_equal (s t : R) : R := if Reqb s t then 0 else 1.
Definition fun_ne (F G : Fun) : option Fun := fun_ufunc2 not_equal F G.
(** fun.py 114-115, __len__; Fun has no __bool__, so `if f:` tests the length. *)
Definition fun_truth (F : Fun) : bool := negb (Nat.eqb (nrows (coeffs (onefun F))) 0).
