(** Integral terms in the symbolic compiler (colloc/source/compiler.py 534-550). *)
From Coq Require Import Reals List Arith Bool.
From Verif Require Import Base SrcModel.
Import ListNotations.
Open Scope R_scope.

(** structural equality of expressions (sympy's ==) *)
Definition fn1_eq_dec (f g : fn1) : {f = g} + {f <> g}. Proof. decide equality. Defined.
Fixpoint sexp_eq_dec (s t : sexp) {struct s} : {s = t} + {s <> t}.
Proof. decide equality; (apply Nat.eq_dec || apply Req_EM_T || apply fn1_eq_dec). Defined.

(** An expanded equation with integrals: loc + sum over (m, f) in ts of m * Integral(f, x); m is one term of the expanded
    coefficient, so a coefficient with several terms gives several pairs with the same f (sympy's expand, compiler.py 535).
    compiler.py 505-509 turns it into the local Frechet derivative plus m * Integral(g) with g the derivative of f; integrals of 0 vanish.
    sp: whether expand also splits the integral of a sum into a sum of integrals (recent versions of sympy) or leaves it alone.
    Simplified: equal terms of one integrand are not merged. *)
Definition sprod (m : list sexp) : sexp := fold_right SMul (SNum 1) m.
Definition nl_terms (sp : bool) (j : nat) (ts : list (sexp * sexp)) : list (sexp * sexp) :=
  flat_map (fun p => let g := frechet 1 j (snd p) in if isz g then [] else if sp then map (fun m => (fst p, sprod m)) (expand g) else [(fst p, g)]) ts.
(** compiler.py 538-549: one operator for every Integral node met by preorder_traversal, i.e. for every term containing one;
    its coefficient is DM.coeff(Integral(g)), the sum of all m in front of the same integral; its integrand g.coeff(pfun) *)
Definition nl_op (j : nat) (gs : list (sexp * sexp)) (p : sexp * sexp) : sexp * sexp :=
  (of_terms (map (fun q => [fst q]) (filter (fun q => if sexp_eq_dec (snd q) (snd p) then true else false) gs)), of_terms (coeff 1 j 0 (expand (snd p)))).
(** None: a factor m depending on the unknown leaves pfun in the coefficient of Integral(f); the emitted function then uses an
    undefined name and calling it raises NameError *)
Definition nl_block (sp : bool) (K j : nat) (loc : sexp) (ts : list (sexp * sexp)) : option (list sexp * list (sexp * sexp)) :=
  if existsb (fun p => contains j (fst p)) ts then None else Some (lin_block K j loc, map (nl_op j (nl_terms sp j ts)) (nl_terms sp j ts)).
