(** In-place arithmetic of periodic functions on a domain: f += g, f -= g, f *= g, f /= g (numpy's operators call the
    ufunc with out=f).  funpy/fun.py 160-185, funpy/trig/trigtech.py 137-164, funpy/trig/ufuncs.py 40-350.  One column.
    f and g are two different objects. *)
From Coq Require Import Reals ZArith List Arith Bool.
From Coquelicot Require Import Coquelicot.
From Verif Require Import Base ChebModel TrigSpec TrigModel TrigModel2 TrigCons TrigUfunc FunModel FunTrig.
Import ListNotations.
Open Scope R_scope.
Open Scope C_scope.

(** the second operand: a periodic function, a number, an array of shape (1,) *)
Inductive poperand := PFun (g : pfun) | PNum (a : C) | PArr (a : C).
(** what the statement does: it may raise; f afterwards, g afterwards *)
Record peffect := { praises : bool; pleft : pfun; pright : poperand }.
Definition done (f : pfun) (g : poperand) : peffect := {| praises := false; pleft := f; pright := g |}.
Definition fails (f : pfun) (g : poperand) : peffect := {| praises := true; pleft := f; pright := g |}.

(** fun.py 163-170: the domains of the operands must not exceed the one of f by SMALL_EPS *)
Definition pdom_check (f g : pfun) : bool := andb (Rltb (pa g - pa f) SMALL_EPS) (Rltb (pb g - pb f) SMALL_EPS).

(** ufuncs.py 89-152 with out: the shorter function is prolonged in place (99-102), the values are added, the
    coefficients computed from them (131-132), the flag is set (150-152); lines 137-143 do not touch out.
    f afterwards and g afterwards *)
Definition tiadd (f g : trig) : option (trig * trig) :=
  match tmatch f g with
  | None => None
  | Some (f', g') =>
      let b := tre f && tre g in
      let v := realvals b (ladd (tva f') (tva g')) in
      Some ({| tco := vals2coeffs1 v; tva := v; tre := b |}, g')
  end.
(** ufuncs.py 47-80 with out: values and the constant coefficient; the flag tests the imaginary part, not its modulus *)
Definition tiadd_num (f : trig) (a : C) : trig :=
  {| tco := tco (tadd_num f a); tva := map (fun v => v + a) (tva f); tre := tre f && Rltb (Im a) (/ 10 ^ 14) |}.
(** ufuncs.py 168-183 and 296-300 with out: the flag is not set *)
Definition timul_num (f : trig) (a : C) : trig :=
  {| tco := map (fun v => v * a) (tco f); tva := map (fun v => v * a) (tva f); tre := tre f |}.
(** ufuncs.py 312-324 with out: divided first, tested afterwards *)
Definition tidiv_num (f : trig) (a : C) : trig :=
  {| tco := map (fun v => v / a) (tco f); tva := map (fun v => v / a) (tva f); tre := tre f |}.
(** ufuncs.py 221-300 with out, neither function constant: the flag is not set (296-300) *)
Definition timul (f g : trig) : option trig :=
  if teqb f g then None
  else if conj_is f g then None
  else match tmul_col (tco f) (tco g) with
       | None => None
       | Some h => match tsimplify_col h (/ 10 ^ 14) with
                   | None => None
                   | Some c => Some {| tco := c; tva := realvals (tre f && tre g) (coeffs2vals1 c); tre := tre f |}
                   end
       end.
(** ufuncs.py 332-337 with out: the quotient is constructed, values and coefficients are taken over, not the flag *)
Definition tidiv (f g : trig) : option trig :=
  match tufunc2 Cdiv f (TFun g) with
  | Some (_, [h]) => Some {| tco := tco h; tva := tva h; tre := tre f |}
  | _ => None
  end.

(** f += g.  An array of shape (1,) is added to the values (58), then other.shape[1] raises IndexError (61) *)
Definition p_iadd (f : pfun) (g : poperand) : peffect :=
  match g with
  | PNum a => done (pset f (tiadd_num (pt f) a)) g
  | PArr a => fails (pset f {| tco := tco (pt f); tva := map (fun v => v + a) (tva (pt f)); tre := tre (pt f) |}) g
  | PFun h =>
      if pdom_check f h then
        match tiadd (pt f) (pt h) with Some (f', h') => done (pset f f') (PFun (pset h h')) | None => fails f g end
      else fails f g
  end.
(** f -= g: the negative of g is a new object (ufuncs.py 159-160) *)
Definition p_isub (f : pfun) (g : poperand) : peffect :=
  match g with
  | PNum a => let e := p_iadd f (PNum (- a)) in {| praises := praises e; pleft := pleft e; pright := g |}
  | PArr a => let e := p_iadd f (PArr (- a)) in {| praises := praises e; pleft := pleft e; pright := g |}
  | PFun h => let e := p_iadd f (PFun (pset h (tneg (pt h)))) in {| praises := praises e; pleft := pleft e; pright := g |}
  end.
(** f *= g.  For an array with one entry, or a constant function on either side, multiply is called again without out
    (ufuncs.py 186-187, 223-226) and returns a new object, which Fun.__array_ufunc__ drops (fun.py 178-180) *)
Definition p_imul (f : pfun) (g : poperand) : peffect :=
  match g with
  | PNum a => done (pset f (timul_num (pt f) a)) g
  | PArr a => done f g
  | PFun h =>
      if pdom_check f h then
        if Nat.eqb (length (tco (pt f))) 1 || Nat.eqb (length (tco (pt h))) 1 then done f g
        else match timul (pt f) (pt h) with Some f' => done (pset f f') g | None => fails f g end
      else fails f g
  end.
(** f /= g.  Numbers below 1e-16 are rejected after the division (ufuncs.py 321-324), arrays are not tested (325-328) *)
Definition p_idiv (f : pfun) (g : poperand) : peffect :=
  match g with
  | PNum a => let f' := pset f (tidiv_num (pt f) a) in if Rltb (Cmod a) (/ 10 ^ 16) then fails f' g else done f' g
  | PArr a => done (pset f (tidiv_num (pt f) a)) g
  | PFun h =>
      if pdom_check f h then match tidiv (pt f) (pt h) with Some f' => done (pset f f') g | None => fails f g end
      else fails f g
  end.
