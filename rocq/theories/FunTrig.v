(** Periodic functions on a domain [a,b]: the Fun wrapper around a trigtech.
    One column; the domain is stored as two numbers and the mapping belongs to it (C-properties on FunModel treat
    objects whose mapping does not). *)
From Coq Require Import Reals ZArith List Arith Bool.
From Coquelicot Require Import Coquelicot.
From Verif Require Import Base ChebModel TrigSpec TrigModel TrigModel2 FunModel.
Import ListNotations.
Open Scope R_scope.
Open Scope C_scope.

(** fun.py 25-62, Fun with onefun a trigtech *)
Record pfun := { pa : R; pb : R; pt : trig }.

(** fun.py 128-132, __call__ at one point: z = mapping.bwd(x), asserted in [-1,1]; the result and the object after the call
    (evaluation rewrites the coefficients of even lengths, see tcall) *)
Definition pcall (f : pfun) (x : R) : option (C * pfun) :=
  let z := map_bwd (pa f) (pb f) x in
  if andb (Rleb (-1) z) (Rleb z 1) then
    let (v, t) := tcall (pt f) z in Some (v, {| pa := pa f; pb := pb f; pt := t |})
  else None.

(** trig/operations.py 12-47, circshift for real a, the object: coefficients shifted, values recomputed and made real
    for real functions, then trigtech(coeffs, values) (trigtech.py 76-103) *)
Definition tshift (t : trig) (a : R) : trig :=
  if Reqb a 0 then t else
  let c := circshift_col (tco t) a in
  mk_trig (realvals (tre t) (coeffs2vals1 c)) c.
(** fun.py 574-579, np.roll *)
Definition proll (f : pfun) (a : R) : pfun := {| pa := pa f; pb := pb f; pt := tshift (pt f) a |}.

(** trig/operations.py 59-69 and 91-99: the shorter operand is prolonged, in place (fun.py 97-99) *)
Definition tmatch (f g : trig) : option (trig * trig) :=
  let nf := length (tco f) in let ng := length (tco g) in
  if Nat.ltb ng nf then match tprolong g nf with Some g' => Some (f, g') | None => None end
  else if Nat.ltb nf ng then match tprolong f ng with Some f' => Some (f', g) | None => None end
  else Some (f, g).
(** trig/operations.py 49-80, circconv: result and the operands afterwards *)
Definition tconv (f g : trig) : option (trig * trig * trig) :=
  match tmatch f g with
  | None => None
  | Some (f', g') =>
      let v := circconv_vals (tva f') (tva (tshift g' (-1))) in
      let c := vals2coeffs1 v in
      Some (mk_trig (realvals (tre f' && tre (tshift g' (-1))) v) c, f', g')
  end.
(** domains are compared with == (fun.py 491, 557) *)
Definition pdom_eqb (f g : pfun) : bool := andb (Reqb (pa f) (pa g)) (Reqb (pb f) (pb g)).
Definition phalf (f : pfun) : R := (/ 2 * (pb f - pa f))%R.
Definition pset (f : pfun) (t : trig) : pfun := {| pa := pa f; pb := pb f; pt := t |}.
(** fun.py 487-500, np.convolve; the product with the array of one entry is the product with the number (ufuncs.py 177-180) *)
Definition pconvolve (f g : pfun) : option (pfun * pfun * pfun) :=
  if pdom_eqb f g then
    match tconv (pt f) (pt g) with
    | None => None
    | Some (r, f', g') => Some (pset f (tmul_num r (RtoC (phalf f))), pset f f', pset g g')
    end
  else None.
(** trig/operations.py 82-108, trig_adhesion, and fun.py 503-519, adhesion: the domains are not compared *)
Definition padhesion (f g : pfun) : option (pfun * pfun * pfun) :=
  match tmatch (pt f) (pt g) with
  | None => None
  | Some (f', g') =>
      let c := mk (length (tco f')) (fun k => nth k (tco f') C0 * nth k (tco g') C0) in
      Some (pset f (mk_trig (realvals (tre f' && tre g') (coeffs2vals1 c)) c), pset f f', pset g g')
  end.
(** fun.py 538-542, np.sum, and trigtech.py 584-597: the real part for real functions *)
Definition psum (f : pfun) : C :=
  let s := tsum_col (tco (pt f)) in
  let s := if tre (pt f) then RtoC (Re s) else s in
  s * RtoC (phalf f).
(** fun.py 526-535, np.diff, and trigtech.py 566-581: the values are computed from the coefficients; the division is by an
    array with one entry, which is not checked to be away from zero (ufuncs.py 316-320) *)
Definition pdiff (f : pfun) (n : nat) : pfun :=
  let c := tdiff_col (tco (pt f)) n in
  let d := mk_trig (coeffs2vals1 c) c in
  let r := RtoC (phalf f ^ n) in
  pset f (mk_trig (map (fun v => v / r) (tva d)) (map (fun v => v / r) (tco d))).
(** fun.py 553-560, np.inner, and trigtech.py 667-690: the real part when both are flagged real *)
Definition pinner (f g : pfun) : option C :=
  if pdom_eqb f g then
    match tinner_col (tco (pt f)) (tco (pt g)) with
    | None => None
    | Some s => Some ((if andb (tre (pt f)) (tre (pt g)) then RtoC (Re s) else s) * RtoC (phalf f))
    end
  else None.
