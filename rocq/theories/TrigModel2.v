(** Model of funpy/trig, continued: the object with its real flag, arithmetic,
    simplification, anti-derivative.  One column; several columns are treated
    independently by the code except where noted. *)
From Coq Require Import Reals ZArith List Arith Bool.
From Coquelicot Require Import Coquelicot.
From Verif Require Import Base ChebModel TrigSpec TrigModel.
Import ListNotations.
Open Scope R_scope.
Open Scope C_scope.

(** trigtech.py 28-101: coefficients, values and the flag isReal; eps = 1e-10
    as by default. *)
Record trig := { tco : list C; tva : list C; tre : bool }.
Definition teps : R := (/ 10 ^ 10)%R.
Definition maxmod (l : list C) : R := fold_right (fun a m => Rmax (Cmod a) m) 0%R l.
(** trigtech.py 255-265, get_vscale *)
Definition tvscale (c : list C) : R := maxmod (coeffs2vals1 c).
(** trigtech.py 252-253, get_isreal with vscl = max(self.vscale, get_vscale()),
    self.vscale = eps *)
Definition isrealb (v c : list C) : bool :=
  forallb (fun a => Rleb (Rabs (Im a)) (3 * teps * Rmax teps (tvscale c))) v.
Definition realvals (b : bool) (v : list C) : list C := if b then map (fun a => RtoC (Re a)) v else v.
(** trigtech.py 76-99: from values and coefficients, from coefficients, from
    values *)
Definition mk_trig (v c : list C) : trig :=
  let b := isrealb v c in {| tco := c; tva := realvals b v; tre := b |}.
Definition trig_of_coeffs (c : list C) : trig := mk_trig (coeffs2vals1 c) c.
Definition trig_of_values (v : list C) : trig := mk_trig v (vals2coeffs1 v).

(** trigtech.py 404-412, __call__ = horner (eval.py 124-134): the value and
    the object afterwards. *)
Definition tcall (t : trig) (x : R) : C * trig :=
  if tre t then (RtoC (horner_real (tco t) x), {| tco := touch (tco t); tva := tva t; tre := tre t |})
  else (horner_cmplx (tco t) x, t).

(** trigtech.py 270-310, prolong *)
Definition tprolong (t : trig) (N : nat) : option trig :=
  if Nat.eqb N (length (tco t)) then Some t else
  match prolong_col (tco t) N with
  | None => None
  | Some d => Some {| tco := d; tva := realvals (tre t) (coeffs2vals1 d); tre := tre t |}
  end.
(** trig_simplify.py 13-54, prolong, with values *)
Definition prolong2 (c : list C) (N : nat) (b : bool) : option (list C * list C) :=
  match prolong_fun_col c N with
  | None => None
  | Some d => Some (d, realvals b (coeffs2vals1 d))
  end.

(** ufuncs.py 15-21, negative *)
Definition tneg (t : trig) : trig := mk_trig (map (fun a => RtoC (-1) * a) (tva t)) (map (fun a => RtoC (-1) * a) (tco t)).
Definition allzero (l : list C) : bool := forallb (fun a => Reqb (Re a) 0 && Reqb (Im a) 0) l.
Definition ladd (u v : list C) : list C := map (fun p => fst p + snd p) (combine u v).
(** ufuncs.py 86-152, add of two trigtechs (no output argument) *)
Definition tadd (f g : trig) : option trig :=
  let nf := length (tco f) in let no := length (tco g) in
  match (if Nat.ltb no nf then
           match prolong2 (tco g) nf (tre g) with None => None | Some (_, ov) => Some (tva f, ov) end
         else if Nat.ltb nf no then
           match prolong2 (tco f) no (tre f) with None => None | Some (_, v) => Some (v, tva g) end
         else Some (tva f, tva g)) with
  | None => None
  | Some (v, ov) =>
      let v := realvals (tre f && tre g) (ladd v ov) in
      let c := vals2coeffs1 v in
      if allzero v || allzero c then Some (mk_trig [C0] [C0]) else Some (mk_trig v c)
  end.
(** ufuncs.py 154-155, subtract *)
Definition tsub (f g : trig) : option trig := tadd f (tneg g).
(** ufuncs.py 47-84, add of a number *)
Definition tadd_num (f : trig) (a : C) : trig :=
  let n := length (tco f) in
  let i := if Nat.odd n then ((n + 1) / 2 - 1)%nat else (n / 2)%nat in
  mk_trig (map (fun v => v + a) (tva f)) (mk n (fun k => if Nat.eqb k i then nth k (tco f) C0 + a else nth k (tco f) C0)).
(** ufuncs.py 163-181, multiply by a number *)
Definition tmul_num (f : trig) (a : C) : trig := mk_trig (map (fun v => v * a) (tva f)) (map (fun v => v * a) (tco f)).
(** ufuncs.py 311-332, f / number: rejected below 1e-16 *)
Definition tdiv_num (f : trig) (a : C) : option trig :=
  if Rltb (Cmod a) (/ 10 ^ 16) then None else Some (mk_trig (map (fun v => v / a) (tva f)) (map (fun v => v / a) (tco f))).
(** ufuncs.py 308-310, number / f: the arguments are exchanged *)
Definition tnum_div (a : C) (f : trig) : option trig := tdiv_num f a.
(** ufuncs.py 31-37, f ** k: the function that is sampled, k a natural number;
    number ** f: the arguments are exchanged *)
Definition tpow_samples (f : trig) (k : nat) (x : R) : C := cpow (fst (tcall f x)) k.
Definition tnum_pow_samples (k : nat) (f : trig) (x : R) : C := tpow_samples f k x.

(** trig_simplify.py 57-109, simplify_coeffs of one column (several columns
    share the largest cutoff).  Python's round is half-to-even;
    standardChopCmplx on non-negative reals is standardChop. *)
Definition round_q (n : nat) : nat :=
  let q := ((5 * n + 20) / 4)%nat in
  let r := ((5 * n + 20) mod 4)%nat in
  if Nat.ltb r 2 then q else if Nat.eqb r 2 then (if Nat.even q then q else S q) else S q.
Definition simp_len (nold : nat) : nat := Nat.max 17 (round_q nold).
(** lines 66-87: moduli of the reversed coefficients, opposite frequencies
    added, every entry but the first repeated *)
Definition fold_abs (c : list C) : list R :=
  let n := length c in
  let a := fun k => nth k (vals2coeffs1 (coeffs2vals1 (map (fun z => RtoC (Cmod z)) (rev c)))) C0 in
  let l := if Nat.even n then a (n - 1)%nat :: mk (n / 2 - 1) (fun k => a (n - 2 - k)%nat + a k) ++ [a (n / 2 - 1)%nat]
           else mk ((n + 1) / 2 - 1) (fun k => a (n - 1 - k)%nat + a k) ++ [a ((n + 1) / 2 - 1)%nat] in
  let l := rev l in
  map Cmod (hd C0 l :: flat_map (fun z => [z; z]) (tl l)).
Definition simp_cutoff (k : nat) : nat := if Nat.even k then (k / 2 + 1)%nat else ((k - 1) / 2 + 1)%nat.
Definition tsimplify_col (c : list C) (tol : R) : option (list C) :=
  let nold := length c in
  match prolong_fun_col c (simp_len nold) with
  | None => None
  | Some d =>
    match standardChop (fold_abs d) tol with
    | None => None
    | Some k =>
      let cut := simp_cutoff (Nat.min (Nat.max 1 k) nold) in
      let e := if Nat.even (length d) then (RtoC (/ 2) * nth 0 d C0) :: tl d ++ [RtoC (/ 2) * nth (length d - 1) d C0] else d in
      let mid := ((length e + 1) / 2)%nat in
      Some (firstn (2 * cut - 1) (skipn (mid - cut) e))
    end
  end.

(** ufuncs.py 200-293, product of two trigtechs: rejected when equal (x1 == x2
    is tested first, then the array x1.isreal is called), a constant factor
    is a number, otherwise multiply on fn + gn - 1 points and simplify with
    tolerance 1e-14.  The test np.conj(x1) == x2 is left
    out here; TrigUfunc.tprod is the whole product. *)
Definition ceqb (a b : C) : bool := Reqb (Re a) (Re b) && Reqb (Im a) (Im b).
Definition leqb (u v : list C) : bool := Nat.eqb (length u) (length v) && forallb (fun p => ceqb (fst p) (snd p)) (combine u v).
Definition teqb (f g : trig) : bool := leqb (tco f) (tco g) && leqb (tva f) (tva g).
Definition tmul (f g : trig) : option trig :=
  if Nat.eqb (length (tco f)) 1 then Some (tmul_num g (nth 0 (tco f) C0))
  else if Nat.eqb (length (tco g)) 1 then Some (tmul_num f (nth 0 (tco g) C0))
  else if teqb f g then None
  else match tmul_col (tco f) (tco g) with
       | None => None
       | Some h => match tsimplify_col h (/ 10 ^ 14) with
                   | None => None
                   | Some c => Some (mk_trig (realvals (tre f && tre g) (coeffs2vals1 c)) c)
                   end
       end.

(** trigtech.py 507-527, real; 530-548, imag; 551-563, conj (the function of
    that name; numpy.conj is a ufunc and samples instead) *)
Definition treal_part (f : trig) : trig :=
  if tre f then f else
  let v := map (fun a => RtoC (Re a)) (tva f) in
  if forallb (fun a => Rltb (Re a) teps) v then mk_trig (repeat C0 (length (tva f))) (repeat C0 (length (tco f)))
  else mk_trig v (vals2coeffs1 v).
Definition timag_part (f : trig) : trig :=
  if tre f then mk_trig (repeat C0 (length (tva f))) (repeat C0 (length (tco f)))
  else let v := map (fun a => RtoC (Im a)) (tva f) in mk_trig v (vals2coeffs1 v).
Definition tconj (f : trig) : trig := if negb (tre f) then f else mk_trig (tva f) (tco f).

Fixpoint upd {A} (l : list A) (i : nat) (a : A) : list A :=
  match l, i with
  | [], _ => []
  | _ :: t, O => a :: t
  | b :: t, S j => b :: upd t j a
  end.
(** trigtech.py 599-685, cumsum of order m of one column; [thr] is
    1e1 * f.vscale * f.eps.  Returns the coefficients of the result and those
    of f afterwards (c is f.coeffs itself, lines 633-634 and 648-656). *)
Definition tcumsum_col (c : list C) (thr : R) (m : nat) : option (list C * list C) :=
  let n := length c in
  let ev := Nat.even n in
  let ind := if ev then (n / 2)%nat else ((n + 1) / 2 - 1)%nat in
  if Nat.eqb n 0 then None else
  if Rltb thr (Cmod (nth ind c C0)) then None else
  let z := if ev then (n / 2)%nat else ((n + 1) / 2)%nat in
  if Nat.leb n z then None else
  let f' := if ev then upd (upd c z C0) 0 (RtoC (/ 2) * nth 0 (upd c z C0) C0) else upd c z C0 in
  let e := if ev then f' ++ [nth 0 f' C0] else f' in
  let h := if ev then (n / 2)%nat else ((n - 1) / 2)%nat in
  let fac := fun k => if Nat.eqb k h then C0 else cpow ((- Ci) / RtoC (IZR (Z.of_nat k - Z.of_nat h)) / RtoC PI) m in
  let e := mk (2 * h + 1) (fun k => nth k e C0 * fac k) in
  let e := if andb (Nat.odd m) ev then upd (upd e 0 C0) n C0 else e in
  let s := - csum (2 * h + 1) (fun k => nth k e C0 * (if Z.even (Z.of_nat k - Z.of_nat h) then RtoC 1 else RtoC (-1))) in
  let e := upd e (h + 1) s in
  Some (if ev then removelast e else e, f').

(** refine.py 50-102, Refine: resample on n points (the two end values are
    averaged), then nested refinement, which samples only the new points. *)
Definition trig_resample (op : R -> C) (n : nat) : list C :=
  mk n (fun j => if Nat.eqb j 0 then RtoC (/ 2) * (op (gridpt n 0) + op 1%R) else op (gridpt n j)).
Definition trig_nested (op : R -> C) (v : list C) : list C :=
  let n := (2 * length v)%nat in
  mk n (fun j => if Nat.even j then nth (j / 2) v C0 else op (gridpt n j)).
