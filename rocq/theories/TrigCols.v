(** Periodic functions with several columns: evaluation, addition and multiplication (trig/eval.py, trig/ufuncs.py).
    An object is the list of its columns; the columns of one object have the same length. *)
From Coq Require Import Reals ZArith List Arith Bool.
From Coquelicot Require Import Coquelicot.
From Verif Require Import Base ChebModel UconvModel TrigSpec TrigModel TrigModel2 TrigCons.
Import ListNotations.
Open Scope R_scope.
Open Scope C_scope.

(** trigtech.py, shape: number of coefficients; 248-249, isreal. *)
Definition nrow (fs : list trig) : nat := length (tco (hd {| tco := []; tva := []; tre := false |} fs)).
Definition allreal (fs : list trig) : bool := forallb tre fs.

(** eval.py 122-134, horner: one column or all flagged real: as for a single function; otherwise the complex recurrence, real part
    for the columns flagged real. *)
Definition tcols_eval (fs : list trig) (x : R) : list C :=
  if allreal fs || Nat.eqb (length fs) 1 then map (fun f => fst (tcall f x)) fs
  else map (fun f => if tre f then RtoC (Re (horner_cmplx (tco f) x)) else horner_cmplx (tco f) x) fs.
(** eval.py 62-120: what an evaluation leaves of the coefficients. *)
Definition tcols_after (fs : list trig) : list trig :=
  if allreal fs then map (fun f => snd (tcall f 0)) fs else fs.

(** ufuncs.py 89-119 (no out): the values to be added, columns of g repeated when g has one column (v += ov). *)
Definition add_values (f g : trig) : option (list C * list C) :=
  let nf := length (tco f) in let no := length (tco g) in
  if Nat.ltb no nf then match prolong2 (tco g) nf (tre g) with None => None | Some (_, ov) => Some (tva f, ov) end
  else if Nat.ltb nf no then match prolong2 (tco f) no (tre f) with None => None | Some (_, v) => Some (v, tva g) end
  else Some (tva f, tva g).
(** 125-131: sum, real part where both are flagged real. *)
Definition add_col (p : trig * trig) : option (list C) :=
  match add_values (fst p) (snd p) with
  | None => None
  | Some (v, ov) => Some (realvals (tre (fst p) && tre (snd p)) (ladd v ov))
  end.
(** numpy's broadcasting of v += ov into v: the columns of g for the columns of f, or nothing when the shapes do not fit. *)
Definition bcast (fs gs : list trig) : option (list trig) :=
  if Nat.eqb (length gs) (length fs) then Some gs
  else match gs with [g] => Some (repeat g (length fs)) | _ => None end.
(** ufuncs.py 40-157, add of two periodic functions.  The test for a zero result is made for all columns together. *)
Definition tadd_cols (fs gs : list trig) : option (list trig) :=
  match bcast fs gs with
  | None => None
  | Some gs' =>
      match map_option add_col (combine fs gs') with
      | None => None
      | Some V =>
          let A := map vals2coeffs1 V in
          if forallb allzero V || forallb allzero A then Some (repeat (mk_trig [C0] [C0]) (length fs))
          else Some (map (fun v => mk_trig v (vals2coeffs1 v)) V)
      end
  end.

(** trigtech.py 478-481, ==, for several columns. *)
Definition teqb_cols (fs gs : list trig) : bool := Nat.eqb (length fs) (length gs) && forallb (fun p => teqb (fst p) (snd p)) (combine fs gs).
(** np.conj(x1), trigtech.py 137-164. *)
Definition np_conj_cols (fs : list trig) : option (list trig) :=
  match tconstruct (mk (length fs) (fun i x => Cconj (nth i (tcols_eval fs x) C0))) teps with Some (_, hs) => Some hs | None => None end.
Definition conj_is_cols (fs gs : list trig) : bool := match np_conj_cols fs with Some hs => teqb_cols hs gs | None => false end.

(** ufuncs.py 185-198: multiplication of the columns by an array of the same shape, in place; only reached for constants here. *)
Definition scale_cols (fs gs : list trig) : list trig :=
  map (fun p => {| tco := map (fun a => a * nth 0 (tco (fst p)) C0) (tco (snd p)); tva := map (fun a => a * nth 0 (tco (fst p)) C0) (tva (snd p)); tre := tre (snd p) |}) (combine fs gs).

(** ufuncs.py 162-303, multiply of two periodic functions: the product and what has become of the two operands.
    A constant with one column is a number; with several, the shapes must agree and the other operand is multiplied in place.
    Otherwise the operand with one column is repeated, the second one in place; equal operands and operands that are np.conj of
    each other raise (C66); the simplification uses tolerance 1e-14 and one cutoff for all columns.  k is the number of evaluations
    of the first operand made in computing np.conj of it. *)
Definition tmul_cols (k : nat) (fs gs : list trig) : option (list trig * list trig * list trig) :=
  if Nat.eqb (nrow fs) 1 then
    match fs with
    | [f] => Some (map (fun g => tmul_num g (nth 0 (tco f) C0)) gs, fs, gs)
    | _ => if Nat.eqb (length fs) (length gs) && Nat.eqb (nrow gs) 1
           then let gs' := scale_cols fs gs in Some (map (fun t => mk_trig (tva t) (tco t)) gs', fs, gs') else None
    end
  else if Nat.eqb (nrow gs) 1 then
    match gs with
    | [g] => Some (map (fun f => tmul_num f (nth 0 (tco g) C0)) fs, fs, gs)
    | _ => None
    end
  else
    match (if Nat.eqb (length fs) (length gs) then Some (fs, gs)
           else match fs, gs with
                | [f], _ => Some (repeat f (length gs), gs)
                | _, [g] => Some (fs, repeat g (length fs))
                | _, _ => None
                end) with
    | None => None
    | Some (fs', gs') =>
        if teqb_cols fs gs' || conj_is_cols fs gs' then None else
        match map_option (fun p => tmul_col (tco (fst p)) (tco (snd p))) (combine fs' gs') with
        | None => None
        | Some H =>
            match tsimplify_cols H (/ 10 ^ 14) with
            | None => None
            | Some B => Some (map (fun c => mk_trig (realvals (allreal fs && allreal gs) (coeffs2vals1 c)) c) B, Nat.iter k tcols_after fs, gs')
            end
        end
    end.
