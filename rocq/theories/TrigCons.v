(** Model of the adaptive construction of a periodic function from callables:
    trig/trigtech.py 29-106 (constructor), 237-245, 250-262, 312-410 and
    trig/refine.py 13-102 (strategy 'nested', the default).

    The callables are functions of the reference variable in [-1,1]
    (fun.py 44-53 composes them with the map of the domain).  Floating point
    numbers are reals; sample values are assumed finite (trigtech.py 360-361
    raises otherwise).  [None] is an exception. *)
From Coq Require Import Reals ZArith List Arith Bool.
From Coquelicot Require Import Coquelicot.
From Verif Require Import Base ChebModel UconvModel TrigSpec TrigModel TrigModel2.
Import ListNotations.
Open Scope R_scope.
Open Scope C_scope.

(** trigtech.py 31: self.maxLength = 4096 (the keyword is not read). *)
Definition tmaxlen : Z := 4096.

(** trigtech.py 358-359: the point at which the callables are tried. *)
Definition tx0 : R := (2 * (376989633393435 / 10 ^ 15) - 1)%R.

(** trigtech.py 363-370: isReal from the value at that one point. *)
Definition isreal0 (op : R -> C) : bool := Reqb (Im (op tx0)) 0.

(** trigtech.py 334-352, the loop of happy(): chop the column as stored (lowest
    frequency first), halve the cutoff, stop at the first unhappy column.  The
    reordered moduli of lines 313-325 are computed and not used. *)
Definition half_cut (k : nat) : nat := if Nat.even k then (k / 2)%nat else ((k - 1) / 2)%nat.
Fixpoint thappy (A : carr) (e : R) (acc : nat) : option (bool * nat) :=
  match A with
  | [] => Some (true, (2 * acc + 1)%nat)
  | c :: t =>
      match standardChop (map Cmod c) e with
      | None => None
      | Some k => if Nat.ltb k (length c) then thappy t e (Nat.max acc (half_cut k)) else Some (false, acc)
      end
  end.

(** refine.py 79-102 (__nested, via 61-76 for the first grid of
    2^ceil(log2(9-1)) = 8 points): the next samples, None = giveUp. *)
Definition trefine (ops : list (R -> C)) (V : carr) : option carr :=
  if Nat.eqb (crows V) 0 then Some (map (fun op => trig_resample op 8) ops)
  else if Z.ltb tmaxlen (2 * Z.of_nat (crows V)) then None
  else Some (map (fun p => trig_nested (fst p) (snd p)) (combine ops V)).

(** trigtech.py 373-399, populate.  State: samples V, coefficients A, vscale. *)
Fixpoint tpopulate (fuel : nat) (ops : list (R -> C)) (V A : carr) (vs e : R) : option (bool * carr * carr * R) :=
  match fuel with
  | O => None
  | S fuel' =>
      match trefine ops V with
      | None => Some (false, V, A, vs)
      | Some V' =>
          let A' := vals2coeffs V' in
          let vs' := Rmax vs (maxmod (concat V')) in
          match thappy A' e 0 with
          | None => None
          | Some (true, N) =>
              match map_option (fun c => prolong_col c N) A' with
              | None => None
              | Some B => Some (true, coeffs2vals B, B, vs')
              end
          | Some (false, _) => tpopulate fuel' ops V' A' vs' e
          end
      end
  end.

(** trig_simplify.py 57-109 for several columns: one cutoff for all of them. *)
Fixpoint chops_max (A : carr) (tol : R) (acc : nat) : option nat :=
  match A with
  | [] => Some acc
  | d :: t => match standardChop (fold_abs d) tol with
              | None => None
              | Some k => chops_max t tol (Nat.max acc k)
              end
  end.
Definition tslice (d : list C) (cut : nat) : list C :=
  let e := if Nat.even (length d) then (RtoC (/ 2) * nth 0 d C0) :: tl d ++ [RtoC (/ 2) * nth (length d - 1) d C0] else d in
  let mid := ((length e + 1) / 2)%nat in
  firstn (2 * cut - 1) (skipn (mid - cut) e).
Definition tsimplify_cols (A : carr) (tol : R) : option carr :=
  let nold := crows A in
  match map_option (fun c => prolong_fun_col c (simp_len nold)) A with
  | None => None
  | Some D =>
      match chops_max D tol 1 with
      | None => None
      | Some k => Some (map (fun d => tslice d (simp_cutoff (Nat.min k nold))) D)
      end
  end.

(** trigtech.py 254-255, get_isreal(vscale). *)
Definition isreal_vs (e vs : R) (v c : list C) : bool :=
  forallb (fun a => Rleb (Rabs (Im a)) (3 * e * Rmax vs (tvscale c))) v.

Fixpoint zip3 {A B D E} (f : A -> B -> D -> E) (a : list A) (b : list B) (d : list D) : list E :=
  match a, b, d with
  | x :: a', y :: b', z :: d' => f x y z :: zip3 f a' b' d'
  | _, _, _ => []
  end.

(** trigtech.py 29-78: op is a list of callables.  The eleven rounds are those of
    the grids 8, 16, ..., 4096 and the one that gives up. *)
Definition tconstruct (ops : list (R -> C)) (e : R) : option (bool * list trig) :=
  match tpopulate 11 ops [] [] e e with
  | None => None
  | Some (h, V, A, vs) =>
      let V1 := map (fun p => realvals (isreal0 (fst p)) (snd p)) (combine ops V) in
      let re := map (fun p => isreal_vs e vs (fst p) (snd p)) (combine V1 A) in
      if h then
        match tsimplify_cols A e with
        | None => None
        | Some B => Some (true, zip3 (fun c v b => {| tco := c; tva := v; tre := b |}) B (coeffs2vals B) re)
        end
      else Some (false, zip3 (fun c v b => {| tco := c; tva := v; tre := b |}) A V1 re)
  end.
