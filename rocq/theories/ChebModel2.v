(** Model of funpy/cheb, second part: restrict and construction from a callable
    (chebtech.py restrict, populate, __init__; refine.py). *)
From Coq Require Import Reals ZArith List Arith Bool.
From Verif Require Import Base ChebModel.
Import ListNotations.
Open Scope R_scope.

(** chebtech.py 298-326, restrict.  A list of breakpoints of length two is the
    only one that can succeed: with more, [values[:, index]] addresses columns
    that do not exist (m > 1) or [polyfit] receives a one-dimensional array
    (m = 1, because [feval] squeezes); with fewer, s[1] raises.  For a length-one
    function [self.x] is the Python list [0] and [1 - self.x] raises. *)
Definition restrict (f : chebtech) (s : list R) : option chebtech :=
  match s with
  | [a; b] =>
    if Rltb a (-1) || Rltb 1 b || Rleb b a then None
    else if Reqb a (-1) && Reqb b 1 then Some f
    else if Nat.eqb (nrows (coeffs f)) 1 then None
    else if Nat.eqb (length (coeffs f)) 1 then None
    else
      let y := map (fun x => / 2 * ((1 - x) * a + (1 + x) * b))
                   (chebpts_type2_compute (nrows (coeffs f))) in
      cheb_init (polyfit (feval f y)) (eps f) (hscale f) (maxLength f) (ishappy f) false
  | _ => None
  end.

(** refine.py 73-83, __resample: the values of the (vectorised) callable at the
    n Chebyshev points, one column per component function. *)
Definition sample (ops : list (R -> R)) (n : nat) : arr :=
  map (fun op => map op (chebpts_type2_compute n)) ops.

(** refine.py 86-113, __nested: new grid of 2n-1 points; old values to the even
    places, the callable is evaluated at x[1:-1:2] only and fills the odd places. *)
Definition nested_col (op : R -> R) (v : list R) : list R :=
  let n := (2 * length v - 1)%nat in
  let x := chebpts_type2_compute n in
  let xodd := mk (length v - 1) (fun i => nth (2 * i + 1) x 0) in
  let nv := map op xodd in
  mk n (fun i => if Nat.even i then nth (i / 2) v 0 else nth ((i - 1) / 2) nv 0).
Definition nested_values (ops : list (R -> R)) (vals : arr) : arr :=
  map (fun '(op, v) => nested_col op v) (combine ops vals).

(** chebtech.py 267-282, populate, after the first sample: fit, check happiness,
    keep cutoff+1 coefficients (cutoff already incremented by [happy]), or refine;
    give up when the next grid would exceed maxLength.  [None] on exhausted fuel. *)
Fixpoint populate (fuel : nat) (ops : list (R -> R)) (vals : arr) (e h : R) (ml : Z) : option (arr * bool) :=
  let c := polyfit vals in
  match happy c e h with
  | None => None
  | Some (true, cut) => Some (prolong c (Z.of_nat (cut + 1)), true)
  | Some (false, _) =>
    let n := (2 * nrows vals - 1)%nat in
    if (ml <? Z.of_nat n)%Z then Some (polyfit vals, false)
    else match fuel with
         | O => None
         | S fuel' => populate fuel' ops (nested_values ops vals) e h ml
         end
  end.

(** refine.py 28 and 37-58 (get_n on an empty target) with chebtech.py 55:
    2^ceil(log2(minSamples-1)) + 1 points. *)
Definition initial_n (ml ms : Z) : Z :=
  let m := Z.max 9 (Z.min ml ms) in (2 ^ Z.log2_up (m - 1) + 1)%Z.

(** chebtech.py 27-67, __init__ with a callable (list of component functions).
    If the first grid already exceeds maxLength, [self.values] (an empty array,
    never None) is returned with giveUp and construction fails on an empty array. *)
Definition construct (ops : list (R -> R)) (e h : R) (ml ms : Z) : option chebtech :=
  match ops with
  | [] => None
  | _ =>
    let n0 := initial_n ml ms in
    if (ml <? n0)%Z then None else
    match populate (Z.to_nat ml) ops (sample ops (Z.to_nat n0)) e h ml with
    | None => None
    | Some (c, hp) => cheb_init c e h ml hp true
    end
  end.
