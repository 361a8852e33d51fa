(** funpy/cheb/chebtech.py 433-439, compose(f, op) and compose(f, op, g), with
    the resamplers of funpy/cheb/refine.py 116-214 (RefineCompose1/2).
    The arguments f (and g) are a list [Fs] of coefficient arrays with the same
    number of columns (numpy broadcasting of different column counts is left
    out); op acts entrywise, [u] on the list of values of the arguments.
    f.prolong (chebtech.py 328-332) assigns to f: the arrays are returned. *)
From Coq Require Import Reals ZArith List Arith Bool.
From Verif Require Import Base ChebModel ChebModel2.
Import ListNotations.
Open Scope R_scope.

Definition argvals (Fs : list arr) (j i : nat) : list R := map (fun F => nth i (nth j (polyval F) []) 0) Fs.
(** refine.py 122-134, 171-184: f.prolong(n); op(polyval(f.coeffs)) *)
Definition cresample (u : list R -> R) (Fs : list arr) (n : nat) : arr * list arr :=
  let Fs' := map (fun F => prolong F (Z.of_nat n)) Fs in
  (mk (length (hd [] Fs)) (fun j => mk n (fun i => u (argvals Fs' j i))), Fs').
(** refine.py 136-161, 186-214: old values at the even places, op of the odd
    rows of the values of the prolonged arguments at the odd ones *)
Definition cnested (u : list R -> R) (Fs : list arr) (vals : arr) : arr * list arr :=
  let n := (2 * nrows vals - 1)%nat in
  let Fs' := map (fun F => prolong F (Z.of_nat n)) Fs in
  (mk (length (hd [] Fs)) (fun j => mk n (fun i =>
     if Nat.even i then nth (i / 2) (nth j vals []) 0 else u (argvals Fs' j i))), Fs').
(** chebtech.py 267-282, populate with these resamplers (cf. ChebModel2.populate) *)
Fixpoint cpopulate (fuel : nat) (u : list R -> R) (Fs : list arr) (vals : arr) (e h : R) (ml : Z) : option (arr * bool * list arr) :=
  let c := polyfit vals in
  match happy c e h with
  | None => None
  | Some (true, cut) => Some (prolong c (Z.of_nat (cut + 1)), true, Fs)
  | Some (false, _) =>
    let n := (2 * nrows vals - 1)%nat in
    if (ml <? Z.of_nat n)%Z then Some (polyfit vals, false, Fs)
    else match fuel with
         | O => None
         | S fuel' => let '(vals', Fs') := cnested u Fs vals in cpopulate fuel' u Fs' vals' e h ml
         end
  end.
(** chebtech(op=resampler): default eps, hscale, maxLength; get_n (refine.py
    37-58) with minSamples = 9 starts with 9 points *)
Definition cheb_compose (u : list R -> R) (Fs : list arr) : option (chebtech * list arr) :=
  let '(vals, Fs1) := cresample u Fs (Z.to_nat (initial_n maxLength_default 9)) in
  match cpopulate (Z.to_nat maxLength_default) u Fs1 vals eps_default 1 maxLength_default with
  | None => None
  | Some (c, hp, Fs2) => option_map (fun r => (r, Fs2)) (cheb_init c eps_default 1 maxLength_default hp true)
  end.
