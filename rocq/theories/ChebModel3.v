(** Model of the rest of funpy/cheb/pts.py and of diff.py's diffmat. *)
From Coq Require Import Reals ZArith List Arith Bool.
From Verif Require Import Base ChebModel.
Import ListNotations.
Open Scope R_scope.

(** cheb/pts.py 11-16, bary_weights: ones and a final 1/2; the entries
    N-2, N-4, ... become -1; the first is halved. *)
Definition bary_weights (N : nat) : list R :=
  let c := repeat 1 (N - 1) ++ [/ 2] in
  let c := mk (length c) (fun i =>
    if Nat.leb (i + 2) (length c) && Nat.even (length c - 2 - i) then -1 else nth i c 0) in
  upd c 0 (nth 0 c 0 * / 2).

(** cheb/pts.py 36-43, scaleNodes. *)
Definition scaleNodes (x : list R) (a b : R) : list R :=
  if Reqb a (-1) && Reqb b 1 then x
  else map (fun t => / 2 * b * (1 + t) + / 2 * a * (1 - t)) x.

(** cheb/pts.py 47-54, scaleWeights. *)
Definition scaleWeights (w : list R) (a b : R) : list R :=
  if Reqb a (-1) && Reqb b 1 then w else map (fun t => / 2 * (b - a) * t) w.

(** cheb/pts.py 79-85, chebpts_type1_compute. *)
Definition chebpts_type1_compute (N : nat) : list R :=
  match N with
  | O => []
  | S O => [0]
  | _ => mk N (fun j => sin (PI * (2 * INR j - INR (N - 1)) / (2 * INR N)))
  end.

(** cheb/pts.py 99-129 and 133-163, the points and quadrature weights of the
    first and second kind on [a,b], N >= 2 (both use the same [quadwts]). *)
Definition chebpts2 (N : nat) (a b : R) : option (list R * list R) :=
  match quadwts N with
  | None => None
  | Some w => Some (scaleNodes (chebpts_type2_compute N) a b, scaleWeights w a b)
  end.
Definition chebpts1 (N : nat) (a b : R) : option (list R * list R) :=
  match quadwts N with
  | None => None
  | Some w => Some (scaleNodes (chebpts_type1_compute N) a b, scaleWeights w a b)
  end.

(** IEEE results of a division: a number, a signed infinity or not-a-number. *)
Inductive xreal := Fin (r : R) | PInf | NInf | NaN.
(** a / b for finite a, b; b = 0 is the positive zero produced by y - x with y = x. *)
Definition xdiv0 (a b : R) : xreal :=
  if Reqb b 0 then (if Reqb a 0 then NaN else if Rltb 0 a then PInf else NInf) else Fin (a / b).
Definition xadd (a b : xreal) : xreal :=
  match a, b with
  | NaN, _ | _, NaN => NaN
  | PInf, NInf | NInf, PInf => NaN
  | PInf, _ | _, PInf => PInf
  | NInf, _ | _, NInf => NInf
  | Fin r, Fin s => Fin (r + s)
  end.
Definition xsum (l : list xreal) : xreal := fold_left xadd l (Fin 0).
Definition xdiv (a b : xreal) : xreal :=
  match a, b with
  | NaN, _ | _, NaN => NaN
  | Fin r, Fin s => xdiv0 r s
  | Fin _, (PInf | NInf) => Fin 0
  | (PInf | NInf), (PInf | NInf) => NaN
  | PInf, Fin s => if Rleb 0 s then PInf else NInf
  | NInf, Fin s => if Rleb 0 s then NInf else PInf
  end.
Definition nan_to_one (a : xreal) : xreal := match a with NaN => Fin 1 | _ => a end.

(** cheb/pts.py 58-67, barymat_impl: the row of the matrix for one point y. *)
Definition bary_row (y : R) (x w : list R) : list xreal :=
  let P := map (fun '(xk, wk) => xdiv0 wk (y - xk)) (combine x w) in
  let s := xsum P in
  map (fun p => nan_to_one (xdiv p s)) P.
Definition barymat (y x w : list R) : list (list xreal) := map (fun t => bary_row t x w) y.

(** Matrices for diffmat, as functions of the two indices below N. *)
Definition mat := nat -> nat -> R.

(** cheb/diff.py 52-60: differences with the flipping trick for i + j >= N,
    unit diagonal; [nth _ x 0] reads x. *)
Definition dm_Dx (x : list R) : mat := fun i j =>
  let N := length x in
  if Nat.eqb i j then 1
  else if Nat.leb N (i + j) then - (nth (N - 1 - i) x 0 - nth (N - 1 - j) x 0)
  else nth i x 0 - nth j x 0.
Definition dm_Dxi (x : list R) : mat := fun i j => 1 / dm_Dx x i j.
(** cheb/diff.py 62-65. *)
Definition dm_Dw (w : list R) : mat := fun i j => if Nat.eqb i j then 0 else nth j w 0 / nth i w 0.
(** the pair of fill_diagonal calls ("negative sum trick"), 71-72. *)
Definition neg_sum (N : nat) (D : mat) : mat := fun i j =>
  if Nat.eqb i j then - rsum N (fun k => if Nat.eqb i k then 0 else D i k) else D i j.
(** cheb/diff.py 85-88: the loop for n = 3 .. k. *)
Fixpoint dm_loop (steps n : nat) (N : nat) (Dxi Dw D : mat) : mat :=
  match steps with
  | O => D
  | S s => dm_loop s (S n) N Dxi Dw
             (neg_sum N (fun i j => INR n * Dxi i j * (Dw i j * D i i - D i j)))
  end.
(** cheb/diff.py 28-90, diffmat for N >= 2 (N = 0 returns None, N = 1 a 0x0 matrix). *)
Definition diffmat (x : list R) (k : nat) : mat :=
  let N := length x in
  let w := bary_weights N in
  match k with
  | O => fun i j => if Nat.eqb i j then 1 else 0
  | S k' =>
    let Dxi := dm_Dxi x in
    let Dw := dm_Dw w in
    let D := neg_sum N (fun i j => Dw i j * Dxi i j) in
    match k' with
    | O => D
    | S k'' =>
      let D := neg_sum N (fun i j => 2 * D i j * (D i i - Dxi i j)) in
      dm_loop k'' 3 N Dxi Dw D
    end
  end.
