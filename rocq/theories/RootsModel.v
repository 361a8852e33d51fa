(** Model of root finding (cheb/detail.pyx 446-637) and of extrema (cheb/minmax.py,
    chebtech.minandmax).  One column; exact real arithmetic; [eigs N A B] is
    scipy.linalg.eigvals(A, b=B) for N x N matrices: a list of complex numbers.
    None: the call raises (or the fuel is used up). *)
From Coq Require Import Reals ZArith List Arith Bool.
From Coquelicot Require Import Coquelicot.
From Verif Require Import Base ChebSpec ChebModel.
Import ListNotations.
Open Scope R_scope.

(** detail.pyx 43-46, chebptsAB *)
Definition chebptsAB (n : nat) (a b : R) : list R :=
  map (fun x => / 2 * (b * (x + 1) + a * (1 - x))) (chebpts_type2_compute n).

(** detail.pyx 526-537: the colleague pencil of c (length n >= 3), matrices of size n-1.
    c /= norm(c, inf); B = eye, B[0,0] = c[-1]; c = -0.5 c[:-1]; c[-2] += 0.5 B[0,0];
    A tridiagonal (spdiags drops the last superdiagonal entry, then A[-2,-1] = 1);
    A[:,0] = flipud(c). *)
Definition cscaled (c : list R) : list R := map (fun x => x / fmax_abs c) c.
Definition coll_a (c : list R) (k : nat) : R :=
  let n := length c in let cs := cscaled c in
  - / 2 * nth k cs 0 + (if Nat.eqb k (n - 3) then / 2 * nth (n - 1) cs 0 else 0).
Definition collA (c : list R) (i j : nat) : R :=
  let n := length c in
  if Nat.eqb j 0 then coll_a c (n - 2 - i)
  else if Nat.eqb i (n - 3) && Nat.eqb j (n - 2) then 1
  else if Nat.eqb j (i + 1) && Nat.ltb j (n - 2) then / 2
  else if Nat.eqb i (j + 1) then / 2 else 0.
Definition collB (c : list R) (i j : nat) : R :=
  if Nat.eqb i j then (if Nat.eqb i 0 then nth (length c - 1) (cscaled c) 0 else 1) else 0.

(** detail.pyx 542-550: drop complex values, sort, keep |r| <= 1 + htol, clip first and last *)
Fixpoint insertR (a : R) (l : list R) : list R :=
  match l with [] => [a] | b :: t => if Rleb a b then a :: l else b :: insertR a t end.
Definition sortR (l : list R) : list R := fold_right insertR [] l.
Definition clip (l : list R) : list R :=
  match l with
  | [] => []
  | a :: t => let r := Rmax a (-1) :: t in removelast r ++ [Rmin (last r 0) 1]
  end.
Definition clean (htol : R) (E : list C) : list R :=
  clip (sortR (filter (fun x => Rleb (Rabs x) (1 + htol)) (map Re (filter (fun z => Rltb (Rabs (Im z)) htol) E)))).

(** detail.pyx 450-491, fft_weights: column i of TLeft is the Chebyshev coefficients of T_i at
    the 513 points of the left part (the FFT of the even extension is written as polyfit,
    which is the same sum), upper triangle only. *)
Definition t_weights (a b : R) (k i : nat) : R :=
  if Nat.leb k i then nth k (polyfit1 (map (T i) (chebptsAB 513 a b))) 0 else 0.
Definition tw_apply (a b : R) (c : list R) : list R :=
  mk (length c) (fun k => rsum (length c) (fun i => t_weights a b k i * nth i c 0)).
(** detail.pyx 586-595: split with Clenshaw *)
Definition cl_apply (a b : R) (c : list R) : list R := polyfit1 (map (clenshaw_pt c) (chebptsAB (length c) a b)).

(** detail.pyx 494-606, roots_main with all_roots=False, prune_roots=False *)
Definition norm1 (c : list R) : R := rsum (length c) (fun k => Rabs (nth k c 0)).
Definition last_above (tail : R) (c : list R) : option nat :=
  fold_left (fun best k => if Rltb tail (Rabs (nth k c 0)) then Some k else best) (seq 0 (length c)) None.
Definition splitPoint : R := - (4849834917525 / 10 ^ 15).
Definition eps0 : R := 148 / 10 ^ 10.
Section roots.
  Context (eigs : nat -> (nat -> nat -> R) -> (nat -> nat -> R) -> list C).
  Definition trunc_len (eps : R) (c : list R) : option nat :=
    if Nat.ltb 1 (length c) then option_map S (last_above (5 * eps * norm1 c) c) else Some (length c).
  Definition trunc_c (n : nat) (c : list R) : list R := if Nat.ltb 1 n && Nat.ltb n (length c) then firstn n c else c.
  Definition map_left (s y : R) : R := (s - 1) / 2 + (s + 1) / 2 * y.
  Definition map_right (s y : R) : R := (s + 1) / 2 + (1 - s) / 2 * y.
  Fixpoint roots_main (fuel : nat) (htol eps : R) (c : list R) : option (list R) :=
    match fuel with
    | O => None
    | S fuel =>
      match trunc_len eps c with
      | None => None                                                   (* np.max of an empty array *)
      | Some n =>
        let c := trunc_c n c in
        if Nat.eqb n 0 then Some [0]
        else if Nat.eqb n 1 then (if Reqb (nth 0 c 0) 0 then Some [0] else Some [])
        else if Nat.eqb n 2 then Some [- nth 0 c 0 / nth 1 c 0]
        else if Nat.leb n 50 then Some (clean htol (eigs (n - 1)%nat (collA c) (collB c)))
        else
          let '(cl, cr) := if Nat.leb n 513 then (tw_apply (-1) splitPoint c, tw_apply splitPoint 1 c)
                           else (cl_apply (-1) splitPoint c, cl_apply splitPoint 1 c) in
          match roots_main fuel (2 * htol) eps0 cl, roots_main fuel (2 * htol) eps0 cr with
          | Some rl, Some rr => Some (map (map_left splitPoint) rl ++ map (map_right splitPoint) rr)
          | _, _ => None
          end
      end
    end.
  (** detail.pyx 608-624, roots_scalar; a zero column of more than one coefficient is divided
      by its vscale 0, and scipy's norm rejects the resulting nan *)
  Definition roots_scalar (fuel : nat) (eps : R) (c : list R) : option (list R) :=
    if Nat.eqb (length c) 1 then (if Reqb (nth 0 c 0) 0 then Some [0] else Some [])
    else if Reqb (vscale_col c) 0 then None
    else roots_main fuel (100 * eps) eps0 (map (fun x => x / vscale_col c) c).
  (** chebtech.py 398-401, roots: simplify (in place), then detail.pyx 626-637, roots with
      eps = f.eps; here the new state of the function is returned as well.
      roots_scalar(f, eps) does not hand eps on to roots_main. *)
  Fixpoint all_opt {A} (l : list (option A)) : option (list A) :=
    match l with
    | [] => Some []
    | Some a :: t => option_map (cons a) (all_opt t)
    | None :: _ => None
    end.
  Definition cheb_roots (fuel : nat) (f : chebtech) : option (chebtech * list (list R)) :=
    match cheb_simplify f with
    | None => None
    | Some g => option_map (fun r => (g, r)) (all_opt (map (roots_scalar fuel (eps g)) (coeffs g)))
    end.
  (** fun.py 600-602, roots of a Fun on [a,b] *)
  Definition fun_roots (fuel : nat) (a b : R) (f : chebtech) : option (list (list R)) :=
    option_map (fun p => map (map (fun y => (b * (y + 1) + a * (1 - y)) / 2)) (snd p)) (cheb_roots fuel f).
End roots.

(** numpy argmin / argmax: first index; value and position *)
Fixpoint amin (x : R) (l : list R) (f : R -> R) : R :=
  match l with [] => x | y :: t => if Rltb (f y) (f x) then amin y t f else amin x t f end.
(** cheb/minmax.py 6-44, minmaxCol: [r] = roots of the derivative, [x] the grid, [v] = f.values;
    (minimum, its position).  The first branch (constants) is overwritten by the rest. *)
Definition min_of_values (m : R) (v : list R) : option nat :=   (* index k of the first smallest value below m *)
  fst (fold_left (fun '(best, bv) k => if Rltb (nth k v 0) bv then (Some k, nth k v 0) else (best, bv)) (seq 0 (length v)) (None, m)).
Definition col_min (f : R -> R) (r x v : list R) : R * R :=
  let p := amin (-1) (r ++ [1]) f in
  match min_of_values (f p) v with
  | None => (f p, p)
  | Some k => (nth k v 0, nth k x 0)
  end.
(** the maximum is computed by the same code with > for <: on -f *)
Definition col_max (f : R -> R) (r x v : list R) : R * R :=
  let '(m, p) := col_min (fun t => - f t) r x (map Ropp v) in (- m, p).
(** chebtech.py 403-415, minandmax; one column c of f; fp is its derivative, whose roots may raise *)
Definition minandmax_col (r : list R) (c : list R) : (R * R) * (R * R) :=
  let f := clenshaw_pt c in let x := chebpts_type2_compute (length c) in let v := polyval1 c in
  (col_min f r x v, col_max f r x v).
Definition cheb_minandmax (eigs : nat -> (nat -> nat -> R) -> (nat -> nat -> R) -> list C) (fuel : nat) (f : chebtech) : option (list ((R * R) * (R * R))) :=
  match cheb_diff f 1 with
  | None => None
  | Some fp =>
    all_opt (mk (length (coeffs f)) (fun j =>
      match (if Nat.eqb (length (coeffs f)) 1 then Some fp else getitem fp (Z.of_nat j)) with
      | None => None
      | Some fj =>
        match cheb_roots eigs fuel fj with
        | None => None
        | Some (_, rs) => Some (minandmax_col (nth 0 rs []) (nth j (coeffs f) []))
        end
      end))
  end.
