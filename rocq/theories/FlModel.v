(** Evaluation and integration in floating point: the model of ChebModel with
    every operation rounded.  Numbers are real numbers; [fl] is rounding to the
    nearest double (ties to even, gradual underflow); overflow is not modelled
    (the exponent is not bounded above).  setup.py compiles with -O3 -march=native,
    so a product added to a number may or may not be a fused operation. *)
From Coq Require Import Reals List Arith Lia Lra ZArith Permutation.
From Flocq Require Import Core.
From Verif Require Import Base ChebSpec ChebModel.
Import ListNotations.
Open Scope R_scope.

Definition fl (t : R) : R := round radix2 (FLT_exp (-1074) 53) ZnearestE t.
Definition is_double (t : R) : Prop := generic_format radix2 (FLT_exp (-1074) 53) t.
Definition fadd (a b : R) : R := fl (a + b).
Definition fsub (a b : R) : R := fl (a - b).
Definition fmul (a b : R) : R := fl (a * b).
Definition fdiv (a b : R) : R := fl (a / b).

(** c + p * q - d, with the product and the first sum fused or not. *)
Definition fstep (z : bool) (c p q d : R) : R := fsub (if z then fl (c + p * q) else fadd c (fmul p q)) d.

(** cheb/detail.pyx 376-401, clenshaw_scalar at one point (clenshaw_vector runs
    the same loop for each column): c[i] + x*b1 - b2 is (c[i] + (x*b1)) - b2;
    [z k] tells whether the step for the k-th coefficient from the end is fused. *)
Definition fclenshaw_pt (z : nat -> bool) (c : list R) (x : R) : R :=
  let n := (length c - 1)%nat in
  let x2 := fmul 2 x in
  let '(bk1, bk2) :=
    fold_left (fun '(bk1, bk2) t =>
      let i := (n - 2 * t)%nat in
      let bk2 := fstep (z (n - i)%nat) (nth i c 0) x2 bk1 bk2 in
      let bk1 := fstep (z (n - (i - 1))%nat) (nth (i - 1) c 0) x2 bk2 bk1 in
      (bk1, bk2)) (seq 0 (n / 2)) (0, 0) in
  let '(bk1, bk2) :=
    if Nat.odd n then (fstep (z (n - 1)%nat) (nth 1 c 0) x2 bk1 bk2, bk1) else (bk1, bk2) in
  fstep (z n) (nth 0 c 0) (fmul (/ 2) x2) bk1 bk2.

(** A sum of products (numpy's @, which calls BLAS) evaluated in some order
    (blocked, pairwise, in vector registers), each product rounded first or fused
    with an addition; the products are the leaves. *)
Inductive stree := SLeaf (w a : R) | SNode (l r : stree) | SFuse (l : stree) (w a : R).
Fixpoint leaves (t : stree) : list (R * R) :=
  match t with SLeaf w a => [(w, a)] | SNode l r => leaves l ++ leaves r | SFuse l w a => leaves l ++ [(w, a)] end.
Fixpoint fsum (t : stree) : R :=
  match t with SLeaf w a => fmul w a | SNode l r => fadd (fsum l) (fsum r) | SFuse l w a => fl (fsum l + w * a) end.
(** [s] is a result the product of a row and a column may return. *)
Definition fdot (l : list (R * R)) (s : R) : Prop := exists t, Permutation (leaves t) l /\ s = fsum t.

(** cheb/chebtech.py 509-531, sum of one column: the weights 2, 0, 2/(1 - k^2)
    (1 - k^2 is an integer, exact as a double for k <= 2^26), the coefficients
    times the mask, and the product of the row of weights with the column. *)
Definition fweight (k : nat) : R := match k with O => 2 | 1%nat => 0 | _ => fdiv 2 (1 - INR k ^ 2) end.
Definition fmask (k : nat) (a : R) : R := fmul a (if Nat.even k then 1 else 0).
Definition fterms (c : list R) : list (R * R) := map (fun k => (fweight k, fmask k (nth k c 0))) (seq 0 (length c)).
(** [s] is a result the sum may return. *)
Definition fintegral (c : list R) (s : R) : Prop :=
  if Nat.eqb (length c) 1 then s = fmul 2 (nth 0 c 0) else fdot (fterms c) s.

(** mapping.py 28-30, the linear map and its inverse, one numpy operation at a time. *)
Definition ffwd (a b y : R) : R := fdiv (fadd (fmul b (fadd y 1)) (fmul a (fsub 1 y))) 2.
Definition fbwd (a b x : R) : R := fdiv (fsub (fsub (fmul 2 x) a) b) (fsub b a).
(** fun.py 129-133, Fun.__call__ at a list of points, one column: the assertion
    fails (None) if a mapped point is outside [-1, 1]. *)
Definition ffun_call (z : nat -> bool) (a b : R) (c xs : list R) : option (list R) :=
  let ys := map (fbwd a b) xs in
  if forallb (fun y => if Rle_dec (-1) y then if Rle_dec y 1 then true else false else false) ys
  then Some (map (fclenshaw_pt z c) ys) else None.
(** fun.py 539-543, the integral over [a, b]. *)
Definition ffun_sum (a b : R) (c : list R) (r : R) : Prop :=
  exists s, fintegral c s /\ r = fmul s (fmul (/ 2) (fsub b a)).
