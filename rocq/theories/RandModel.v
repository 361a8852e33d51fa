(** Model of funpy.random, funpy.random_decay (funpy/fun.py 290-301) and of
    np.argmax of a function.  The numbers np.random.rand draws are a
    parameter: [U], given by columns (an n by m array of numbers of [0, 1)). *)
From Coq Require Import Reals ZArith List Arith Bool.
From Verif Require Import Base ChebModel ChebModel2 FunModel.
Import ListNotations.
Open Scope R_scope.

(** fun.py 290-293, random: coeffs = scale * (1 - 2 * rand). *)
Definition random_coeffs (scale : R) (U : arr) : arr := map (map (fun u => scale * (1 - 2 * u))) U.
Definition fun_random (scale : R) (U : arr) (a b : R) : option Fun :=
  option_map (fun f => mkFun f a b) (cheb_init (random_coeffs scale U) eps_default (fun_hscale a b) maxLength_default false false).

(** fun.py 296-301, random_decay: nn = (1 + arange(n))^2,
    coeffs = scale * (1 - 2 * (rand / nn[:, None])). *)
Definition decay_col (scale : R) (u : list R) : list R :=
  mk (length u) (fun k => scale * (1 - 2 * (nth k u 0 / (1 + INR k) ^ 2))).
Definition fun_random_decay (scale : R) (U : arr) (a b : R) : option Fun :=
  option_map (fun f => mkFun f a b) (cheb_init (map (decay_col scale) U) eps_default (fun_hscale a b) maxLength_default false false).

(** numpy's argmax of an n by m array: the index, in the order of rows, of the
    first largest entry; an empty array raises. *)
Fixpoint argmax_list (l : list R) (i best : nat) (m : R) : nat :=
  match l with
  | [] => best
  | a :: t => if Rltb m a then argmax_list t (S i) i a else argmax_list t (S i) best m
  end.
Definition np_argmax (l : list R) : option nat :=
  match l with [] => None | a :: t => Some (argmax_list t 1 0 a) end.
Definition rowsC (A : arr) : list R := flat_map (fun i => map (fun c => nth i c 0) A) (seq 0 (nrows A)).

(** fun.py 253-255 and chebtech.py 450-452: np.argmax(f) is that of the coefficients. *)
Definition fun_argmax (F : Fun) : option nat := np_argmax (rowsC (coeffs (onefun F))).
