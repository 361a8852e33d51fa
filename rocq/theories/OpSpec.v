(** What a linear integro-differential operator is, independently of any
    discretisation.  A coefficient function is given by its Chebyshev
    coefficients on [a,b]. *)
From Coq Require Import Reals List Arith.
From Coquelicot Require Import Coquelicot.
From Verif Require Import Base ChebSpec UltraSpec.
Import ListNotations.
Open Scope R_scope.

(** the affine map from [a,b] onto [-1,1] *)
Definition phi (a b x : R) : R := (2 * x - a - b) / (b - a).

(** the function on [a,b] with Chebyshev coefficients [c] *)
Definition ufun (a b : R) (c : list R) (x : R) : R := evalT c (phi a b x).

(** L[u](x) = sum_j a_j(x) u^(j)(x) + sum_k c_k(x) int_a^b d_k(y) u(y) dy,
    with [cs] the coefficients a_0, a_1, ..., [ics] the c_k and [ints] the d_k. *)
Definition lin_op (a b : R) (cs ics ints : list (list R)) (u : R -> R) (x : R) : R :=
  rsum (length cs) (fun j => ufun a b (nth j cs []) x * Derive_n u j x) +
  rsum (length ics) (fun k => ufun a b (nth k ics []) x * RInt (fun y => ufun a b (nth k ints []) y * u y) a b).

(** [h] are the coefficients of [f] in the basis C^(K)_0, C^(K)_1, ... on [a,b]
    ([C^(0)_k] is T_k) *)
Definition has_ucoeffs (K : nat) (a b : R) (f : R -> R) (h : list R) : Prop :=
  forall x, f x = evalU K h (phi a b x).

(** only the first [d] coefficients are non-zero *)
Definition supported (d : nat) (c : list R) : Prop := forall i, (d <= i)%nat -> nth i c 0 = 0.

(** every coefficient of [f] in C^(lam), written with [n] terms, is zero or at least [eps] *)
Definition separated (n lam : nat) (eps : R) (f : list R) : Prop :=
  forall c, length c = n -> (forall x, evalU lam c x = evalT f x) -> forall p, nth p c 0 = 0 \/ eps <= Rabs (nth p c 0).

(** coefficient functions the multiplication matrix of size [n] in C^(lam) represents
    without dropping anything (compare C25 and C69) *)
Definition representable (n lam : nat) (eps : R) (f : list R) : Prop :=
  length f = 1%nat \/
  ((2 <= length f <= n)%nat /\
   (((lam <= 1)%nat /\ ((n < 100)%nat \/ nth 0 f 0 <> 0)) \/ ((2 <= lam)%nat /\ separated n lam eps f))).

(** all coefficient functions of an operator of order at most [K] are representable *)
Definition op_representable (n K : nat) (eps : R) (cs ics ints : list (list R)) : Prop :=
  (forall j, (j < length cs)%nat -> (j <= K)%nat /\ representable n j eps (nth j cs [])) /\
  length ics = length ints /\
  (forall k, (k < length ics)%nat -> representable n 0 eps (nth k ics []) /\ representable n 0 eps (nth k ints [])).

(** the flags are right: a term whose flag is off is zero ([info] has one flag per
    derivative and a last one for all integral terms) *)
Definition flags_ok (info : list bool) (cs ics ints : list (list R)) : Prop :=
  (forall j, (j < length cs)%nat -> nth j info false = false -> forall x, evalT (nth j cs []) x = 0) /\
  (last info false = false -> forall k, (k < length ics)%nat ->
     (forall x, evalT (nth k ics []) x = 0) \/ (forall x, evalT (nth k ints []) x = 0)).

(** the formal adjoint: v -> sum_j (-1)^j (a_j v)^(j) + sum_k d_k int c_k v *)
Definition adjoint_op (a b : R) (cs ics ints : list (list R)) (v : R -> R) (x : R) : R :=
  rsum (length cs) (fun j => (-1) ^ j * Derive_n (fun y => ufun a b (nth j cs []) y * v y) j x) +
  rsum (length ics) (fun k => ufun a b (nth k ints []) x * RInt (fun y => ufun a b (nth k ics []) y * v y) a b).
