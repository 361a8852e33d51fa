(** Properties of the ultraspherical matrices.  Vocabulary in UltraSpec.v:
    [evalU lam c x] the function with coefficients c in the basis C^(lam)
    (Chebyshev for lam = 0), [matvec n A c] matrix times vector,
    [leading_product lam f g r]: r holds the first coefficients of f g. *)
From Coq Require Import Reals ZArith List Arith Lia Lra Bool.
From Coquelicot Require Import Coquelicot.
From Verif Require Import Base ChebSpec UltraSpec UltraModel UltraBasis UltraProofs UltraMult.
Import ListNotations.
Open Scope R_scope.

(** C23: the order-m matrix maps Chebyshev coefficients to the coefficients of the m-th derivative in C^(m). *)
Theorem C23_diffmat : forall n m c x,
  length c = n ->
  length (matvec n (diffmat n m) c) = n /\ is_derive_n (evalT c) m x (evalU m (matvec n (diffmat n m) c) x).
Proof. exact diffmat_correct. Qed.
Print Assumptions C23_diffmat.

(** C24: convertmat(n, K1, K2) maps C^(K1) coefficients to C^(K2+1) coefficients of the same function (nothing changes if K2 < K1). *)
Theorem C24_convertmat : forall n K1 K2 c x,
  (2 <= n)%nat -> length c = n ->
  length (matvec n (convertmat n K1 K2) c) = n /\
  evalU (Nat.max K1 (K2 + 1)) (matvec n (convertmat n K1 K2) c) x = evalU K1 c x.
Proof. exact convertmat_correct. Qed.
Print Assumptions C24_convertmat.

(** C24: convertmat_inv undoes it. *)
Theorem C24_convertmat_inv_left : forall n K1 K2 c,
  (2 <= n)%nat -> length c = n -> matvec n (convertmat_inv n K1 K2) (matvec n (convertmat n K1 K2) c) = c.
Proof. exact convertmat_inv_l. Qed.
Print Assumptions C24_convertmat_inv_left.

(** C24: and conversely. *)
Theorem C24_convertmat_inv_right : forall n K1 K2 c,
  (2 <= n)%nat -> length c = n -> matvec n (convertmat n K1 K2) (matvec n (convertmat_inv n K1 K2) c) = c.
Proof. exact convertmat_inv_r. Qed.
Print Assumptions C24_convertmat_inv_right.

(** C25: bases 0 and 1, f with at most k coefficients; from k = 100 on the 0-th coefficient of f must not be zero. *)
Theorem C25_multmat_partial : forall k c lam eps g,
  (3 <= k)%nat -> (1 <= length c <= k)%nat -> length g = k -> (lam <= 1)%nat -> ((k < 100)%nat \/ nth 0 c 0 <> 0) ->
  leading_product lam (evalT c) g (matvec k (multmat k c lam eps) g).
Proof. exact multmat_product. Qed.
Print Assumptions C25_multmat_partial.

(** C25 is false from k = 100 on if coefficient 0 of f is zero: x * x has leading coefficient 1/2, the matrix gives 0. *)
Theorem C25_multmat_large_refuted : forall k eps,
  (100 <= k)%nat ->
  let g := 0 :: 1 :: repeat 0 (k - 2) in
  length g = k /\ (forall x, evalT [0; 1] x * evalT g x = evalT [1 / 2; 0; 1 / 2] x) /\
  nth 0 (matvec k (multmat k [0; 1] 0 eps) g) 0 = 0.
Proof. exact multmat_large_wrong. Qed.
Print Assumptions C25_multmat_large_refuted.

(** C25 is false when f has more than k coefficients: T_2 T_1 comes out as 0. *)
Theorem C25_multmat_long_refuted : forall eps,
  (forall x, evalT [0; 0; 1] x * evalT [0; 1] x = evalT [0; 1 / 2; 0; 1 / 2] x) /\ matvec 2 (multmat 2 [0; 0; 1] 0 eps) [0; 1] = [0; 0].
Proof. exact multmat_long_wrong. Qed.
Print Assumptions C25_multmat_long_refuted.

(** C69: in a basis lam >= 2 the matrix multiplies by f, up to trailing C^(lam) coefficients of f that are all below eps. *)
Theorem C69_multmat_high : forall k c lam eps g,
  (2 <= k)%nat -> (2 <= length c <= k)%nat -> length g = k -> (2 <= lam)%nat ->
  exists b K, length b = k /\ (forall x, evalU lam b x = evalT c x) /\ (K <= k)%nat /\ (forall p, (K <= p < k)%nat -> Rabs (nth p b 0) < eps) /\
    leading_product lam (evalU lam (firstn K b)) g (matvec k (multmat k c lam eps) g).
Proof. exact multmat_product_high. Qed.
Print Assumptions C69_multmat_high.

(** C70: the first entry is the integral over [-1,1], the others are zero. *)
Theorem C70_intmat : forall k c,
  (2 <= k)%nat -> length c = k ->
  is_RInt (evalT c) (-1) 1 (nth 0 (matvec k (intmat k) c) 0) /\ forall i, (1 <= i)%nat -> nth i (matvec k (intmat k) c) 0 = 0.
Proof. exact intmat_correct. Qed.
Print Assumptions C70_intmat.


(** ** The hypotheses are met by concrete, non-trivial cases *)
(** the second derivative of T_3 = 4x^3 - 3x is 24x = 6 C^(2)_1(x) *)
Example ex_diff2 : matvec 4 (diffmat 4 2) [0; 0; 0; 1] = [0; 6; 0; 0] /\ forall x, evalU 2 [0; 6; 0; 0] x = 24 * x.
Proof.
  split; [|intros x; unfold evalU, ubasis; cbn; field].
  unfold matvec, diffmat, matmul, spdiags, eye. cbn. repeat (apply f_equal2; [cbn; ring|]). reflexivity.
Qed.
Example ex_mult_hyp : (3 <= 4)%nat /\ (1 <= length [1; 2; 3] <= 4)%nat /\ length [5; 6; 7; 8] = 4%nat /\ (1 <= 1)%nat /\ ((4 < 100)%nat \/ nth 0 [1; 2; 3] 0 <> 0).
Proof. repeat split; cbn; lia. Qed.
Example ex_mult_large_hyp : (3 <= 200)%nat /\ (1 <= length [1; 2; 3] <= 200)%nat /\ length (repeat 1 200) = 200%nat /\ ((200 < 100)%nat \/ nth 0 [1; 2; 3] 0 <> 0).
Proof. rewrite repeat_length. repeat split; cbn [length nth]; try lia. right. lra. Qed.
