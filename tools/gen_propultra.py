exec(open('/verif/tools/genprop.py').read())
items=[
("C23_diffmat","diffmat_correct","C23: the order-m matrix maps Chebyshev coefficients to the coefficients of the m-th derivative in C^(m)."),
("C24_convertmat","convertmat_correct","C24: convertmat(n, K1, K2) maps C^(K1) coefficients to C^(K2+1) coefficients of the same function (nothing changes if K2 < K1)."),
("C24_convertmat_inv_left","convertmat_inv_l","C24: convertmat_inv undoes it."),
("C24_convertmat_inv_right","convertmat_inv_r","C24: and conversely."),
("C25_multmat_partial","multmat_product","C25: bases 0 and 1, f with at most k coefficients; from k = 100 on the 0-th coefficient of f must not be zero."),
("C25_multmat_large_refuted","multmat_large_wrong","C25 is false from k = 100 on if coefficient 0 of f is zero: x * x has leading coefficient 1/2, the matrix gives 0."),
("C25_multmat_long_refuted","multmat_long_wrong","C25 is false when f has more than k coefficients: T_2 T_1 comes out as 0."),
("C69_multmat_high","multmat_product_high","C69: in a basis lam >= 2 the matrix multiplies by f, up to trailing C^(lam) coefficients of f that are all below eps."),
("C70_intmat","intmat_correct","C70: the first entry is the integral over [-1,1], the others are zero."),
]
hdr='''(** Properties of the ultraspherical matrices.  Vocabulary in UltraSpec.v:
    [evalU lam c x] the function with coefficients c in the basis C^(lam)
    (Chebyshev for lam = 0), [matvec n A c] matrix times vector,
    [leading_product lam f g r]: r holds the first coefficients of f g. *)
From Coq Require Import Reals ZArith List Arith Lia Lra Bool.
From Coquelicot Require Import Coquelicot.
From Verif Require Import Base ChebSpec UltraSpec UltraModel UltraBasis UltraProofs UltraMult.
Import ListNotations.
Open Scope R_scope.
'''
ex='''
(** ** The hypotheses are met by concrete, non-trivial cases *)
(** the second derivative of T_3 = 4x^3 - 3x is 24x = 6 C^(2)_1(x) *)
Example ex_diff2 : matvec 4 (diffmat 4 2) [0; 0; 0; 1] = [0; 6; 0; 0] /\\ forall x, evalU 2 [0; 6; 0; 0] x = 24 * x.
Proof.
  split; [|intros x; unfold evalU, ubasis; cbn; field].
  unfold matvec, diffmat, matmul, spdiags, eye. cbn. repeat (apply f_equal2; [cbn; ring|]). reflexivity.
Qed.
Example ex_mult_hyp : (3 <= 4)%nat /\\ (1 <= length [1; 2; 3] <= 4)%nat /\\ length [5; 6; 7; 8] = 4%nat /\\ (1 <= 1)%nat /\\ ((4 < 100)%nat \\/ nth 0 [1; 2; 3] 0 <> 0).
Proof. repeat split; cbn; lia. Qed.
Example ex_mult_large_hyp : (3 <= 200)%nat /\\ (1 <= length [1; 2; 3] <= 200)%nat /\\ length (repeat 1 200) = 200%nat /\\ ((200 < 100)%nat \\/ nth 0 [1; 2; 3] 0 <> 0).
Proof. rewrite repeat_length. repeat split; cbn [length nth]; try lia. right. lra. Qed.
'''
gen('PropUltra.v',hdr,items,ex)
