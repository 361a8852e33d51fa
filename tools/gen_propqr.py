exec(open('/verif/tools/genprop.py').read())
items=[
("C72_solve","qr_solve_thm","C72: solve."),
("C72_solve_adj","qr_solve_adj_thm","C72: solve_adj."),
("C72_null_right","qr_null_right_thm","C72: the right null vector: A phi = -r psi with r the last diagonal entry of R (below tol in size when the matrix is reported singular), and phi is not zero."),
("C72_null_left","qr_null_left_thm","C72: the left null vector has length one; A^T psi is r at one place and zero elsewhere."),
("C72_particular","qr_particular_thm","C72: particular raises exactly when |psi.b| > tol; otherwise A x = b - (psi.b) psi."),
("C72_particular_adj","qr_particular_adj_thm","C72: particular_adj raises exactly when |phi.b| > tol; otherwise A^T y = b except for one entry, off by phi.b."),
("C72_bem_on_qr","qr_exact","C72: hence QR is an exact inner solver for BEM and BEMW when the last (smallest) diagonal entry is not below tol,"),
("C72_bem_on_singular_qr","qr_exact_singular","C72: and an exact singular one when that entry is zero."),
("C73_det","qr_det_square","C73: det() is the determinant."),
("C73_det_rectangular","qr_det_rect","C73: with one column more than rows, the determinant without column C[-1]."),
("C74_bem_det","bem_det_correct","C74: BEM.det is the determinant of the bordered matrix."),
]
hdr='''(** Properties of the QR solver (qr_solve.py).  Vocabulary in QRSpec.v: [qr_fact]
    is what LAPACK's pivoted QR factorisation promises; LASpec.v: [mv], [solves];
    DetSpec.v: [det] (Laplace expansion), [dropcol] (leave out a column). *)
From Coq Require Import Reals List Arith Lia Lra Bool Permutation.
From Verif Require Import Base LASpec BordModel BordSpec LABase BordProofs DetSpec LinModel QRModel QRSpec QRProofs QRDet.
Import ListNotations.
Open Scope R_scope.
'''
ex='''
(** ** The hypotheses are met by concrete, non-trivial cases *)
(** A = (3 0; 1 2): columns exchanged, then A[:,C] = Q (2 1; 0 3) with the
    reflection Q exchanging the coordinates *)
Definition exA : rmat := fun i j => match i, j with 0%nat, 0%nat => 3 | 0%nat, _ => 0 | _, 0%nat => 1 | _, _ => 2 end.
Definition exR : rmat := fun i j => match i, j with 0%nat, 0%nat => 2 | 0%nat, _ => 1 | _, 0%nat => 0 | _, _ => 3 end.
Definition exh : list hh := [(1, [1; -1]); (0, [0; 0])].
Lemma exh_refl : Forall (reflector 2) exh.
Proof.
  constructor; [split; [reflexivity|right; unfold dotp; cbn; ring]|]. constructor; [split; [reflexivity|left; reflexivity]|constructor].
Qed.
Example ex_fact : qr_fact 2 2 exA exh exR [1; 0]%nat /\\ (forall i, (i < 2)%nat -> exR i i <> 0).
Proof.
  split; [|intros [|[|i]] Hi; cbn; lra]. split; [reflexivity|]. split.
  - exact exh_refl.
  - split; [reflexivity|]. split; [intros [|[|i]] [|[|j]] Hi Hj; try lia; reflexivity|]. split; [apply perm_swap|].
    intros [|[|j]] Hj; [| |lia]; unfold column, mk, ormqr_N, hstep, vsub, vscal, dotp; cbn; repeat (apply f_equal2; [ring|]); reflexivity.
Qed.
Example ex_det : qr_det (qr_new 2 2 exh exR [1; 0]%nat (/ 2)) = Some 6.
Proof. rewrite (qr_det_square 2 exA) by apply ex_fact. f_equal. cbn. unfold dropcol. cbn. ring. Qed.
(** a singular one: A = (0 1; 0 1), C = [1, 0] *)
Definition exA0 : rmat := fun i j => match j with 0%nat => 0 | _ => 1 end.
Definition exR0 : rmat := fun i j => match i, j with 0%nat, 0%nat => 1 | 0%nat, _ => 0 | _, _ => 0 end.
Definition exh0 : list hh := [(2 / 2, [0; 0]); (0, [0; 0])].
(** one column more than rows: A = (3 0 5; 1 2 7), C = [1, 0, 2] *)
Definition exA3 : rmat := fun i j => match j with 2%nat => (match i with 0%nat => 5 | _ => 7 end) | _ => exA i j end.
Definition exR3 : rmat := fun i j => match j with 2%nat => (match i with 0%nat => 7 | _ => 5 end) | _ => exR i j end.
Example ex_rect : qr_fact 2 3 exA3 exh exR3 [1; 0; 2]%nat.
Proof.
  split; [reflexivity|]. split; [exact exh_refl|].
  split; [reflexivity|]. split; [intros [|[|i]] [|[|[|j]]] Hi Hj; try lia; reflexivity|]. split; [apply perm_swap|].
  intros [|[|[|j]]] Hj; [| | |lia]; unfold column, mk, ormqr_N, hstep, vsub, vscal, dotp; cbn; repeat (apply f_equal2; [ring|]); reflexivity.
Qed.
(** a singular matrix (0 0; 2 1) with the same Q: R = (2 1; 0 0) *)
Definition exAs : rmat := fun i j => match i, j with 0%nat, _ => 0 | _, 0%nat => 1 | _, _ => 2 end.
Definition exRs : rmat := fun i j => match i, j with 0%nat, 0%nat => 2 | 0%nat, _ => 1 | _, _ => 0 end.
Example ex_sing : qr_fact 2 2 exAs exh exRs [1; 0]%nat /\\ (forall i, (i < 1)%nat -> exRs i i <> 0) /\\ exRs 1%nat 1%nat = 0.
Proof.
  split; [|split; [intros [|i] Hi; [cbn; lra|lia]|reflexivity]]. split; [reflexivity|]. split.
  - exact exh_refl.
  - split; [reflexivity|]. split; [intros [|[|i]] [|[|j]] Hi Hj; try lia; reflexivity|]. split; [apply perm_swap|].
    intros [|[|j]] Hj; [| |lia]; unfold column, mk, ormqr_N, hstep, vsub, vscal, dotp; cbn; repeat (apply f_equal2; [ring|]); reflexivity.
Qed.
'''
import re
ex=re.sub(r"\(\*\* a singular one: A = \(0 1.*?\n(?=\(\*\* one column)", "", ex, flags=re.S)
gen('PropQR.v',hdr,items,ex)
