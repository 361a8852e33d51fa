exec(open('/verif/tools/genprop.py').read())
items=[
("C75_solve_square","chol_nonsing_ok","C75: square matrices."),
("C75_solves","chol_solves_thm","C75: any number p of extra columns: the result solves the system."),
("C75_min_norm_partial","chol_min_norm","C75: one extra column: it is the shortest solution (L the Cholesky factor of M, a number here)."),
("C75_min_norm_refuted","chol_not_min_norm","C75: two extra columns: a shorter solution exists, although L is the Cholesky factor numpy promises."),
("C75_tangent","chol_tangent_ok","C75: the tangent."),
("C76_pseudo_rank_partial","pseudo_rank_spec","C76: what pseudo_rank computes."),
("C76_pseudo_rank_refuted","pseudo_rank_scale","C76: the diagonals of a matrix and of a multiple of it."),
("C77_det","chol_det_square","C77: det."),
("C77_detH","chol_detH_correct","C77: detH; [det m A] only looks at the first m columns of A."),
]
hdr='''(** Properties of QRCholesky (qr_chol.py).  Vocabulary: QRSpec.v ([qr_fact], what
    LAPACK promises), LASpec.v ([mv], [dotp], [solves]), DetSpec.v ([det]). *)
From Coq Require Import Reals List Arith Lia Lra Bool Permutation.
From Verif Require Import Base LASpec BordModel BordSpec LABase BordProofs DetSpec LinModel QRModel QRSpec QRProofs QRDet CholModel CholProofs CholDet PropQR.
Import ListNotations.
Open Scope R_scope.
'''
ex='''
(** ** The hypotheses are met by concrete, non-trivial cases *)
Example ex_rect_diag : forall i, (i < 2)%nat -> exR3 i i <> 0.
Proof. intros [|[|i]] Hi; cbn; lra || lia. Qed.
(** A = (3 0 5; 1 2 7): detH is 6 although columns were exchanged *)
Example ex_detH : exists N, forall fuel, (N <= fuel)%nat -> chol_detH fuel 2 exh exR3 [1; 0; 2]%nat = Done 6.
Proof.
  destruct (chol_detH_correct 2 exA3 exh exR3 [1; 0; 2]%nat ex_rect) as [N HN]. exists N. intros fuel Hf.
  assert (E : det 2 exA3 = 6) by (cbn; unfold dropcol; cbn; ring). rewrite <- E. apply HN; [exact Hf|rewrite E; lra].
Qed.
(** one extra column, jbar = 3/4, Cholesky factor 5/4: A = (1 3/4) *)
Definition exA12 : rmat := fun i j => match j with 0%nat => 1 | _ => 3 / 4 end.
Example ex_chol : qr_fact 1 (1 + 1) exA12 [(0, [0])] exA12 [0; 1]%nat /\\ exA12 0%nat 0%nat <> 0 /\\
  5 / 4 * (5 / 4) = chol_M (chol_new 1 (1 + 1) [(0, [0])] exA12 [0; 1]%nat 1 (fun _ _ => 5 / 4)) 0%nat 0%nat.
Proof.
  split; [|split; [cbn; lra|unfold chol_M, jbar; cbn; field]]. split; [reflexivity|]. split; [constructor; [split; [reflexivity|left; reflexivity]|constructor]|]. split; [reflexivity|]. split; [intros [|i] j Hi Hj; lia|]. split; [reflexivity|].
  intros [|[|j]] Hj; [| |lia]; unfold column, mk, ormqr_N, hstep, vsub, vscal, dotp; cbn; repeat (apply f_equal2; [ring|]); reflexivity.
Qed.
'''
gen('PropChol.v',hdr,items,ex)
