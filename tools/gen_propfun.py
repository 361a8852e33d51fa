exec(open('/verif/tools/genprop.py').read())
items=[
("C18_map_bijection","map_bijection","C18: the linear map of an interval and its stored inverse and derivative."),
("C18_call","call_correct","C18: evaluation on [a,b] is evaluation of the wrapped function at the mapped point (never rejected)."),
("C18_call_outside","call_outside","C18: a point outside the domain is rejected."),
("C19_diff","fun_diff_correct","C19: derivative on [a,b].  K is where the input was cut (documented simplification), K2 where the scaled result was."),
("C19_diff_exact","fun_diff_exact","C19: the derivative on [a,b] is exact when the last coefficient survives both simplifications."),
("C19_sum","fun_sum_correct","C19: integral over [a,b]."),
("C19_cumsum","fun_cumsum_correct","C19: antiderivative vanishing at a."),
("C19_inner","fun_inner_correct","C19: L2(a,b) inner products."),
("C19_inner_mismatch","fun_inner_mismatch","C19: inner products over different intervals are rejected."),
("C19_dot","fun_dot_correct","C19: dot is the sum over the columns of the L2(a,b) products."),
("C19_norm","fun_normh_correct","C19: the h-norm is the L2(a,b) norm."),
("C19_innerw","fun_innerw_correct","C19: the weighted product is the Chebyshev-weighted integral."),
("C11_fun_add","fun_add_correct","C11 on [a,b]."),
("C11_fun_subtract","fun_subtract_correct","C11 on [a,b]."),
("C11_fun_negative","fun_negative_correct","C11 on [a,b]."),
("C12_fun_multiply","fun_multiply_correct","C12 on [a,b]."),
("C20_domain_check_refuted","domain_check_refuted","C20: functions on [0,1] and [-5,-3] are added without complaint."),
("C20_hstack_refuted","hstack_domain_refuted","C20: hstack accepts different domains."),
("C20_rejects_partial","fun_binary_rejects","C20, the direction that holds: the second operand lies to the right."),
("C20_both_orders_partial","fun_binary_both","C20: if both orders of a binary operation are accepted the domains agree."),
("C21_flatten_from_coeffs","flatten_from_coeffs","C21."),
("C21_from_coeffs_flatten","from_coeffs_flatten","C21."),
("C21_from_coeffs_misfit","from_coeffs_misfit","C21: a vector that does not split into the columns is rejected."),
("C49_fun_construct","fun_construct_error","C49 on [a,b]."),
]
hdr='''(** Properties of Fun (functions on an interval [a,b]).  Vocabulary:
    [fev F j x] = the Chebyshev series of column j at (2x-a-b)/(b-a), where
    a = dom0 F, b = dom1 F; [fwf F] = well-formed array and a < b; [flen],
    [fcols] the shape; [fevK F j K] the series cut after K terms. *)
From Coq Require Import Reals ZArith List Arith Lia Lra Bool.
From Coquelicot Require Import Coquelicot.
From Verif Require Import Base ChebSpec ChebModel ChebEval ChebCalc ChebObj ChebOps ChebOps2 ChebArith ChebMulObj ChebModel2 ChebConstr ChebRefute FunModel FunProofs FunExact PropCheb.
Import ListNotations.
Open Scope R_scope.
'''
ex='''
(** ** The hypotheses are met by concrete, non-trivial objects *)
Definition ex_F : Fun := mkFun ex_f 0 3.
Definition ex_G : Fun := mkFun ex_g 0 3.
Example ex_F_wf : fwf ex_F /\\ fwf ex_G /\\ dom0 ex_F = dom0 ex_G /\\ dom1 ex_F = dom1 ex_G /\\ fcols ex_F = fcols ex_G.
Proof. split; [split; [exact ex_f_wf|cbn; lra]|]. split; [split; [exact ex_g_wf|cbn; lra]|]. repeat split. Qed.
Example ex_F_value : fev ex_F 0 3 = 6 /\\ fev ex_F 0 0 = 2.
Proof.
  unfold fev, ev. cbn [onefun ex_F dom0 dom1 ex_f coeffs nth].
  split; [replace ((2 * 3 - 0 - 3) / (3 - 0)) with 1 by field|replace ((2 * 0 - 0 - 3) / (3 - 0)) with (-1) by field];
  unfold evalT; cbn; ring.
Qed.
Example ex_diff_exact : 0 < eps (onefun ex_F) < 1 /\\ (0 < fcols ex_F)%nat /\\
  Rpower (eps (onefun ex_F)) (2 / 5) < Rabs (coef (onefun ex_F) 0 (flen ex_F - 1)) /\\
  Rpower (eps (onefun ex_F)) (2 / 5) * ((dom1 ex_F - dom0 ex_F) / 2) ^ 1 < Rabs (coef (onefun ex_F) 0 (flen ex_F - 1)).
Proof.
  destruct ex_eps as [H1 H2]. split; [exact H1|]. split; [cbn; lia|]. split; [exact H2|]. change (coef (onefun ex_F) 0 (flen ex_F - 1)) with 3. change (onefun ex_F) with ex_f.
  assert (B : Rpower (eps ex_f) (2 / 5) < 1). { rewrite <- (Rpower_O (eps ex_f)) by apply H1. unfold Rpower. apply exp_increasing. assert (ln (eps ex_f) < 0) by (rewrite <- ln_1; apply ln_increasing; lra). lra. }
  rewrite (Rabs_pos_eq 3) by lra. cbn [dom0 dom1 ex_F]. lra.
Qed.
Example ex_call : (forall x, In x [0; 1; 5/2] -> dom0 ex_F <= x <= dom1 ex_F) /\\ [0; 1; 5/2] <> [].
Proof. split; [|discriminate]. intros x [<-|[<-|[<-|[]]]]; cbn; lra. Qed.
'''
gen('PropFun.v',hdr,items,ex)
