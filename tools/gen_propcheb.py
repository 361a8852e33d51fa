exec(open('/verif/tools/genprop.py').read())
exec(open('/verif/tools/gen_cheb_items.py').read())
i=[k for k,x in enumerate(items) if x[0]=="C10_quadrature_symmetric"][0]
items.insert(i+1,("C10_quadrature_interval","chebpts2_quadrature","C10 on an interval [a,b]."))
items+=[("C53_barycentric_evaluation","barymat_correct","C53: one row of the barycentric matrix evaluates every polynomial of degree below N, also at the nodes themselves."),
("C54_differentiation_matrix","diffmat_correct","C54"),
("C55_type1_quadrature_refuted","type1_quadrature_wrong","C55")]
hdr='''(** Properties of the Chebyshev technology: each theorem is closed by the lemma
    that proves it.  Specification vocabulary: [T], [evalT], [spanT] (ChebSpec);
    [wf f] = non-empty rectangular coefficient array, [ncols], [len] its shape,
    [coef f j k] coefficient k of column j, [ev f j x] the Chebyshev series of
    column j at x (ChebObj); [evK f j K x] the same series cut after K terms,
    [trunc_ok f e K] = all coefficients from K on are at most e^(2/5) (ChebOps);
    integrals and derivatives are Coquelicot's. *)
From Coq Require Import Reals ZArith List Arith Lia Lra Bool.
From Coquelicot Require Import Coquelicot.
From Verif Require Import Base ChebSpec ChebModel ChebEval CosSums ChebDct ChebCalc ChebMul ChebChop ChebObj ChebOps ChebOps2 ChebArith ChebMulObj ChebModel2 ChebConstr ChebModel3 ChebBary ChebRefute.
Import ListNotations.
Open Scope R_scope.
'''
ex='''
(** ** The hypotheses are met by concrete, non-trivial objects *)
Definition ex_f : chebtech := mkCheb [[1; 2; 3]; [0; -1; 5]] eps_default 1 maxLength_default true.
Definition ex_g : chebtech := mkCheb [[4; 1]; [2; 7]] eps_default 1 maxLength_default true.
Definition ex_c : chebtech := mkCheb [[4]] eps_default 1 maxLength_default true.
Definition ex_cc : chebtech := mkCheb [[4]; [5]] eps_default 1 maxLength_default true.
Example ex_f_wf : wf ex_f. Proof. exists 3%nat. repeat split; [lia|discriminate|repeat constructor]. Qed.
Example ex_g_wf : wf ex_g. Proof. exists 2%nat. repeat split; [lia|discriminate|repeat constructor]. Qed.
Example ex_c_wf : wf ex_c /\\ len ex_c = 1%nat /\\ ncols ex_c = 1%nat.
Proof. split; [exists 1%nat; repeat split; [lia|discriminate|repeat constructor]|split; reflexivity]. Qed.
Example ex_cc_const : len ex_cc = 1%nat /\\ (2 <= ncols ex_cc)%nat /\\ (2 <= len ex_f)%nat.
Proof. cbn. lia. Qed.
Example ex_cols : ncols ex_g = ncols ex_f /\\ (2 <= len ex_f)%nat /\\ (2 <= len ex_g)%nat /\\ (2 <= ncols ex_f)%nat.
Proof. cbn. lia. Qed.
Example ex_eps : 0 < eps ex_f < 1 /\\ Rpower (eps ex_f) (2 / 5) < Rabs (coef ex_f 0 (len ex_f - 1)).
Proof.
  split; [exact eps_default_range|]. change (coef ex_f 0 (len ex_f - 1)) with 3.
  rewrite Rabs_right by lra. assert (H := rpow_eps_lt1 _ eps_default_range). cbn [eps ex_f]. lra.
Qed.
Example ex_cumsum_exact : Rpower (eps ex_f) (2 / 5) < / 8.
Proof.
  cbn [eps ex_f]. unfold eps_default. rewrite Rpower_Ropp1. Abort.
Example ex_span : spanT 3 (fun x => 2 * x * x - 1).
Proof. exists [0; 0; 1]. split; [reflexivity|]. intros x. unfold evalT. cbn. ring. Qed.
Example ex_construct : (initial_n maxLength_default 17 <= maxLength_default)%Z.
Proof. vm_compute. discriminate. Qed.
Example ex_tol : 0 < / 1000 < 1. Proof. lra. Qed.
Example ex_hstack : [ex_f; ex_g] <> [] /\\ List.Forall wf [ex_f; ex_g].
Proof. split; [discriminate|]. constructor; [exact ex_f_wf|]. constructor; [exact ex_g_wf|constructor]. Qed.
'''
import re
ex=re.sub(r'Example ex_cumsum_exact.*?Abort\.\n','',ex,flags=re.S)
gen('PropCheb.v',hdr,items,ex)
