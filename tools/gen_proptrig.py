exec(open('/verif/tools/genprop.py').read())
items=[
("C29_values","trig_values_correct","C29: entry j of coeffs2vals is the value at the j-th equispaced point."),
("C29_values_coeffs_values","trig_v2c_c2v","C29: the two transforms are inverse to each other."),
("C29_coeffs_values_coeffs","trig_c2v_v2c","C29."),
("C29_interpolation","trig_interpolates","C29: vals2coeffs gives the interpolating trigonometric polynomial."),
("C29_unique","grid_unique","C29: it is the only one of that length."),
("C30_horner_complex","horner_cmplx_correct","C30: Horner evaluation of complex coefficients."),
("C30_horner_real","horner_real_correct","C30: the evaluation used for functions flagged real."),
("C30_call","trig_call_correct","C30: f(x)."),
("C30_call_error","trig_call_error","C30: for any coefficients; the flag real is set up to a tolerance, so f(x) may be off by that tolerance."),
("C31_prolong","trig_prolong_correct","C31: prolong to N coefficients, any parities."),
("C31_prolong_object","trig_obj_prolong","C31: prolong of an object."),
("C31_prolong_shorter","trig_chop_correct","C31: a shorter length keeps exactly the low frequencies."),
("C68_prolong_function","trig_prolong_fun_correct","C68: the function prolong of trig_simplify.py."),
("C68_prolong_function_same_refuted","trig_prolong_fun_same","C68 is false there for N = n: the function returns nothing and the callers' unpacking raises."),
("C68_prolong_coeffs_partial","trig_prolong_coeffs_correct","C68: prolong_coeffs, except from even n to n + 1."),
("C68_prolong_coeffs_refuted","trig_prolong_coeffs_wrong","C68 is false there: from even n to n + 1 nothing is changed, not even the length."),
("C32_diff_partial","trig_diff_correct","C32: diff of any order; for even lengths the order must be even or the highest coefficient zero."),
("C32_diff_refuted","trig_diff_even_wrong","C32 is false otherwise: the derivative of cos(pi x) with two coefficients has real part 0 at 1/2, not -pi."),
("C67_sum","trig_sum_correct","C67: sum is the integral over one period."),
("C33_cumsum_refuted","trig_cumsum_wrong","C33 is false: for cos(pi x) cumsum changes f, its result is purely imaginary and does not vanish at -1, for every tolerance."),
("C33_cumsum_constant_refuted","trig_cumsum_constant_raises","C33 is false: a constant (also zero) raises."),
("C33_cumsum_partial","trig_cumsum_special","C33 holds for odd lengths when coefficients 0 and 1 vanish and the zero-mean anti-derivative vanishes at -1 already."),
("C34_number_divided_by_function_refuted","trig_num_div_wrong","C34 is false: 1/2 comes out as 2."),
("C34_number_to_the_power_refuted","trig_num_pow_wrong","C34 is false: 2 ** 3 samples 3 ** 2 = 9."),
("C35_real_partial","trig_real_correct","C35: real(f), when f is flagged real or some sample has real part above the threshold."),
("C35_imag","trig_imag_correct","C35: imag(f)."),
("C35_real_refuted","trig_real_wrong","C35 is false: the real part of -1 + i comes out as 0."),
("C35_handler_refuted","trig_conj_wrong","C35 is false for the module function conj, called directly: conj(-1 + i) = -1 + i."),
("C35_handler_partial","trig_conj_real","C35: the module function conj, called directly, of a real function."),
("C59_call_stable_partial","trig_call_stable","C59: odd lengths, and functions flagged complex."),
("C59_call_refuted","trig_call_changes","C59 is false: cos(pi x) with two coefficients is 1 at 0 the first time, 1/2 the second."),
("C60_inner","trig_inner_correct","C60."),
("C61_add","trig_add_correct","C61: f + g."),
("C61_subtract","trig_sub_correct","C61: f - g."),
("C61_negative","trig_neg_correct","C61: -f."),
("C61_add_number","trig_add_num_correct","C61: f + a."),
("C61_multiply_number","trig_mul_num_correct","C61: f * a."),
("C61_divide_number","trig_div_num_correct","C61: f / a, a not tiny."),
("C66_multiply_even_refuted","trig_mul_even_wrong","C66 is false for even lengths: too few points are used and the product is aliased."),
("C62_simplify","trig_simplify_correct","C62: simplify keeps the coefficients of the frequencies below some K; the dropped pairs are at most tol^(2/5)."),
("C62_simplify_error","truncation_error","C62: the function changes by at most the sum of the dropped moduli."),
("C63_circshift_partial","trig_circshift_correct","C63: odd lengths, or highest coefficient zero."),
("C63_circshift_refuted","trig_circshift_even_wrong","C63 is false for even lengths."),
("C64_convolution_partial","trig_conv_correct","C64: odd lengths."),
("C64_convolution_refuted","trig_conv_even_wrong","C64 is false for even lengths: cos * cos at 0 is 1, the code gives 2."),
("C65_resample","trig_resample_correct","C65: samples of a periodic function."),
("C65_resample_general","trig_resample_general","C65: samples of any function; the two values at the ends are averaged."),
("C65_refine","trig_refine_correct","C65: doubling the grid keeps the old samples and evaluates only the new points."),
("C65_objects","trig_ok_meaning","What a consistent object is: [trig_ok] in terms of values and coefficients."),
]
hdr='''(** Properties of Fourier functions on [-1,1] (trigtech).  Vocabulary in
    TrigSpec.v: [evalF c x] the trigonometric polynomial with coefficients c,
    [coef c z] its coefficient of e^(i pi z x), [gridpt n j] the points,
    [cderive_n], [cint] derivative and integral of complex functions.
    [trig_ok t]: values and coefficients of t describe the same function
    (C65_objects says it in full); [represents r F re]: the coefficients of r
    give F, its values agree with them up to the tolerance for being real,
    and if [re] holds r is consistent and flagged real. *)
From Coq Require Import Reals ZArith List Arith Lia Lra Bool.
From Coquelicot Require Import Coquelicot.
From Verif Require Import Base ToolsProofs ChebModel ChebChop TrigSpec TrigBase TrigModel TrigTrans TrigEval TrigCalc TrigCalc2 TrigModel2 TrigObj TrigObj2.
Import ListNotations.
Open Scope R_scope.
Open Scope C_scope.
'''
ex='''
(** ** The hypotheses are met by concrete, non-trivial objects *)
(** cos(pi x) with three coefficients *)
Definition ex_cos : trig := {| tco := [RtoC (/ 2); RtoC 0; RtoC (/ 2)]; tva := coeffs2vals1 [RtoC (/ 2); RtoC 0; RtoC (/ 2)]; tre := true |}.
(** e^(i pi x) *)
Definition ex_exp : trig := {| tco := [RtoC 0; RtoC 0; RtoC 1]; tva := coeffs2vals1 [RtoC 0; RtoC 0; RtoC 1]; tre := false |}.
Example ex_cos_ok : trig_ok ex_cos /\\ Nat.odd (length (tco ex_cos)) = true /\\ forall x, evalF (tco ex_cos) x = RtoC (cos (PI * x)).
Proof.
  assert (E : forall x, evalF (tco ex_cos) x = RtoC (cos (PI * x))).
  { intros x. unfold ex_cos, evalF, mode, freq. cbn. replace (PI * -1 * x)%R with (- (PI * x))%R by ring. replace (PI * 1 * x)%R with (PI * x)%R by ring.
    rewrite Rmult_0_r, Rmult_0_l, cis_0, cis_neg. unfold cis. apply injective_projections; cbn; field. }
  split; [|split; [reflexivity|exact E]]. split; [cbn; lia|]. split; [reflexivity|]. intros _ x. rewrite E. reflexivity.
Qed.
Example ex_exp_ok : trig_ok ex_exp /\\ teqb ex_cos ex_exp = false /\\ forall x, evalF (tco ex_exp) x = cis (PI * x).
Proof.
  split; [|split].
  - split; [cbn; lia|]. split; [reflexivity|]. discriminate.
  - unfold teqb, leqb, ceqb. cbn. destruct (TrigTrans.Reqb_true (/ 2) 0) as [A _]. destruct (Reqb (/ 2) 0); [|reflexivity]. specialize (A eq_refl). lra.
  - intros x. unfold ex_exp, evalF, mode, freq. cbn. replace (PI * 1 * x)%R with (PI * x)%R by ring. apply injective_projections; cbn; ring.
Qed.
Example ex_sub_flag : tre (trig_of_coeffs [RtoC (/ 2); RtoC 0; RtoC (/ 2)]) = isrealb (coeffs2vals1 [RtoC (/ 2); RtoC 0; RtoC (/ 2)]) [RtoC (/ 2); RtoC 0; RtoC (/ 2)].
Proof. reflexivity. Qed.
(** cos(2 pi x) - cos(4 pi x)/... : frequencies 0 and 1 vanish; the
    anti-derivative of cos(2 pi x) is sin(2 pi x)/(2 pi), zero at -1 *)
Example ex_cumsum : let c := [RtoC (/ 2); RtoC 0; RtoC 0; RtoC 0; RtoC (/ 2)] in
  Nat.odd (length c) = true /\\ (3 <= length c)%nat /\\ nth (length c / 2) c (RtoC 0) = RtoC 0 /\\ nth (length c / 2 + 1) c (RtoC 0) = RtoC 0 /\\
  csum (length c) (fun k => if Z.eqb (freq (length c) k) 0 then RtoC 0 else nth k c (RtoC 0) / (Ci * RtoC (PI * IZR (freq (length c) k))) * cis (PI * IZR (freq (length c) k) * -1)) = RtoC 0.
Proof.
  cbn zeta. split; [reflexivity|]. split; [cbn; lia|]. split; [reflexivity|]. split; [reflexivity|].
  unfold freq. cbn [length csum nth Nat.div Nat.divmod fst snd Z.of_nat Pos.of_succ_nat Pos.succ Z.sub Z.add Z.opp Z.pos_sub Z.eqb Pos.pred_double Z.succ_double Z.pred_double Z.double].
  cbn. assert (HP := PI_RGT_0). rewrite (cis_cong (PI * -2 * -1) 0 1) by ring. rewrite (cis_cong (PI * 2 * -1) 0 (-1)) by ring. rewrite cis_0.
  apply injective_projections; cbn; field; repeat split; try lra; try (apply Rgt_not_eq; nra).
Qed.
Example ex_periodic : (fun x => RtoC (cos (PI * x))) (-1)%R = (fun x => RtoC (cos (PI * x))) 1%R.
Proof. cbv beta. replace (PI * -1)%R with (- PI)%R by ring. rewrite cos_neg, Rmult_1_r. reflexivity. Qed.
'''
gen('PropTrig.v',hdr,items,ex)
