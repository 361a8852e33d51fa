(** Properties of Fourier functions on [-1,1] (trigtech).  Vocabulary in
    TrigSpec.v: [evalF c x] the trigonometric polynomial with coefficients c,
    [coef c z] its coefficient of e^(i pi z x), [gridpt n j] the points,
    [cderive_n], [cint] derivative and integral of complex functions.
    [trig_ok t]: values and coefficients of t describe the same function
    (C65_objects says it in full); [represents r F re]: the coefficients of r
    give F, its values agree with them up to the tolerance for being real,
    and if [re] holds r is consistent and flagged real. *)
From Coq Require Import Reals ZArith List Arith Lia Lra Bool.
From Coquelicot Require Import Coquelicot.
From Verif Require Import Base ToolsProofs ChebModel ChebChop TrigSpec TrigBase TrigModel TrigTrans TrigEval TrigCalc TrigCalc2 TrigModel2 TrigObj TrigObj2.
Import ListNotations.
Open Scope R_scope.
Open Scope C_scope.

(** C29: entry j of coeffs2vals is the value at the j-th equispaced point. *)
Theorem C29_values : forall c j,
  (j < length c)%nat -> nth j (coeffs2vals1 c) C0 = evalF c (gridpt (length c) j).
Proof. exact trig_values_correct. Qed.
Print Assumptions C29_values.

(** C29: the two transforms are inverse to each other. *)
Theorem C29_values_coeffs_values : forall v,
  coeffs2vals1 (vals2coeffs1 v) = v.
Proof. exact trig_v2c_c2v. Qed.
Print Assumptions C29_values_coeffs_values.

(** C29. *)
Theorem C29_coeffs_values_coeffs : forall c,
  vals2coeffs1 (coeffs2vals1 c) = c.
Proof. exact trig_c2v_v2c. Qed.
Print Assumptions C29_coeffs_values_coeffs.

(** C29: vals2coeffs gives the interpolating trigonometric polynomial. *)
Theorem C29_interpolation : forall v j,
  (j < length v)%nat -> evalF (vals2coeffs1 v) (gridpt (length v) j) = nth j v C0.
Proof. exact trig_interpolates. Qed.
Print Assumptions C29_interpolation.

(** C29: it is the only one of that length. *)
Theorem C29_unique : forall c d,
  length c = length d -> (forall j, (j < length c)%nat -> evalF c (gridpt (length c) j) = evalF d (gridpt (length c) j)) -> c = d.
Proof. exact grid_unique. Qed.
Print Assumptions C29_unique.

(** C30: Horner evaluation of complex coefficients. *)
Theorem C30_horner_complex : forall c x,
  (1 <= length c)%nat -> horner_cmplx c x = evalF c x.
Proof. exact horner_cmplx_correct. Qed.
Print Assumptions C30_horner_complex.

(** C30: the evaluation used for functions flagged real. *)
Theorem C30_horner_real : forall c x,
  (1 <= length c)%nat -> hermitian c -> RtoC (horner_real c x) = evalF c x.
Proof. exact horner_real_correct. Qed.
Print Assumptions C30_horner_real.

(** C30: f(x). *)
Theorem C30_call : forall t x,
  trig_ok t -> fst (tcall t x) = evalF (tco t) x.
Proof. exact trig_call_correct. Qed.
Print Assumptions C30_call.

(** C30: for any coefficients; the flag real is set up to a tolerance, so f(x) may be off by that tolerance. *)
Theorem C30_call_error : forall c x,
  (1 <= length c)%nat ->
  (Cmod (fst (tcall (trig_of_coeffs c) x) - evalF c x)%C <= 6 * INR (length c) * teps * Rmax teps (tvscale c))%R.
Proof. exact trig_call_error. Qed.
Print Assumptions C30_call_error.

(** C31: prolong to N coefficients, any parities. *)
Theorem C31_prolong : forall c N,
  (1 <= length c <= N)%nat ->
  exists d, prolong_col c N = Some d /\ length d = N /\ forall x, evalF d x = evalF c x.
Proof. exact trig_prolong_correct. Qed.
Print Assumptions C31_prolong.

(** C31: prolong of an object. *)
Theorem C31_prolong_object : forall t N,
  trig_ok t -> (length (tco t) <= N)%nat ->
  exists r, tprolong t N = Some r /\ trig_ok r /\ length (tco r) = N /\ tre r = tre t /\ forall x, evalF (tco r) x = evalF (tco t) x.
Proof. exact trig_obj_prolong. Qed.
Print Assumptions C31_prolong_object.

(** C31: a shorter length keeps exactly the low frequencies. *)
Theorem C31_prolong_shorter : forall c N,
  (1 <= N < length c)%nat ->
  exists d, prolong_col c N = Some d /\ length d = N /\
    (forall z, (2 * Z.abs z < Z.of_nat N)%Z -> coef d z = coef c z) /\
    (forall z, (2 * Z.abs z > Z.of_nat N)%Z -> coef d z = RtoC 0).
Proof. exact trig_chop_correct. Qed.
Print Assumptions C31_prolong_shorter.

(** C68: the function prolong of trig_simplify.py. *)
Theorem C68_prolong_function : forall c N,
  (1 <= length c < N)%nat ->
  exists d, prolong_fun_col c N = Some d /\ length d = N /\ forall x, evalF d x = evalF c x.
Proof. exact trig_prolong_fun_correct. Qed.
Print Assumptions C68_prolong_function.

(** C68 is false there for N = n: the function returns nothing and the callers' unpacking raises. *)
Theorem C68_prolong_function_same_refuted : forall c,
  prolong_fun_col c (length c) = None.
Proof. exact trig_prolong_fun_same. Qed.
Print Assumptions C68_prolong_function_same_refuted.

(** C68: prolong_coeffs, except from even n to n + 1. *)
Theorem C68_prolong_coeffs_partial : forall c N,
  (1 <= length c <= N)%nat -> (Nat.even (length c) = true -> (length c + 1 < N)%nat) ->
  exists d, prolong_coeffs_col c N = Some d /\ length d = N /\ forall x, evalF d x = evalF c x.
Proof. exact trig_prolong_coeffs_correct. Qed.
Print Assumptions C68_prolong_coeffs_partial.

(** C68 is false there: from even n to n + 1 nothing is changed, not even the length. *)
Theorem C68_prolong_coeffs_refuted : forall c,
  (1 <= length c)%nat -> Nat.even (length c) = true -> prolong_coeffs_col c (length c + 1) = Some c.
Proof. exact trig_prolong_coeffs_wrong. Qed.
Print Assumptions C68_prolong_coeffs_refuted.

(** C32: diff of any order; for even lengths the order must be even or the highest coefficient zero. *)
Theorem C32_diff_partial : forall c n x,
  (1 <= length c)%nat ->
  (Nat.even (length c) = true -> nth 0 c (RtoC 0) = RtoC 0 \/ Nat.even n = true) ->
  length (tdiff_col c n) = length c /\ cderive_n (evalF c) n x (evalF (tdiff_col c n) x).
Proof. exact trig_diff_correct. Qed.
Print Assumptions C32_diff_partial.

(** C32 is false otherwise: the derivative of cos(pi x) with two coefficients has real part 0 at 1/2, not -pi. *)
Theorem C32_diff_refuted :
  exists c x, length c = 2%nat /\ (forall t, evalF c t = RtoC (cos (PI * t))) /\
  ~ cderive_n (evalF c) 1 x (evalF (tdiff_col c 1) x) /\ Re (evalF (tdiff_col c 1) x) = 0%R /\ is_derive (fun t => Re (evalF c t)) x (- PI)%R.
Proof. exact trig_diff_even_wrong. Qed.
Print Assumptions C32_diff_refuted.

(** C67: sum is the integral over one period. *)
Theorem C67_sum : forall c,
  (1 <= length c)%nat -> cint (evalF c) (-1) 1 (tsum_col c).
Proof. exact trig_sum_correct. Qed.
Print Assumptions C67_sum.

(** C33 is false: for cos(pi x) cumsum changes f, its result is purely imaginary and does not vanish at -1, for every tolerance. *)
Theorem C33_cumsum_refuted :
  exists c, (forall x, evalF c x = RtoC (cos (PI * x))) /\
  forall thr, (0 <= thr)%R -> exists r f', tcumsum_col c thr 1 = Some (r, f') /\ f' <> c /\
   (forall x, Re (evalF r x) = 0%R) /\ evalF r (-1) <> RtoC 0.
Proof. exact trig_cumsum_wrong. Qed.
Print Assumptions C33_cumsum_refuted.

(** C33 is false: a constant (also zero) raises. *)
Theorem C33_cumsum_constant_refuted : forall a thr,
  tcumsum_col [a] thr 1 = None.
Proof. exact trig_cumsum_constant_raises. Qed.
Print Assumptions C33_cumsum_constant_refuted.

(** C33 holds for odd lengths when coefficients 0 and 1 vanish and the zero-mean anti-derivative vanishes at -1 already. *)
Theorem C33_cumsum_partial : forall c thr,
  Nat.odd (length c) = true -> (3 <= length c)%nat -> (0 <= thr)%R ->
  nth (length c / 2) c (RtoC 0) = RtoC 0 -> nth (length c / 2 + 1) c (RtoC 0) = RtoC 0 ->
  csum (length c) (fun k => if Z.eqb (freq (length c) k) 0 then RtoC 0 else nth k c (RtoC 0) / (Ci * RtoC (PI * IZR (freq (length c) k))) * cis (PI * IZR (freq (length c) k) * -1)) = RtoC 0 ->
  exists r, tcumsum_col c thr 1 = Some (r, c) /\ length r = length c /\ evalF r (-1) = RtoC 0 /\
    forall x, cderive_n (evalF r) 1 x (evalF c x).
Proof. exact trig_cumsum_special. Qed.
Print Assumptions C33_cumsum_partial.

(** C34 is false: 1/2 comes out as 2. *)
Theorem C34_number_divided_by_function_refuted :
  exists f r, trig_ok f /\ (forall x, evalF (tco f) x = RtoC 2) /\ tnum_div (RtoC 1) f = Some r /\ forall x, evalF (tco r) x = RtoC 2.
Proof. exact trig_num_div_wrong. Qed.
Print Assumptions C34_number_divided_by_function_refuted.

(** C34 is false: 2 ** 3 samples 3 ** 2 = 9. *)
Theorem C34_number_to_the_power_refuted :
  exists f, trig_ok f /\ (forall x, evalF (tco f) x = RtoC 3) /\ forall x, tnum_pow_samples 2 f x = RtoC 9.
Proof. exact trig_num_pow_wrong. Qed.
Print Assumptions C34_number_to_the_power_refuted.

(** C35: real(f), when f is flagged real or some sample has real part above the threshold. *)
Theorem C35_real_partial : forall f,
  trig_ok f -> (tre f = true \/ exists j, (j < length (tva f))%nat /\ (teps <= Re (nth j (tva f) C0))%R) ->
  represents (treal_part f) (fun x => RtoC (Re (evalF (tco f) x))) True.
Proof. exact trig_real_correct. Qed.
Print Assumptions C35_real_partial.

(** C35: imag(f). *)
Theorem C35_imag : forall f,
  trig_ok f -> represents (timag_part f) (fun x => RtoC (Im (evalF (tco f) x))) True.
Proof. exact trig_imag_correct. Qed.
Print Assumptions C35_imag.

(** C35 is false: the real part of -1 + i comes out as 0. *)
Theorem C35_real_refuted :
  exists f, trig_ok f /\ (forall x, Re (evalF (tco f) x) = (-1)%R) /\ forall x, evalF (tco (treal_part f)) x = RtoC 0.
Proof. exact trig_real_wrong. Qed.
Print Assumptions C35_real_refuted.

(** C35 is false for the module function conj, called directly: conj(-1 + i) = -1 + i. *)
Theorem C35_handler_refuted :
  exists f, trig_ok f /\ (forall x, evalF (tco f) x = ((-1)%R, 1%R)) /\ forall x, evalF (tco (tconj f)) x = ((-1)%R, 1%R).
Proof. exact trig_conj_wrong. Qed.
Print Assumptions C35_handler_refuted.

(** C35: the module function conj, called directly, of a real function. *)
Theorem C35_handler_partial : forall f x,
  trig_ok f -> tre f = true -> evalF (tco (tconj f)) x = Cconj (evalF (tco f) x).
Proof. exact trig_conj_real. Qed.
Print Assumptions C35_handler_partial.

(** C59: odd lengths, and functions flagged complex. *)
Theorem C59_call_stable_partial : forall t x,
  Nat.odd (length (tco t)) = true \/ tre t = false -> snd (tcall t x) = t.
Proof. exact trig_call_stable. Qed.
Print Assumptions C59_call_stable_partial.

(** C59 is false: cos(pi x) with two coefficients is 1 at 0 the first time, 1/2 the second. *)
Theorem C59_call_refuted :
  exists t, trig_ok t /\ (forall x, evalF (tco t) x = RtoC (cos (PI * x))) /\
  let (v, t') := tcall t 0 in v = RtoC 1 /\ fst (tcall t' 0) = RtoC (1 / 2).
Proof. exact trig_call_changes. Qed.
Print Assumptions C59_call_refuted.

(** C60. *)
Theorem C60_inner : forall c d,
  (1 <= length c)%nat -> (1 <= length d)%nat ->
  exists r, tinner_col c d = Some r /\ cint (fun x => evalF c x * Cconj (evalF d x)) (-1) 1 r.
Proof. exact trig_inner_correct. Qed.
Print Assumptions C60_inner.

(** C61: f + g. *)
Theorem C61_add : forall f g,
  trig_ok f -> trig_ok g ->
  exists r, tadd f g = Some r /\ represents r (fun x => evalF (tco f) x + evalF (tco g) x) (tre f = true /\ tre g = true).
Proof. exact trig_add_correct. Qed.
Print Assumptions C61_add.

(** C61: f - g. *)
Theorem C61_subtract : forall f g,
  trig_ok f -> trig_ok g -> tre g = isrealb (tva g) (tco g) ->
  exists r, tsub f g = Some r /\ represents r (fun x => evalF (tco f) x - evalF (tco g) x) (tre f = true /\ tre g = true).
Proof. exact trig_sub_correct. Qed.
Print Assumptions C61_subtract.

(** C61: -f. *)
Theorem C61_negative : forall f,
  trig_ok f -> represents (tneg f) (fun x => - evalF (tco f) x) (tre f = true).
Proof. exact trig_neg_correct. Qed.
Print Assumptions C61_negative.

(** C61: f + a. *)
Theorem C61_add_number : forall f a,
  trig_ok f -> represents (tadd_num f a) (fun x => evalF (tco f) x + a) (tre f = true /\ Im a = 0%R).
Proof. exact trig_add_num_correct. Qed.
Print Assumptions C61_add_number.

(** C61: f * a. *)
Theorem C61_multiply_number : forall f a,
  trig_ok f -> represents (tmul_num f a) (fun x => evalF (tco f) x * a) (tre f = true /\ Im a = 0%R).
Proof. exact trig_mul_num_correct. Qed.
Print Assumptions C61_multiply_number.

(** C61: f / a, a not tiny. *)
Theorem C61_divide_number : forall f a,
  trig_ok f -> (/ 10 ^ 16 <= Cmod a)%R ->
  exists r, tdiv_num f a = Some r /\ represents r (fun x => evalF (tco f) x / a) (tre f = true /\ Im a = 0%R).
Proof. exact trig_div_num_correct. Qed.
Print Assumptions C61_divide_number.

(** C66 is false for even lengths: too few points are used and the product is aliased. *)
Theorem C66_multiply_even_refuted :
  exists c d, length c = 2%nat /\ length d = 2%nat /\ exists h, tmul_col c d = Some h /\ evalF h (/ 4)%R <> evalF c (/ 4)%R * evalF d (/ 4)%R.
Proof. exact trig_mul_even_wrong. Qed.
Print Assumptions C66_multiply_even_refuted.

(** C62: simplify keeps the coefficients of the frequencies below some K; the dropped pairs are at most tol^(2/5). *)
Theorem C62_simplify : forall c tol,
  (1 <= length c)%nat ->
  exists r K, tsimplify_col c tol = Some r /\ truncation K r c /\
    ((0 < tol < 1)%R -> forall z, (Z.of_nat K <= Z.abs z)%Z -> (Cmod (coef c z) + Cmod (coef c (- z)) <= Rpower tol (2 / 5))%R).
Proof. exact trig_simplify_correct. Qed.
Print Assumptions C62_simplify.

(** C62: the function changes by at most the sum of the dropped moduli. *)
Theorem C62_simplify_error : forall K r c x,
  (1 <= length c)%nat -> truncation K r c ->
  (Cmod (evalF r x - evalF c x)%C <= rsum (2 * (length c / 2) + 1) (fun k => if Z.leb (Z.of_nat K) (Z.abs (Z.of_nat k - Z.of_nat (length c / 2))) then Cmod (coef c (Z.of_nat k - Z.of_nat (length c / 2))) else 0))%R.
Proof. exact truncation_error. Qed.
Print Assumptions C62_simplify_error.

(** C63: odd lengths, or highest coefficient zero. *)
Theorem C63_circshift_partial : forall c a x,
  (Nat.even (length c) = true -> nth 0 c (RtoC 0) = RtoC 0) ->
  length (circshift_col c a) = length c /\ evalF (circshift_col c a) x = evalF c (x - a).
Proof. exact trig_circshift_correct. Qed.
Print Assumptions C63_circshift_partial.

(** C63 is false for even lengths. *)
Theorem C63_circshift_refuted :
  exists c a x, length c = 2%nat /\ (forall t, evalF c t = RtoC (cos (PI * t))) /\
  evalF (circshift_col c a) x <> evalF c (x - a).
Proof. exact trig_circshift_even_wrong. Qed.
Print Assumptions C63_circshift_refuted.

(** C64: odd lengths. *)
Theorem C64_convolution_partial : forall c d x,
  Nat.odd (length c) = true -> length d = length c ->
  cint (fun t => evalF c (x - t) * evalF d t) (-1) 1 (evalF (circconv_col c d) x).
Proof. exact trig_conv_correct. Qed.
Print Assumptions C64_convolution_partial.

(** C64 is false for even lengths: cos * cos at 0 is 1, the code gives 2. *)
Theorem C64_convolution_refuted :
  exists c, length c = 2%nat /\ (forall t, evalF c t = RtoC (cos (PI * t))) /\
  ~ cint (fun t => evalF c (0 - t) * evalF c t) (-1) 1 (evalF (circconv_col c c) 0).
Proof. exact trig_conv_even_wrong. Qed.
Print Assumptions C64_convolution_refuted.

(** C65: samples of a periodic function. *)
Theorem C65_resample : forall op n j,
  op (-1)%R = op 1%R -> (j < n)%nat -> nth j (trig_resample op n) C0 = op (gridpt n j).
Proof. exact trig_resample_correct. Qed.
Print Assumptions C65_resample.

(** C65: samples of any function; the two values at the ends are averaged. *)
Theorem C65_resample_general : forall op n,
  length (trig_resample op n) = n /\
  ((1 <= n)%nat -> nth 0 (trig_resample op n) C0 = (op (-1)%R + op 1%R) / RtoC 2) /\
  (forall j, (1 <= j < n)%nat -> nth j (trig_resample op n) C0 = op (gridpt n j)).
Proof. exact trig_resample_general. Qed.
Print Assumptions C65_resample_general.

(** C65: doubling the grid keeps the old samples and evaluates only the new points. *)
Theorem C65_refine : forall op v,
  (1 <= length v)%nat -> op (-1)%R = op 1%R ->
  (forall j, (j < length v)%nat -> nth j v C0 = op (gridpt (length v) j)) ->
  length (trig_nested op v) = (2 * length v)%nat /\
  forall j, (j < 2 * length v)%nat -> nth j (trig_nested op v) C0 = op (gridpt (2 * length v) j).
Proof. exact trig_refine_correct. Qed.
Print Assumptions C65_refine.

(** What a consistent object is: [trig_ok] in terms of values and coefficients. *)
Theorem C65_objects : forall t,
  trig_ok t <-> (1 <= length (tco t))%nat /\ length (tva t) = length (tco t) /\
  (forall j, (j < length (tco t))%nat -> nth j (tva t) (RtoC 0) = evalF (tco t) (gridpt (length (tco t)) j)) /\
  (tre t = true -> forall x, Im (evalF (tco t) x) = 0%R).
Proof. exact trig_ok_meaning. Qed.
Print Assumptions C65_objects.


(** ** The hypotheses are met by concrete, non-trivial objects *)
(** cos(pi x) with three coefficients *)
Definition ex_cos : trig := {| tco := [RtoC (/ 2); RtoC 0; RtoC (/ 2)]; tva := coeffs2vals1 [RtoC (/ 2); RtoC 0; RtoC (/ 2)]; tre := true |}.
(** e^(i pi x) *)
Definition ex_exp : trig := {| tco := [RtoC 0; RtoC 0; RtoC 1]; tva := coeffs2vals1 [RtoC 0; RtoC 0; RtoC 1]; tre := false |}.
Example ex_cos_ok : trig_ok ex_cos /\ Nat.odd (length (tco ex_cos)) = true /\ forall x, evalF (tco ex_cos) x = RtoC (cos (PI * x)).
Proof.
  assert (E : forall x, evalF (tco ex_cos) x = RtoC (cos (PI * x))).
  { intros x. unfold ex_cos, evalF, mode, freq. cbn. replace (PI * -1 * x)%R with (- (PI * x))%R by ring. replace (PI * 1 * x)%R with (PI * x)%R by ring.
    rewrite Rmult_0_r, Rmult_0_l, cis_0, cis_neg. unfold cis. apply injective_projections; cbn; field. }
  split; [|split; [reflexivity|exact E]]. split; [cbn; lia|]. split; [reflexivity|]. intros _ x. rewrite E. reflexivity.
Qed.
Example ex_exp_ok : trig_ok ex_exp /\ teqb ex_cos ex_exp = false /\ forall x, evalF (tco ex_exp) x = cis (PI * x).
Proof.
  split; [|split].
  - split; [cbn; lia|]. split; [reflexivity|]. discriminate.
  - unfold teqb, leqb, ceqb. cbn. destruct (TrigTrans.Reqb_true (/ 2) 0) as [A _]. destruct (Reqb (/ 2) 0); [|reflexivity]. specialize (A eq_refl). lra.
  - intros x. unfold ex_exp, evalF, mode, freq. cbn. replace (PI * 1 * x)%R with (PI * x)%R by ring. apply injective_projections; cbn; ring.
Qed.
Example ex_sub_flag : tre (trig_of_coeffs [RtoC (/ 2); RtoC 0; RtoC (/ 2)]) = isrealb (coeffs2vals1 [RtoC (/ 2); RtoC 0; RtoC (/ 2)]) [RtoC (/ 2); RtoC 0; RtoC (/ 2)].
Proof. reflexivity. Qed.
(** cos(2 pi x) - cos(4 pi x)/... : frequencies 0 and 1 vanish; the
    anti-derivative of cos(2 pi x) is sin(2 pi x)/(2 pi), zero at -1 *)
Example ex_cumsum : let c := [RtoC (/ 2); RtoC 0; RtoC 0; RtoC 0; RtoC (/ 2)] in
  Nat.odd (length c) = true /\ (3 <= length c)%nat /\ nth (length c / 2) c (RtoC 0) = RtoC 0 /\ nth (length c / 2 + 1) c (RtoC 0) = RtoC 0 /\
  csum (length c) (fun k => if Z.eqb (freq (length c) k) 0 then RtoC 0 else nth k c (RtoC 0) / (Ci * RtoC (PI * IZR (freq (length c) k))) * cis (PI * IZR (freq (length c) k) * -1)) = RtoC 0.
Proof.
  cbn zeta. split; [reflexivity|]. split; [cbn; lia|]. split; [reflexivity|]. split; [reflexivity|].
  unfold freq. cbn [length csum nth Nat.div Nat.divmod fst snd Z.of_nat Pos.of_succ_nat Pos.succ Z.sub Z.add Z.opp Z.pos_sub Z.eqb Pos.pred_double Z.succ_double Z.pred_double Z.double].
  cbn. assert (HP := PI_RGT_0). rewrite (cis_cong (PI * -2 * -1) 0 1) by ring. rewrite (cis_cong (PI * 2 * -1) 0 (-1)) by ring. rewrite cis_0.
  apply injective_projections; cbn; field; repeat split; try lra; try (apply Rgt_not_eq; nra).
Qed.
Example ex_periodic : (fun x => RtoC (cos (PI * x))) (-1)%R = (fun x => RtoC (cos (PI * x))) 1%R.
Proof. cbv beta. replace (PI * -1)%R with (- PI)%R by ring. rewrite cos_neg, Rmult_1_r. reflexivity. Qed.
