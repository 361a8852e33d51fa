(** Error analysis of sampling at computed Chebyshev points. *)
From Coq Require Import Reals List Arith Lia Lra Bool ZArith.
From Flocq Require Import Core.
From Verif Require Import Base ToolsProofs ChebSpec ChebModel ChebDct ChebMath FlModel FlProofs FlSum FlMap FlTrigModel FlTrig FlMul FlDctModel FlDct PropFlD FlSampleModel.
Import ListNotations.
Open Scope R_scope.
Local Opaque uro eta.

(** rounding commutes with doubling away from underflow *)
Lemma fl_twice x : bpow radix2 (-1000) <= Rabs x -> fl (2 * x) = 2 * fl x.
Proof.
  intros H. assert (X0 : x <> 0). { intros ->. rewrite Rabs_R0 in H. pose proof (bpow_gt_0 radix2 (-1000)). lra. }
  assert (M : (-1000 < mag radix2 x)%Z) by (apply mag_gt_bpow; exact H).
  assert (E2 : 2 * x = x * bpow radix2 1) by (replace (bpow radix2 1) with 2 by reflexivity; ring).
  assert (MM : mag radix2 (x * bpow radix2 1) = (mag radix2 x + 1)%Z :> Z) by (apply mag_mult_bpow, X0).
  unfold fl, round, F2R, scaled_mantissa, cexp. cbn [Fnum Fexp]. rewrite E2, MM. unfold FLT_exp. set (m := mag radix2 x : Z) in *.
  replace (Z.max (m + 1 - 53) (-1074)) with (Z.max (m - 53) (-1074) + 1)%Z by lia. set (f := Z.max (m - 53) (-1074)).
  replace (x * bpow radix2 1 * bpow radix2 (- (f + 1))) with (x * bpow radix2 (- f)). 2:{ rewrite Rmult_assoc, <- bpow_plus. f_equal. f_equal. lia. }
  rewrite bpow_plus. replace (bpow radix2 1) with 2 by reflexivity. ring.
Qed.
Lemma sin_lip x y : Rabs (sin x - sin y) <= Rabs (x - y).
Proof.
  destruct (Req_dec x y) as [->|N]; [rewrite !Rminus_diag_eq by reflexivity; lra|].
  assert (G : forall p q, p < q -> Rabs (sin q - sin p) <= Rabs (q - p)).
  { intros p q H. destruct (MVT_cor2 sin cos p q H ltac:(intros; apply derivable_pt_lim_sin)) as (c & E & _). rewrite E, Rabs_mult. assert (Rabs (cos c) <= 1) by (apply Rabs_le; apply COS_bound). pose proof (Rabs_pos (q - p)). rewrite <- (Rmult_1_l (Rabs (q - p))) at 2. apply Rmult_le_compat_r; assumption. }
  destruct (Rlt_le_dec y x) as [H|H]; [apply G, H|]. rewrite (Rabs_minus_sym (sin x)), (Rabs_minus_sym x). apply G. lra.
Qed.
Lemma fchebpts_length L N : length (fchebpts L N) = N.
Proof. destruct N as [|[|N]]; [reflexivity|reflexivity|apply mk_length]. Qed.
Lemma fchebpts_nth L N j : (2 <= N)%nat -> (j < N)%nat -> nth j (fchebpts L N) 0 = lsin L (fdiv (fmul fpi (2 * INR j - INR (N - 1))) (2 * INR (N - 1))).
Proof. intros H Hj. destruct N as [|[|N]]; [lia|lia|]. unfold fchebpts. rewrite nth_mk by exact Hj. reflexivity. Qed.

(** the points *)
Lemma points_err L d N j : libm_within L d -> (2 <= N)%nat -> (j < N)%nat -> Rabs (nth j (fchebpts L N) 0 - cheb_point N j) <= d + 16 * uro.
Proof.
  intros HL H2 Hj. destruct uro_small as [U0 _]. pose proof tiny_uro as U1. pose proof eta_pos as E0. pose proof eta_uro as EU. rewrite fchebpts_nth, <- point_model by assumption. unfold chebpts_type2_compute. destruct N as [|[|N]]; [lia|lia|]. rewrite nth_mk by exact Hj. set (M := INR (S (S N) - 1)). set (k := 2 * INR j - M).
  assert (M1 : 1 <= M) by (unfold M; change 1 with (INR 1); apply le_INR; lia).
  assert (K : Rabs k <= M). { assert (INR j <= M) by (apply le_INR; lia). pose proof (pos_INR j). apply Rabs_le. unfold k. lra. }
  pose proof (arg_err k) as A. set (p := fmul fpi k) in *. set (t := fdiv p (2 * M)). destruct (HL t ltac:(apply fl_is_double)) as (_ & S1 & _).
  assert (I0 : 0 < / (2 * M)) by (apply Rinv_0_lt_compat; lra). assert (I1 : / (2 * M) <= / 2) by (apply Rinv_le_contravar; lra). assert (IM : / (2 * M) * M = / 2) by (field; lra).
  assert (A2 : Rabs (p / (2 * M) - PI * k / (2 * M)) <= 5 * uro + / 2 * eta).
  { replace (p / (2 * M) - PI * k / (2 * M)) with (/ (2 * M) * (p - PI * k)) by (field; lra). rewrite Rabs_mult, (Rabs_right (/ (2 * M))) by lra.
    apply Rle_trans with (/ (2 * M) * (10 * uro * M + eta)).
    - apply Rmult_le_compat_l; [lra|]. assert (10 * uro * Rabs k <= 10 * uro * M) by (apply Rmult_le_compat_l; lra). lra.
    - replace (/ (2 * M) * (10 * uro * M + eta)) with (10 * uro * (/ (2 * M) * M) + / (2 * M) * eta) by ring. rewrite IM. assert (/ (2 * M) * eta <= / 2 * eta) by (apply Rmult_le_compat_r; lra). lra. }
  assert (B : Rabs (PI * k / (2 * M)) <= 2). { unfold Rdiv. rewrite !Rabs_mult, (Rabs_right (/ (2 * M))), (Rabs_right PI) by (pose proof PI_RGT_0; lra). pose proof PI_4. pose proof PI_RGT_0. apply Rle_trans with (4 * M * / (2 * M)); [apply Rmult_le_compat_r; [lra|]; apply Rmult_le_compat; try lra; apply Rabs_pos|]. replace (4 * M * / (2 * M)) with (4 * (/ (2 * M) * M)) by ring. rewrite IM. lra. }
  assert (TE : Rabs (t - PI * k / (2 * M)) <= 16 * uro).
  { eapply Rle_trans; [apply (fl_dist _ _ _ A2)|]. assert (uro * (Rabs (PI * k / (2 * M)) + (5 * uro + / 2 * eta)) <= uro * 3) by (apply Rmult_le_compat_l; lra). lra. }
  pose proof (sin_lip t (PI * k / (2 * M))) as SL. replace (lsin L t - sin (PI * k / (2 * M))) with ((lsin L t - sin t) + (sin t - sin (PI * k / (2 * M)))) by ring. eapply Rle_trans; [apply Rabs_triang|]. lra.
Qed.

(** nested grids share points exactly *)
Lemma dbl_fpi_lower : 3 <= fpi.
Proof. unfold fpi. rewrite <- (fl_double 3) by (apply (dbl_Z 3); cbn; lia). apply fl_le. pose proof PI2_3_2. unfold PI2 in *. lra. Qed.
Lemma int_scaled k : fmul fpi (2 * IZR k) = 2 * fmul fpi (IZR k).
Proof.
  destruct (Z.eq_dec k 0) as [->|K]; [unfold fmul; replace (fpi * (2 * 0)) with 0 by ring; rewrite Rmult_0_r, fl_0; ring|].
  unfold fmul. replace (fpi * (2 * IZR k)) with (2 * (fpi * IZR k)) by ring. apply fl_twice. rewrite Rabs_mult. pose proof dbl_fpi_lower. rewrite (Rabs_right fpi) by lra. rewrite <- abs_IZR. assert (1 <= IZR (Z.abs k)) by (apply IZR_le; lia).
  apply Rle_trans with 1; [change 1 with (bpow radix2 0); apply bpow_le; lia|]. assert (3 * 1 <= fpi * IZR (Z.abs k)) by (apply Rmult_le_compat; lra). lra.
Qed.
Lemma points_nested L N j : (2 <= N)%nat -> (j < N)%nat -> nth (2 * j) (fchebpts L (2 * N - 1)) 0 = nth j (fchebpts L N) 0.
Proof.
  intros H2 Hj. rewrite !fchebpts_nth by lia. f_equal.
  assert (E1 : INR (2 * N - 1 - 1) = 2 * INR (N - 1)) by (replace (2 * N - 1 - 1)%nat with (2 * (N - 1))%nat by lia; rewrite mult_INR; reflexivity).
  assert (E2 : 2 * INR j - INR (N - 1) = IZR (2 * Z.of_nat j - Z.of_nat (N - 1))) by (rewrite minus_IZR, mult_IZR, <- !INR_IZR_INZ; reflexivity).
  assert (E3 : 2 * INR (2 * j) - INR (2 * N - 1 - 1) = 2 * IZR (2 * Z.of_nat j - Z.of_nat (N - 1))) by (rewrite E1, mult_INR, <- E2; cbn [INR]; ring).
  rewrite E3, int_scaled, E1, E2. unfold fdiv. f_equal. assert (INR (N - 1) <> 0) by (apply not_0_INR; lia). field. assumption.
Qed.
Lemma nested_sample L op N : (2 <= N)%nat -> fnested L op (fsample L op N) = fsample L op (2 * N - 1).
Proof.
  intros H2. unfold fnested. assert (LS : length (fsample L op N) = N) by (unfold fsample; rewrite map_length; apply fchebpts_length). rewrite LS. apply list_ext with 0; [unfold fsample; rewrite mk_length, map_length, fchebpts_length; reflexivity|].
  rewrite mk_length. intros i Hi. rewrite nth_mk by exact Hi. assert (MN : forall l k, (k < length l)%nat -> nth k (map op l) 0 = op (nth k l 0)) by (intros l k Hk; rewrite (nth_indep _ 0 (op 0)) by (rewrite map_length; exact Hk); apply map_nth).
  unfold fsample. rewrite (MN (fchebpts L (2 * N - 1)) i) by (rewrite fchebpts_length; exact Hi). destruct (Nat.even i) eqn:E.
  - apply Nat.even_spec in E. destruct E as [m ->]. rewrite (Nat.mul_comm 2 m), Nat.div_mul by lia. rewrite MN by (rewrite fchebpts_length; lia). rewrite (Nat.mul_comm m 2), points_nested by lia. reflexivity.
  - assert (O : Nat.odd i = true) by (rewrite <- Nat.negb_even, E; reflexivity). apply Nat.odd_spec in O. destruct O as [m ->]. replace (2 * m + 1 - 1)%nat with (m * 2)%nat by lia. rewrite Nat.div_mul by lia. rewrite MN by (rewrite mk_length; lia). rewrite nth_mk by lia. reflexivity.
Qed.

(** a fit of perturbed values *)
Lemma fit_near D d e h w eps M k : (2 <= length h)%nat -> length w = length h -> accurate_dct D (length h) d e -> 0 <= d <= / 16 -> 0 <= e -> 0 <= eps -> 0 <= M ->
  (forall j, (j < length h)%nat -> Rabs (evalT h (cheb_point (length h) j)) <= M) -> (forall j, (j < length h)%nat -> Rabs (nth j w 0 - evalT h (cheb_point (length h) j)) <= eps) -> (k < length h)%nat ->
  length (fpolyfit D w) = length h /\ Rabs (nth k (fpolyfit D w) 0 - nth k h 0) <= 6 * eps + 10 * (d + uro) * M + 2 * e + 4 * INR (length h) * eta.
Proof.
  intros H2 Lw HD Hd He Hp HM HB HW Hk. destruct uro_small as [U0 _]. pose proof tiny_uro as U1. pose proof eta_pos as E0.
  set (v := polyval1 h). assert (Lv : length v = length h) by apply polyval1_length. assert (VX : forall j, (j < length h)%nat -> nth j v 0 = evalT h (cheb_point (length h) j)) by (intros j Hj; unfold v; rewrite polyval1_spec by lia; rewrite point_model by assumption; reflexivity).
  assert (PV : nth k (polyfit1 v) 0 = nth k h 0) by (unfold v; rewrite polyfit_polyval by lia; reflexivity).
  destruct (polyfit_err D d e w k ltac:(lia)) as [LF B]; [rewrite Lw; apply accurate_within, HD|exact Hd|exact He|lia|]. rewrite Lw in B, LF. split; [exact LF|].
  pose proof (fit_minus v w k ltac:(lia) ltac:(lia) ltac:(lia)) as FM. set (dv := mk (length v) (fun i => nth i w 0 - nth i v 0)) in *. assert (Ld : length dv = length h) by (unfold dv; rewrite mk_length; exact Lv).
  pose proof (fit_bound dv k ltac:(lia) ltac:(lia)) as FB. rewrite Ld in FB. destruct (ratio _ H2) as [R0 R1].
  set (N := INR (length h)) in *. set (q := d + uro) in *. assert (q0 : 0 <= q <= / 8) by (unfold q; lra).
  assert (SD : abs_sum dv <= N * eps). { unfold abs_sum. rewrite Ld. unfold N. rewrite <- rsum_const. apply rsum_le. intros i Hi. unfold dv. rewrite nth_mk by lia. rewrite VX by exact Hi. apply HW, Hi. }
  assert (SW : lasum w <= N * (M + eps)). { rewrite lasum_nth, Lw. unfold N. rewrite <- rsum_const. apply rsum_le. intros i Hi. replace (nth i w 0) with (evalT h (cheb_point (length h) i) + (nth i w 0 - evalT h (cheb_point (length h) i))) by ring. eapply Rle_trans; [apply Rabs_triang|]. pose proof (HB i Hi). pose proof (HW i Hi). lra. }
  assert (Q1 : abs_sum dv / INR (length h - 1) <= 2 * eps). { unfold Rdiv. apply Rle_trans with (N * eps * / INR (length h - 1)); [apply Rmult_le_compat_r; lra|]. replace (N * eps * / INR (length h - 1)) with (eps * (N * / INR (length h - 1))) by ring. rewrite (Rmult_comm 2). apply Rmult_le_compat_l; [lra|exact R1]. }
  assert (Q2 : lasum w / INR (length h - 1) <= 2 * (M + eps)). { unfold Rdiv. apply Rle_trans with (N * (M + eps) * / INR (length h - 1)); [apply Rmult_le_compat_r; lra|]. replace (N * (M + eps) * / INR (length h - 1)) with ((M + eps) * (N * / INR (length h - 1))) by ring. rewrite (Rmult_comm 2). apply Rmult_le_compat_l; [lra|exact R1]. }
  assert (Q3 : 5 * q * (lasum w / INR (length h - 1)) <= 5 * q * (2 * (M + eps))) by (apply Rmult_le_compat_l; lra). replace (5 * q * (2 * (M + eps))) with (10 * (q * M) + 10 * (q * eps)) in Q3 by ring. assert (Q4 : q * eps <= / 8 * eps) by (apply Rmult_le_compat_r; lra).
  rewrite PV in FM. replace (nth k (fpolyfit D w) 0 - nth k h 0) with ((nth k (fpolyfit D w) 0 - nth k (polyfit1 w) 0) + (nth k (polyfit1 w) 0 - nth k h 0)) by ring. eapply Rle_trans; [apply Rabs_triang|]. rewrite FM.
  replace (10 * q * M) with (10 * (q * M)) by ring. lra.
Qed.
