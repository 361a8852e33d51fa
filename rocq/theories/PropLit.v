(** C173: the domain written into the generated code. *)
From Coq Require Import Reals List Arith Lia Lra ZArith.
From Flocq Require Import Core.
From Verif Require Import Base FlModel FlProofs FlSum FlMap.
Import ListNotations.
Open Scope R_scope.
Local Notation fexp := (FLT_exp (-1074) 53).
Local Instance pg53' : Prec_gt_0 53 := eq_refl.
Local Instance vexp' : Valid_exp fexp := FLT_exp_valid (-1074) 53.

(** ** Model *)
Definition radix10 : radix := Build_radix 10 eq_refl.
(** colloc/source/compiler.py 602-605, "{:.16f}".format(d): the decimal number with
    16 digits after the point nearest to d, ties to even. *)
Definition written (d : R) : R := round radix10 (FIX_exp (-16)) ZnearestE d.
(** The same lines when the generated code is executed: a decimal literal is read
    as the nearest double. *)
Definition read (t : R) : R := fl t.
(** The domain of the variable and of the constant functions of the generated code. *)
Definition generated_domain (a b : R) : R * R := (read (written a), read (written b)).

(** ** Properties *)
Lemma written_err d : Rabs (written d - d) <= / 2 * / 10 ^ 16.
Proof.
  unfold written. pose proof (error_le_half_ulp radix10 (FIX_exp (-16)) (fun n => negb (Z.even n)) d) as H. rewrite ulp_FIX in H. eapply Rle_trans; [exact H|].
  change (bpow radix10 (-16)) with (/ IZR 10000000000000000). apply Req_le. f_equal. f_equal. cbn [pow]. ring.
Qed.
Lemma written_opp d : written (- d) = - written d.
Proof. unfold written. apply round_NE_opp. Qed.
Lemma written_exact d n : d = IZR n * / 10 ^ 16 -> written d = d.
Proof.
  intros ->. unfold written. apply round_generic; [apply valid_rnd_N|]. apply generic_format_FIX. exists (Float radix10 n (-16)); [|reflexivity].
  unfold F2R. cbn [Fnum Fexp]. f_equal. change (bpow radix10 (-16)) with (/ IZR 10000000000000000). f_equal. cbn [pow]. ring.
Qed.
Lemma ten16 : 2 ^ 53 < 10 ^ 16 < 2 ^ 54.
Proof. rewrite !pow_IZR. split; apply IZR_lt; reflexivity. Qed.
Lemma bp_pow n : bpow radix2 (- Z.of_nat n) = / 2 ^ n.
Proof. rewrite bpow_opp. f_equal. rewrite <- IZR_Zpower by lia. cbn [radix_val radix2]. rewrite pow_IZR. f_equal. Qed.
Lemma half_gap : / 2 * / 10 ^ 16 < bpow radix2 (-54).
Proof.
  change (-54)%Z with (- Z.of_nat 54)%Z. rewrite bp_pow. pose proof ten16 as [T _]. assert (0 < 2 ^ 53) by (apply pow_lt; lra).
  change (2 ^ 54) with (2 * 2 ^ 53). rewrite Rinv_mult. apply Rmult_lt_compat_l; [lra|]. apply Rinv_lt_contravar; [apply Rmult_lt_0_compat; lra|exact T].
Qed.
Lemma pos_large d : is_double d -> / 2 <= d -> read (written d) = d.
Proof.
  intros F H. assert (D0 : d <> 0) by lra. assert (Hm : exists e : Z, mag radix2 d = e :> Z /\ bpow radix2 (e - 1) <= Rabs d < bpow radix2 e).
  { destruct (mag radix2 d) as [e He]. exists e. split; [reflexivity|exact (He D0)]. }
  destruct Hm as (e & Me & He). rewrite Rabs_right in He by lra.
  assert (E0 : (0 <= e)%Z). { assert (X : bpow radix2 (-1) < bpow radix2 e) by (change (bpow radix2 (-1)) with (/ 2); lra). apply lt_bpow in X. lia. }
  destruct (Req_dec d (bpow radix2 (e - 1))) as [P|P].
  - assert (W : written d = d); [|unfold read; rewrite W; apply fl_double, F].
    destruct (Z.eq_dec e 0) as [-> | E1].
    + apply (written_exact d 5000000000000000). rewrite P. change (bpow radix2 (0 - 1)) with (/ 2). cbn [pow]. field.
    + apply (written_exact d (2 ^ (e - 1) * 10 ^ 16)). rewrite P, mult_IZR. rewrite <- (IZR_Zpower radix2) by lia. cbn [radix_val radix2].
      replace (IZR (10 ^ 16)) with (10 ^ 16) by (rewrite pow_IZR; reflexivity). field.
  - assert (U : ulp radix2 fexp d = bpow radix2 (e - 53)). { rewrite ulp_neq_0 by exact D0. unfold cexp, FLT_exp. rewrite Me. f_equal. lia. }
    assert (G : bpow radix2 (-54) <= / 2 * ulp radix2 fexp d).
    { rewrite U. replace (e - 53)%Z with (1 + (e - 54))%Z by ring. rewrite bpow_plus. change (bpow radix2 1) with 2. rewrite <- Rmult_assoc, Rinv_l, Rmult_1_l by lra. apply bpow_le. lia. }
    pose proof (written_err d) as W. pose proof half_gap as HG. assert (V : Rabs (written d - d) < / 2 * ulp radix2 fexp d) by lra. apply Rabs_def2 in V.
    unfold read, fl. apply Rle_antisym.
    + apply round_N_le_midp; [exact vexp'|exact F|]. rewrite succ_eq_pos by lra. lra.
    + apply round_N_ge_midp; [exact vexp'|exact F|]. rewrite pred_eq_pos by lra. unfold pred_pos. rewrite Me.
      destruct (Req_bool_spec d (bpow radix2 (e - 1))) as [Q|Q]; [contradiction|]. lra.
Qed.
Lemma read_opp t : read (- t) = - read t.
Proof. apply fl_opp. Qed.
Lemma both_large d : is_double d -> / 2 <= Rabs d -> read (written d) = d.
Proof.
  intros F H. destruct (Rle_dec 0 d) as [P|P].
  - rewrite Rabs_right in H by lra. now apply pos_large.
  - rewrite Rabs_left in H by lra. rewrite <- (Ropp_involutive d), written_opp, read_opp. f_equal. apply pos_large; [apply dbl_opp, F|exact H].
Qed.
(** A number written with at most 16 digits after the point. *)
Lemma decimal_ok m : read (written (fl (IZR m * / 10 ^ 16))) = fl (IZR m * / 10 ^ 16).
Proof.
  set (t := IZR m * / 10 ^ 16). destruct (Rle_dec (/ 2) (Rabs (fl t))) as [L|L]; [apply both_large; [apply fl_is_double|exact L]|].
  unfold read. f_equal. pose proof ten16 as [T0 T1]. assert (P0 : 0 < 2 ^ 53) by (apply pow_lt; lra).
  (* |t| < 1/2 *)
  assert (TS : Rabs t < / 2).
  { apply Rnot_le_lt. intros K. apply L. assert (D2 : is_double (/ 2)). { apply generic_format_FLT. exists (Float radix2 1 (-1)); cbn; [unfold F2R; cbn; ring|lia|lia]. }
    unfold fl. rewrite <- (round_generic radix2 fexp ZnearestE (/ 2) D2) at 1. destruct (Rle_dec 0 t) as [Q|Q].
    - rewrite Rabs_right in K by lra. fold (fl t). rewrite Rabs_right; [apply (fl_le _ _ K)|]. apply Rle_ge. rewrite <- fl_0. apply fl_le, Q.
    - rewrite Rabs_left in K by lra. fold (fl t) (fl (/ 2)). rewrite <- Rabs_Ropp, <- fl_opp. rewrite Rabs_right; [apply (fl_le _ _ K)|]. apply Rle_ge. rewrite <- fl_0. apply fl_le. lra. }
  assert (E : Rabs (fl t - t) <= bpow radix2 (-55)).
  { destruct (Req_dec t 0) as [-> | N0]. { rewrite fl_0, Rminus_0_r, Rabs_R0. apply bpow_ge_0. }
    pose proof (error_le_half_ulp radix2 fexp (fun n => negb (Z.even n)) t) as H. fold (fl t) in H. eapply Rle_trans; [exact H|].
    rewrite ulp_neq_0 by exact N0. unfold cexp. assert (M : (mag radix2 t <= -1)%Z). { apply mag_le_bpow; [exact N0|]. change (bpow radix2 (-1)) with (/ 2). exact TS. }
    change (-55)%Z with (-1 + -54)%Z. rewrite bpow_plus. change (bpow radix2 (-1)) with (/ 2). apply Rmult_le_compat_l; [lra|]. apply bpow_le. unfold FLT_exp. lia. }
  change (-55)%Z with (- Z.of_nat 55)%Z in E. rewrite bp_pow in E.
  assert (Q : 10 ^ 16 * / 2 ^ 55 < / 2).
  { change (2 ^ 55) with (2 * 2 ^ 54). rewrite Rinv_mult. assert (0 < 2 ^ 54) by (apply pow_lt; lra). apply Rmult_lt_reg_r with (2 * 2 ^ 54); [lra|]. replace (10 ^ 16 * (/ 2 * / 2 ^ 54) * (2 * 2 ^ 54)) with (10 ^ 16) by (field; lra). lra. }
  assert (S : Rabs (fl t * 10 ^ 16 - IZR m) < / 2).
  { replace (fl t * 10 ^ 16 - IZR m) with ((fl t - t) * 10 ^ 16) by (unfold t; field; lra). rewrite Rabs_mult, (Rabs_right (10 ^ 16)) by lra.
    eapply Rle_lt_trans; [|exact Q]. rewrite Rmult_comm. apply Rmult_le_compat_l; lra. }
  unfold written, round, F2R, scaled_mantissa, cexp, FIX_exp. cbn [Fnum Fexp].
  assert (B : bpow radix10 (- -16) = 10 ^ 16) by (cbn [bpow Z.opp]; rewrite pow_IZR; f_equal).
  assert (B' : bpow radix10 (-16) = / 10 ^ 16) by (rewrite <- B, <- bpow_opp; reflexivity).
  rewrite B, B'. unfold t at 2. f_equal. f_equal. apply Znearest_imp. exact S.
Qed.

(** ** Theorems *)
Theorem C173_large_partial a b : is_double a -> is_double b -> a = 0 \/ / 2 <= Rabs a -> b = 0 \/ / 2 <= Rabs b -> generated_domain a b = (a, b).
Proof.
  assert (G : forall d, is_double d -> d = 0 \/ / 2 <= Rabs d -> read (written d) = d).
  { intros d F [-> | H]; [|now apply both_large]. rewrite (written_exact 0 0) by lra. apply fl_0. }
  intros Fa Fb Ha Hb. unfold generated_domain. now rewrite (G a Fa Ha), (G b Fb Hb).
Qed.
Print Assumptions C173_large_partial.
Theorem C173_decimal_partial m n : let a := fl (IZR m / 10 ^ 16) in let b := fl (IZR n / 10 ^ 16) in generated_domain a b = (a, b).
Proof. cbn zeta. unfold generated_domain, Rdiv. now rewrite !decimal_ok. Qed.
Print Assumptions C173_decimal_partial.
(** In general the ends are off by at most 5e-17 and one rounding. *)
Theorem C173_error_partial a b : Rabs (fst (generated_domain a b) - a) <= / 2 * / 10 ^ 16 + (/ 2 ^ 53 * (Rabs a + / 10 ^ 16) + / 2 ^ 1075)
  /\ Rabs (snd (generated_domain a b) - b) <= / 2 * / 10 ^ 16 + (/ 2 ^ 53 * (Rabs b + / 10 ^ 16) + / 2 ^ 1075).
Proof.
  assert (G : forall d, Rabs (read (written d) - d) <= / 2 * / 10 ^ 16 + (/ 2 ^ 53 * (Rabs d + / 10 ^ 16) + / 2 ^ 1075)).
  { intros d. pose proof (written_err d) as W. pose proof (fl_err (written d)) as F. fold (read (written d)) in F. unfold uro, eta in F.
    assert (T : 0 < / 10 ^ 16) by (apply Rinv_0_lt_compat, pow_lt; lra).
    assert (U : 0 < / 2 ^ 53) by (apply Rinv_0_lt_compat, pow_lt; lra).
    assert (N : Rabs (written d) <= Rabs d + / 10 ^ 16). { replace (written d) with (d + (written d - d)) by ring. eapply Rle_trans; [apply Rabs_triang|]. lra. }
    assert (M : / 2 ^ 53 * Rabs (written d) <= / 2 ^ 53 * (Rabs d + / 10 ^ 16)) by (apply Rmult_le_compat_l; lra).
    replace (read (written d) - d) with ((written d - d) + (read (written d) - written d)) by ring. eapply Rle_trans; [apply Rabs_triang|]. lra. }
  split; apply G.
Qed.
Print Assumptions C173_error_partial.

(** The double nearest to 1/7. *)
Definition seventh : R := IZR 5146971002709138 * bpow radix2 (-55).
Example seventh_nearest : Rabs (seventh - / 7) < bpow radix2 (-56) /\ is_double seventh.
Proof.
  split.
  - unfold seventh. change (bpow radix2 (-55)) with (/ IZR (2 ^ 55)). change (bpow radix2 (-56)) with (/ IZR (2 ^ 56)).
    change (2 ^ 55)%Z with 36028797018963968%Z. change (2 ^ 56)%Z with 72057594037927936%Z. apply Rabs_def1; lra.
  - apply generic_format_FLT. exists (Float radix2 5146971002709138 (-55)); cbn [Fnum Fexp]; [reflexivity|vm_compute; reflexivity|lia].
Qed.
Theorem C173_seventh_refuted : is_double 0 /\ is_double seventh /\ fst (generated_domain 0 seventh) = 0 /\ snd (generated_domain 0 seventh) < seventh.
Proof.
  split; [apply (dbl_Z 0); lia|]. split; [apply seventh_nearest|]. split. { unfold generated_domain. cbn [fst]. rewrite (written_exact 0 0) by lra. apply fl_0. }
  unfold generated_domain. cbn [snd].
  assert (B : bpow radix10 (- -16) = IZR 10000000000000000) by reflexivity. assert (B' : bpow radix10 (-16) = / IZR 10000000000000000) by reflexivity.
  assert (W : written seventh = IZR 1428571428571428 * / IZR 10000000000000000).
  { unfold written, round, F2R, scaled_mantissa, cexp, FIX_exp. cbn [Fnum Fexp]. rewrite B, B'. f_equal. f_equal. apply Znearest_imp. unfold seventh.
    change (bpow radix2 (-55)) with (/ IZR 36028797018963968). apply Rabs_def1; lra. }
  rewrite W. set (t := IZR 1428571428571428 * / IZR 10000000000000000). pose proof (fl_err t) as F. fold (read t) in F.
  assert (T : 0 < t < / 4) by (unfold t; lra). rewrite (Rabs_right t) in F by lra. apply Rabs_le_inv in F.
  assert (S : t + / IZR 25000000000000000 < seventh) by (unfold t, seventh; change (bpow radix2 (-55)) with (/ IZR 36028797018963968); lra).
  assert (U : uro <= / IZR 9007199254740992) by (unfold uro; apply Req_le; f_equal; rewrite pow_IZR; reflexivity).
  pose proof eta_small as E. pose proof uro_small as [U0 _].
  assert (X : uro * t <= uro * / 4) by (apply Rmult_le_compat_l; lra).
  assert (Y : uro * t <= / IZR 9007199254740992 * (15 / 100)). { apply Rmult_le_compat; [lra|lra|exact U|unfold t; lra]. }
  generalize dependent uro. generalize dependent eta. intros. lra.
Qed.
Print Assumptions C173_seventh_refuted.
(** A tiny domain collapses. *)
Theorem C173_tiny_refuted d : 0 <= d < / 2 * / 10 ^ 16 -> generated_domain 0 d = (0, 0).
Proof.
  intros H. unfold generated_domain. assert (Z : read (written 0) = 0) by (rewrite (written_exact 0 0) by lra; apply fl_0). rewrite Z. f_equal.
  assert (W : written d = 0).
  { unfold written, round, F2R, scaled_mantissa, cexp, FIX_exp. cbn [Fnum Fexp].
    assert (B : bpow radix10 (- -16) = 10 ^ 16) by (cbn [bpow Z.opp]; rewrite pow_IZR; f_equal). rewrite B.
    rewrite (Znearest_imp _ _ 0); [ring|]. assert (T : 0 < 10 ^ 16) by (apply pow_lt; lra). rewrite Rminus_0_r, Rabs_right by (apply Rle_ge, Rmult_le_pos; lra).
    apply Rmult_lt_reg_r with (/ 10 ^ 16); [now apply Rinv_0_lt_compat|]. rewrite Rmult_assoc, Rinv_r, Rmult_1_r by lra. apply H. }
  rewrite W. apply fl_0.
Qed.
Print Assumptions C173_tiny_refuted.
(** ** Cases *)
Example C173_case : generated_domain (IZR (-3)) (fl (IZR 31415926535897932 / 10 ^ 16)) = (IZR (-3), fl (IZR 31415926535897932 / 10 ^ 16)).
Proof.
  apply C173_large_partial; [apply dbl_Z; lia|apply fl_is_double|right; rewrite Rabs_left; lra|right].
  assert (D : is_double 1) by (apply (dbl_Z 1); lia). rewrite Rabs_right.
  - apply Rle_trans with (fl 1); [rewrite fl_double by exact D; lra|]. apply fl_le. cbn [pow]. lra.
  - apply Rle_ge. rewrite <- fl_0. apply fl_le. cbn [pow]. lra.
Qed.
