(** The map between the domain and [-1, 1] in floating point. *)
From Coq Require Import Reals List Arith Lia Lra ZArith.
From Flocq Require Import Core Relative.
From Coquelicot Require Import Coquelicot.
From Verif Require Import Base ChebSpec ChebMath ChebModel ChebEval ChebCalc FlModel FlProofs FlSum.
Import ListNotations.
Open Scope R_scope.
Local Opaque uro eta.
Local Notation fexp := (FLT_exp (-1074) 53).
Local Instance pg53 : Prec_gt_0 53 := eq_refl.

Lemma fl_le s t : s <= t -> fl s <= fl t.
Proof. intros H. unfold fl. apply round_le; [apply FLT_exp_valid; reflexivity|apply valid_rnd_N|exact H]. Qed.
Lemma fl_opp t : fl (- t) = - fl t.
Proof. unfold fl. apply round_NE_opp. Qed.
Lemma dbl_m1 : is_double (-1).
Proof. unfold is_double. apply generic_format_FLT. exists (Float radix2 (-1) 0); cbn; [unfold F2R; cbn; ring|lia|lia]. Qed.
Lemma dbl_1 : is_double 1.
Proof. unfold is_double. apply generic_format_FLT. exists (Float radix2 1 0); cbn; [unfold F2R; cbn; ring|lia|lia]. Qed.
Lemma dbl_Z k : (Z.abs k <= 2 ^ 53)%Z -> is_double (IZR k).
Proof.
  intros H. destruct (Z.eq_dec (Z.abs k) (2 ^ 53)) as [E|E].
  - unfold is_double. apply generic_format_FLT. exists (Float radix2 (Z.sgn k) 53); cbn [Fnum Fexp]; [|destruct k; cbn; lia|lia].
    unfold F2R. cbn [Fnum Fexp]. assert (K : k = (Z.sgn k * 2 ^ 53)%Z) by (rewrite <- E; rewrite Z.mul_comm, Z.abs_sgn; reflexivity).
    rewrite K at 1. rewrite mult_IZR. reflexivity.
  - unfold is_double. apply generic_format_FLT. exists (Float radix2 k 0); cbn [Fnum Fexp]; [unfold F2R; cbn; ring|change (radix2 ^ 53)%Z with (2 ^ 53)%Z; lia|lia].
Qed.
Lemma dbl_opp t : is_double t -> is_double (- t).
Proof. unfold is_double. apply generic_format_opp. Qed.
Lemma sub_pos a b : is_double a -> is_double b -> a < b -> 0 < fsub b a.
Proof.
  intros Ha Hb H. pose proof (fadd_rel b (- a) Hb (dbl_opp _ Ha)) as F. unfold fsub, fadd in *. replace (b + - a) with (b - a) in F by ring.
  destruct uro_small as [U0 U1]. rewrite (Rabs_right (b - a)) in F by lra. apply Rabs_le_inv in F. nra.
Qed.
(** The left end is mapped to -1. *)
Lemma fbwd_left a b : is_double a -> is_double b -> a < b -> fbwd a b a = -1.
Proof.
  intros Ha Hb H. unfold fbwd. assert (E : fmul 2 a = 2 * a) by (apply fl_double, double_twice, Ha). rewrite E.
  unfold fsub at 2. replace (2 * a - a) with a by ring. rewrite (fl_double a Ha).
  assert (O : fsub a b = - fsub b a) by (unfold fsub; rewrite <- fl_opp; f_equal; ring). rewrite O.
  pose proof (sub_pos a b Ha Hb H) as P. unfold fdiv. replace (- fsub b a / fsub b a) with (-1) by (field; lra). apply fl_double, dbl_m1.
Qed.
Lemma fbwd_mono a b x y : is_double a -> is_double b -> a < b -> x <= y -> fbwd a b x <= fbwd a b y.
Proof.
  intros Ha Hb H Hx. pose proof (sub_pos a b Ha Hb H) as P. unfold fbwd, fdiv. apply fl_le. apply Rmult_le_compat_r; [apply Rlt_le, Rinv_0_lt_compat, P|].
  unfold fsub. apply fl_le. apply Rplus_le_compat_r. apply fl_le. apply Rplus_le_compat_r. unfold fmul. apply fl_le. lra.
Qed.
Lemma bpm53 : bpow radix2 (-53) = uro.
Proof. rewrite <- uro_bp. change (-53)%Z with (-1 + (-53 + 1))%Z at 1. rewrite bpow_plus. reflexivity. Qed.
(** A quotient of doubles above one is not rounded to one. *)
Lemma quot_gt1 p q : is_double p -> is_double q -> 0 < q -> q < p -> 1 < fdiv p q.
Proof.
  intros Fp Fq Q0 PQ. destruct uro_small as [U0 U1].
  assert (SQ : q + ulp radix2 fexp q <= p).
  { rewrite <- succ_eq_pos by lra. apply succ_le_lt; try assumption. apply FLT_exp_valid. reflexivity. }
  assert (UL : uro * q < ulp radix2 fexp q).
  { rewrite ulp_neq_0 by lra. unfold cexp, FLT_exp. destruct (mag radix2 q) as [e He]. cbn [mag_val]. specialize (He ltac:(lra)). rewrite (Rabs_right q) in He by lra.
    apply Rlt_le_trans with (bpow radix2 (e - 53)); [|apply bpow_le; apply Z.le_max_l].
    change (e - 53)%Z with (e + -53)%Z. rewrite bpow_plus, bpm53. rewrite (Rmult_comm (bpow radix2 e)). apply Rmult_lt_compat_l; [exact U0|apply He]. }
  assert (T : 1 + uro < p / q).
  { apply Rmult_lt_reg_r with q; [exact Q0|]. unfold Rdiv. rewrite Rmult_assoc, Rinv_l by lra. lra. }
  assert (U1' : ulp radix2 fexp 1 = 2 * uro).
  { rewrite ulp_neq_0 by lra. unfold cexp. rewrite (mag_unique radix2 1 1) by (rewrite Rabs_R1; cbn; lra). change (fexp 1) with (1 + -53)%Z. rewrite bpow_plus, bpm53. reflexivity. }
  assert (S1 : succ radix2 fexp 1 = 1 + 2 * uro) by (rewrite succ_eq_pos by lra; now rewrite U1').
  assert (FS : generic_format radix2 fexp (succ radix2 fexp 1)) by (apply generic_format_succ; [apply FLT_exp_valid; reflexivity|exact dbl_1]).
  apply Rlt_le_trans with (succ radix2 fexp 1); [rewrite S1; lra|]. unfold fdiv, fl.
  apply round_N_ge_midp; [apply FLT_exp_valid; reflexivity|exact FS|].
  rewrite pred_succ by (try exact dbl_1; apply FLT_exp_valid; reflexivity). rewrite S1. lra.
Qed.
Lemma quot_le1 p q : 0 < q -> p <= q -> fdiv p q <= 1.
Proof.
  intros Q0 PQ. unfold fdiv. rewrite <- (fl_double 1 dbl_1). apply fl_le. apply Rmult_le_reg_r with q; [exact Q0|]. unfold Rdiv. rewrite Rmult_assoc, Rinv_l by lra. lra.
Qed.
Lemma fbwd_right a b : is_double a -> is_double b -> a < b -> (fbwd a b b <= 1 <-> fsub (fsub (2 * b) a) b <= fsub b a).
Proof.
  intros Ha Hb H. pose proof (sub_pos a b Ha Hb H) as P. unfold fbwd. assert (E : fmul 2 b = 2 * b) by (apply fl_double, double_twice, Hb). rewrite E. split.
  - intros Q. apply Rnot_lt_le. intros K. assert (G := quot_gt1 _ _ (fl_is_double _ : is_double (fsub (fsub (2 * b) a) b)) (fl_is_double _ : is_double (fsub b a)) P K). lra.
  - apply quot_le1, P.
Qed.

(** ** Accuracy of the inverse map *)
Lemma fsub_rel a b : is_double a -> is_double b -> Rabs (fsub a b - (a - b)) <= uro * Rabs (a - b).
Proof. intros Ha Hb. exact (fadd_rel a (- b) Ha (dbl_opp _ Hb)). Qed.
Lemma fbwd_err a b x : is_double a -> is_double b -> is_double x -> a < b -> a <= x <= b ->
  Rabs (fbwd a b x - (2 * x - a - b) / (b - a)) <= 8 * uro * ((Rabs a + Rabs b) / (b - a)) + eta.
Proof.
  intros Ha Hb Fx H Hx. destruct uro_small as [U0 U1]. pose proof eta_pos as E0. pose proof (sub_pos a b Ha Hb H) as P.
  unfold fbwd. assert (E : fmul 2 x = 2 * x) by (apply fl_double, double_twice, Fx). rewrite E.
  set (D := b - a). set (W := Rabs a + Rabs b). assert (D0 : 0 < D) by (unfold D; lra).
  assert (DW : D <= W). { unfold D, W. pose proof (Rle_abs b). pose proof (Rle_abs (- a)). rewrite Rabs_Ropp in *. lra. }
  assert (XW : Rabs (2 * x - a) <= 2 * W).
  { apply Rabs_le. unfold D in *. pose proof (Rle_abs b). pose proof (Rle_abs (- a)). pose proof (Rle_abs a). pose proof (Rle_abs (- b)). rewrite !Rabs_Ropp in *. unfold W in *. pose proof (Rabs_pos a). pose proof (Rabs_pos b). lra. }
  pose proof (fsub_rel (2 * x) a (double_twice _ Fx) Ha) as F1. set (p1 := fsub (2 * x) a) in *.
  pose proof (fsub_rel p1 b (fl_is_double _) Hb) as F2. set (p2 := fsub p1 b) in *.
  pose proof (fsub_rel b a Hb Ha) as F3. fold D in F3. set (d := fsub b a) in *. rewrite (Rabs_right D) in F3 by lra.
  set (N := 2 * x - a - b).
  assert (ND : Rabs N <= D) by (apply Rabs_le; unfold N, D; lra).
  assert (G1 : Rabs (p1 - (2 * x - a)) <= uro * (2 * W)) by (eapply Rle_trans; [exact F1|]; apply Rmult_le_compat_l; lra).
  assert (PB : Rabs (p1 - b) <= D + uro * (2 * W)).
  { replace (p1 - b) with (N + (p1 - (2 * x - a))) by (unfold N; ring). eapply Rle_trans; [apply Rabs_triang|]. lra. }
  assert (G2 : Rabs (p2 - N) <= uro * (2 * W) + uro * (D + uro * (2 * W))).
  { replace (p2 - N) with ((p2 - (p1 - b)) + (p1 - (2 * x - a))) by (unfold N; ring). eapply Rle_trans; [apply Rabs_triang|].
    assert (uro * Rabs (p1 - b) <= uro * (D + uro * (2 * W))) by (apply Rmult_le_compat_l; lra). lra. }
  assert (UW : 0 <= uro * W) by (apply Rmult_le_pos; lra).
  assert (UUW : uro * (uro * W) <= / 8 * (uro * W)) by (apply Rmult_le_compat_r; lra).
  assert (UD : uro * D <= uro * W) by (apply Rmult_le_compat_l; lra).
  assert (G3 : Rabs (p2 - N) <= 13 / 4 * (uro * W)) by lra.
  assert (Hd1 : 7 / 8 * D <= d). { apply Rabs_le_inv in F3. assert (uro * D <= / 8 * D) by (apply Rmult_le_compat_r; lra). lra. }
  (* the quotient *)
  assert (Q : Rabs (p2 / d - N / D) <= 5 * (uro * (W / D))).
  { replace (p2 / d - N / D) with (((p2 - N) - N / D * (d - D)) / d) by (field; lra). unfold Rdiv at 1. rewrite Rabs_mult, (Rabs_right (/ d)) by (apply Rle_ge, Rlt_le, Rinv_0_lt_compat; lra).
    apply Rmult_le_reg_r with d; [lra|]. rewrite Rmult_assoc, Rinv_l, Rmult_1_r by lra.
    assert (NN : Rabs (N / D) <= 1).
    { unfold Rdiv. rewrite Rabs_mult, (Rabs_right (/ D)) by (apply Rle_ge, Rlt_le, Rinv_0_lt_compat; lra). apply Rmult_le_reg_r with D; [lra|]. rewrite Rmult_assoc, Rinv_l by lra. lra. }
    assert (X : Rabs ((p2 - N) - N / D * (d - D)) <= 13 / 4 * (uro * W) + uro * W).
    { unfold Rminus at 1. eapply Rle_trans; [apply Rabs_triang|]. rewrite Rabs_Ropp, Rabs_mult. pose proof (Rabs_pos (d - D)). pose proof (Rabs_pos (N / D)).
      assert (Rabs (N / D) * Rabs (d - D) <= 1 * Rabs (d - D)) by (apply Rmult_le_compat_r; lra). lra. }
    eapply Rle_trans; [exact X|].
    apply Rle_trans with (5 * (uro * (W / D)) * (7 / 8 * D)).
    - replace (5 * (uro * (W / D)) * (7 / 8 * D)) with (35 / 8 * (uro * W)) by (field; lra). lra.
    - apply Rmult_le_compat_l; [|exact Hd1]. assert (0 <= W / D) by (apply Rdiv_le_0_compat; lra). assert (0 <= uro * (W / D)) by (apply Rmult_le_pos; lra). lra. }
  assert (WD : 1 <= W / D). { apply Rmult_le_reg_r with D; [lra|]. unfold Rdiv. rewrite Rmult_assoc, Rinv_l by lra. lra. }
  assert (NN : Rabs (N / D) <= 1).
  { unfold Rdiv. rewrite Rabs_mult, (Rabs_right (/ D)) by (apply Rle_ge, Rlt_le, Rinv_0_lt_compat; lra). apply Rmult_le_reg_r with D; [lra|]. rewrite Rmult_assoc, Rinv_l by lra. lra. }
  pose proof (fl_err (p2 / d)) as F4. fold (fdiv p2 d) in F4. set (y := fdiv p2 d) in *.
  assert (PD : Rabs (p2 / d) <= 1 + 5 * (uro * (W / D))).
  { replace (p2 / d) with (N / D + (p2 / d - N / D)) by ring. eapply Rle_trans; [apply Rabs_triang|]. lra. }
  assert (F5 : uro * Rabs (p2 / d) <= uro * (1 + 5 * (uro * (W / D)))) by (apply Rmult_le_compat_l; lra).
  set (k := W / D) in *. assert (K0 : 0 <= uro * k) by (apply Rmult_le_pos; lra).
  assert (K1 : uro * (uro * k) <= / 8 * (uro * k)) by (apply Rmult_le_compat_r; lra).
  assert (K2 : uro * 1 <= uro * k) by (apply Rmult_le_compat_l; lra).
  replace (y - N / D) with ((y - p2 / d) + (p2 / d - N / D)) by ring. eapply Rle_trans; [apply Rabs_triang|]. lra.
Qed.

(** ** Perturbation of the point *)
Lemma T_lip k x y : -1 <= x <= 1 -> -1 <= y <= 1 -> Rabs (T k x - T k y) <= INR k ^ 2 * Rabs (x - y).
Proof.
  assert (W : forall x y, -1 <= x <= 1 -> -1 <= y <= 1 -> y < x -> Rabs (T k x - T k y) <= INR k ^ 2 * Rabs (x - y)).
  { clear x y. intros x y Hx Hy L. set (d := fun t => match k with O => 0 | S m => INR k * U m t end).
    assert (DT : forall t, is_derive (T k) t (d t)) by (intros t; apply is_derive_T).
    destruct (MVT_gen (T k) y x d) as (c & C1 & C2).
    - intros t _. apply DT.
    - intros t _. apply continuity_pt_filterlim. apply (ex_derive_continuous (T k)). exists (d t). apply DT.
    - rewrite C2, Rabs_mult. apply Rmult_le_compat_r; [apply Rabs_pos|]. rewrite Rmin_left, Rmax_right in C1 by lra. unfold d. destruct k as [|m]; [rewrite Rabs_R0; cbn; lra|].
      rewrite Rabs_mult, (Rabs_right (INR (S m))) by (apply Rle_ge, pos_INR). pose proof (U_bound m c ltac:(lra)) as B. rewrite <- S_INR in B. pose proof (pos_INR (S m)). cbn [pow]. rewrite Rmult_1_r. apply Rmult_le_compat_l; assumption. }
  intros Hx Hy. destruct (Rtotal_order x y) as [L|[L|L]].
  - rewrite Rabs_minus_sym, (Rabs_minus_sym x). now apply W.
  - subst. replace (T k y - T k y) with 0 by ring. replace (y - y) with 0 by ring. rewrite Rabs_R0. lra.
  - now apply W.
Qed.
Lemma evalT_lip c x y : -1 <= x <= 1 -> -1 <= y <= 1 -> Rabs (evalT c x - evalT c y) <= INR (length c) ^ 2 * lasum c * Rabs (x - y).
Proof.
  intros Hx Hy. unfold evalT. rewrite <- rsum_minus. eapply Rle_trans; [apply rsum_Rabs|]. rewrite lasum_nth.
  rewrite (Rmult_comm (INR (length c) ^ 2)), Rmult_assoc, Rmult_comm, <- rsum_scal. apply rsum_le. intros k Hk.
  replace (nth k c 0 * T k x - nth k c 0 * T k y) with (nth k c 0 * (T k x - T k y)) by ring. rewrite Rabs_mult, Rmult_comm.
  apply Rmult_le_compat_r; [apply Rabs_pos|]. eapply Rle_trans; [apply T_lip; assumption|]. apply Rmult_le_compat_r; [apply Rabs_pos|].
  apply pow_incr. split; [apply pos_INR|]. apply le_INR. lia.
Qed.

(** ** Exact rounding of a number between two doubles *)
Lemma fl_tie_up k e : (-1074 <= e)%Z -> (2 ^ 52 <= k < 2 ^ 53 - 1)%Z -> Z.odd k = true ->
  fl ((IZR k + / 2) * bpow radix2 e) = IZR (k + 1) * bpow radix2 e.
Proof.
  intros He Hk Ho. assert (K0 : IZR (2 ^ 52) <= IZR k) by (apply IZR_le; lia). assert (K1 : IZR k + 1 <= IZR (2 ^ 53)) by (rewrite <- plus_IZR; apply IZR_le; lia).
  assert (B0 := bpow_gt_0 radix2 e).
  assert (M : mag radix2 ((IZR k + / 2) * bpow radix2 e) = (53 + e)%Z :> Z).
  { apply mag_unique. rewrite Rabs_right.
    2:{ apply Rle_ge, Rmult_le_pos; [|lra]. assert (0 <= IZR (2 ^ 52)) by (apply IZR_le; lia). lra. }
    split; [replace (53 + e - 1)%Z with (52 + e)%Z by ring|]; rewrite bpow_plus.
    - apply Rmult_le_compat_r; [lra|]. change (bpow radix2 52) with (IZR (2 ^ 52)). lra.
    - apply Rmult_lt_compat_r; [lra|]. change (bpow radix2 53) with (IZR (2 ^ 53)). lra. }
  assert (C : cexp radix2 fexp ((IZR k + / 2) * bpow radix2 e) = e).
  { unfold cexp. rewrite M. unfold FLT_exp. lia. }
  unfold fl, round, F2R, scaled_mantissa. rewrite C. cbn [Fnum Fexp]. f_equal. f_equal.
  rewrite Rmult_assoc, <- bpow_plus, Z.add_opp_diag_r. cbn [bpow]. rewrite Rmult_1_r.
  assert (ZF : Zfloor (IZR k + / 2) = k) by (apply Zfloor_imp; rewrite plus_IZR; lra).
  assert (ZC : Zceil (IZR k + / 2) = (k + 1)%Z) by (apply Zceil_imp; rewrite plus_IZR; replace (k + 1 - 1)%Z with k by ring; lra).
  unfold Znearest. rewrite ZF, ZC. replace (IZR k + / 2 - IZR k) with (/ 2) by ring. rewrite Rcompare_Eq by reflexivity. rewrite <- Z.negb_odd, Ho. reflexivity.
Qed.
