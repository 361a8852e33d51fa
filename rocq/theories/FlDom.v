(** The linear map and the derivative of a series, for sampling on a domain in floating point. *)
From Coq Require Import Reals List Arith Lia Lra Bool ZArith.
From Coquelicot Require Import Coquelicot.
From Verif Require Import Base ToolsProofs ChebSpec ChebModel ChebDct ChebMath FlModel FlProofs FlSum FlMap FlTrigModel FlTrig FlMul FlDctModel FlDct PropFl FlSampleModel FlSample FlDomModel.
Import ListNotations.
Open Scope R_scope.
Local Opaque uro eta.

Lemma ffwd_double a b y : is_double (ffwd a b y).
Proof. unfold ffwd. apply fl_is_double. Qed.
(** accuracy of the map *)
Lemma ffwd_err a b y : -1 <= y <= 1 ->
  Rabs (ffwd a b y - (b * (y + 1) + a * (1 - y)) / 2) <= 6 * uro * (Rabs a + Rabs b) + 4 * eta.
Proof.
  intros Hy. destruct uro_small as [U0 _]. pose proof tiny_uro as U1. pose proof eta_uro as EU. pose proof eta_pos as E0. pose proof (Rabs_pos a) as A0. pose proof (Rabs_pos b) as B0.
  assert (P : forall t, -1 <= t <= 1 -> Rabs (fl (1 + t) - (1 + t)) <= 17 / 8 * uro).
  { intros t Ht. pose proof (fl_err (1 + t)) as F. assert (Y : Rabs (1 + t) <= 2) by (apply Rabs_le; lra). assert (uro * Rabs (1 + t) <= uro * 2) by (apply Rmult_le_compat_l; lra). lra. }
  assert (Q : forall c t, -1 <= t <= 1 -> Rabs (fl (c * fl (1 + t)) - c * (1 + t)) <= 9 / 2 * uro * Rabs c + eta).
  { intros c t Ht. pose proof (Rabs_pos c) as C0. assert (B : Rabs (c * fl (1 + t) - c * (1 + t)) <= Rabs c * (17 / 8 * uro)). { replace (c * fl (1 + t) - c * (1 + t)) with (c * (fl (1 + t) - (1 + t))) by ring. rewrite Rabs_mult. apply Rmult_le_compat_l; [exact C0|apply P, Ht]. }
    eapply Rle_trans; [apply fl_dist, B|]. assert (X : Rabs (c * (1 + t)) <= Rabs c * 2). { rewrite Rabs_mult. apply Rmult_le_compat_l; [exact C0|apply Rabs_le; lra]. }
    assert (Z : uro * (Rabs (c * (1 + t)) + Rabs c * (17 / 8 * uro)) <= uro * (Rabs c * (2 + / 8))). { apply Rmult_le_compat_l; [lra|]. assert (Rabs c * (17 / 8 * uro) <= Rabs c * / 8) by (apply Rmult_le_compat_l; lra). lra. }
    assert (W : 0 <= uro * Rabs c) by (apply Rmult_le_pos; lra). replace (uro * (Rabs c * (2 + / 8))) with (17 / 8 * (uro * Rabs c)) in Z by field. replace (Rabs c * (17 / 8 * uro)) with (17 / 8 * (uro * Rabs c)) in * by ring. lra. }
  unfold ffwd, fdiv, fadd, fmul, fsub. replace (y + 1) with (1 + y) by ring. replace (1 - y) with (1 + - y) by ring.
  pose proof (Q b y Hy) as Q1. pose proof (Q a (- y) ltac:(lra)) as Q2. set (p := fl (b * fl (1 + y))) in *. set (q := fl (a * fl (1 + - y))) in *. set (A := Rabs a + Rabs b) in *. assert (AE : A = Rabs a + Rabs b) by reflexivity. assert (A1 : 0 <= A) by lra. assert (UA : 0 <= uro * A) by (apply Rmult_le_pos; lra). set (w := b * (1 + y) + a * (1 + - y)).
  assert (WB : Rabs w <= 2 * A). { unfold w. eapply Rle_trans; [apply Rabs_triang|]. rewrite !Rabs_mult. assert (Rabs b * Rabs (1 + y) <= Rabs b * 2) by (apply Rmult_le_compat_l; [lra|apply Rabs_le; lra]). assert (Rabs a * Rabs (1 + - y) <= Rabs a * 2) by (apply Rmult_le_compat_l; [lra|apply Rabs_le; lra]). lra. }
  assert (S1 : Rabs (p + q - w) <= 9 / 2 * (uro * A) + 2 * eta). { unfold w. replace (p + q - (b * (1 + y) + a * (1 + - y))) with ((p - b * (1 + y)) + (q - a * (1 + - y))) by ring. eapply Rle_trans; [apply Rabs_triang|]. rewrite AE. lra. }
  assert (S2 : Rabs (fl (p + q) - w) <= 7 * (uro * A) + 4 * eta).
  { eapply Rle_trans; [apply fl_dist, S1|]. assert (Z : uro * (Rabs w + (9 / 2 * (uro * A) + 2 * eta)) <= uro * (2 * A + (A * (9 / 2000)) + 2 * eta)). { apply Rmult_le_compat_l; [lra|]. assert (uro * A <= / 1000 * A) by (apply Rmult_le_compat_r; lra). lra. }
    assert (UE : uro * eta <= / 1000 * eta) by (apply Rmult_le_compat_r; lra). lra. }
  assert (S3 : Rabs (fl (p + q) / 2 - w / 2) <= 7 / 2 * (uro * A) + 2 * eta). { replace (fl (p + q) / 2 - w / 2) with ((fl (p + q) - w) * / 2) by field. rewrite Rabs_mult, (Rabs_right (/ 2)) by lra. lra. }
  eapply Rle_trans; [apply fl_dist, S3|]. assert (WH : Rabs (w / 2) <= A). { unfold Rdiv. rewrite Rabs_mult, (Rabs_right (/ 2)) by lra. lra. }
  assert (Z : uro * (Rabs (w / 2) + (7 / 2 * (uro * A) + 2 * eta)) <= uro * (A + A * (7 / 2000) + 2 * eta)). { apply Rmult_le_compat_l; [lra|]. assert (uro * A <= / 1000 * A) by (apply Rmult_le_compat_r; lra). lra. }
  assert (UE : uro * eta <= / 1000 * eta) by (apply Rmult_le_compat_r; lra). lra.
Qed.
(** the map is monotone when the domain contains 0 *)
Lemma ffwd_mono a b y z : a <= 0 <= b -> y <= z -> ffwd a b y <= ffwd a b z.
Proof.
  intros H L. unfold ffwd, fdiv, fadd, fmul, fsub. apply fl_le. apply Rmult_le_compat_r; [lra|]. apply fl_le.
  assert (X1 : fl (y + 1) <= fl (z + 1)) by (apply fl_le; lra). assert (X2 : fl (1 - z) <= fl (1 - y)) by (apply fl_le; lra).
  apply Rplus_le_compat; apply fl_le; nra.
Qed.
(** the derivative of a series all of whose coefficients are small *)
Lemma derive_small c h x E d d' : length c = length h -> -1 <= x <= 1 -> (forall k, (k < length h)%nat -> Rabs (nth k c 0 - nth k h 0) <= E) ->
  is_derive (evalT c) x d -> is_derive (evalT h) x d' -> Rabs (d - d') <= INR (length h) ^ 3 * E.
Proof.
  intros L Hx H D D'. rewrite <- (is_derive_unique _ _ _ D), <- (is_derive_unique _ _ _ D'). rewrite (is_derive_unique _ _ _ (is_derive_evalT c x)), (is_derive_unique _ _ _ (is_derive_evalT h x)).
  rewrite L, <- rsum_minus. eapply Rle_trans; [apply rsum_Rabs|]. replace (INR (length h) ^ 3 * E) with (INR (length h) * (E * INR (length h) ^ 2)) by ring. rewrite <- rsum_const. apply rsum_le. intros k Hk.
  replace (nth k c 0 * match k with O => 0 | S m => INR k * U m x end - nth k h 0 * match k with O => 0 | S m => INR k * U m x end) with ((nth k c 0 - nth k h 0) * match k with O => 0 | S m => INR k * U m x end) by ring.
  rewrite Rabs_mult. apply Rmult_le_compat; [apply Rabs_pos|apply Rabs_pos|apply H, Hk|]. destruct k as [|m]; [rewrite Rabs_R0; apply pow2_ge_0|].
  rewrite Rabs_mult, (Rabs_right (INR (S m))) by (apply Rle_ge, pos_INR). pose proof (U_bound m x Hx) as B. rewrite <- S_INR in B. assert (M : INR (S m) <= INR (length h)) by (apply le_INR; lia). pose proof (pos_INR (S m)). cbn [pow]. rewrite Rmult_1_r. apply Rmult_le_compat; [assumption|apply Rabs_pos|exact M|lra].
Qed.
Lemma upd_doubles l i v : (forall t, In t l -> is_double t) -> is_double v -> forall t, In t (upd l i v) -> is_double t.
Proof.
  intros H V t I. apply (In_nth _ _ 0) in I. destruct I as (j & Lj & <-). unfold upd in *. rewrite mk_length in Lj. rewrite nth_mk by exact Lj. destruct (Nat.eqb j i); [exact V|apply H, nth_In; exact Lj].
Qed.

From Flocq Require Import Core.
Local Notation fexp := (FLT_exp (-1074) 53).
(** rounding to a nearby double *)
Lemma fl_near k e t : (-1074 <= e)%Z -> (2 ^ 52 < k < 2 ^ 53 - 1)%Z -> Rabs (t - IZR k) < / 2 -> fl (t * bpow radix2 e) = IZR k * bpow radix2 e.
Proof.
  intros He Hk Ht. assert (K0 : IZR (2 ^ 52) + 1 <= IZR k) by (rewrite <- plus_IZR; apply IZR_le; lia). assert (K1 : IZR k + 1 <= IZR (2 ^ 53)) by (rewrite <- plus_IZR; apply IZR_le; lia).
  assert (B0 := bpow_gt_0 radix2 e). apply Rabs_def2 in Ht as Ht'.
  assert (M : mag radix2 (t * bpow radix2 e) = (53 + e)%Z :> Z).
  { apply mag_unique. rewrite Rabs_right.
    2:{ apply Rle_ge, Rmult_le_pos; [|lra]. assert (0 <= IZR (2 ^ 52)) by (apply IZR_le; lia). lra. }
    split; [replace (53 + e - 1)%Z with (52 + e)%Z by ring|]; rewrite bpow_plus.
    - apply Rmult_le_compat_r; [lra|]. change (bpow radix2 52) with (IZR (2 ^ 52)). lra.
    - apply Rmult_lt_compat_r; [lra|]. change (bpow radix2 53) with (IZR (2 ^ 53)). lra. }
  assert (C : cexp radix2 fexp (t * bpow radix2 e) = e).
  { unfold cexp. rewrite M. unfold FLT_exp. lia. }
  unfold fl, round, F2R, scaled_mantissa. rewrite C. cbn [Fnum Fexp]. f_equal. f_equal.
  rewrite Rmult_assoc, <- bpow_plus, Z.add_opp_diag_r. cbn [bpow]. rewrite Rmult_1_r. apply Znearest_imp, Ht.
Qed.
(** a domain of two units in the last place, and a point of [-1, 1] *)
Definition na : R := IZR 5543331090125440 * bpow radix2 (-52).
Definition nb : R := IZR 5543331090125442 * bpow radix2 (-52).
Definition ny : R := IZR 9007199254133275 * bpow radix2 (-53).
Lemma float_double m e : (Z.abs m < 2 ^ 53)%Z -> (-1074 <= e)%Z -> is_double (IZR m * bpow radix2 e).
Proof. intros H1 H2. unfold is_double. apply generic_format_FLT. exists (Float radix2 m e); cbn [Fnum Fexp]; [reflexivity|exact H1|exact H2]. Qed.
Lemma bpow_split e k : (0 <= k)%Z -> bpow radix2 e = IZR (2 ^ k) * bpow radix2 (e - k).
Proof. intros H. change (IZR (2 ^ k)) with (IZR (radix2 ^ k)). rewrite (IZR_Zpower radix2 k H), <- bpow_plus. f_equal. lia. Qed.
Lemma narrow : ffwd na nb ny = IZR 5543331090125443 * bpow radix2 (-52).
Proof.
  unfold ffwd, fadd, fsub, fmul, fdiv.
  assert (E1 : fl (ny + 1) = IZR 9007199254437134 * bpow radix2 (-52)).
  { replace (ny + 1) with ((IZR 9007199254437133 + / 2) * bpow radix2 (-52)).
    - apply (fl_tie_up 9007199254437133 (-52)); [lia|lia|reflexivity].
    - unfold ny. change (bpow radix2 (-52)) with (/ IZR (2 ^ 52)). change (bpow radix2 (-53)) with (/ IZR (2 ^ 53)). change (2 ^ 52)%Z with 4503599627370496%Z. change (2 ^ 53)%Z with 9007199254740992%Z. lra. }
  assert (E2 : fl (1 - ny) = IZR 607717 * bpow radix2 (-53)).
  { replace (1 - ny) with (IZR 607717 * bpow radix2 (-53)).
    - apply fl_double, float_double; lia.
    - unfold ny. change (bpow radix2 (-53)) with (/ IZR (2 ^ 53)). change (2 ^ 53)%Z with 9007199254740992%Z. lra. }
  rewrite E1, E2.
  assert (E3 : fl (nb * (IZR 9007199254437134 * bpow radix2 (-52))) = IZR 5543331089938438 * bpow radix2 (-51)).
  { replace (nb * (IZR 9007199254437134 * bpow radix2 (-52))) with (IZR (5543331090125442 * 9007199254437134) / IZR (2 ^ 53) * bpow radix2 (-51)).
    - apply fl_near; [lia|lia|]. change (2 ^ 53)%Z with 9007199254740992%Z. change (5543331090125442 * 9007199254437134)%Z with 49929887662076066441571162963228%Z. apply Rabs_def1; lra.
    - unfold nb. rewrite mult_IZR. change (bpow radix2 (-52)) with (/ IZR (2 ^ 52)). change (bpow radix2 (-51)) with (/ IZR (2 ^ 51)). replace (IZR (2 ^ 52)) with (2 * IZR (2 ^ 51)) by (rewrite <- mult_IZR; f_equal). replace (IZR (2 ^ 53)) with (4 * IZR (2 ^ 51)) by (rewrite <- mult_IZR; f_equal). field. apply not_0_IZR. lia. }
  assert (E4 : fl (na * (IZR 607717 * bpow radix2 (-53))) = IZR 6425431328006290 * bpow radix2 (-86)).
  { replace (na * (IZR 607717 * bpow radix2 (-53))) with (IZR (5543331090125440 * 607717) / IZR (2 ^ 19) * bpow radix2 (-86)).
    - apply fl_near; [lia|lia|]. change (2 ^ 19)%Z with 524288%Z. change (5543331090125440 * 607717)%Z with 3368776540097762020480%Z. apply Rabs_def1; lra.
    - unfold na. rewrite mult_IZR. rewrite (bpow_split (-86) 19) by lia. rewrite (bpow_split (-52) 53) by lia. replace (bpow radix2 (-53)) with (/ IZR (2 ^ 53)) by reflexivity. cbn [Z.sub Z.opp]. replace (-86 - 19)%Z with (-105)%Z by ring. replace (-52 - 53)%Z with (-105)%Z by ring. field. split; apply not_0_IZR; lia. }
  rewrite E3, E4.
  assert (E5 : fl (IZR 5543331089938438 * bpow radix2 (-51) + IZR 6425431328006290 * bpow radix2 (-86)) = IZR 5543331090125443 * bpow radix2 (-51)).
  { replace (IZR 5543331089938438 * bpow radix2 (-51) + IZR 6425431328006290 * bpow radix2 (-86)) with ((IZR 5543331089938438 + IZR 6425431328006290 / IZR (2 ^ 35)) * bpow radix2 (-51)).
    - apply fl_near; [lia|lia|]. change (2 ^ 35)%Z with 34359738368%Z. apply Rabs_def1; lra.
    - rewrite (bpow_split (-51) 35) by lia. replace (-51 - 35)%Z with (-86)%Z by ring. field. apply not_0_IZR. lia. }
  rewrite E5. replace (IZR 5543331090125443 * bpow radix2 (-51) / 2) with (IZR 5543331090125443 * bpow radix2 (-52)).
  - apply fl_double, float_double; lia.
  - rewrite (bpow_split (-51) 1) by lia. replace (-51 - 1)%Z with (-52)%Z by ring. change (IZR (2 ^ 1)) with 2. field.
Qed.
