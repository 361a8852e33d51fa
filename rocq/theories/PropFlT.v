(** C196: accuracy of the evaluation of a periodic function in floating point. *)
From Coq Require Import Reals List Arith Lia Lra Bool ZArith.
From Coquelicot Require Import Coquelicot.
From Verif Require Import Base TrigSpec TrigBase TrigModel TrigTrans TrigEval TrigObj TrigConsProofs FlModel FlProofs FlSum FlMap FlTrigModel FlTrig FlTrig2 FlTrig3.
Import ListNotations.
Open Scope R_scope.
Local Opaque uro eta.

(** the sum of the moduli of the coefficients *)
Definition coef_sum (c : list C) : R := rsum (length c) (fun k => Cmod (nth k c (RtoC 0))).
(** the relative error of one step: unit roundoff, the rounding of the argument pi x, and the error of the C library *)
Definition step_error (d x : R) : R := / 2 ^ 53 * (1 + Rabs x) + d.
(** the accuracy claimed for a series of length n *)
Definition claimed (d x : R) (c : list C) : R := 200 * INR (length c) * step_error d x * coef_sum c + 200 * INR (length c) * / 2 ^ 1075.
(** the point of [-1, 1] belonging to x *)
Definition ref_point (a b x : R) : R := (2 * x - a - b) / (b - a).

(** Evaluating a trigtech: every library, every choice of fused operations, every length, every point. *)
Theorem C196_evaluation L z d re c x : libm_within L d -> (1 <= length c)%nat -> 128 * INR (length c) * step_error d x <= 1 ->
  (re = true -> hermitian c) -> Cmod (ftcall L z re c x - evalF c x)%C <= claimed d x c.
Proof.
  intros HL Hn Hs Hr. unfold ftcall. destruct re.
  - rewrite <- horner_real_correct by (try exact Hn; apply Hr; reflexivity). rewrite <- RtoC_minus, Cmod_R. exact (fhorner_real_err L d c x HL Hn Hs).
  - rewrite <- horner_cmplx_correct by exact Hn. exact (fhorner_cmplx_err L z d c x HL Hn Hs).
Qed.
Print Assumptions C196_evaluation.

(** The flag isReal is set when the values at the grid points have imaginary parts of at most B; the error grows by that. *)
Theorem C196_flagged L z d c x B : libm_within L d -> (1 <= length c)%nat -> 128 * INR (length c) * step_error d x <= 1 ->
  (forall j, (j < length c)%nat -> Rabs (Im (evalF c (gridpt (length c) j))) <= B) ->
  Cmod (ftcall L z true c x - evalF c x)%C <= claimed d x c + 2 * INR (length c) * B.
Proof.
  intros HL Hn Hs HB. unfold ftcall. replace (RtoC (fhorner_real L c x) - evalF c x)%C with ((RtoC (fhorner_real L c x) - RtoC (horner_real c x)) + (RtoC (horner_real c x) - evalF c x))%C by ring.
  eapply Rle_trans; [apply Cmod_triangle|]. apply Rplus_le_compat; [|exact (horner_real_error c B x Hn HB)]. rewrite <- RtoC_minus, Cmod_R. exact (fhorner_real_err L d c x HL Hn Hs).
Qed.
Print Assumptions C196_flagged.

(** ** on a domain *)
Lemma cis_lip s t : Cmod (cis s - cis t)%C <= 2 * Rabs (s - t).
Proof. eapply Rle_trans; [apply mod_sum|]. unfold cis. cbn [fst snd Cminus Cplus Copp]. pose proof (cos_lip s t). pose proof (sin_lip s t). unfold Rminus in *. lra. Qed.
Lemma mode_lip n k x y : (k < n)%nat -> Cmod (mode n k x - mode n k y)%C <= 8 * INR n * Rabs (x - y).
Proof.
  intros Hk. pose proof PI_RGT_0. pose proof PI_4. pose proof (Rabs_pos (x - y)) as D. pose proof (pos_INR n) as Np. assert (ND : 0 <= INR n * Rabs (x - y)) by (apply Rmult_le_pos; lra).
  assert (Hh : (n / 2 <= n)%nat) by (apply Nat.div_le_upper_bound; lia). unfold mode. destruct (Nat.even n && (k =? 0))%bool.
  - rewrite <- RtoC_minus, Cmod_R. eapply Rle_trans; [apply cos_lip|]. replace (PI * INR (n / 2) * x - PI * INR (n / 2) * y) with (PI * (INR (n / 2) * (x - y))) by ring. rewrite Rabs_mult, (Rabs_right PI) by lra. rewrite Rabs_mult, (Rabs_right (INR (n / 2))) by (apply Rle_ge, pos_INR).
    assert (INR (n / 2) * Rabs (x - y) <= INR n * Rabs (x - y)) by (apply Rmult_le_compat_r; [lra|apply le_INR; lia]). assert (0 <= INR (n / 2) * Rabs (x - y)) by (apply Rmult_le_pos; [apply pos_INR|lra]).
    assert (PI * (INR (n / 2) * Rabs (x - y)) <= 4 * (INR (n / 2) * Rabs (x - y))) by (apply Rmult_le_compat_r; lra). lra.
  - eapply Rle_trans; [apply cis_lip|]. replace (PI * IZR (freq n k) * x - PI * IZR (freq n k) * y) with (PI * (IZR (freq n k) * (x - y))) by ring. rewrite Rabs_mult, (Rabs_right PI) by lra. rewrite Rabs_mult.
    assert (F : Rabs (IZR (freq n k)) <= INR n). { rewrite <- abs_IZR, INR_IZR_INZ. apply IZR_le. unfold freq. lia. }
    assert (Rabs (IZR (freq n k)) * Rabs (x - y) <= INR n * Rabs (x - y)) by (apply Rmult_le_compat_r; lra). assert (0 <= Rabs (IZR (freq n k)) * Rabs (x - y)) by (apply Rmult_le_pos; [apply Rabs_pos|lra]).
    assert (PI * (Rabs (IZR (freq n k)) * Rabs (x - y)) <= 4 * (Rabs (IZR (freq n k)) * Rabs (x - y))) by (apply Rmult_le_compat_r; lra). lra.
Qed.
Lemma evalF_lip c x y : Cmod (evalF c x - evalF c y)%C <= 8 * INR (length c) * Rabs (x - y) * coef_sum c.
Proof.
  replace (evalF c x - evalF c y)%C with (csum (length c) (fun k => nth k c (RtoC 0) * (mode (length c) k x - mode (length c) k y))%C).
  2:{ unfold evalF. replace (csum (length c) (fun k => nth k c (RtoC 0) * mode (length c) k x) - csum (length c) (fun k => nth k c (RtoC 0) * mode (length c) k y))%C
        with (csum (length c) (fun k => nth k c (RtoC 0) * mode (length c) k x) + (- RtoC 1) * csum (length c) (fun k => nth k c (RtoC 0) * mode (length c) k y))%C by ring.
      rewrite <- csum_scal, <- csum_plus. apply csum_ext. intros k _. ring. }
  eapply Rle_trans; [apply csum_mod|]. unfold coef_sum. rewrite <- rsum_scal. apply rsum_le. intros k Hk. rewrite Cmod_mult. rewrite Rmult_comm. apply Rmult_le_compat_r; [apply Cmod_ge_0|]. apply mode_lip, Hk.
Qed.
(** f(x) for a periodic function f on [a, b]: when the call returns, the value is right. *)
Theorem C196_domain L z d a b re c x v : libm_within L d -> (1 <= length c)%nat -> 128 * INR (length c) * step_error d 1 <= 1 -> (re = true -> hermitian c) ->
  is_double a -> is_double b -> is_double x -> a < b -> a <= x <= b -> fpcall L z a b re c x = Some v ->
  Cmod (v - evalF c (ref_point a b x))%C <= claimed d 1 c + 8 * INR (length c) * (8 * / 2 ^ 53 * ((Rabs a + Rabs b) / (b - a)) + / 2 ^ 1075) * coef_sum c.
Proof.
  intros HL Hn Hs Hr Fa Fb Fx Hab Hx. unfold fpcall. set (y := fbwd a b x) in *. destruct (Rle_dec (-1) y) as [Y1|]; [|discriminate]. destruct (Rle_dec y 1) as [Y2|]; [|discriminate]. intros E. injection E as <-.
  assert (YA : Rabs y <= 1) by (apply Rabs_le; lra). destruct uro_small as [U0 U1]. pose proof (asum_pos c) as S0. pose proof (pos_INR (length c)) as N0.
  assert (SE : step_error d y <= step_error d 1). { unfold step_error. change (/ 2 ^ 53) with uro. rewrite Rabs_R1. assert (uro * (1 + Rabs y) <= uro * (1 + 1)) by (apply Rmult_le_compat_l; lra). lra. }
  assert (HsY : 128 * INR (length c) * step_error d y <= 1). { eapply Rle_trans; [|exact Hs]. apply Rmult_le_compat_l; lra. }
  pose proof (C196_evaluation L z d re c y HL Hn HsY Hr) as B1. pose proof (evalF_lip c y (ref_point a b x)) as B2. pose proof (fbwd_err a b x Fa Fb Fx Hab Hx) as B3. fold (ref_point a b x) in B3. fold y in B3.
  assert (B4 : claimed d y c <= claimed d 1 c). { unfold claimed. apply Rplus_le_compat_r. apply Rmult_le_compat_r; [exact S0|]. apply Rmult_le_compat_l; lra. }
  assert (B5 : 8 * INR (length c) * Rabs (y - ref_point a b x) * coef_sum c <= 8 * INR (length c) * (8 * uro * ((Rabs a + Rabs b) / (b - a)) + eta) * coef_sum c).
  { apply Rmult_le_compat_r; [exact S0|]. apply Rmult_le_compat_l; lra. }
  replace (ftcall L z re c y - evalF c (ref_point a b x))%C with ((ftcall L z re c y - evalF c y) + (evalF c y - evalF c (ref_point a b x)))%C by ring.
  eapply Rle_trans; [apply Cmod_triangle|]. change (/ 2 ^ 53) with uro. change (/ 2 ^ 1075) with eta. lra.
Qed.
Print Assumptions C196_domain.

(** The two ends of the domain: the values there agree up to the accuracy. *)
Theorem C196_ends L z d re c : libm_within L d -> (1 <= length c)%nat -> 128 * INR (length c) * step_error d 1 <= 1 -> (re = true -> hermitian c) ->
  Cmod (ftcall L z re c 1 - ftcall L z re c (-1))%C <= 2 * claimed d 1 c.
Proof.
  intros HL Hn Hs Hr. assert (A1 : Rabs (-1) = Rabs 1) by (rewrite Rabs_left, Rabs_R1; lra).
  assert (S1 : step_error d (-1) = step_error d 1) by (unfold step_error; now rewrite A1). assert (CL : claimed d (-1) c = claimed d 1 c) by (unfold claimed; now rewrite S1).
  pose proof (C196_evaluation L z d re c 1 HL Hn Hs Hr) as B1. assert (Hs' : 128 * INR (length c) * step_error d (-1) <= 1) by (rewrite S1; exact Hs). pose proof (C196_evaluation L z d re c (-1) HL Hn Hs' Hr) as B2. rewrite CL in B2.
  assert (PE := evalF_period c Hn).
  replace (ftcall L z re c 1 - ftcall L z re c (-1))%C with ((ftcall L z re c 1 - evalF c 1) - (ftcall L z re c (-1) - evalF c (-1)))%C by (rewrite PE; ring).
  unfold Cminus at 1. eapply Rle_trans; [apply Cmod_triangle|]. rewrite Cmod_opp. lra.
Qed.
Print Assumptions C196_ends.

(** A library that rounds correctly meets the hypothesis with d = 2 / 2^53. *)
Definition rounded_libm : libm := {| lcos := fun t => fl (cos t); lsin := fun t => fl (sin t); lecos := fun t => fl (cos t); lesin := fun t => fl (sin t) |}.
Lemma rounded_within : libm_within rounded_libm (2 * / 2 ^ 53).
Proof.
  intros t _. change (/ 2 ^ 53) with uro. destruct uro_small as [U0 U1]. pose proof eta_uro as EU.
  assert (G : forall y, -1 <= y <= 1 -> Rabs (fl y - y) <= 2 * uro). { intros y Hy. pose proof (fl_err y) as F. assert (Y : Rabs y <= 1) by (apply Rabs_le; lra). assert (uro * Rabs y <= uro * 1) by (apply Rmult_le_compat_l; lra). lra. }
  pose proof (G _ (COS_bound t)). pose proof (G _ (SIN_bound t)). cbn. auto.
Qed.
(** 1 + cos (pi x) with that library: twelve digits at every point of [-1, 1]. *)
Theorem C196_case z x : -1 <= x <= 1 ->
  let c := [RtoC (/ 2); RtoC 1; RtoC (/ 2)] in
  hermitian c /\ (forall y, evalF c y = RtoC (1 + cos (PI * y))) /\
  Cmod (ftcall rounded_libm z true c x - RtoC (1 + cos (PI * x)))%C <= 5000 * / 2 ^ 53 /\ 5000 * / 2 ^ 53 < / 10 ^ 12.
Proof.
  intros Hx c. assert (V : forall y, evalF c y = RtoC (1 + cos (PI * y))).
  { intros y. unfold evalF, c. cbn [length csum nth]. unfold mode, freq. cbn [Nat.even andb length Nat.div Nat.divmod fst Nat.sub]. cbn [Z.of_nat Pos.of_succ_nat Z.sub Z.add Z.opp Z.pos_sub Pos.succ Pos.pred_double].
    unfold cis. replace (PI * -1 * y) with (- (PI * y)) by ring. replace (PI * 0 * y) with 0 by ring. replace (PI * 1 * y) with (PI * y) by ring. rewrite cos_neg, sin_neg, cos_0, sin_0.
    apply injective_projections; cbn [fst snd Cmult Cplus RtoC]; unfold RtoC; cbn [fst snd]; lra. }
  assert (H : hermitian c) by (intros y; rewrite V; reflexivity). split; [exact H|]. split; [exact V|].
  destruct uro_small as [U0 U1]. pose proof eta_uro as EU. assert (XA : Rabs x <= 1) by (apply Rabs_le; lra). pose proof (Rabs_pos x) as X0. 
  assert (UB : uro <= / 9000000000000000). { Local Transparent uro. unfold uro. apply Rinv_le_contravar; [lra|]. rewrite !pow_IZR. apply IZR_le. cbn. lia. Local Opaque uro. }
  assert (UX : uro * Rabs x <= uro * 1) by (apply Rmult_le_compat_l; lra).
  assert (SE : step_error (2 * / 2 ^ 53) x <= 4 * uro) by (unfold step_error; change (/ 2 ^ 53) with uro; lra).
  assert (SP : 0 <= step_error (2 * / 2 ^ 53) x) by (unfold step_error; change (/ 2 ^ 53) with uro; assert (0 <= uro * Rabs x) by (apply Rmult_le_pos; lra); lra).
  assert (P12 : / 10 ^ 12 = / 1000000000000). { f_equal. rewrite pow_IZR. f_equal. }
  assert (CS : coef_sum c = 2). { unfold coef_sum, c. cbn [length rsum nth]. rewrite !Cmod_R, !Rabs_right by lra. field. }
  assert (N3 : INR (length c) = 3) by (cbn; ring).
  split.
  - rewrite <- V. eapply Rle_trans; [apply (C196_evaluation rounded_libm z (2 * / 2 ^ 53) true c x rounded_within); [cbn; lia| |intros _; exact H]|].
    + rewrite N3. lra.
    + unfold claimed. rewrite N3, CS. change (/ 2 ^ 1075) with eta. change (/ 2 ^ 53) with uro in *. lra.
  - change (/ 2 ^ 53) with uro. rewrite P12. lra.
Qed.
Print Assumptions C196_case.
