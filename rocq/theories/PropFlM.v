(** C198: accuracy of products of Chebyshev functions in floating point. *)
From Coq Require Import Reals List Arith Lia Lra Bool ZArith.
From Coquelicot Require Import Coquelicot.
From Verif Require Import Base ToolsProofs ChebSpec ChebModel ChebDct ChebMath ChebMul TrigSpec TrigBase TrigModel TrigTrans TrigObj FlModel FlProofs FlSum FlMap FlTrigModel FlTrig FlMulModel FlMul.
Import ListNotations.
Open Scope R_scope.
Local Opaque uro eta.

(** ** Specification *)
Definition doubles (c : list R) : Prop := forall t, In t c -> is_double t.
Definition abs_sum (c : list R) : R := rsum (length c) (fun k => Rabs (nth k c 0)).
Definition mean_abs (w : list C) : R := / INR (length w) * rsum (length w) (fun k => Cmod (nth k w C0)).
(** the library computes transforms of length n with relative accuracy d (and e in the range of underflow) *)
Definition accurate_fft (F : fftlib) (n : nat) (d e : R) : Prop :=
  (forall v, length v = n -> doubles v -> length (lfft F v) = n /\
     forall k, (k < n)%nat -> Cmod (nth k (lfft F v) C0 - csum n (fun j => RtoC (nth j v 0) * cis (- (2 * PI * INR j * INR k / INR n))))%C <= d * abs_sum v + e) /\
  (forall w, length w = n -> cdoubles w -> length (lifft F w) = n /\
     forall j, (j < n)%nat -> Cmod (nth j (lifft F w) C0 - RtoC (/ INR n) * csum n (fun k => nth k w C0 * cis (2 * PI * INR j * INR k / INR n)))%C <= d * mean_abs w + e).
Definition claimed_error (d e : R) (f g : list R) : R :=
  20 * (d + / 2 ^ 53) * (abs_sum f * abs_sum g) + 4 * e * (1 + abs_sum f + abs_sum g) + 16 * / 2 ^ 1075.
Definition ref_point (a b x : R) : R := (2 * x - a - b) / (b - a).
Definition fun_value (a b : R) (c : list R) (x : R) : R := evalT c (ref_point a b x).

Lemma abs_sum_lasum c : abs_sum c = lasum c.
Proof. symmetry. apply lasum_nth. Qed.
Lemma accurate_within F n d e : accurate_fft F n d e -> fft_within F n d e.
Proof.
  intros [H1 H2]. split.
  - intros v Lv Dv. destruct (H1 v Lv Dv) as [L E]. split; [exact L|]. intros k Hk. rewrite <- abs_sum_lasum. rewrite fft_nth by (rewrite map_length; lia). rewrite map_length, Lv.
    rewrite (csum_ext n _ (fun j => RtoC (nth j v 0) * cis (- (2 * PI * INR j * INR k / INR n)))%C) by (intros j _; rewrite nth_RtoC; reflexivity). apply E, Hk.
  - intros w Lw Dw. destruct (H2 w Lw Dw) as [L E]. split; [exact L|]. intros j Hj. specialize (E j Hj). unfold mean_abs in E. rewrite Lw in E. unfold ifft. rewrite Lw, nth_mk by exact Hj. exact E.
Qed.
Lemma pad_doubles k c : doubles c -> doubles (pad k c).
Proof. intros H t I. unfold pad in I. apply in_app_or in I. destruct I as [I|I]; [apply H, I|]. apply in_map_iff in I. destruct I as (? & <- & _). apply (dbl_Z 0). cbn. lia. Qed.

(** Every coefficient of the computed product (before simplify) is close to that of the exact product. *)
Theorem C198_coefficients F z d e f g : (1 <= length f)%nat -> (1 <= length g)%nat -> doubles f -> doubles g ->
  accurate_fft F (2 * (length f + length g) - 3) d e -> 0 <= d <= / 16 -> 0 <= e <= / 16 ->
  exists h, length h = (length f + length g - 1)%nat /\ (forall x, evalT h x = evalT f x * evalT g x) /\
    length (fproduct F z f g) = length h /\ doubles (fproduct F z f g) /\
    forall k, (k < length h)%nat -> Rabs (nth k (fproduct F z f g) 0 - nth k h 0) <= claimed_error d e f g.
Proof.
  intros Hf Hg Df Dg HF Hd He. set (pf := pad (length g - 1) f). set (pg := pad (length f - 1) g). set (h := coeff_times1 pf pg).
  assert (Lf : length pf = (length f + length g - 1)%nat) by (unfold pf; rewrite pad_length; lia). assert (Lg : length pg = length pf) by (unfold pg; rewrite pad_length, Lf; lia).
  assert (Lh : length h = (length f + length g - 1)%nat) by (apply product_length; assumption).
  assert (HW : fft_within F (2 * length pf - 1) d e) by (rewrite Lf; replace (2 * (length f + length g - 1) - 1)%nat with (2 * (length f + length g) - 3)%nat by lia; apply accurate_within, HF).
  assert (T := fun k Hk => times_err F z d e pf pg k ltac:(lia) Lg (pad_doubles _ f Df) (pad_doubles _ g Dg) HW Hd He Hk).
  exists h. split; [exact Lh|]. split; [intros x; apply product_correct; assumption|]. split; [|split].
  - rewrite Lh, <- Lf. exact (proj1 (T 0%nat ltac:(lia))).
  - intros t I. unfold fproduct, fcoeff_times in I. fold pf pg in I. assert (I2 := I). apply (In_nth _ _ 0) in I2. destruct I2 as (k & Hk & <-). rewrite firstn_length in Hk. rewrite nth_firstn' by lia. rewrite mk_length in Hk. rewrite nth_mk by lia. apply fl_is_double.
  - intros k Hk. rewrite Lh, <- Lf in Hk. pose proof (proj2 (T k Hk)) as B. unfold claimed_error. rewrite !abs_sum_lasum. assert (Sf : lasum pf = lasum f) by apply lasum_pad. assert (Sg : lasum pg = lasum g) by apply lasum_pad. rewrite Sf, Sg in B. change (/ 2 ^ 53) with uro. change (/ 2 ^ 1075) with eta. exact B.
Qed.
Print Assumptions C198_coefficients.

(** The values of the computed product are close to the products of the values. *)
Theorem C198_values F z d e f g x : (1 <= length f)%nat -> (1 <= length g)%nat -> doubles f -> doubles g ->
  accurate_fft F (2 * (length f + length g) - 3) d e -> 0 <= d <= / 16 -> 0 <= e <= / 16 -> -1 <= x <= 1 ->
  Rabs (evalT (fproduct F z f g) x - evalT f x * evalT g x) <= INR (length f + length g - 1) * claimed_error d e f g.
Proof.
  intros Hf Hg Df Dg HF Hd He Hx. destruct (C198_coefficients F z d e f g Hf Hg Df Dg HF Hd He) as (h & Lh & V & L & _ & B). rewrite <- V. unfold evalT. rewrite L, <- rsum_minus. rewrite <- Lh, <- rsum_const.
  eapply Rle_trans; [apply rsum_Rabs|]. apply rsum_le. intros k Hk. replace (nth k (fproduct F z f g) 0 * T k x - nth k h 0 * T k x) with ((nth k (fproduct F z f g) 0 - nth k h 0) * T k x) by ring. rewrite Rabs_mult.
  specialize (B k Hk). pose proof (ChebMath.T_bound k x Hx) as TB. pose proof (Rabs_pos (T k x)). pose proof (Rabs_pos (nth k (fproduct F z f g) 0 - nth k h 0)).
  rewrite <- (Rmult_1_r (claimed_error d e f g)). apply Rmult_le_compat; assumption.
Qed.
Print Assumptions C198_values.
(** ... on every domain *)
Theorem C198_domain F z d e a b f g x : (1 <= length f)%nat -> (1 <= length g)%nat -> doubles f -> doubles g ->
  accurate_fft F (2 * (length f + length g) - 3) d e -> 0 <= d <= / 16 -> 0 <= e <= / 16 -> a < b -> a <= x <= b ->
  Rabs (fun_value a b (fproduct F z f g) x - fun_value a b f x * fun_value a b g x) <= INR (length f + length g - 1) * claimed_error d e f g.
Proof.
  intros Hf Hg Df Dg HF Hd He Hab Hx. apply C198_values; try assumption. unfold ref_point. assert (P : 0 < b - a) by lra. split.
  - apply (Rmult_le_reg_r (b - a)); [exact P|]. unfold Rdiv. rewrite Rmult_assoc, Rinv_l by lra. lra.
  - apply (Rmult_le_reg_r (b - a)); [exact P|]. unfold Rdiv. rewrite Rmult_assoc, Rinv_l by lra. lra.
Qed.
Print Assumptions C198_domain.

(** Without fused operations f * g and g * f are the same bits. *)
Lemma fcmul_comm p q : fcmul Fno p q = fcmul Fno q p.
Proof.
  destruct p as [a b], q as [c d]. unfold fcmul, ftwo. cbn [fst snd]. f_equal.
  - rewrite (Rmult_comm c a), (Rmult_comm d b). reflexivity.
  - rewrite (Rmult_comm c b), (Rmult_comm d a). rewrite Rplus_comm. reflexivity.
Qed.
Theorem C198_commutes F f g : (1 <= length f)%nat -> (1 <= length g)%nat -> (forall v, length (lfft F v) = length v) ->
  fproduct F (fun _ => Fno) f g = fproduct F (fun _ => Fno) g f.
Proof.
  intros Hf Hg HL. unfold fproduct, fcoeff_times. set (pf := pad (length g - 1) f). set (pg := pad (length f - 1) g).
  assert (Lf : length pf = (length f + length g - 1)%nat) by (unfold pf; rewrite pad_length; lia). assert (Lg : length pg = length pf) by (unfold pg; rewrite pad_length, Lf; lia).
  assert (LE : forall c, (1 <= length c)%nat -> length (feven_ext c) = (2 * length c - 1)%nat).
  { intros c Hc. unfold feven_ext. rewrite app_length, rev_length. assert (T : forall l : list R, length (tl l) = (length l - 1)%nat) by (intros [|]; cbn; lia). rewrite T, upd_length. lia. }
  rewrite !HL, !LE, Lg by lia. rewrite (mk_ext _ (fun k => fcmul Fno (nth k (lfft F (feven_ext pf)) C0) (nth k (lfft F (feven_ext pg)) C0)) (fun k => fcmul Fno (nth k (lfft F (feven_ext pg)) C0) (nth k (lfft F (feven_ext pf)) C0))) by (intros k _; apply fcmul_comm).
  reflexivity.
Qed.
Print Assumptions C198_commutes.

(** A library that rounds exact transforms meets the hypothesis with d = 2 / 2^53 and e = 2 / 2^1075. *)
Definition cround (w : C) : C := (fl (fst w), fl (snd w)).
Definition rounded_fft : fftlib := {| lfft := fun v => map cround (fft (map RtoC v)); lifft := fun w => map cround (ifft w) |}.
Lemma cround_err w : Cmod (cround w - w)%C <= 2 * uro * Cmod w + 2 * eta.
Proof.
  destruct uro_small as [U0 U1]. eapply Rle_trans; [apply mod_sum|]. destruct w as [a b]. unfold cround. cbn [fst snd Cminus Cplus Copp]. pose proof (fl_err a). pose proof (fl_err b). pose proof (re_mod (a, b)) as R1. pose proof (im_mod (a, b)) as R2. cbn [fst snd] in R1, R2.
  assert (uro * Rabs a <= uro * Cmod (a, b)) by (apply Rmult_le_compat_l; lra). assert (uro * Rabs b <= uro * Cmod (a, b)) by (apply Rmult_le_compat_l; lra). unfold Rminus in *. lra.
Qed.
Lemma cround_0 : cround C0 = C0.
Proof. unfold cround, C0. cbn. rewrite fl_0. reflexivity. Qed.
Lemma nth_cround l k : nth k (map cround l) C0 = cround (nth k l C0).
Proof. rewrite <- cround_0 at 1. exact (map_nth cround l C0 k). Qed.
Lemma rounded_accurate n : (1 <= n)%nat -> accurate_fft rounded_fft n (2 * / 2 ^ 53) (2 * / 2 ^ 1075).
Proof.
  intros Hn. destruct uro_small as [U0 U1]. change (/ 2 ^ 53) with uro. change (/ 2 ^ 1075) with eta. assert (Np : (0 < INR n)%R) by (apply lt_0_INR; lia). split.
  - intros v Lv _. split; [cbn [lfft rounded_fft]; unfold fft; rewrite map_length, mk_length, map_length; exact Lv|]. intros k Hk. cbn [lfft rounded_fft]. rewrite nth_cround.
    assert (E : nth k (fft (map RtoC v)) C0 = csum n (fun j => RtoC (nth j v 0) * cis (- (2 * PI * INR j * INR k / INR n)))%C). { rewrite fft_nth by (rewrite map_length; lia). rewrite map_length, Lv. apply csum_ext. intros j _. rewrite nth_RtoC. reflexivity. }
    rewrite <- E. eapply Rle_trans; [apply cround_err|]. pose proof (fft_bound v k ltac:(lia)) as B. rewrite <- abs_sum_lasum in B. assert (2 * uro * Cmod (nth k (fft (map RtoC v)) C0) <= 2 * uro * abs_sum v) by (apply Rmult_le_compat_l; lra). lra.
  - intros w Lw _. split; [cbn [lifft rounded_fft]; unfold ifft; rewrite map_length, mk_length; exact Lw|]. intros j Hj. cbn [lifft rounded_fft]. rewrite nth_cround.
    assert (E : nth j (ifft w) C0 = (RtoC (/ INR n) * csum n (fun k => nth k w C0 * cis (2 * PI * INR j * INR k / INR n)))%C) by (unfold ifft; rewrite Lw, nth_mk by exact Hj; reflexivity).
    rewrite <- E. eapply Rle_trans; [apply cround_err|]. assert (B : Cmod (nth j (ifft w) C0) <= mean_abs w).
    { rewrite E. unfold mean_abs. rewrite Lw, Cmod_mult, Cmod_R, Rabs_right by (apply Rle_ge, Rlt_le, Rinv_0_lt_compat, Np). apply Rmult_le_compat_l; [apply Rlt_le, Rinv_0_lt_compat, Np|]. eapply Rle_trans; [apply csum_mod|]. apply rsum_le. intros k _. rewrite Cmod_mult, cis_mod. lra. }
    assert (2 * uro * Cmod (nth j (ifft w) C0) <= 2 * uro * mean_abs w) by (apply Rmult_le_compat_l; lra). lra.
Qed.
(** (1 + x) (1 - x) = 1 - x^2 with that library: twelve digits at every point. *)
Theorem C198_case z x : -1 <= x <= 1 ->
  Rabs (evalT (fproduct rounded_fft z [1; 1] [1; -1]) x - (1 - x * x)) <= 800 * / 2 ^ 53 /\ 800 * / 2 ^ 53 < / 10 ^ 12.
Proof.
  intros Hx. destruct uro_small as [U0 _]. pose proof tiny_uro as U1. pose proof eta_uro as EU. pose proof eta_pos as E0.
  assert (UB : uro <= / 9000000000000000). { Local Transparent uro. unfold uro. apply Rinv_le_contravar; [lra|]. rewrite !pow_IZR. apply IZR_le. cbn. lia. Local Opaque uro. }
  assert (P12 : / 10 ^ 12 = / 1000000000000). { f_equal. rewrite pow_IZR. f_equal. }
  assert (D1 : doubles [1; 1]) by (intros t I; repeat (destruct I as [<-|I]; [exact dbl_1|]); destruct I).
  assert (D2 : doubles [1; -1]) by (intros t [<-|[<-|[]]]; [exact dbl_1|exact dbl_m1]).
  assert (V : evalT [1; 1] x * evalT [1; -1] x = 1 - x * x) by (unfold evalT; cbn [length rsum nth T]; ring).
  assert (S1 : abs_sum [1; 1] = 2) by (unfold abs_sum; cbn [length rsum nth]; rewrite Rabs_R1; ring). assert (S2 : abs_sum [1; -1] = 2) by (unfold abs_sum; cbn [length rsum nth]; rewrite Rabs_R1, Rabs_left by lra; lra).
  split.
  - rewrite <- V. eapply Rle_trans; [apply (C198_values rounded_fft z (2 * / 2 ^ 53) (2 * / 2 ^ 1075)); try assumption; [cbn; lia|cbn; lia|apply rounded_accurate; cbn; lia| |]|].
    + change (/ 2 ^ 53) with uro. lra.
    + change (/ 2 ^ 1075) with eta. lra.
    + unfold claimed_error. rewrite S1, S2. change (INR (length [1; 1] + length [1; -1] - 1)) with (INR 3). replace (INR 3) with 3 by (cbn; ring). change (/ 2 ^ 53) with uro. change (/ 2 ^ 1075) with eta. 
      assert (eta <= uro * / 8) by exact EU. lra.
  - change (/ 2 ^ 53) with uro. rewrite P12. lra.
Qed.
Print Assumptions C198_case.
