(** C200: accuracy of the transforms between values at equispaced points and Fourier coefficients in floating point. *)
From Coq Require Import Reals List Arith Lia Lra Bool ZArith.
From Coquelicot Require Import Coquelicot.
From Verif Require Import Base ToolsProofs TrigSpec TrigBase TrigModel TrigTrans TrigObj FlModel FlProofs FlSum FlMap FlTrigModel FlTrig FlMul FlFftModel FlFft.
Import ListNotations.
Open Scope R_scope.
Local Opaque uro eta.

(** ** Specification *)
Definition cdouble_list (w : list C) : Prop := forall a, In a w -> is_double (fst a) /\ is_double (snd a).
Definition abs_sum (w : list C) : R := rsum (length w) (fun k => Cmod (nth k w C0)).
(** the library computes transforms of length n with relative accuracy d (and e in the range of underflow) *)
Definition accurate_cfft (F : cfftlib) (n : nat) (d e : R) : Prop :=
  (forall v, length v = n -> cdouble_list v -> length (cfft F v) = n /\ cdouble_list (cfft F v) /\
     forall k, (k < n)%nat -> Cmod (nth k (cfft F v) C0 - csum n (fun j => nth j v C0 * cis (- (2 * PI * INR j * INR k / INR n))))%C <= d * abs_sum v + e) /\
  (forall w, length w = n -> cdouble_list w -> length (cifft F w) = n /\ cdouble_list (cifft F w) /\
     forall j, (j < n)%nat -> Cmod (nth j (cifft F w) C0 - RtoC (/ INR n) * csum n (fun k => nth k w C0 * cis (2 * PI * INR j * INR k / INR n)))%C <= d * (/ INR n * abs_sum w) + e).
Definition coeff_error (d e : R) (v : list C) : R := 4 * (d + / 2 ^ 53) * (/ INR (length v) * abs_sum v) + 2 * e + 3 * (1 + abs_sum v) * / 2 ^ 1075.
Definition value_error (d e : R) (c : list C) : R := 8 * (d + / 2 ^ 53) * abs_sum c + 2 * e + 8 * / 2 ^ 1075.

Lemma accurate_within F n d e : accurate_cfft F n d e -> cfft_within F n d e.
Proof.
  intros [H1 H2]. split.
  - intros v Lv Dv. destruct (H1 v Lv Dv) as (L & _ & E). split; [exact L|]. intros k Hk. rewrite fft_nth by lia. rewrite Lv. apply E, Hk.
  - intros w Lw Dw. destruct (H2 w Lw Dw) as (L & _ & E). split; [exact L|]. intros j Hj. unfold ifft. rewrite Lw, nth_mk by exact Hj. apply E, Hj.
Qed.
Lemma eval_near c h x B : length h = length c -> (forall k, (k < length c)%nat -> Cmod (nth k c C0 - nth k h C0)%C <= B) -> Cmod (evalF c x - evalF h x)%C <= INR (length c) * B.
Proof.
  intros L H. unfold evalF. rewrite L. replace (csum (length c) (fun k => nth k c 0 * mode (length c) k x) - csum (length c) (fun k => nth k h 0 * mode (length c) k x))%C with (csum (length c) (fun k => (nth k c C0 - nth k h C0) * mode (length c) k x))%C.
  2:{ transitivity (csum (length c) (fun k => nth k c 0 * mode (length c) k x) + (- RtoC 1) * csum (length c) (fun k => nth k h 0 * mode (length c) k x))%C; [|ring]. rewrite <- csum_scal, <- csum_plus. apply csum_ext. intros k Hk. unfold C0. ring. }
  rewrite <- rsum_const. eapply Rle_trans; [apply csum_mod|]. apply rsum_le. intros k Hk. rewrite Cmod_mult, <- (Rmult_1_r B). apply Rmult_le_compat; [apply Cmod_ge_0|apply Cmod_ge_0|apply H, Hk|apply mode_mod].
Qed.
Lemma inv_facts n : (2 <= n)%nat -> 0 < / INR n /\ / INR n <= 1 /\ INR n * / INR n = 1 /\ 2 <= INR n.
Proof.
  intros H. assert (2 <= INR n) by (change 2 with (INR 2); apply le_INR; lia). split; [apply Rinv_0_lt_compat; lra|]. split; [rewrite <- Rinv_1; apply Rinv_le_contravar; lra|]. split; [apply Rinv_r; lra|assumption].
Qed.

(** Every computed coefficient is close to that of the trigonometric polynomial through the values. *)
Theorem C200_coefficients F d e v : (2 <= length v)%nat -> cdouble_list v -> accurate_cfft F (length v) d e -> 0 <= d <= / 16 -> 0 <= e <= / 16 ->
  exists h, length h = length v /\ (forall j, (j < length v)%nat -> evalF h (gridpt (length v) j) = nth j v C0) /\
    length (fvals2coeffs F v) = length v /\ forall k, (k < length v)%nat -> Cmod (nth k (fvals2coeffs F v) C0 - nth k h C0)%C <= coeff_error d e v.
Proof.
  intros H2 Dv HF Hd He. exists (vals2coeffs1 v). split; [apply vals2coeffs1_length|]. split; [intros j Hj; apply trig_interpolates, Hj|]. split; [apply fv2c_length|].
  intros k Hk. exact (v2c_err F d e v k H2 Dv (accurate_within _ _ _ _ HF) Hd He Hk).
Qed.
Print Assumptions C200_coefficients.
Lemma coeff_total d e v : (2 <= length v)%nat -> INR (length v) * coeff_error d e v = 4 * (d + uro) * abs_sum v + INR (length v) * (2 * e + 3 * (1 + abs_sum v) * eta).
Proof.
  intros H2. destruct (inv_facts _ H2) as (_ & _ & I & _). unfold coeff_error. change (/ 2 ^ 53) with uro. change (/ 2 ^ 1075) with eta. set (n := INR (length v)) in *.
  transitivity (4 * (d + uro) * abs_sum v * (n * / n) + n * (2 * e + 3 * (1 + abs_sum v) * eta)); [ring|]. rewrite I. ring.
Qed.
(** The computed series takes the values. *)
Theorem C200_interpolates F d e v j : (2 <= length v)%nat -> cdouble_list v -> accurate_cfft F (length v) d e -> 0 <= d <= / 16 -> 0 <= e <= / 16 -> (j < length v)%nat ->
  Cmod (evalF (fvals2coeffs F v) (gridpt (length v) j) - nth j v C0)%C <= 4 * (d + / 2 ^ 53) * abs_sum v + INR (length v) * (2 * e + 3 * (1 + abs_sum v) * / 2 ^ 1075).
Proof.
  intros H2 Dv HF Hd He Hj. destruct (C200_coefficients F d e v H2 Dv HF Hd He) as (h & Lh & V & L & B). rewrite <- (V j Hj). eapply Rle_trans; [apply (eval_near _ h _ (coeff_error d e v)); [lia|intros k Hk; apply B; lia]|]. rewrite L, coeff_total by exact H2. right. reflexivity.
Qed.
Print Assumptions C200_interpolates.
(** The computed values are those of the series at the equispaced points. *)
Theorem C200_values F d e c j : (2 <= length c)%nat -> cdouble_list c -> accurate_cfft F (length c) d e -> 0 <= d <= / 16 -> 0 <= e -> (j < length c)%nat ->
  length (fcoeffs2vals F c) = length c /\ Cmod (nth j (fcoeffs2vals F c) C0 - evalF c (gridpt (length c) j))%C <= value_error d e c.
Proof.
  intros H2 Dc HF Hd He Hj. rewrite <- trig_values_correct by exact Hj. exact (c2v_err F d e c j H2 Dc (accurate_within _ _ _ _ HF) Hd He Hj).
Qed.
Print Assumptions C200_values.

(** ** round trips *)
Lemma dbl_0' : is_double 0.
Proof. apply (dbl_Z 0). cbn. lia. Qed.
Lemma fit_doubles F d e v : (2 <= length v)%nat -> cdouble_list v -> accurate_cfft F (length v) d e -> cdouble_list (fvals2coeffs F v).
Proof.
  intros H2 Dv [HF _] a I. destruct (HF v eq_refl Dv) as (L & _ & _). apply (In_nth _ _ C0) in I. destruct I as (k & Hk & <-). rewrite fv2c_length in Hk. rewrite fv2c_entry by assumption.
  set (w := fscale _ _). destruct (fscale_double (fdiv 1 (INR (length v))) (nth (vsh (length v) k) (cfft F v) C0)) as [W1 W2]. fold w in W1, W2. destruct w as [x y]. cbn [fst snd] in W1, W2. pose proof dbl_0' as D0.
  assert (X : forall p q : R, is_double p -> is_double q -> is_double (fst (eofix (length v) k * ((p, q) : C))%C) /\ is_double (snd (eofix (length v) k * ((p, q) : C))%C)).
  { intros p q Hp Hq. unfold eofix. destruct (Z.even _); cbn [fst snd Cmult RtoC].
    - replace (1 * p - 0 * q) with p by ring. replace (1 * q + 0 * p) with q by ring. split; assumption.
    - replace (-1 * p - 0 * q) with (- p) by ring. replace (-1 * q + 0 * p) with (- q) by ring. split; apply dbl_opp; assumption. }
  unfold corr. cbn [fst snd]. destruct (isHerm _), (isSkew _); cbn [fst snd]; apply X; assumption.
Qed.
Lemma val_doubles F d e c : (2 <= length c)%nat -> cdouble_list c -> accurate_cfft F (length c) d e -> 0 <= d <= / 16 -> 0 <= e -> cdouble_list (fcoeffs2vals F c).
Proof.
  intros H2 Dc HF Hd He a I. apply (In_nth _ _ C0) in I. destruct I as (j & Hj & <-). destruct (raw_err F d e c 0 H2 Dc (accurate_within _ _ _ _ HF) Hd He ltac:(lia)) as (L & _ & _). rewrite fc2v_length in Hj by assumption. rewrite fc2v_entry by assumption. cbv zeta.
  destruct (isim c); [split; apply fl_is_double|]. destruct (isre c); [split; apply fl_is_double|]. destruct HF as [_ HF]. unfold frawv in *.
  assert (La : length (adj c) = length c) by apply mk_length. destruct (HF (ifftshift (map (fscale (INR (length c))) (adj c)))) as (_ & DD & _).
  - unfold ifftshift. rewrite mk_length, map_length. exact La.
  - intros b J. unfold ifftshift in J. apply in_map_iff in J. destruct J as (k & <- & _). rewrite map_length, La. rewrite map_nth_C by (rewrite La; apply Nat.mod_upper_bound; lia). apply fscale_double.
  - apply DD, nth_In. rewrite L. exact Hj.
Qed.
Lemma Usum_mod v k B : (2 <= length v)%nat -> (forall j, (j < length v)%nat -> Cmod (nth j v C0) <= B) -> Cmod (Usum v k) <= B.
Proof.
  intros H2 H. destruct (inv_facts _ H2) as (I0 & _ & I & _). unfold Usum. rewrite Cmod_mult, Cmod_R, Rabs_right by lra. apply Rle_trans with (/ INR (length v) * (INR (length v) * B)).
  - apply Rmult_le_compat_l; [lra|]. rewrite <- rsum_const. eapply Rle_trans; [apply csum_mod|]. apply rsum_le. intros j Hj. rewrite Cmod_mult, Cmod_conj. unfold W. rewrite cis_mod, Rmult_1_r. apply H, Hj.
  - rewrite <- Rmult_assoc, (Rmult_comm (/ _)), I. lra.
Qed.
Lemma Usum_mod' v k : (2 <= length v)%nat -> Cmod (Usum v k) <= / INR (length v) * abs_sum v.
Proof.
  intros H2. destruct (inv_facts _ H2) as (I0 & _ & _ & _). unfold Usum. rewrite Cmod_mult, Cmod_R, Rabs_right by lra. apply Rmult_le_compat_l; [lra|]. eapply Rle_trans; [apply csum_mod|]. apply rsum_le. intros j Hj. rewrite Cmod_mult, Cmod_conj. unfold W. rewrite cis_mod, Rmult_1_r. lra.
Qed.
Lemma Usum_minus v w k : length w = length v -> (Usum w k - Usum v k)%C = Usum (mk (length v) (fun j => (nth j w C0 - nth j v C0)%C)) k.
Proof.
  intros L. unfold Usum. rewrite mk_length, L. set (n := length v).
  transitivity (RtoC (/ INR n) * (csum n (fun j => nth j w C0 * Cconj (W n j k)) + (- RtoC 1) * csum n (fun j => nth j v C0 * Cconj (W n j k))))%C; [ring|]. f_equal. rewrite <- csum_scal, <- csum_plus. apply csum_ext. intros j Hj. rewrite nth_mk by exact Hj. ring.
Qed.
Lemma casum_near (v w : list C) B : length w = length v -> (forall i, (i < length v)%nat -> Cmod (nth i w C0 - nth i v C0)%C <= B) -> abs_sum w <= abs_sum v + INR (length v) * B.
Proof.
  intros L H. unfold abs_sum. rewrite L, <- rsum_const, <- rsum_plus. apply rsum_le. intros i Hi. specialize (H i Hi). replace (nth i w C0) with (nth i v C0 + (nth i w C0 - nth i v C0))%C by ring. eapply Rle_trans; [apply Cmod_triangle|]. lra.
Qed.

(** Values -> coefficients -> values returns the values. *)
Theorem C200_values_roundtrip F d e v j : (2 <= length v)%nat -> cdouble_list v -> accurate_cfft F (length v) d e -> 0 <= d <= / 16 -> 0 <= e <= / 16 -> (j < length v)%nat ->
  Cmod (nth j (fcoeffs2vals F (fvals2coeffs F v)) C0 - nth j v C0)%C <= 16 * (d + / 2 ^ 53) * abs_sum v + (4 * INR (length v) + 2) * e + (6 * INR (length v) * (1 + abs_sum v) + 8) * / 2 ^ 1075.
Proof.
  intros H2 Dv HF Hd He Hj. pose proof (C200_interpolates F d e v j H2 Dv HF Hd He Hj) as I. assert (L := fv2c_length F v).
  destruct (C200_values F d e (fvals2coeffs F v) j) as [_ B]; [lia|apply (fit_doubles F d e); assumption|rewrite L; exact HF|exact Hd|lra|lia|]. rewrite L in B.
  assert (SB : abs_sum (fvals2coeffs F v) <= abs_sum v + INR (length v) * coeff_error d e v).
  { eapply Rle_trans; [apply (casum_near (vals2coeffs1 v) _ (coeff_error d e v))|].
    - rewrite vals2coeffs1_length. exact L.
    - rewrite vals2coeffs1_length. intros i Hi. exact (v2c_err F d e v i H2 Dv (accurate_within _ _ _ _ HF) Hd He Hi).
    - rewrite vals2coeffs1_length. apply Rplus_le_compat_r. unfold abs_sum at 1. rewrite vals2coeffs1_length. destruct (inv_facts _ H2) as (_ & _ & J & _).
      apply Rle_trans with (rsum (length v) (fun _ => / INR (length v) * abs_sum v)); [apply rsum_le; intros k Hk; rewrite vals2coeffs1_Usum by assumption; apply Usum_mod', H2|]. rewrite rsum_const, <- Rmult_assoc, J. lra. }
  rewrite coeff_total in SB by exact H2. unfold value_error in B. change (/ 2 ^ 53) with uro in *. change (/ 2 ^ 1075) with eta in *. destruct uro_small as [U0 _]. pose proof tiny_uro as U1. pose proof eta_pos as E0. assert (S0 : 0 <= abs_sum v) by exact (casum_pos v).
  set (A := abs_sum v) in *. set (q := d + uro) in *. assert (q0 : 0 <= q <= / 8) by (unfold q; lra). set (n := INR (length v)) in *. assert (n2 : 2 <= n) by (unfold n; change 2 with (INR 2); apply le_INR; lia).
  set (Rm := n * (2 * e + 3 * (1 + A) * eta)) in *. assert (hA : 0 <= (1 + A) * eta) by (apply Rmult_le_pos; lra). assert (R0 : 0 <= Rm) by (apply Rmult_le_pos; lra). assert (qA : 0 <= q * A) by (apply Rmult_le_pos; lra).
  assert (M1 : 8 * q * abs_sum (fvals2coeffs F v) <= 8 * q * (A + (4 * q * A + Rm))) by (apply Rmult_le_compat_l; lra).
  assert (X : q * (4 * (q * A) + Rm) <= / 8 * (4 * (q * A) + Rm)) by (apply Rmult_le_compat_r; lra).
  replace (8 * q * (A + (4 * q * A + Rm))) with (8 * (q * A) + 8 * (q * (4 * (q * A) + Rm))) in M1 by ring. replace (4 * q * A) with (4 * (q * A)) in I by ring.
  replace (nth j (fcoeffs2vals F (fvals2coeffs F v)) C0 - nth j v C0)%C with ((nth j (fcoeffs2vals F (fvals2coeffs F v)) C0 - evalF (fvals2coeffs F v) (gridpt (length v) j)) + (evalF (fvals2coeffs F v) (gridpt (length v) j) - nth j v C0))%C by ring.
  eapply Rle_trans; [apply Cmod_triangle|]. replace (16 * q * A) with (16 * (q * A)) by ring. replace ((4 * n + 2) * e + (6 * n * (1 + A) + 8) * eta) with (2 * Rm + 2 * e + 8 * eta) by (unfold Rm; ring). replace (16 * (q * A) + (4 * n + 2) * e + (6 * n * (1 + A) + 8) * eta) with (16 * (q * A) + (2 * Rm + 2 * e + 8 * eta)) by (unfold Rm; ring). lra.
Qed.
Print Assumptions C200_values_roundtrip.

(** Coefficients -> values -> coefficients returns the coefficients. *)
Theorem C200_coefficients_roundtrip F d e c k : (2 <= length c)%nat -> cdouble_list c -> accurate_cfft F (length c) d e -> 0 <= d <= / 16 -> 0 <= e <= / 16 -> (k < length c)%nat ->
  Cmod (nth k (fvals2coeffs F (fcoeffs2vals F c)) C0 - nth k c C0)%C <= 16 * (d + / 2 ^ 53) * abs_sum c + 5 * e + (16 + 6 * INR (length c) * (1 + abs_sum c)) * / 2 ^ 1075.
Proof.
  intros H2 Dc HF Hd He Hk. assert (VE := fun j Hj => proj2 (c2v_err F d e c j H2 Dc (accurate_within _ _ _ _ HF) Hd (proj1 He) Hj)). destruct (c2v_err F d e c 0 H2 Dc (accurate_within _ _ _ _ HF) Hd (proj1 He) ltac:(lia)) as [L _].
  pose proof (val_doubles F d e c H2 Dc HF Hd (proj1 He)) as Dw. set (w := fcoeffs2vals F c) in *. set (v := coeffs2vals1 c) in *. assert (Lv : length v = length c) by apply coeffs2vals1_length.
  pose proof (v2c_err F d e w k ltac:(lia) Dw) as B. rewrite L in B. specialize (B (accurate_within _ _ _ _ HF) Hd He Hk).
  assert (PV : Usum v k = nth k c C0) by (rewrite <- vals2coeffs1_Usum by lia; unfold v; rewrite trig_c2v_v2c; reflexivity).
  pose proof (Usum_minus v w k ltac:(lia)) as UM. rewrite PV in UM. fold (abs_sum w) in B. change (casum w) with (abs_sum w) in B. change (casum c) with (abs_sum c) in VE.
  destruct (inv_facts _ H2) as (I0 & I1 & IN & n2). destruct uro_small as [U0 _]. pose proof tiny_uro as U1. pose proof eta_pos as E0. pose proof eta_uro as EU. assert (A0 : 0 <= abs_sum c) by exact (casum_pos c). change (/ 2 ^ 53) with uro. change (/ 2 ^ 1075) with eta.
  set (n := INR (length c)) in *. set (A := abs_sum c) in *. set (q := d + uro) in *. assert (q0 : 0 <= q <= / 8) by (unfold q; lra). set (T := 8 * q * A + 2 * e + 8 * eta) in *. assert (qA : 0 <= q * A) by (apply Rmult_le_pos; lra). assert (TX : T = 8 * (q * A) + 2 * e + 8 * eta) by (unfold T; ring).
  assert (T0 : 0 <= T) by lra. assert (qA8 : q * A <= / 8 * A) by (apply Rmult_le_compat_r; lra).
  assert (D1 : Cmod (nth k (vals2coeffs1 w) C0 - nth k c C0)%C <= T).
  { rewrite vals2coeffs1_Usum by lia. rewrite UM. apply Usum_mod; rewrite mk_length; [lia|]. intros j Hj. rewrite nth_mk by exact Hj. apply VE. lia. }
  assert (SW : abs_sum w <= n * (A + T)).
  { unfold abs_sum. rewrite L. unfold n. rewrite <- rsum_const. apply rsum_le. intros i Hi. replace (nth i w C0) with (nth i v C0 + (nth i w C0 - nth i v C0))%C by ring. eapply Rle_trans; [apply Cmod_triangle|].
    assert (Cmod (nth i v C0) <= A). { unfold v. rewrite trig_values_correct by exact Hi. unfold evalF, A, abs_sum. eapply Rle_trans; [apply csum_mod|]. apply rsum_le. intros m Hm. rewrite Cmod_mult. fold C0. rewrite <- (Rmult_1_r (Cmod (nth m c C0))) at 2. apply Rmult_le_compat_l; [apply Cmod_ge_0|apply mode_mod]. }
    specialize (VE i Hi). lra. }
  assert (Q2 : / n * abs_sum w <= A + T). { apply Rle_trans with (/ n * (n * (A + T))); [apply Rmult_le_compat_l; lra|]. rewrite <- Rmult_assoc, (Rmult_comm (/ n)), IN. lra. }
  assert (Q3 : 4 * q * (/ n * abs_sum w) <= 4 * q * (A + T)) by (apply Rmult_le_compat_l; lra). assert (Q4 : q * T <= / 8 * T) by (apply Rmult_le_compat_r; lra). replace (4 * q * (A + T)) with (4 * (q * A) + 4 * (q * T)) in Q3 by ring.
  assert (AT : A + T <= 2 * (1 + A)) by lra. assert (nA : n * (A + T) <= n * (2 * (1 + A))) by (apply Rmult_le_compat_l; lra).
  assert (Q5 : abs_sum w * eta <= 2 * (n * (1 + A)) * eta) by (apply Rmult_le_compat_r; lra).
  replace (nth k (fvals2coeffs F w) C0 - nth k c C0)%C with ((nth k (fvals2coeffs F w) C0 - nth k (vals2coeffs1 w) C0) + (nth k (vals2coeffs1 w) C0 - nth k c C0))%C by ring. eapply Rle_trans; [apply Cmod_triangle|].
  replace (16 * q * A) with (16 * (q * A)) by ring. replace (3 * (1 + abs_sum w) * eta) with (3 * eta + 3 * (abs_sum w * eta)) in B by ring. replace ((16 + 6 * n * (1 + A)) * eta) with (16 * eta + 3 * (2 * (n * (1 + A)) * eta)) by ring. lra.
Qed.
Print Assumptions C200_coefficients_roundtrip.

(** ** laws that hold without any error *)
(** Values with v(-x) = conj v(x) at the points give real coefficients. *)
Theorem C200_symmetric F v k : (2 <= length v)%nat -> length (cfft F v) = length v -> (k < length v)%nat ->
  (forall j, (j < length v)%nat -> nth ((length v - j) mod length v) v C0 = Cconj (nth j v C0)) -> Im (nth k (fvals2coeffs F v) C0) = 0.
Proof.
  intros H2 L Hk H. rewrite fv2c_entry by assumption. assert (E : isHerm (v ++ [nth 0 v C0]) = true).
  { unfold isHerm. apply (forallb_nth _ _ (C0, C0)). intros i Hi. rewrite combine_length, rev_length, app_length in Hi. cbn [length] in Hi. rewrite combine_rev_nth by (rewrite app_length; cbn [length]; lia). cbn [fst snd]. rewrite app_length. cbn [length]. rewrite !app_last_nth by lia. apply Reqb_true.
    replace (length v + 1 - 1 - i)%nat with (length v - i)%nat by lia. assert (G : forall a b : C, b = Cconj a -> Cmod (a - Cconj b)%C = 0). { intros a b ->. rewrite Cconj_conj. replace (a - a)%C with (RtoC 0) by ring. apply Cmod_0. }
    assert (Q0 := H 0%nat ltac:(lia)). rewrite Nat.sub_0_r, Nat.mod_same in Q0 by lia. apply G. destruct (Nat.eqb_spec i (length v)) as [->|N1].
    - rewrite (proj2 (Nat.eqb_neq _ _)) by lia. rewrite Nat.sub_diag. exact Q0.
    - destruct (Nat.eqb_spec (length v - i) (length v)) as [E2|N2].
      + assert (i = 0)%nat as -> by lia. exact Q0.
      + rewrite <- (H i ltac:(lia)). rewrite Nat.mod_small by lia. reflexivity. }
  rewrite E. set (w := fscale _ _). unfold corr. unfold eofix. destruct (isSkew _), (Z.even _); cbn [fst snd Im Cmult RtoC]; ring.
Qed.
Print Assumptions C200_symmetric.
(** Real coefficients, not all 0, give values with v(-x) = conj v(x), bit for bit. *)
Theorem C200_real F c j : (2 <= length c)%nat -> (forall w, length w = length c -> length (cifft F w) = length c) -> (j < length c)%nat ->
  (forall k, (k < length c)%nat -> Im (nth k c C0) = 0) -> (exists k, (k < length c)%nat /\ nth k c C0 <> C0) ->
  nth ((length c - j) mod length c) (fcoeffs2vals F c) C0 = Cconj (nth j (fcoeffs2vals F c) C0).
Proof.
  intros H2 HL Hj Hr (m & Hm & Nz). assert (La : length (adj c) = length c) by apply mk_length.
  assert (L : length (frawv F c) = length c) by (apply HL; unfold ifftshift; rewrite mk_length, map_length; exact La).
  assert (EA : forall k, (k < length c)%nat -> nth k (adj c) C0 = (eofix (length c) k * nth k c C0)%C) by (intros k Hk; unfold adj; rewrite nth_mk by exact Hk; reflexivity).
  assert (E1 : isre c = true). { apply (forallb_nth _ _ C0). intros k Hk. rewrite La in Hk. apply Reqb_true. rewrite EA by exact Hk. specialize (Hr k Hk). destruct (nth k c C0) as [x y]. cbn [Im snd] in Hr. subst y. unfold eofix. destruct (Z.even _); cbn [Im snd Cmult RtoC fst]; match goal with |- Rabs ?t = 0 => replace t with 0 by ring end; apply Rabs_R0. }
  assert (E2 : isim c = false). { destruct (isim c) eqn:E; [|reflexivity]. exfalso. apply Nz. assert (E' := proj1 (forallb_nth _ (adj c) C0) E m ltac:(lia)). apply Reqb_true in E'. rewrite EA in E' by exact Hm. specialize (Hr m Hm). destruct (nth m c C0) as [x y]. cbn [Im snd] in Hr. subst y.
    assert (X : x = 0). { unfold eofix in E'. destruct (Z.even _); cbn [Re snd Cmult RtoC fst] in E'; [replace (1 * x - 0 * 0) with x in E' by ring|replace (-1 * x - 0 * 0) with (- x) in E' by ring; rewrite Rabs_Ropp in E']; destruct (Req_dec x 0) as [|N]; [assumption|exfalso; exact (Rabs_no_R0 _ N E')|assumption|exfalso; exact (Rabs_no_R0 _ N E')]. }
    rewrite X. reflexivity. }
  fold (opp_index (length c) j). assert (Ho := opp_lt (length c) j ltac:(lia)). rewrite !fc2v_entry by assumption. cbv zeta. rewrite E1, E2.
  assert (OO : opp_index (length c) (opp_index (length c) j) = j). { unfold opp_index. destruct (Nat.eq_dec j 0) as [->|N]; [rewrite Nat.sub_0_r, Nat.mod_same, Nat.sub_0_r, Nat.mod_same by lia; reflexivity|]. rewrite (Nat.mod_small (length c - j)) by lia. replace (length c - (length c - j))%nat with j by lia. apply Nat.mod_small, Hj. }
  rewrite OO. generalize (nth j (frawv F c) C0) (nth (opp_index (length c) j) (frawv F c) C0). intros [p1 p2] [q1 q2]. unfold fherm, Cconj. cbn [fst snd]. f_equal.
  - unfold fadd. rewrite Rplus_comm. reflexivity.
  - unfold fdiv, fadd. replace (q2 + - p2) with (- (p2 + - q2)) by ring. rewrite fl_opp. replace (- fl (p2 + - q2) / 2) with (- (fl (p2 + - q2) / 2)) by field. apply fl_opp.
Qed.
Print Assumptions C200_real.
(** A single value is its own coefficient. *)
Theorem C200_constant F t : fvals2coeffs F [t] = [t] /\ fcoeffs2vals F [t] = [t].
Proof. split; reflexivity. Qed.
Print Assumptions C200_constant.

(** ** A library that rounds exact transforms meets the hypothesis with d = 2 / 2^53 and e = 2 / 2^1075. *)
Definition cround (w : C) : C := (fl (fst w), fl (snd w)).
Definition rounded_cfft : cfftlib := {| cfft := fun v => map cround (fft v); cifft := fun w => map cround (ifft w) |}.
Lemma cround_err w : Cmod (cround w - w)%C <= 2 * uro * Cmod w + 2 * eta.
Proof.
  pose proof (cround_dist w w (fl (fst w)) (fl (snd w)) 0) as Q. replace (w - w)%C with (RtoC 0) in Q by ring. rewrite Cmod_0 in Q. specialize (Q ltac:(lra) eq_refl eq_refl). rewrite Rplus_0_r, Rplus_0_l in Q. exact Q.
Qed.
Lemma nth_cround l k : (k < length l)%nat -> nth k (map cround l) C0 = cround (nth k l C0).
Proof. intros H. apply map_nth_C, H. Qed.
Lemma rounded_accurate n : (1 <= n)%nat -> accurate_cfft rounded_cfft n (2 * / 2 ^ 53) (2 * / 2 ^ 1075).
Proof.
  intros Hn. destruct uro_small as [U0 U1]. change (/ 2 ^ 53) with uro. change (/ 2 ^ 1075) with eta. assert (Np : (0 < INR n)%R) by (apply lt_0_INR; lia). assert (Ip : 0 < / INR n) by (apply Rinv_0_lt_compat, Np).
  assert (CD : forall l, cdouble_list (map cround l)) by (intros l a I; apply in_map_iff in I; destruct I as (? & <- & _); split; apply fl_is_double). split.
  - intros v Lv _. cbn [cfft rounded_cfft]. assert (LF : length (fft v) = n) by (unfold fft; rewrite mk_length; exact Lv). split; [rewrite map_length; exact LF|]. split; [apply CD|]. intros k Hk. rewrite nth_cround by lia.
    assert (E : nth k (fft v) C0 = csum n (fun j => nth j v C0 * cis (- (2 * PI * INR j * INR k / INR n)))%C) by (rewrite fft_nth by lia; rewrite Lv; reflexivity).
    rewrite <- E. eapply Rle_trans; [apply cround_err|]. pose proof (cfft_bound v k ltac:(lia)) as B. change (casum v) with (abs_sum v) in B. assert (2 * uro * Cmod (nth k (fft v) C0) <= 2 * uro * abs_sum v) by (apply Rmult_le_compat_l; lra). lra.
  - intros w Lw _. cbn [cifft rounded_cfft]. assert (LF : length (ifft w) = n) by (unfold ifft; rewrite mk_length; exact Lw). split; [rewrite map_length; exact LF|]. split; [apply CD|]. intros j Hj. rewrite nth_cround by lia.
    assert (E : nth j (ifft w) C0 = (RtoC (/ INR n) * csum n (fun k => nth k w C0 * cis (2 * PI * INR j * INR k / INR n)))%C) by (unfold ifft; rewrite Lw, nth_mk by exact Hj; reflexivity).
    rewrite <- E. eapply Rle_trans; [apply cround_err|]. assert (B : Cmod (nth j (ifft w) C0) <= / INR n * abs_sum w).
    { rewrite E. rewrite Cmod_mult, Cmod_R, Rabs_right by lra. apply Rmult_le_compat_l; [lra|]. unfold abs_sum. rewrite Lw. eapply Rle_trans; [apply csum_mod|]. apply rsum_le. intros k _. rewrite Cmod_mult, cis_mod. lra. }
    assert (2 * uro * Cmod (nth j (ifft w) C0) <= 2 * uro * (/ INR n * abs_sum w)) by (apply Rmult_le_compat_l; lra). lra.
Qed.
(** The values -1, 0, 1, 0 of cos(pi x) at four points: with that library the coefficients are 0, 1/2, 0, 1/2 to fourteen
    digits, and they are real. *)
Definition cos_values : list C := [RtoC (-1); RtoC 0; RtoC 1; RtoC 0].
Definition cos_coeffs : list C := [RtoC 0; RtoC (/ 2); RtoC 0; RtoC (/ 2)].
Lemma cos_exact : vals2coeffs1 cos_values = cos_coeffs.
Proof.
  rewrite <- (trig_c2v_v2c cos_coeffs). f_equal. symmetry. apply (nth_ext _ _ C0 C0); [rewrite coeffs2vals1_length; reflexivity|]. rewrite coeffs2vals1_length. intros j Hj. rewrite trig_values_correct by exact Hj. cbn [length cos_coeffs] in Hj. unfold evalF, gridpt. cbn [length cos_coeffs csum nth].
  unfold mode, freq. change (4 / 2)%nat with 2%nat. cbn [Nat.even Nat.eqb andb]. change (Z.of_nat 1 - Z.of_nat 2)%Z with (-1)%Z. change (Z.of_nat 3 - Z.of_nat 2)%Z with 1%Z. replace (INR 4) with 4 by (cbn; ring).
  assert (S : forall t : R, (RtoC (/ 2) * cis (PI * -1 * t) + RtoC (/ 2) * cis (PI * 1 * t))%C = RtoC (cos (PI * t))).
  { intros t. unfold cis. replace (PI * -1 * t) with (- (PI * t)) by ring. rewrite Rmult_1_r, cos_neg, sin_neg. apply injective_projections; cbn; field. }
  match goal with |- ?X = _ => replace X with (RtoC (cos (PI * (-1 + 2 * INR j / 4)))) end.
  2:{ rewrite <- S. ring. }
  destruct j as [|[|[|[|j]]]]; [| | | |lia]; cbn [nth cos_values INR].
  - replace (PI * (-1 + 2 * 0 / 4)) with (- PI) by field. rewrite cos_neg, cos_PI. reflexivity.
  - replace (PI * (-1 + 2 * 1 / 4)) with (- (PI / 2)) by field. rewrite cos_neg, cos_PI2. reflexivity.
  - replace (PI * (-1 + 2 * (1 + 1) / 4)) with 0 by field. rewrite cos_0. reflexivity.
  - replace (PI * (-1 + 2 * (1 + 1 + 1) / 4)) with (PI / 2) by field. rewrite cos_PI2. reflexivity.
Qed.
Theorem C200_case k : (k < 4)%nat ->
  Cmod (nth k (fvals2coeffs rounded_cfft cos_values) C0 - nth k cos_coeffs C0)%C <= 12 * / 2 ^ 53 /\ 12 * / 2 ^ 53 < / 10 ^ 14 /\
  Im (nth k (fvals2coeffs rounded_cfft cos_values) C0) = 0.
Proof.
  intros Hk. pose proof eta_uro as EU. pose proof eta_pos as E0. destruct uro_small as [U0 _]. pose proof tiny_uro as U1.
  assert (UB : uro <= / 9000000000000000). { Local Transparent uro. unfold uro. apply Rinv_le_contravar; [lra|]. rewrite !pow_IZR. apply IZR_le. cbn. lia. Local Opaque uro. }
  assert (P14 : / 10 ^ 14 = / 100000000000000). { f_equal. rewrite pow_IZR. f_equal. }
  assert (D0 := dbl_0'). assert (Dv : cdouble_list cos_values).
  { intros a I. cbn [cos_values In] in I. destruct I as [<-|[<-|[<-|[<-|[]]]]]; cbn [fst snd RtoC]; split; try exact D0; [exact dbl_m1|exact dbl_1]. }
  assert (SA : abs_sum cos_values = 2). { unfold abs_sum. cbn [length cos_values rsum nth]. rewrite !Cmod_R, Rabs_R0, Rabs_R1, Rabs_left by lra. ring. }
  split; [|split].
  - rewrite <- cos_exact. eapply Rle_trans; [apply (v2c_err rounded_cfft (2 * uro) (2 * eta) cos_values k); [cbn; lia|exact Dv| |lra|lra|exact Hk]|].
    + pose proof (rounded_accurate 4 ltac:(lia)) as RA. apply accurate_within in RA. exact RA.
    + change (casum cos_values) with (abs_sum cos_values). rewrite SA. change (INR (length cos_values)) with (INR 4). replace (INR 4) with 4 by (cbn; ring). change (/ 2 ^ 53) with uro. lra.
  - change (/ 2 ^ 53) with uro. rewrite P14. lra.
  - apply C200_symmetric; [cbn; lia|reflexivity|exact Hk|]. intros j Hj. cbn [length cos_values] in Hj |- *. destruct j as [|[|[|[|j]]]]; [| | | |lia]; cbn [nth]; apply injective_projections; cbn; ring.
Qed.
Print Assumptions C200_case.
