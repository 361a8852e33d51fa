(** C201: accuracy of sampling in floating point. *)
From Coq Require Import Reals List Arith Lia Lra Bool ZArith.
From Verif Require Import Base ToolsProofs ChebSpec ChebModel ChebDct ChebMath FlModel FlProofs FlSum FlMap FlTrigModel FlTrig FlMul FlDctModel FlDct PropFl PropFlT PropFlD FlSampleModel FlSample.
Import ListNotations.
Open Scope R_scope.
Local Opaque uro eta.

(** ** Specification *)
Definition abs_sum (c : list R) : R := rsum (length c) (fun k => Rabs (nth k c 0)).
(** the sine of the library has absolute accuracy s and returns doubles of [-1, 1] *)
Definition accurate_sin (L : libm) (s : R) : Prop :=
  forall t, is_double t -> is_double (lsin L t) /\ -1 <= lsin L t <= 1 /\ Rabs (lsin L t - sin t) <= s.
(** the callable computes the polynomial with coefficients h with absolute accuracy r *)
Definition computes (op : R -> R) (h : list R) (r : R) : Prop :=
  forall x, is_double x -> -1 <= x <= 1 -> Rabs (op x - evalT h x) <= r.
(** accuracy of the sampled values and of the computed coefficients; d, e: accuracy of the cosine transform *)
Definition sample_error (s r : R) (h : list R) : R := r + INR (length h) ^ 2 * abs_sum h * (s + 16 * / 2 ^ 53).
Definition construct_error (s r d e : R) (h : list R) : R :=
  6 * sample_error s r h + 10 * (d + / 2 ^ 53) * abs_sum h + 2 * e + 4 * INR (length h) * / 2 ^ 1075.

Lemma abs_sum_lasum c : abs_sum c = lasum c.
Proof. symmetry. apply lasum_nth. Qed.
(** only the sine of the library matters here *)
Definition only_sin (L : libm) : libm := {| lcos := cos; lsin := lsin L; lecos := cos; lesin := sin |}.
Lemma only_sin_within L s : accurate_sin L s -> libm_within (only_sin L) s.
Proof.
  intros H t Ft. destruct (H t Ft) as (_ & _ & E). assert (Z : forall y, Rabs (y - y) <= s). { intros y. rewrite Rminus_diag_eq, Rabs_R0 by reflexivity. eapply Rle_trans; [apply Rabs_pos|exact E]. }
  cbn. split; [apply Z|]. split; [exact E|]. split; apply Z.
Qed.
Lemma pts_only L N : fchebpts (only_sin L) N = fchebpts L N.
Proof. reflexivity. Qed.

(** The computed sample points are the Chebyshev points. *)
Theorem C201_points L s N j : accurate_sin L s -> (2 <= N)%nat -> (j < N)%nat ->
  length (fchebpts L N) = N /\ is_double (nth j (fchebpts L N) 0) /\ -1 <= nth j (fchebpts L N) 0 <= 1 /\
  Rabs (nth j (fchebpts L N) 0 - cheb_point N j) <= s + 16 * / 2 ^ 53.
Proof.
  intros HL H2 Hj. split; [apply fchebpts_length|]. rewrite <- (pts_only L) at 4. pose proof (points_err _ s N j (only_sin_within L s HL) H2 Hj) as P. change (/ 2 ^ 53) with uro.
  rewrite pts_only in *. rewrite (fchebpts_nth L N j H2 Hj) in *. destruct (HL (fdiv (fmul fpi (2 * INR j - INR (N - 1))) (2 * INR (N - 1))) ltac:(apply fl_is_double)) as (D & R1 & _). split; [exact D|]. split; [exact R1|exact P].
Qed.
Print Assumptions C201_points.
(** With a single point the function built is the constant op(0), exactly. *)
Theorem C201_single_point D L op : fchebpts L 1 = [0] /\ fconstruct D L op 1 = [op 0].
Proof. split; reflexivity. Qed.
Print Assumptions C201_single_point.
(** A grid of 2N - 1 points contains the grid of N points, bit for bit: refining by reusing values gives exactly what
    sampling afresh gives. *)
Theorem C201_nested L op N : (2 <= N)%nat ->
  (forall j, (j < N)%nat -> nth (2 * j) (fchebpts L (2 * N - 1)) 0 = nth j (fchebpts L N) 0) /\
  fnested L op (map op (fchebpts L N)) = map op (fchebpts L (2 * N - 1)).
Proof. intros H2. split; [intros j Hj; apply points_nested; assumption|apply nested_sample, H2]. Qed.
Print Assumptions C201_nested.
(** The points are symmetric about 0 if the sine of the library is odd. *)
Theorem C201_symmetric L N j : (forall t, is_double t -> lsin L (- t) = - lsin L t) -> (2 <= N)%nat -> (j < N)%nat ->
  nth (N - 1 - j) (fchebpts L N) 0 = - nth j (fchebpts L N) 0.
Proof.
  intros HO H2 Hj. rewrite !fchebpts_nth by lia. rewrite <- HO by apply fl_is_double. f_equal. rewrite minus_INR by lia. replace (2 * (INR (N - 1) - INR j) - INR (N - 1)) with (- (2 * INR j - INR (N - 1))) by ring.
  unfold fdiv, fmul. rewrite Ropp_mult_distr_r_reverse, fl_opp. unfold Rdiv. rewrite Ropp_mult_distr_l_reverse. apply fl_opp.
Qed.
Print Assumptions C201_symmetric.

Lemma sampled L s op h r j : accurate_sin L s -> computes op h r -> (2 <= length h)%nat -> (j < length h)%nat ->
  Rabs (nth j (fsample L op (length h)) 0 - evalT h (cheb_point (length h) j)) <= sample_error s r h.
Proof.
  intros HL HO H2 Hj. destruct (C201_points L s (length h) j HL H2 Hj) as (LP & D & R1 & E). unfold fsample. rewrite (nth_indep _ 0 (op 0)) by (rewrite map_length, LP; exact Hj). rewrite map_nth. set (x := nth j (fchebpts L (length h)) 0) in *.
  pose proof (HO x D R1) as O. pose proof (evalT_lip h x (cheb_point (length h) j) R1 (point_range _ _)) as LI. rewrite <- abs_sum_lasum in LI.
  assert (P : 0 <= INR (length h) ^ 2 * abs_sum h) by (apply Rmult_le_pos; [apply pow2_ge_0|rewrite abs_sum_lasum; apply lasum_pos]).
  assert (X : INR (length h) ^ 2 * abs_sum h * Rabs (x - cheb_point (length h) j) <= INR (length h) ^ 2 * abs_sum h * (s + 16 * / 2 ^ 53)) by (apply Rmult_le_compat_l; [exact P|exact E]).
  replace (op x - evalT h (cheb_point (length h) j)) with ((op x - evalT h x) + (evalT h x - evalT h (cheb_point (length h) j))) by ring. eapply Rle_trans; [apply Rabs_triang|]. unfold sample_error. lra.
Qed.
(** The coefficients computed from samples are those of the polynomial that is sampled. *)
Theorem C201_coefficients D L s d e op h r k : accurate_sin L s -> computes op h r -> accurate_dct D (length h) d e -> 0 <= d <= / 16 -> 0 <= e -> (2 <= length h)%nat -> (k < length h)%nat ->
  length (fconstruct D L op (length h)) = length h /\ Rabs (nth k (fconstruct D L op (length h)) 0 - nth k h 0) <= construct_error s r d e h.
Proof.
  intros HL HO HD Hd He H2 Hk. unfold fconstruct. assert (LW : length (fsample L op (length h)) = length h) by (unfold fsample; rewrite map_length; apply fchebpts_length).
  assert (S0 : 0 <= sample_error s r h) by (eapply Rle_trans; [apply Rabs_pos|apply (sampled L s op h r k HL HO H2 Hk)]).
  assert (A0 : 0 <= abs_sum h) by (rewrite abs_sum_lasum; apply lasum_pos).
  refine (fit_near D d e h (fsample L op (length h)) (sample_error s r h) (abs_sum h) k H2 LW HD Hd He S0 A0 _ _ Hk).
  - intros j _. rewrite abs_sum_lasum. apply evalT_abs, point_range.
  - intros j Hj. apply sampled; assumption.
Qed.
Print Assumptions C201_coefficients.
(** ... so that the function built is the polynomial, at every point. *)
Theorem C201_function D L s d e op h r x : accurate_sin L s -> computes op h r -> accurate_dct D (length h) d e -> 0 <= d <= / 16 -> 0 <= e -> (2 <= length h)%nat -> -1 <= x <= 1 ->
  Rabs (evalT (fconstruct D L op (length h)) x - evalT h x) <= INR (length h) * construct_error s r d e h.
Proof.
  intros HL HO HD Hd He H2 Hx. assert (C := fun k Hk => C201_coefficients D L s d e op h r k HL HO HD Hd He H2 Hk). destruct (C 0%nat ltac:(lia)) as [LC _]. rewrite <- LC at 2. apply eval_near; [lia|exact Hx|]. intros k Hk. apply C. lia.
Qed.
Print Assumptions C201_function.
(** Sampling a polynomial and evaluating the function built, both in floating point, at any point. *)
Theorem C201_sample_and_evaluate D L s d e op h r z x : accurate_sin L s -> computes op h r -> accurate_dct D (length h) d e -> 0 <= d <= / 16 -> 0 <= e -> (2 <= length h <= 2 ^ 24)%nat ->
  is_double x -> -1 <= x <= 1 ->
  Rabs (fclenshaw_pt z (fconstruct D L op (length h)) x - op x) <=
    2 * INR (length h) * construct_error s r d e h + r + (8 + 24 * INR (length h) ^ 2) * / 2 ^ 53 * abs_sum h + 8 * INR (length h) * / 2 ^ 1075.
Proof.
  intros HL HO HD Hd He [H2 H24] Fx Hx. assert (C := fun k Hk => C201_coefficients D L s d e op h r k HL HO HD Hd He H2 Hk). destruct (C 0%nat ltac:(lia)) as [LC C0]. pose proof (C201_function D L s d e op h r x HL HO HD Hd He H2 Hx) as F.
  set (c := fconstruct D L op (length h)) in *. pose proof (C168_evaluation z c x ltac:(lia) Fx Hx) as EV. rewrite LC in EV. pose proof (HO x Fx Hx) as OX. set (ce := construct_error s r d e h) in *.
  assert (CE0 : 0 <= ce) by (eapply Rle_trans; [apply Rabs_pos|exact C0]).
  assert (SA : PropFl.abs_sum c <= abs_sum h + INR (length h) * ce).
  { rewrite PropFl.abs_sum_lasum, abs_sum_lasum. rewrite <- rsum_const. apply (lasum_near h c (fun _ => ce)); [exact LC|]. intros i Hi. apply C, Hi. }
  destruct (size_ok (length h) H24) as [SZ _]. change (/ 2 ^ 53) with uro in *. change (/ 2 ^ 1075) with eta in *. pose proof tiny_uro as U1. destruct uro_small as [U0 _]. set (N := INR (length h)) in *. assert (N0 : 0 <= N) by apply pos_INR. assert (N2 : 0 <= N ^ 2) by apply pow2_ge_0.
  set (G := (8 + 24 * N ^ 2) * uro) in *. assert (G0 : 0 <= G) by (apply Rmult_le_pos; lra).
  assert (M1 : G * PropFl.abs_sum c <= G * (abs_sum h + N * ce)) by (apply Rmult_le_compat_l; assumption).
  assert (NC : 0 <= N * ce) by (apply Rmult_le_pos; assumption).
  assert (G2 : G * (N * ce) <= 1 * (N * ce)).
  { apply Rmult_le_compat_r; [exact NC|]. unfold G.
    assert (NB : N <= 2 ^ 24). { apply le_INR in H24. rewrite pow_INR in H24. exact H24. }
    assert (NS : N ^ 2 <= 2 ^ 48). { replace (2 ^ 48) with ((2 ^ 24) ^ 2) by (rewrite <- pow_mult; reflexivity). apply pow_incr. lra. }
    Local Transparent uro. unfold uro. assert (E53 : 2 ^ 53 = 32 * 2 ^ 48) by (change 53%nat with (5 + 48)%nat; rewrite pow_add; replace (2 ^ 5) with 32 by ring; reflexivity). rewrite E53. assert (P8 : 2 <= 2 ^ 48) by (rewrite <- (pow_1 2) at 1; apply Rle_pow; [lra|lia]). generalize dependent (2 ^ 48). intros p NS _ P8. apply Rmult_le_reg_r with (32 * p); [lra|]. rewrite Rmult_assoc, Rinv_l by lra. lra. Local Opaque uro. }
  replace (fclenshaw_pt z c x - op x) with ((fclenshaw_pt z c x - evalT c x) + ((evalT c x - evalT h x) + - (op x - evalT h x))) by ring. eapply Rle_trans; [apply Rabs_triang|]. pose proof (Rabs_triang (evalT c x - evalT h x) (- (op x - evalT h x))) as T2. rewrite Rabs_Ropp in T2.
  replace (G * (abs_sum h + N * ce)) with (G * abs_sum h + G * (N * ce)) in M1 by ring. lra.
Qed.
Print Assumptions C201_sample_and_evaluate.

(** With libraries that round exact results, sampling x^2 (computed as fl(x x)) at three points gives it back to thirteen digits. *)
Definition round_lib : libm := {| lcos := fun t => fl (cos t); lsin := fun t => fl (sin t); lecos := fun t => fl (cos t); lesin := fun t => fl (sin t) |}.
Lemma round_lib_accurate : accurate_sin round_lib (2 * / 2 ^ 53).
Proof.
  intros t _. cbn [lsin round_lib]. split; [apply fl_is_double|]. pose proof (SIN_bound t) as [S1 S2]. split.
  - split; [rewrite <- (fl_double (-1) dbl_m1); apply fl_le; exact S1|rewrite <- (fl_double 1 dbl_1); apply fl_le; exact S2].
  - change (/ 2 ^ 53) with uro. destruct uro_small as [U0 _]. pose proof eta_uro as EU. pose proof (fl_err (sin t)) as F. assert (Y : Rabs (sin t) <= 1) by (apply Rabs_le; lra). assert (uro * Rabs (sin t) <= uro * 1) by (apply Rmult_le_compat_l; lra). lra.
Qed.
Theorem C201_case x : -1 <= x <= 1 ->
  Rabs (evalT (fconstruct rounded_dct round_lib (fun t => fmul t t) 3) x - x * x) <= 4000 * / 2 ^ 53 /\ 4000 * / 2 ^ 53 < / 10 ^ 12.
Proof.
  intros Hx. destruct uro_small as [U0 _]. pose proof tiny_uro as U1. pose proof eta_uro as EU. pose proof eta_pos as E0.
  assert (UB : uro <= / 9000000000000000). { Local Transparent uro. unfold uro. apply Rinv_le_contravar; [lra|]. rewrite !pow_IZR. apply IZR_le. cbn. lia. Local Opaque uro. }
  assert (P12 : / 10 ^ 12 = / 1000000000000). { f_equal. rewrite pow_IZR. f_equal. }
  set (h := [/ 2; 0; / 2]). assert (V : forall t, evalT h t = t * t) by (intros t; unfold evalT, h; cbn [length rsum nth T]; field).
  assert (O : computes (fun t => fmul t t) h (2 * / 2 ^ 53)).
  { intros t _ Ht. rewrite V. change (/ 2 ^ 53) with uro. unfold fmul. pose proof (fl_err (t * t)) as F. assert (Y : Rabs (t * t) <= 1) by (apply Rabs_le; nra). assert (uro * Rabs (t * t) <= uro * 1) by (apply Rmult_le_compat_l; lra). change (Rabs (fl (t * t) - t * t) <= 2 * uro). lra. }
  split.
  - rewrite <- V. change (fconstruct rounded_dct round_lib (fun t => fmul t t) 3) with (fconstruct rounded_dct round_lib (fun t => fmul t t) (length h)). eapply Rle_trans; [apply (C201_function rounded_dct round_lib (2 * / 2 ^ 53) (2 * / 2 ^ 53) (/ 2 ^ 1075) _ h (2 * / 2 ^ 53)); [exact round_lib_accurate|exact O|apply rounded_accurate; cbn; lia| | |cbn; lia|exact Hx]|].
    + change (/ 2 ^ 53) with uro. lra.
    + change (/ 2 ^ 1075) with eta. lra.
    + unfold construct_error, sample_error. change (INR (length h)) with (INR 3). replace (INR 3) with 3 by (cbn; ring). replace (abs_sum h) with 1 by (unfold abs_sum, h; cbn [length rsum nth]; rewrite Rabs_R0, Rabs_right by lra; field). change (/ 2 ^ 53) with uro. change (/ 2 ^ 1075) with eta. lra.
  - change (/ 2 ^ 53) with uro. rewrite P12. lra.
Qed.
Print Assumptions C201_case.
