(** C199: accuracy of the transforms between values at Chebyshev points and coefficients in floating point. *)
From Coq Require Import Reals List Arith Lia Lra Bool ZArith.
From Verif Require Import Base ToolsProofs ChebSpec ChebModel ChebDct ChebMath FlModel FlProofs FlSum FlMap FlTrig FlMul FlDctModel FlDct.
Import ListNotations.
Open Scope R_scope.
Local Opaque uro eta.

(** ** Specification *)
Definition doubles (c : list R) : Prop := forall t, In t c -> is_double t.
Definition abs_sum (c : list R) : R := rsum (length c) (fun k => Rabs (nth k c 0)).
(** the j-th of n Chebyshev points, in increasing order *)
Definition cheb_point (n j : nat) : R := - cos (PI * INR j / INR (n - 1)).
(** the library computes the unnormalised cosine transform of type I of length n with relative accuracy d (and e in the
    range of underflow), and returns doubles *)
Definition accurate_dct (D : list R -> list R) (n : nat) (d e : R) : Prop :=
  forall v, length v = n -> doubles v -> length (D v) = n /\ doubles (D v) /\
    forall k, (k < n)%nat ->
      Rabs (nth k (D v) 0 - (nth 0 v 0 + (-1) ^ k * nth (n - 1) v 0 + 2 * rsum (n - 2) (fun i => nth (S i) v 0 * cos (PI * INR k * INR (S i) / INR (n - 1))))) <= d * abs_sum v + e.
Definition fit_error (d e : R) (v : list R) : R :=
  5 * (d + / 2 ^ 53) * (abs_sum v / INR (length v - 1)) + 2 * e + 4 * INR (length v) * / 2 ^ 1075.
Definition val_error (d e : R) (c : list R) : R :=
  2 * (d + / 2 ^ 53) * abs_sum c + e + 3 * INR (length c) * / 2 ^ 1075.

Lemma abs_sum_lasum c : abs_sum c = lasum c.
Proof. symmetry. apply lasum_nth. Qed.
Lemma abs_sum_pos c : 0 <= abs_sum c.
Proof. rewrite abs_sum_lasum. apply lasum_pos. Qed.
Lemma sgn_pow k : sgn k = (-1) ^ k.
Proof.
  unfold sgn. induction k as [|k IH]; [reflexivity|]. rewrite Nat.even_succ, <- Nat.negb_even. cbn [pow]. rewrite <- IH. destruct (Nat.even k); cbn; ring.
Qed.
Lemma accurate_within D n d e : accurate_dct D n d e -> dct_within D n d e.
Proof.
  intros H v Lv Dv. destruct (H v Lv Dv) as (L & _ & E). split; [exact L|]. intros k Hk. rewrite <- abs_sum_lasum. unfold dct1. rewrite Lv, nth_mk by exact Hk. rewrite sgn_pow. apply E, Hk.
Qed.
Lemma point_model n j : (2 <= n)%nat -> (j < n)%nat -> nth j (chebpts_type2_compute n) 0 = cheb_point n j.
Proof.
  intros H Hj. unfold chebpts_type2_compute. destruct n as [|[|n]]; [lia|lia|]. rewrite nth_mk by exact Hj. unfold cheb_point.
  assert (INR (S (S n) - 1) <> 0) by (apply not_0_INR; lia).
  replace (PI * (2 * INR j - INR (S (S n) - 1)) / (2 * INR (S (S n) - 1))) with (- (PI / 2 - PI * INR j / INR (S (S n) - 1))) by (field; assumption). rewrite sin_neg, sin_shift. reflexivity.
Qed.

(** Every computed coefficient is close to that of the polynomial through the sampled values. *)
Theorem C199_coefficients D d e v : (2 <= length v)%nat -> accurate_dct D (length v) d e -> 0 <= d <= / 16 -> 0 <= e ->
  exists h, length h = length v /\ (forall j, (j < length v)%nat -> evalT h (cheb_point (length v) j) = nth j v 0) /\
    length (fpolyfit D v) = length v /\ forall k, (k < length v)%nat -> Rabs (nth k (fpolyfit D v) 0 - nth k h 0) <= fit_error d e v.
Proof.
  intros H2 HD Hd He. exists (polyfit1 v). split; [apply polyfit1_length|]. assert (T := fun k Hk => polyfit_err D d e v k H2 (accurate_within D _ d e HD) Hd He Hk). split; [|split].
  - intros j Hj. rewrite <- point_model by assumption. rewrite <- (polyval_polyfit v) at 3 by lia. rewrite polyval1_spec by (rewrite polyfit1_length; lia). rewrite polyfit1_length. reflexivity.
  - exact (proj1 (T 0%nat ltac:(lia))).
  - intros k Hk. pose proof (proj2 (T k Hk)) as B. unfold fit_error. rewrite abs_sum_lasum. exact B.
Qed.
Print Assumptions C199_coefficients.

Lemma eval_near c h x B : length h = length c -> -1 <= x <= 1 -> (forall k, (k < length c)%nat -> Rabs (nth k c 0 - nth k h 0) <= B) -> Rabs (evalT c x - evalT h x) <= INR (length c) * B.
Proof.
  intros L Hx H. unfold evalT. rewrite L, <- rsum_minus, <- rsum_const. eapply Rle_trans; [apply rsum_Rabs|]. apply rsum_le. intros k Hk.
  replace (nth k c 0 * T k x - nth k h 0 * T k x) with ((nth k c 0 - nth k h 0) * T k x) by ring. rewrite Rabs_mult, <- (Rmult_1_r B). apply Rmult_le_compat; [apply Rabs_pos|apply Rabs_pos|apply H, Hk|apply ChebMath.T_bound, Hx].
Qed.
Lemma point_range n j : -1 <= cheb_point n j <= 1.
Proof. unfold cheb_point. pose proof (COS_bound (PI * INR j / INR (n - 1))). lra. Qed.
Lemma ratio N : (2 <= N)%nat -> 0 < / INR (N - 1) /\ INR N * / INR (N - 1) <= 2.
Proof.
  intros H. assert (1 <= INR (N - 1)) by (change 1 with (INR 1); apply le_INR; lia). split; [apply Rinv_0_lt_compat; lra|]. apply (Rmult_le_reg_r (INR (N - 1))); [lra|]. rewrite Rmult_assoc, Rinv_l by lra.
  rewrite Rmult_1_r. replace (INR N) with (INR (N - 1) + 1); [lra|]. replace N with (S (N - 1)) at 2 by lia. rewrite S_INR. ring.
Qed.
Lemma fit_total d e v : (2 <= length v)%nat -> 0 <= d -> INR (length v) * fit_error d e v <= 10 * (d + uro) * abs_sum v + 2 * INR (length v) * e + 4 * INR (length v) ^ 2 * eta.
Proof.
  intros H2 Hd. destruct (ratio _ H2) as [R0 R1]. pose proof (abs_sum_pos v) as S0. destruct uro_small as [U0 _]. unfold fit_error. change (/ 2 ^ 53) with uro. change (/ 2 ^ 1075) with eta. set (N := length v) in *.
  assert (P : 0 <= 5 * (d + uro) * abs_sum v) by (apply Rmult_le_pos; [lra|exact S0]). pose proof (Rmult_le_compat_l _ _ _ P R1) as Q. unfold Rdiv.
  replace (INR N * (5 * (d + uro) * (abs_sum v * / INR (N - 1)) + 2 * e + 4 * INR N * eta)) with (5 * (d + uro) * abs_sum v * (INR N * / INR (N - 1)) + 2 * INR N * e + 4 * INR N ^ 2 * eta) by ring. lra.
Qed.
(** The computed coefficients interpolate the sampled values. *)
Theorem C199_interpolates D d e v j : (2 <= length v)%nat -> accurate_dct D (length v) d e -> 0 <= d <= / 16 -> 0 <= e -> (j < length v)%nat ->
  Rabs (evalT (fpolyfit D v) (cheb_point (length v) j) - nth j v 0) <= 10 * (d + / 2 ^ 53) * abs_sum v + 2 * INR (length v) * e + 4 * INR (length v) ^ 2 * / 2 ^ 1075.
Proof.
  intros H2 HD Hd He Hj. destruct (C199_coefficients D d e v H2 HD Hd He) as (h & Lh & V & L & B). rewrite <- (V j Hj).
  eapply Rle_trans; [apply (eval_near _ h _ (fit_error d e v)); [lia|apply point_range|intros k Hk; apply B; lia]|]. rewrite L. apply fit_total; [exact H2|lra].
Qed.
Print Assumptions C199_interpolates.

(** The computed values are the values of the polynomial at the Chebyshev points. *)
Theorem C199_values D d e c j : (2 <= length c)%nat -> doubles c -> accurate_dct D (length c) d e -> 0 <= d <= / 16 -> 0 <= e -> (j < length c)%nat ->
  length (fpolyval D c) = length c /\ Rabs (nth j (fpolyval D c) 0 - evalT c (cheb_point (length c) j)) <= val_error d e c.
Proof.
  intros H2 Dc HD Hd He Hj. destruct (polyval_err D d e c j H2 Dc (accurate_within D _ d e HD) Hd He Hj) as [L B]. split; [exact L|]. rewrite <- point_model by assumption. rewrite <- polyval1_spec by lia. unfold val_error. rewrite abs_sum_lasum. exact B.
Qed.
Print Assumptions C199_values.

Lemma fit_doubles D d e v : (2 <= length v)%nat -> accurate_dct D (length v) d e -> doubles (fpolyfit D v).
Proof.
  intros H2 HD t I. unfold fpolyfit in I. rewrite (proj2 (Nat.eqb_neq (length v) 1)) in I by lia. cbv zeta in I. set (c1 := mk (length v) _) in I.
  destruct (HD c1 (mk_length _ _)) as (LD & DD & _). { intros s J. apply in_map_iff in J. destruct J as (? & <- & _). apply fl_is_double. }
  apply (In_nth _ _ 0) in I. destruct I as (k & Hk & <-). rewrite !upd_length in Hk. destruct (Nat.eq_dec k (length v - 1)) as [->|K1].
  - rewrite upd_same by (rewrite upd_length; lia). apply fl_is_double.
  - rewrite upd_other by exact K1. destruct (Nat.eq_dec k 0) as [->|K0]; [rewrite upd_same by lia; apply fl_is_double|]. rewrite upd_other by exact K0. apply DD, nth_In, Hk.
Qed.
Lemma val_doubles D d e c : (2 <= length c)%nat -> doubles c -> accurate_dct D (length c) d e -> doubles (fpolyval D c).
Proof.
  intros H2 Dc HD t I. unfold fpolyval in I. rewrite (proj2 (Nat.eqb_neq (length c) 1)) in I by lia. cbv zeta in I. apply in_rev in I. revert t I. refine (proj1 (proj2 (HD _ (mk_length _ _) _))).
  intros t I. apply in_map_iff in I. destruct I as (i & <- & I). apply in_seq in I. destruct (_ || _)%bool; [apply Dc, nth_In; lia|apply fl_is_double].
Qed.
Lemma fit_bound v k : (2 <= length v)%nat -> (k < length v)%nat -> Rabs (nth k (polyfit1 v) 0) <= 2 * (abs_sum v / INR (length v - 1)).
Proof.
  intros H2 Hk. destruct (ratio _ H2) as [R0 _]. set (N := length v) in *. set (c0 := mk N (fun i => nth (N - i - 1) v 0 / INR (N - 1))).
  assert (L0 : length c0 = N) by apply mk_length.
  assert (LS : lasum c0 = abs_sum v / INR (N - 1)).
  { unfold c0. rewrite lasum_mk, abs_sum_lasum. unfold Rdiv. rewrite lasum_nth. fold N. rewrite <- rsum_scal_r. rewrite <- (rsum_rev N (fun i => Rabs (nth i v 0) * / INR (N - 1))). apply rsum_ext. intros i Hi. rewrite Rabs_mult. rewrite (Rabs_right (/ INR (N - 1))) by lra. replace (N - i - 1)%nat with (N - 1 - i)%nat by lia. reflexivity. }
  rewrite <- LS. assert (CB : forall i, (i < N)%nat -> Rabs (nth i (dct1 c0) 0) <= 2 * lasum c0) by (intros i Hi; apply dct1_bound; lia). pose proof (lasum_pos c0) as P0.
  assert (HB : forall i, (i < N)%nat -> Rabs (nth i (dct1 c0) 0 / 2) <= 2 * lasum c0). { intros i Hi. unfold Rdiv. rewrite Rabs_mult, (Rabs_right (/ 2)) by lra. specialize (CB i Hi). pose proof (Rabs_pos (nth i (dct1 c0) 0)). lra. }
  unfold polyfit1. fold N. rewrite (proj2 (Nat.eqb_neq N 1)) by lia. fold c0. assert (LD0 : length (dct1 c0) = N) by (rewrite dct1_length; exact L0).
  destruct (Nat.eq_dec k (N - 1)) as [->|K1].
  - rewrite upd_same by (rewrite upd_length; lia). rewrite upd_other by lia. apply HB. lia.
  - rewrite upd_other by exact K1. destruct (Nat.eq_dec k 0) as [->|K0]; [rewrite upd_same by lia; apply HB; lia|rewrite upd_other by exact K0; apply CB, Hk].
Qed.
Lemma fit_minus v w k : length w = length v -> (2 <= length v)%nat -> (k < length v)%nat ->
  nth k (polyfit1 w) 0 - nth k (polyfit1 v) 0 = nth k (polyfit1 (mk (length v) (fun i => nth i w 0 - nth i v 0))) 0.
Proof.
  intros L H2 Hk. unfold polyfit1. rewrite mk_length, L. set (N := length v) in *. rewrite (proj2 (Nat.eqb_neq N 1)) by lia. assert (M : INR (N - 1) <> 0) by (apply not_0_INR; lia).
  set (a := mk N (fun i => nth (N - i - 1) w 0 / INR (N - 1))). set (b := mk N (fun i => nth (N - i - 1) v 0 / INR (N - 1))). set (c := mk N (fun i => nth (N - i - 1) (mk N (fun i => nth i w 0 - nth i v 0)) 0 / INR (N - 1))).
  assert (La : length a = N) by apply mk_length. assert (Lb : length b = N) by apply mk_length. assert (Lc : length c = N) by apply mk_length.
  assert (E : forall i, (i < N)%nat -> nth i a 0 - nth i b 0 = nth i c 0). { intros i Hi. unfold a, b, c. rewrite !nth_mk by lia. field. exact M. }
  assert (EL : forall k, (k < N)%nat -> nth k (dct1 a) 0 - nth k (dct1 b) 0 = nth k (dct1 c) 0).
  { intros m Hm. unfold dct1. rewrite La, Lb, Lc, !nth_mk by exact Hm. rewrite <- !E by lia. rewrite (rsum_ext (N - 2) (fun i => nth (S i) c 0 * cos (PI * INR m * INR (S i) / INR (N - 1))) (fun i => nth (S i) a 0 * cos (PI * INR m * INR (S i) / INR (N - 1)) - nth (S i) b 0 * cos (PI * INR m * INR (S i) / INR (N - 1)))) by (intros i Hi; rewrite <- E by lia; ring). rewrite rsum_minus. ring. }
  assert (Da : length (dct1 a) = N) by (rewrite dct1_length; exact La). assert (Db : length (dct1 b) = N) by (rewrite dct1_length; exact Lb). assert (Dc : length (dct1 c) = N) by (rewrite dct1_length; exact Lc).
  destruct (Nat.eq_dec k (N - 1)) as [->|K1].
  - rewrite !upd_same by (rewrite upd_length; lia). rewrite !upd_other by lia. rewrite <- EL by lia. field.
  - rewrite !(upd_other _ (N - 1)) by exact K1. destruct (Nat.eq_dec k 0) as [->|K0].
    + rewrite !upd_same by lia. rewrite <- EL by lia. field.
    + rewrite !upd_other by exact K0. apply EL, Hk.
Qed.

(** Values -> coefficients -> values returns the values. *)
Theorem C199_values_roundtrip D d e v j : (2 <= length v)%nat -> accurate_dct D (length v) d e -> 0 <= d <= / 16 -> 0 <= e -> (j < length v)%nat ->
  Rabs (nth j (fpolyval D (fpolyfit D v)) 0 - nth j v 0) <= 22 * (d + / 2 ^ 53) * abs_sum v + 4 * INR (length v) * e + 8 * INR (length v) ^ 2 * / 2 ^ 1075.
Proof.
  intros H2 HD Hd He Hj. pose proof (C199_interpolates D d e v j H2 HD Hd He Hj) as I. destruct (polyfit_err D d e v 0 H2 (accurate_within D _ d e HD) Hd He ltac:(lia)) as [L _].
  assert (FE := fun k Hk => proj2 (polyfit_err D d e v k H2 (accurate_within D _ d e HD) Hd He Hk)).
  destruct (C199_values D d e (fpolyfit D v) j) as [_ B]; try assumption; [lia|apply (fit_doubles D d e); assumption|rewrite L; exact HD|lia|]. rewrite L in B.
  assert (SB : abs_sum (fpolyfit D v) <= 4 * abs_sum v + (10 * (d + uro) * abs_sum v + 2 * INR (length v) * e + 4 * INR (length v) ^ 2 * eta)).
  { rewrite (abs_sum_lasum (fpolyfit D v)). eapply Rle_trans; [apply (lasum_near (polyfit1 v) _ (fun _ => fit_error d e v)); [rewrite polyfit1_length; exact L|]|].
    - intros i Hi. rewrite polyfit1_length in Hi. unfold fit_error. rewrite abs_sum_lasum. exact (FE i Hi).
    - rewrite polyfit1_length, rsum_const. pose proof (fit_total d e v H2 ltac:(lra)). assert (lasum (polyfit1 v) <= 4 * abs_sum v); [|lra]. rewrite lasum_nth, polyfit1_length.
      eapply Rle_trans; [apply rsum_le; intros k Hk; apply (fit_bound v k H2 Hk)|]. rewrite rsum_const. destruct (ratio _ H2) as [R0 R1]. pose proof (abs_sum_pos v) as S0. unfold Rdiv.
      replace (INR (length v) * (2 * (abs_sum v * / INR (length v - 1)))) with (2 * abs_sum v * (INR (length v) * / INR (length v - 1))) by ring.
      replace (4 * abs_sum v) with (2 * abs_sum v * 2) by ring. apply Rmult_le_compat_l; lra. }
  unfold val_error in B. rewrite L in B. change (/ 2 ^ 53) with uro in *. change (/ 2 ^ 1075) with eta in *. destruct uro_small as [U0 _]. pose proof tiny_uro as U1. pose proof eta_pos as E0. pose proof (abs_sum_pos v) as S0.
  set (N := INR (length v)) in *. assert (N2 : 2 <= N) by (unfold N; change 2 with (INR 2); apply le_INR; lia). set (q := d + uro) in *. assert (q0 : 0 <= q <= / 8) by (unfold q; lra). set (A := abs_sum v) in *.
  assert (qA : 0 <= q * A) by (apply Rmult_le_pos; lra). assert (N2e : 0 <= N ^ 2 * eta) by (apply Rmult_le_pos; [apply pow2_ge_0|lra]). assert (Ne : 0 <= N * e) by (apply Rmult_le_pos; lra).
  assert (NN : 2 * (N * eta) <= N ^ 2 * eta). { replace (N ^ 2 * eta) with (N * (N * eta)) by ring. apply Rmult_le_compat_r; [apply Rmult_le_pos; lra|exact N2]. }
  assert (NE : 2 * e <= N * e) by (apply Rmult_le_compat_r; lra).
  assert (M1 : 2 * q * abs_sum (fpolyfit D v) <= 2 * q * (4 * A + (10 * q * A + 2 * N * e + 4 * N ^ 2 * eta))) by (apply Rmult_le_compat_l; [lra|exact SB]).
  assert (X : q * (10 * (q * A) + 2 * (N * e) + 4 * (N ^ 2 * eta)) <= / 8 * (10 * (q * A) + 2 * (N * e) + 4 * (N ^ 2 * eta))) by (apply Rmult_le_compat_r; lra).
  replace (2 * q * (4 * A + (10 * q * A + 2 * N * e + 4 * N ^ 2 * eta))) with (8 * (q * A) + 2 * (q * (10 * (q * A) + 2 * (N * e) + 4 * (N ^ 2 * eta)))) in M1 by ring.
  replace (nth j (fpolyval D (fpolyfit D v)) 0 - nth j v 0) with ((nth j (fpolyval D (fpolyfit D v)) 0 - evalT (fpolyfit D v) (cheb_point (length v) j)) + (evalT (fpolyfit D v) (cheb_point (length v) j) - nth j v 0)) by ring.
  eapply Rle_trans; [apply Rabs_triang|]. replace (22 * q * A) with (22 * (q * A)) by ring. replace (10 * q * A) with (10 * (q * A)) in I by ring. replace (4 * N * e) with (4 * (N * e)) by ring. replace (2 * N * e) with (2 * (N * e)) in I by ring. replace (4 * N ^ 2 * eta) with (4 * (N ^ 2 * eta)) in I by ring. replace (8 * N ^ 2 * eta) with (8 * (N ^ 2 * eta)) by ring. replace (3 * N * eta) with (3 * (N * eta)) in B by ring. lra.
Qed.
Print Assumptions C199_values_roundtrip.

(** Coefficients -> values -> coefficients returns the coefficients, with an error that does not grow with the length. *)
Theorem C199_coefficients_roundtrip D d e c k : (2 <= length c)%nat -> doubles c -> accurate_dct D (length c) d e -> 0 <= d <= / 16 -> 0 <= e -> (k < length c)%nat ->
  Rabs (nth k (fpolyfit D (fpolyval D c)) 0 - nth k c 0) <= 22 * (d + / 2 ^ 53) * abs_sum c + 8 * e + 24 * INR (length c) * / 2 ^ 1075.
Proof.
  intros H2 Dc HD Hd He Hk. assert (VE := fun j Hj => proj2 (polyval_err D d e c j H2 Dc (accurate_within D _ d e HD) Hd He Hj)). destruct (polyval_err D d e c 0 H2 Dc (accurate_within D _ d e HD) Hd He ltac:(lia)) as [L _].
  set (w := fpolyval D c) in *. set (v := polyval1 c) in *. assert (Lv : length v = length c) by apply polyval1_length.
  destruct (polyfit_err D d e w k ltac:(lia)) as [_ B]; [rewrite L; apply accurate_within, HD|exact Hd|exact He|lia|]. rewrite L in B.
  assert (PV : nth k (polyfit1 v) 0 = nth k c 0) by (unfold v; rewrite polyfit_polyval by lia; reflexivity).
  pose proof (fit_minus v w k ltac:(lia) ltac:(lia) ltac:(lia)) as FM. set (dv := mk (length v) (fun i => nth i w 0 - nth i v 0)) in *. assert (Ld : length dv = length c) by (unfold dv; rewrite mk_length; exact Lv).
  pose proof (fit_bound dv k ltac:(lia) ltac:(lia)) as FB. rewrite Ld in FB. destruct (ratio _ H2) as [R0 R1]. set (A := lasum c) in *. assert (A0 : 0 <= A) by apply lasum_pos.
  destruct uro_small as [U0 _]. pose proof tiny_uro as U1. pose proof eta_pos as E0. rewrite (abs_sum_lasum c). fold A. change (/ 2 ^ 53) with uro. change (/ 2 ^ 1075) with eta.
  set (N := INR (length c)) in *. assert (N2 : 2 <= N) by (unfold N; change 2 with (INR 2); apply le_INR; lia). set (q := d + uro) in *. assert (q0 : 0 <= q <= / 8) by (unfold q; lra). set (ve := 2 * q * A + e + 3 * N * eta) in *.
  assert (qA : 0 <= q * A) by (apply Rmult_le_pos; lra). assert (Ne : 0 <= N * eta) by (apply Rmult_le_pos; lra). assert (VX : ve = 2 * (q * A) + e + 3 * (N * eta)) by (unfold ve; ring).
  assert (SD : abs_sum dv <= N * ve). { unfold abs_sum. rewrite Ld. unfold N. rewrite <- rsum_const. apply rsum_le. intros i Hi. unfold dv. rewrite nth_mk by lia. apply VE, Hi. }
  assert (SW : lasum w <= N * (A + ve)).
  { rewrite lasum_nth, L. unfold N. rewrite <- rsum_const. apply rsum_le. intros i Hi. replace (nth i w 0) with (nth i v 0 + (nth i w 0 - nth i v 0)) by ring. eapply Rle_trans; [apply Rabs_triang|].
    assert (Rabs (nth i v 0) <= A) by (unfold v; rewrite polyval1_spec by lia; rewrite point_model by lia; apply evalT_abs, point_range). pose proof (VE i Hi). lra. }
  assert (Q1 : abs_sum dv / INR (length c - 1) <= 2 * ve). { unfold Rdiv. apply Rle_trans with (N * ve * / INR (length c - 1)); [apply Rmult_le_compat_r; lra|]. replace (N * ve * / INR (length c - 1)) with (ve * (N * / INR (length c - 1))) by ring. rewrite (Rmult_comm 2). apply Rmult_le_compat_l; [lra|exact R1]. }
  assert (Q2 : lasum w / INR (length c - 1) <= 2 * (A + ve)). { unfold Rdiv. apply Rle_trans with (N * (A + ve) * / INR (length c - 1)); [apply Rmult_le_compat_r; lra|]. replace (N * (A + ve) * / INR (length c - 1)) with ((A + ve) * (N * / INR (length c - 1))) by ring. rewrite (Rmult_comm 2). apply Rmult_le_compat_l; [lra|exact R1]. }
  assert (Q3 : 5 * q * (lasum w / INR (length c - 1)) <= 5 * q * (2 * (A + ve))) by (apply Rmult_le_compat_l; lra). replace (5 * q * (2 * (A + ve))) with (10 * (q * A) + 10 * (q * ve)) in Q3 by ring. assert (Q4 : q * ve <= / 8 * ve) by (apply Rmult_le_compat_r; lra).
  rewrite PV in FM. replace (nth k (fpolyfit D w) 0 - nth k c 0) with ((nth k (fpolyfit D w) 0 - nth k (polyfit1 w) 0) + (nth k (polyfit1 w) 0 - nth k c 0)) by ring. eapply Rle_trans; [apply Rabs_triang|]. rewrite FM.
  replace (22 * q * A) with (22 * (q * A)) by ring. replace (24 * N * eta) with (24 * (N * eta)) by ring. replace (4 * N * eta) with (4 * (N * eta)) in B by ring. lra.
Qed.
Print Assumptions C199_coefficients_roundtrip.

(** A single value is its own coefficient, bit for bit. *)
Theorem C199_constant D t : fpolyfit D [t] = [t] /\ fpolyval D [t] = [t].
Proof. split; reflexivity. Qed.
Print Assumptions C199_constant.

(** A library that rounds exact transforms meets the hypothesis with d = 2 / 2^53 and e = 1 / 2^1075. *)
Definition rounded_dct (v : list R) : list R := map fl (dct1 v).
Lemma rounded_accurate n : (2 <= n)%nat -> accurate_dct rounded_dct n (2 * / 2 ^ 53) (/ 2 ^ 1075).
Proof.
  intros Hn v Lv Dv. change (/ 2 ^ 53) with uro. change (/ 2 ^ 1075) with eta. destruct uro_small as [U0 _]. unfold rounded_dct. split; [rewrite map_length, dct1_length; exact Lv|]. split; [intros t I; apply in_map_iff in I; destruct I as (? & <- & _); apply fl_is_double|].
  intros k Hk. rewrite <- fl_0 at 1. rewrite (map_nth fl (dct1 v) 0 k). rewrite <- sgn_pow. assert (E : nth k (dct1 v) 0 = nth 0 v 0 + sgn k * nth (n - 1) v 0 + 2 * rsum (n - 2) (fun i => nth (S i) v 0 * cos (PI * INR k * INR (S i) / INR (n - 1)))) by (unfold dct1; rewrite Lv, nth_mk by exact Hk; reflexivity).
  rewrite <- E. eapply Rle_trans; [apply fl_err|]. pose proof (dct1_bound v k ltac:(lia) ltac:(lia)) as B. rewrite abs_sum_lasum. assert (uro * Rabs (nth k (dct1 v) 0) <= uro * (2 * lasum v)) by (apply Rmult_le_compat_l; lra). lra.
Qed.
(** Sampling (1, 0, 1), i.e. x^2 at three points: the recovered coefficients are 1/2, 0, 1/2 to fourteen digits. *)
Theorem C199_case k : (k < 3)%nat ->
  Rabs (nth k (fpolyfit rounded_dct [1; 0; 1]) 0 - nth k [/ 2; 0; / 2] 0) <= 20 * / 2 ^ 53 /\ 20 * / 2 ^ 53 < / 10 ^ 14.
Proof.
  intros Hk. pose proof tiny_uro as U1. pose proof eta_uro as EU. pose proof eta_pos as E0.
  assert (UB : uro <= / 9000000000000000). { Local Transparent uro. unfold uro. apply Rinv_le_contravar; [lra|]. rewrite !pow_IZR. apply IZR_le. cbn. lia. Local Opaque uro. }
  assert (P14 : / 10 ^ 14 = / 100000000000000). { f_equal. rewrite pow_IZR. f_equal. }
  destruct uro_small as [U0 _].
  assert (X : polyfit1 [1; 0; 1] = [/ 2; 0; / 2]).
  { rewrite <- (polyfit_polyval [/ 2; 0; / 2]) by (cbn; lia). f_equal. apply list_ext with 0; [reflexivity|]. intros j Hj. rewrite polyval1_spec by (cbn in *; lia). rewrite point_model by (cbn in *; lia). cbn [length] in *. unfold cheb_point, evalT. cbn [length rsum nth T]. change (INR (3 - 1)) with 2.
    destruct j as [|[|[|j]]]; [| | |lia]; cbn [nth INR].
    - replace (PI * 0 / 2) with 0 by field. rewrite cos_0. field.
    - replace (PI * 1 / 2) with (PI / 2) by field. rewrite cos_PI2. field.
    - replace (PI * (1 + 1) / 2) with PI by field. rewrite cos_PI. field. }
  split.
  - rewrite <- X. eapply Rle_trans; [apply (polyfit_err rounded_dct (2 * uro) eta [1; 0; 1] k); [cbn; lia| |lra|lra|cbn; exact Hk]|].
    + pose proof (rounded_accurate 3 ltac:(lia)) as RA. apply accurate_within in RA. exact RA.
    + change (length [1; 0; 1]) with 3%nat. change (INR (3 - 1)) with 2. replace (INR 3) with 3 by (cbn; ring). replace (lasum [1; 0; 1]) with 2 by (rewrite lasum_nth; cbn [length rsum nth]; rewrite Rabs_R0, Rabs_R1; ring). change (/ 2 ^ 53) with uro.
      assert (eta <= uro * / 8) by exact EU. lra.
  - change (/ 2 ^ 53) with uro. rewrite P14. lra.
Qed.
Print Assumptions C199_case.
