(** Closed forms of the derivatives of the cardinal function at the grid points. *)
From Coq Require Import Reals ZArith List Arith Bool Lra Lia.
From Coquelicot Require Import Coquelicot.
From Verif Require Import Base TrigSpec TrigBase TrigModel TrigTrans TrigCalc TrigCalc2 ChebModel3 CollModel TcolProofs.
Import ListNotations.
Open Scope R_scope.

Lemma is_derive_rsum' n (f g : nat -> R -> R) x : (forall k, is_derive (f k) x (g k x)) -> is_derive (fun t => rsum n (fun k => f k t)) x (rsum n (fun k => g k x)).
Proof.
  intros H. induction n as [|n IH]; cbn [rsum]; [apply (is_derive_const (K := R_AbsRing) (V := R_NormedModule))|].
  apply (is_derive_plus (fun t => rsum n (fun k => f k t)) (f n)); [exact IH|apply H].
Qed.
Lemma Sd_derive n m t : is_derive (Sd n m) t (Sd n (S m) t).
Proof.
  unfold Sd. apply is_derive_scal. apply (is_derive_rsum' n (fun k t => IZR (freq n k) ^ m * cos (IZR (freq n k) * t + INR m * (PI / 2))) (fun k t => IZR (freq n k) ^ S m * cos (IZR (freq n k) * t + INR (S m) * (PI / 2)))).
  intros k. set (z := IZR (freq n k)). rewrite S_INR. replace (z * t + (INR m + 1) * (PI / 2)) with ((z * t + INR m * (PI / 2)) + PI / 2) by ring. rewrite cos_plus, cos_PI2, sin_PI2.
  generalize (INR m * (PI / 2)). intros q. cbn [pow]. generalize (z ^ m). intros p. auto_derive; [exact I|]. ring.
Qed.
Lemma Sd_period n m t : Sd n m (t + 2 * PI) = Sd n m t.
Proof.
  unfold Sd. f_equal. apply rsum_ext. intros k _. f_equal. set (z := freq n k). assert (C := cis_2PI z (IZR z * t + INR m * (PI / 2))).
  replace (IZR z * (t + 2 * PI) + INR m * (PI / 2)) with (IZR z * t + INR m * (PI / 2) + 2 * PI * IZR z) by ring. unfold cis in C. congruence.
Qed.
Lemma Sd_neg n m t : Sd n m (- t) = (-1) ^ m * Sd n m t.
Proof.
  unfold Sd. rewrite <- Rmult_assoc, (Rmult_comm ((-1) ^ m)), Rmult_assoc. f_equal. rewrite <- rsum_scal. apply rsum_ext. intros k _. set (z := IZR (freq n k)).
  replace (z * - t + INR m * (PI / 2)) with (- (z * t + INR m * (PI / 2)) + INR m * PI) by field. rewrite cos_mPI, cos_neg. ring.
Qed.
(** the Dirichlet kernel *)
Lemma dirichlet n h t : rsum n (fun k => cos ((INR k - h) * t)) * (2 * sin (t / 2)) = sin ((INR n - h - / 2) * t) + sin ((h + / 2) * t).
Proof.
  induction n as [|n IH]; cbn [rsum].
  - cbn [INR]. replace ((0 - h - / 2) * t) with (- ((h + / 2) * t)) by ring. rewrite sin_neg. ring.
  - rewrite Rmult_plus_distr_r, IH, S_INR. set (u := (INR n - h) * t). replace ((INR n + 1 - h - / 2) * t) with (u + t / 2) by (unfold u; field). replace ((INR n - h - / 2) * t) with (u - t / 2) by (unfold u; field).
    rewrite sin_plus, sin_minus. ring.
Qed.
Definition al (n : nat) : R := INR n - INR (n / 2) - / 2.
Definition be (n : nat) : R := INR (n / 2) + / 2.
Lemma freq_R n k : IZR (freq n k) = INR k - INR (n / 2).
Proof. unfold freq. now rewrite minus_IZR, <- !INR_IZR_INZ. Qed.
Lemma E0 n t : (1 <= n)%nat -> INR n * (Sd n 0 t * sin (t / 2)) = (sin (al n * t) + sin (be n * t)) / 2.
Proof.
  intros Hn. assert (P := INR_pos n Hn). unfold al, be. rewrite <- (dirichlet n (INR (n / 2)) t). unfold Sd. rewrite (rsum_ext n _ (fun k => cos ((INR k - INR (n / 2)) * t))).
  2:{ intros k _. rewrite freq_R. cbn [pow INR]. rewrite Rmult_1_l. f_equal. ring. }
  field. lra.
Qed.
Lemma deriv_eq (f g : R -> R) (t a b : R) : (forall x, f x = g x) -> is_derive f t a -> is_derive g t b -> a = b.
Proof. intros H Ha Hb. apply is_derive_unique in Ha. apply is_derive_unique in Hb. rewrite <- Ha, <- Hb. apply Derive_ext, H. Qed.
Lemma E1 n t : (1 <= n)%nat -> INR n * (Sd n 1 t * sin (t / 2) + Sd n 0 t * (cos (t / 2) / 2)) = (al n * cos (al n * t) + be n * cos (be n * t)) / 2.
Proof.
  intros Hn. apply (deriv_eq _ _ t _ _ (fun x => E0 n x Hn)).
  - assert (D := Sd_derive n 0 t). auto_derive; [exact (ex_intro _ _ D)|]. apply is_derive_unique in D. replace (Derive (fun x => Sd n 0 x) t) with (Sd n 1 t) by (symmetry; exact D). unfold Rdiv. ring.
  - auto_derive; [exact I|]. field.
Qed.
Lemma E2 n t : (1 <= n)%nat -> INR n * (Sd n 2 t * sin (t / 2) + Sd n 1 t * cos (t / 2) - Sd n 0 t * (sin (t / 2) / 4)) = - (al n ^ 2 * sin (al n * t) + be n ^ 2 * sin (be n * t)) / 2.
Proof.
  intros Hn. apply (deriv_eq _ _ t _ _ (fun x => E1 n x Hn)).
  - assert (D := Sd_derive n 0 t). assert (D1 := Sd_derive n 1 t). auto_derive; [split; [exact (ex_intro _ _ D1)|split; [exact (ex_intro _ _ D)|exact I]]|]. apply is_derive_unique in D. apply is_derive_unique in D1.
    replace (Derive (fun x => Sd n 0 x) t) with (Sd n 1 t) by (symmetry; exact D). replace (Derive (fun x => Sd n 1 x) t) with (Sd n 2 t) by (symmetry; exact D1). unfold Rdiv. field.
  - auto_derive; [exact I|]. field.
Qed.
Lemma E3 n t : (1 <= n)%nat -> INR n * (Sd n 3 t * sin (t / 2) + 3 / 2 * (Sd n 2 t * cos (t / 2)) - 3 / 4 * (Sd n 1 t * sin (t / 2)) - Sd n 0 t * (cos (t / 2) / 8)) = - (al n ^ 3 * cos (al n * t) + be n ^ 3 * cos (be n * t)) / 2.
Proof.
  intros Hn. apply (deriv_eq _ _ t _ _ (fun x => E2 n x Hn)).
  - assert (D := Sd_derive n 0 t). assert (D1 := Sd_derive n 1 t). assert (D2 := Sd_derive n 2 t). auto_derive; [repeat match goal with |- _ /\ _ => split end; first [exact (ex_intro _ _ D1)|exact (ex_intro _ _ D)|exact (ex_intro _ _ D2)|exact I]|].
    apply is_derive_unique in D. apply is_derive_unique in D1. apply is_derive_unique in D2.
    replace (Derive (fun x => Sd n 0 x) t) with (Sd n 1 t) by (symmetry; exact D). replace (Derive (fun x => Sd n 1 x) t) with (Sd n 2 t) by (symmetry; exact D1). replace (Derive (fun x => Sd n 2 x) t) with (Sd n 3 t) by (symmetry; exact D2). unfold Rdiv. field.
  - auto_derive; [exact I|]. field.
Qed.
(** values at 2 pi d / n, 0 < d < n *)
Lemma half_sin n d : (1 <= d < n)%nat -> 0 < sin (2 * PI * INR d / INR n / 2).
Proof.
  intros H. assert (0 < INR d) by (apply lt_0_INR; lia). assert (INR d < INR n) by (apply lt_INR; lia). assert (P := PI_RGT_0).
  replace (2 * PI * INR d / INR n / 2) with (PI * (INR d / INR n)) by (field; lra). assert (0 < INR d / INR n < 1) by (split; [apply Rdiv_lt_0_compat; lra|apply Rlt_div_l; lra]). apply sin_gt_0; nra.
Qed.
Lemma odd_half n : Nat.odd n = true -> al n = INR n / 2 /\ be n = INR n / 2.
Proof.
  intros O. apply Nat.odd_spec in O. destruct O as [p ->]. unfold al, be. replace ((2 * p + 1) / 2)%nat with p by (apply Nat.div_unique with 1%nat; lia). rewrite plus_INR, mult_INR. cbn [INR]. split; field.
Qed.
Lemma even_half n : Nat.even n = true -> al n = INR n / 2 - / 2 /\ be n = INR n / 2 + / 2.
Proof.
  intros O. apply Nat.even_spec in O. destruct O as [p ->]. unfold al, be. rewrite (Nat.mul_comm 2 p), Nat.div_mul by lia. rewrite mult_INR. cbn [INR]. split; field.
Qed.
Lemma sin_dPI d : sin (INR d * PI) = 0. Proof. rewrite <- (Rplus_0_l (INR d * PI)), sin_mPI, sin_0. ring. Qed.
Lemma cos_dPI d : cos (INR d * PI) = (-1) ^ d. Proof. rewrite <- (Rplus_0_l (INR d * PI)), cos_mPI, cos_0. ring. Qed.
Lemma odd_forms n d : Nat.odd n = true -> (1 <= d < n)%nat -> let t := 2 * PI * INR d / INR n in
  Sd n 0 t = 0 /\ Sd n 1 t = (-1) ^ d / 2 * csc (t / 2) /\ Sd n 2 t = - (-1) ^ d / 2 * (csc (t / 2) * cot (t / 2)) /\
  Sd n 3 t = (-1) ^ d * (3 / 8 * csc (t / 2) * cot (t / 2) ^ 2 + 3 / 8 * csc (t / 2) ^ 3 - INR n ^ 2 / 8 * csc (t / 2)).
Proof.
  intros O Hd t. assert (Hn : (1 <= n)%nat) by lia. assert (P := INR_pos n Hn). assert (S := half_sin n d Hd). fold t in S. destruct (odd_half n O) as [A B].
  assert (AT : INR n / 2 * t = INR d * PI) by (unfold t; field; lra).
  assert (F0 := E0 n t Hn). assert (F1 := E1 n t Hn). assert (F2 := E2 n t Hn). assert (F3 := E3 n t Hn). rewrite A, B, AT, ?sin_dPI, ?cos_dPI in *.
  unfold csc, cot. set (s := sin (t / 2)) in *. set (c := cos (t / 2)) in *. set (e := (-1) ^ d) in *.
  assert (S0 : Sd n 0 t = 0). { assert (X : INR n * s * Sd n 0 t = 0) by lra. apply Rmult_integral in X. destruct X as [X|X]; [exfalso; nra|exact X]. }
  rewrite S0 in *. assert (S1 : Sd n 1 t = e / 2 * (1 / s)). { apply Rmult_eq_reg_l with (INR n * s); [|nra]. transitivity (INR n * (Sd n 1 t * s + 0 * (c / 2))); [ring|]. rewrite F1. field. lra. }
  rewrite S1 in *. assert (S2 : Sd n 2 t = - e / 2 * (1 / s * (c / s))). { apply Rmult_eq_reg_l with (INR n * s); [|nra]. transitivity (INR n * (Sd n 2 t * s + e / 2 * (1 / s) * c - 0 * (s / 4)) - INR n * (e / 2 * (1 / s) * c)); [ring|]. rewrite F2. field. lra. }
  rewrite S2 in *. split; [reflexivity|]. split; [reflexivity|]. split; [reflexivity|]. assert (SC : s ^ 2 + c ^ 2 = 1) by (unfold s, c; assert (Q := sin2_cos2 (t / 2)); unfold Rsqr in Q; lra).
  apply Rmult_eq_reg_l with (INR n * s); [|nra].
  transitivity (INR n * (Sd n 3 t * s + 3 / 2 * (- e / 2 * (1 / s * (c / s)) * c) - 3 / 4 * (e / 2 * (1 / s) * s) - 0 * (c / 8)) + INR n * (3 / 4 * e * (c ^ 2 / s ^ 2) + 3 / 8 * e)); [field; lra|]. rewrite F3.
  assert (I1 : 1 / s ^ 2 = 1 + c ^ 2 / s ^ 2) by (replace (1 / s ^ 2) with ((s ^ 2 + c ^ 2) / s ^ 2) by (rewrite SC; reflexivity); field; lra).
  transitivity (INR n * e * (3 / 8 * (c ^ 2 / s ^ 2) + 3 / 8 * (1 / s ^ 2) - INR n ^ 2 / 8)); [rewrite I1; field; lra|field; lra].
Qed.
Lemma even_forms n d : Nat.even n = true -> (1 <= d < n)%nat -> let t := 2 * PI * INR d / INR n in
  Sd n 0 t = 0 /\ Sd n 1 t = (-1) ^ d / 2 * cot (t / 2) /\ Sd n 2 t = - (-1) ^ d / 2 * csc (t / 2) ^ 2 /\
  Sd n 3 t = (-1) ^ d * (3 / 4 * (csc (t / 2) ^ 2 * cot (t / 2)) - INR n ^ 2 / 8 * cot (t / 2)).
Proof.
  intros O Hd t. assert (Hn : (1 <= n)%nat) by lia. assert (P := INR_pos n Hn). assert (S := half_sin n d Hd). fold t in S. destruct (even_half n O) as [A B].
  assert (AT : (INR n / 2 - / 2) * t = INR d * PI - t / 2) by (unfold t; field; lra). assert (BT : (INR n / 2 + / 2) * t = INR d * PI + t / 2) by (unfold t; field; lra).
  assert (F0 := E0 n t Hn). assert (F1 := E1 n t Hn). assert (F2 := E2 n t Hn). assert (F3 := E3 n t Hn). rewrite A, B, AT, BT, ?sin_minus, ?sin_plus, ?cos_minus, ?cos_plus, ?sin_dPI, ?cos_dPI in *.
  unfold csc, cot. set (s := sin (t / 2)) in *. set (c := cos (t / 2)) in *. set (e := (-1) ^ d) in *.
  assert (S0 : Sd n 0 t = 0). { assert (X : INR n * s * Sd n 0 t = 0) by lra. apply Rmult_integral in X. destruct X as [X|X]; [exfalso; nra|exact X]. }
  rewrite S0 in *. assert (S1 : Sd n 1 t = e / 2 * (c / s)). { apply Rmult_eq_reg_l with (INR n * s); [|nra]. transitivity (INR n * (Sd n 1 t * s + 0 * (c / 2))); [ring|]. rewrite F1. field. lra. }
  rewrite S1 in *. assert (SC : s ^ 2 + c ^ 2 = 1) by (unfold s, c; assert (Q := sin2_cos2 (t / 2)); unfold Rsqr in Q; lra).
  assert (I1 : (1 / s) ^ 2 = 1 + (c / s) ^ 2) by (replace ((1 / s) ^ 2) with ((s ^ 2 + c ^ 2) / s ^ 2) by (rewrite SC; field; lra); field; lra).
  assert (S2 : Sd n 2 t = - e / 2 * (1 / s) ^ 2). { rewrite I1. apply Rmult_eq_reg_l with (INR n * s); [|nra]. transitivity (INR n * (Sd n 2 t * s + e / 2 * (c / s) * c - 0 * (s / 4)) - INR n * (e / 2 * (c / s) * c)); [ring|]. rewrite F2. field. lra. }
  rewrite S2 in *. split; [reflexivity|]. split; [reflexivity|]. split; [reflexivity|].
  apply Rmult_eq_reg_l with (INR n * s); [|nra].
  transitivity (INR n * (Sd n 3 t * s + 3 / 2 * (- e / 2 * (1 / s) ^ 2 * c) - 3 / 4 * (e / 2 * (c / s) * s) - 0 * (c / 8)) + INR n * (3 / 4 * e * ((1 / s) ^ 2 * c) + 3 / 8 * e * c)); [field; lra|]. rewrite F3. field. lra.
Qed.
(** values at 0 *)
Lemma sq_sum n h : rsum n (fun k => (INR k - h) ^ 2) = INR n * (INR n - 1) * (2 * INR n - 1) / 6 - h * INR n * (INR n - 1) + INR n * h ^ 2.
Proof. induction n as [|n IH]; [cbn; field|]. cbn [rsum]. rewrite IH, S_INR. field. Qed.
Lemma Sd1_0 n : Sd n 1 0 = 0.
Proof. unfold Sd. rewrite rsum_zero; [ring|]. intros k _. cbn [INR]. rewrite Rmult_0_r, Rplus_0_l, Rmult_1_l, cos_PI2. ring. Qed.
Lemma Sd3_0 n : Sd n 3 0 = 0.
Proof. unfold Sd. rewrite rsum_zero; [ring|]. intros k _. replace (IZR (freq n k) * 0 + INR 3 * (PI / 2)) with (3 * (PI / 2)) by (cbn [INR]; ring). rewrite cos_3PI2. ring. Qed.
Lemma Sd2_0 n : (1 <= n)%nat -> Sd n 2 0 = if Nat.odd n then - (INR n ^ 2 / 12 - 1 / 12) else - (INR n ^ 2 / 12 + 1 / 6).
Proof.
  intros Hn. assert (P := INR_pos n Hn). unfold Sd. rewrite (rsum_ext n _ (fun k => -1 * (INR k - INR (n / 2)) ^ 2)).
  2:{ intros k _. rewrite freq_R. replace ((INR k - INR (n / 2)) * 0 + INR 2 * (PI / 2)) with PI by (cbn [INR]; field). rewrite cos_PI. ring. }
  rewrite rsum_scal, sq_sum. destruct (Nat.odd n) eqn:O.
  - assert (H := O). apply odd_half in O. destruct O as [_ B]. unfold be in B. replace (INR (n / 2)) with (INR n / 2 - / 2) by lra. field. lra.
  - assert (E : Nat.even n = true) by (rewrite <- Nat.negb_odd, O; reflexivity). apply even_half in E. destruct E as [_ B]. unfold be in B. replace (INR (n / 2)) with (INR n / 2) by lra. field. lra.
Qed.
