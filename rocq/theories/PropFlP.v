(** C203: building a periodic function in floating point: sampling points, nested grids, coefficients, values, integral, derivative. *)
From Coq Require Import Reals List Arith Lia Lra Bool ZArith.
From Flocq Require Import Core.
From Coquelicot Require Import Coquelicot.
From Verif Require Import Base TrigBase TrigSpec TrigModel TrigTrans TrigObj TrigConsProofs TrigCalc TrigCalc2 FlModel FlProofs FlSum FlMap FlTrigModel FlTrig FlTrig2 FlTrig3 FlMul FlFftModel FlFft FlSample PropTrig PropFlF PropFlT PropFlG FlDomModel FlDom FlPerModel FlPer.
Import ListNotations.
Open Scope R_scope.
Local Opaque uro eta.

(** the callable returns complex doubles, and at doubles of [-1, 1] it is within r of the series h *)
Definition computes_series (op : R -> C) (h : list C) (r : R) : Prop :=
  forall y, is_double y -> -1 <= y <= 1 -> (is_double (fst (op y)) /\ is_double (snd (op y))) /\ Cmod (op y - evalF h y)%C <= r.
(** the same on [a, b], where h is the series in the variable of [-1, 1] *)
Definition computes_periodic (a b : R) (op : R -> C) (h : list C) (r : R) : Prop :=
  forall x, is_double x -> a <= x <= b -> (is_double (fst (op x)) /\ is_double (snd (op x))) /\ Cmod (op x - evalF h (PropFlT.ref_point a b x))%C <= r.
(** the error of one sample *)
Definition sample_error (r : R) (h : list C) : R := 2 * r + 64 * INR (length h) * / 2 ^ 53 * coef_sum h + 4 * / 2 ^ 1075.
(** the error of one coefficient; (d, e) is the accuracy of the transform *)
Definition per_error (r d e : R) (h : list C) : R :=
  let t := coef_sum h + sample_error r h in
  sample_error r h + 4 * (d + / 2 ^ 53) * t + 2 * e + 3 * (1 + INR (length h) * t) * / 2 ^ 1075.
(** the effect of rounding the sampling points on [a, b] *)
Definition shift_error (a b : R) (h : list C) : R :=
  8 * INR (length h) * coef_sum h * (12 * / 2 ^ 53 * (Rabs a + Rabs b) + 8 * / 2 ^ 1075) / (b - a).

(** The points are doubles of [-1, 1], within 8 units of roundoff of the equispaced points, and start at -1. *)
Theorem C203_points n j : (1 <= n)%nat -> INR n * / 2 ^ 53 <= / 2 -> (j < n)%nat ->
  let x := nth j (ftrigpts n) 0 in length (ftrigpts n) = n /\ is_double x /\ -1 <= x <= 1 /\ Rabs (x - gridpt n j) <= 8 * / 2 ^ 53 /\ nth 0 (ftrigpts n) 0 = -1.
Proof.
  intros H1 HN Hj x. change (/ 2 ^ 53) with uro in *. destruct (tpoint n j H1 HN Hj) as (A & B & D). split; [apply ftrigpts_length|]. split; [exact A|]. split; [exact B|]. split; [exact D|]. apply first_point, H1.
Qed.
Print Assumptions C203_points.
(** Doubling the grid reuses the old values and gives what sampling the finer grid would give. *)
Theorem C203_nested op n : (1 <= n)%nat -> INR n * / 2 ^ 53 <= / 2 ->
  ftnested op (ftsample op n) = ftsample op (2 * n) /\ forall j, (j < n)%nat -> nth (2 * j) (ftrigpts (2 * n)) 0 = nth j (ftrigpts n) 0.
Proof. intros H1 HN. split; [exact (nested_tsample op n H1 HN)|]. intros j Hj. apply tnested; assumption. Qed.
Print Assumptions C203_nested.

Lemma evalF_abs c x : Cmod (evalF c x) <= coef_sum c.
Proof. unfold evalF, coef_sum. eapply Rle_trans; [apply csum_mod|]. apply rsum_le. intros m Hm. rewrite Cmod_mult. rewrite <- (Rmult_1_r (Cmod (nth m c (RtoC 0)))) at 2. apply Rmult_le_compat_l; [apply Cmod_ge_0|apply mode_mod]. Qed.
Lemma coef_sum_pos c : 0 <= coef_sum c.
Proof. eapply Rle_trans; [apply (Cmod_ge_0 (evalF c 0))|apply evalF_abs]. Qed.
Lemma rsum_term n (f : nat -> R) i : (forall k, 0 <= f k) -> (i < n)%nat -> f i <= rsum n f.
Proof.
  intros P. induction n as [|n IH]; [lia|]. intros H. cbn [rsum]. pose proof (P n) as Pn. assert (Q : 0 <= rsum n f) by (clear -P; induction n as [|n IH]; cbn [rsum]; [lra|]; pose proof (P n); lra). destruct (Nat.eq_dec i n) as [->|Hne]; [lra|]. specialize (IH ltac:(lia)). lra.
Qed.
Lemma casum_nth h k : (k < length h)%nat -> Cmod (nth k h C0) <= coef_sum h.
Proof. intros H. exact (rsum_term (length h) (fun k => Cmod (nth k h C0)) k (fun k => Cmod_ge_0 _) H). Qed.
Lemma cmod_split (p q : C) : Cmod p <= Cmod q + Cmod (p - q)%C.
Proof. replace p with (q + (p - q))%C at 1 by ring. apply Cmod_triangle. Qed.
Lemma sample_doubles op h r : INR (length h) * uro <= / 2 -> (1 <= length h)%nat -> computes_series op h r -> cdouble_list (ftsample op (length h)).
Proof.
  intros HN H1 HO a I. apply (In_nth _ _ C0) in I. destruct I as (j & Hj & <-). rewrite ftsample_length in Hj by exact H1. rewrite ftsample_nth by exact Hj. destruct (Nat.eqb j 0); [apply fscale_double|].
  destruct (tpoint _ j H1 HN Hj) as (A & B & _). apply HO; assumption.
Qed.
Lemma sample_err op h r j : INR (length h) * uro <= / 2 -> (1 <= length h)%nat -> computes_series op h r -> (j < length h)%nat ->
  Cmod (nth j (ftsample op (length h)) C0 - evalF h (gridpt (length h) j))%C <= sample_error r h.
Proof.
  intros HN H1 HO Hj. rewrite ftsample_nth by exact Hj. unfold sample_error. change (/ 2 ^ 53) with uro. change (/ 2 ^ 1075) with eta. destruct uro_small as [U0 _]. pose proof tiny_uro as U1. pose proof eta_pos as E0. pose proof (coef_sum_pos h) as S0. assert (N1 : 1 <= INR (length h)) by (change 1 with (INR 1); apply le_INR, H1).
  assert (dm1 : is_double (-1)) by apply dbl_m1. assert (d1 : is_double 1) by apply dbl_1.
  destruct (HO (-1) dm1 ltac:(lra)) as [_ P]. destruct (HO 1 d1 ltac:(lra)) as [_ Q]. rewrite evalF_period in Q by exact H1. assert (R0 : 0 <= r) by (eapply Rle_trans; [apply Cmod_ge_0|exact P]).
  assert (NS : coef_sum h * uro <= INR (length h) * uro * coef_sum h). { rewrite (Rmult_comm (coef_sum h)). apply Rmult_le_compat_r; [exact S0|]. rewrite <- (Rmult_1_l uro) at 1. apply Rmult_le_compat_r; lra. }
  assert (US : 0 <= coef_sum h * uro) by (apply Rmult_le_pos; lra).
  destruct (Nat.eqb_spec j 0) as [->|Hne].
  - assert (G : gridpt (length h) 0 = -1). { unfold gridpt. cbn [INR]. unfold Rdiv. ring. } rewrite G. set (V := evalF h (-1)) in *. assert (VS : Cmod V <= coef_sum h) by apply evalF_abs. set (p := op (-1)) in *. set (q := op 1) in *.
    pose proof (fcadd_err p q) as FA. pose proof (fscale_err (/ 2) (fcadd p q)) as FS. pose proof (cmod_split p V) as CP. pose proof (cmod_split q V) as CQ. pose proof (cmod_split (fcadd p q) (p + q)%C) as CS. pose proof (Cmod_triangle p q) as TR. set (s := fcadd p q) in *. rewrite (Rabs_right (/ 2)) in FS by lra.
    set (K := coef_sum h) in *. assert (F1 : Cmod (s - (p + q))%C <= 4 * uro * (K + r) + 2 * eta). { eapply Rle_trans; [exact FA|]. assert (2 * uro * (Cmod p + Cmod q) <= 2 * uro * (2 * (K + r))) by (apply Rmult_le_compat_l; lra). lra. }
    assert (UK : uro * (K + r) <= / 1000 * (K + r)) by (apply Rmult_le_compat_r; lra). assert (SM : Cmod s <= 2 * (K + r) + / 200 * (K + r) + 2 * eta) by lra.
    assert (F2 : 2 * uro * (/ 2 * Cmod s) <= uro * (201 / 100 * (K + r) + 2 * eta)). { replace (2 * uro * (/ 2 * Cmod s)) with (uro * Cmod s) by field. apply Rmult_le_compat_l; lra. }
    assert (UE : uro * eta <= / 1000 * eta) by (apply Rmult_le_compat_r; lra). assert (Ur : uro * r <= / 1000 * r) by (apply Rmult_le_compat_r; lra).
    assert (HH : (RtoC (/ 2) + RtoC (/ 2))%C = RtoC 1) by (rewrite <- RtoC_plus; f_equal; field).
    replace (fscale (/ 2) s - V)%C with ((fscale (/ 2) s - RtoC (/ 2) * s) + (RtoC (/ 2) * (s - (p + q)) + (RtoC (/ 2) * (p - V) + RtoC (/ 2) * (q - V))))%C by (transitivity (fscale (/ 2) s - (RtoC (/ 2) + RtoC (/ 2)) * V)%C; [ring|rewrite HH; ring]).
    eapply Rle_trans; [apply Cmod_triangle|]. eapply Rle_trans; [apply Rplus_le_compat_l, Cmod_triangle|]. eapply Rle_trans; [apply Rplus_le_compat_l, Rplus_le_compat_l, Cmod_triangle|]. rewrite !Cmod_mult, !Cmod_R, (Rabs_right (/ 2)) by lra.
    replace (uro * (201 / 100 * (K + r) + 2 * eta)) with (201 / 100 * (K * uro + uro * r) + 2 * (uro * eta)) in F2 by field. replace (4 * uro * (K + r)) with (4 * (K * uro + uro * r)) in F1 by ring. lra.
  - destruct (tpoint _ j H1 HN Hj) as (A & B & D). destruct (HO _ A B) as [_ O]. pose proof (evalF_lip h (nth j (ftrigpts (length h)) 0) (gridpt (length h) j)) as LI.
    replace (op (nth j (ftrigpts (length h)) 0) - evalF h (gridpt (length h) j))%C with ((op (nth j (ftrigpts (length h)) 0) - evalF h (nth j (ftrigpts (length h)) 0)) + (evalF h (nth j (ftrigpts (length h)) 0) - evalF h (gridpt (length h) j)))%C by ring. eapply Rle_trans; [apply Cmod_triangle|].
    assert (Z : 8 * INR (length h) * Rabs (nth j (ftrigpts (length h)) 0 - gridpt (length h) j) * coef_sum h <= 8 * INR (length h) * (8 * uro) * coef_sum h) by (apply Rmult_le_compat_r; [exact S0|apply Rmult_le_compat_l; lra]). lra.
Qed.
Lemma series_coefs F d e op h r k : INR (length h) * uro <= / 2 -> (2 <= length h)%nat -> computes_series op h r -> accurate_cfft F (length h) d e -> 0 <= d <= / 16 -> 0 <= e <= / 16 -> (k < length h)%nat ->
  length (fvals2coeffs F (ftsample op (length h))) = length h /\ Cmod (nth k (fvals2coeffs F (ftsample op (length h))) C0 - nth k h C0)%C <= per_error r d e h.
Proof.
  intros HN H2 HO HF Hd He Hk. assert (H1 : (1 <= length h)%nat) by lia. assert (LS := ftsample_length op (length h) H1). pose proof (sample_doubles op h r HN H1 HO) as Dv. pose proof (fun j => sample_err op h r j HN H1 HO) as SE. set (v := ftsample op (length h)) in *.
  split; [rewrite fv2c_length; exact LS|]. pose proof (v2c_err F d e v k ltac:(lia) Dv) as B. rewrite LS in B. specialize (B (accurate_within _ _ _ _ HF) Hd He Hk). change (casum v) with (PropFlF.abs_sum v) in B.
  assert (E1 : Cmod (nth k (vals2coeffs1 v) C0 - nth k h C0)%C <= sample_error r h).
  { set (w := coeffs2vals1 h). assert (Lw : length w = length h) by apply coeffs2vals1_length. assert (PV : Usum w k = nth k h C0) by (rewrite <- vals2coeffs1_Usum by lia; unfold w; rewrite trig_c2v_v2c; reflexivity).
    rewrite vals2coeffs1_Usum by lia. rewrite <- PV, (Usum_minus w v k) by lia. apply Usum_mod; rewrite mk_length; [lia|]. intros j Hj. rewrite nth_mk by exact Hj. unfold w. rewrite trig_values_correct by lia. apply SE. lia. }
  destruct (inv_facts _ H2) as (I0 & I1 & IN & n2). destruct uro_small as [U0 _]. pose proof eta_pos as E0. assert (SW : PropFlF.abs_sum v <= INR (length h) * (coef_sum h + sample_error r h)).
  { unfold PropFlF.abs_sum. rewrite LS, <- rsum_const. apply rsum_le. intros i Hi. pose proof (cmod_split (nth i v C0) (evalF h (gridpt (length h) i))) as Q. pose proof (evalF_abs h (gridpt (length h) i)). specialize (SE i Hi). lra. }
  unfold per_error. change (/ 2 ^ 53) with uro. change (/ 2 ^ 1075) with eta. cbv zeta. set (t := coef_sum h + sample_error r h) in *. set (n := INR (length h)) in *. set (A := PropFlF.abs_sum v) in *.
  assert (Q1 : / n * A <= t). { apply Rle_trans with (/ n * (n * t)); [apply Rmult_le_compat_l; lra|]. rewrite <- Rmult_assoc, (Rmult_comm (/ n)), IN. lra. }
  assert (Q2 : 4 * (d + uro) * (/ n * A) <= 4 * (d + uro) * t) by (apply Rmult_le_compat_l; lra). assert (Q3 : 3 * (1 + A) * eta <= 3 * (1 + n * t) * eta) by (apply Rmult_le_compat_r; lra).
  replace (nth k (fvals2coeffs F v) C0 - nth k h C0)%C with ((nth k (fvals2coeffs F v) C0 - nth k (vals2coeffs1 v) C0) + (nth k (vals2coeffs1 v) C0 - nth k h C0))%C by ring. eapply Rle_trans; [apply Cmod_triangle|]. lra.
Qed.
(** the callable in the variable of [-1, 1] *)
Lemma periodic_series a b op h r : a < b -> stays_inside a b -> computes_periodic a b op h r -> computes_series (fun y => op (ffwd a b y)) h (r + shift_error a b h).
Proof.
  intros H I O y Fy Hy. cbv beta. pose proof (I y Fy Hy) as J. destruct (O _ (ffwd_double a b y) J) as [OD O1]. split; [exact OD|]. destruct (C202_mapping a b y Hy) as [_ M].
  pose proof (evalF_lip h (PropFlT.ref_point a b (ffwd a b y)) y) as LI. pose proof (coef_sum_pos h) as S0. pose proof (pos_INR (length h)) as N0.
  assert (X : Rabs (PropFlT.ref_point a b (ffwd a b y) - y) <= (12 * / 2 ^ 53 * (Rabs a + Rabs b) + 8 * / 2 ^ 1075) / (b - a)).
  { assert (DR : PropFlT.ref_point a b (dom_point a b y) = y) by (unfold PropFlT.ref_point, dom_point; field; lra). rewrite <- DR at 2. unfold PropFlT.ref_point. replace ((2 * ffwd a b y - a - b) / (b - a) - (2 * dom_point a b y - a - b) / (b - a)) with ((ffwd a b y - dom_point a b y) * (2 / (b - a))) by (field; lra).
    rewrite Rabs_mult, (Rabs_right (2 / (b - a))) by (apply Rle_ge, Rlt_le, Rdiv_lt_0_compat; lra). assert (K : 0 < 2 / (b - a)) by (apply Rdiv_lt_0_compat; lra). eapply Rle_trans; [apply Rmult_le_compat_r; [lra|exact M]|]. apply Req_le. generalize (/ 2 ^ 53) (/ 2 ^ 1075). intros u t. field. lra. }
  assert (Y : 8 * INR (length h) * Rabs (PropFlT.ref_point a b (ffwd a b y) - y) * coef_sum h <= shift_error a b h).
  { unfold shift_error, Rdiv. rewrite (Rmult_assoc (8 * INR (length h) * coef_sum h)). fold ((12 * / 2 ^ 53 * (Rabs a + Rabs b) + 8 * / 2 ^ 1075) / (b - a)). replace (8 * INR (length h) * Rabs (PropFlT.ref_point a b (ffwd a b y) - y) * coef_sum h) with (8 * INR (length h) * coef_sum h * Rabs (PropFlT.ref_point a b (ffwd a b y) - y)) by ring. apply Rmult_le_compat_l; [apply Rmult_le_pos; lra|exact X]. }
  replace (op (ffwd a b y) - evalF h y)%C with ((op (ffwd a b y) - evalF h (PropFlT.ref_point a b (ffwd a b y))) + (evalF h (PropFlT.ref_point a b (ffwd a b y)) - evalF h y))%C by ring. eapply Rle_trans; [apply Cmod_triangle|]. lra.
Qed.
(** The coefficients of the function built from a callable that computes a trigonometric polynomial on [a, b]. *)
Theorem C203_coefficients F d e a b op h r k : (2 <= length h)%nat -> INR (length h) * / 2 ^ 53 <= / 2 -> a < b -> stays_inside a b -> computes_periodic a b op h r ->
  accurate_cfft F (length h) d e -> 0 <= d <= / 16 -> 0 <= e <= / 16 -> (k < length h)%nat ->
  length (ftbuild F a b op (length h)) = length h /\ Cmod (nth k (ftbuild F a b op (length h)) C0 - nth k h C0)%C <= per_error (r + shift_error a b h) d e h.
Proof. intros H2 HN H I HO HF Hd He Hk. exact (series_coefs F d e _ h _ k HN H2 (periodic_series a b op h r H I HO) HF Hd He Hk). Qed.
Print Assumptions C203_coefficients.
(** The function built is within N times that of the callable's function. *)
Theorem C203_function F d e a b op h r x : (2 <= length h)%nat -> INR (length h) * / 2 ^ 53 <= / 2 -> a < b -> stays_inside a b -> computes_periodic a b op h r ->
  accurate_cfft F (length h) d e -> 0 <= d <= / 16 -> 0 <= e <= / 16 ->
  Cmod (evalF (ftbuild F a b op (length h)) (PropFlT.ref_point a b x) - evalF h (PropFlT.ref_point a b x))%C <= INR (length h) * per_error (r + shift_error a b h) d e h.
Proof.
  intros H2 HN H I HO HF Hd He. assert (C := fun k Hk => C203_coefficients F d e a b op h r k H2 HN H I HO HF Hd He Hk). destruct (C 0%nat ltac:(lia)) as [L _]. rewrite <- L at 2.
  apply eval_near; [symmetry; exact L|]. rewrite L. intros k Hk. apply C, Hk.
Qed.
Print Assumptions C203_function.
Lemma flagged_domain L z d a b re c x v B : libm_within L d -> (1 <= length c)%nat -> 128 * INR (length c) * step_error d 1 <= 1 -> (re = true -> forall j, (j < length c)%nat -> Rabs (Im (evalF c (gridpt (length c) j))) <= B) -> 0 <= B ->
  is_double a -> is_double b -> is_double x -> a < b -> a <= x <= b -> fpcall L z a b re c x = Some v ->
  Cmod (v - evalF c (PropFlT.ref_point a b x))%C <= claimed d 1 c + 8 * INR (length c) * (8 * uro * ((Rabs a + Rabs b) / (b - a)) + eta) * coef_sum c + 2 * INR (length c) * B.
Proof.
  intros HL Hn Hs HB B0 Fa Fb Fx Hab Hx E. assert (NB : 0 <= 2 * INR (length c) * B) by (apply Rmult_le_pos; [|exact B0]; pose proof (pos_INR (length c)); lra).
  destruct re; [|pose proof (C196_domain L z d a b false c x v HL Hn Hs ltac:(discriminate) Fa Fb Fx Hab Hx E) as Q; change (/ 2 ^ 53) with uro in Q; change (/ 2 ^ 1075) with eta in Q; lra].
  revert E. unfold fpcall. set (y := fbwd a b x) in *. destruct (Rle_dec (-1) y) as [Y1|]; [|discriminate]. destruct (Rle_dec y 1) as [Y2|]; [|discriminate]. intros E. injection E as <-. change (RtoC (fhorner_real L c y)) with (ftcall L z true c y).
  assert (YA : Rabs y <= 1) by (apply Rabs_le; lra). destruct uro_small as [U0 U1]. pose proof (coef_sum_pos c) as S0. pose proof (pos_INR (length c)) as N0.
  assert (SE : step_error d y <= step_error d 1). { unfold step_error. change (/ 2 ^ 53) with uro. rewrite Rabs_R1. assert (uro * (1 + Rabs y) <= uro * (1 + 1)) by (apply Rmult_le_compat_l; lra). lra. }
  assert (HsY : 128 * INR (length c) * step_error d y <= 1). { eapply Rle_trans; [|exact Hs]. apply Rmult_le_compat_l; lra. }
  pose proof (C196_flagged L z d c y B HL Hn HsY (HB eq_refl)) as B1. pose proof (evalF_lip c y (PropFlT.ref_point a b x)) as B2. pose proof (fbwd_err a b x Fa Fb Fx Hab Hx) as B3. change ((2 * x - a - b) / (b - a)) with (PropFlT.ref_point a b x) in B3. fold y in B3.
  assert (B4 : claimed d y c <= claimed d 1 c). { unfold claimed. apply Rplus_le_compat_r. apply Rmult_le_compat_r; [exact S0|]. apply Rmult_le_compat_l; lra. }
  assert (B5 : 8 * INR (length c) * Rabs (y - PropFlT.ref_point a b x) * coef_sum c <= 8 * INR (length c) * (8 * uro * ((Rabs a + Rabs b) / (b - a)) + eta) * coef_sum c).
  { apply Rmult_le_compat_r; [exact S0|]. apply Rmult_le_compat_l; lra. }
  replace (ftcall L z true c y - evalF c (PropFlT.ref_point a b x))%C with ((ftcall L z true c y - evalF c y) + (evalF c y - evalF c (PropFlT.ref_point a b x)))%C by ring.
  eapply Rle_trans; [apply Cmod_triangle|]. lra.
Qed.
Lemma per_error_pos r d e h : 0 <= r -> 0 <= d -> 0 <= e -> 0 <= per_error r d e h.
Proof.
  intros R0 D0 E0. unfold per_error. cbv zeta. pose proof (coef_sum_pos h) as S0. pose proof (pos_INR (length h)) as N0. destruct uro_small as [U0 _]. pose proof eta_pos as T0. assert (Z : 0 <= sample_error r h). { unfold sample_error. change (/ 2 ^ 53) with uro. change (/ 2 ^ 1075) with eta. assert (0 <= 64 * INR (length h) * uro * coef_sum h) by (repeat apply Rmult_le_pos; lra). lra. }
  change (/ 2 ^ 53) with uro. change (/ 2 ^ 1075) with eta. set (t := coef_sum h + sample_error r h). assert (t0 : 0 <= t) by (unfold t; lra). assert (0 <= 4 * (d + uro) * t) by (apply Rmult_le_pos; lra). assert (0 <= INR (length h) * t) by (apply Rmult_le_pos; lra). assert (0 <= 3 * (1 + INR (length h) * t) * eta) by (apply Rmult_le_pos; lra). lra.
Qed.
Lemma coef_sum_near c h E : length c = length h -> (forall k, (k < length h)%nat -> Cmod (nth k c C0 - nth k h C0)%C <= E) -> coef_sum c <= coef_sum h + INR (length h) * E.
Proof. intros L H. exact (casum_near h c E L H). Qed.
(** Calling the function that was built, at a double of the domain; [re] is the flag isReal. *)
Theorem C203_evaluate F L z dl d e a b re op h r x v : libm_within L dl -> (2 <= length h)%nat -> INR (length h) * / 2 ^ 53 <= / 2 -> is_double a -> is_double b -> is_double x -> a < b -> stays_inside a b -> computes_periodic a b op h r ->
  accurate_cfft F (length h) d e -> 0 <= d <= / 16 -> 0 <= e <= / 16 -> 128 * INR (length h) * step_error dl 1 <= 1 -> (re = true -> forall y, Im (evalF h y) = 0) -> a <= x <= b ->
  fpcall L z a b re (ftbuild F a b op (length h)) x = Some v ->
  let N := INR (length h) in let E := per_error (r + shift_error a b h) d e h in let H := coef_sum h + N * E in
  Cmod (v - evalF h (PropFlT.ref_point a b x))%C <= (200 * N * step_error dl 1 + 64 * N * / 2 ^ 53 * ((Rabs a + Rabs b) / (b - a)) + 8 * N * / 2 ^ 1075) * H + 200 * N * / 2 ^ 1075 + 3 * N ^ 2 * E.
Proof.
  intros HL H2 HN Fa Fb Fx Hab I HO HF Hd He Hs Hr Hx EV N E H. assert (C := fun k Hk => C203_coefficients F d e a b op h r k H2 HN Hab I HO HF Hd He Hk). destruct (C 0%nat ltac:(lia)) as [LC _]. assert (FN := fun x => C203_function F d e a b op h r x H2 HN Hab I HO HF Hd He).
  set (c := ftbuild F a b op (length h)) in *. change (/ 2 ^ 53) with uro in *. change (/ 2 ^ 1075) with eta in *. fold E in FN. fold N in FN.
  assert (E0 : 0 <= E). { eapply Rle_trans; [apply (Cmod_ge_0 (nth 0 c C0 - nth 0 h C0)%C)|apply C; lia]. } assert (N1 : 1 <= N) by (unfold N; change 1 with (INR 1); apply le_INR; lia). assert (NE : 0 <= N * E) by (apply Rmult_le_pos; lra).
  assert (B : re = true -> forall j, (j < length c)%nat -> Rabs (Im (evalF c (gridpt (length c) j))) <= N * E).
  { intros R j Hj. set (y := gridpt (length c) j). specialize (FN (dom_point a b y)). assert (DR : PropFlT.ref_point a b (dom_point a b y) = y) by (unfold PropFlT.ref_point, dom_point; field; lra). rewrite DR in FN. eapply Rle_trans; [|exact FN]. replace (Im (evalF c y)) with (snd (evalF c y - evalF h y)%C); [apply im_mod|]. cbn. change (snd (evalF h y)) with (Im (evalF h y)). rewrite (Hr R y). unfold Im. ring. }
  pose proof (flagged_domain L z dl a b re c x v (N * E) HL ltac:(lia) ltac:(rewrite LC; exact Hs) B NE Fa Fb Fx Hab Hx EV) as Q. rewrite LC in Q. fold N in Q.
  assert (SN : coef_sum c <= H) by (apply (coef_sum_near c h E LC); intros k Hk; apply C, Hk). unfold claimed in Q. rewrite LC in Q. fold N in Q. change (/ 2 ^ 1075) with eta in Q. specialize (FN x).
  destruct uro_small as [U0 _]. pose proof eta_pos as T0. assert (S0 : 0 <= step_error dl 1). { unfold step_error. change (/ 2 ^ 53) with uro. rewrite Rabs_R1. destruct (HL 0 (dbl_Z 0 ltac:(cbn; lia))) as [Z _]. pose proof (Rabs_pos (lcos L 0 - cos 0)). lra. }
  assert (AB : 0 <= (Rabs a + Rabs b) / (b - a)). { pose proof (Rabs_pos a). pose proof (Rabs_pos b). apply Rmult_le_pos; [lra|]. apply Rlt_le, Rinv_0_lt_compat. lra. }
  set (W := (Rabs a + Rabs b) / (b - a)) in *. set (K := 200 * N * step_error dl 1 + 64 * N * uro * W + 8 * N * eta) in *.
  assert (K0 : 0 <= K). { unfold K. assert (0 <= 200 * N * step_error dl 1) by (apply Rmult_le_pos; lra). assert (0 <= 64 * N * uro * W) by (apply Rmult_le_pos; [apply Rmult_le_pos; lra|exact AB]). assert (0 <= 8 * N * eta) by (apply Rmult_le_pos; lra). lra. }
  assert (KH : K * coef_sum c <= K * H) by (apply Rmult_le_compat_l; lra). replace (K * coef_sum c) with (200 * N * step_error dl 1 * coef_sum c + 8 * N * (8 * uro * W + eta) * coef_sum c) in KH by (unfold K; ring).
  replace (v - evalF h (PropFlT.ref_point a b x))%C with ((v - evalF c (PropFlT.ref_point a b x)) + (evalF c (PropFlT.ref_point a b x) - evalF h (PropFlT.ref_point a b x)))%C by ring. eapply Rle_trans; [apply Cmod_triangle|].
  assert (N2 : N * E <= N ^ 2 * E). { cbn [pow]. rewrite Rmult_1_r. apply Rmult_le_compat_r; [exact E0|]. rewrite <- (Rmult_1_r N) at 1. apply Rmult_le_compat_l; lra. } replace (2 * N * (N * E)) with (2 * (N ^ 2 * E)) in Q by ring. replace (3 * N ^ 2 * E) with (3 * (N ^ 2 * E)) by ring. lra.
Qed.
Print Assumptions C203_evaluate.

Lemma cint_scale h a b l : a < b -> cint (evalF h) (-1) 1 l -> cint (fun x => evalF h (PropFlT.ref_point a b x)) a b (RtoC ((b - a) / 2) * l)%C.
Proof.
  intros H [I1 I2].
  assert (G : forall (f : R -> R) (s : R), is_RInt f (-1) 1 s -> is_RInt (fun x => f (PropFlT.ref_point a b x)) a b ((b - a) / 2 * s)).
  { intros f s J. assert (E1 : 2 / (b - a) * a + - ((a + b) / (b - a)) = -1) by (field; lra). assert (E2 : 2 / (b - a) * b + - ((a + b) / (b - a)) = 1) by (field; lra).
    rewrite <- E1, <- E2 in J. apply (is_RInt_comp_lin (V := R_NormedModule)) in J. apply (is_RInt_scal (V := R_NormedModule) _ _ _ ((b - a) / 2)) in J. refine (is_RInt_ext (V := R_NormedModule) _ _ _ _ _ _ J). intros x _. change (scal ((b - a) / 2) (scal (2 / (b - a)) (f (2 / (b - a) * x + - ((a + b) / (b - a)))))) with ((b - a) / 2 * (2 / (b - a) * f (2 / (b - a) * x + - ((a + b) / (b - a))))). replace (2 / (b - a) * x + - ((a + b) / (b - a))) with (PropFlT.ref_point a b x) by (unfold PropFlT.ref_point; field; lra). match goal with |- @eq _ ?p ?q => change (@eq R p q) end. field. lra. }
  split.
  - replace (Re (RtoC ((b - a) / 2) * l)%C) with ((b - a) / 2 * Re l) by (unfold Re; cbn; ring). apply (G (fun y => Re (evalF h y))), I1.
  - replace (Im (RtoC ((b - a) / 2) * l)%C) with ((b - a) / 2 * Im l) by (unfold Im; cbn; ring). apply (G (fun y => Im (evalF h y))), I2.
Qed.
Lemma real_sum h : (1 <= length h)%nat -> (forall y, Im (evalF h y) = 0) -> Im (tsum_col h) = 0.
Proof.
  intros H1 HR. destruct (C67_sum h H1) as [_ I]. assert (J : is_RInt (fun _ : R => 0) (-1) 1 (Im (tsum_col h))) by (refine (is_RInt_ext (V := R_NormedModule) _ _ _ _ _ _ I); intros x _; apply HR). apply (is_RInt_unique (V := R_CompleteNormedModule)) in J. rewrite RInt_const in J. rewrite <- J. change (scal (1 - -1) 0) with ((1 - -1) * 0). ring.
Qed.
Lemma prod_err (t w W : R) (q : R) : Rabs (w - W) <= q -> 0 <= W -> Rabs (fmul t w - t * W) <= uro * (Rabs t * (W + q)) + Rabs t * q + eta.
Proof.
  intros H W0. unfold fmul. assert (D : Rabs (t * w - t * W) <= Rabs t * q). { replace (t * w - t * W) with (t * (w - W)) by ring. rewrite Rabs_mult. apply Rmult_le_compat_l; [apply Rabs_pos|exact H]. }
  eapply Rle_trans; [apply fl_dist, D|]. rewrite Rabs_mult, (Rabs_right W) by lra. rewrite Rmult_plus_distr_l. lra.
Qed.
(** The computed integral over the domain. *)
Theorem C203_integral F d e a b re op h r : (2 <= length h)%nat -> INR (length h) * / 2 ^ 53 <= / 2 -> a < b -> stays_inside a b -> computes_periodic a b op h r ->
  accurate_cfft F (length h) d e -> 0 <= d <= / 16 -> 0 <= e <= / 16 -> (re = true -> forall y, Im (evalF h y) = 0) ->
  let E := per_error (r + shift_error a b h) d e h in let K := coef_sum h + E in
  exists I : C, cint (fun x => evalF h (PropFlT.ref_point a b x)) a b I /\
    Cmod (fpsum a b re (ftbuild F a b op (length h)) - I)%C <= (b - a) * (E + 16 * / 2 ^ 53 * K + 2 * / 2 ^ 1075) + (4 + 16 * K) * / 2 ^ 1075.
Proof.
  intros H2 HN Hab I HO HF Hd He Hr E K. assert (C := fun k Hk => C203_coefficients F d e a b op h r k H2 HN Hab I HO HF Hd He Hk). destruct (C 0%nat ltac:(lia)) as [LC _].
  set (c := ftbuild F a b op (length h)) in *. set (i := ((length h + 2) / 2 - 1)%nat). assert (Hi : (i < length h)%nat). { unfold i. pose proof (Nat.div_mod (length h + 2) 2 ltac:(lia)). pose proof (Nat.mod_upper_bound (length h + 2) 2 ltac:(lia)). lia. }
  exists (RtoC ((b - a) / 2) * tsum_col h)%C. split; [apply cint_scale; [exact Hab|apply C67_sum; lia]|].
  destruct (C i Hi) as [_ CI]. fold E in CI. assert (MH : Cmod (nth i h C0) <= coef_sum h) by exact (casum_nth h i Hi). assert (RS : re = true -> Im (tsum_col h) = 0) by (intros R; apply real_sum; [lia|apply Hr, R]).
  unfold fpsum. rewrite LC. fold i. unfold tsum_col in *. fold i in RS. fold i. set (m := nth i h C0) in *. set (p := nth i c C0) in *.
  destruct uro_small as [U0 _]. pose proof tiny_uro as U1. pose proof eta_pos as T0. pose proof eta_uro as TU. change (/ 2 ^ 53) with uro. change (/ 2 ^ 1075) with eta.
  assert (E0 : 0 <= E) by (eapply Rle_trans; [apply Cmod_ge_0|exact CI]). assert (K0 : 0 <= K) by (pose proof (coef_sum_pos h); unfold K; lra). assert (PK : Cmod p <= K). { pose proof (cmod_split p m). unfold K. lra. }
  set (W := (b - a) / 2). assert (W0 : 0 < W) by (unfold W; lra). set (w := fmul (/ 2) (fsub b a)).
  assert (WE : Rabs (w - W) <= 3 * uro * W + 2 * eta).
  { unfold w, fmul, fsub. pose proof (fl_err (b - a)) as F1. rewrite (Rabs_right (b - a)) in F1 by lra. assert (F2 : Rabs (/ 2 * fl (b - a) - W) <= uro * W + / 2 * eta). { replace (/ 2 * fl (b - a) - W) with (/ 2 * (fl (b - a) - (b - a))) by (unfold W; field). rewrite Rabs_mult, (Rabs_right (/ 2)) by lra. unfold W. lra. }
    eapply Rle_trans; [apply fl_dist, F2|]. rewrite (Rabs_right W) by lra. assert (UW : uro * (W + (uro * W + / 2 * eta)) <= uro * W + / 1000 * (uro * W + / 2 * eta)). { rewrite Rmult_plus_distr_l. apply Rplus_le_compat_l. apply Rmult_le_compat_r; [|lra]. assert (0 <= uro * W) by (apply Rmult_le_pos; lra). lra. } assert (0 <= uro * W) by (apply Rmult_le_pos; lra). lra. }
  pose proof (fscale_err 2 p) as FS. rewrite (Rabs_right 2) in FS by lra. set (s := fscale 2 p) in *. assert (S1 : Cmod (s - RtoC 2 * p)%C <= 4 * uro * K + 2 * eta). { assert (2 * uro * (2 * Cmod p) <= 2 * uro * (2 * K)) by (apply Rmult_le_compat_l; lra). lra. }
  assert (S2 : Cmod s <= 2 * K + / 200 * K + 2 * eta). { pose proof (cmod_split s (RtoC 2 * p)%C) as Q. rewrite Cmod_mult, Cmod_R, (Rabs_right 2) in Q by lra. assert (4 * uro * K <= 4 * / 1000 * K) by (apply Rmult_le_compat_r; lra). lra. }
  assert (S3 : Cmod (s - RtoC 2 * m)%C <= 2 * E + 4 * uro * K + 2 * eta). { replace (s - RtoC 2 * m)%C with ((s - RtoC 2 * p) + RtoC 2 * (p - m))%C by ring. eapply Rle_trans; [apply Cmod_triangle|]. rewrite Cmod_mult, Cmod_R, (Rabs_right 2) by lra. lra. }
  set (s' := if re then (fst s, 0) else s). assert (S4 : Cmod s' <= Cmod s). { unfold s'. destruct re; [|lra]. replace ((fst s, 0) : Complex.C) with (RtoC (fst s)) by reflexivity. rewrite Cmod_R. apply re_mod. }
  assert (S5 : Cmod (s' - RtoC 2 * m)%C <= 2 * E + 4 * uro * K + 2 * eta). { eapply Rle_trans; [|exact S3]. unfold s'. destruct re; [|lra]. specialize (RS eq_refl). unfold Im in RS. replace (((fst s, 0) : Complex.C) - RtoC 2 * m)%C with (RtoC (fst (s - RtoC 2 * m)%C)). { rewrite Cmod_R. apply re_mod. } apply injective_projections; [cbn; ring|]. cbn in RS |- *. lra. }
  pose proof (re_mod s') as R1. pose proof (im_mod s') as R2. set (q := 3 * uro * W + 2 * eta) in *. pose proof (prod_err (fst s') w W q WE ltac:(lra)) as P1. pose proof (prod_err (snd s') w W q WE ltac:(lra)) as P2. set (M := 2 * K + / 200 * K + 2 * eta) in *.
  assert (q0 : 0 <= q). { eapply Rle_trans; [apply Rabs_pos|exact WE]. } assert (UQ : 0 <= uro * (W + q) + q). { assert (0 <= uro * (W + q)) by (apply Rmult_le_pos; lra). lra. }
  assert (G : forall t z, Rabs t <= Cmod s' -> Rabs z <= uro * (Rabs t * (W + q)) + Rabs t * q + eta -> Rabs z <= M * (uro * (W + q) + q) + eta). { intros t z Ht Hz. assert (Rabs t * (uro * (W + q) + q) <= M * (uro * (W + q) + q)) by (apply Rmult_le_compat_r; lra). lra. }
  apply (G _ _ R1) in P1. apply (G _ _ R2) in P2. clear G.
  replace ((((fmul (fst s') w), (fmul (snd s') w)) : Complex.C) - RtoC W * (RtoC 2 * m))%C with ((((fmul (fst s') w - fst s' * W)%R, (fmul (snd s') w - snd s' * W)%R) : Complex.C) + RtoC W * (s' - RtoC 2 * m))%C by (apply injective_projections; cbn; ring).
  eapply Rle_trans; [apply Cmod_triangle|]. rewrite Cmod_mult, Cmod_R, (Rabs_right W) by lra. pose proof (mod_sum (((fmul (fst s') w - fst s' * W)%R, (fmul (snd s') w - snd s' * W)%R) : Complex.C)) as MS. cbn [fst snd] in MS.
  assert (WS : W * Cmod (s' - RtoC 2 * m)%C <= W * (2 * E + 4 * uro * K + 2 * eta)) by (apply Rmult_le_compat_l; lra).
  assert (QB : uro * (W + q) + q <= 5 * uro * W + 3 * eta). { assert (uro * q <= / 1000 * q) by (apply Rmult_le_compat_r; lra). unfold q in *. assert (0 <= uro * W) by (apply Rmult_le_pos; lra). lra. }
  assert (M0 : 0 <= M) by (unfold M; lra). assert (MQ : M * (uro * (W + q) + q) <= M * (5 * uro * W + 3 * eta)) by (apply Rmult_le_compat_l; lra).
  assert (UE : eta * (5 * uro * W + 3 * eta) <= eta * (/ 100 * W + / 10)). { apply Rmult_le_compat_l; [lra|]. assert (5 * uro * W <= 5 * / 1000 * W) by (apply Rmult_le_compat_r; lra). lra. }
  replace (M * (5 * uro * W + 3 * eta)) with (401 / 40 * (uro * K * W) + 1203 / 200 * (K * eta) + 2 * (eta * (5 * uro * W + 3 * eta))) in MQ by (unfold M; field).
  replace (W * (2 * E + 4 * uro * K + 2 * eta)) with (2 * W * E + 4 * (uro * K * W) + 2 * (eta * W)) in WS by ring. replace (b - a) with (2 * W) by (unfold W; field).
  replace (2 * W * (E + 16 * uro * K + 2 * eta) + (4 + 16 * K) * eta) with (2 * W * E + 32 * (uro * K * W) + 4 * (eta * W) + 4 * eta + 16 * (K * eta)) by ring.
  assert (0 <= uro * K * W) by (repeat apply Rmult_le_pos; lra). assert (0 <= K * eta) by (apply Rmult_le_pos; lra). assert (0 <= eta * W) by (apply Rmult_le_pos; lra). lra.
Qed.
Print Assumptions C203_integral.
(** The computed derivative on [-1, 1]. *)
Theorem C203_derivative F d e op h r x : (2 <= length h)%nat -> INR (length h) * / 2 ^ 53 <= / 2 -> computes_series op h r ->
  accurate_cfft F (length h) d e -> 0 <= d <= / 16 -> 0 <= e <= / 16 -> (Nat.even (length h) = true -> nth 0 h (RtoC 0) = RtoC 0) ->
  let N := INR (length h) in let E := per_error r d e h in let K := coef_sum h + E in
  exists D : C, cderive_n (evalF h) 1 x D /\
    Cmod (evalF (ftdiff (fvals2coeffs F (ftsample op (length h)))) x - D)%C <= N * (4 * N * E + 32 * N * / 2 ^ 53 * K + (3 + 3 * K) * / 2 ^ 1075).
Proof.
  intros H2 HN HO HF Hd He HE N E K. assert (C := fun k Hk => series_coefs F d e op h r k HN H2 HO HF Hd He Hk). destruct (C 0%nat ltac:(lia)) as [LC _]. set (c := fvals2coeffs F (ftsample op (length h))) in *. fold E in C.
  exists (evalF (tdiff_col h 1) x). split; [apply C32_diff_partial; [lia|intros EV; left; apply HE, EV]|]. change (/ 2 ^ 53) with uro. change (/ 2 ^ 1075) with eta.
  assert (LD : length (ftdiff c) = length h) by (rewrite ftdiff_length; exact LC). unfold N at 1. rewrite <- LD. apply eval_near; [rewrite LD; unfold tdiff_col; apply mk_length|]. rewrite LD. intros k Hk. destruct (C k Hk) as [_ B]. destruct uro_small as [U0 _]. pose proof eta_pos as T0.
  pose proof (ftdiff_err c k ltac:(lia)) as D. rewrite LC in D. fold N in D. assert (N1 : 1 <= N) by (unfold N; change 1 with (INR 1); apply le_INR; lia). assert (CK : Cmod (nth k c C0) <= K). { pose proof (cmod_split (nth k c C0) (nth k h C0)) as Q. assert (Cmod (nth k h C0) <= coef_sum h) by exact (casum_nth h k Hk). unfold K. lra. }
  assert (D2 : Cmod (nth k (tdiff_col c 1) C0 - nth k (tdiff_col h 1) C0)%C <= 4 * N * E).
  { unfold tdiff_col. rewrite LC, !nth_mk by lia. set (q := IZR (freq (length h) k)). replace (nth k c C0 * cpow (Ci * RtoC PI * RtoC q) 1 - nth k h C0 * cpow (Ci * RtoC PI * RtoC q) 1)%C with ((nth k c C0 - nth k h C0) * (Ci * RtoC PI * RtoC q))%C by (cbn [cpow]; ring).
    rewrite !Cmod_mult, !Cmod_R. assert (CI : Cmod Ci = 1). { unfold Cmod, Ci. cbn [fst snd]. rewrite <- sqrt_1 at 2. f_equal. ring. } rewrite CI, Rmult_1_l. pose proof PI_RGT_0 as P0. pose proof PI_4 as P4. rewrite (Rabs_right PI) by lra. pose proof (freq_abs (length h) k Hk) as Q. fold q in Q. fold N in Q. rewrite Rmult_comm. apply Rmult_le_compat; [apply Rmult_le_pos; [lra|apply Rabs_pos]|apply Cmod_ge_0| |exact B]. apply Rmult_le_compat; [lra|apply Rabs_pos|exact P4|exact Q]. }
  assert (M1 : 32 * uro * (N * Cmod (nth k c C0)) <= 32 * N * uro * K). { replace (32 * uro * (N * Cmod (nth k c C0))) with (32 * N * uro * Cmod (nth k c C0)) by ring. apply Rmult_le_compat_l; [repeat apply Rmult_le_pos; lra|exact CK]. }
  assert (M2 : (3 + 3 * Cmod (nth k c C0)) * eta <= (3 + 3 * K) * eta) by (apply Rmult_le_compat_r; lra).
  replace (nth k (ftdiff c) C0 - nth k (tdiff_col h 1) C0)%C with ((nth k (ftdiff c) C0 - nth k (tdiff_col c 1) C0) + (nth k (tdiff_col c 1) C0 - nth k (tdiff_col h 1) C0))%C by ring. eapply Rle_trans; [apply Cmod_triangle|]. lra.
Qed.
Print Assumptions C203_derivative.

(** The condition on the length: every length below 2^52. *)
Lemma length_ok n : (Z.of_nat n <= 2 ^ 52)%Z -> INR n * / 2 ^ 53 <= / 2.
Proof.
  intros H. apply IZR_le in H. rewrite <- INR_IZR_INZ in H. replace (IZR (2 ^ 52)) with (2 ^ 52) in H by (rewrite pow_IZR; reflexivity). replace (2 ^ 53) with (2 * 2 ^ 52) by (change 53%nat with (S 52); reflexivity). assert (P : 0 < 2 ^ 52) by (apply pow_lt; lra). generalize dependent (2 ^ 52). intros p H P. rewrite Rinv_mult. apply Rle_trans with (p * (/ 2 * / p)); [apply Rmult_le_compat_r; [|exact H]|apply Req_le; field; lra]. apply Rmult_le_pos; [lra|]. apply Rlt_le, Rinv_0_lt_compat, P.
Qed.
(** 1 + cos (pi x), computed with one rounding and a transform that rounds correctly: the function built from three samples
    is right to twelve digits everywhere. *)
Definition one_cos : list C := [RtoC (/ 2); RtoC 1; RtoC (/ 2)].
Theorem C203_case : let op := fun x => RtoC (fl (1 + cos (PI * x))) in
  computes_periodic (-1) 1 op one_cos (3 * / 2 ^ 53) /\ stays_inside (-1) 1 /\
  forall x, Cmod (evalF (ftbuild rounded_cfft (-1) 1 op 3) x - RtoC (1 + cos (PI * x)))%C <= 5400 * / 2 ^ 53 /\ 5400 * / 2 ^ 53 < / 10 ^ 12.
Proof.
  intros op. assert (V : forall y, evalF one_cos y = RtoC (1 + cos (PI * y))) by (intros y; apply (C196_case (fun _ => Fno) 0 ltac:(lra))).
  pose proof eta_uro as EU. pose proof eta_pos as E0. destruct uro_small as [U0 _]. pose proof tiny_uro as U1.
  assert (UB : uro <= / 9000000000000000). { Local Transparent uro. unfold uro. apply Rinv_le_contravar; [lra|]. rewrite !pow_IZR. apply IZR_le. cbn. lia. Local Opaque uro. }
  assert (P12 : / 10 ^ 12 = / 1000000000000) by (f_equal; rewrite pow_IZR; f_equal).
  assert (D0 := dbl_0'). assert (RP : forall x, PropFlT.ref_point (-1) 1 x = x) by (intros x; unfold PropFlT.ref_point; field).
  assert (CP : computes_periodic (-1) 1 op one_cos (3 * / 2 ^ 53)).
  { intros x Fx Hx. split; [split; [apply fl_is_double|exact D0]|]. rewrite RP, V. unfold op. rewrite <- RtoC_minus, Cmod_R. change (/ 2 ^ 53) with uro. pose proof (COS_bound (PI * x)) as CB. pose proof (fl_err (1 + cos (PI * x))) as FE. rewrite (Rabs_right (1 + cos (PI * x))) in FE by lra. assert (uro * (1 + cos (PI * x)) <= uro * 2) by (apply Rmult_le_compat_l; lra). lra. }
  assert (SI : stays_inside (-1) 1) by (apply (C202_inside_partial (-1) 1 dbl_m1 dbl_1); lra).
  split; [exact CP|]. split; [exact SI|]. intros x.
  assert (HN : INR (length one_cos) * / 2 ^ 53 <= / 2) by (apply length_ok; cbn; lia). pose proof (rounded_accurate 3 ltac:(lia)) as RA.
  change (accurate_cfft rounded_cfft (length one_cos) (2 * / 2 ^ 53) (2 * / 2 ^ 1075)) in RA.
  assert (C : Cmod (evalF (ftbuild rounded_cfft (-1) 1 op (length one_cos)) (PropFlT.ref_point (-1) 1 x) - evalF one_cos (PropFlT.ref_point (-1) 1 x))%C <= INR (length one_cos) * per_error (3 * / 2 ^ 53 + shift_error (-1) 1 one_cos) (2 * / 2 ^ 53) (2 * / 2 ^ 1075) one_cos).
  { apply (C203_function rounded_cfft); [cbn; lia|exact HN|lra|exact SI|exact CP|exact RA| |]; change (/ 2 ^ 53) with uro; change (/ 2 ^ 1075) with eta; lra. }
  rewrite RP, V in C. split; [|change (/ 2 ^ 53) with uro; rewrite P12; lra]. eapply Rle_trans; [exact C|].
  assert (SC : coef_sum one_cos = 2). { unfold coef_sum. cbn [length one_cos rsum nth]. rewrite !Cmod_R, Rabs_R1, Rabs_right by lra. field. }
  unfold per_error, sample_error, shift_error. rewrite SC. change (INR (length one_cos)) with (INR 3). replace (INR 3) with 3 by (cbn; ring). change (/ 2 ^ 53) with uro. change (/ 2 ^ 1075) with eta. rewrite Rabs_left, Rabs_R1 by lra. cbv zeta.
  generalize dependent eta. generalize dependent uro. intros u. intros. assert (Q1 : u * u <= / 1000 * u) by (apply Rmult_le_compat_r; lra). assert (Q2 : u * r <= / 1000 * r) by (apply Rmult_le_compat_r; lra). assert (Q3 : r * r <= / 1000 * r) by (apply Rmult_le_compat_r; lra). lra.
Qed.
Print Assumptions C203_case.
