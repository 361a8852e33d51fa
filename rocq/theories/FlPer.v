(** Sampling of periodic functions in floating point: points, nested grids, coefficients, derivative. *)
From Coq Require Import Reals List Arith Lia Lra Bool ZArith.
From Flocq Require Import Core.
From Coquelicot Require Import Coquelicot.
From Verif Require Import Base TrigBase TrigSpec TrigModel TrigTrans TrigObj TrigConsProofs FlModel FlProofs FlSum FlMap FlTrigModel FlTrig FlMul FlFftModel FlFft FlSample PropFlT FlDomModel FlDom FlPerModel.
Import ListNotations.
Open Scope R_scope.
Local Opaque uro eta.

Lemma ftrigpts_nth n j : (j < n)%nat -> nth j (ftrigpts n) 0 = fadd (fmul (INR j) (fdiv 2 (INR n))) (-1).
Proof. intros H. unfold ftrigpts. rewrite nth_mk by exact H. reflexivity. Qed.
Lemma fl2 : fl 2 = 2.
Proof. apply fl_double, (dbl_Z 2). lia. Qed.
Lemma eta_sq : eta <= uro * uro.
Proof.
  Local Transparent uro eta. unfold eta, uro. assert (E : 2 ^ 1075 = 2 ^ 53 * 2 ^ 53 * 2 ^ 969) by (rewrite <- !pow_add; reflexivity). rewrite E.
  assert (P : 0 < 2 ^ 53) by (apply pow_lt; lra). assert (Q : 1 <= 2 ^ 969) by (apply pow_R1_Rle; lra).
  generalize dependent (2 ^ 969). generalize dependent (2 ^ 53). intros p P q _ Q. rewrite !Rinv_mult. assert (I : 0 < / p) by (apply Rinv_0_lt_compat, P). assert (J : / q <= 1) by (rewrite <- Rinv_1; apply Rinv_le_contravar; lra).
  rewrite <- (Rmult_1_r (/ p * / p)) at 2. apply Rmult_le_compat_l; [apply Rmult_le_pos; lra|exact J].
  Local Opaque uro eta.
Qed.
(** the points: accurate, and in [-1, 1] *)
Lemma step_err n : (1 <= n)%nat -> Rabs (fdiv 2 (INR n) - 2 / INR n) <= uro * (2 / INR n) + eta.
Proof. intros H. assert (P := INR_pos n H). unfold fdiv. pose proof (fl_err (2 / INR n)) as F. rewrite (Rabs_right (2 / INR n)) in F by (apply Rle_ge, Rlt_le, Rdiv_lt_0_compat; lra). exact F. Qed.
Lemma tpoint n j : (1 <= n)%nat -> INR n * uro <= / 2 -> (j < n)%nat ->
  let x := nth j (ftrigpts n) 0 in is_double x /\ -1 <= x <= 1 /\ Rabs (x - gridpt n j) <= 8 * uro.
Proof.
  intros H1 HN Hj x. assert (P := INR_pos n H1). destruct uro_small as [U0 _]. pose proof tiny_uro as U1. pose proof eta_sq as E2. pose proof eta_pos as E0. pose proof eta_uro as EU. pose proof (step_err n H1) as S. set (s := fdiv 2 (INR n)) in *.
  assert (J0 := pos_INR j). assert (J1 : INR j + 1 <= INR n) by (rewrite <- S_INR; apply le_INR; lia). set (N := INR n) in *. set (J := INR j) in *.
  assert (IN : 2 * uro <= / N). { apply Rmult_le_reg_l with N; [exact P|]. rewrite Rinv_r by lra. lra. } assert (NE : N * eta <= / 2 * uro). { apply Rle_trans with (N * (uro * uro)); [apply Rmult_le_compat_l; lra|]. rewrite <- Rmult_assoc. apply Rmult_le_compat_r; lra. }
  apply Rabs_le_inv in S. assert (I0 : 0 < / N) by (apply Rinv_0_lt_compat, P). assert (UI : uro * / N <= / 1000 * / N) by (apply Rmult_le_compat_r; lra).
  assert (S0 : 0 <= s). { unfold Rdiv in S. lra. }
  assert (NI : N * / N = 1) by (apply Rinv_r; lra).
  assert (JN : 0 <= J * / N). { apply Rmult_le_pos; lra. } assert (JN1 : J * / N <= 1 - / N). { apply Rmult_le_reg_r with N; [exact P|]. rewrite Rmult_assoc, Rinv_l, Rmult_minus_distr_r, Rinv_l by lra. lra. }
  assert (JE : J * eta <= / 2 * uro) by (apply Rle_trans with (N * eta); [apply Rmult_le_compat_r; lra|exact NE]).
  assert (JS : Rabs (J * s - 2 * (J * / N)) <= 2 * uro * (J * / N) + / 2 * uro).
  { replace (J * s - 2 * (J * / N)) with (J * (s - 2 / N)) by (unfold Rdiv; ring). apply Rabs_le. assert (A1 : J * (s - 2 / N) <= J * (uro * (2 / N) + eta)) by (apply Rmult_le_compat_l; lra). assert (A2 : J * - (uro * (2 / N) + eta) <= J * (s - 2 / N)) by (apply Rmult_le_compat_l; lra). replace (J * (uro * (2 / N) + eta)) with (2 * uro * (J * / N) + J * eta) in A1 by (unfold Rdiv; ring). replace (J * - (uro * (2 / N) + eta)) with (- (2 * uro * (J * / N) + J * eta)) in A2 by (unfold Rdiv; ring). split; lra. }
  assert (UJ : uro * (J * / N) <= uro * 1) by (apply Rmult_le_compat_l; lra).
  assert (TOP : J * s <= 2). { apply Rabs_le_inv in JS. lra. }
  assert (F0 : 0 <= fl (J * s)). { rewrite <- fl_0. apply fl_le. apply Rmult_le_pos; assumption. } assert (F2 : fl (J * s) <= 2) by (rewrite <- fl2; apply fl_le; exact TOP).
  assert (XE : x = fl (fl (J * s) + -1)) by (unfold x; rewrite ftrigpts_nth by exact Hj; reflexivity).
  split; [rewrite XE; apply fl_is_double|]. split.
  - rewrite XE. split; [rewrite <- (fl_double (-1) dbl_m1) at 1|rewrite <- (fl_double 1 dbl_1)]; apply fl_le; lra.
  - pose proof (fl_dist _ _ _ JS) as D1. rewrite (Rabs_right (2 * (J * / N))) in D1 by lra.
    assert (D1' : Rabs (fl (J * s) - 2 * (J * / N)) <= 5 * uro). { eapply Rle_trans; [exact D1|]. assert (Z : uro * (2 * (J * / N) + (2 * uro * (J * / N) + / 2 * uro)) <= uro * (2 + / 8)). { apply Rmult_le_compat_l; [lra|]. assert (2 * uro * (J * / N) <= / 500 * (J * / N)) by (apply Rmult_le_compat_r; lra). lra. } lra. }
    assert (D2 : Rabs (fl (J * s) + -1 - gridpt n j) <= 5 * uro). { unfold gridpt. fold N J. replace (fl (J * s) + -1 - (-1 + 2 * J / N)) with (fl (J * s) - 2 * (J * / N)) by (unfold Rdiv; ring). exact D1'. }
    rewrite XE. eapply Rle_trans; [apply fl_dist, D2|]. assert (GB : Rabs (gridpt n j) <= 1). { unfold gridpt. fold N J. replace (-1 + 2 * J / N) with (-1 + 2 * (J * / N)) by (unfold Rdiv; ring). apply Rabs_le. lra. }
    assert (Z : uro * (Rabs (gridpt n j) + 5 * uro) <= uro * (1 + / 8)) by (apply Rmult_le_compat_l; lra). lra.
Qed.
(** the first point is -1 *)
Lemma first_point n : (1 <= n)%nat -> nth 0 (ftrigpts n) 0 = -1.
Proof. intros H. rewrite ftrigpts_nth by lia. unfold fadd, fmul. cbn [INR]. rewrite Rmult_0_l, fl_0, Rplus_0_l. apply fl_double, dbl_m1. Qed.
(** doubling the grid *)
Lemma tnested n j : (1 <= n)%nat -> INR n * uro <= / 2 -> (j < n)%nat -> nth (2 * j) (ftrigpts (2 * n)) 0 = nth j (ftrigpts n) 0.
Proof.
  intros H1 HN Hj. assert (P := INR_pos n H1). rewrite !ftrigpts_nth by lia. unfold fadd, fmul. do 2 f_equal. f_equal. rewrite !mult_INR. change (INR 2) with 2. unfold fdiv.
  assert (E : fl (2 / INR n) = 2 * fl (2 / (2 * INR n))). { rewrite <- fl_twice. { f_equal. field. lra. } replace (2 / (2 * INR n)) with (/ INR n) by (field; lra). rewrite Rabs_right by (apply Rle_ge, Rlt_le, Rinv_0_lt_compat, P). apply Rle_trans with uro.
    - Local Transparent uro. unfold uro. replace (2 ^ 53) with (IZR (2 ^ 53)) by (rewrite pow_IZR; reflexivity). change (/ IZR (2 ^ 53)) with (bpow radix2 (-53)). apply bpow_le. lia. Local Opaque uro.
    - apply Rmult_le_reg_l with (INR n); [exact P|]. rewrite Rinv_r by lra. lra. }
  rewrite E. ring.
Qed.
Lemma ftrigpts_length n : length (ftrigpts n) = n.
Proof. apply mk_length. Qed.
Lemma ftsample_length op n : (1 <= n)%nat -> length (ftsample op n) = n.
Proof. intros H. unfold ftsample. cbn [length]. destruct n as [|n]; [lia|]. rewrite <- (ftrigpts_length (S n)) at 2. rewrite <- (map_length op (ftrigpts (S n))). destruct (map op (ftrigpts (S n))) eqn:E; [|reflexivity]. apply (f_equal (@length _)) in E. rewrite map_length, ftrigpts_length in E. discriminate. Qed.
Lemma ftsample_nth op n j : (j < n)%nat -> nth j (ftsample op n) C0 = if Nat.eqb j 0 then fscale (/ 2) (fcadd (op (-1)) (op 1)) else op (nth j (ftrigpts n) 0).
Proof.
  intros H. assert (M : forall i, (i < n)%nat -> nth i (map op (ftrigpts n)) C0 = op (nth i (ftrigpts n) 0)). { intros i Hi. rewrite (nth_indep _ C0 (op 0)) by (rewrite map_length, ftrigpts_length; exact Hi). apply map_nth. }
  unfold ftsample. destruct j as [|j]; cbn [nth Nat.eqb].
  - rewrite M by exact H. rewrite first_point by lia. reflexivity.
  - rewrite <- (M (S j) H). destruct (map op (ftrigpts n)); [destruct j; reflexivity|reflexivity].
Qed.
Lemma nested_tsample op n : (1 <= n)%nat -> INR n * uro <= / 2 -> ftnested op (ftsample op n) = ftsample op (2 * n).
Proof.
  intros H1 HN. apply nth_ext with (d := C0) (d' := C0); [rewrite ftsample_length by lia; unfold ftnested; rewrite mk_length, ftsample_length by lia; reflexivity|].
  intros i Hi. unfold ftnested in *. rewrite mk_length, ftsample_length in Hi by lia. rewrite ftsample_length by exact H1. rewrite nth_mk by exact Hi. rewrite (ftsample_nth op (2 * n) i Hi).
  destruct (Nat.even i) eqn:EV.
  - apply Nat.even_spec in EV. destruct EV as [m ->]. rewrite (Nat.mul_comm 2 m), Nat.div_mul, (Nat.mul_comm m 2) by lia. rewrite ftsample_nth by lia. destruct m as [|m]; [reflexivity|]. destruct (Nat.eqb_spec (S m) 0); [lia|]. destruct (Nat.eqb_spec (2 * S m) 0); [lia|]. f_equal. symmetry. apply tnested; [exact H1|exact HN|lia].
  - destruct (Nat.eqb_spec i 0) as [->|_]; [discriminate|]. reflexivity.
Qed.
(** the computed derivative *)
Lemma ftdiff_length c : length (ftdiff c) = length c.
Proof. apply mk_length. Qed.
Lemma freq_abs n k : (k < n)%nat -> Rabs (IZR (freq n k)) <= INR n.
Proof. intros H. pose proof (freq_range n k H) as [F1 F2]. rewrite INR_IZR_INZ. apply Rabs_le. rewrite <- opp_IZR. split; apply IZR_le; lia. Qed.
Lemma ftdiff_err c k : (k < length c)%nat ->
  Cmod (nth k (ftdiff c) C0 - nth k (tdiff_col c 1) C0)%C <= 32 * uro * (INR (length c) * Cmod (nth k c C0)) + (3 + 3 * Cmod (nth k c C0)) * eta.
Proof.
  intros Hk. unfold ftdiff, tdiff_col. rewrite !nth_mk by exact Hk. set (n := length c) in *. set (q := IZR (freq n k)). pose proof (freq_abs n k Hk) as Q. fold q in Q. pose proof (arg_err q) as A. set (w := fmul fpi q) in *. set (a := nth k c C0).
  destruct uro_small as [U0 _]. pose proof tiny_uro as U1. pose proof eta_pos as E0. pose proof eta_uro as EU. pose proof (re_mod a) as R1. pose proof (im_mod a) as R2. set (m := Cmod a) in *. assert (M0 : 0 <= m) by apply Cmod_ge_0. set (N := INR n) in *. assert (N0 : 1 <= N) by (unfold N; change 1 with (INR 1); apply le_INR; unfold n; lia).
  assert (UQ : 10 * uro * Rabs q <= 10 * uro * N) by (apply Rmult_le_compat_l; lra). pose proof PI_RGT_0 as P0. pose proof PI_4 as P4.
  assert (PQ : Rabs (PI * q) <= 4 * N). { rewrite Rabs_mult, (Rabs_right PI) by lra. apply Rmult_le_compat; [lra|apply Rabs_pos|exact P4|exact Q]. }
  assert (X : forall t, Rabs t <= m -> Rabs (fmul t w - t * (PI * q)) <= 15 * uro * (N * m) + (1 + m) * eta * (5 / 4)).
  { intros t Ht. pose proof (Rabs_pos t) as T0. assert (D : Rabs (t * w - t * (PI * q)) <= m * (10 * uro * N + eta)). { replace (t * w - t * (PI * q)) with (t * (w - PI * q)) by ring. rewrite Rabs_mult. apply Rmult_le_compat; [exact T0|apply Rabs_pos|exact Ht|lra]. }
    unfold fmul at 1. eapply Rle_trans; [apply fl_dist, D|]. assert (TP : Rabs (t * (PI * q)) <= m * (4 * N)). { rewrite Rabs_mult. apply Rmult_le_compat; [exact T0|apply Rabs_pos|exact Ht|exact PQ]. }
    assert (NM : 0 <= N * m) by (apply Rmult_le_pos; lra). assert (ME : 0 <= m * eta) by (apply Rmult_le_pos; lra). assert (UN : uro * (N * m) <= / 1000 * (N * m)) by (apply Rmult_le_compat_r; lra).
    assert (Z : uro * (Rabs (t * (PI * q)) + m * (10 * uro * N + eta)) <= uro * (m * (4 * N) + (/ 100 * (N * m) + m * eta))). { apply Rmult_le_compat_l; [lra|]. replace (m * (10 * uro * N + eta)) with (10 * (uro * (N * m)) + m * eta) by ring. lra. }
    assert (UM : uro * (m * eta) <= / 1000 * (m * eta)) by (apply Rmult_le_compat_r; lra). replace (uro * (m * (4 * N) + (/ 100 * (N * m) + m * eta))) with ((4 + / 100) * (uro * (N * m)) + uro * (m * eta)) in Z by ring. replace (m * (10 * uro * N + eta)) with (10 * (uro * (N * m)) + m * eta) in * by ring. assert (0 <= uro * (N * m)) by (apply Rmult_le_pos; lra). lra. }
  assert (E : (a * cpow (Ci * RtoC PI * RtoC q) 1)%C = (((- (snd a * (PI * q)))%R, (fst a * (PI * q))%R) : C)). { destruct a as [x y]. cbn [cpow fst snd]. apply injective_projections; cbn; ring. }
  rewrite E. replace ((((- fmul (snd a) w)%R, fmul (fst a) w) : C) - (((- (snd a * (PI * q)))%R, (fst a * (PI * q))%R) : C))%C with (((- (fmul (snd a) w - snd a * (PI * q)))%R, (fmul (fst a) w - fst a * (PI * q))%R) : C) by (apply injective_projections; cbn; ring).
  eapply Rle_trans; [apply mod_sum|]. cbn [fst snd]. rewrite Rabs_Ropp. pose proof (X (snd a) R2) as X1. pose proof (X (fst a) R1) as X2. assert (0 <= m * eta) by (apply Rmult_le_pos; lra). assert (0 <= uro * (N * m)) by (apply Rmult_le_pos; [lra|apply Rmult_le_pos; lra]). lra.
Qed.
