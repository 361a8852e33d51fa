(** Rounding error of sums in any order and of the definite integral. *)
From Coq Require Import Reals List Arith Lia Lra ZArith Permutation.
From Flocq Require Import Core Relative Plus_error.
From Verif Require Import Base ChebSpec ChebMath ChebModel ChebEval ChebCalc FlModel FlProofs.
Import ListNotations.
Open Scope R_scope.
Local Opaque uro eta.

Fixpoint lsum (l : list R) : R := match l with [] => 0 | a :: r => a + lsum r end.
Lemma lsum_app a b : lsum (a ++ b) = lsum a + lsum b.
Proof. induction a; cbn [lsum app]; [ring|]. rewrite IHa. ring. Qed.
Lemma lsum_perm a b : Permutation a b -> lsum a = lsum b.
Proof. induction 1; cbn [lsum]; lra. Qed.
Lemma lasum_perm a b : Permutation a b -> lasum a = lasum b.
Proof. induction 1; cbn [lasum]; lra. Qed.
Lemma lsum_nth l : lsum l = rsum (length l) (fun k => nth k l 0).
Proof. induction l as [|a l IH]; [reflexivity|]. cbn [lsum length]. rewrite rsum_S_l, IH. reflexivity. Qed.
Lemma fl_is_double t : is_double (fl t).
Proof. unfold is_double, fl. apply generic_format_round; [apply FLT_exp_valid; reflexivity|apply valid_rnd_N]. Qed.
Lemma fadd_rel a b : is_double a -> is_double b -> Rabs (fadd a b - (a + b)) <= uro * Rabs (a + b).
Proof.
  intros Ha Hb. destruct (@FLT_plus_error_N_ex radix2 (-1074) 53 (eq_refl : Prec_gt_0 53) (fun n => negb (Z.even n)) a b Ha Hb) as (e & E1 & E2).
  unfold fadd, fl. change (round radix2 (FLT_exp (-1074) 53) ZnearestE (a + b)) with (round radix2 (FLT_exp (-1074) 53) (Znearest (fun n => negb (Z.even n))) (a + b)). rewrite E2.
  replace ((a + b) * (1 + e) - (a + b)) with (e * (a + b)) by ring. rewrite Rabs_mult. apply Rmult_le_compat_r; [apply Rabs_pos|].
  assert (UR : u_ro radix2 53 = uro) by (unfold u_ro; exact uro_bp). rewrite UR in E1. eapply Rle_trans; [exact E1|].
  destruct uro_small as [U0 _]. apply Rmult_le_reg_r with (1 + uro); [lra|]. unfold Rdiv. rewrite Rmult_assoc, Rinv_l by lra. nra.
Qed.
Lemma fsum_double t : is_double (fsum t).
Proof. destruct t; apply fl_is_double. Qed.
Lemma leaves_pos t : (1 <= length (leaves t))%nat.
Proof. induction t; cbn; [lia| |]; rewrite app_length; cbn; lia. Qed.
Lemma lsum_abs l : Rabs (lsum l) <= lasum l.
Proof. induction l; cbn [lsum lasum]; [rewrite Rabs_R0; lra|]. pose proof (Rabs_triang a (lsum l)). lra. Qed.
Definition prods (l : list (R * R)) : list R := map (fun p => fst p * snd p) l.
Lemma prods_app a b : prods (a ++ b) = prods a ++ prods b.
Proof. apply map_app. Qed.
Lemma fsum_err t :
  Rabs (fsum t - lsum (prods (leaves t))) <= ((1 + uro) ^ length (leaves t) - 1) * lasum (prods (leaves t)) + INR (length (leaves t)) * (1 + uro) ^ length (leaves t) * eta.
Proof.
  destruct uro_small as [U0 U1]. pose proof eta_pos as E0. induction t as [w a|l IHl r IHr|l IHl w a].
  - cbn [fsum leaves prods map fst snd lsum lasum length pow INR]. pose proof (fl_err (w * a)) as F. fold (fmul w a) in F.
    replace (w * a + 0) with (w * a) by ring. assert (0 <= uro * eta) by (apply Rmult_le_pos; lra). lra.
  - cbn [leaves fsum]. pose proof (fadd_rel _ _ (fsum_double l) (fsum_double r)) as FA.
    pose proof (leaves_pos l) as L1. pose proof (leaves_pos r) as L2. rewrite prods_app, app_length, lsum_app, lasum_app.
    set (nl := length (leaves l)) in *. set (nr := length (leaves r)) in *.
    set (G := (1 + uro) ^ (nl + nr - 1)).
    assert (Gl : (1 + uro) ^ nl <= G) by (apply Rle_pow; [lra|lia]).
    assert (Gr : (1 + uro) ^ nr <= G) by (apply Rle_pow; [lra|lia]).
    assert (GG : (1 + uro) ^ (nl + nr) = (1 + uro) * G).
    { unfold G. replace (nl + nr)%nat with (S (nl + nr - 1)) at 1 by lia. reflexivity. }
    rewrite GG, plus_INR. set (Sl := lsum (prods (leaves l))) in *. set (Sr := lsum (prods (leaves r))) in *.
    set (Al := lasum (prods (leaves l))) in *. set (Ar := lasum (prods (leaves r))) in *. assert (Pl : 0 <= Al) by apply lasum_pos. assert (Pr : 0 <= Ar) by apply lasum_pos.
    assert (Nl := pos_INR nl). assert (Nr := pos_INR nr).
    assert (El : Rabs (fsum l - Sl) <= (G - 1) * Al + INR nl * G * eta).
    { eapply Rle_trans; [exact IHl|]. apply Rplus_le_compat; [apply Rmult_le_compat_r; lra|]. apply Rmult_le_compat_r; [lra|]. apply Rmult_le_compat_l; lra. }
    assert (Er : Rabs (fsum r - Sr) <= (G - 1) * Ar + INR nr * G * eta).
    { eapply Rle_trans; [exact IHr|]. apply Rplus_le_compat; [apply Rmult_le_compat_r; lra|]. apply Rmult_le_compat_r; [lra|]. apply Rmult_le_compat_l; lra. }
    assert (S1 : Rabs Sl <= Al) by apply lsum_abs. assert (S2 : Rabs Sr <= Ar) by apply lsum_abs.
    set (s1 := fsum l) in *. set (s2 := fsum r) in *. set (f := fadd s1 s2) in *.
    set (e := INR nl * G * eta + INR nr * G * eta).
    assert (AB : Rabs (s1 + s2) <= G * (Al + Ar) + e).
    { replace (s1 + s2) with ((s1 - Sl) + Sl + ((s2 - Sr) + Sr)) by ring.
      pose proof (Rabs_triang ((s1 - Sl) + Sl) ((s2 - Sr) + Sr)). pose proof (Rabs_triang (s1 - Sl) Sl). pose proof (Rabs_triang (s2 - Sr) Sr). unfold e. lra. }
    replace (f - (Sl + Sr)) with ((f - (s1 + s2)) + ((s1 - Sl) + (s2 - Sr))) by ring.
    pose proof (Rabs_triang (f - (s1 + s2)) ((s1 - Sl) + (s2 - Sr))) as T1. pose proof (Rabs_triang (s1 - Sl) (s2 - Sr)) as T2.
    assert (UA : uro * Rabs (s1 + s2) <= uro * (G * (Al + Ar) + e)) by (apply Rmult_le_compat_l; lra).
    replace (((1 + uro) * G - 1) * (Al + Ar) + (INR nl + INR nr) * ((1 + uro) * G) * eta) with (uro * (G * (Al + Ar) + e) + ((G - 1) * Al + (G - 1) * Ar + e)) by (unfold e; ring).
    unfold e in *. lra.
  - cbn [leaves fsum]. rewrite prods_app, app_length, lsum_app, lasum_app. cbn [prods map fst snd lsum lasum length].
    set (n := length (leaves l)) in *. rewrite Nat.add_1_r, S_INR. cbn [pow]. set (G := (1 + uro) ^ n) in *.
    set (S := lsum (prods (leaves l))) in *. set (A := lasum (prods (leaves l))) in *. assert (PA : 0 <= A) by apply lasum_pos. assert (Nn := pos_INR n).
    assert (G1 : 1 <= G) by (apply pow_R1_Rle; lra).
    pose proof (fl_err (fsum l + w * a)) as F. set (s := fsum l) in *. set (p := w * a) in *. set (f := fl (s + p)) in *. assert (P0 := Rabs_pos p).
    assert (S1 : Rabs S <= A) by apply lsum_abs.
    assert (AB : Rabs (s + p) <= G * A + INR n * G * eta + Rabs p).
    { replace (s + p) with ((s - S) + S + p) by ring. pose proof (Rabs_triang ((s - S) + S) p). pose proof (Rabs_triang (s - S) S). lra. }
    replace (f - (S + (p + 0))) with ((f - (s + p)) + (s - S)) by ring. pose proof (Rabs_triang (f - (s + p)) (s - S)) as T1.
    assert (UA : uro * Rabs (s + p) <= uro * (G * A + INR n * G * eta + Rabs p)) by (apply Rmult_le_compat_l; lra).
    replace (((1 + uro) * G - 1) * (A + (Rabs p + 0)) + (INR n + 1) * ((1 + uro) * G) * eta) with
      (uro * (G * A + INR n * G * eta + Rabs p) + ((G - 1) * A + INR n * G * eta) + ((1 + uro) * (G - 1) * Rabs p + (1 + uro) * G * eta)) by ring.
    assert (X1 : 0 <= (1 + uro) * (G - 1) * Rabs p) by (apply Rmult_le_pos; [apply Rmult_le_pos; lra|lra]).
    assert (X2 : 1 * eta <= (1 + uro) * G * eta) by (apply Rmult_le_compat_r; [lra|nra]).
    lra.
Qed.
Lemma pow_lin k u : 0 <= u -> INR k * u <= / 2 -> (1 + u) ^ k <= 1 + 2 * (INR k * u).
Proof.
  intros U0. induction k as [|k IH]; intros H; [cbn; lra|]. rewrite S_INR in *. assert (K0 := pos_INR k).
  assert (KU : 0 <= INR k * u) by (apply Rmult_le_pos; lra). specialize (IH ltac:(lra)). cbn [pow].
  apply Rle_trans with ((1 + u) * (1 + 2 * (INR k * u))); [apply Rmult_le_compat_l; lra|]. nra.
Qed.

Local Transparent uro eta.
Lemma eta_small : eta <= uro * / 8.
Proof.
  unfold eta, uro. rewrite <- Rinv_mult. apply Rinv_le_contravar.
  - apply Rmult_lt_0_compat; [apply pow_lt; lra|lra].
  - replace 8 with (2 ^ 3) by (cbn; ring). rewrite <- pow_add. apply Rle_pow; [lra|lia].
Qed.
Local Opaque uro eta.
Lemma moment_abs k : Rabs (moment k) <= 2.
Proof.
  unfold moment. destruct (Nat.even k) eqn:E; [|rewrite Rabs_R0; lra]. destruct k as [|[|k]]; [|discriminate|].
  - cbn. rewrite Rabs_right; lra.
  - assert (K0 := pos_INR k). assert (D : INR (S (S k)) ^ 2 - 1 >= 1). { rewrite !S_INR. nra. }
    replace (2 / (1 - INR (S (S k)) ^ 2)) with (- (2 / (INR (S (S k)) ^ 2 - 1))) by (field; lra).
    rewrite Rabs_Ropp, Rabs_right; [|apply Rle_ge; apply Rlt_le; apply Rdiv_lt_0_compat; lra].
    apply Rmult_le_reg_r with (INR (S (S k)) ^ 2 - 1); [lra|]. unfold Rdiv. rewrite Rmult_assoc, Rinv_l by lra. lra.
Qed.
Lemma fl_0 : fl 0 = 0.
Proof. unfold fl. apply round_0. apply valid_rnd_N. Qed.
Lemma fweight_err k : Nat.even k = true -> Rabs (fweight k - moment k) <= uro * Rabs (moment k) + eta.
Proof.
  intros E. destruct uro_small as [U0 _]. pose proof eta_pos. destruct k as [|[|k]]; [|discriminate|].
  - replace (moment 0) with 2 by (unfold moment; cbn; field). cbn [fweight]. replace (2 - 2) with 0 by ring. rewrite Rabs_R0. pose proof (Rabs_pos 2). nra.
  - change (fweight (S (S k))) with (fl (2 / (1 - INR (S (S k)) ^ 2))). unfold moment. rewrite E. apply fl_err.
Qed.
(** Whatever the order, a product of a row and a column is close to the exact one. *)
Lemma fdot_err l s : INR (length l) * uro <= / 2 -> fdot l s ->
  Rabs (s - lsum (prods l)) <= 2 * INR (length l) * uro * lasum (prods l) + 2 * INR (length l) * eta.
Proof.
  intros HN (t & P & ->). destruct uro_small as [U0 U1]. pose proof eta_pos as E0. pose proof (fsum_err t) as F.
  assert (PP : Permutation (prods (leaves t)) (prods l)) by (apply Permutation_map; exact P).
  rewrite (lsum_perm _ _ PP), (lasum_perm _ _ PP), (Permutation_length P) in F. eapply Rle_trans; [exact F|].
  set (N := length l) in *. pose proof (pow_lin N uro ltac:(lra) HN) as G. assert (PA := lasum_pos (prods l)). assert (PN := pos_INR N).
  apply Rplus_le_compat.
  - apply Rmult_le_compat_r; lra.
  - apply Rmult_le_compat_r; [lra|]. rewrite (Rmult_comm 2). apply Rmult_le_compat_l; lra.
Qed.
Lemma fterm_err k a : is_double a -> Rabs (fweight k * fmask k a - a * moment k) <= 3 * uro * Rabs a.
Proof.
  intros Ha. destruct uro_small as [U0 U1]. pose proof eta_pos as E0. pose proof (Rabs_pos a) as A0. unfold fmask. destruct (Nat.even k) eqn:E.
  2:{ unfold fmul. rewrite Rmult_0_r, fl_0, Rmult_0_r. unfold moment. rewrite E, Rmult_0_r. replace (0 - 0) with 0 by ring. rewrite Rabs_R0. assert (0 <= uro * Rabs a) by (apply Rmult_le_pos; lra). lra. }
  unfold fmul. rewrite Rmult_1_r, (fl_double a Ha).
  pose proof (fweight_err k E) as W. pose proof (moment_abs k) as M. set (w := fweight k) in *. set (m := moment k) in *. pose proof eta_small as ES.
  replace (w * a - a * m) with ((w - m) * a) by ring. rewrite Rabs_mult. apply Rmult_le_compat_r; [lra|]. pose proof (Rabs_pos m). nra.
Qed.
Lemma fterms_length c : length (fterms c) = length c.
Proof. unfold fterms. now rewrite map_length, seq_length. Qed.
Lemma prods_fterms_nth c k : (k < length c)%nat -> nth k (prods (fterms c)) 0 = fweight k * fmask k (nth k c 0).
Proof.
  intros H. unfold prods, fterms. rewrite map_map. rewrite (nth_indep _ 0 (fst (fweight 0, fmask 0 (nth 0 c 0)) * snd (fweight 0, fmask 0 (nth 0 c 0)))) by (now rewrite map_length, seq_length).
  rewrite (map_nth (fun k => fst (fweight k, fmask k (nth k c 0)) * snd (fweight k, fmask k (nth k c 0)))). rewrite seq_nth by exact H. reflexivity.
Qed.
(** Whatever the order of the summation, the computed integral is close to the integral. *)
Lemma fintegral_err c s : (forall a, In a c -> is_double a) -> INR (length c) * uro <= / 2 -> fintegral c s ->
  Rabs (s - rsum (length c) (fun k => nth k c 0 * moment k)) <= (3 + 6 * INR (length c)) * uro * lasum c + 2 * INR (length c) * eta.
Proof.
  intros Hd HN H. destruct uro_small as [U0 U1]. pose proof eta_pos as E0. assert (PN := pos_INR (length c)). assert (PS := lasum_pos c).
  assert (D : forall k, (k < length c)%nat -> is_double (nth k c 0)) by (intros k Hk; apply Hd, nth_In; exact Hk).
  unfold fintegral in H. destruct (Nat.eqb_spec (length c) 1) as [L|L].
  - destruct c as [|a [|b c]]; try discriminate. cbn [nth] in H. cbn [length rsum nth lasum INR]. subst s.
    replace (moment 0) with 2 by (unfold moment; cbn; field). replace (0 + a * 2) with (2 * a) by ring.
    pose proof (fl_err (2 * a)) as F. fold (fmul 2 a) in F. rewrite Rabs_mult, (Rabs_right 2) in F by lra. pose proof (Rabs_pos a). assert (0 <= uro * Rabs a) by (apply Rmult_le_pos; lra). lra.
  - set (N := length c) in *. pose proof (fdot_err _ _ ltac:(rewrite fterms_length; exact HN) H) as F. rewrite fterms_length in F. fold N in F.
    assert (PL : length (prods (fterms c)) = N) by (unfold prods; rewrite map_length; apply fterms_length).
    assert (TE : Rabs (lsum (prods (fterms c)) - rsum N (fun k => nth k c 0 * moment k)) <= 3 * uro * lasum c).
    { rewrite lsum_nth, PL. rewrite <- rsum_minus. eapply Rle_trans; [apply rsum_Rabs|].
      rewrite lasum_nth. fold N. rewrite <- rsum_scal. apply rsum_le. intros k Hk. rewrite prods_fterms_nth by exact Hk. apply fterm_err, D, Hk. }
    assert (TA : lasum (prods (fterms c)) <= 3 * lasum c).
    { rewrite !lasum_nth, PL. fold N. rewrite <- rsum_scal. apply rsum_le. intros k Hk. rewrite prods_fterms_nth by exact Hk.
      pose proof (fterm_err k _ (D k Hk)) as X. pose proof (moment_abs k) as M. set (a := nth k c 0) in *. set (r := fweight k * fmask k a) in *. pose proof (Rabs_pos a).
      replace r with (a * moment k + (r - a * moment k)) by ring. eapply Rle_trans; [apply Rabs_triang|]. rewrite Rabs_mult. assert (Rabs a * Rabs (moment k) <= Rabs a * 2) by (apply Rmult_le_compat_l; lra).
      assert (uro * Rabs a <= / 8 * Rabs a) by (apply Rmult_le_compat_r; lra). lra. }
    replace (s - rsum N (fun k => nth k c 0 * moment k)) with ((s - lsum (prods (fterms c))) + (lsum (prods (fterms c)) - rsum N (fun k => nth k c 0 * moment k))) by ring.
    eapply Rle_trans; [apply Rabs_triang|].
    assert (X : 2 * INR N * uro * lasum (prods (fterms c)) <= 2 * INR N * uro * (3 * lasum c)).
    { apply Rmult_le_compat_l; [|exact TA]. apply Rmult_le_pos; lra. }
    lra.
Qed.
