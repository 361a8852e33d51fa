(** Rounding error of the evaluation of Fourier series. *)
From Coq Require Import Reals List Arith Lia Lra Bool ZArith.
From Coquelicot Require Import Coquelicot.
From Verif Require Import Base ToolsProofs TrigSpec TrigBase TrigModel TrigTrans TrigEval TrigObj FlModel FlProofs FlSum FlMap FlTrigModel.
Import ListNotations.
Open Scope R_scope.
Local Opaque uro eta.

(** ** absolute values *)
Lemma re_mod (w : C) : Rabs (fst w) <= Cmod w.
Proof. exact (Rle_trans _ _ _ (Rmax_l _ _) (Rmax_Cmod w)). Qed.
Lemma im_mod (w : C) : Rabs (snd w) <= Cmod w.
Proof. exact (Rle_trans _ _ _ (Rmax_r _ _) (Rmax_Cmod w)). Qed.
Lemma mod_sum (w : C) : Cmod w <= Rabs (fst w) + Rabs (snd w).
Proof.
  replace w with (RtoC (fst w) + Ci * RtoC (snd w))%C at 1 by (destruct w; apply injective_projections; cbn; ring).
  eapply Rle_trans; [apply Cmod_triangle|]. rewrite Cmod_mult, !Cmod_R. assert (E : Cmod Ci = 1). { unfold Cmod, Ci. cbn. replace (0 * (0 * 1) + 1 * (1 * 1)) with 1 by ring. apply sqrt_1. }
  rewrite E. lra.
Qed.
Lemma cs (a b c d : R) : Rabs (a * c) + Rabs (b * d) <= Cmod (a, b) * Cmod (c, d).
Proof.
  assert (E : forall p q : R, Cmod (p, q) = Cmod (Rabs p, Rabs q)).
  { intros. unfold Cmod. cbn [fst snd]. f_equal. rewrite <- !Rsqr_pow2, <- !Rsqr_abs. reflexivity. }
  rewrite (E a b). replace (Cmod (Rabs a, Rabs b)) with (Cmod (Rabs a, - Rabs b)).
  2:{ unfold Cmod. cbn [fst snd]. f_equal. ring. }
  rewrite (E c d). rewrite <- Cmod_mult. eapply Rle_trans; [|apply re_mod]. cbn [fst Cmult].
  rewrite !Rabs_mult. eapply Rle_trans; [|apply Rle_abs]. cbn [fst snd]. lra.
Qed.

(** ** rounding *)
Lemma eta_uro : eta <= uro * / 8.
Proof.
  Local Transparent uro eta. unfold eta, uro. assert (E : 2 ^ 1075 = 2 ^ 53 * 2 ^ 1022) by (rewrite <- pow_add; reflexivity). rewrite E.
  assert (P : 0 < 2 ^ 53) by (apply pow_lt; lra). assert (Q : 8 <= 2 ^ 1022). { replace 8 with (2 ^ 3) by ring. apply Rle_pow; [lra|lia]. }
  generalize dependent (2 ^ 1022). generalize dependent (2 ^ 53). intros p P q _ Q. rewrite Rinv_mult. apply Rmult_le_compat_l; [apply Rlt_le, Rinv_0_lt_compat, P|]. apply Rinv_le_contravar; lra.
  Local Opaque uro eta.
Qed.
Lemma fl_dist t s B : Rabs (t - s) <= B -> Rabs (fl t - s) <= B + uro * (Rabs s + B) + eta.
Proof.
  intros H. pose proof (fl_err t) as F. destruct uro_small as [U0 U1]. replace (fl t - s) with ((fl t - t) + (t - s)) by ring. eapply Rle_trans; [apply Rabs_triang|].
  assert (T : Rabs t <= Rabs s + B). { replace t with (s + (t - s)) by ring. eapply Rle_trans; [apply Rabs_triang|]. lra. }
  assert (uro * Rabs t <= uro * (Rabs s + B)) by (apply Rmult_le_compat_l; lra). lra.
Qed.
Lemma ftwo_err z p q : Rabs (ftwo z p q - (p + q)) <= 3 * uro * (Rabs p + Rabs q) + 4 * eta.
Proof.
  destruct uro_small as [U0 U1]. pose proof eta_pos as E0. assert (P0 := Rabs_pos p). assert (Q0 := Rabs_pos q).
  assert (G : forall p' q', Rabs (p' - p) <= uro * Rabs p + eta -> Rabs (q' - q) <= uro * Rabs q + eta -> Rabs (p' - p + (q' - q)) <= uro * (Rabs p + Rabs q) + eta -> Rabs (fl (p' + q') - (p + q)) <= 3 * uro * (Rabs p + Rabs q) + 4 * eta).
  { intros p' q' _ _ H. assert (T := Rabs_triang p q).
    assert (D : Rabs (p' + q' - (p + q)) <= uro * (Rabs p + Rabs q) + eta) by (replace (p' + q' - (p + q)) with (p' - p + (q' - q)) by ring; exact H).
    eapply Rle_trans; [apply fl_dist; exact D|]. assert (A0 : 0 <= Rabs p + Rabs q) by lra. set (A := Rabs p + Rabs q) in *.
    assert (B1 : uro * Rabs (p + q) <= uro * A) by (apply Rmult_le_compat_l; lra). assert (UA : 0 <= uro * A) by (apply Rmult_le_pos; lra).
    assert (B2 : uro * (uro * A) <= / 8 * (uro * A)) by (apply Rmult_le_compat_r; lra). assert (B3 : uro * eta <= / 8 * eta) by (apply Rmult_le_compat_r; lra).
    lra. }
  pose proof (fl_err p) as Fp. pose proof (fl_err q) as Fq. assert (UP : 0 <= uro * Rabs p) by (apply Rmult_le_pos; lra). assert (UQ : 0 <= uro * Rabs q) by (apply Rmult_le_pos; lra).
  assert (Z : forall t, Rabs (t - t) = 0) by (intros t; rewrite Rminus_diag_eq by reflexivity; apply Rabs_R0).
  destruct z; cbn [ftwo].
  - assert (T := Rabs_triang (fl p - p) (fl q - q)). assert (D : Rabs (fl p + fl q - (p + q)) <= uro * (Rabs p + Rabs q) + 2 * eta).
    { replace (fl p + fl q - (p + q)) with (fl p - p + (fl q - q)) by ring. lra. }
    eapply Rle_trans; [apply fl_dist; exact D|]. assert (T2 := Rabs_triang p q). assert (A0 : 0 <= Rabs p + Rabs q) by lra. set (A := Rabs p + Rabs q) in *.
    assert (B1 : uro * Rabs (p + q) <= uro * A) by (apply Rmult_le_compat_l; lra). assert (UA : 0 <= uro * A) by (apply Rmult_le_pos; lra).
    assert (B2 : uro * (uro * A) <= / 8 * (uro * A)) by (apply Rmult_le_compat_r; lra). assert (B3 : uro * eta <= / 8 * eta) by (apply Rmult_le_compat_r; lra).
    lra.
  - apply G; [rewrite Z; lra|exact Fq|]. rewrite Rminus_diag_eq, Rplus_0_l by reflexivity. lra.
  - apply G; [exact Fp|rewrite Z; lra|]. rewrite (Rminus_diag_eq q), Rplus_0_r by reflexivity. lra.
Qed.
Lemma fcmul_err z p q : Cmod (fcmul z p q - p * q)%C <= 6 * uro * (Cmod p * Cmod q) + 8 * eta.
Proof.
  destruct uro_small as [U0 U1]. eapply Rle_trans; [apply mod_sum|]. destruct p as [a b], q as [c d]. cbn [fcmul fst snd Cmult Cminus Cplus Copp].
  pose proof (ftwo_err z (a * c) (- (b * d))) as F1. pose proof (ftwo_err z (a * d) (b * c)) as F2. rewrite Rabs_Ropp in F1.
  pose proof (cs a b c d) as C1. pose proof (cs a b d c) as C2. assert (E : Cmod (d, c) = Cmod (c, d)) by (unfold Cmod; cbn [fst snd]; f_equal; ring). rewrite E in C2.
  assert (M1 : 3 * uro * (Rabs (a * c) + Rabs (b * d)) <= 3 * uro * (Cmod (a, b) * Cmod (c, d))) by (apply Rmult_le_compat_l; lra).
  assert (M2 : 3 * uro * (Rabs (a * d) + Rabs (b * c)) <= 3 * uro * (Cmod (a, b) * Cmod (c, d))) by (apply Rmult_le_compat_l; lra).
  replace (ftwo z (a * c) (- (b * d)) + - (a * c - b * d)) with (ftwo z (a * c) (- (b * d)) - (a * c + - (b * d))) by ring.
  replace (ftwo z (a * d) (b * c) + - (a * d + b * c)) with (ftwo z (a * d) (b * c) - (a * d + b * c)) by ring. lra.
Qed.
Lemma fcadd_err p q : Cmod (fcadd p q - (p + q))%C <= 2 * uro * (Cmod p + Cmod q) + 2 * eta.
Proof.
  destruct uro_small as [U0 U1]. eapply Rle_trans; [apply mod_sum|]. cbn [fcadd fst snd Cminus Cplus Copp].
  pose proof (fl_err (fst p + fst q)) as F1. pose proof (fl_err (snd p + snd q)) as F2. unfold fadd.
  pose proof (Rabs_triang (fst p) (fst q)). pose proof (Rabs_triang (snd p) (snd q)). pose proof (re_mod p). pose proof (re_mod q). pose proof (im_mod p). pose proof (im_mod q).
  assert (M1 : uro * Rabs (fst p + fst q) <= uro * (Cmod p + Cmod q)) by (apply Rmult_le_compat_l; lra).
  assert (M2 : uro * Rabs (snd p + snd q) <= uro * (Cmod p + Cmod q)) by (apply Rmult_le_compat_l; lra).
  unfold Rminus in *. lra.
Qed.
(** the argument of the trigonometric functions *)
Lemma fpi_err : Rabs (fpi - PI) <= 5 * uro /\ Rabs fpi <= 5.
Proof.
  destruct uro_small as [U0 U1]. pose proof eta_uro as EU. pose proof PI_RGT_0. pose proof PI_4. pose proof (fl_err PI) as F. rewrite (Rabs_right PI) in F by lra. fold fpi in F.
  assert (uro * PI <= uro * 4) by (apply Rmult_le_compat_l; lra). split; [lra|]. replace fpi with (PI + (fpi - PI)) by ring. eapply Rle_trans; [apply Rabs_triang|]. rewrite (Rabs_right PI) by lra.
  assert (B : uro * 4 + uro * / 8 <= 5 * uro) by lra. lra.
Qed.
Lemma arg_err x : Rabs (fmul fpi x - PI * x) <= 10 * uro * Rabs x + eta.
Proof.
  destruct uro_small as [U0 U1]. destruct fpi_err as [F1 F2]. unfold fmul. pose proof (fl_err (fpi * x)) as F. assert (X := Rabs_pos x).
  replace (fl (fpi * x) - PI * x) with ((fl (fpi * x) - fpi * x) + (fpi - PI) * x) by ring. eapply Rle_trans; [apply Rabs_triang|]. rewrite Rabs_mult in *.
  assert (A : Rabs fpi * Rabs x <= 5 * Rabs x) by (apply Rmult_le_compat_r; lra). assert (B : uro * (Rabs fpi * Rabs x) <= uro * (5 * Rabs x)) by (apply Rmult_le_compat_l; lra).
  assert (D : Rabs (fpi - PI) * Rabs x <= 5 * uro * Rabs x) by (apply Rmult_le_compat_r; lra). lra.
Qed.
Lemma arg2_err k x : Rabs (fmul (fmul fpi (INR k)) x - PI * INR k * x) <= 18 * uro * (INR k * Rabs x) + (Rabs x + 1) * (2 * eta).
Proof.
  destruct uro_small as [U0 U1]. pose proof eta_pos as E0. set (t := fmul fpi (INR k)). pose proof (arg_err (INR k)) as A. fold t in A. assert (K := pos_INR k). rewrite (Rabs_right (INR k)) in A by lra.
  pose proof (fl_err (t * x)) as F. fold (fmul t x) in F. assert (X := Rabs_pos x). replace (fmul t x - PI * INR k * x) with ((fmul t x - t * x) + (t - PI * INR k) * x) by ring.
  eapply Rle_trans; [apply Rabs_triang|]. rewrite Rabs_mult in *. set (kk := INR k) in *. clearbody kk.
  assert (T : Rabs t <= 6 * kk + eta). { replace t with (PI * kk + (t - PI * kk)) by ring. eapply Rle_trans; [apply Rabs_triang|]. rewrite Rabs_mult, (Rabs_right PI), (Rabs_right kk) by (pose proof PI_RGT_0; lra). pose proof PI_4.
    assert (PI * kk <= 4 * kk) by (apply Rmult_le_compat_r; lra). assert (uro * kk <= / 8 * kk) by (apply Rmult_le_compat_r; lra). lra. }
  assert (M1 : Rabs t * Rabs x <= (6 * kk + eta) * Rabs x) by (apply Rmult_le_compat_r; lra).
  assert (M2 : uro * (Rabs t * Rabs x) <= uro * ((6 * kk + eta) * Rabs x)) by (apply Rmult_le_compat_l; lra).
  assert (M3 : Rabs (t - PI * kk) * Rabs x <= (10 * uro * kk + eta) * Rabs x) by (apply Rmult_le_compat_r; lra).
  assert (EX : 0 <= eta * Rabs x) by (apply Rmult_le_pos; lra). assert (M4 : uro * (eta * Rabs x) <= / 8 * (eta * Rabs x)) by (apply Rmult_le_compat_r; lra).
  assert (KX : 0 <= uro * (kk * Rabs x)) by (apply Rmult_le_pos; [lra|apply Rmult_le_pos; lra]). lra.
Qed.
Lemma fl_is_dbl t : is_double (fl t).
Proof. apply fl_is_double. Qed.
Lemma cos_lip s t : Rabs (cos s - cos t) <= Rabs (s - t).
Proof.
  destruct (MVT_gen cos t s (fun x => - sin x)) as (c & _ & E).
  - intros. apply is_derive_cos.
  - intros. apply continuity_cos.
  - rewrite E, Rabs_mult, Rabs_Ropp. pose proof (SIN_bound c). assert (Rabs (sin c) <= 1) by (apply Rabs_le; lra). pose proof (Rabs_pos (s - t)). nra.
Qed.
Lemma sin_lip s t : Rabs (sin s - sin t) <= Rabs (s - t).
Proof.
  destruct (MVT_gen sin t s cos) as (c & _ & E).
  - intros. apply is_derive_sin.
  - intros. apply continuity_sin.
  - rewrite E, Rabs_mult. pose proof (COS_bound c). assert (Rabs (cos c) <= 1) by (apply Rabs_le; lra). pose proof (Rabs_pos (s - t)). nra.
Qed.
Lemma cis_near (p q t s d B : R) : Rabs (p - cos t) <= d -> Rabs (q - sin t) <= d -> Rabs (t - s) <= B -> Cmod ((p, q) - cis s)%C <= 2 * (d + B).
Proof.
  intros H1 H2 H3. eapply Rle_trans; [apply mod_sum|]. unfold cis. cbn [fst snd Cminus Cplus Copp].
  pose proof (cos_lip t s). pose proof (sin_lip t s).
  replace (p + - cos s) with ((p - cos t) + (cos t - cos s)) by ring. replace (q + - sin s) with ((q - sin t) + (sin t - sin s)) by ring.
  pose proof (Rabs_triang (p - cos t) (cos t - cos s)). pose proof (Rabs_triang (q - sin t) (sin t - sin s)). lra.
Qed.

(** ** the loop: errors of Horner's rule on the unit circle *)
Section Loop.
Variables (f : nat -> C) (g : nat -> C -> C) (e : C) (al be : R).
Hypothesis He : Cmod e = 1.
Hypothesis Hal : 0 <= al.
Hypothesis Hbe : 0 <= be.
Hypothesis Hg : forall j q, Cmod (g j q - (f j + e * q))%C <= al * (Cmod (f j) + Cmod q) + be.
Fixpoint lmod (l : list nat) : R := match l with [] => 0 | j :: t => Cmod (f j) + lmod t end.
Lemma lmod_pos l : 0 <= lmod l.
Proof. induction l as [|j l IH]; cbn [lmod]; [lra|]. pose proof (Cmod_ge_0 (f j)). lra. Qed.
Lemma loop_err A n : 2 * INR n * al <= 1 -> forall l k q q', (k + length l <= n)%nat -> Cmod q + lmod l <= A -> Cmod (q' - q)%C <= 2 * INR k * (al * A + be) ->
  Cmod (fold_left (fun q j => g j q) l q' - fold_left (fun q j => f j + e * q)%C l q)%C <= 2 * INR (k + length l) * (al * A + be) /\
  Cmod (fold_left (fun q j => f j + e * q)%C l q) <= A.
Proof.
  intros Hn. induction l as [|j l IH]; intros k q q' Hk HA HD; cbn [fold_left length lmod] in *.
  { rewrite Nat.add_0_r. split; [exact HD|lra]. }
  pose proof (Cmod_ge_0 q) as Q0. pose proof (lmod_pos l) as L0. pose proof (Cmod_ge_0 (f j)) as F0.
  assert (X0 : 0 <= al * A + be) by (assert (0 <= al * A) by (apply Rmult_le_pos; lra); lra).
  specialize (IH (S k) (f j + e * q)%C (g j q')). replace (k + S (length l))%nat with (S k + length l)%nat by lia. apply IH; [lia| |].
  - eapply Rle_trans; [apply Rplus_le_compat_r, Cmod_triangle|]. rewrite Cmod_mult, He. lra.
  - replace (g j q' - (f j + e * q))%C with ((g j q' - (f j + e * q')) + e * (q' - q))%C by ring. eapply Rle_trans; [apply Cmod_triangle|]. rewrite Cmod_mult, He, Rmult_1_l.
    pose proof (Hg j q') as G. set (D := Cmod (q' - q)%C) in *. assert (T : Cmod q' <= Cmod q + D). { replace q' with (q + (q' - q))%C by ring. eapply Rle_trans; [apply Cmod_triangle|]. unfold D. lra. }
    assert (M : al * (Cmod (f j) + Cmod q') <= al * (A + D)) by (apply Rmult_le_compat_l; lra).
    assert (Kn : INR k <= INR n) by (apply le_INR; lia). assert (KA : 2 * INR k * al <= 1). { eapply Rle_trans; [|exact Hn]. apply Rmult_le_compat_r; lra. }
    assert (M2 : al * D <= al * (2 * INR k * (al * A + be))) by (apply Rmult_le_compat_l; lra).
    assert (M3 : 2 * INR k * al * (al * A + be) <= 1 * (al * A + be)) by (apply Rmult_le_compat_r; lra). rewrite S_INR. lra.
Qed.
End Loop.
