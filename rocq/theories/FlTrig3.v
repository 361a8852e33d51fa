(** Rounding error of the evaluation of Fourier series: the complex branch. *)
From Coq Require Import Reals List Arith Lia Lra Bool ZArith.
From Coquelicot Require Import Coquelicot.
From Verif Require Import Base ToolsProofs TrigSpec TrigBase TrigModel TrigTrans TrigEval TrigObj FlModel FlProofs FlSum FlMap FlTrigModel FlTrig FlTrig2.
Import ListNotations.
Open Scope R_scope.
Local Opaque uro eta.

(** the factor in front, and the cosine of an even length *)
Lemma factor_near L d x k N : libm_within L d -> INR k + 1 <= N -> 0 <= d ->
  let s := (- fmul (fmul fpi (INR k)) x)%R in
  Cmod ((lecos L s, lesin L s) - cis (- (PI * INR k * x)))%C <= 40 * (N * unit_err d x).
Proof.
  intros H HN D0. cbv zeta. set (t := fmul (fmul fpi (INR k)) x). assert (Dt : is_double (- t)) by apply dbl_opp, fl_is_dbl.
  destruct (H (- t) Dt) as (_ & _ & H3 & H4). pose proof (arg2_err k x) as A. fold t in A. destruct uro_small as [U0 U1]. pose proof eta_uro as EU. pose proof (Rabs_pos x) as X. pose proof (pos_INR k) as K.
  assert (A' : Rabs (- t - - (PI * INR k * x)) <= 18 * uro * (INR k * Rabs x) + (Rabs x + 1) * (2 * eta)) by (replace (- t - - (PI * INR k * x)) with (- (t - PI * INR k * x)) by ring; rewrite Rabs_Ropp; exact A).
  eapply Rle_trans; [exact (cis_near _ _ (- t) _ d _ H3 H4 A')|]. unfold unit_err. assert (UX : 0 <= uro * Rabs x) by (apply Rmult_le_pos; lra).
  assert (B1 : (Rabs x + 1) * (2 * eta) <= (Rabs x + 1) * (uro * / 4)) by (apply Rmult_le_compat_l; lra).
  assert (B2 : INR k * (uro * Rabs x) <= N * (uro * Rabs x)) by (apply Rmult_le_compat_r; lra). assert (B3 : 1 * (uro * (1 + Rabs x) + d) <= N * (uro * (1 + Rabs x) + d)) by (apply Rmult_le_compat_r; lra).
  assert (B4 : 0 <= N * uro) by (apply Rmult_le_pos; lra). assert (B5 : 0 <= N * d) by (apply Rmult_le_pos; lra). lra.
Qed.
Lemma cos_near L d x k N : libm_within L d -> INR k <= N -> 1 <= N -> 0 <= d ->
  Rabs (lcos L (fmul (fmul (INR k) fpi) x) - cos (INR k * PI * x)) <= 20 * (N * unit_err d x).
Proof.
  intros H HN N1 D0. replace (fmul (INR k) fpi) with (fmul fpi (INR k)) by (unfold fmul; f_equal; ring). set (t := fmul (fmul fpi (INR k)) x).
  destruct (H t (fl_is_dbl _)) as (H1 & _). pose proof (arg2_err k x) as A. fold t in A. replace (INR k * PI * x) with (PI * INR k * x) by ring. pose proof (cos_lip t (PI * INR k * x)) as CL.
  destruct uro_small as [U0 U1]. pose proof eta_uro as EU. pose proof (Rabs_pos x) as X. pose proof (pos_INR k) as K.
  replace (lcos L t - cos (PI * INR k * x)) with ((lcos L t - cos t) + (cos t - cos (PI * INR k * x))) by ring. eapply Rle_trans; [apply Rabs_triang|]. unfold unit_err. assert (UX : 0 <= uro * Rabs x) by (apply Rmult_le_pos; lra).
  assert (B1 : (Rabs x + 1) * (2 * eta) <= (Rabs x + 1) * (uro * / 4)) by (apply Rmult_le_compat_l; lra).
  assert (B2 : INR k * (uro * Rabs x) <= N * (uro * Rabs x)) by (apply Rmult_le_compat_r; lra). assert (B3 : 1 * (uro * (1 + Rabs x) + d) <= N * (uro * (1 + Rabs x) + d)) by (apply Rmult_le_compat_r; lra).
  assert (B4 : 0 <= N * uro) by (apply Rmult_le_pos; lra). assert (B5 : 0 <= N * d) by (apply Rmult_le_pos; lra). lra.
Qed.
(** multiplying by the factor *)
Lemma factor_mul z p e r w w0 : Cmod e = 1 -> Cmod (p - e)%C <= r -> r <= 1 ->
  Cmod (fcmul z p w - e * w0)%C <= (12 * uro + r) * Cmod w + Cmod (w - w0)%C + 8 * eta.
Proof.
  intros He Hr R1. destruct uro_small as [U0 U1]. pose proof (fcmul_err z p w) as F. pose proof (near_mod _ _ _ He Hr) as M. pose proof (Cmod_ge_0 w) as W0. pose proof (Cmod_ge_0 (p - e)%C) as R0.
  replace (fcmul z p w - e * w0)%C with ((fcmul z p w - p * w) + ((p - e) * w + e * (w - w0)))%C by ring. eapply Rle_trans; [apply Cmod_triangle|]. eapply Rle_trans; [apply Rplus_le_compat_l, Cmod_triangle|]. rewrite !Cmod_mult, He.
  assert (A1 : Cmod p * Cmod w <= 2 * Cmod w) by (apply Rmult_le_compat_r; lra). assert (A2 : Cmod (p - e)%C * Cmod w <= r * Cmod w) by (apply Rmult_le_compat_r; lra).
  assert (A3 : 6 * uro * (Cmod p * Cmod w) <= 6 * uro * (2 * Cmod w)) by (apply Rmult_le_compat_l; lra). lra.
Qed.
(** the unpaired mode *)
Lemma mode_mul k co (c : C) r : Rabs (k - co) <= r -> Rabs co <= 1 -> r <= 1 ->
  Cmod ((fmul k (fst c), fmul k (snd c)) - RtoC co * c)%C <= (4 * uro + r) * Cmod c + 2 * eta.
Proof.
  intros H Hc R1. destruct uro_small as [U0 U1]. pose proof eta_pos as E0. pose proof (Cmod_ge_0 c) as C0'. pose proof (Rabs_pos (k - co)) as R0.
  assert (K : Rabs k <= 2) by (replace k with (co + (k - co)) by ring; eapply Rle_trans; [apply Rabs_triang|]; lra).
  replace ((fmul k (fst c), fmul k (snd c)) - RtoC co * c)%C with ((((fmul k (fst c) - k * fst c)%R, (fmul k (snd c) - k * snd c)%R) : C) + RtoC (k - co)%R * c)%C by (destruct c; apply injective_projections; cbn [fst snd Cmult Cplus Cminus Copp RtoC]; ring).
  eapply Rle_trans; [apply Cmod_triangle|]. rewrite Cmod_mult, Cmod_R. assert (A : Rabs (k - co) * Cmod c <= r * Cmod c) by (apply Rmult_le_compat_r; lra).
  pose proof (mod_sum (fmul k (fst c) - k * fst c, fmul k (snd c) - k * snd c)) as M. cbn [fst snd] in M. pose proof (fl_err (k * fst c)) as F1. pose proof (fl_err (k * snd c)) as F2. fold (fmul k (fst c)) in F1. fold (fmul k (snd c)) in F2. rewrite Rabs_mult in F1, F2.
  pose proof (re_mod c). pose proof (im_mod c). pose proof (Rabs_pos (fst c)). pose proof (Rabs_pos (snd c)).
  assert (B1 : Rabs k * Rabs (fst c) <= 2 * Cmod c) by (apply Rmult_le_compat; try lra; apply Rabs_pos). assert (B2 : Rabs k * Rabs (snd c) <= 2 * Cmod c) by (apply Rmult_le_compat; try lra; apply Rabs_pos).
  assert (D1 : uro * (Rabs k * Rabs (fst c)) <= uro * (2 * Cmod c)) by (apply Rmult_le_compat_l; lra). assert (D2 : uro * (Rabs k * Rabs (snd c)) <= uro * (2 * Cmod c)) by (apply Rmult_le_compat_l; lra). lra.
Qed.
(** arithmetic of the two cases *)
Lemma odd_sum (u h E N S D W err : R) : 0 < u <= / 8 -> 0 < h -> u <= E -> 2 <= N -> 0 <= S -> 128 * N * E <= 1 -> 0 <= D ->
  D <= 2 * N * ((24 * u + 21 * E) * S + 16 * h) -> W <= S + D ->
  err <= (12 * u + 40 * (N * E)) * W + D + 8 * h -> err <= 200 * N * E * S + 200 * N * h.
Proof.
  intros [U0 U1] H0 UE N1 S0 Hs D0 HD HW HE. assert (E0 : 0 < E) by lra. assert (NE : 0 <= N * E) by (apply Rmult_le_pos; lra). assert (NS : 0 <= N * S) by (apply Rmult_le_pos; lra). assert (NH : 0 <= N * h) by (apply Rmult_le_pos; lra).
  assert (Q1 : (24 * u + 21 * E) * (N * S) <= 45 * E * (N * S)) by (apply Rmult_le_compat_r; lra).
  assert (Q2 : 128 * N * E * S <= 1 * S) by (apply Rmult_le_compat_r; lra). assert (HW2 : W <= 2 * S + 32 * N * h) by lra.
  assert (Q3 : (12 * u + 40 * (N * E)) * W <= (12 * u + 40 * (N * E)) * (2 * S + 32 * N * h)) by (apply Rmult_le_compat_l; lra).
  assert (Q4 : (12 * u + 40 * (N * E)) * (N * h) <= 2 * (N * h)) by (apply Rmult_le_compat_r; lra).
  assert (ES : 0 <= E * S) by (apply Rmult_le_pos; lra). assert (Q5 : u * S <= E * S) by (apply Rmult_le_compat_r; lra). assert (Q6 : 2 * (E * S) <= N * (E * S)) by (apply Rmult_le_compat_r; lra).
  assert (Q7 : 2 * h <= N * h) by (apply Rmult_le_compat_r; lra). lra.
Qed.
Lemma even_sum (u h E N S A z0 D W P Q P0 Q0 err : R) : 0 < u <= / 8 -> 0 < h -> u <= E -> 2 <= N -> 0 <= A -> 0 <= z0 -> A + z0 <= S -> 128 * N * E <= 1 -> 0 <= D ->
  D <= 2 * N * ((24 * u + 21 * E) * A + 16 * h) -> W <= A + D ->
  P <= (12 * u + 40 * (N * E)) * W + D + 8 * h -> Q <= (4 * u + 20 * (N * E)) * z0 + 2 * h -> P0 <= A -> Q0 <= z0 -> 0 <= P0 -> 0 <= Q0 -> 0 <= P -> 0 <= Q ->
  err <= 2 * u * (P0 + P + (Q0 + Q)) + 2 * h + P + Q -> err <= 200 * N * E * S + 200 * N * h.
Proof.
  intros [U0 U1] H0 UE N1 A0 Z0 AS Hs D0 HD HW HP HQ HP0 HQ0 PP0 PQ0 PP PQ HE. assert (E0 : 0 < E) by lra. assert (NE : 0 <= N * E) by (apply Rmult_le_pos; lra). assert (NA : 0 <= N * A) by (apply Rmult_le_pos; lra). assert (NH : 0 <= N * h) by (apply Rmult_le_pos; lra).
  assert (Q1 : (24 * u + 21 * E) * (N * A) <= 45 * E * (N * A)) by (apply Rmult_le_compat_r; lra).
  assert (Q2 : 128 * N * E * A <= 1 * A) by (apply Rmult_le_compat_r; lra). assert (HW2 : W <= 2 * A + 32 * N * h) by lra.
  assert (Q3 : (12 * u + 40 * (N * E)) * W <= (12 * u + 40 * (N * E)) * (2 * A + 32 * N * h)) by (apply Rmult_le_compat_l; lra).
  assert (U64 : u <= / 256) by (assert (2 * E <= N * E) by (apply Rmult_le_compat_r; lra); lra).
  assert (Q4 : (12 * u + 40 * (N * E)) * (N * h) <= / 2 * (N * h)) by (apply Rmult_le_compat_r; lra).
  assert (EA : 0 <= E * A) by (apply Rmult_le_pos; lra). assert (Q5 : u * A <= E * A) by (apply Rmult_le_compat_r; lra). assert (Q6 : 2 * (E * A) <= N * (E * A)) by (apply Rmult_le_compat_r; lra).
  assert (EZ : 0 <= E * z0) by (apply Rmult_le_pos; lra). assert (Q5z : u * z0 <= E * z0) by (apply Rmult_le_compat_r; lra). assert (Q6z : 2 * (E * z0) <= N * (E * z0)) by (apply Rmult_le_compat_r; lra).
  assert (Q7 : 2 * h <= N * h) by (apply Rmult_le_compat_r; lra).
  assert (P1 : P <= 182 * (N * (E * A)) + 52 * (N * h)) by lra. assert (P2 : Q <= 22 * (N * (E * z0)) + N * h) by lra.
  assert (R1 : u * P0 <= u * A) by (apply Rmult_le_compat_l; lra). assert (R2 : u * Q0 <= u * z0) by (apply Rmult_le_compat_l; lra).
  assert (R3 : u * P <= / 256 * P) by (apply Rmult_le_compat_r; lra). assert (R4 : u * Q <= / 256 * Q) by (apply Rmult_le_compat_r; lra).
  assert (Q12 : N * E * (A + z0) <= N * E * S) by (apply Rmult_le_compat_l; lra). lra.
Qed.
Lemma fhorner_cmplx_err L z d c x : libm_within L d -> (1 <= length c)%nat -> 128 * INR (length c) * unit_err d x <= 1 ->
  Cmod (fhorner_cmplx L z c x - horner_cmplx c x)%C <= 200 * INR (length c) * unit_err d x * asum c + 200 * INR (length c) * eta.
Proof.
  intros HL Hn Hs. destruct (unit_near L d x HL) as (_ & Z1 & D0). destruct uro_small as [U0 U1]. pose proof eta_pos as E0. pose proof (Rabs_pos x) as X. pose proof (asum_pos c) as S0.
  assert (UX : 0 <= uro * Rabs x) by (apply Rmult_le_pos; lra). set (E := unit_err d x) in *. assert (UE : uro <= E) by (unfold E, unit_err; lra).
  unfold fhorner_cmplx, horner_cmplx. set (n := length c) in *. destruct (Nat.eqb_spec n 1) as [E1|E1].
  { replace (nth 0 c C0 - nth 0 c C0)%C with (RtoC 0) by ring. rewrite Cmod_0, E1. assert (0 <= 200 * INR 1 * E * asum c) by (apply Rmult_le_pos; [cbn [INR]; lra|exact S0]). cbn [INR] in *. lra. }
  assert (N2 : 2 <= INR n) by (replace 2 with (INR 2) by reflexivity; apply le_INR; lia).
  set (e := cis (PI * x)) in *. assert (He : Cmod e = 1) by apply cis_mod. set (p := (lecos L (fmul fpi x), lesin L (fmul fpi x)) : C) in *.
  assert (NE0 : 0 <= INR n * E) by (apply Rmult_le_pos; lra). assert (R1 : 21 * E <= 1). { assert (1 * E <= INR n * E) by (apply Rmult_le_compat_r; lra). lra. }
  set (f := fun j => nth j c C0). set (g := fun j q => fcadd (f j) (fcmul (z j) p q)).
  assert (G : forall j q, Cmod (g j q - (f j + e * q))%C <= (24 * uro + 21 * E) * (Cmod (f j) + Cmod q) + 16 * eta) by (intros j q; exact (fcstep_near (z j) p e (21 * E) He Z1 R1 (f j) q)).
  assert (AL : 2 * INR n * (24 * uro + 21 * E) <= 1).
  { apply Rle_trans with (2 * INR n * (45 * E)); [apply Rmult_le_compat_l; lra|]. lra. }
  set (A := rsum (n - 1) (fun i => Cmod (f (S i)))). assert (A0 : 0 <= A) by (unfold A; apply rsum_nonneg; intros; apply Cmod_ge_0).
  assert (AS : A + Cmod (f 0%nat) = asum c). { unfold asum. fold n. replace n with (S (n - 1)) by lia. rewrite rsum_S_l. unfold A. replace (S (n - 1) - 1)%nat with (n - 1)%nat by lia. unfold f. lra. }
  assert (SP : A = Cmod (nth (n - 1) c C0) + lmod f (rev (seq 1 (n - 2)))).
  { unfold A. rewrite lmod_rev. replace (n - 1)%nat with (S (n - 2)) by lia. cbn [rsum]. unfold f. lra. }
  assert (EE : 0 <= 24 * uro + 21 * E) by lra. assert (BE : 0 <= 16 * eta) by lra.
  change (fold_left (fun q j => fcadd (nth j c C0) (fcmul (z j) p q)) (rev (seq 1 (n - 2))) (nth (n - 1) c C0)) with (fold_left (fun q j => g j q) (rev (seq 1 (n - 2))) (nth (n - 1) c C0)).
  change (fold_left (fun q j => (nth j c C0 + e * q)%C) (rev (seq 1 (n - 2))) (nth (n - 1) c C0)) with (fold_left (fun q j => (f j + e * q)%C) (rev (seq 1 (n - 2))) (nth (n - 1) c C0)).
  assert (ST : forall B, 0 <= B -> Cmod (nth (n - 1) c C0 - nth (n - 1) c C0)%C <= 2 * INR 0 * ((24 * uro + 21 * E) * B + 16 * eta)).
  { intros B _. replace (nth (n - 1) c C0 - nth (n - 1) c C0)%C with (RtoC 0) by ring. rewrite Cmod_0. cbn [INR]. lra. }
  destruct (Nat.odd n) eqn:Eo.
  - (* one more step of the loop *)
    change (fcadd (nth 0 c C0) (fcmul (z 0%nat) p (fold_left (fun q j => g j q) (rev (seq 1 (n - 2))) (nth (n - 1) c C0)))) with (g 0%nat (fold_left (fun q j => g j q) (rev (seq 1 (n - 2))) (nth (n - 1) c C0))).
    change (nth 0 c C0 + e * fold_left (fun q j => (f j + e * q)%C) (rev (seq 1 (n - 2))) (nth (n - 1) c C0))%C with ((fun q j => (f j + e * q)%C) (fold_left (fun q j => (f j + e * q)%C) (rev (seq 1 (n - 2))) (nth (n - 1) c C0)) 0%nat).
    assert (FA : forall (h : C -> nat -> C) l q, h (fold_left h l q) 0%nat = fold_left h (l ++ [0%nat]) q) by (intros; rewrite fold_left_app; reflexivity).
    rewrite FA. change (g 0%nat (fold_left (fun q j => g j q) (rev (seq 1 (n - 2))) (nth (n - 1) c C0))) with ((fun q j => g j q) (fold_left (fun q j => g j q) (rev (seq 1 (n - 2))) (nth (n - 1) c C0)) 0%nat). rewrite FA.
    pose proof (loop_err f g e (24 * uro + 21 * E) (16 * eta) He EE BE G (asum c) n AL (rev (seq 1 (n - 2)) ++ [0%nat]) 0%nat (nth (n - 1) c C0) (nth (n - 1) c C0)) as LE.
    rewrite app_length, rev_length, seq_length in LE. cbn [length] in LE.
    assert (LM : forall l, lmod f (l ++ [0%nat]) = lmod f l + Cmod (f 0%nat)) by (induction l as [|i l IH]; cbn [lmod app]; [lra|rewrite IH; lra]).
    specialize (LE ltac:(lia) ltac:(rewrite LM; lra) (ST _ S0)). destruct LE as [LE1 LE2].
    set (w := fold_left (fun q j => g j q) _ _) in *. set (w0 := fold_left (fun q j => (f j + e * q)%C) _ _) in *.
    assert (KN : INR ((n - 1) / 2) + 1 <= INR n). { rewrite <- S_INR. apply le_INR. assert (D := Nat.div_le_upper_bound (n - 1) 2 (n - 1) ltac:(lia) ltac:(lia)). lia. }
    pose proof (factor_near L d x ((n - 1) / 2) (INR n) HL KN D0) as FN. cbv zeta in FN. fold E in FN.
    pose proof (factor_mul (z n) _ _ (40 * (INR n * E)) w w0 (cis_mod _) FN ltac:(lra)) as FM.
    assert (DN : Cmod (w - w0)%C <= 2 * INR n * ((24 * uro + 21 * E) * asum c + 16 * eta)).
    { eapply Rle_trans; [exact LE1|]. apply Rmult_le_compat_r; [assert (0 <= (24 * uro + 21 * E) * asum c) by (apply Rmult_le_pos; lra); lra|]. apply Rmult_le_compat_l; [lra|]. apply le_INR. lia. }
    apply (odd_sum uro eta E (INR n) (asum c) (Cmod (w - w0)%C) (Cmod w)); try lra; try apply Cmod_ge_0.
    replace w with (w0 + (w - w0))%C by ring. eapply Rle_trans; [apply Cmod_triangle|]. replace (w0 + (w - w0) - w0)%C with (w - w0)%C by ring. lra.
  - pose proof (loop_err f g e (24 * uro + 21 * E) (16 * eta) He EE BE G A n AL (rev (seq 1 (n - 2))) 0%nat (nth (n - 1) c C0) (nth (n - 1) c C0)) as LE.
    rewrite rev_length, seq_length in LE. specialize (LE ltac:(lia) ltac:(lra) (ST _ A0)). destruct LE as [LE1 LE2].
    set (w := fold_left (fun q j => g j q) _ _) in *. set (w0 := fold_left (fun q j => (f j + e * q)%C) _ _) in *.
    assert (HH : (n / 2 <= n - 1)%nat). { apply Nat.div_le_upper_bound; lia. }
    assert (KN : INR (n / 2 - 1) + 1 <= INR n) by (rewrite <- S_INR; apply le_INR; lia). assert (KN2 : INR (n / 2) <= INR n) by (apply le_INR; lia).
    pose proof (factor_near L d x (n / 2 - 1) (INR n) HL KN D0) as FN. cbv zeta in FN. fold E in FN.
    pose proof (factor_mul (z n) _ _ (40 * (INR n * E)) w w0 (cis_mod _) FN ltac:(lra)) as FM.
    pose proof (cos_near L d x (n / 2) (INR n) HL KN2 ltac:(lra) D0) as CN. fold E in CN.
    assert (CB : Rabs (cos (INR (n / 2) * PI * x)) <= 1) by (pose proof (COS_bound (INR (n / 2) * PI * x)); apply Rabs_le; lra).
    pose proof (mode_mul _ _ (f 0%nat) (20 * (INR n * E)) CN CB ltac:(lra)) as MM.
    assert (DN : Cmod (w - w0)%C <= 2 * INR n * ((24 * uro + 21 * E) * A + 16 * eta)).
    { eapply Rle_trans; [exact LE1|]. apply Rmult_le_compat_r; [assert (0 <= (24 * uro + 21 * E) * A) by (apply Rmult_le_pos; lra); lra|]. apply Rmult_le_compat_l; [lra|]. apply le_INR. lia. }
    set (a := fcmul (z n) _ w) in *. set (a0 := (cis (- (PI * INR (n / 2 - 1) * x)) * w0)%C) in *. unfold f in MM at 1 2. set (b := (fmul _ (fst (nth 0 c C0)), fmul _ (snd (nth 0 c C0))) : C) in *.
    change (RtoC (cos (INR (n / 2) * PI * x)) * nth 0 c C0)%C with (RtoC (cos (INR (n / 2) * PI * x)) * f 0%nat)%C. set (b0 := (RtoC (cos (INR (n / 2) * PI * x)) * f 0%nat)%C) in *.
    pose proof (fcadd_err a b) as FA.
    assert (P0 : Cmod a0 <= A) by (unfold a0; rewrite Cmod_mult, cis_mod; lra).
    assert (Q0 : Cmod b0 <= Cmod (f 0%nat)). { unfold b0. rewrite Cmod_mult, Cmod_R. rewrite <- (Rmult_1_l (Cmod (f 0%nat))) at 2. apply Rmult_le_compat_r; [apply Cmod_ge_0|exact CB]. }
    assert (TA : Cmod a <= Cmod a0 + Cmod (a - a0)%C). { replace a with (a0 + (a - a0))%C at 1 by ring. apply Cmod_triangle. }
    assert (TB : Cmod b <= Cmod b0 + Cmod (b - b0)%C). { replace b with (b0 + (b - b0))%C at 1 by ring. apply Cmod_triangle. }
    apply (even_sum uro eta E (INR n) (asum c) A (Cmod (f 0%nat)) (Cmod (w - w0)%C) (Cmod w) (Cmod (a - a0)%C) (Cmod (b - b0)%C) (Cmod a0) (Cmod b0)); try lra; try apply Cmod_ge_0; try assumption.
    + replace w with (w0 + (w - w0))%C by ring. eapply Rle_trans; [apply Cmod_triangle|]. replace (w0 + (w - w0) - w0)%C with (w - w0)%C by ring. lra.
    + replace (fcadd a b - (a0 + b0))%C with ((fcadd a b - (a + b)) + ((a - a0) + (b - b0)))%C by ring. eapply Rle_trans; [apply Cmod_triangle|]. pose proof (Cmod_triangle (a - a0)%C (b - b0)%C).
      assert (2 * uro * (Cmod a + Cmod b) <= 2 * uro * (Cmod a0 + Cmod (a - a0)%C + (Cmod b0 + Cmod (b - b0)%C))) by (apply Rmult_le_compat_l; lra). lra.
Qed.
