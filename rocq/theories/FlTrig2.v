(** Rounding error of the evaluation of Fourier series: the two branches. *)
From Coq Require Import Reals List Arith Lia Lra Bool ZArith.
From Coquelicot Require Import Coquelicot.
From Verif Require Import Base ToolsProofs TrigSpec TrigBase TrigModel TrigTrans TrigEval TrigObj FlModel FlProofs FlSum FlMap FlTrigModel FlTrig.
Import ListNotations.
Open Scope R_scope.
Local Opaque uro eta.

Lemma real_step a p q r s : Rabs (fl (fl (a + fl (p * q)) + fl (r * s)) - (a + p * q + r * s)) <= 6 * uro * (Rabs a + (Rabs (p * q) + Rabs (r * s))) + 6 * eta.
Proof.
  destruct uro_small as [U0 U1]. pose proof eta_pos as E0. pose proof (step_err false a p q (- fl (r * s))) as H. unfold fstep, fsub, fadd, fmul in H.
  replace (fl (a + fl (p * q)) - - fl (r * s)) with (fl (a + fl (p * q)) + fl (r * s)) in H by ring. rewrite Rabs_Ropp in H. pose proof (fl_err (r * s)) as F.
  set (t := fl (r * s)) in *. assert (T : Rabs t <= Rabs (r * s) + (uro * Rabs (r * s) + eta)). { replace t with (r * s + (t - r * s)) by ring. eapply Rle_trans; [apply Rabs_triang|]. lra. }
  replace (fl (fl (a + fl (p * q)) + t) - (a + p * q + r * s)) with ((fl (fl (a + fl (p * q)) + t) - (a + p * q - - t)) + (t - r * s)) by ring. eapply Rle_trans; [apply Rabs_triang|].
  pose proof (Rabs_pos a). pose proof (Rabs_pos (p * q)). pose proof (Rabs_pos (r * s)). set (Y := Rabs (r * s)) in *. set (X := Rabs (p * q)) in *. set (Z := Rabs a) in *. clearbody X Y Z.
  assert (M : uro * Rabs t <= uro * (Y + (uro * Y + eta))) by (apply Rmult_le_compat_l; lra). assert (UY : 0 <= uro * Y) by (apply Rmult_le_pos; lra). assert (UX : 0 <= uro * X) by (apply Rmult_le_pos; lra). assert (UZ : 0 <= uro * Z) by (apply Rmult_le_pos; lra).
  assert (M2 : uro * (uro * Y) <= / 8 * (uro * Y)) by (apply Rmult_le_compat_r; lra). assert (M3 : uro * eta <= / 8 * eta) by (apply Rmult_le_compat_r; lra). lra.
Qed.
Lemma frstep_err u v d w : Cmod (frstep u v d w - (d + ((u, (- v)%R) : C) * w))%C <= 12 * uro * (Cmod d + Cmod ((u, (- v)%R) : C) * Cmod w) + 12 * eta.
Proof.
  destruct uro_small as [U0 U1]. eapply Rle_trans; [apply mod_sum|]. destruct d as [a b], w as [co si]. cbn [frstep fst snd Cmult Cminus Cplus Copp]. unfold fadd, fsub, fmul.
  pose proof (real_step a u co v si) as F1. pose proof (real_step b u si (- v) co) as F2.
  pose proof (cs u (- v) co si) as C1. pose proof (cs u (- v) si co) as C2. assert (E : Cmod (si, co) = Cmod (co, si)) by (unfold Cmod; cbn [fst snd]; f_equal; ring). rewrite E in C2.
  replace (- v * si) with (- (v * si)) in C1 by ring. replace (- v * co) with (- (v * co)) in C2, F2 by ring. rewrite fl_opp in F2. rewrite Rabs_Ropp in C1, C2, F2.
  pose proof (re_mod (a, b)) as R1. pose proof (im_mod (a, b)) as R2. cbn [fst snd] in R1, R2.
  assert (M1 : 6 * uro * (Rabs a + (Rabs (u * co) + Rabs (v * si))) <= 6 * uro * (Cmod (a, b) + Cmod ((u, (- v)%R) : C) * Cmod (co, si))) by (apply Rmult_le_compat_l; lra).
  assert (M2 : 6 * uro * (Rabs b + (Rabs (u * si) + Rabs (v * co))) <= 6 * uro * (Cmod (a, b) + Cmod ((u, (- v)%R) : C) * Cmod (co, si))) by (apply Rmult_le_compat_l; lra).
  replace (fl (fl (a + fl (u * co)) + fl (v * si)) + - (a + (u * co - - v * si))) with (fl (fl (a + fl (u * co)) + fl (v * si)) - (a + u * co + v * si)) by ring.
  replace (fl (fl (b + fl (u * si)) - fl (v * co)) + - (b + (u * si + - v * co))) with (fl (fl (b + fl (u * si)) + - fl (v * co)) - (b + u * si + - (v * co))) by (unfold Rminus; ring). lra.
Qed.
Lemma near_mod (p e : C) r : Cmod e = 1 -> Cmod (p - e)%C <= r -> Cmod p <= 1 + r.
Proof. intros H1 H2. replace p with (e + (p - e))%C by ring. eapply Rle_trans; [apply Cmod_triangle|]. lra. Qed.
Lemma frstep_near u v e r : Cmod e = 1 -> Cmod (((u, (- v)%R) : C) - e)%C <= r -> r <= 1 -> forall d w,
  Cmod (frstep u v d w - (d + e * w))%C <= (24 * uro + r) * (Cmod d + Cmod w) + 16 * eta.
Proof.
  intros He Hr R1 d w. destruct uro_small as [U0 U1]. pose proof eta_pos as E0. pose proof (frstep_err u v d w) as F. pose proof (near_mod _ _ _ He Hr) as M. pose proof (Cmod_ge_0 w) as W0. pose proof (Cmod_ge_0 d) as D0. pose proof (Cmod_ge_0 (((u, (- v)%R) : C) - e)%C) as R0.
  replace (frstep u v d w - (d + e * w))%C with ((frstep u v d w - (d + ((u, (- v)%R) : C) * w)) + (((u, (- v)%R) : C) - e) * w)%C by ring. eapply Rle_trans; [apply Cmod_triangle|]. rewrite Cmod_mult.
  assert (A1 : Cmod ((u, (- v)%R) : C) * Cmod w <= 2 * Cmod w) by (apply Rmult_le_compat_r; lra). assert (A2 : Cmod (((u, (- v)%R) : C) - e)%C * Cmod w <= r * Cmod w) by (apply Rmult_le_compat_r; lra).
  assert (A3 : 12 * uro * (Cmod d + Cmod ((u, (- v)%R) : C) * Cmod w) <= 12 * uro * (Cmod d + 2 * Cmod w)) by (apply Rmult_le_compat_l; lra).
  assert (A4 : 0 <= r * Cmod d) by (apply Rmult_le_pos; lra). assert (A5 : 0 <= uro * Cmod d) by (apply Rmult_le_pos; lra). lra.
Qed.
Lemma fcstep_near z p e r : Cmod e = 1 -> Cmod (p - e)%C <= r -> r <= 1 -> forall d w,
  Cmod (fcadd d (fcmul z p w) - (d + e * w))%C <= (24 * uro + r) * (Cmod d + Cmod w) + 16 * eta.
Proof.
  intros He Hr R1 d w. destruct uro_small as [U0 U1]. pose proof eta_pos as E0. pose proof (fcmul_err z p w) as F. set (s := fcmul z p w) in *. pose proof (fcadd_err d s) as G.
  pose proof (near_mod _ _ _ He Hr) as M. pose proof (Cmod_ge_0 w) as W0. pose proof (Cmod_ge_0 d) as D0. pose proof (Cmod_ge_0 (p - e)%C) as R0.
  replace (fcadd d s - (d + e * w))%C with ((fcadd d s - (d + s)) + (s - p * w) + (p - e) * w)%C by ring. eapply Rle_trans; [apply Cmod_triangle|]. eapply Rle_trans; [apply Rplus_le_compat_r, Cmod_triangle|]. rewrite Cmod_mult.
  assert (A1 : Cmod p * Cmod w <= 2 * Cmod w) by (apply Rmult_le_compat_r; lra). assert (A2 : Cmod (p - e)%C * Cmod w <= r * Cmod w) by (apply Rmult_le_compat_r; lra).
  assert (A3 : 6 * uro * (Cmod p * Cmod w) <= 6 * uro * (2 * Cmod w)) by (apply Rmult_le_compat_l; lra).
  assert (S1 : Cmod s <= Cmod p * Cmod w + Cmod (s - p * w)%C). { replace s with (p * w + (s - p * w))%C at 1 by ring. eapply Rle_trans; [apply Cmod_triangle|]. rewrite Cmod_mult. lra. }
  assert (UW : 0 <= uro * Cmod w) by (apply Rmult_le_pos; lra). assert (UW8 : uro * Cmod w <= / 8 * Cmod w) by (apply Rmult_le_compat_r; lra).
  assert (S2 : Cmod s <= 4 * Cmod w + 8 * eta) by lra.
  assert (A4 : 2 * uro * (Cmod d + Cmod s) <= 2 * uro * (Cmod d + (4 * Cmod w + 8 * eta))) by (apply Rmult_le_compat_l; lra). assert (A6 : uro * eta <= / 8 * eta) by (apply Rmult_le_compat_r; lra).
  assert (A5 : 0 <= r * Cmod d) by (apply Rmult_le_pos; lra). assert (A7 : 0 <= uro * Cmod d) by (apply Rmult_le_pos; lra). lra.
Qed.
(** the last line of the real branch *)
Lemma real_last a0 u v e r w w0 : Cmod e = 1 -> Cmod (((u, (- v)%R) : C) - e)%C <= r -> r <= 1 ->
  Rabs (fadd a0 (fmul 2 (fadd (fmul u (fst w)) (fmul v (snd w)))) - (a0 + 2 * Re (e * w0)%C)) <=
  15 * uro * Rabs a0 + (30 * uro + 2 * r) * Cmod w + 2 * Cmod (w - w0)%C + 14 * eta.
Proof.
  intros He Hr R1. destruct uro_small as [U0 U1]. pose proof eta_pos as E0. pose proof (near_mod _ _ _ He Hr) as M. pose proof (Cmod_ge_0 w) as W0. pose proof (Cmod_ge_0 (((u, (- v)%R) : C) - e)%C) as R0.
  pose proof (ftwo_err Fno (u * fst w) (v * snd w)) as F1. cbn [ftwo] in F1. unfold fadd, fmul. set (y := fl (fl (u * fst w) + fl (v * snd w))) in *.
  pose proof (cs u (- v) (fst w) (snd w)) as C1. replace (- v * snd w) with (- (v * snd w)) in C1 by ring. rewrite Rabs_Ropp in C1. rewrite <- surjective_pairing in C1.
  assert (P1 : Cmod ((u, (- v)%R) : C) * Cmod w <= 2 * Cmod w) by (apply Rmult_le_compat_r; lra).
  pose proof (fl_err (2 * y)) as F2. set (g := fl (2 * y)) in *. pose proof (fl_err (a0 + g)) as F3. set (o := fl (a0 + g)) in *.
  assert (EX : u * fst w + v * snd w = Re (((u, (- v)%R) : C) * w)%C) by (destruct w; unfold Re; cbn [fst snd Cmult]; ring).
  assert (B : Rabs (Re (((u, (- v)%R) : C) * w)%C - Re (e * w0)%C) <= r * Cmod w + Cmod (w - w0)%C).
  { replace (Re (((u, (- v)%R) : C) * w)%C - Re (e * w0)%C) with (fst ((((u, (- v)%R) : C) - e) * w + e * (w - w0))%C) by (unfold Re; destruct e, w, w0; cbn [fst snd Cmult Cplus Cminus Copp]; ring).
    eapply Rle_trans; [apply re_mod|]. eapply Rle_trans; [apply Cmod_triangle|]. rewrite !Cmod_mult, He. assert (Cmod (((u, (- v)%R) : C) - e)%C * Cmod w <= r * Cmod w) by (apply Rmult_le_compat_r; lra). lra. }
  set (W := Cmod w) in *. set (V := Cmod (w - w0)%C) in *. set (K := Rabs (u * fst w) + Rabs (v * snd w)) in *.
  set (x := u * fst w + v * snd w) in *. assert (XK : Rabs x <= K) by (unfold x, K; apply Rabs_triang).
  assert (K0 : 0 <= K) by (unfold K; pose proof (Rabs_pos (u * fst w)); pose proof (Rabs_pos (v * snd w)); lra). assert (KW : K <= 2 * W) by lra.
  assert (UK : uro * K <= uro * (2 * W)) by (apply Rmult_le_compat_l; lra). assert (UW : 0 <= uro * W) by (apply Rmult_le_pos; lra). assert (UW8 : uro * W <= / 8 * W) by (apply Rmult_le_compat_r; lra).
  assert (Y1 : Rabs y <= 11 / 4 * W + 4 * eta). { replace y with (x + (y - x)) by ring. eapply Rle_trans; [apply Rabs_triang|]. lra. }
  rewrite Rabs_mult, (Rabs_right 2) in F2 by lra.
  assert (UY : uro * Rabs y <= uro * (11 / 4 * W + 4 * eta)) by (apply Rmult_le_compat_l; lra). assert (UE : uro * eta <= / 8 * eta) by (apply Rmult_le_compat_r; lra).
  assert (G1 : Rabs g <= 13 / 2 * W + 10 * eta). { replace g with (2 * y + (g - 2 * y)) by ring. eapply Rle_trans; [apply Rabs_triang|]. rewrite Rabs_mult, (Rabs_right 2) by lra. lra. }
  assert (T := Rabs_triang a0 g). assert (UG : uro * Rabs (a0 + g) <= uro * (Rabs a0 + (13 / 2 * W + 10 * eta))) by (apply Rmult_le_compat_l; lra).
  assert (UA : 0 <= uro * Rabs a0) by (apply Rmult_le_pos; [lra|apply Rabs_pos]).
  replace (o - (a0 + 2 * Re (e * w0)%C)) with ((o - (a0 + g)) + (g - 2 * y) + (2 * (y - x) + 2 * (x - Re (e * w0)%C))) by ring.
  eapply Rle_trans; [apply Rabs_triang|]. eapply Rle_trans; [apply Rplus_le_compat_r, Rabs_triang|]. eapply Rle_trans; [apply Rplus_le_compat_l, Rabs_triang|]. rewrite !(Rabs_mult 2), (Rabs_right 2) by lra.
  rewrite EX in *. lra.
Qed.

(** ** the real branch *)
Definition asum (c : list C) : R := rsum (length c) (fun k => Cmod (nth k c C0)).
Definition unit_err (d x : R) : R := uro * (1 + Rabs x) + d.
Lemma lmod_rev f k : lmod f (rev (seq 1 k)) = rsum k (fun i => Cmod (f (S i))).
Proof.
  assert (G : forall l j, lmod f (l ++ [j]) = lmod f l + Cmod (f j)) by (induction l as [|i l IH]; intros j; cbn [lmod app]; [lra|rewrite IH; lra]).
  assert (G2 : forall l, lmod f (rev l) = lmod f l) by (induction l as [|i l IH]; [reflexivity|]; cbn [rev lmod]; rewrite G, IH; lra).
  rewrite G2. induction k as [|k IH]; [reflexivity|]. rewrite seq_S, G, IH. reflexivity.
Qed.
Lemma asum_part c m : (m <= length c)%nat -> rsum m (fun k => Cmod (nth k c C0)) <= asum c.
Proof.
  intros H. unfold asum. replace (length c) with (m + (length c - m))%nat by lia. rewrite rsum_app. assert (0 <= rsum (length c - m) (fun k => Cmod (nth (m + k) c C0))) by (apply rsum_nonneg; intros; apply Cmod_ge_0). lra.
Qed.
Lemma asum_pos c : 0 <= asum c.
Proof. apply rsum_nonneg. intros. apply Cmod_ge_0. Qed.
Lemma ftouch_length c : length (ftouch c) = length c.
Proof. destruct c as [|a t]; [reflexivity|]. unfold ftouch. destruct (Nat.even _); reflexivity. Qed.
Lemma nth_ftouch_S c k : (1 <= k)%nat -> nth k (ftouch c) C0 = nth k c C0.
Proof. intros H. destruct c as [|a t]; [reflexivity|]. unfold ftouch. destruct (Nat.even _); [|reflexivity]. destruct k; [lia|reflexivity]. Qed.
Lemma ftouch_0 c : Cmod (nth 0 (ftouch c) C0 - nth 0 (touch c) C0)%C <= uro * Cmod (nth 0 (touch c) C0) + eta.
Proof.
  destruct uro_small as [U0 U1]. pose proof eta_pos as E0. destruct c as [|a t]; [cbn [ftouch touch nth]|].
  - unfold C0. replace (RtoC 0 - RtoC 0)%C with (RtoC 0) by ring. rewrite Cmod_0. lra.
  - unfold ftouch, touch. destruct (Nat.even _); cbn [nth].
    + eapply Rle_trans; [apply mod_sum|]. cbn [fst snd Cminus Cplus Copp]. unfold fmul. pose proof (fl_err (Re a * / 2)) as F. pose proof (re_mod ((Re a / 2)%R, 0%R)) as M. cbn [fst] in M. unfold Rdiv in *.
      replace (0 + - 0) with 0 by ring. rewrite Rabs_R0. assert (uro * Rabs (Re a * / 2) <= uro * Cmod ((Re a * / 2)%R, 0%R)) by (apply Rmult_le_compat_l; lra). unfold Rminus in F. lra.
    + replace (a - a)%C with (RtoC 0) by ring. rewrite Cmod_0. assert (0 <= uro * Cmod a) by (apply Rmult_le_pos; [lra|apply Cmod_ge_0]). lra.
Qed.
Lemma touch_mod c k : Cmod (nth k (touch c) C0) <= Cmod (nth k c C0).
Proof.
  destruct k as [|k]; [|rewrite nth_touch_S by lia; lra]. destruct c as [|a t]; [apply Rle_refl|]. unfold touch. destruct (Nat.even _); cbn [nth]; [|lra].
  eapply Rle_trans; [apply mod_sum|]. cbn [fst snd]. rewrite Rabs_R0. unfold Rdiv. rewrite Rabs_mult, (Rabs_right (/ 2)) by lra. pose proof (re_mod a). unfold Re. pose proof (Rabs_pos (fst a)). lra.
Qed.
(** the errors of the computed cosines and sines *)
Lemma unit_near L d x : libm_within L d -> Cmod ((lcos L (fmul fpi x), (- lsin L (fmul fpi x))%R) - cis (- (PI * x)))%C <= 21 * unit_err d x /\
  Cmod ((lecos L (fmul fpi x), lesin L (fmul fpi x)) - cis (PI * x))%C <= 21 * unit_err d x /\ 0 <= d.
Proof.
  intros H. destruct (H (fmul fpi x) (fl_is_dbl _)) as (H1 & H2 & H3 & H4). pose proof (arg_err x) as A. destruct uro_small as [U0 U1]. pose proof eta_uro as EU. pose proof (Rabs_pos x) as X.
  pose proof (Rabs_pos (lcos L (fmul fpi x) - cos (fmul fpi x))) as D0. assert (UX : 0 <= uro * Rabs x) by (apply Rmult_le_pos; lra). unfold unit_err. set (t := fmul fpi x) in *. split; [|split; [|lra]].
  - assert (A' : Rabs (- t - - (PI * x)) <= 10 * uro * Rabs x + eta) by (replace (- t - - (PI * x)) with (- (t - PI * x)) by ring; rewrite Rabs_Ropp; exact A).
    assert (B1 : Rabs (lcos L t - cos (- t)) <= d) by (rewrite cos_neg; exact H1). assert (B2 : Rabs (- lsin L t - sin (- t)) <= d) by (rewrite sin_neg; replace (- lsin L t - - sin t) with (- (lsin L t - sin t)) by ring; rewrite Rabs_Ropp; exact H2).
    eapply Rle_trans; [exact (cis_near _ _ (- t) _ d _ B1 B2 A')|]. lra.
  - eapply Rle_trans; [exact (cis_near _ _ t _ d _ H3 H4 A)|]. lra.
Qed.
Lemma real_sum (u h r E m N S A a0 D W err : R) : 0 < u <= / 8 -> 0 < h -> u <= E -> 0 <= r <= 1 -> r <= 21 * E -> 1 <= m -> 2 * m <= N -> 0 <= A -> 0 <= a0 -> A + a0 <= S ->
  2 * m * (24 * u + r) <= 1 -> 0 <= D -> D <= 2 * m * ((24 * u + r) * A + 16 * h) -> W <= A + D ->
  err <= 15 * u * a0 + (30 * u + 2 * r) * W + 2 * D + 14 * h -> err <= 200 * N * E * S + 200 * N * h.
Proof.
  intros [U0 U1] H0 UE [R0 R1] RE M1 MN A0 Z0 AS Hm D0 HD HW HE.
  assert (Q1 : 2 * m * (24 * u + r) * A <= 1 * A) by (apply Rmult_le_compat_r; lra). assert (HW2 : W <= 2 * A + 32 * m * h) by lra.
  assert (Q2 : (30 * u + 2 * r) * W <= (30 * u + 2 * r) * (2 * A + 32 * m * h)) by (apply Rmult_le_compat_l; lra).
  assert (MH : 0 <= m * h) by (apply Rmult_le_pos; lra). assert (Q3 : (30 * u + 2 * r) * (m * h) <= 6 * (m * h)) by (apply Rmult_le_compat_r; lra).
  assert (EA : 0 <= E * A) by (apply Rmult_le_pos; lra). assert (Q4 : (60 * u + 4 * r) * A <= 144 * (E * A)) by (rewrite <- Rmult_assoc; apply Rmult_le_compat_r; lra).
  assert (Q5 : 15 * u * a0 <= 15 * E * a0) by (apply Rmult_le_compat_r; lra).
  assert (MA : 0 <= m * A) by (apply Rmult_le_pos; lra). assert (Q6 : (24 * u + r) * (m * A) <= 45 * E * (m * A)) by (apply Rmult_le_compat_r; lra).
  assert (Q7 : 2 * m * (E * A) <= N * (E * A)) by (apply Rmult_le_compat_r; lra). assert (Q8 : E * A <= m * (E * A)) by (rewrite <- (Rmult_1_l (E * A)) at 1; apply Rmult_le_compat_r; lra).
  assert (Q9 : h <= m * h) by (rewrite <- (Rmult_1_l h) at 1; apply Rmult_le_compat_r; lra). assert (Q10 : 2 * m * h <= N * h) by (apply Rmult_le_compat_r; lra).
  assert (EZ : 0 <= E * a0) by (apply Rmult_le_pos; lra). assert (Q11 : 1 * (E * a0) <= N * (E * a0)) by (apply Rmult_le_compat_r; lra).
  assert (Q12 : N * E * (A + a0) <= N * E * S) by (apply Rmult_le_compat_l; [apply Rmult_le_pos; lra|lra]). lra.
Qed.
Lemma fhorner_real_err L d c x : libm_within L d -> (1 <= length c)%nat -> 128 * INR (length c) * unit_err d x <= 1 ->
  Rabs (fhorner_real L c x - horner_real c x) <= 200 * INR (length c) * unit_err d x * asum c + 200 * INR (length c) * eta.
Proof.
  intros HL Hn Hs. destruct (unit_near L d x HL) as (Z1 & _ & D0). destruct uro_small as [U0 U1]. pose proof eta_pos as E0. pose proof (Rabs_pos x) as X. pose proof (asum_pos c) as S0.
  assert (UX : 0 <= uro * Rabs x) by (apply Rmult_le_pos; lra). set (E := unit_err d x) in *. assert (UE : uro <= E) by (unfold E, unit_err; lra).
  assert (N1 : 1 <= INR (length c)) by (change 1 with (INR 1); apply le_INR; exact Hn).
  unfold fhorner_real, horner_real. rewrite half_plus. set (N := length c) in *. set (m := (N / 2)%nat) in *.
  assert (Hm : (2 * m <= N < 2 * m + 2)%nat) by (unfold m; assert (A := Nat.div_mod N 2 ltac:(lia)); assert (B := Nat.mod_upper_bound N 2 ltac:(lia)); lia).
  set (c0 := rev (firstn (S m) (touch c))). set (c1 := rev (firstn (S m) (ftouch c))).
  assert (L0 : length (firstn (S m) (touch c)) = S m) by (rewrite firstn_length, touch_length; fold N; destruct (Nat.eqb_spec N 0); lia).
  assert (L1 : length (firstn (S m) (ftouch c)) = S m) by (rewrite firstn_length, ftouch_length; fold N; destruct (Nat.eqb_spec N 0); lia).
  assert (H0 : forall k, (k <= m)%nat -> nth k c0 C0 = nth (m - k) (touch c) C0).
  { intros k Hk. unfold c0. rewrite rev_nth by lia. rewrite L0. rewrite nth_firstn' by lia. replace (S m - S k)%nat with (m - k)%nat by lia. reflexivity. }
  assert (H1 : forall k, (k <= m)%nat -> nth k c1 C0 = nth (m - k) (ftouch c) C0).
  { intros k Hk. unfold c1. rewrite rev_nth by lia. rewrite L1. rewrite nth_firstn' by lia. replace (S m - S k)%nat with (m - k)%nat by lia. reflexivity. }
  destruct (Nat.eqb_spec N 1) as [E1|E1].
  { assert (M0 : m = 0%nat) by lia. rewrite H0, H1 by lia. rewrite M0. cbn [Nat.sub]. rewrite touch_odd by (fold N; rewrite E1; reflexivity). unfold ftouch. destruct c as [|a t]; [cbn in Hn; lia|]. fold N. rewrite E1. cbn [Nat.even nth]. rewrite Rminus_diag_eq, Rabs_R0 by reflexivity.
    assert (0 <= 200 * INR 1 * E * asum (a :: t)) by (apply Rmult_le_pos; [cbn [INR]; lra|exact S0]). cbn [INR] in *. lra. }
  replace (S m - 2)%nat with (m - 1)%nat by lia. replace (S m - 1)%nat with m by lia.
  rewrite (pair_fold (fun j => nth j c0 C0)).
  assert (Ez : ((cos (PI * x), (- sin (PI * x))%R) : C) = cis (- (PI * x))) by (rewrite cis_neg; reflexivity). rewrite Ez.
  assert (Ed : ((Re (nth m c0 C0), Im (nth m c0 C0)) : C) = nth m c0 C0) by (unfold Re, Im; destruct (nth m c0 C0); reflexivity). rewrite Ed. clear Ed.
  set (e := cis (- (PI * x))) in *. assert (He : Cmod e = 1) by apply cis_mod. set (u := lcos L (fmul fpi x)) in *. set (v := lsin L (fmul fpi x)) in *.
  assert (R1 : 21 * E <= 1). { assert (1 * E <= INR N * E) by (apply Rmult_le_compat_r; lra). lra. }
  pose proof (Cmod_ge_0 ((u, (- v)%R) - e)%C) as RP.
  set (f := fun j => nth j c0 C0).
  assert (EF : fold_left (fun w j => frstep u v (nth j c1 C0) w) (rev (seq 1 (m - 1))) (nth m c1 C0) = fold_left (fun w j => frstep u v (f j) w) (rev (seq 1 (m - 1))) (nth m c1 C0)).
  { assert (G : forall l q, (forall j, In j l -> (1 <= j <= m - 1)%nat) -> fold_left (fun w j => frstep u v (nth j c1 C0) w) l q = fold_left (fun w j => frstep u v (f j) w) l q).
    { induction l as [|j l IH]; intros q Hl; [reflexivity|]. cbn [fold_left]. assert (J := Hl j (or_introl eq_refl)). replace (nth j c1 C0) with (f j). { apply IH. intros i Hi. apply Hl. right. exact Hi. }
      unfold f. rewrite H0, H1 by lia. rewrite nth_ftouch_S, nth_touch_S by lia. reflexivity. }
    apply G. intros j Hj. apply in_rev, in_seq in Hj. lia. }
  rewrite EF. clear EF. set (A := rsum m (fun i => Cmod (f (S i)))).
  assert (EA : A = rsum m (fun k => Cmod (nth k (touch c) C0))).
  { unfold A. rewrite <- rsum_rev. apply rsum_ext. intros k Hk. unfold f. rewrite H0 by lia. do 2 f_equal. lia. }
  assert (A0 : 0 <= A) by (unfold A; apply rsum_nonneg; intros; apply Cmod_ge_0).
  assert (F0 : nth 0 c1 C0 = nth m c C0) by (rewrite H1, Nat.sub_0_r by lia; apply nth_ftouch_S; lia).
  assert (F00 : nth 0 c0 C0 = nth m c C0) by (rewrite H0, Nat.sub_0_r by lia; apply nth_touch_S; lia).
  assert (AS : A + Rabs (Re (nth m c C0)) <= asum c).
  { eapply Rle_trans; [|apply (asum_part c (S m)); fold N; lia]. cbn [rsum]. rewrite EA. pose proof (re_mod (nth m c C0)). apply Rplus_le_compat; [|exact H]. apply rsum_le. intros k _. apply touch_mod. }
  assert (Mm : 1 <= INR m) by (change 1 with (INR 1); apply le_INR; lia). assert (MN : 2 * INR m <= INR N) by (replace 2 with (INR 2) by reflexivity; rewrite <- mult_INR; apply le_INR; lia).
  assert (AL : 2 * INR m * (24 * uro + 21 * E) <= 1).
  { apply Rle_trans with (INR N * (45 * E)); [apply Rmult_le_compat; lra|]. assert (0 <= INR N * E) by (apply Rmult_le_pos; lra). lra. }
  assert (ME : nth m c0 C0 = nth 0 (touch c) C0) by (rewrite H0, Nat.sub_diag by lia; reflexivity).
  assert (ME1 : nth m c1 C0 = nth 0 (ftouch c) C0) by (rewrite H1, Nat.sub_diag by lia; reflexivity).
  assert (EE : 0 <= 24 * uro + 21 * E) by lra. assert (BE : 0 <= 16 * eta) by lra.
  assert (SP : A = Cmod (nth m c0 C0) + lmod f (rev (seq 1 (m - 1)))).
  { unfold A. rewrite lmod_rev. replace m with (S (m - 1)) at 1 by lia. cbn [rsum]. replace (S (m - 1)) with m by lia. unfold f. lra. }
  assert (ST : Cmod (nth m c1 C0 - nth m c0 C0)%C <= 2 * INR 1 * ((24 * uro + 21 * E) * A + 16 * eta)).
  { rewrite ME, ME1. pose proof (ftouch_0 c) as F. rewrite <- ME, <- ME1 in *. pose proof (lmod_pos f (rev (seq 1 (m - 1)))) as LP. pose proof (Cmod_ge_0 (nth m c0 C0)) as CP.
    assert (uro * Cmod (nth m c0 C0) <= (24 * uro + 21 * E) * A) by (apply Rmult_le_compat; lra). cbn [INR]. assert (0 <= (24 * uro + 21 * E) * A) by (apply Rmult_le_pos; lra). lra. }
  pose proof (loop_err f (fun j w => frstep u v (f j) w) e (24 * uro + 21 * E) (16 * eta) He EE BE (fun j q => frstep_near u v e (21 * E) He Z1 R1 (f j) q) A m AL (rev (seq 1 (m - 1))) 1%nat (nth m c0 C0) (nth m c1 C0)) as LE.
  rewrite rev_length, seq_length in LE. specialize (LE ltac:(lia) ltac:(lra) ST). destruct LE as [LE1 LE2]. replace (1 + (m - 1))%nat with m in LE1 by lia.
  set (w := fold_left (fun w j => frstep u v (f j) w) _ _) in *.
  assert (EW : fold_left (fun (q : C) j => (f j + e * q)%C) (rev (seq 1 (m - 1))) (nth m c0 C0) = fold_left (fun (q : C) (j : nat) => (nth j c0 C0 + e * q)%C) (rev (seq 1 (m - 1))) (nth m c0 C0)) by reflexivity.
  set (w0 := fold_left (fun (q : C) (j : nat) => (nth j c0 C0 + e * q)%C) _ _) in *. rewrite EW in LE1, LE2. clear EW.
  assert (LHS : (let '(co, si) := w0 in Re (nth 0 c0 C0) + 2 * (cos (PI * x) * co + sin (PI * x) * si)) = Re (nth 0 c0 C0) + 2 * Re (e * w0)%C).
  { unfold e. rewrite cis_neg. destruct w0 as [co si]. unfold Re. cbn. ring. }
  eapply Rle_trans with (Rabs (fadd (Re (nth 0 c1 C0)) (fmul 2 (fadd (fmul u (fst w)) (fmul v (snd w)))) - (Re (nth 0 c0 C0) + 2 * Re (e * w0)%C))).
  { right. f_equal. f_equal. rewrite <- LHS. reflexivity. }
  rewrite F0, F00. pose proof (real_last (Re (nth m c C0)) u v e (21 * E) w w0 He Z1 R1) as LST.
  apply (real_sum uro eta (21 * E) E (INR m) (INR N) (asum c) A (Rabs (Re (nth m c C0))) (Cmod (w - w0)%C) (Cmod w)); try lra; try apply Rabs_pos; try apply Cmod_ge_0.
  replace w with (w0 + (w - w0))%C by ring. eapply Rle_trans; [apply Cmod_triangle|]. replace (w0 + (w - w0) - w0)%C with (w - w0)%C by ring. lra.
Qed.
