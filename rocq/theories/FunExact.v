(** When the derivative on [a,b] is exact: the last coefficient survives both simplifications. *)
From Coq Require Import Reals ZArith List Arith Lia Lra Bool.
From Coquelicot Require Import Coquelicot.
From Verif Require Import Base ChebSpec ChebMath ChebModel ChebEval CosSums ChebDct ChebCalc ChebMul ChebChop ChebObj ChebOps ChebOps2 ChebArith FunModel FunProofs.
Import ListNotations.
Open Scope R_scope.

(** the coefficients beyond m vanish *)
Definition ends_at (m : nat) (c : list R) : Prop := forall k, (m <= k)%nat -> nth k c 0 = 0.
Lemma der_entry c i : (S i < length c)%nat -> nth i (computeDerCoeffs1 c) 0 = (if Nat.eqb i 0 then / 2 else 1) * sum_stride2 (skipn i (mk (length c - 1) (fun i => 2 * INR (S i) * nth (S i) c 0))).
Proof.
  intros H. unfold computeDerCoeffs1. destruct (Nat.eqb_spec i 0) as [->|N].
  - rewrite upd_same by (rewrite mk_length; lia). rewrite nth_mk by lia. reflexivity.
  - rewrite upd_other by lia. rewrite nth_mk by lia. ring.
Qed.
Lemma stride_zero v i : (forall k, (i <= k)%nat -> nth k v 0 = 0) -> sum_stride2 (skipn i v) = 0.
Proof.
  intros H. remember (length v - i)%nat as d eqn:Hd. revert i H Hd. induction d as [d IH] using lt_wf_ind. intros i H Hd.
  destruct (Nat.lt_ge_cases i (length v)) as [L|L]; [|rewrite skipn_all2 by lia; reflexivity].
  rewrite <- (Rplus_0_r (sum_stride2 (skipn i v))). rewrite <- (H i (Nat.le_refl i)) at 1. pose proof (sum_stride2_skipn v i) as E. rewrite (H i (Nat.le_refl i)) in E |- *.
  assert (Z : sum_stride2 (skipn (S (S i)) v) = 0). { destruct (Nat.lt_ge_cases (S (S i)) (length v)) as [L2|L2]; [|rewrite skipn_all2 by lia; reflexivity]. apply (IH (length v - S (S i))%nat); [lia| |lia]. intros k Hk. apply H. lia. }
  lra.
Qed.
Lemma der_ends c m : ends_at (S m) c -> ends_at m (computeDerCoeffs1 c).
Proof.
  intros H k Hk. destruct (Nat.lt_ge_cases (S k) (length c)) as [L|L]; [|apply nth_overflow; rewrite computeDerCoeffs1_length; lia].
  rewrite der_entry by exact L. rewrite stride_zero; [ring|]. intros q Hq. destruct (Nat.lt_ge_cases q (length c - 1)) as [B|B]; [|apply nth_overflow; rewrite mk_length; lia].
  rewrite nth_mk by exact B. rewrite H by lia. ring.
Qed.
Lemma der_top c m : ends_at (S (S m)) c -> Rabs (nth (S m) c 0) <= Rabs (nth m (computeDerCoeffs1 c) 0).
Proof.
  intros H. destruct (Nat.lt_ge_cases (S m) (length c)) as [L|L].
  2:{ rewrite nth_overflow by lia. rewrite Rabs_R0. apply Rabs_pos. }
  rewrite der_entry by exact L. set (v := mk _ _). pose proof (sum_stride2_skipn v m) as E.
  assert (Z : sum_stride2 (skipn (S (S m)) v) = 0).
  { apply stride_zero. intros k Hk. unfold v. destruct (Nat.lt_ge_cases k (length c - 1)) as [B|B]; [|apply nth_overflow; rewrite mk_length; lia]. rewrite nth_mk by exact B. rewrite H by lia. ring. }
  assert (V : sum_stride2 (skipn m v) = 2 * INR (S m) * nth (S m) c 0). { transitivity (nth m v 0); [lra|]. unfold v. rewrite nth_mk by lia. reflexivity. }
  rewrite V. assert (P : 1 <= INR (S m)) by (apply (le_INR 1); lia). set (t := nth (S m) c 0). pose proof (Rabs_pos t) as Q.
  destruct (Nat.eqb m 0).
  - replace (/ 2 * (2 * INR (S m) * t)) with (INR (S m) * t) by field. rewrite Rabs_mult, (Rabs_pos_eq (INR (S m))) by lra. nra.
  - replace (1 * (2 * INR (S m) * t)) with ((2 * INR (S m)) * t) by ring. rewrite Rabs_mult, (Rabs_pos_eq (2 * INR (S m))) by lra. nra.
Qed.
Lemma der_n_ends n : forall c m, ends_at m c -> ends_at (m - n) (der_n n c).
Proof.
  induction n as [|n IH]; intros c m H; cbn [der_n]; [rewrite Nat.sub_0_r; exact H|].
  destruct m as [|m]; [|replace (S m - S n)%nat with (m - n)%nat by lia; apply IH, der_ends, H].
  apply (IH _ 0%nat). apply der_ends. intros k Hk. apply H. lia.
Qed.
Lemma der_n_top n : forall c m, ends_at (S m) c -> (n <= m)%nat -> Rabs (nth m c 0) <= Rabs (nth (m - n) (der_n n c) 0).
Proof.
  induction n as [|n IH]; intros c m H Hn; cbn [der_n]; [rewrite Nat.sub_0_r; lra|].
  destruct m as [|m]; [lia|]. eapply Rle_trans; [apply der_top; exact H|]. replace (S m - S n)%nat with (m - n)%nat by lia. apply IH; [apply der_ends, H|lia].
Qed.
Lemma diff_coeffs f n j0 : wf f -> (1 <= n)%nat -> 0 < eps f < 1 -> Rpower (eps f) (2 / 5) < Rabs (coef f j0 (len f - 1)) ->
  exists g, cheb_diff f n = Some g /\ wf g /\ ncols g = ncols f /\ eps g = eps f /\
    (forall j x, (j < ncols f)%nat -> is_derive_n (ev f j) n x (ev g j x)) /\
    (forall j, (j < ncols f)%nat -> ends_at (len f - n) (nth j (coeffs g) [])) /\
    (forall j, (j < ncols f)%nat -> (n < len f)%nat -> Rabs (coef f j (len f - 1)) <= Rabs (coef g j (len f - 1 - n))).
Proof.
  intros Hw Hn He H0. destruct (diff_correct f n Hw Hn) as (g & K & E & Wg & Cg & Pg & Lg & HK & HD). pose proof (trunc_ok_full f _ K j0 He HK H0) as HL.
  exists g. split; [exact E|]. split; [exact Wg|]. split; [exact Cg|]. split; [apply Pg|].
  split. { intros j x Hj. apply (is_derive_n_ext_eq (evK f j K)); [|apply HD; exact Hj]. intros t. apply evK_full; [exact Hw|exact HL]. }
  clear HD Lg Pg. unfold cheb_diff in E. destruct (simplify_spec f (eps f) Hw) as [K' [Es HK']]. rewrite Es in E. pose proof (trunc_ok_full f _ K' j0 He HK' H0) as HL'. clear K HK HL.
  assert (RK : rect K' (prolong (coeffs f) (Z.of_nat K'))) by (apply (rect_prolong (len f)); [apply wf_rect; exact Hw|apply HK']).
  rewrite (rect_nrows K' _ RK) in E. pose proof (len_pos f Hw) as LP. destruct (Nat.leb_spec K' n) as [Hle|Hgt].
  - assert (RZ : rect (len f) (zeros_like (coeffs f))).
    { unfold zeros_like. apply (rect_map (len f)); [apply wf_rect; exact Hw|exact LP|]. intros c Hc. rewrite mk_length. exact Hc. }
    destruct (cheb_init_some (len f) (zeros_like (coeffs f)) (eps f) (hscale f) (maxLength f) (ishappy f) RZ) as [hp [E' _]]. rewrite E in E'. assert (G : g = mkCheb (zeros_like (coeffs f)) (eps f) (hscale f) (maxLength f) hp) by congruence. rewrite G.
    cbn [coeffs]. split; [|intros; lia]. intros j Hj k _. unfold zeros_like. rewrite (nth_map_col (fun c => mk (length c) (fun _ => 0))) by exact Hj.
    destruct (Nat.lt_ge_cases k (length (nth j (coeffs f) []))); [rewrite nth_mk by assumption; reflexivity|apply nth_overflow; rewrite mk_length; assumption].
  - destruct (computeDerCoeffs_some K' _ RK ltac:(lia)) as [E1 R1]. rewrite E1 in E.
    destruct (iter_der_some (n - 1) (K' - 1) _ R1 ltac:(lia)) as [E2 R2]. rewrite E2 in E.
    destruct (cheb_init_some _ _ (eps f) (hscale f) (maxLength f) (ishappy f) R2) as [hp [E' _]]. rewrite E in E'.
    assert (CO : forall j, (j < ncols f)%nat -> nth j (coeffs g) [] = der_n n (prolong1 (nth j (coeffs f) []) (Z.of_nat K'))).
    { intros j Hj. assert (G : coeffs g = map (der_n (n - 1)) (map computeDerCoeffs1 (prolong (coeffs f) (Z.of_nat K')))) by (inversion E'; reflexivity). rewrite G, map_map.
      rewrite (nth_map_col (fun c => der_n (n - 1) (computeDerCoeffs1 c))) by (unfold prolong; rewrite map_length; exact Hj). rewrite nth_prolong by exact Hj.
      replace n with (S (n - 1)) at 2 by lia. reflexivity. }
    assert (PE : forall j k, (j < ncols f)%nat -> (len f <= K')%nat -> nth k (prolong1 (nth j (coeffs f) []) (Z.of_nat K')) 0 = coef f j k).
    { intros j k Hj _. destruct (Nat.lt_ge_cases k K') as [B|B].
      - rewrite prolong1_nth by (rewrite Nat2Z.id; exact B). reflexivity.
      - unfold coef. rewrite !nth_overflow; [reflexivity| |]; [rewrite col_len by assumption; lia|rewrite prolong1_length, Nat2Z.id; lia]. }
    assert (EN : forall j, (j < ncols f)%nat -> ends_at (len f) (prolong1 (nth j (coeffs f) []) (Z.of_nat K'))).
    { intros j Hj k Hk. rewrite PE by assumption. unfold coef. apply nth_overflow. rewrite col_len by assumption. exact Hk. }
    split.
    + intros j Hj. rewrite CO by exact Hj. apply der_n_ends, EN, Hj.
    + intros j Hj Hl. unfold coef at 2. rewrite CO by exact Hj. rewrite <- (PE j) by assumption. replace (len f - 1 - n)%nat with ((len f - 1) - n)%nat by lia. apply der_n_top; [|lia]. replace (S (len f - 1)) with (len f) by lia. apply EN, Hj.
Qed.
Lemma fun_diff_exact F n j0 : fwf F -> (1 <= n)%nat -> 0 < eps (onefun F) < 1 -> (j0 < fcols F)%nat ->
  Rpower (eps (onefun F)) (2 / 5) < Rabs (coef (onefun F) j0 (flen F - 1)) ->
  Rpower (eps (onefun F)) (2 / 5) * ((dom1 F - dom0 F) / 2) ^ n < Rabs (coef (onefun F) j0 (flen F - 1)) ->
  exists G, fun_diff F n = Some G /\ same_dom F G /\ fcols G = fcols F /\ forall j x, (j < fcols F)%nat -> is_derive_n (fev F j) n x (fev G j x).
Proof.
  intros [Hw Hd] Hn He Hj0 H0 H1. destruct (diff_coeffs (onefun F) n j0 Hw Hn He H0) as (g & E & Wg & Cg & Eg & HD & EN & TOP).
  set (r := (/ 2 * (dom1 F - dom0 F)) ^ n). assert (P : 0 < / 2 * (dom1 F - dom0 F)) by lra. assert (RP : 0 < r) by (apply pow_lt; exact P).
  assert (R2 : ((dom1 F - dom0 F) / 2) ^ n = r) by (unfold r; f_equal; field). rewrite R2 in H1.
  destruct (divide_number_correct g r Wg ltac:(lra)) as (h & K2 & Eh & Wh & Ch & HK2 & Peh & Hev & Htr).
  assert (KF : forall j x, (j < ncols g)%nat -> evK g j K2 x = ev g j x).
  { intros j x Hj. assert (B : (len (onefun F) - n <= K2)%nat).
    { destruct (Nat.lt_ge_cases n (len (onefun F))) as [L|L]; [|lia]. apply Nat.nlt_ge. intros C. unfold fcols in Hj0. specialize (TOP j0 Hj0 L).
      specialize (Htr ltac:(rewrite Eg; exact He) j0 (len (onefun F) - 1 - n)%nat ltac:(lia)). rewrite Eg in Htr. unfold flen in H1.
      unfold Rdiv in Htr. rewrite Rabs_mult, Rabs_inv, (Rabs_pos_eq r) in Htr by lra. apply (Rmult_le_compat_r r) in Htr; [|lra]. rewrite Rmult_assoc, Rinv_l, Rmult_1_r in Htr by lra. lra. }
    unfold ev, evalT, evK. rewrite col_len by assumption. unfold coef.
    assert (Z : forall k, (K2 <= k)%nat -> nth k (nth j (coeffs g) []) 0 = 0) by (intros k Hk; apply (EN j ltac:(congruence)); lia).
    destruct (Nat.le_ge_cases (len g) K2) as [L|L].
    - replace K2 with (len g + (K2 - len g))%nat by lia. rewrite rsum_app. rewrite (rsum_zero (K2 - len g)); [ring|]. intros k _. rewrite nth_overflow by (rewrite col_len by assumption; lia). ring.
    - replace (len g) with (K2 + (len g - K2))%nat by lia. rewrite rsum_app. rewrite (rsum_zero (len g - K2)); [ring|]. intros k _. rewrite Z by lia. ring. }
  exists (mkFun h (dom0 F) (dom1 F)). unfold fun_diff. rewrite E. fold r. rewrite Eh. split; [reflexivity|]. split; [split; reflexivity|]. split; [unfold fcols; cbn [onefun]; congruence|].
  intros j x Hj. unfold fev at 2. cbn [onefun dom0 dom1]. unfold fcols in Hj. rewrite Hev by congruence. rewrite KF by congruence.
  apply (is_derive_n_bwd (len (onefun F)) (ev (onefun F) j) n (dom0 F) (dom1 F) x); [exact Hd| |apply HD; exact Hj].
  eapply spanT_ext; [|apply (evK_span (onefun F) j (len (onefun F)))]. intros t. apply evK_full; [exact Hw|lia].
Qed.
