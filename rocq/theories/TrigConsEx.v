(** Functions that the adaptive Fourier construction gets wrong. *)
From Coq Require Import Reals ZArith List Arith Bool Lia Lra.
From Coquelicot Require Import Coquelicot.
From Verif Require Import Base ToolsProofs ChebModel ChebChop ChopSupport UconvModel TrigSpec TrigBase TrigModel TrigTrans TrigEval TrigCalc TrigCalc2 TrigModel2 TrigObj TrigObj2 TrigCons TrigConsProofs.
Import ListNotations.
Open Scope R_scope.

(** ** one callable whose samples on 32 points are chopped *)
Open Scope C_scope.
Lemma short_unhappy c e acc A : (e < 1)%R -> (length c < 17)%nat -> exists m, thappy (c :: A) e acc = Some (false, m).
Proof.
  intros He Hc. cbn [thappy]. rewrite standardChop_short by (rewrite ?map_length; assumption). rewrite map_length, Nat.ltb_irrefl. eexists. reflexivity.
Qed.
Lemma body_short f op i vs e : (e < 1)%R -> (8 * 2 ^ i < 17)%nat ->
  exists vs', (vs <= vs')%R /\ tbody (S f) [op] [trig_resample op (8 * 2 ^ i)] vs e = tbody f [op] [trig_resample op (8 * 2 ^ S i)] vs' e.
Proof.
  intros He Hi. assert (Hp := pow2_pos i). unfold tbody at 1. change (vals2coeffs [trig_resample op (8 * 2 ^ i)]) with [icf op (8 * 2 ^ i)].
  destruct (short_unhappy (icf op (8 * 2 ^ i)) e 0 [] He ltac:(rewrite icf_length; exact Hi)) as [m Em]. rewrite Em.
  eexists. split; [apply Rmax_l|]. rewrite tpopulate_body. unfold trefine, crows. cbn [hd]. rewrite resample_length.
  destruct (Nat.eqb_spec (8 * 2 ^ i) 0); [lia|]. destruct (Z.ltb_spec tmaxlen (2 * Z.of_nat (8 * 2 ^ i))) as [H|_]; [unfold tmaxlen in H; lia|].
  cbn [combine map fst snd]. rewrite nested_resample by lia. replace (2 * (8 * 2 ^ i))%nat with (8 * 2 ^ S i)%nat by (rewrite Nat.pow_succ_r by lia; lia). reflexivity.
Qed.
Lemma construct_32 op e k : (e < 1)%R -> standardChop (map Cmod (icf op 32)) e = Some k -> (k < 32)%nat ->
  exists f K vs r, tconstruct [op] e = Some (true, [f]) /\ truncation K (tco f) (icf op 32) /\ (K <= k / 2 + 1)%nat /\
    truncation (k / 2 + 1) r (icf op 32) /\ tre f = isreal_vs e vs (realvals (isreal0 op) (coeffs2vals1 r)) r /\ (e <= vs)%R.
Proof.
  intros He Ek Hk. unfold tconstruct.
  assert (E0 : tpopulate 11 [op] [] [] e e = tbody 10 [op] [trig_resample op (8 * 2 ^ 0)] e e) by reflexivity. rewrite E0. clear E0.
  destruct (body_short 9 op 0 e e He ltac:(cbn; lia)) as [v1 [G1 E1]]. rewrite E1. clear E1.
  destruct (body_short 8 op 1 v1 e He ltac:(cbn; lia)) as [v2 [G2 E2]]. rewrite E2. clear E2.
  change (8 * 2 ^ 2)%nat with 32%nat. unfold tbody. change (vals2coeffs [trig_resample op 32]) with [icf op 32].
  set (c := icf op 32) in *. assert (Lc : length c = 32%nat) by apply icf_length.
  cbn [thappy]. rewrite Ek, Lc. destruct (Nat.ltb_spec k 32) as [_|]; [|lia]. rewrite half_cut_eq, Nat.max_0_l. assert (Bk := half_le k).
  destruct (chop_trunc c (k / 2) ltac:(rewrite Lc; reflexivity) ltac:(lia)) as [r [Er Hr]]. cbn [map_option]. rewrite Er.
  destruct (simplify_cols_spec [r] e (2 * (k / 2) + 1) ltac:(discriminate) ltac:(lia)) as [B [K [EB [LB HB]]]].
  { intros x [<-|[]]. destruct Hr as [L _]. lia. }
  rewrite EB. destruct B as [|b [|]]; [cbn in LB; lia| |cbn in LB; lia].
  destruct (HB 0%nat ltac:(cbn; lia)) as [T _]. cbn [nth] in T.
  cbn [coeffs2vals combine map fst snd zip3].
  eexists _, K, _, r. split; [reflexivity|]. cbn [tco tre]. split; [exact (truncation_trans _ _ _ _ _ Hr T)|].
  split; [|split; [exact Hr|split; [reflexivity|]]].
  - destruct T as [_ [_ [Q _]]]. destruct Hr as [L _]. rewrite L in Q. replace (2 * (k / 2 + 1) - 1)%nat with (1 + (k / 2) * 2)%nat in Q by lia. rewrite Nat.div_add in Q by lia. change (1 / 2)%nat with 0%nat in Q. lia.
  - eapply Rle_trans; [|apply Rmax_l]. lra.
Qed.

(** ** a single mode *)
Definition delta (n k : nat) (a : C) : list C := mk n (fun i => if Nat.eqb i k then a else C0).
Lemma delta_length n k a : length (delta n k a) = n. Proof. apply mk_length. Qed.
Lemma delta_nth n k a i : nth i (delta n k a) C0 = if andb (Nat.ltb i n) (Nat.eqb i k) then a else C0.
Proof.
  destruct (Nat.ltb_spec i n) as [H|H]; [unfold delta; rewrite nth_mk by exact H; reflexivity|]. apply nth_overflow. rewrite delta_length. exact H.
Qed.
Lemma delta_eval n k a x : (k < n)%nat -> evalF (delta n k a) x = a * mode n k x.
Proof.
  intros Hk. unfold evalF. rewrite delta_length. change (RtoC 0) with C0. rewrite (csum_single n _ k Hk).
  - rewrite delta_nth. destruct (Nat.ltb_spec k n); [|lia]. rewrite Nat.eqb_refl. reflexivity.
  - intros j Hj Hne. rewrite delta_nth. destruct (Nat.eqb_spec j k); [congruence|]. rewrite andb_false_r. unfold C0. apply Cmult_0_l.
Qed.
Lemma icf_mode op n k a : (k < n)%nat -> (forall x, op x = a * mode n k x) -> icf op n = delta n k a.
Proof.
  intros Hk H. apply interp_unique; [rewrite resample_length, delta_length; reflexivity|]. rewrite delta_length. intros j Hj. rewrite resample_nth by exact Hj.
  destruct (Nat.eqb_spec j 0) as [->|]; [|rewrite delta_eval by exact Hk; apply H].
  assert (P := evalF_period (delta n k a) ltac:(rewrite delta_length; lia)). rewrite !delta_eval in P by exact Hk. rewrite !H, delta_eval by exact Hk. rewrite P.
  unfold gridpt. cbn [INR]. unfold Rdiv. rewrite Rmult_0_r, Rmult_0_l, Rplus_0_r. apply injective_projections; cbn; field.
Qed.
Lemma delta_chop n k a e : (17 <= n)%nat -> (round125 (k + 1) < n)%nat -> (0 < e < 1)%R -> exists q, standardChop (map Cmod (delta n k a)) e = Some q /\ (q <= k)%nat.
Proof.
  intros Hn Hk He. apply chop_support; [exact He|rewrite map_length, delta_length; exact Hn| |rewrite map_length, delta_length; exact Hk].
  intros i Hi. rewrite <- Cmod_0. change (RtoC 0) with C0. rewrite (map_nth Cmod (delta n k a) C0). rewrite delta_nth. destruct (Nat.eqb_spec i k); [lia|]. rewrite andb_false_r. reflexivity.
Qed.
Lemma coef_zero_eval c x : (1 <= length c)%nat -> (forall z, coef c z = RtoC 0) -> evalF c x = RtoC 0.
Proof.
  intros Hn H. rewrite evalF_coef0 by exact Hn. apply csum_zero. intros k Hk. unfold term. rewrite H. apply Cmult_0_l.
Qed.
Lemma delta_coef k a z : (k < 32)%nat -> (Z.abs z < 16)%Z -> coef (delta 32 k a) z = if Z.eqb (z + 16) (Z.of_nat k) then a else C0.
Proof.
  intros Hk Hz. rewrite coef_even by (rewrite delta_length; change (32 / 2)%nat with 16%nat; lia). rewrite delta_length. change (32 / 2)%nat with 16%nat. rewrite delta_nth.
  destruct (Nat.ltb_spec (Z.to_nat (z + Z.of_nat 16)) 32); [|lia]. cbn [andb].
  destruct (Nat.eqb_spec (Z.to_nat (z + Z.of_nat 16)) k), (Z.eqb_spec (z + 16) (Z.of_nat k)); try reflexivity; lia.
Qed.

(** the highest mode of the grid is dropped *)
Lemma cos16_lost e : (0 < e < 1)%R -> exists f, tconstruct [fun x => RtoC (cos (16 * PI * x))] e = Some (true, [f]) /\ forall x, fst (tcall f x) = RtoC 0.
Proof.
  intros He. set (op := fun x => RtoC (cos (16 * PI * x))).
  assert (Ei : icf op 32 = delta 32 0 (RtoC 1)).
  { apply icf_mode; [lia|]. intros x. unfold op, mode. change (Nat.even 32 && Nat.eqb 0 0)%bool with true. cbv iota. rewrite Cmult_1_l. change (32 / 2)%nat with 16%nat. f_equal. f_equal. replace (INR 16) with 16%R by (cbn; lra). ring. }
  destruct (delta_chop 32 0 (RtoC 1) e ltac:(lia) ltac:(cbn; lia) He) as [k [Ek Hk]]. rewrite <- Ei in Ek.
  destruct (construct_32 op e k ltac:(lra) Ek ltac:(lia)) as [f [K [vs [r [E [T [HK _]]]]]]]. exists f. split; [exact E|].
  rewrite Ei in T. assert (k = 0)%nat by lia. subst k. change (0 / 2 + 1)%nat with 1%nat in HK.
  destruct T as [L [P [_ [A B]]]]. intros x.
  assert (Hz : forall z, coef (tco f) z = RtoC 0).
  { intros z. destruct (Z.lt_ge_cases (Z.abs z) (Z.of_nat K)) as [Hz|Hz]; [|apply B; exact Hz]. rewrite A by exact Hz. rewrite delta_coef by lia.
    destruct (Z.eqb_spec (z + 16) (Z.of_nat 0)); [lia|reflexivity]. }
  rewrite tcall_herm; [apply coef_zero_eval; [lia|exact Hz]|lia|].
  apply symm_herm; [lia|]. intros z. rewrite !Hz. symmetry. apply Cconj_R.
Qed.
(** a negative frequency above n/6 is dropped, its mirror image is not *)
Lemma expm6_lost e : (0 < e < 1)%R -> exists f, tconstruct [fun x => cis (- (6 * PI * x))] e = Some (true, [f]) /\ forall x, fst (tcall f x) = RtoC 0.
Proof.
  intros He. set (op := fun x => cis (- (6 * PI * x))).
  assert (Ei : icf op 32 = delta 32 10 (RtoC 1)).
  { apply icf_mode; [lia|]. intros x. unfold op, mode. change (Nat.even 32 && Nat.eqb 10 0)%bool with false. cbv iota. rewrite Cmult_1_l. change (freq 32 10) with (-6)%Z. f_equal. ring. }
  destruct (delta_chop 32 10 (RtoC 1) e ltac:(lia) ltac:(cbn; lia) He) as [k [Ek Hk]]. rewrite <- Ei in Ek.
  destruct (construct_32 op e k ltac:(lra) Ek ltac:(lia)) as [f [K [vs [r [E [T [HK _]]]]]]]. exists f. split; [exact E|].
  rewrite Ei in T. assert (HK6 : (K <= 6)%nat). { assert (k / 2 <= 10 / 2)%nat by (apply Nat.div_le_mono; lia). change (10 / 2)%nat with 5%nat in H. lia. }
  destruct T as [L [P [_ [A B]]]]. intros x.
  assert (Hz : forall z, coef (tco f) z = RtoC 0).
  { intros z. destruct (Z.lt_ge_cases (Z.abs z) (Z.of_nat K)) as [Hz|Hz]; [|apply B; exact Hz]. rewrite A by exact Hz. rewrite delta_coef by lia.
    destruct (Z.eqb_spec (z + 16) (Z.of_nat 10)); [lia|reflexivity]. }
  rewrite tcall_herm; [apply coef_zero_eval; [lia|exact Hz]|lia|].
  apply symm_herm; [lia|]. intros z. rewrite !Hz. symmetry. apply Cconj_R.
Qed.
(** a complex function that happens to be real at the one point tried is evaluated as a real one *)
Lemma hsum_low_zero c x : Nat.odd (length c) = true -> (forall z, (z <= 0)%Z -> coef c z = RtoC 0) -> hsum c x = 0%R.
Proof.
  intros Ho H. assert (H2 := odd_half _ Ho). set (m := (length c / 2)%nat) in *.
  assert (Hn : forall k, (k <= m)%nat -> nth k c C0 = C0).
  { intros k Hk. transitivity (coef c (Z.of_nat k - Z.of_nat m)); [|apply H; lia]. rewrite coef_odd by (try exact Ho; fold m; lia). fold m. f_equal. lia. }
  unfold hsum. fold m. rewrite Hn by lia. rewrite touch_odd by exact Ho. rewrite csum_zero; [unfold Re, C0; cbn; ring|].
  intros k Hk. rewrite Hn by lia. unfold C0. apply Cmult_0_l.
Qed.
Lemma flag_lost e : (0 < e < 1)%R -> exists f, tconstruct [fun x => cis (PI * (x - tx0))] e = Some (true, [f]) /\ forall x, fst (tcall f x) = RtoC 0.
Proof.
  intros He. set (op := fun x => cis (PI * (x - tx0))). set (a := cis (- (PI * tx0))).
  assert (Ei : icf op 32 = delta 32 17 a).
  { apply icf_mode; [lia|]. intros x. unfold op, mode, a. change (Nat.even 32 && Nat.eqb 17 0)%bool with false. cbv iota. change (freq 32 17) with 1%Z. rewrite <- cis_plus. f_equal. ring. }
  destruct (delta_chop 32 17 a e ltac:(lia) ltac:(cbn; lia) He) as [k [Ek Hk]]. rewrite <- Ei in Ek.
  destruct (construct_32 op e k ltac:(lra) Ek ltac:(lia)) as [f [K [vs [r [E [T [HK [_ [Hre Hvs]]]]]]]]]. exists f. split; [exact E|].
  rewrite Ei in T. assert (HK9 : (K <= 9)%nat). { assert (k / 2 <= 17 / 2)%nat by (apply Nat.div_le_mono; lia). change (17 / 2)%nat with 8%nat in H. lia. }
  destruct T as [L [P [_ [A B]]]]. intros x.
  assert (Hz : forall z, (z <= 0)%Z -> coef (tco f) z = RtoC 0).
  { intros z Hz0. destruct (Z.lt_ge_cases (Z.abs z) (Z.of_nat K)) as [Hz|Hz]; [|apply B; exact Hz]. rewrite A by exact Hz. rewrite delta_coef by lia.
    destruct (Z.eqb_spec (z + 16) (Z.of_nat 17)); [lia|reflexivity]. }
  assert (H0 : isreal0 op = true).
  { unfold isreal0, op. apply TrigTrans.Reqb_true. replace (PI * (tx0 - tx0))%R with 0%R by ring. rewrite cis_0. reflexivity. }
  rewrite H0 in Hre. assert (Ht : tre f = true).
  { rewrite Hre. unfold isreal_vs, realvals. apply forallb_forall. intros y Hy. apply in_map_iff in Hy as [w [<- _]]. apply TrigObj.Rleb_true.
    unfold Im. cbn. rewrite Rabs_R0. apply Rmult_le_pos; [lra|]. eapply Rle_trans; [|apply Rmax_l]. lra. }
  unfold tcall. rewrite Ht. cbn [fst]. rewrite horner_real_hsum by lia. rewrite hsum_low_zero; [reflexivity| |exact Hz].
  rewrite L. apply Nat.odd_spec. exists (K - 1)%nat. lia.
Qed.
