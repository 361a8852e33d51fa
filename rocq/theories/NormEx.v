(** Concrete functions for the norm claims. *)
From Coq Require Import Reals ZArith List Arith Bool Lra Lia.
From Coquelicot Require Import Coquelicot.
From Verif Require Import Base ChebSpec ChebMath ChebDct ChebModel ChebModel2 ChebEval ChebCalc ChebChop ChebObj ChebOps ChebArith ChebConstr ChebRefute RootsMin RootsObj FunModel FunProofs RootsModel FqrFun NormSpec NormModel NormProofs NormAlias NormThm.
Import ListNotations.
Open Scope R_scope.

Definition tcheb (n : nat) : chebtech := mkCheb [repeat 0 n ++ [1]] eps_default 1 maxLength_default true.
Definition tfun (n : nat) : Fun := mkFun (tcheb n) (-1) 1.
Lemma evalT_tcheb n x : evalT (repeat 0 n ++ [1]) x = T n x.
Proof.
  rewrite (evalT_ge _ x (S n)) by (rewrite app_length, repeat_length; cbn; lia). cbn [rsum].
  rewrite rsum_zero. 2:{ intros i Hi. rewrite app_nth1 by (rewrite repeat_length; exact Hi). rewrite nth_repeat. ring. }
  rewrite app_nth2 by (rewrite repeat_length; lia). rewrite repeat_length, Nat.sub_diag. cbn [nth]. ring.
Qed.
Lemma wf_tcheb n : wf (tcheb n).
Proof. exists (S n). split; [lia|]. split; [discriminate|]. constructor; [|constructor]. rewrite app_length, repeat_length. cbn. lia. Qed.
Lemma fwf_tfun n : fwf (tfun n).
Proof. split; [apply wf_tcheb|cbn; lra]. Qed.
Lemma fev_tfun n x : fev (tfun n) 0 x = T n x.
Proof. unfold fev, ev. cbn [onefun tfun tcheb coeffs nth dom0 dom1]. rewrite evalT_tcheb. f_equal. field. Qed.
Lemma pow_small x : 0 < x <= / 2 ^ 50 -> Rpower x (2 / 5) <= / 2 ^ 20.
Proof.
  intros [x0 Hx]. replace (/ 2 ^ 20) with (Rpower (/ 2 ^ 50) (2 / 5)).
  - apply Rle_Rpower_l; [lra|]. split; assumption.
  - replace (/ 2 ^ 50) with (Rpower 2 (Ropp 50)).
    2:{ rewrite Rpower_Ropp. f_equal. replace 50 with (INR 50) by (simpl; lra). rewrite Rpower_pow by lra. reflexivity. }
    rewrite Rpower_mult. replace (Ropp 50 * (2 / 5)) with (Ropp 20) by lra. rewrite Rpower_Ropp. f_equal. replace 20 with (INR 20) by (simpl; lra). rewrite Rpower_pow by lra. reflexivity.
Qed.

(** integral of T_n^2 *)
Lemma is_RInt_T2 n : is_RInt (fun x => T n x ^ 2) (-1) 1 (1 + moment (n + n) / 2).
Proof.
  apply is_RInt_ext with (fun x => / 2 * (T (n + n) x + T 0 x)).
  - intros x _. assert (E := T_mul n n x (le_n _)). rewrite Nat.sub_diag in E. cbn [pow]. lra.
  - evar_last; [apply (is_RInt_scal (V := R_NormedModule)); apply (is_RInt_plus (V := R_NormedModule)); apply is_RInt_T|].
    change (/ 2 * (moment (n + n) + moment 0) = 1 + moment (n + n) / 2). change (moment 0) with (2 / (1 - 0 ^ 2)). field.
Qed.
Lemma Lp_power_T n p I : Lp_power (-1) 1 1 p (fev (tfun n)) I -> is_RInt (fun x => Rabs (T n x) ^ p) (-1) 1 I.
Proof.
  intros (J & HJ & ->). cbn [rsum]. rewrite Rplus_0_l. assert (H := HJ 0%nat ltac:(lia)). eapply is_RInt_ext; [|exact H]. intros x _. cbv beta. now rewrite fev_tfun.
Qed.
Lemma sqr_abs x : Rabs x ^ 2 = x ^ 2.
Proof. rewrite RPow_abs. apply Rabs_pos_eq. nra. Qed.

(** T_16: the square is 1 at the 17 points of the first grid *)
Lemma norm_T16 : fun_norm2 (tfun 16) 2 = Some 2 /\ exists v, fun_norm (tfun 16) 2 = Some v /\ v ^ 2 = 2 /\ 0 <= v.
Proof.
  destruct (construct_alias (fun y => clenshaw_pt (repeat 0 16 ++ [1]) y ^ 2) eps_default maxLength_default 17 17) as (g & Eg & Wg & Cg & _ & Hg).
  - apply eps_default_range.
  - reflexivity.
  - now right.
  - apply initial_n_default.
  - intros i Hi. rewrite clenshaw_pt_correct by (rewrite app_length, repeat_length; cbn; lia). rewrite evalT_tcheb. change 17%nat with (S 16). rewrite T_at_nodes by lia. unfold sgn. destruct (Nat.even _); ring.
  - assert (E : fun_power (tfun 16) 2 = Some (mkFun g (-1) 1)).
    { unfold fun_power, cheb_power. rewrite dom_check_refl. change (Nat.eqb 2 1) with false. cbv iota. cbn [onefun tfun tcheb coeffs map eps]. change (Z.of_nat (nrows [repeat 0 16 ++ [1]])) with 17%Z. rewrite Eg. reflexivity. }
    assert (E2 : fun_norm2 (tfun 16) 2 = Some 2).
    { unfold fun_norm2, norm2_detail. cbn [Nat.eqb Nat.odd Nat.even negb]. rewrite E. cbn [option_map]. f_equal.
      rewrite lsum_rsum, fun_sum_length. unfold fcols. cbn [onefun]. rewrite Cg. cbn [rsum]. rewrite Rplus_0_l.
      assert (WG : fwf (mkFun g (-1) 1)) by (split; [exact Wg|cbn; lra]).
      assert (A := fun_sum_correct (mkFun g (-1) 1) 0 WG ltac:(unfold fcols; cbn [onefun]; lia)). cbn [dom0 dom1] in A.
      assert (B := is_RInt_const (V := R_NormedModule) (-1) 1 1). apply (is_RInt_unique (V := R_CompleteNormedModule)) in A. apply (is_RInt_unique (V := R_CompleteNormedModule)) in B.
      rewrite <- A. transitivity (RInt (fun _ => 1) (-1) 1); [|rewrite B; change ((1 - -1) * 1 = 2); ring]. apply RInt_ext. intros x _. unfold fev. cbn [onefun]. apply Hg. }
    split; [exact E2|]. destruct (nroot_some 2 2 ltac:(lia) ltac:(lra)) as (v & Ev & v0 & vp). exists v. split; [|split; assumption].
    unfold fun_norm2 in E2. unfold fun_norm, norm_detail. cbn [Nat.eqb] in *. rewrite E2. cbn [option_map Nat.odd Nat.even negb]. rewrite Rabs_pos_eq by lra. exact Ev.
Qed.
Lemma Lp_T16 I : Lp_power (-1) 1 1 2 (fev (tfun 16)) I -> I = 1022 / 1023.
Proof.
  intros H. apply Lp_power_T in H. assert (A : is_RInt (fun x => T 16 x ^ 2) (-1) 1 I) by (eapply is_RInt_ext; [|exact H]; intros x _; apply sqr_abs).
  assert (B := is_RInt_T2 16). apply (is_RInt_unique (V := R_CompleteNormedModule)) in A. apply (is_RInt_unique (V := R_CompleteNormedModule)) in B. rewrite <- A, B.
  change (16 + 16)%nat with 32%nat. unfold moment. change (Nat.even 32) with true. cbv iota. replace (INR 32) with 32 by (rewrite INR_IZR_INZ; reflexivity). field.
Qed.

(** T_8: the absolute value is 1 at the 9 points of the first grid *)
Lemma norm_T8 : fun_norm (tfun 8) 1 = Some 2.
Proof.
  destruct (construct_alias (fun y => Rabs (clenshaw_pt (repeat 0 8 ++ [1]) y)) eps_default (2 ^ 10) 9 9) as (g & Eg & Wg & Cg & _ & Hg).
  - apply eps_default_range.
  - reflexivity.
  - now left.
  - change (initial_n (2 ^ 10) 9) with 9%Z. lia.
  - intros i Hi. rewrite clenshaw_pt_correct by (rewrite app_length, repeat_length; cbn; lia). rewrite evalT_tcheb. change 9%nat with (S 8). rewrite T_at_nodes by lia. unfold sgn. destruct (Nat.even _); [apply Rabs_R1|rewrite Rabs_left; lra].
  - assert (E : fun_absolute (tfun 8) = Some (mkFun g (-1) 1)).
    { unfold fun_absolute, cheb_absolute. rewrite dom_check_refl. cbn [onefun tfun tcheb coeffs map eps]. change (Z.of_nat (nrows [repeat 0 8 ++ [1]])) with 9%Z. rewrite Eg. reflexivity. }
    unfold fun_norm, norm_detail, norm2_detail. cbn [Nat.eqb Nat.odd Nat.even negb]. rewrite E. cbn [option_map]. f_equal.
    rewrite lsum_rsum, fun_sum_length. unfold fcols. cbn [onefun]. rewrite Cg. cbn [rsum]. rewrite Rplus_0_l.
    assert (WG : fwf (mkFun g (-1) 1)) by (split; [exact Wg|cbn; lra]).
    assert (A := fun_sum_correct (mkFun g (-1) 1) 0 WG ltac:(unfold fcols; cbn [onefun]; lia)). cbn [dom0 dom1] in A.
    assert (B := is_RInt_const (V := R_NormedModule) (-1) 1 1). apply (is_RInt_unique (V := R_CompleteNormedModule)) in A. apply (is_RInt_unique (V := R_CompleteNormedModule)) in B.
    rewrite <- A. transitivity (RInt (fun _ => 1) (-1) 1); [|rewrite B; change ((1 - -1) * 1 = 2); ring]. apply RInt_ext. intros x _. unfold fev. cbn [onefun]. apply Hg.
Qed.
Lemma Lp_T8 I : Lp_power (-1) 1 1 1 (fev (tfun 8)) I -> I < 3 / 2.
Proof.
  intros H. apply Lp_power_T in H. assert (B := is_RInt_T2 8).
  assert (C := is_RInt_plus (V := R_NormedModule) _ _ _ _ _ _ (is_RInt_const (V := R_NormedModule) (-1) 1 1) B). apply (is_RInt_scal (V := R_NormedModule) _ _ _ (/ 2)) in C.
  eapply Rle_lt_trans; [apply (is_RInt_le (fun x => Rabs (T 8 x) ^ 1) _ (-1) 1 I _ ltac:(lra) H C)|].
  - intros x _. change (Rabs (T 8 x) ^ 1 <= / 2 * (1 + T 8 x ^ 2)). rewrite pow_1. rewrite <- (sqr_abs (T 8 x)). assert (Q := pow2_ge_0 (Rabs (T 8 x) - 1)). nra.
  - change (/ 2 * ((1 - -1) * 1 + (1 + moment (8 + 8) / 2)) < 3 / 2). change (8 + 8)%nat with 16%nat. unfold moment. change (Nat.even 16) with true. cbv iota. replace (INR 16) with 16 by (rewrite INR_IZR_INZ; reflexivity). lra.
Qed.
(** abs raises from 514 coefficients on *)
Lemma fun_absolute_long F : fwf F -> (514 <= flen F)%nat -> fun_absolute F = None.
Proof.
  intros [W Hd] Hn. unfold fun_absolute, cheb_absolute, construct. rewrite dom_check_refl. set (ops := map _ _). destruct ops; [reflexivity|]. cbv zeta.
  replace (2 ^ 10 <? initial_n (2 ^ 10) (Z.of_nat (nrows (coeffs (onefun F)))))%Z with true; [reflexivity|]. symmetry. apply Z.ltb_lt. unfold initial_n. change (nrows (coeffs (onefun F))) with (flen F).
  set (m := Z.max 9 (Z.min (2 ^ 10) (Z.of_nat (flen F)))). change (2 ^ 10)%Z with 1024%Z in *. assert (Hm : (514 <= m <= 1024)%Z) by lia.
  assert (L : (Z.log2_up (513) <= Z.log2_up (m - 1))%Z) by (apply Z.log2_up_le_mono; lia). change (Z.log2_up 513) with 10%Z in L.
  assert (2 ^ 10 <= 2 ^ Z.log2_up (m - 1))%Z by (apply Z.pow_le_mono_r; lia). change (2 ^ 10)%Z with 1024%Z in *. lia.
Qed.
