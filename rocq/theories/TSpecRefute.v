(** Concrete operators on which the trigspec assembly is wrong, and examples. *)
From Coq Require Import Reals ZArith List Arith Lia Lra Bool Classical_Pred_Type.
From Coquelicot Require Import Coquelicot.
From Verif Require Import Base ToolsProofs TrigSpec TrigBase TrigModel TrigModel2 TrigTrans TrigEval TrigCalc TrigCalc2 TrigObj TSpecSpec TSpecModel TSpecClaims TSpecZ TSpecMat TSpecProofs.
Import ListNotations.
Open Scope R_scope.
Open Scope C_scope.

Lemma cder_0 u x : cder u 0 x = u x.
Proof. unfold cder. cbn [Derive_n]. destruct (u x); reflexivity. Qed.
Lemma evalF_1 c x : evalF [c] x = c.
Proof. assert (H := hasZ_tfun (-1) 1 [c] (le_n 1)). destruct H as [_ H]. specialize (H x). unfold tfun in H.
  replace (tphi (-1) 1 x) with x in H by (unfold tphi; field). rewrite H. cbn [length]. change (1 / 2)%nat with 0%nat.
  rewrite (zsum_single 0 _ 0%Z) by (try (intros z Hz Hz0); lia). rewrite ez_0. rewrite coef_odd by (cbn [length]; first [reflexivity | change (1 / 2)%nat with 0%nat; lia]).
  cbn [length]. change (Z.to_nat (0 + Z.of_nat (1 / 2))) with 0%nat. cbn [nth]. ring.
Qed.
Lemma tfun_1 a b c x : tfun a b [c] x = c. Proof. apply evalF_1. Qed.

(** int(0*u) over [-1,1]: the integrand is ignored *)
Definition q_int0 : tblock := mkTB [] true [] [[RtoC 1]] [[RtoC 0]] [] [].
Definition q_int1 : tblock := mkTB [] true [] [[RtoC 1]] [[RtoC 1]] [] [].
Lemma q_int1_ok : tblock_ok (-1) 1 q_int1.
Proof.
  split; [intros j Hj; cbn in Hj; lia|]. split; [intros j Hj; cbn in Hj; lia|]. exists [RtoC 1], [RtoC 1]. repeat split; [cbn; lia|]. intros y. apply tfun_1.
Qed.
Lemma plain_odd v : Nat.odd (length v) = true -> plain v.
Proof. intros O E. unfold Nat.odd in O. rewrite E in O. discriminate. Qed.
Lemma cRInt_const c a b : cRInt (fun _ => c) a b = RtoC (b - a) * c.
Proof. apply cint_unique, cint_const. Qed.
Lemma q_int1_val x : tblock_op (-1) 1 q_int1 (tfun (-1) 1 [RtoC 1]) x = RtoC 2.
Proof.
  unfold tblock_op, trig_op. cbn [q_int1 t_coeffs t_ics t_ints t_nlcoeffs length csum nth].
  rewrite (cRInt_ext _ (fun _ => RtoC 1)) by (intros y; rewrite !tfun_1; ring). rewrite cRInt_const, tfun_1. replace (1 - -1)%R with 2%R by lra. ring.
Qed.
Lemma q_int1_mat x : tfun (-1) 1 (cmatvec 1 (ts_raw 1 (1 - -1) q_int1) [RtoC 1]) x = RtoC 2.
Proof.
  rewrite (raw_const (-1) 1 1 q_int1 [RtoC 1]); [apply q_int1_val|lra|reflexivity|lia|apply plain_odd; reflexivity|exact q_int1_ok|].
  intros c Hc. cbn in Hc. destruct Hc as [<-|[]]. reflexivity.
Qed.
Lemma q_int0_wrong : exists x, tfun (-1) 1 (cmatvec 1 (ts_raw 1 (1 - -1) q_int0) [RtoC 1]) x <> tblock_op (-1) 1 q_int0 (tfun (-1) 1 [RtoC 1]) x.
Proof.
  exists 0%R. change (ts_raw 1 (1 - -1) q_int0) with (ts_raw 1 (1 - -1) q_int1). rewrite q_int1_mat.
  unfold tblock_op, trig_op. cbn [q_int0 t_coeffs t_ics t_ints t_nlcoeffs length csum nth].
  rewrite (cRInt_ext _ (fun _ => RtoC 0)) by (intros y; rewrite !tfun_1; ring). rewrite cRInt_const. intros E.
  apply (f_equal Re) in E. rewrite tfun_1 in E. cbn in E. lra.
Qed.
(** int u + int u written as two integral terms: only the first is used *)
Definition q_int2 : tblock := mkTB [] true [] [[RtoC 1]; [RtoC 1]] [[RtoC 1]; [RtoC 1]] [] [].
Lemma q_int2_wrong : exists x, tfun (-1) 1 (cmatvec 1 (ts_raw 1 (1 - -1) q_int2) [RtoC 1]) x <> tblock_op (-1) 1 q_int2 (tfun (-1) 1 [RtoC 1]) x.
Proof.
  exists 0%R. change (ts_raw 1 (1 - -1) q_int2) with (ts_raw 1 (1 - -1) q_int1). rewrite q_int1_mat.
  unfold tblock_op, trig_op. cbn [q_int2 t_coeffs t_ics t_ints t_nlcoeffs length csum nth].
  rewrite (cRInt_ext _ (fun _ => RtoC 1)) by (intros y; rewrite !tfun_1; ring). rewrite cRInt_const. intros E.
  apply (f_equal Re) in E. rewrite tfun_1 in E. cbn in E. lra.
Qed.

(** even n: sin(pi x) u with u = cos(pi x) stored as two coefficients *)
Definition q_sin : tblock := mkTB [true] false [[Ci * RtoC (/ 2); RtoC 0; - Ci * RtoC (/ 2)]] [] [] [] [].
Definition v_cos : list C := [RtoC 1; RtoC 0].
Lemma q_sin_wrong : (forall x, tfun (-1) 1 v_cos x = RtoC (cos (PI * x))) /\ nth 1 (cmatvec 2 (ts_raw 2 (1 - -1) q_sin) v_cos) C0 = - Ci * RtoC (/ 2) /\
  fourier (-1) 1 (tblock_op (-1) 1 q_sin (tfun (-1) 1 v_cos)) (freq 2 1) = RtoC 0.
Proof.
  assert (T : hasZ (-1) 1 (tfun (-1) 1 v_cos) 1 (coef v_cos)) by (apply (hasZ_tfun (-1) 1 v_cos); cbn; lia).
  assert (C1 : coef v_cos 1 = RtoC (/ 2)) by (rewrite coef_top; [cbn [v_cos nth]; ring|reflexivity|reflexivity]).
  assert (Cm : coef v_cos (-1) = RtoC (/ 2)) by (rewrite coef_top; [cbn [v_cos nth]; ring|reflexivity|reflexivity]).
  assert (Cz : coef v_cos 0 = RtoC 0) by (rewrite coef_even by (cbn; lia); reflexivity).
  split; [|split].
  - intros x. destruct T as [_ T]. rewrite T. unfold zsum. cbn [csum Nat.mul Nat.add]. change (Z.of_nat 0 - Z.of_nat 1)%Z with (-1)%Z. change (Z.of_nat 1 - Z.of_nat 1)%Z with 0%Z. change (Z.of_nat 2 - Z.of_nat 1)%Z with 1%Z.
    rewrite C1, Cm, Cz. unfold ez. replace (PI * IZR (-1) * tphi (-1) 1 x)%R with (- (PI * x))%R by (unfold tphi; field). replace (PI * IZR 1 * tphi (-1) 1 x)%R with (PI * x)%R by (unfold tphi; field).
    unfold cis. rewrite cos_neg, sin_neg. apply injective_projections; cbn; field.
  - rewrite nth_cmatvec by lia. unfold ts_raw. cbn [q_sin t_info t_iflag t_coeffs t_nlcoeffs t_nlinfo length seq fold_left tflag nth].
    unfold v_cos. cbn [csum nth]. unfold cmatadd. rewrite !ment_cmk by lia. unfold czero. rewrite !ment_cmk by lia. unfold cmatmul. rewrite !ment_cmk by lia. cbn [csum].
    unfold ts_mult. rewrite !tmultmat_entry by (cbn [length]; lia). unfold ts_diff. cbn [Nat.eqb]. unfold ceye, cdiag. rewrite !ment_cmk by lia. cbn [Nat.eqb].
    change (Z.of_nat 1 - Z.of_nat 0)%Z with 1%Z. change (Z.of_nat 1 - Z.of_nat 1)%Z with 0%Z.
    rewrite !coef_odd by (cbn [length]; first [reflexivity | change (3 / 2)%nat with 1%nat; lia]). cbn [length]. change (3 / 2)%nat with 1%nat.
    change (Z.to_nat (1 + Z.of_nat 1)) with 2%nat. change (Z.to_nat (0 + Z.of_nat 1)) with 1%nat. cbn [nth]. unfold C0. ring.
  - assert (M := hasZ_mul (-1) 1 _ _ _ _ _ _ (hasZ_tfun (-1) 1 [Ci * RtoC (/ 2); RtoC 0; - Ci * RtoC (/ 2)] ltac:(cbn; lia)) T).
    erewrite (hasZ_fourier (-1) 1 _ _ _ _ ltac:(lra)); [|eapply hasZ_ext; [|intros z; reflexivity|exact M]; intros x; unfold tblock_op, trig_op; cbn [q_sin t_coeffs t_ics t_ints t_nlcoeffs length csum nth]; rewrite cder_0; ring].
    change (freq 2 1) with 0%Z. unfold conv, zsum. cbn [csum Nat.mul Nat.add]. change (0 - (Z.of_nat 0 - Z.of_nat 1))%Z with 1%Z. change (0 - (Z.of_nat 1 - Z.of_nat 1))%Z with 0%Z. change (0 - (Z.of_nat 2 - Z.of_nat 1))%Z with (-1)%Z.
    change (Z.of_nat 0 - Z.of_nat 1)%Z with (-1)%Z. change (Z.of_nat 1 - Z.of_nat 1)%Z with 0%Z. change (Z.of_nat 2 - Z.of_nat 1)%Z with 1%Z. rewrite C1, Cm, Cz.
    rewrite !coef_odd by (cbn [length]; first [reflexivity | change (3 / 2)%nat with 1%nat; lia]). cbn [length]. change (3 / 2)%nat with 1%nat.
    change (Z.to_nat (1 + Z.of_nat 1)) with 2%nat. change (Z.to_nat (0 + Z.of_nat 1)) with 1%nat. change (Z.to_nat (-1 + Z.of_nat 1)) with 0%nat. cbn [nth]. ring.
Qed.

(** u' *)
Definition q_der : tblock := mkTB [false; true] false [[RtoC 0]; [RtoC 1]] [] [] [] [].
Definition v_e : list C := [RtoC 0; RtoC 0; RtoC 1].
Definition v_em : list C := [RtoC 1; RtoC 0; RtoC 0].
Lemma q_der_ok a b : tblock_ok a b q_der.
Proof.
  split; [|split; [intros j Hj; cbn in Hj; lia|reflexivity]]. intros j Hj. cbn in Hj. destruct j as [|[|j]]; [| |lia]; cbn [tflag q_der t_info t_coeffs nth].
  - split; [intros _ x; apply evalF_1|discriminate].
  - split; [discriminate|cbn; lia].
Qed.
Lemma q_der_const : const_block q_der.
Proof. intros c Hc. cbn in Hc. destruct Hc as [<-|[<-|[]]]; reflexivity. Qed.
Lemma q_der_op a b u x : tblock_op a b q_der u x = cder u 1 x.
Proof. unfold tblock_op, trig_op. cbn [q_der t_coeffs t_ics t_ints t_nlcoeffs length csum nth]. rewrite !tfun_1. ring. Qed.

Lemma kept_0 n M : kept n 0 M.
Proof. intros i j _ _. right. apply Cmod_ge_0. Qed.
Lemma pair_modes f g u w : hasZ (-1) 1 u 1 f -> hasZ (-1) 1 w 1 g -> pairing (-1) 1 u w = RtoC 2 * (f 1%Z * g (-1)%Z + f 0%Z * g 0%Z + f (-1)%Z * g 1%Z).
Proof.
  intros Hu Hw. unfold pairing. rewrite (cint_unique _ _ _ _ (hasZ_int (-1) 1 _ _ _ ltac:(lra) (hasZ_mul (-1) 1 u w 1 1 f g Hu Hw))).
  replace (1 - -1)%R with 2%R by lra. f_equal. unfold conv, zsum. cbn [csum Nat.mul Nat.add].
  change (0 - (Z.of_nat 0 - Z.of_nat 1))%Z with 1%Z. change (0 - (Z.of_nat 1 - Z.of_nat 1))%Z with 0%Z. change (0 - (Z.of_nat 2 - Z.of_nat 1))%Z with (-1)%Z.
  change (Z.of_nat 0 - Z.of_nat 1)%Z with (-1)%Z. change (Z.of_nat 1 - Z.of_nat 1)%Z with 0%Z. change (Z.of_nat 2 - Z.of_nat 1)%Z with 1%Z. ring.
Qed.
Lemma coef3 (x y z : C) : coef [x; y; z] (-1) = x /\ coef [x; y; z] 0 = y /\ coef [x; y; z] 1 = z.
Proof.
  repeat split; rewrite coef_odd by (cbn [length]; first [reflexivity | change (3 / 2)%nat with 1%nat; lia]); reflexivity.
Qed.
Lemma omega_pm : omega (-1) 1 1 = PI /\ omega (-1) 1 (-1) = (- PI)%R.
Proof. unfold omega. split; field. Qed.
Lemma q_der_adj_wrong : pairing (-1) 1 (tblock_op (-1) 1 q_der (tfun (-1) 1 v_e)) (tfun (-1) 1 v_em) <>
  pairing (-1) 1 (tfun (-1) 1 v_e) (tfun (-1) 1 (cmatvec 3 (ts_matrix true 3 1 (1 - -1) 0 (fun _ _ => q_der)) v_em)).
Proof.
  rewrite ts_matrix_one by (try apply kept_0; cbn; lia).
  assert (Te : hasZ (-1) 1 (tfun (-1) 1 v_e) 1 (coef v_e)) by (apply (hasZ_tfun (-1) 1 v_e); cbn; lia).
  assert (Tm : hasZ (-1) 1 (tfun (-1) 1 v_em) 1 (coef v_em)) by (apply (hasZ_tfun (-1) 1 v_em); cbn; lia).
  assert (De := hasZ_der (-1) 1 _ _ _ 1 ltac:(lra) Te). assert (Dm := hasZ_der (-1) 1 _ _ _ 1 ltac:(lra) Tm).
  rewrite (pair_modes (fun z => cpow (Ci * RtoC (omega (-1) 1 z)) 1 * coef v_e z) (coef v_em)).
  2: { eapply hasZ_ext; [|intros z; reflexivity|exact De]. intros x. symmetry. apply q_der_op. }
  2: exact Tm.
  rewrite (pair_modes (coef v_e) (fun z => cpow (Ci * RtoC (omega (-1) 1 z)) 1 * coef v_em z)).
  2: exact Te.
  2: { eapply hasZ_ext; [|intros z; reflexivity|exact Dm]. intros x.
       rewrite (raw_const (-1) 1 3 q_der v_em ltac:(lra) eq_refl ltac:(lia) (plain_odd v_em eq_refl) (q_der_ok _ _) q_der_const).
       symmetry. apply q_der_op. }
  destruct (coef3 (RtoC 0) (RtoC 0) (RtoC 1)) as (E1 & E2 & E3). fold v_e in E1, E2, E3. destruct (coef3 (RtoC 1) (RtoC 0) (RtoC 0)) as (F1 & F2 & F3). fold v_em in F1, F2, F3.
  rewrite E1, E2, E3, F1, F2, F3. destruct omega_pm as [-> ->]. cbn [cpow]. intros E. apply (f_equal Im) in E. cbn in E. assert (P := PI_RGT_0). lra.
Qed.
(** the derivative of the non-local term: aggmat with m = 1 *)
Lemma agg1_wrong M : ts_agg 3 1 (1 - -1) = Some M -> exists x, tfun (-1) 1 (cmatvec 3 M v_e) x <> cder (nonlocal (tfun (-1) 1 v_e)) 1 x.
Proof.
  intros HM. destruct (Classical_Pred_Type.not_all_ex_not R (fun x => tfun (-1) 1 (cmatvec 3 M v_e) x = cder (nonlocal (tfun (-1) 1 v_e)) 1 x)) as [x Hx]; [|exists x; exact Hx].
  intros E.
  assert (Te : hasZ (-1) 1 (tfun (-1) 1 v_e) 1 (coef v_e)) by (apply (hasZ_tfun (-1) 1 v_e); cbn; lia).
  assert (D := hasZ_der (-1) 1 _ _ _ 1 ltac:(lra) (hasZ_nonlocal (-1) 1 _ _ _ ltac:(lra) Te)).
  assert (F := hasZ_fourier (-1) 1 _ _ _ 1 ltac:(lra) D).
  assert (D' : hasZ (-1) 1 (cder (nonlocal (tfun (-1) 1 v_e)) 1) 1 (coef (cmatvec 3 M v_e))).
  { eapply hasZ_ext; [exact E|intros z; reflexivity|]. assert (T := hasZ_tfun (-1) 1 (cmatvec 3 M v_e)). rewrite cmatvec_length in T. apply T. lia. }
  rewrite (hasZ_fourier (-1) 1 _ _ _ 1 ltac:(lra) D') in F.
  rewrite coef_odd in F by (rewrite ?cmatvec_length; first [reflexivity | change (3 / 2)%nat with 1%nat; lia]). rewrite cmatvec_length in F. change (Z.to_nat (1 + Z.of_nat (3 / 2))) with 2%nat in F.
  assert (EM : M = cdiag 3 (fun k => gen_m1 (freq 3 k) (1 / (/ 2 * (1 - -1)) * PI))) by (unfold ts_agg, aggmat in HM; cbn [Nat.leb Nat.eqb] in HM; congruence).
  rewrite EM, nth_cmatvec_diag in F by lia. destruct (coef3 (RtoC 0) (RtoC 0) (RtoC 1)) as (_ & _ & E3). fold v_e in E3. rewrite E3 in F.
  change (freq 3 2) with 1%Z in F. unfold gen_m1, nlsym in F. cbn [Z.eqb nth v_e cpow] in F. destruct omega_pm as [O _]. rewrite O in F. rewrite cos_PI in F.
  replace (1 / (/ 2 * (1 - -1)) * PI)%R with PI in F by field. rewrite Rmult_1_r, cos_PI in F.
  apply (f_equal Re) in F. cbn in F. assert (P := PI_RGT_0). assert (Q : 0 < / PI) by (apply Rinv_0_lt_compat; exact P).
  assert (Y : 0 < (1 - -1) / PI) by (unfold Rdiv; nra). set (p := ((1 - -1) / PI)%R) in *. clearbody p. nra.
Qed.
