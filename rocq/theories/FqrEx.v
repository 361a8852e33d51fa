(** QR factorisation of functions: large functions, one column, zero, unhappy functions. *)
From Coq Require Import Reals ZArith List Arith Bool Lra Lia.
From Coquelicot Require Import Coquelicot.
From Verif Require Import Base Vecs ChebSpec ChebMath ChebDct ChebModel ChebModel2 ChebEval ChebCalc ChebChop ChebObj ChebArith RootsMin RootsObj FnlProofs FunModel FunProofs Legendre FqrSpec FqrModel FqrProofs FqrObj FqrMain FqrFun ChebRefute.
Import ListNotations.
Open Scope R_scope.

(** ** Two columns proportional to the first two basis vectors, tolerance too large *)
Section big.
Context {X : ModuleSpace R_Ring} (ip : X -> X -> R) (nrm : X -> R) (tol : R) (IP : semi ip) (A E : nat -> X) (r : nat -> R).
Hypothesis HE : forall i j, (i < 2)%nat -> (j < 2)%nat -> ip (E i) (E j) = delta i j.
Hypothesis HA : forall i j, (i < 2)%nat -> (j < 2)%nat -> ip (E i) (A j) = r j * delta i j.
Hypothesis HAA : forall j, (j < 2)%nat -> ip (A j) (A j) = r j * r j.
Hypothesis Hr : forall j, (j < 2)%nat -> 0 <= r j < tol * Rmax (nrm (E j)) (nrm (A j)).

Lemma scal_1 (u : X) : scal 1 u = u. Proof. exact (scal_one (K := R_Ring) u). Qed.
Lemma big_step s k : (k < 2)%nat -> qA s 0%nat = A 0%nat -> qA s 1%nat = A 1%nat -> qE s 0%nat = E 0%nat -> qE s 1%nat = E 1%nat ->
  exists s', qr_step ip nrm tol 2 s k = Some s' /\ qA s' 0%nat = A 0%nat /\ qA s' 1%nat = A 1%nat /\ qE s' 0%nat = E 0%nat /\ qE s' 1%nat = E 1%nat /\
    qV s' k = E k /\ (forall j, j <> k -> qV s' j = qV s j) /\ qR s' k k = r k /\ (forall i j, i <> k -> qR s' i j = qR s i j).
Proof.
  intros Hk A0 A1 E0 E1.
  assert (AJ : forall j, (j < 2)%nat -> qA s j = A j) by (intros [|[|j]] Hj; [exact A0|exact A1|lia]).
  assert (EJ : forall j, (j < 2)%nat -> qE s j = E j) by (intros [|[|j]] Hj; [exact E0|exact E1|lia]).
  unfold qr_step. rewrite (AJ k Hk), (EJ k Hk). destruct (Hr k Hk) as [R0 R1]. set (scl := Rmax _ _) in *.
  unfold qr_sign. rewrite (HA k k Hk Hk). unfold delta at 1. rewrite Nat.eqb_refl, Rmult_1_r, Rabs_pos_eq by exact R0.
  assert (RL : Rltb (r k) (tol * scl) = true) by (apply Rltb_true; exact R1). rewrite RL. rewrite scal_1, (HAA k Hk), sqrt_square by exact R0.
  unfold qr_orth. replace (k - 1)%nat with 0%nat by lia. cbn [seq fold_left]. unfold qr_unit.
  assert (V0 : ip (minus (scal (r k) (E k)) (A k)) (minus (scal (r k) (E k)) (A k)) = 0).
  { rewrite (qi_minus_l ip IP), !(qi_minus_r ip IP), !(se_scal _ IP), !(qi_scal_r ip IP), (se_sym _ IP (A k) (E k)), (HA k k Hk Hk), (HE k k Hk Hk), (HAA k Hk). unfold delta. rewrite Nat.eqb_refl. ring. }
  rewrite V0, sqrt_0. replace (Rltb 0 (tol * scl)) with true by (symmetry; apply Rltb_true; lra).
  eexists. split; [reflexivity|]. cbn [qA qE qV qR]. 
  assert (CJ : forall j, (j < 2)%nat -> j <> k -> qr_col ip (E k) (E k) (qA s j) = A j).
  { intros j Hj Nj. rewrite (AJ j Hj). unfold qr_col, qr_row, qr_refl. rewrite (HA k j Hk Hj). unfold delta. destruct (Nat.eqb_spec k j); [lia|].
    replace (2 * (r j * 0)) with 0 by ring. rewrite minus_0. rewrite (HA k j Hk Hj). unfold delta. destruct (Nat.eqb_spec k j); [lia|]. replace (r j * 0) with 0 by ring. apply minus_0. }
  assert (CA : forall j, (j < 2)%nat -> (if (k <? j)%nat && (j <? 2)%nat then qr_col ip (E k) (E k) (qA s j) else qA s j) = A j).
  { intros j Hj. destruct (Nat.ltb_spec k j); cbn [andb]; [|now apply AJ]. destruct (Nat.ltb_spec j 2); [|lia]. apply CJ; lia. }
  assert (CE : forall j, (j < 2)%nat -> setc (qE s) k (E k) j = E j).
  { intros j Hj. unfold setc. destruct (Nat.eqb_spec j k) as [->|]; [reflexivity|now apply EJ]. }
  split; [apply CA; lia|]. split; [apply CA; lia|]. split; [apply CE; lia|]. split; [apply CE; lia|].
  split; [unfold setc; now rewrite Nat.eqb_refl|]. split; [intros j Hj; unfold setc; now destruct (Nat.eqb_spec j k)|].
  split; [now rewrite !Nat.eqb_refl|]. intros i j Hi. now destruct (Nat.eqb_spec i k).
Qed.
Lemma big_qr : exists Q Rm, abstractQR ip nrm tol 2 A E = Some (Q, Rm) /\ Q 0%nat = scal (-1) (E 0%nat) /\ Rm 0%nat 0%nat = r 0%nat /\ Rm 1%nat 0%nat = 0.
Proof.
  unfold abstractQR. cbn [seq qr_loop].
  destruct (big_step (mkQ A E A (fun _ _ => 0)) 0 ltac:(lia) eq_refl eq_refl eq_refl eq_refl) as (s & -> & A0 & A1 & E0 & E1 & V0 & _ & R0 & R0').
  assert (R10 : qR s 1%nat 0%nat = 0) by (apply R0'; lia).
  assert (R2 : forall s', qr_step ip nrm tol 2 s 1 = Some s' -> qR s' 1%nat 0%nat = 0).
  { intros s' H. unfold qr_step in H. destruct (qr_sign _ _ _) as [sg|]; [|discriminate]. destruct (qr_unit _ _ _ _ _) as [v|]; [|discriminate]. injection H as <-. cbn [qR Nat.eqb Nat.ltb Nat.leb andb]. exact R10. }
  destruct (big_step s 1 ltac:(lia) A0 A1 E0 E1) as (s' & HS & B0 & B1 & F0 & F1 & W1 & WV & Q1 & Q0).
  assert (R2' := R2 s' HS). rewrite HS. eexists. eexists. split; [reflexivity|].
  split; [|split; [rewrite (Q0 0%nat 0%nat ltac:(lia)); exact R0|exact R2']].
  unfold qr_back. cbn [seq rev app fold_left Nat.leb Nat.ltb andb]. rewrite F0, (WV 0%nat ltac:(lia)), V0. unfold qr_refl. rewrite (HE 0 0) by lia. unfold delta. cbn [Nat.eqb].
  rewrite minus_scal, scal_assoc. rewrite <- (scal_1 (E 0%nat)) at 1. rewrite <- scal_distr_r. f_equal. unfold plus, mult; cbn. ring.
Qed.
End big.

Definition bigF (c : R) : Fun := mkFun (mkCheb [[c; 0]; [0; c]] eps_default 1 maxLength_default true) (-1) 1.
Lemma wdot_ext N w (u v u' v' : vecs) : (forall i, (i < N)%nat -> (u : vec) i = (u' : vec) i) -> (forall i, (i < N)%nat -> (v : vec) i = (v' : vec) i) -> wdot N w u v = wdot N w u' v'.
Proof. intros H1 H2. unfold wdot. apply rsum_ext. intros i Hi. now rewrite H1, H2. Qed.
Lemma bigF_vscale c : 0 < c -> max_vscale [[c; 0]; [0; c]] = c.
Proof.
  intros Hc. apply Rle_antisym.
  - apply max_vscale_le; [lra|]. intros j Hj. cbn [length] in Hj.
    destruct (vscale_col_attained (nth j [[c; 0]; [0; c]] [])) as (x & Hx & ->).
    + destruct j as [|[|j]]; cbn; lia.
    + destruct j as [|[|j]]; [| |lia]; unfold evalT; cbn [nth length rsum T].
      * replace (0 + c * 1 + 0 * x) with c by ring. rewrite Rabs_pos_eq; lra.
      * replace (0 + 0 * 1 + c * x) with (c * x) by ring. rewrite Rabs_mult, (Rabs_pos_eq c) by lra. assert (Rabs x <= 1) by (apply Rabs_le; lra). nra.
  - assert (H := max_vscale_ge [[c; 0]; [0; c]] 0 ltac:(cbn; lia)). eapply Rle_trans; [|exact H]. cbn [nth].
    unfold vscale_col. cbn [length Nat.eqb].
    assert (P : nth 0 (polyval1 [c; 0]) 0 = c).
    { rewrite polyval1_spec by (cbn; lia). unfold evalT. cbn [length nth rsum T]. ring. }
    assert (L : length (polyval1 [c; 0]) = 2%nat) by apply polyval1_length. destruct (polyval1 [c; 0]) as [|y [|z [|]]]; cbn in L; try lia. cbn in P. subst y.
    cbn. rewrite (Rabs_pos_eq c) by lra. first [apply Rmax_l|lra].
Qed.
Theorem bigF_qr c : 10 ^ 8 <= c ->
  exists G Rm F', fun_qr (148 / 10 ^ 10) (bigF c) = Some (G, false, Rm, F') /\
    (forall x, fev (bigF c) 0 x = c) /\ (forall x, qr_residual 2 (fev (bigF c)) (fev G) (entry Rm) 0 x = 2 * c).
Proof.
  intros Hc. assert (C0 : 0 < c) by lra. destruct (quadwts_some 4 ltac:(lia)) as (w & Hw & _).
  set (x := fun i => nth i (chebpts_type2_compute 4) 0). set (fc := prolong [[c; 0]; [0; c]] 4).
  set (A := (fun j i => nth i (nth j (polyval fc) []) 0) : nat -> vecs).
  set (sg := fun j => sqrt ((2 * INR j + 1) / 2)).
  assert (SG : forall j, 0 < sg j /\ sg j * sg j = (2 * INR j + 1) / 2). { intros j. assert (0 <= INR j) by apply pos_INR. split; [apply sqrt_lt_R0; lra|apply sqrt_sqrt; lra]. }
  set (r := fun j => c / sg j).
  assert (HR : rect 2 [[c; 0]; [0; c]]) by (split; [lia|split; [discriminate|repeat constructor]]).
  assert (AV : forall j i, (j < 2)%nat -> (i < 4)%nat -> (A j : vec) i = c * leg j (x i)).
  { intros j i Hj Hi. unfold A, polyval. rewrite (nth_map_col polyval1) by (unfold fc, prolong; rewrite map_length; exact Hj). unfold fc. rewrite nth_prolong by exact Hj.
    change 4%Z with (Z.of_nat 4). rewrite polyval1_spec by (rewrite prolong1_length; cbn; lia). rewrite prolong1_length, Nat2Z.id, evalT_prolong.
    - fold (x i). destruct j as [|[|j]]; [| |lia]; unfold evalT; cbn [nth length rsum T leg]; ring.
    - destruct j as [|[|j]]; cbn; lia. }
  assert (AE : forall j i, (j < 2)%nat -> (i < 4)%nat -> (A j : vec) i = ((scal (r j) (leg_E x j) : vecs) : vec) i).
  { intros j i Hj Hi. rewrite AV by assumption. rewrite vscal_i, leg_E_val. unfold r. fold (sg j). destruct (SG j) as [P _]. field. lra. }
  assert (IPs := wdot_semi 2 ltac:(lia) w Hw). change (2 * 2)%nat with 4%nat in IPs.
  assert (EO : forall i j, (i < 2)%nat -> (j < 2)%nat -> wdot 4 w (leg_E x i) (leg_E x j) = delta i j) by (intros; now apply (E0_orth 2 ltac:(lia) w Hw)).
  set (tol := 148 / 10 ^ 10 * c). assert (T0 : 148 / 100 <= tol) by (unfold tol; lra).
  destruct (big_qr (wdot 4 w) (vinf 4) tol IPs A (leg_E x) r EO) as (Q & Rf & HQ & Q0 & R0 & R1).
  { intros i j Hi Hj. rewrite (wdot_ext 4 w _ _ (leg_E x i) (scal (r j) (leg_E x j)) (fun _ _ => eq_refl) (fun k Hk => AE j k Hj Hk)). rewrite (qi_scal_r _ IPs), EO by assumption. reflexivity. }
  { intros j Hj. rewrite (wdot_ext 4 w _ _ _ _ (fun k Hk => AE j k Hj Hk) (fun k Hk => AE j k Hj Hk)). rewrite (qi_scal_r _ IPs), (se_scal _ IPs), EO by assumption. unfold delta. rewrite Nat.eqb_refl. ring. }
  { intros j Hj. destruct (SG j) as [P S]. unfold r. split; [apply Rdiv_le_0_compat; lra|].
    apply Rlt_le_trans with (tol * vinf 4 (A j)); [|apply Rmult_le_compat_l; [lra|apply Rmax_r]].
    assert (L := vinf_ge 4 ltac:(lia) 4 (A j) 3 ltac:(lia)). rewrite AV in L by (assumption || lia). unfold x in L. assert (X := x_last 2 ltac:(lia)). change (2 * 2 - 1)%nat with 3%nat in X. change (2 * 2)%nat with 4%nat in X. rewrite X, leg_1, Rmult_1_r, Rabs_pos_eq in L by lra.
    apply Rlt_le_trans with (tol * c); [|apply Rmult_le_compat_l; lra].
    assert (SH : 7 / 10 < sg j). { destruct (Rlt_le_dec (7 / 10) (sg j)) as [G|G]; [exact G|]. assert (0 <= INR j) by apply pos_INR. assert (sg j * sg j <= 7 / 10 * (7 / 10)) by (apply Rmult_le_compat; lra). lra. }
    apply Rmult_lt_reg_r with (sg j); [exact P|]. unfold Rdiv. rewrite Rmult_assoc, Rinv_l by lra. assert (1 < tol * sg j) by nra. nra. }
  unfold fun_qr, cheb_qr, cheb_qr_cols, bigF. cbn [onefun coeffs dom0 dom1 eps hscale maxLength ishappy length Nat.leb]. rewrite bigF_vscale by exact C0. fold tol.
  change (nrows [[c; 0]; [0; c]]) with 2%nat. change (2 * Nat.max 2 2)%nat with 4%nat. change (Z.of_nat 4) with 4%Z. fold fc. rewrite Hw.
  change (abstractQR (X := vecs) (wdot 4 w) (vinf 4) tol 2 (fun j i => nth i (nth j (polyval fc) []) 0) (leg_E (fun i => nth i (chebpts_type2_compute 4) 0)) = Some (Q, Rf)) in HQ. rewrite HQ.
  change (4 / 2 + 1)%nat with 3%nat. change (Nat.eqb 3 4) with false. unfold init_strided. cbn [orb].
  set (cc := map (firstn 3) (polyfit (mk 2 (fun j => mk 4 (fun i => (Q j : vec) i))))).
  assert (C1 : nth 0 cc [] = firstn 3 (polyfit1 (mk 4 (fun i => (Q 0%nat : vec) i)))) by reflexivity.
  assert (LC : length cc = 2%nat) by reflexivity.
  assert (RC : rect 3 cc).
  { split; [lia|]. split; [intros Z; apply (f_equal (@length _)) in Z; rewrite LC in Z; discriminate|].
    apply Forall_forall. intros l Hl. unfold cc in Hl. apply in_map_iff in Hl. destruct Hl as (l' & <- & Hl). unfold polyfit in Hl. apply in_map_iff in Hl. destruct Hl as (l2 & <- & Hl).
    rewrite firstn_length, polyfit1_length. cbn in Hl. destruct Hl as [<-|[<-|[]]]; reflexivity. }
  destruct (cheb_init_some 3 cc eps_default 1 maxLength_default true RC) as (hp & EI & _). rewrite EI. cbn [coeffs eps hscale maxLength ishappy].
  replace (sqrt (/ 2 * (1 - -1))) with 1 by (replace (/ 2 * (1 - -1)) with 1 by field; symmetry; apply sqrt_1).
  eexists _, _, _. split; [reflexivity|]. 
  assert (FV : forall y, fev (mkFun (mkCheb [[c; 0]; [0; c]] eps_default 1 maxLength_default true) (-1) 1) 0 y = c).
  { intros y. unfold fev, ev. cbn [onefun coeffs nth dom0 dom1]. unfold evalT. cbn [nth length rsum T]. ring. }
  split; [exact FV|]. intros y. unfold qr_residual. rewrite FV. cbn [rsum]. rewrite !entry_scale. unfold entry at 1 2. rewrite !nth_mk by lia. rewrite R0, R1.
  assert (GV : fev (mkFun (mkCheb (map (map (fun x0 => x0 / 1)) cc) eps_default 1 maxLength_default hp) (-1) 1) 0 y = - sg 0%nat).
  { unfold fev, ev. cbn [onefun coeffs dom0 dom1]. rewrite nth_map_map by (rewrite LC; lia). rewrite (evalT_map_scal _ 1) by (intros; field). rewrite C1.
    assert (S0 : spanT 2 (fun t => (-1) * (sg 0%nat * leg 0 t))) by (apply spanT_scal; apply (E0_span 2 ltac:(lia)); lia).
    destruct (fit_trunc 2 ltac:(lia) (Q 0%nat) _ S0) as [_ FT].
    - intros i Hi. rewrite Q0, vscal_i, leg_E_val. reflexivity.
    - change (2 * 2 / 2 + 1)%nat with 3%nat in FT. change (2 * 2)%nat with 4%nat in FT. rewrite FT. cbn [leg]. ring. }
  rewrite GV. unfold r. destruct (SG 0%nat) as [P _]. field. lra.
Qed.

(** ** Inputs without a factorisation *)
Lemma qr_one_column eps0 F : fcols F = 1%nat -> fun_qr eps0 F = None.
Proof. intros H. unfold fun_qr, cheb_qr, cheb_qr_cols. change (length (coeffs (onefun F))) with (fcols F). rewrite H. reflexivity. Qed.
Lemma qr_cols_flag eps0 f c fc Rm fp : cheb_qr_cols eps0 f = Some (c, fc, Rm, fp) -> fc = false.
Proof.
  unfold cheb_qr_cols. cbv zeta. destruct (Nat.leb_spec (length (coeffs f)) 1) as [|Hm]; [discriminate|]. set (M := Nat.max (nrows (coeffs f)) (length (coeffs f))).
  assert (HM : (2 <= M)%nat) by (unfold M; lia). destruct (quadwts (2 * M)) as [w|]; [|discriminate]. destruct (abstractQR _ _ _ _ _ _) as [[Q Rf]|]; [|discriminate].
  intros H. assert (E : Nat.eqb (2 * M / 2 + 1) (2 * M) = fc) by congruence. rewrite <- E. apply Nat.eqb_neq. rewrite Nat.mul_comm, Nat.div_mul by lia. lia.
Qed.
Lemma qr_unhappy eps0 F : ishappy (onefun F) = false -> fun_qr eps0 F = None.
Proof.
  intros H. unfold fun_qr, cheb_qr. destruct (cheb_qr_cols eps0 (onefun F)) as [[[[c fc] Rm] fp]|] eqn:E; [|reflexivity].
  apply qr_cols_flag in E. subst fc. unfold init_strided. rewrite H. reflexivity.
Qed.
Lemma qr_flag eps0 F G fc Rm F' : fun_qr eps0 F = Some (G, fc, Rm, F') -> fc = false.
Proof.
  unfold fun_qr, cheb_qr. destruct (cheb_qr_cols eps0 (onefun F)) as [[[[c fc'] Rm'] fp]|] eqn:E; [|discriminate].
  apply qr_cols_flag in E. subst fc'. destruct (init_strided _ _ _ _ _ _); [|discriminate]. intros H. congruence.
Qed.
Lemma max_vscale_zero A : (forall j, (j < length A)%nat -> (1 <= length (nth j A []))%nat /\ forall x, evalT (nth j A []) x = 0) -> max_vscale A = 0.
Proof.
  intros H. apply Rle_antisym.
  - apply max_vscale_le; [lra|]. intros j Hj. destruct (H j Hj) as [L Z]. destruct (vscale_col_attained _ L) as (x & _ & ->). rewrite Z, Rabs_R0. lra.
  - unfold max_vscale. clear H. induction A as [|c A IH]; cbn; [lra|]. eapply Rle_trans; [exact IH|apply Rmax_r].
Qed.
Lemma qr_zero eps0 F : fwf F -> (forall j x, (j < fcols F)%nat -> fev F j x = 0) -> fun_qr eps0 F = None.
Proof.
  intros [(n & HR) Hd] HZ. unfold fun_qr, cheb_qr. enough (E : cheb_qr_cols eps0 (onefun F) = None) by now rewrite E.
  unfold cheb_qr_cols. cbv zeta. destruct (Nat.leb_spec (length (coeffs (onefun F))) 1) as [|Hm]; [reflexivity|].
  assert (Z : forall j, (j < length (coeffs (onefun F)))%nat -> (1 <= length (nth j (coeffs (onefun F)) []))%nat /\ forall x, evalT (nth j (coeffs (onefun F)) []) x = 0).
  { intros j Hj. split; [rewrite (rect_nth n) by assumption; destruct HR; lia|]. intros x. assert (H := HZ j ((dom1 F * (x + 1) + dom0 F * (1 - x)) / 2) Hj). unfold fev, ev in H. rewrite bwd_fwd' in H by exact Hd. exact H. }
  rewrite max_vscale_zero by exact Z. rewrite Rmult_0_r, (rect_nrows n _ HR). set (m := length (coeffs (onefun F))) in *. set (N := (2 * Nat.max n m)%nat).
  destruct (quadwts N) as [w|]; [|reflexivity]. destruct m as [|m'] eqn:Em; [lia|]. unfold abstractQR. cbn [seq qr_loop]. unfold qr_step. cbn [qA qE].
  match goal with |- context [qr_sign 0 (wdot N w ?e ?a) _] => assert (W : wdot N w e a = 0) end.
  { unfold wdot. rewrite (rsum_ext N _ (fun _ => 0)).
    - clear. induction N as [|N IH]; cbn [rsum]; [reflexivity|]. rewrite IH. ring.
    - intros i Hi. cbn beta. unfold polyval, prolong. rewrite map_map. rewrite (nth_map_col (fun c => polyval1 (prolong1 c (Z.of_nat N)))) by (fold m; lia).
      rewrite polyval1_spec by (rewrite prolong1_length, Nat2Z.id; unfold N in *; lia). rewrite evalT_prolong.
      + destruct (Z 0%nat ltac:(lia)) as [_ ->]. ring.
      + rewrite (rect_nth n) by (assumption || (fold m; lia)). unfold N. lia. }
  rewrite W. unfold qr_sign. rewrite Rabs_R0, Rmult_0_l. replace (Rltb 0 0) with false by (symmetry; apply Rltb_false; lra). replace (Reqb 0 0) with true by (symmetry; now apply Reqb_true). reflexivity.
Qed.
(** A chebtech made of two columns of 17 ones is not happy. *)
Lemma chop_ones_17 tol : 0 < tol < 1 -> standardChop (ones 17) tol = Some 17%nat.
Proof.
  intros Ht. unfold standardChop. destruct (Rleb 1 tol) eqn:E1; [apply Rleb_true in E1; lra|]. change (length (ones 17)) with 17%nat. change (Nat.ltb 17 17) with false. cbv iota zeta.
  assert (Hv : forall i, (i < 17)%nat -> nth i (ones 17) 0 = 1).
  { intros i Hi. unfold ones. rewrite (nth_indep _ 0 1) by (rewrite repeat_length; exact Hi). apply nth_repeat. }
  assert (He : forall m i, i = (16 - m)%nat -> (m <= 16)%nat -> nth i (envelope (ones 17)) 0 = 1).
  { induction m as [|m IH]; intros i Hi Hm.
    - rewrite envelope_last by (change (length (ones 17)) with 17%nat; lia). rewrite Hv by lia. apply Rabs_R1.
    - rewrite envelope_step by (change (length (ones 17)) with 17%nat; lia). rewrite Hv by lia. rewrite (IH (S i)) by lia. rewrite Rabs_R1. apply Rmax_left. lra. }
  assert (E0 : nth 0 (envelope (ones 17)) 0 = 1) by (apply (He 16%nat); lia).
  destruct (Reqb (nth 0 (envelope (ones 17)) 0) 0) eqn:EZ; [apply Reqb_true in EZ; lra|]. rewrite normalize_env_eq by lra.
  rewrite scan_return; [reflexivity|rewrite upd_length, envelope_length; reflexivity|lia|lia|].
  intros i Hi Hr. assert (R5 := round125_ge i). rewrite !upd_other by lia. rewrite (He (16 - i)%nat i), (He (16 - round125 i)%nat (round125 i)) by lia. lra.
Qed.
Lemma ones_unhappy : cheb_init [ones 17; ones 17] eps_default 1 maxLength_default false false = Some (mkCheb [ones 17; ones 17] eps_default 1 maxLength_default false).
Proof.
  assert (V : vscale_col (ones 17) <= 17).
  { destruct (vscale_col_attained (ones 17) ltac:(cbn; lia)) as (x & Hx & ->). unfold evalT. eapply Rle_trans; [apply rsum_Rabs|].
    apply Rle_trans with (rsum 17 (fun _ => 1)); [|cbn; lra]. apply rsum_le. intros k Hk. rewrite Rabs_mult. unfold ones. rewrite (nth_indep _ 0 1) by (rewrite repeat_length; exact Hk). rewrite nth_repeat, Rabs_R1, Rmult_1_l. now apply T_bound. }
  assert (E : 0 < eps_default /\ 17 * eps_default < 1) by (unfold eps_default; lra).
  unfold cheb_init. change (Nat.eqb (nrows [ones 17; ones 17] * length [ones 17; ones 17]) 0) with false. cbv iota. unfold happy, happiness_check. change (nrows [ones 17; ones 17]) with 17%nat. change (Nat.ltb 17 17) with false. cbv iota zeta. cbn [map happy_loop].
  rewrite chop_ones_17; [reflexivity|]. assert (L := Rmax_l 1 (vscale_col (ones 17))). assert (U : Rmax 1 (vscale_col (ones 17)) <= 17) by (apply Rmax_lub; lra). nra.
Qed.
