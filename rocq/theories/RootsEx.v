(** Concrete cases for root finding and extrema. *)
From Coq Require Import Reals ZArith List Arith Bool Lra Lia.
From Coquelicot Require Import Coquelicot.
From Verif Require Import CosSums Base ChebSpec ChebMath ChebModel ChebEval ChebDct ChebCalc ChebChop ChebObj TrigSpec TrigBase RootsSpec RootsModel RootsColl RootsProofs RootsObj RootsObj2 RootsMin RootsExist ToolsProofs.
Import ListNotations.
Open Scope R_scope.

Definition onecol (c : list R) (hp : bool) : chebtech := mkCheb [c] eps_default 1 maxLength_default hp.
Lemma eps_default_range : 0 < eps_default < 1.
Proof. unfold eps_default. split; [apply Rinv_0_lt_compat; lra|]. rewrite <- Rinv_1. apply Rinv_lt_contravar; lra. Qed.
(** eps^(2/5) < 2^-20 *)
Lemma eps_default_pow : Rpower eps_default (2 / 5) < / 2 ^ 20.
Proof.
  replace eps_default with (Rpower 2 (Ropp 52)).
  2:{ unfold eps_default. rewrite Rpower_Ropp. f_equal. replace 52 with (INR 52) by (simpl; lra). rewrite Rpower_pow by lra. reflexivity. }
  replace (/ 2 ^ 20) with (Rpower 2 (Ropp 20)).
  2:{ rewrite Rpower_Ropp. f_equal. replace 20 with (INR 20) by (simpl; lra). rewrite Rpower_pow by lra. reflexivity. }
  rewrite Rpower_mult. apply Rpower_lt; lra.
Qed.
Lemma rect_onecol c : (1 <= length c)%nat -> rect (length c) [c].
Proof. intros H. unfold rect. split; [exact H|]. split; [discriminate|]. constructor; [reflexivity|constructor]. Qed.

(** ** a linear function without a zero in [-1,1] *)
Lemma simplify_onecol c K : (1 <= K)%nat -> (K <= length c)%nat -> / 2 ^ 20 <= Rabs (nth (K - 1) c 0) ->
  exists K', (K <= K')%nat /\ cheb_simplify (onecol c true) = Some (onecol (prolong1 c (Z.of_nat K')) true).
Proof.
  intros HK HL H. unfold cheb_simplify. cbn [ishappy onecol coeffs eps].
  destruct (simplify_coeffs_spec (length c) [c] eps_default (rect_onecol c ltac:(lia))) as (K' & RK & E & D).
  exists K'. split.
  - destruct (le_lt_dec K K') as [G|G]; [exact G|]. specialize (D eps_default_range 0%nat (K - 1)%nat ltac:(lia)). cbn [nth] in D. assert (P := eps_default_pow). lra.
  - fold (onecol c true). cbn [coeffs onecol]. rewrite E. reflexivity.
Qed.
Lemma prolong1_nth c K k : nth k (prolong1 c (Z.of_nat K)) 0 = if Nat.ltb k K then nth k c 0 else 0.
Proof.
  unfold prolong1. destruct (Z.eqb_spec (Z.of_nat K - Z.of_nat (length c)) 0) as [E|N].
  - destruct (Nat.ltb_spec k K); [reflexivity|]. apply nth_overflow. lia.
  - destruct (Z.ltb_spec 0 (Z.of_nat K - Z.of_nat (length c))).
    + rewrite Nat2Z.id. destruct (Nat.ltb_spec k K).
      * rewrite nth_mk by assumption. destruct (Nat.ltb_spec k (length c)); [reflexivity|]. rewrite nth_overflow by lia. reflexivity.
      * apply nth_overflow. rewrite mk_length. lia.
    + rewrite Z.max_l by lia. rewrite Nat2Z.id. destruct (Nat.ltb_spec k K).
      * apply nth_firstn_lt. assumption.
      * apply nth_overflow. rewrite firstn_length. lia.
Qed.
Lemma prolong1_len c K : length (prolong1 c (Z.of_nat K)) = K.
Proof. rewrite prolong1_length, Nat2Z.id. reflexivity. Qed.
Lemma norm1_prolong1 c K : norm1 (prolong1 c (Z.of_nat K)) = rsum K (fun k => Rabs (nth k c 0)).
Proof. unfold norm1. rewrite prolong1_len. apply rsum_ext. intros k Hk. rewrite prolong1_nth. destruct (Nat.ltb_spec k K); [reflexivity|lia]. Qed.
Lemma rsum_ge2 K (g : nat -> R) : (2 <= K)%nat -> (forall k, 0 <= g k) -> g 0%nat + g 1%nat <= rsum K g.
Proof.
  intros H P. replace K with (2 + (K - 2))%nat by lia. rewrite rsum_app. cbn [rsum].
  assert (Q : 0 <= rsum (K - 2) (fun k => g (2 + k)%nat)) by (apply rsum_nonneg; intros; apply P). lra.
Qed.
Lemma rsum_le3 K (g : nat -> R) : (forall k, (3 <= k)%nat -> g k = 0) -> (forall k, 0 <= g k) -> rsum K g <= g 0%nat + g 1%nat + g 2%nat.
Proof.
  intros H P. destruct (le_lt_dec 3 K) as [G|G].
  - replace K with (3 + (K - 3))%nat by lia. rewrite rsum_app. cbn [rsum]. rewrite (rsum_zero (K - 3)); [lra|]. intros k Hk. apply H. lia.
  - assert (A := P 0%nat). assert (B := P 1%nat). assert (C := P 2%nat). destruct K as [|[|[|]]]; cbn [rsum]; try lia; lra.
Qed.
Lemma nth_tail0 (c : list R) k : (length c <= k)%nat -> Rabs (nth k c 0) = 0.
Proof. intros H. rewrite nth_overflow by exact H. apply Rabs_R0. Qed.
(** T_1 + a T_0 + d T_2 with small d *)
Lemma lin_roots eigs fuel a b d : Rabs a <= 3 -> Rabs b = 1 -> Rabs d <= 7 / 10 ^ 8 ->
  exists g, cheb_roots eigs (S fuel) (onecol [a; b; d] true) = Some (g, [[- a / b]]).
Proof.
  intros Ha Hb Hd. destruct (simplify_onecol [a; b; d] 2) as (K & HK & E); [lia|cbn; lia|cbn [nth Nat.sub]; rewrite Hb; rewrite <- Rinv_1; apply Rinv_le_contravar; lra|].
  set (g := onecol (prolong1 [a; b; d] (Z.of_nat K)) true) in *. exists g. unfold cheb_roots. rewrite E. cbn [coeffs g onecol map eps].
  set (c := prolong1 [a; b; d] (Z.of_nat K)).
  assert (N : norm1 c <= 4 + 7 / 10 ^ 8 /\ 1 <= norm1 c).
  { unfold c. rewrite norm1_prolong1. split.
    - eapply Rle_trans; [apply rsum_le3; [intros k Hk; apply nth_tail0; exact Hk|intros k; apply Rabs_pos]|]. cbn [nth]. lra.
    - eapply Rle_trans; [|apply rsum_ge2; [exact HK|intros k; apply Rabs_pos]]. cbn [nth]. assert (P := Rabs_pos a). lra. }
  assert (NN : forall k, nth k c 0 = if Nat.ltb k K then nth k [a; b; d] 0 else 0) by (intros k; apply prolong1_nth).
  assert (N0 : nth 0 c 0 = a) by (rewrite NN; destruct (Nat.ltb_spec 0 K); [reflexivity|lia]).
  assert (N1 : nth 1 c 0 = b) by (rewrite NN; destruct (Nat.ltb_spec 1 K); [reflexivity|lia]).
  rewrite roots_scalar_linear.
  - cbn [all_opt option_map]. rewrite N0, N1. reflexivity.
  - unfold c. rewrite prolong1_len. exact HK.
  - rewrite N1, Hb. unfold eps0. lra.
  - intros k Hk. rewrite NN. destruct (Nat.ltb_spec k K).
    + destruct k as [|[|[|k]]]; [lia|lia|cbn [nth]; unfold eps0; lra|]. rewrite nth_overflow by (cbn; lia). rewrite Rabs_R0. unfold eps0. lra.
    + rewrite Rabs_R0. unfold eps0. lra.
Qed.
Lemma lin_roots2 eigs fuel a b : Rabs a <= 3 -> Rabs b = 1 -> exists g, cheb_roots eigs (S fuel) (onecol [a; b] true) = Some (g, [[- a / b]]).
Proof.
  intros Ha Hb. destruct (simplify_onecol [a; b] 2) as (K & HK & E); [lia|cbn; lia|cbn [nth Nat.sub]; rewrite Hb; rewrite <- Rinv_1; apply Rinv_le_contravar; lra|].
  set (g := onecol (prolong1 [a; b] (Z.of_nat K)) true) in *. exists g. unfold cheb_roots. rewrite E. cbn [coeffs g onecol map eps].
  set (c := prolong1 [a; b] (Z.of_nat K)).
  assert (N : norm1 c <= 4 /\ 1 <= norm1 c).
  { unfold c. rewrite norm1_prolong1. split.
    - eapply Rle_trans; [apply rsum_le3; [intros k Hk; apply nth_tail0; cbn; lia|intros k; apply Rabs_pos]|]. cbn [nth]. rewrite Rabs_R0. lra.
    - eapply Rle_trans; [|apply rsum_ge2; [exact HK|intros k; apply Rabs_pos]]. cbn [nth]. assert (P := Rabs_pos a). lra. }
  assert (NN : forall k, nth k c 0 = if Nat.ltb k K then nth k [a; b] 0 else 0) by (intros k; apply prolong1_nth).
  assert (N0 : nth 0 c 0 = a) by (rewrite NN; destruct (Nat.ltb_spec 0 K); [reflexivity|lia]).
  assert (N1 : nth 1 c 0 = b) by (rewrite NN; destruct (Nat.ltb_spec 1 K); [reflexivity|lia]).
  rewrite roots_scalar_linear.
  - cbn [all_opt option_map]. rewrite N0, N1. reflexivity.
  - unfold c. rewrite prolong1_len. exact HK.
  - rewrite N1, Hb. unfold eps0. lra.
  - intros k Hk. rewrite NN. destruct (Nat.ltb_spec k K).
    + rewrite nth_overflow by (cbn; lia). rewrite Rabs_R0. unfold eps0. lra.
    + rewrite Rabs_R0. unfold eps0. lra.
Qed.
(** ** two columns, the second identically zero *)
Definition xzero : chebtech := mkCheb [[0; 1]; [0; 0]] eps_default 1 maxLength_default true.
Lemma vscale_zero n : (2 <= n)%nat -> vscale_col (mk n (fun _ => 0)) = 0.
Proof.
  intros H. unfold vscale_col. rewrite mk_length. destruct (Nat.eqb_spec n 1); [lia|].
  assert (Z : forall k, nth k (polyval1 (mk n (fun _ => 0))) 0 = 0).
  { intros k. destruct (le_lt_dec n k) as [G|G]; [apply nth_overflow; rewrite polyval1_length, mk_length; exact G|].
    rewrite polyval1_spec by (rewrite mk_length; lia). rewrite evalT_mk. apply rsum_zero. intros i Hi. ring. }
  revert Z. generalize (polyval1 (mk n (fun _ => 0))). induction l as [|a l IH]; intros Z; [reflexivity|]. unfold fmax_abs. cbn [fold_right]. fold (fmax_abs l).
  rewrite IH by (intros k; apply (Z (S k))). rewrite (Z 0%nat : a = 0). rewrite Rabs_R0. apply Rmax_left. lra.
Qed.
Lemma xzero_raises eigs fuel : cheb_roots eigs fuel xzero = None.
Proof.
  unfold cheb_roots, cheb_simplify. cbn [ishappy xzero].
  assert (RR : rect 2 (coeffs xzero)) by (unfold rect; cbn; split; [lia|]; split; [discriminate|]; repeat constructor).
  destruct (simplify_coeffs_spec 2 (coeffs xzero) eps_default RR) as (K & RK & E & D). cbn [coeffs xzero] in E. cbn [coeffs xzero eps]. rewrite E. cbn [option_map].
  assert (HK : (2 <= K)%nat).
  { destruct (le_lt_dec 2 K) as [G|G]; [exact G|]. specialize (D eps_default_range 0%nat 1%nat ltac:(lia)). cbn [nth xzero coeffs] in D. rewrite Rabs_R1 in D.
    assert (P := eps_default_pow). assert (/ 2 ^ 20 < 1) by (rewrite <- Rinv_1; apply Rinv_lt_contravar; lra). lra. }
  unfold prolong. cbn [map coeffs eps].
  assert (EZ : prolong1 [0; 0] (Z.of_nat K) = mk K (fun _ => 0)).
  { apply (nth_ext _ _ 0 0); [rewrite prolong1_len, mk_length; reflexivity|]. intros k Hk. rewrite prolong1_len in Hk. rewrite prolong1_nth, nth_mk by exact Hk.
    destruct (Nat.ltb k K); [|reflexivity]. destruct k as [|[|[|k]]]; reflexivity. }
  assert (EN : roots_scalar eigs fuel eps_default (prolong1 [0; 0] (Z.of_nat K)) = None).
  { rewrite EZ. unfold roots_scalar. rewrite mk_length. destruct (Nat.eqb_spec K 1); [lia|]. rewrite vscale_zero by exact HK.
    unfold Reqb. destruct (Req_EM_T 0 0); [reflexivity|contradiction]. }
  rewrite EN. cbn [all_opt]. destruct (roots_scalar eigs fuel eps_default (prolong1 [0; 1] (Z.of_nat K))); reflexivity.
Qed.
(** ** x^2/2 + 3x *)
Definition quad : list R := [1 / 4; 3; 1 / 4].
Lemma quad_eval x : evalT quad x = x * x / 2 + 3 * x.
Proof. unfold evalT, quad. cbn. field. Qed.
Lemma quad_derive (t : R) : is_derive (evalT quad) t (t + 3).
Proof. apply is_derive_ext with (fun x => x * x / 2 + 3 * x); [intros; symmetry; apply quad_eval|]. auto_derive; [exact I|]. field. Qed.
Lemma quad_minmax eigs fuel : exists e2, cheb_minandmax eigs (S fuel) (onecol quad true) = Some [((- (9 / 2), -3), e2)].
Proof.
  rewrite cheb_minandmax_eq. unfold cheb_diff. cbn [coeffs onecol eps hscale maxLength ishappy].
  assert (RQ := rect_onecol quad ltac:(cbn; lia)). cbn [length quad] in RQ.
  destruct (simplify_coeffs_spec 3 [quad] eps_default RQ) as (K & RK & E & D). rewrite E.
  assert (KK : (3 <= K)%nat).
  { destruct (le_lt_dec 3 K) as [G|G]; [exact G|]. specialize (D eps_default_range 0%nat 2%nat ltac:(lia)). cbn [nth quad] in D. rewrite Rabs_pos_eq in D by lra.
    assert (P := eps_default_pow). assert (/ 2 ^ 20 < 1 / 4) by lra. lra. }
  assert (RP := rect_prolong 3 [quad] K RQ ltac:(lia)). rewrite (rect_nrows _ _ RP).
  destruct (Nat.leb_spec K 1); [lia|]. unfold computeDerCoeffs. rewrite (rect_nrows _ _ RP).
  destruct (Nat.leb_spec 2 K); [|lia]. cbn [Nat.sub iter_der]. unfold prolong. cbn [map].
  set (b := computeDerCoeffs1 (prolong1 quad (Z.of_nat K))).
  assert (Lb : length b = (K - 1)%nat) by (unfold b; rewrite computeDerCoeffs1_length, prolong1_len; reflexivity).
  assert (RB : rect (K - 1) [b]) by (rewrite <- Lb; apply rect_onecol; lia).
  destruct (cheb_init_some (K - 1) [b] eps_default 1 maxLength_default true RB) as (hp & EB & Ehp). rewrite EB. rewrite (Ehp eq_refl). clear hp EB Ehp.
  fold (onecol b true). cbn [length].
  assert (Hb : forall k, nth k b 0 = nth k [3; 1] 0).
  { apply coef_unique. intros x. unfold b.
    assert (P : forall u, evalT (prolong1 quad (Z.of_nat K)) u = evalT quad u).
    { intros u. apply evalT_same. intros k. rewrite prolong1_nth. destruct (Nat.ltb_spec k K); [reflexivity|]. rewrite nth_overflow by (cbn; lia). reflexivity. }
    assert (X := computeDerCoeffs1_correct (prolong1 quad (Z.of_nat K)) x ltac:(rewrite prolong1_len; lia)).
    assert (Y : is_derive (evalT (prolong1 quad (Z.of_nat K))) x (x + 3)) by (apply is_derive_ext with (evalT quad); [intros u; symmetry; apply P|apply quad_derive]).
    rewrite <- (is_derive_unique _ _ _ X). rewrite (is_derive_unique _ _ _ Y). unfold evalT. cbn. ring. }
  cbn [mk seq map]. change (mk 1 (col_result eigs (S fuel) (onecol quad true) (onecol b true))) with [col_result eigs (S fuel) (onecol quad true) (onecol b true) 0].
  unfold col_result. cbn [coeffs onecol length Nat.eqb nth].
  destruct (simplify_onecol b 2) as (K2 & HK2 & E2); [lia|lia|rewrite Hb; cbn [nth Nat.sub]; rewrite Rabs_R1; rewrite <- Rinv_1; apply Rinv_le_contravar; lra|].
  unfold cheb_roots. fold (onecol b true). rewrite E2. cbn [coeffs onecol map eps].
  set (c := prolong1 b (Z.of_nat K2)).
  assert (NN : forall k, nth k c 0 = if Nat.ltb k K2 then nth k [3; 1] 0 else 0) by (intros k; unfold c; rewrite prolong1_nth, Hb; reflexivity).
  assert (N0 : nth 0 c 0 = 3) by (rewrite NN; destruct (Nat.ltb_spec 0 K2); [reflexivity|lia]).
  assert (N1 : nth 1 c 0 = 1) by (rewrite NN; destruct (Nat.ltb_spec 1 K2); [reflexivity|lia]).
  assert (Lc : length c = K2) by (unfold c; apply prolong1_len).
  assert (N : norm1 c <= 4 /\ 4 <= norm1 c).
  { unfold norm1. rewrite Lc. split.
    - eapply Rle_trans; [apply rsum_le3; [intros k Hk; rewrite NN, (nth_overflow [3;1]) by (cbn; lia); destruct (Nat.ltb k K2); apply Rabs_R0|intros k; apply Rabs_pos]|].
      cbv beta. rewrite N0, N1, NN. cbn [nth]. destruct (Nat.ltb 2 K2); rewrite Rabs_R0, Rabs_R1, Rabs_pos_eq; lra.
    - eapply Rle_trans; [|apply rsum_ge2; [exact HK2|intros k; apply Rabs_pos]]. cbv beta. rewrite N0, N1, Rabs_R1, Rabs_pos_eq; lra. }
  rewrite roots_scalar_linear.
  - cbn [all_opt option_map nth]. rewrite N0, N1. replace (Ropp 3 / 1) with (-3) by lra.
    unfold minandmax_col. set (cm := col_max _ _ _ _). exists cm. do 3 f_equal.
    assert (HC : forall x, clenshaw_pt quad x = x * x / 2 + 3 * x) by (intros x; rewrite clenshaw_pt_correct by (cbn; lia); apply quad_eval).
    unfold col_min. assert (EA : amin (-1) ([-3] ++ [1]) (clenshaw_pt quad) = -3).
    { cbn [app amin]. rewrite !HC. replace (Rltb _ _) with true by (symmetry; apply Rltb_true; lra). replace (Rltb _ _) with false by (symmetry; apply Rltb_false; lra). reflexivity. }
    rewrite EA, HC. assert (S := min_of_values_spec (-3 * -3 / 2 + 3 * -3) (polyval1 quad)). destruct (min_of_values _ _) as [k|].
    + exfalso. destruct S as (S1 & S2 & _). rewrite polyval1_length in S1. rewrite polyval1_spec, quad_eval in S2 by (cbn in *; lia).
      assert (X : -1 <= nth k (chebpts_type2_compute (length quad)) 0 <= 1) by (rewrite chebpts_nth by (cbn in *; lia); apply COS_bound). nra.
    + f_equal. lra.
  - lia.
  - rewrite N1, Rabs_R1. unfold eps0. lra.
  - intros k Hk. rewrite NN, (nth_overflow [3; 1]) by (cbn; lia). destruct (Nat.ltb k K2); rewrite Rabs_R0; unfold eps0; lra.
Qed.
