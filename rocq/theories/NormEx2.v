(** x^2 on [0,1]: signed norm, Sobolev norm, normalisation; maximum norm. *)
From Coq Require Import Reals ZArith List Arith Bool Lra Lia.
From Coquelicot Require Import Coquelicot.
From Verif Require Import Base ChebSpec ChebMath ChebDct ChebModel ChebModel2 ChebEval ChebCalc ChebChop ChebObj ChebOps ChebArith ChebConstr ChebRefute RootsMin RootsObj RootsSpec FunModel FunProofs RootsModel RootsEx FqrFun NormSpec NormModel NormProofs NormAlias NormThm NormEx NormSob.
Import ListNotations.
Open Scope R_scope.

Lemma is_RInt_x2 c : is_RInt (fun x => c * x ^ 2) 0 1 (c / 3).
Proof.
  evar_last; [apply (is_RInt_derive (fun x => c * x ^ 3 / 3) (fun x => c * x ^ 2))|].
  - intros x _. auto_derive; [exact I|]. change (@eq R (c * (3 * (x * (x * 1))) * / 3) (c * x ^ 2)) || idtac. field.
  - intros x _. apply (ex_derive_continuous (K := R_AbsRing) (V := R_NormedModule)). auto_derive. exact I.
  - change (c * 1 ^ 3 / 3 - c * 0 ^ 3 / 3 = c / 3). field.
Qed.
Lemma is_RInt_x4 : is_RInt (fun x => x ^ 4) 0 1 (1 / 5).
Proof.
  evar_last; [apply (is_RInt_derive (fun x => x ^ 5 / 5) (fun x => x ^ 4))|].
  - intros x _. auto_derive; [exact I|]. field.
  - intros x _. apply (ex_derive_continuous (K := R_AbsRing) (V := R_NormedModule)). auto_derive. exact I.
  - change (1 ^ 5 / 5 - 0 ^ 5 / 5 = 1 / 5). field.
Qed.
Lemma one_col_power F (g : R -> R) (p : nat) (I : R) : fcols F = 1%nat -> (forall x, dom0 F <= x <= dom1 F -> dom0 F <= dom1 F -> Rabs (fev F 0 x) ^ p = g x) -> dom0 F < dom1 F -> is_RInt g (dom0 F) (dom1 F) I -> Lp_power (dom0 F) (dom1 F) (fcols F) p (fev F) I.
Proof.
  intros C H Hd HI. rewrite C. exists (fun _ => I). split; [|cbn [rsum]; change (@eq R I (0 + I)); ring]. intros j Hj. replace j with 0%nat by lia. eapply is_RInt_ext; [|exact HI]. intros x Hx. rewrite Rmin_left, Rmax_right in Hx by lra. symmetry. apply H; lra.
Qed.
Lemma Lp_sq01 : Lp_power 0 1 1 2 (fev sq01) (1 / 5).
Proof.
  apply (one_col_power sq01 (fun x => x ^ 4) 2 (1 / 5) eq_refl); [|cbn; lra|apply is_RInt_x4]. intros x _ _. rewrite fev_sq01, sqr_abs. ring.
Qed.
Lemma norm_err_small F V : fcols F = 1%nat -> dom1 F - dom0 F = 1 -> (flen F <= 4)%nat -> eps (onefun F) = eps_default -> 0 <= V <= 2 -> Rmax 1 (V ^ 2) * eps (onefun F) < 1 /\ norm_err F 2 V <= 7 / 2 ^ 20.
Proof.
  intros C L HF E HV. assert (Q : 1 <= Rmax 1 (V ^ 2) <= 4) by (split; [apply Rmax_l|apply Rmax_lub; nra]). assert (E0 := eps_default_range). assert (E1 : 4 * eps_default = / 2 ^ 50) by (unfold eps_default; lra).
  rewrite E. split; [assert (/ 2 ^ 50 < 1) by lra; nra|]. unfold norm_err. rewrite C, L, E. set (P := Rpower _ _).
  assert (P1 : P <= / 2 ^ 20) by (apply pow_small; split; nra). assert (P0 : 0 < P) by apply exp_pos.
  assert (N : INR (2 * (flen F - 1) + 1) <= 7) by (replace 7 with (INR 7) by (simpl; lra); apply le_INR; lia). assert (N0 := pos_INR (2 * (flen F - 1) + 1)). change (INR 1) with 1. rewrite !Rmult_1_l. unfold Rdiv. nra.
Qed.
Lemma sturm_sq01 : fun_sturm_norm sq01 2 = Some [0] /\ exists v, fun_norm sq01 2 = Some v /\ / 4 < v.
Proof.
  destruct diff_sq01 as (D & ED & WD & (S0 & S1) & CD & LD & PD & HD). cbn [dom0 dom1 sq01] in S0, S1.
  destruct (norm_err_small D 2 CD ltac:(rewrite S0, S1; ring) LD PD ltac:(lra)) as [B1 B2].
  destruct (norm_err_small sq01 1 eq_refl ltac:(cbn; ring) ltac:(cbn; lia) eq_refl ltac:(lra)) as [B3 B4].
  destruct (norm_even_near D 2 2 WD ltac:(lia) eq_refl ltac:(lia) ltac:(rewrite PD; apply eps_default_range)) as (dn & En & dn0 & I & HI & Hdn).
  { intros j x Hj Hx. rewrite S0, S1 in Hx. replace j with 0%nat by lia. rewrite HD. apply Rabs_le. lra. }
  { exact B1. }
  fold (norm_err D 2 2) in Hdn.
  assert (EI : I = 4 / 3). { eapply Lp_unique; [exact HI|]. apply (one_col_power D (fun x => 4 * x ^ 2)); [exact CD| |destruct WD; assumption|rewrite S0, S1; apply is_RInt_x2]. intros x _ _. rewrite HD, sqr_abs. ring. }
  destruct (norm_even_near sq01 2 1 fwf_sq01 ltac:(lia) eq_refl ltac:(cbn; lia) eps_default_range) as (v & Ev & v0 & I' & HI' & Hv).
  { intros j x Hj Hx. change (fcols sq01) with 1%nat in Hj. replace j with 0%nat by lia. rewrite fev_sq01. cbn [dom0 dom1 sq01] in Hx. apply Rabs_le. nra. }
  { exact B3. }
  fold (norm_err sq01 2 1) in Hv. assert (EI' : I' = 1 / 5) by (eapply Lp_unique; [exact HI'|exact Lp_sq01]).
  assert (S20 : 7 / 2 ^ 20 < 1 / 100) by lra. rewrite EI in Hdn. rewrite EI' in Hv. apply Rabs_le_between in Hdn, Hv.
  split; [|exists v; split; [exact Ev|nra]].
  unfold fun_sturm_norm. rewrite ED, En, Ev. destruct (Rltb (/ 10 ^ 7) dn) eqn:EL.
  - destruct (left_values_spec D WD) as (l & El & Ll & Hl). rewrite El. cbn [option_map]. rewrite CD in Ll. destruct l as [|a [|b l]]; try discriminate. specialize (Hl 0%nat ltac:(lia)). cbn [nth] in Hl. rewrite S0, HD in Hl. cbn [map]. rewrite Hl. do 2 f_equal. rewrite Rmult_0_r, sign_0. ring.
  - apply Rltb_false in EL. exfalso. assert (/ 10 ^ 7 < 1) by lra. nra.
Qed.

(** ** maximum norm *)
Lemma fold_Rmax_ge l x : In x l -> x <= fold_right Rmax 0 l.
Proof. induction l as [|a l IH]; [intros []|]. intros [->|H]; cbn [fold_right]; [apply Rmax_l|]. eapply Rle_trans; [now apply IH|apply Rmax_r]. Qed.
Lemma fold_Rmax_in l : l <> [] -> (forall x, In x l -> 0 <= x) -> In (fold_right Rmax 0 l) l.
Proof.
  induction l as [|a l IH]; [congruence|]. intros _ H. cbn [fold_right]. destruct l as [|b l].
  - cbn. left. rewrite Rmax_left; [reflexivity|]. apply H. now left.
  - unfold Rmax at 1. destruct (Rle_dec a _) as [L|L]; [|now left]. right. apply IH; [discriminate|]. intros x Hx. apply H. now right.
Qed.
Lemma norm_inf_correct eigs fuel F res : fwf F -> cheb_minandmax eigs fuel (onefun F) = Some res -> length res = fcols F ->
  (forall j, (j < fcols F)%nat -> extrema (evalT (nth j (coeffs (onefun F)) [])) (nth j res ((0, 0), (0, 0)))) ->
  exists v, fun_norm_inf eigs fuel F = Some v /\ sup_norm (dom0 F) (dom1 F) (fcols F) (fev F) v.
Proof.
  intros [W Hd] E L H. unfold fun_norm_inf. rewrite E. cbn [option_map]. set (l := map _ res). exists (fold_right Rmax 0 l). split; [reflexivity|].
  set (q := fun r : (R * R) * (R * R) => Rmax (Rabs (fst (fst r))) (Rabs (fst (snd r)))) in *.
  assert (Ll : length l = fcols F) by (unfold l; rewrite map_length; exact L).
  assert (Nl : forall j, (j < fcols F)%nat -> nth j l 0 = q (nth j res ((0, 0), (0, 0)))).
  { intros j Hj. unfold l. rewrite (nth_indep _ 0 (q ((0, 0), (0, 0)))) by (rewrite map_length; lia). apply map_nth. }
  split.
  - intros j x Hj Hx. eapply Rle_trans; [|apply (fold_Rmax_ge l (nth j l 0)); apply nth_In; rewrite Ll; exact Hj]. rewrite Nl by exact Hj. unfold fev, ev. assert (T1 := bwd_ref F x Hd Hx). set (t := _ / _) in *.
    specialize (H j Hj). destruct (nth j res ((0, 0), (0, 0))) as [[m a] [M b]]. destruct H as ((_ & _ & H1) & (_ & _ & H2)). specialize (H1 t T1). specialize (H2 t T1). unfold q. cbn [fst snd].
    set (y := evalT _ t) in *. clearbody y. clear - H1 H2. unfold Rmax. destruct (Rle_dec (Rabs m) (Rabs M)) as [r|r]; revert H1 H2 r; unfold Rabs; repeat destruct Rcase_abs; intros; lra.
  - assert (Hin : In (fold_right Rmax 0 l) l).
    { apply fold_Rmax_in; [intros E0; rewrite E0 in Ll; cbn in Ll; assert (A := wf_cols _ W); unfold fcols in Ll; lia|]. intros x Hx. unfold l in Hx. apply in_map_iff in Hx. destruct Hx as (r & <- & _). eapply Rle_trans; [apply Rabs_pos|apply Rmax_l]. }
    apply (In_nth _ _ 0) in Hin. destruct Hin as (j & Hj & <-). rewrite Ll in Hj. rewrite Nl by exact Hj. exists j. specialize (H j Hj). destruct (nth j res ((0, 0), (0, 0))) as [[m a] [M b]]. destruct H as ((A1 & A2 & _) & (B1 & B2 & _)). unfold q. cbn [fst snd].
    unfold Rmax. destruct (Rle_dec _ _).
    + exists ((dom1 F * (b + 1) + dom0 F * (1 - b)) / 2). split; [exact Hj|]. split; [now apply fwd_dom|]. unfold fev, ev. rewrite bwd_fwd' by exact Hd. now rewrite B2.
    + exists ((dom1 F * (a + 1) + dom0 F * (1 - a)) / 2). split; [exact Hj|]. split; [now apply fwd_dom|]. unfold fev, ev. rewrite bwd_fwd' by exact Hd. now rewrite A2.
Qed.
Lemma norm_inf_quad eigs fuel : exists v, fun_norm_inf eigs (S fuel) (mkFun (mkCheb [[1 / 4; 3; 1 / 4]] eps_default 1 maxLength_default true) (-1) 1) = Some v /\ 9 / 2 <= v.
Proof.
  destruct (quad_minmax eigs fuel) as [M E]. unfold fun_norm_inf. cbn [onefun]. change (mkCheb [[1 / 4; 3; 1 / 4]] eps_default 1 maxLength_default true) with (onecol quad true). rewrite E. cbn [option_map map fold_right fst]. eexists. split; [reflexivity|].
  eapply Rle_trans; [|apply Rmax_l]. eapply Rle_trans; [|apply Rmax_l]. rewrite Rabs_left by lra. lra.
Qed.
