(** Norms of functions (C131-C137). *)
From Coq Require Import Reals ZArith List Arith Bool Lra Lia.
From Coquelicot Require Import Coquelicot.
From Verif Require Import Base ChebSpec ChebMath ChebModel ChebModel2 ChebEval ChebObj ChebOps ChebRefute ChebChop FunModel FunProofs RootsSpec RootsModel RootsProofs RootsObj RootsMin RootsEx PropRoots NormSpec NormModel NormProofs NormAlias NormThm NormEx NormSob NormEx2.
Import ListNotations.
Open Scope R_scope.

(** ** C131: the L^p norm, p even *)
(** C131: at most 8/p+1 coefficients per column, |f| <= V: norm(f, p) is the L^p norm of all
    columns together; its p-th power is exact up to the truncation of f^p. *)
Theorem C131_even_norm_partial : forall F p V, fwf F -> (2 <= p)%nat -> Nat.even p = true -> (p * (flen F - 1) <= 8)%nat -> 0 < eps (onefun F) < 1 ->
  (forall j x, (j < fcols F)%nat -> dom0 F <= x <= dom1 F -> Rabs (fev F j x) <= V) -> Rmax 1 (V ^ p) * eps (onefun F) < 1 ->
  exists v, fun_norm F p = Some v /\ Lp_norm_near (dom0 F) (dom1 F) (fcols F) p (fev F) v
    (INR (fcols F) * ((dom1 F - dom0 F) * (INR (p * (flen F - 1) + 1) * Rpower (Rmax 1 (V ^ p) * eps (onefun F)) (2 / 5)))).
Proof. exact norm_even_near. Qed.
Print Assumptions C131_even_norm_partial.
(** T_16 on [-1,1]: norm(f)^2 = 2, but the integral of f^2 is 1022/1023 *)
Theorem C131_aliasing_refuted : exists F v, fwf F /\ fcols F = 1%nat /\ (forall x, fev F 0 x = T 16 x) /\ fun_norm F 2 = Some v /\ v ^ 2 = 2 /\
  forall I, Lp_power (dom0 F) (dom1 F) (fcols F) 2 (fev F) I -> I = 1022 / 1023.
Proof.
  destruct norm_T16 as (_ & v & Ev & Hv & _). exists (tfun 16), v. split; [apply fwf_tfun|]. split; [reflexivity|]. split; [apply fev_tfun|]. split; [exact Ev|]. split; [exact Hv|]. exact Lp_T16.
Qed.
Print Assumptions C131_aliasing_refuted.
(** x^2 on [0,1], p = 2 *)
Example ex_C131 : fwf sq01 /\ (2 * (flen sq01 - 1) <= 8)%nat /\ (forall j x, (j < fcols sq01)%nat -> dom0 sq01 <= x <= dom1 sq01 -> Rabs (fev sq01 j x) <= 1) /\ Rmax 1 (1 ^ 2) * eps (onefun sq01) < 1 /\ fev sq01 0 (1 / 2) = 1 / 4.
Proof.
  split; [apply fwf_sq01|]. split; [cbn; lia|]. split; [|split].
  - intros j x Hj Hx. change (fcols sq01) with 1%nat in Hj. replace j with 0%nat by lia. rewrite fev_sq01. cbn [dom0 dom1 sq01] in Hx. apply Rabs_le. nra.
  - apply (norm_err_small sq01 1 eq_refl); [cbn; ring|cbn; lia|reflexivity|lra].
  - rewrite fev_sq01. field.
Qed.

(** ** C132: the L^1 norm *)
(** C132: at most 513 coefficients, no column changes sign: norm(f, 1) is the sum of the integrals
    of |f_j| up to truncation *)
Theorem C132_one_norm_partial : forall F V, fwf F -> (flen F <= 513)%nat -> 0 < eps (onefun F) < 1 ->
  (forall j, (j < fcols F)%nat -> (forall x, dom0 F <= x <= dom1 F -> 0 <= fev F j x) \/ (forall x, dom0 F <= x <= dom1 F -> fev F j x <= 0)) ->
  (forall j x, (j < fcols F)%nat -> dom0 F <= x <= dom1 F -> Rabs (fev F j x) <= V) -> Rmax 1 V * eps (onefun F) < 1 ->
  exists s I, fun_norm F 1 = Some s /\ fun_norm2 F 1 = Some s /\ Lp_power (dom0 F) (dom1 F) (fcols F) 1 (fev F) I /\
    Rabs (s - I) <= INR (fcols F) * ((dom1 F - dom0 F) * (INR (flen F) * Rpower (Rmax 1 V * eps (onefun F)) (2 / 5))).
Proof.
  intros F V W H1 H2 H3 H4 H5. destruct (norm2_one_near F V W H1 H2 H3 H4 H5) as (s & I & A & B & C & D). exists s, I. auto.
Qed.
Print Assumptions C132_one_norm_partial.
(** T_8 on [-1,1]: norm(f, 1) = 2, but the integral of |f| is below 3/2 *)
Theorem C132_aliasing_refuted : exists F, fwf F /\ fcols F = 1%nat /\ (forall x, fev F 0 x = T 8 x) /\ fun_norm F 1 = Some 2 /\
  forall I, Lp_power (dom0 F) (dom1 F) (fcols F) 1 (fev F) I -> I < 3 / 2.
Proof.
  exists (tfun 8). split; [apply fwf_tfun|]. split; [reflexivity|]. split; [apply fev_tfun|]. split; [exact norm_T8|]. exact Lp_T8.
Qed.
Print Assumptions C132_aliasing_refuted.
(** abs(f) and every norm of odd index raise from 514 coefficients on *)
Theorem C132_long_refuted : forall F p, fwf F -> (514 <= flen F)%nat -> fun_absolute F = None /\ (Nat.odd p = true -> fun_norm F p = None /\ fun_norm2 F p = None).
Proof.
  intros F p W H. assert (A := fun_absolute_long F W H). split; [exact A|]. intros Hp.
  assert (E : norm2_detail F p = None) by (unfold norm2_detail; rewrite A, Hp; destruct (Nat.eqb p 1); reflexivity).
  unfold fun_norm, fun_norm2, norm_detail. rewrite E. destruct (Nat.eqb p 0); split; reflexivity.
Qed.
Print Assumptions C132_long_refuted.
Example ex_C132 : forall j, (j < fcols sq01)%nat -> (forall x, dom0 sq01 <= x <= dom1 sq01 -> 0 <= fev sq01 j x) \/ (forall x, dom0 sq01 <= x <= dom1 sq01 -> fev sq01 j x <= 0).
Proof. intros j Hj. left. intros x _. change (fcols sq01) with 1%nat in Hj. replace j with 0%nat by lia. rewrite fev_sq01. nra. Qed.
Example ex_C132_long : fwf (tfun 600) /\ (514 <= flen (tfun 600))%nat.
Proof. split; [apply fwf_tfun|]. unfold flen, len. cbn [onefun tfun tcheb coeffs]. unfold nrows. cbn [hd]. rewrite app_length, repeat_length. cbn. lia. Qed.

(** ** C133: the maximum norm *)
Lemma all_opt_some {A} (l : list (option A)) : (forall j, (j < length l)%nat -> nth j l None <> None) -> exists r, all_opt l = Some r.
Proof.
  induction l as [|a l IH]; intros H; [exists []; reflexivity|]. cbn [all_opt]. assert (H0 := H 0%nat ltac:(cbn; lia)). cbn [nth] in H0. destruct a as [a|]; [|congruence].
  destruct IH as [r Er]; [intros j Hj; apply (H (S j)); cbn; lia|]. rewrite Er. exists (a :: r). reflexivity.
Qed.
(** C133: under the conditions of C126 for every column, norm(f, inf) is the largest |f_j(x)| on the
    domain *)
Theorem C133_max_norm_partial : forall eigs fuel F n, rect n (coeffs (onefun F)) -> dom0 F < dom1 F -> 0 < eps (onefun F) < 1 -> (3 <= n <= 51)%nat ->
  (forall j, (j < fcols F)%nat -> let c := nth j (coeffs (onefun F)) [] in exists d,
     Rpower (eps (onefun F)) (2 / 5) < Rabs (nth (n - 1) c 0) /\ (forall t, is_derive (evalT c) t (evalT d t)) /\ length d = (n - 1)%nat /\
     Rpower (eps (onefun F)) (2 / 5) < Rabs (nth (n - 2) d 0) /\ 5 * (148 / 10 ^ 10) * norm1 d < Rabs (nth (n - 2) d 0) /\
     ((4 <= n)%nat -> eig_ok eigs d) /\ zeros_clear (100 * eps (onefun F)) d) ->
  exists v, fun_norm_inf eigs (S fuel) F = Some v /\ sup_norm (dom0 F) (dom1 F) (fcols F) (fev F) v.
Proof.
  intros eigs fuel F n HR Hd He Hn H. set (f := onefun F) in *. assert (W : fwf F) by (split; [exists n; exact HR|exact Hd]).
  assert (M : exists res, cheb_minandmax eigs (S fuel) f = Some res /\ length res = fcols F).
  { rewrite cheb_minandmax_eq. assert (C1 : (0 < fcols F)%nat) by apply (wf_cols _ (proj1 W)).
    destruct (H 0%nat C1) as (d & A1 & A2 & A3 & A4 & A5 & A6 & A7). destruct (minandmax_correct eigs fuel f n 0 d HR He C1 Hn A1 A2 A3 A4 A5 A6 A7) as (fp & e & Efp & _). rewrite Efp.
    destruct (all_opt_some (mk (length (coeffs f)) (col_result eigs (S fuel) f fp))) as [r Er].
    - intros j Hj. rewrite mk_length in Hj. rewrite nth_mk by exact Hj. destruct (H j Hj) as (d' & B1 & B2 & B3 & B4 & B5 & B6 & B7). destruct (minandmax_correct eigs fuel f n j d' HR He Hj Hn B1 B2 B3 B4 B5 B6 B7) as (fp' & e' & Efp' & Ee' & _). rewrite Efp in Efp'. injection Efp' as <-. rewrite Ee'. discriminate.
    - exists r. split; [exact Er|]. rewrite (all_opt_length _ _ Er), mk_length. reflexivity. }
  destruct M as (res & Er & Lr). apply (norm_inf_correct eigs (S fuel) F res W Er Lr). intros j Hj. destruct (H j Hj) as (d & A1 & A2 & A3 & A4 & A5 & A6 & A7).
  apply (C126_minandmax_partial eigs fuel f n j d res HR He Hj Hn A1 A2 A3 A4 A5 A6 A7 Er).
Qed.
Print Assumptions C133_max_norm_partial.
(** x^2/2 + 3x on [-1,1]: |f| <= 7/2, norm(f, inf) >= 9/2 *)
Theorem C133_quadratic_refuted : forall eigs fuel, exists F v, fwf F /\ (forall x, fev F 0 x = x ^ 2 / 2 + 3 * x) /\ dom0 F = -1 /\ dom1 F = 1 /\ fun_norm_inf eigs (S fuel) F = Some v /\ 9 / 2 <= v /\
  forall x, dom0 F <= x <= dom1 F -> Rabs (fev F 0 x) <= 7 / 2.
Proof.
  intros eigs fuel. destruct (norm_inf_quad eigs fuel) as (v & Ev & Hv). eexists _, v. split; [|split; [|split; [|split; [|split; [exact Ev|split; [exact Hv|]]]]]]; cbn [dom0 dom1]; try reflexivity.
  - split; [|cbn; lra]. exists 3%nat. split; [lia|]. split; [discriminate|]. constructor; [reflexivity|constructor].
  - intros x. unfold fev, ev, evalT. cbn. field.
  - intros x Hx. unfold fev, ev, evalT. cbn. apply Rabs_le. nra.
Qed.
Print Assumptions C133_quadratic_refuted.
(** T_3 (hypotheses: see ex_C126) *)
Example ex_C133 : fwf (tfun 3) /\ rect 4 (coeffs (onefun (tfun 3))) /\ nth 0 (coeffs (onefun (tfun 3))) [] = [0; 0; 0; 1].
Proof. split; [apply fwf_tfun|]. split; [|reflexivity]. split; [lia|]. split; [discriminate|]. constructor; [reflexivity|constructor]. Qed.

(** ** C134: the weighted L^2 norm *)
(** C134: norm(f, weighted=True) squared is the sum over the columns of the integral of f^2 with the
    Chebyshev weight (x = image of cos t); any other p raises. *)
Theorem C134_weighted_norm : forall F, fwf F ->
  (exists v (W : nat -> R), fun_norm_weighted F 2 = Some v /\ 0 <= v /\ v ^ 2 = rsum (fcols F) W /\
     forall j, (j < fcols F)%nat -> is_RInt (fun t => fev F j ((dom1 F * (cos t + 1) + dom0 F * (1 - cos t)) / 2) ^ 2 * ((dom1 F - dom0 F) / 2)) 0 PI (W j)) /\
  forall p, p <> 2%nat -> fun_norm_weighted F p = None.
Proof.
  intros F W. split.
  - destruct (norm_weighted F W) as (v & Q & E & v0 & vp & H). exists v, Q. split; [exact E|]. split; [exact v0|]. split; [exact vp|]. intros j Hj. eapply is_RInt_ext; [|apply (H j Hj)]. intros t _. cbv beta. replace (map_fwd (dom0 F) (dom1 F) (cos t)) with ((dom1 F * (cos t + 1) + dom0 F * (1 - cos t)) / 2) by (unfold map_fwd; field). reflexivity.
  - intros p Hp. unfold fun_norm_weighted. destruct (Nat.eqb_spec p 2); [congruence|reflexivity].
Qed.
Print Assumptions C134_weighted_norm.
Example ex_C134 : fwf sq01 /\ fev sq01 0 1 = 1. Proof. split; [apply fwf_sq01|]. rewrite fev_sq01. ring. Qed.

(** ** C135: Sobolev norms *)
(** C135: G i the i-th derivative as computed by np.diff (see the claims on diff): wkpnorm(f, p, k)^p is
    the sum over i <= k of the integrals of |G_i|^p, p even, if all G_i have at most 8/p+1 coefficients. *)
Theorem C135_sobolev_partial : forall F p k (G : nat -> Fun) (V : nat -> R), G 0%nat = F -> (forall i, (i < k)%nat -> fun_diff (G i) 1 = Some (G (S i))) ->
  (2 <= p)%nat -> Nat.even p = true ->
  (forall i, (i <= k)%nat -> fwf (G i) /\ (p * (flen (G i) - 1) <= 8)%nat /\ 0 < eps (onefun (G i)) < 1 /\ Rmax 1 (V i ^ p) * eps (onefun (G i)) < 1 /\
     forall j x, (j < fcols (G i))%nat -> dom0 (G i) <= x <= dom1 (G i) -> Rabs (fev (G i) j x) <= V i) ->
  forall I : nat -> R, (forall i, (i <= k)%nat -> Lp_power (dom0 (G i)) (dom1 (G i)) (fcols (G i)) p (fev (G i)) (I i)) ->
  let err i := INR (fcols (G i)) * ((dom1 (G i) - dom0 (G i)) * (INR (p * (flen (G i) - 1) + 1) * Rpower (Rmax 1 (V i ^ p) * eps (onefun (G i))) (2 / 5))) in
  rsum (S k) err <= rsum (S k) I ->
  exists v, fun_wkpnorm F p k = Some v /\ 0 <= v /\ Rabs (v ^ p - rsum (S k) I) <= rsum (S k) err.
Proof. intros F p k G V H0 H1 H2 H3 H4 I HI err HE. exact (wkpnorm_near F p k G V H0 H1 H2 H3 H4 I HI HE). Qed.
Print Assumptions C135_sobolev_partial.
(** h1norm and h2norm are the cases k = 1, 2 *)
Theorem C135_h1_h2 : forall F p, fun_h1norm F p = fun_wkpnorm F p 1 /\ fun_h2norm F p = fun_wkpnorm F p 2.
Proof. split; reflexivity. Qed.
Print Assumptions C135_h1_h2.
(** k = 0: wkpnorm(T_16)^2 = 2 instead of 1022/1023 *)
Theorem C135_aliasing_refuted : exists F v, fwf F /\ fcols F = 1%nat /\ (forall x, fev F 0 x = T 16 x) /\ fun_wkpnorm F 2 0 = Some v /\ v ^ 2 = 2 /\
  forall I, Lp_power (dom0 F) (dom1 F) (fcols F) 2 (fev F) I -> I = 1022 / 1023.
Proof.
  destruct norm_T16 as (E2 & _). destruct (nroot_some 2 2 ltac:(lia) ltac:(lra)) as (v & Ev & v0 & vp). exists (tfun 16), v. split; [apply fwf_tfun|]. split; [reflexivity|]. split; [apply fev_tfun|].
  split; [unfold fun_wkpnorm; rewrite E2; exact Ev|]. split; [exact vp|exact Lp_T16].
Qed.
Print Assumptions C135_aliasing_refuted.
(** x^2 on [0,1], k = 1: the sum of the integrals is 1/5 + 4/3 *)
Example ex_C135 : exists D, fun_diff sq01 1 = Some D /\ (2 * (flen D - 1) <= 8)%nat /\ (forall x, fev D 0 x = 2 * x) /\ Lp_power 0 1 1 2 (fev sq01) (1 / 5) /\ Rmax 1 (2 ^ 2) * eps (onefun D) < 1.
Proof.
  destruct diff_sq01 as (D & ED & WD & (S0 & S1) & CD & LD & PD & HD). exists D. split; [exact ED|]. split; [lia|]. split; [exact HD|]. split; [exact Lp_sq01|].
  apply (norm_err_small D 2 CD); [rewrite S0, S1; cbn; ring|exact LD|exact PD|lra].
Qed.

(** ** C136: the signed norm *)
(** C136: where the derivative does not vanish at the left end, every entry of sturm_norm is + or - the
    norm, with the sign of that derivative; if the derivative is negligible it is the norm *)
Theorem C136_sturm_partial : forall F p l, fwf F -> fun_sturm_norm F p = Some l ->
  exists D dn v, fun_diff F 1 = Some D /\ fun_norm D p = Some dn /\ fun_norm F p = Some v /\
    (dn <= / 10 ^ 7 -> l = [v]) /\
    (/ 10 ^ 7 < dn -> length l = fcols F /\ forall j, (j < fcols F)%nat -> (0 < fev D j (dom0 F) -> nth j l 0 = v) /\ (fev D j (dom0 F) < 0 -> nth j l 0 = - v)).
Proof.
  intros F p l W E. destruct (sturm_spec F p l W E) as (D & dn & v & A & B & C & H). exists D, dn, v. split; [exact A|]. split; [exact B|]. split; [exact C|]. destruct H as [[H1 H2]|(H1 & H2 & H3)]; (split; [intros; try lra; assumption|]); intros H; try lra.
  split; [exact H2|]. intros j Hj. rewrite H3 by exact Hj. split; intros S; [rewrite sign_eq_1 by exact S|rewrite sign_eq_m1 by exact S]; ring.
Qed.
Print Assumptions C136_sturm_partial.
(** f = x^2 on [0,1]: f'(0) = 0, sturm_norm(f) = 0 although norm(f) > 1/4 *)
Theorem C136_zero_slope_refuted : exists F v, fwf F /\ (forall x, fev F 0 x = x ^ 2) /\ dom0 F = 0 /\ dom1 F = 1 /\ fun_sturm_norm F 2 = Some [0] /\ fun_norm F 2 = Some v /\ / 4 < v.
Proof.
  destruct sturm_sq01 as (E & v & Ev & Hv). exists sq01, v. split; [apply fwf_sq01|]. split; [apply fev_sq01|]. split; [reflexivity|]. split; [reflexivity|]. auto.
Qed.
Print Assumptions C136_zero_slope_refuted.

(** ** C137: normalisation *)
(** C137: at most 5 coefficients, L^2 norm not negligible: normalize(f) is f divided by its L^2 norm *)
Theorem C137_normalize_partial : forall F V, fwf F -> (flen F <= 5)%nat -> 0 < eps (onefun F) < 1 ->
  (forall j x, (j < fcols F)%nat -> dom0 F <= x <= dom1 F -> Rabs (fev F j x) <= V) -> Rmax 1 (V ^ 2) * eps (onefun F) < 1 ->
  let err := INR (fcols F) * ((dom1 F - dom0 F) * (INR (2 * (flen F - 1) + 1) * Rpower (Rmax 1 (V ^ 2) * eps (onefun F)) (2 / 5))) in
  forall I, Lp_power (dom0 F) (dom1 F) (fcols F) 2 (fev F) I -> err < I ->
  exists v G, 0 < v /\ Rabs (v ^ 2 - I) <= err /\ fun_normalize F 2 = Some G /\ fwf G /\ same_dom F G /\ fcols G = fcols F /\
    forall j x, (j < fcols F)%nat -> dom0 F <= x <= dom1 F -> Rabs (fev G j x - fev F j x / v) <= INR (flen F) * Rpower (eps (onefun F)) (2 / 5).
Proof. exact normalize_near. Qed.
Print Assumptions C137_normalize_partial.
(** T_16: the normalised function has L^2 norm^2 below 6/10 *)
Theorem C137_aliasing_refuted : exists F v, fwf F /\ fcols F = 1%nat /\ (forall x, fev F 0 x = T 16 x) /\ 0 < v /\ fun_norm F 2 = Some v /\ fun_normalize F 2 = wrap F (divide_number (onefun F) v) /\
  is_RInt (fun x => (fev F 0 x / v) ^ 2) (dom0 F) (dom1 F) (511 / 1023).
Proof.
  destruct norm_T16 as (_ & v & Ev & Hv & v0). exists (tfun 16), v. assert (0 < v) by (destruct (Rle_lt_or_eq_dec 0 v v0) as [|E]; [assumption|rewrite <- E in Hv; lra]).
  split; [apply fwf_tfun|]. split; [reflexivity|]. split; [apply fev_tfun|]. split; [assumption|]. split; [exact Ev|]. split.
  - unfold fun_normalize. rewrite Ev. destruct (Reqb v 0) eqn:E0; [apply Reqb_true in E0; lra|]. rewrite dom_check_refl. reflexivity.
  - assert (B := is_RInt_T2 16). apply (is_RInt_scal (V := R_NormedModule) _ _ _ (/ 2)) in B. evar_last; [eapply is_RInt_ext; [|exact B]|].
    + intros x _. cbv beta. change (@eq R (/ 2 * T 16 x ^ 2) ((fev (tfun 16) 0 x / v) ^ 2)). rewrite fev_tfun. unfold Rdiv. rewrite Rpow_mult_distr. rewrite pow_inv, Hv. ring.
    + change (/ 2 * (1 + ChebCalc.moment (16 + 16) / 2) = 511 / 1023). change (16 + 16)%nat with 32%nat. unfold ChebCalc.moment. change (Nat.even 32) with true. cbv iota. replace (INR 32) with 32 by (rewrite INR_IZR_INZ; reflexivity). field.
Qed.
Print Assumptions C137_aliasing_refuted.
Example ex_C137 : (flen sq01 <= 5)%nat /\ norm_err sq01 2 1 < 1 / 5.
Proof. split; [cbn; lia|]. destruct (norm_err_small sq01 1 eq_refl) as [_ B]; [cbn; ring|cbn; lia|reflexivity|lra|]. lra. Qed.
