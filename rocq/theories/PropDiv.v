(** Elementwise functions, quotients, composition, constants (C138-C143). *)
From Coq Require Import Reals ZArith List Arith Bool Lra Lia.
From Coquelicot Require Import Coquelicot.
From Verif Require Import Base ChebSpec ChebMath ChebDct ChebModel ChebModel2 ChebEval ChebChop ChebObj ChebOps ChebArith ChebConstr ChebRefute RootsMin RootsEx FunModel FunProofs FqrFun NormProofs NormAlias NormThm NormEx NormSob DivModel DivProofs.
Import ListNotations.
Open Scope R_scope.

(** ** C138: np.u(f) *)
(** C138: a numpy function u of f: at all N >= 17 Chebyshev points of the domain the result is u(f)
    up to truncation; on the whole domain when u(f) is a polynomial of degree below N *)
Theorem C138_ufunc_partial : forall F u V, fwf F -> 0 < eps (onefun F) < 1 -> (17 <= maxLength (onefun F))%Z ->
  (forall j x, (j < fcols F)%nat -> dom0 F <= x <= dom1 F -> Rabs (u (fev F j x)) <= V) -> Rmax 1 V * eps (onefun F) < 1 ->
  exists G N, fun_ufunc1 u F = Some G /\ fwf G /\ same_dom F G /\ fcols G = fcols F /\ (17 <= N)%nat /\ (Z.of_nat N <= maxLength (onefun F))%Z /\
    forall j, (j < fcols F)%nat ->
      (forall i, (i < N)%nat -> let x := map_fwd (dom0 F) (dom1 F) (nth i (chebpts_type2_compute N) 0) in
         Rabs (u (fev F j x) - fev G j x) <= INR N * Rpower (Rmax 1 V * eps (onefun F)) (2 / 5)) /\
      (spanT N (fun y => u (fev F j (map_fwd (dom0 F) (dom1 F) y))) -> forall x, dom0 F <= x <= dom1 F ->
         Rabs (u (fev F j x) - fev G j x) <= INR N * Rpower (Rmax 1 V * eps (onefun F)) (2 / 5)).
Proof.
  intros F u V W He Hm HV HE. destruct (ufunc1_grid F u V W He Hm HV HE) as (G & N & A1 & A2 & A3 & A4 & A5 & A6 & A7). exists G, N.
  split; [exact A1|]. split; [exact A2|]. split; [exact A3|]. split; [exact A4|]. split; [exact A5|]. split; [exact A6|]. intros j Hj. destruct (A7 j Hj) as [B1 B2]. split; [exact B1|].
  intros HS. apply B2. eapply spanT_ext; [|exact HS]. intros y. cbv beta. rewrite fev_fwd; [reflexivity|apply W].
Qed.
Print Assumptions C138_ufunc_partial.
(** two functions with the same domain and columns: np.u(f, g) *)
Theorem C138_ufunc2_partial : forall F G u V, fwf F -> fwf G -> same_dom F G -> fcols G = fcols F -> 0 < eps (onefun F) < 1 -> (17 <= maxLength (onefun F))%Z ->
  (forall j x, (j < fcols F)%nat -> dom0 F <= x <= dom1 F -> Rabs (u (fev F j x) (fev G j x)) <= V) -> Rmax 1 V * eps (onefun F) < 1 ->
  exists H N, fun_ufunc2 u F G = Some H /\ fwf H /\ same_dom F H /\ fcols H = fcols F /\ (17 <= N)%nat /\ (Z.of_nat N <= maxLength (onefun F))%Z /\
    forall j, (j < fcols F)%nat ->
      (forall i, (i < N)%nat -> let x := map_fwd (dom0 F) (dom1 F) (nth i (chebpts_type2_compute N) 0) in
         Rabs (u (fev F j x) (fev G j x) - fev H j x) <= INR N * Rpower (Rmax 1 V * eps (onefun F)) (2 / 5)) /\
      (spanT N (fun y => u (fev F j (map_fwd (dom0 F) (dom1 F) y)) (fev G j (map_fwd (dom0 F) (dom1 F) y))) -> forall x, dom0 F <= x <= dom1 F ->
         Rabs (u (fev F j x) (fev G j x) - fev H j x) <= INR N * Rpower (Rmax 1 V * eps (onefun F)) (2 / 5)).
Proof.
  intros F G u V [W Hd] [Wg Hg] [S0 S1] HC He Hml HV HE. set (f := onefun F) in *. set (g := onefun G) in *.
  assert (Hm : (1 <= ncols f)%nat) by (apply wf_cols; exact W).
  assert (Cg : length (coeffs g) = length (coeffs f)) by exact HC.
  assert (Lc : length (combine (coeffs f) (coeffs g)) = ncols f) by (rewrite combine_length, Cg; unfold ncols; lia).
  assert (EG : forall j t, fev G j (map_fwd (dom0 F) (dom1 F) t) = ev g j t) by (intros j t; rewrite <- S0, <- S1; apply fev_fwd; exact Hg).
  assert (EF : forall j t, fev F j (map_fwd (dom0 F) (dom1 F) t) = ev f j t) by (intros j t; apply fev_fwd; exact Hd).
  set (ops := map (fun p y => u (clenshaw_pt (fst p) y) (clenshaw_pt (snd p) y)) (combine (coeffs f) (coeffs g))).
  assert (Lo : length ops = ncols f) by (unfold ops; rewrite map_length; exact Lc).
  assert (No : forall j t, (j < ncols f)%nat -> nth j ops (fun _ => 0) t = u (ev f j t) (ev g j t)).
  { intros j t Hj. unfold ops. rewrite (nth_map_ops _ _ ([], [])) by lia. rewrite combine_nth by (symmetry; exact Cg). cbn [fst snd].
    destruct (wf_pos f j W Hj) as [L1 L2]. destruct (wf_pos g j Wg) as [L3 L4]; [unfold ncols in *; lia|]. rewrite !clenshaw_pt_correct by lia. reflexivity. }
  assert (I17 : initial_n (maxLength f) 17 = 17%Z).
  { unfold initial_n. replace (Z.max 9 (Z.min (maxLength f) 17)) with 17%Z by lia. reflexivity. }
  destruct (construct_grid ops V (eps f) 1 (maxLength f) 17) as (h & N & EH & Wh & Ch & _ & HN & HH).
  - intros E. rewrite E in Lo. cbn in Lo. lia.
  - rewrite I17. exact Hml.
  - exact He.
  - lra.
  - intros j t Hj Ht. rewrite Lo in Hj. rewrite No by exact Hj. rewrite <- EF, <- EG. apply HV; [exact Hj|]. now apply fwd_in.
  - exact HE.
  - rewrite Lo in Ch, HH. exists (mkFun h (dom0 F) (dom1 F)), N. rewrite I17 in HN. set (H := mkFun h (dom0 F) (dom1 F)).
    split. { unfold fun_ufunc2, fun_binary, cheb_ufunc2. rewrite dom_check_refl. replace (dom_check F G) with true by (symmetry; unfold dom_check; rewrite S0, S1; apply (dom_check_refl F)). cbn [andb]. fold f g. rewrite Cg, Nat.eqb_refl. fold ops. rewrite EH. reflexivity. }
    split; [split; [exact Wh|exact Hd]|]. split; [split; reflexivity|]. split; [exact Ch|]. split; [lia|]. split; [lia|].
    intros j Hj. destruct (HH j Hj) as [G1 G2].
    assert (EQ : forall t, fev H j (map_fwd (dom0 F) (dom1 F) t) = ev h j t) by (intros t; change (dom0 F) with (dom0 H); change (dom1 F) with (dom1 H); apply (fev_fwd H); exact Hd).
    split.
    + intros i Hi. cbv zeta. rewrite EG, EF, EQ. specialize (G1 i Hi). cbv zeta in G1. rewrite No in G1 by exact Hj. exact G1.
    + intros HS x Hx. assert (Q := bwd_ref F x Hd Hx).
      assert (HS' : spanT N (nth j ops (fun _ => 0))). { eapply spanT_ext; [|exact HS]. intros t. cbv beta. rewrite EF, EG. symmetry. now apply No. }
      specialize (G2 HS' _ Q). rewrite No in G2 by exact Hj. unfold fev. cbn [H onefun dom0 dom1]. rewrite S0, S1. exact G2.
Qed.
Print Assumptions C138_ufunc2_partial.
(** np.square(T_16) is the constant 1 *)
Theorem C138_aliasing_refuted : exists F G, fwf F /\ (forall x, fev F 0 x = T 16 x) /\ fun_ufunc1 (fun v => v ^ 2) F = Some G /\ fcols G = 1%nat /\ same_dom F G /\
  (forall x, fev G 0 x = 1) /\ exists x, dom0 F <= x <= dom1 F /\ fev F 0 x ^ 2 = 0.
Proof.
  destruct (construct_alias (fun y => clenshaw_pt (repeat 0 16 ++ [1]) y ^ 2) eps_default maxLength_default 17 17) as (g & Eg & Wg & Cg & _ & Hg).
  - apply eps_default_range.
  - reflexivity.
  - now right.
  - apply initial_n_default.
  - intros i Hi. rewrite clenshaw_pt_correct by (rewrite app_length, repeat_length; cbn; lia). rewrite evalT_tcheb. change 17%nat with (S 16). rewrite T_at_nodes by lia. unfold sgn. destruct (Nat.even _); ring.
  - exists (tfun 16), (mkFun g (-1) 1). split; [apply fwf_tfun|]. split; [apply fev_tfun|]. split.
    { unfold fun_ufunc1, cheb_ufunc1. rewrite dom_check_refl. cbn [onefun tfun tcheb coeffs map eps maxLength]. rewrite Eg. reflexivity. }
    split; [exact Cg|]. split; [split; reflexivity|]. split; [intros x; unfold fev; apply Hg|].
    exists (cos (PI / 32)). split; [cbn [tfun dom0 dom1]; apply COS_bound|]. rewrite fev_tfun, T_cos. replace (INR 16 * (PI / 32)) with (PI / 2) by (replace (INR 16) with 16 by (rewrite INR_IZR_INZ; reflexivity); field). rewrite cos_PI2. ring.
Qed.
Print Assumptions C138_aliasing_refuted.
(** exp of x^2 on [0,1] *)
Example ex_C138 : fwf sq01 /\ (17 <= maxLength (onefun sq01))%Z /\ (forall j x, (j < fcols sq01)%nat -> dom0 sq01 <= x <= dom1 sq01 -> Rabs (exp (fev sq01 j x)) <= 3) /\ Rmax 1 3 * eps (onefun sq01) < 1.
Proof.
  split; [apply fwf_sq01|]. split; [discriminate|]. split.
  - intros j x Hj Hx. change (fcols sq01) with 1%nat in Hj. replace j with 0%nat by lia. rewrite fev_sq01. cbn [dom0 dom1 sq01] in Hx. rewrite Rabs_pos_eq by (left; apply exp_pos).
    apply Rle_trans with (exp 1); [destruct (Rle_lt_or_eq_dec (x ^ 2) 1 ltac:(nra)) as [L|E]; [left; now apply exp_increasing|rewrite E; lra]|apply exp_le_3].
  - rewrite Rmax_right by lra. change (eps (onefun sq01)) with (/ 2 ^ 52). assert (/ 2 ^ 52 < / 4) by (apply Rinv_lt_contravar; [apply Rmult_lt_0_compat; [lra|apply pow_lt; lra]|]; change 4 with (IZR 4); rewrite pow_IZR; apply IZR_lt; reflexivity). lra.
Qed.

(** ** C139: f/g and number/g *)
(** C139: denominators without zeros: f/g agrees with the pointwise quotient at N >= len f + len g
    Chebyshev points; if len(f/g) + len g <= N+1 then (f/g) g - f is small on the whole domain *)
Theorem C139_quotient_partial : forall F G V M, fwf F -> fwf G -> same_dom F G -> fcols G = fcols F -> 0 < eps (onefun F) < 1 -> 0 < eps (onefun G) < 1 ->
  (Z.of_nat (flen F + flen G) <= maxLength_default)%Z ->
  (forall j x, (j < fcols F)%nat -> dom0 F <= x <= dom1 F -> fev G j x <> 0 /\ Rabs (fev G j x) <= M /\ Rabs (fev F j x / fev G j x) <= V) ->
  Rmax 1 V * Rmax (eps (onefun F)) (eps (onefun G)) < 1 ->
  exists Q N, fun_divide F G = Some Q /\ fwf Q /\ same_dom F Q /\ fcols Q = fcols F /\ (flen F + flen G <= N)%nat /\
    let err := INR N * Rpower (Rmax 1 V * Rmax (eps (onefun F)) (eps (onefun G))) (2 / 5) in
    forall j, (j < fcols F)%nat ->
      (forall i, (i < N)%nat -> let x := map_fwd (dom0 F) (dom1 F) (nth i (chebpts_type2_compute N) 0) in Rabs (fev F j x / fev G j x - fev Q j x) <= err) /\
      ((flen Q + flen G <= N + 1)%nat -> forall x, dom0 F <= x <= dom1 F -> Rabs (fev F j x - fev Q j x * fev G j x) <= INR N * (2 * (M * err))).
Proof. exact divide_grid. Qed.
Print Assumptions C139_quotient_partial.
Theorem C139_reciprocal_partial : forall a G V M, fwf G -> 0 < eps (onefun G) < 1 -> (Z.of_nat (2 * flen G) <= maxLength_default)%Z ->
  (forall j x, (j < fcols G)%nat -> dom0 G <= x <= dom1 G -> fev G j x <> 0 /\ Rabs (fev G j x) <= M /\ Rabs (a / fev G j x) <= V) ->
  Rmax 1 V * eps (onefun G) < 1 ->
  exists Q N, fun_rdivide a G = Some Q /\ fwf Q /\ same_dom G Q /\ fcols Q = fcols G /\ (2 * flen G <= N)%nat /\
    let err := INR N * Rpower (Rmax 1 V * eps (onefun G)) (2 / 5) in
    forall j, (j < fcols G)%nat ->
      (forall i, (i < N)%nat -> let x := map_fwd (dom0 G) (dom1 G) (nth i (chebpts_type2_compute N) 0) in Rabs (a / fev G j x - fev Q j x) <= err) /\
      ((flen Q + flen G <= N + 1)%nat -> forall x, dom0 G <= x <= dom1 G -> Rabs (a - fev Q j x * fev G j x) <= INR N * (2 * (M * err))).
Proof. exact rdivide_grid. Qed.
Print Assumptions C139_reciprocal_partial.
(** dividing a vector-valued function by a scalar one raises *)
Theorem C139_columns_refuted : forall F G, fcols F <> fcols G -> fun_divide F G = None.
Proof.
  intros F G H. unfold fun_divide, fun_binary. destruct (_ && _)%bool; [|reflexivity]. unfold cheb_divide. destruct (Nat.eqb_spec (length (coeffs (onefun F))) (length (coeffs (onefun G)))) as [E|E]; [contradiction|]. reflexivity.
Qed.
Print Assumptions C139_columns_refuted.
(** (1 + x^2) on [0,1] as denominator *)
Definition onesq : Fun := mkFun (mkCheb [[11 / 8; 1 / 2; 1 / 8]] eps_default 1 maxLength_default true) 0 1.
Lemma fev_onesq x : fev onesq 0 x = 1 + x ^ 2.
Proof. unfold fev, ev, onesq. cbn [onefun coeffs nth dom0 dom1]. unfold evalT. cbn. field. Qed.
Example ex_C139 : fwf sq01 /\ fwf onesq /\ same_dom sq01 onesq /\ (forall j x, (j < fcols sq01)%nat -> dom0 sq01 <= x <= dom1 sq01 ->
    fev onesq j x <> 0 /\ Rabs (fev onesq j x) <= 2 /\ Rabs (fev sq01 j x / fev onesq j x) <= 1 /\ Rabs (2 / fev onesq j x) <= 2).
Proof.
  split; [apply fwf_sq01|]. split.
  { split; [|cbn; lra]. exists 3%nat. split; [lia|]. split; [discriminate|]. constructor; [reflexivity|constructor]. }
  split; [split; reflexivity|]. intros j x Hj Hx. change (fcols sq01) with 1%nat in Hj. replace j with 0%nat by lia. rewrite fev_sq01, fev_onesq. cbn [dom0 dom1 sq01] in Hx.
  split; [nra|]. split; [apply Rabs_le; nra|]. assert (P : 0 < 1 + x ^ 2) by nra. assert (I : 0 < / (1 + x ^ 2)) by (now apply Rinv_0_lt_compat).
  assert (E : / (1 + x ^ 2) * (1 + x ^ 2) = 1) by (field; lra). unfold Rdiv. split; (rewrite Rabs_pos_eq; [|apply Rmult_le_pos; nra]); nra.
Qed.

(** ** C140: np.true_divide with an output argument *)
(** C140: f /= a (output argument f itself) divides every value *)
Theorem C140_inplace_partial : forall F a, fwf F -> a <> 0 ->
  exists G, fun_divide_number_out F F a = Some G /\ fwf G /\ same_dom F G /\ fcols G = fcols F /\ flen G = flen F /\ forall j x, (j < fcols F)%nat -> fev G j x = fev F j x / a.
Proof.
  intros F a [W Hd] Ha. set (f := onefun F) in *. eexists. split; [unfold fun_divide_number_out; rewrite dom_check_refl; cbn [andb]; reflexivity|].
  assert (RB : rect (len f) (map (map (fun c => c / a)) (coeffs f))) by (apply (rect_map (len f)); [apply wf_rect; exact W|apply len_pos; exact W|intros c Hc; rewrite map_length; exact Hc]).
  split; [split; [exists (len f); exact RB|exact Hd]|]. split; [split; reflexivity|]. split; [unfold fcols, ncols; cbn [onefun cheb_divide_number_out coeffs]; apply map_length|].
  split; [exact (rect_nrows _ _ RB)|].
  intros j x Hj. unfold fev, ev. cbn [onefun dom0 dom1 cheb_divide_number_out coeffs]. rewrite (nth_map_col (map (fun c => c / a))) by exact Hj.
  unfold evalT. rewrite map_length. set (y := _ / (dom1 F - dom0 F)). match goal with |- _ = ?s / a => replace (s / a) with (/ a * s) by (unfold Rdiv; ring) end. rewrite <- rsum_scal. apply rsum_ext. intros k Hk.
  rewrite (nth_indep _ 0 ((fun c => c / a) 0)) by (rewrite map_length; exact Hk). rewrite (map_nth (fun c => c / a)). unfold Rdiv. ring.
Qed.
Print Assumptions C140_inplace_partial.
(** np.true_divide(f, 2, out=h) with f = x^2, h = 1 + x^2: the result is h/2 *)
Theorem C140_out_refuted : exists F H G, fwf F /\ fwf H /\ same_dom F H /\ fcols H = fcols F /\ flen H = flen F /\ fun_divide_number_out F H 2 = Some G /\
  (forall x, fev F 0 x = x ^ 2) /\ (forall x, fev G 0 x = (1 + x ^ 2) / 2).
Proof.
  destruct ex_C139 as (_ & W & _). destruct (C140_inplace_partial onesq 2 W ltac:(lra)) as (G & EG & _ & _ & _ & _ & HG).
  exists sq01, onesq, G. split; [apply fwf_sq01|]. split; [exact W|]. split; [split; reflexivity|]. split; [reflexivity|]. split; [reflexivity|]. split; [exact EG|]. split; [apply fev_sq01|].
  intros x. rewrite HG by (cbn; lia). now rewrite fev_onesq.
Qed.
Print Assumptions C140_out_refuted.
(** the quotient of functions does reach the output argument *)
Theorem C140_out_function : forall F G H Q, fun_divide F G = Some Q -> dom_check F H = true ->
  exists R, fun_divide_out F G H = Some R /\ coeffs (onefun R) = coeffs (onefun Q) /\ same_dom H R.
Proof.
  intros F G H Q EQ HD. unfold fun_divide, fun_binary in EQ. unfold fun_divide_out. destruct (_ && _)%bool; [|discriminate]. rewrite HD. cbn [andb]. unfold cheb_divide_out. destruct (cheb_divide _ _) as [r|]; [|discriminate].
  cbn [wrap option_map] in *. eexists. split; [reflexivity|]. assert (E : onefun Q = r) by (injection EQ as <-; reflexivity). rewrite E. split; [reflexivity|split; reflexivity].
Qed.
Print Assumptions C140_out_function.
Example ex_C140 : fwf sq01 /\ dom_check sq01 sq01 = true.
Proof. split; [apply fwf_sq01|apply dom_check_refl]. Qed.

(** ** C141: compose *)
(** C141: on the domain [-1,1] compose(f, u) is u(f) at all N >= 17 Chebyshev points up to truncation,
    and everywhere when u(f) is a polynomial of degree below N *)
Theorem C141_compose_partial : forall F u V, fwf F -> dom0 F = -1 -> dom1 F = 1 ->
  (forall j x, (j < fcols F)%nat -> -1 <= x <= 1 -> Rabs (u (fev F j x)) <= V) -> Rmax 1 V * eps_default < 1 ->
  exists G N, fun_compose F u = Some G /\ fwf G /\ same_dom F G /\ fcols G = fcols F /\ (17 <= N)%nat /\
    forall j, (j < fcols F)%nat ->
      (forall i, (i < N)%nat -> let x := nth i (chebpts_type2_compute N) 0 in Rabs (u (fev F j x) - fev G j x) <= INR N * Rpower (Rmax 1 V * eps_default) (2 / 5)) /\
      (spanT N (fun x => u (fev F j x)) -> forall x, -1 <= x <= 1 -> Rabs (u (fev F j x) - fev G j x) <= INR N * Rpower (Rmax 1 V * eps_default) (2 / 5)).
Proof.
  intros F u V W D0 D1 HV HE. assert (EH : Rmax (Rabs (dom0 F)) (Rabs (dom1 F)) = 1).
  { rewrite D0, D1, Rabs_left, (Rabs_pos_eq 1) by lra. rewrite Rmax_left; lra. }
  destruct (compose_grid F u V W ltac:(lra) ltac:(lra) HV) as (G & N & A1 & A2 & A3 & A4 & A5 & A6); [rewrite EH; exact HE|]. rewrite EH in A6. cbv zeta in A6.
  assert (EF : forall t, map_fwd (dom0 F) (dom1 F) t = t) by (intros t; rewrite D0, D1; unfold map_fwd; field).
  exists G, N. do 5 (split; [assumption|]). intros j Hj. destruct (A6 j Hj) as [B1 B2]. split.
  - intros i Hi. specialize (B1 i Hi). unfold grid_pt in B1. rewrite EF in B1. exact B1.
  - intros HS x Hx. specialize (B2 HS x Hx). rewrite EF in B2. exact B2.
Qed.
Print Assumptions C141_compose_partial.
(** every function on a domain that does not contain [-1,1]: raises *)
Theorem C141_domain_refuted : forall F u, fwf F -> -1 < dom0 F \/ dom1 F < 1 -> fun_compose F u = None.
Proof. intros F u [_ Hd]. now apply compose_raises. Qed.
Print Assumptions C141_domain_refuted.
(** f(x) = x on [-2,2], u the identity: the value at 2 is about 1 *)
Definition idfun22 : Fun := mkFun (mkCheb [[0; 2]] eps_default 2 maxLength_default true) (-2) 2.
Lemma fev_idfun22 x : fev idfun22 0 x = x.
Proof. unfold fev, ev, idfun22. cbn [onefun coeffs nth dom0 dom1]. unfold evalT. cbn. field. Qed.
Lemma fwf_idfun22 : fwf idfun22.
Proof. split; [|cbn; lra]. exists 2%nat. split; [lia|]. split; [discriminate|]. constructor; [reflexivity|constructor]. Qed.
Theorem C141_rescaling_refuted : exists F G, fwf F /\ dom0 F = -2 /\ dom1 F = 2 /\ (forall x, fev F 0 x = x) /\ fun_compose F (fun v => v) = Some G /\ Rabs (fev G 0 2 - 1) <= / 2.
Proof.
  assert (Hb : Rmax (Rmax (Rabs (dom0 idfun22)) (Rabs (dom1 idfun22))) 1 = 2).
  { cbn [dom0 dom1 idfun22]. rewrite Rabs_left, (Rabs_pos_eq 2) by lra. rewrite (Rmax_left (- -2)) by lra. rewrite Rmax_left; lra. }
  assert (E50 : 0 < 2 * eps_default <= / 2 ^ 50).
  { assert (R := eps_default_range). split; [lra|]. unfold eps_default. replace (2 ^ 52) with (2 ^ 50 * 4) by ring. rewrite Rinv_mult. assert (0 < / 2 ^ 50) by (apply Rinv_0_lt_compat, pow_lt; lra). lra. }
  assert (N17 : initial_n maxLength_default 17 = 17%Z) by reflexivity.
  destruct (construct_near [fun x => clenshaw_pt [0; 2] (map_bwd (-2) 2 x)] (fun _ x => x) 2 1 eps_default 2 maxLength_default 17) as (g & EG & Wg & Cg & _ & HG).
  - discriminate.
  - apply initial_n_default.
  - apply eps_default_range.
  - lra.
  - rewrite N17. lia.
  - intros j Hj. apply spanT_ext with (T 1); [reflexivity|]. apply spanT_T. lia.
  - intros j t Hj Ht. cbn in Hj. replace j with 0%nat by lia. cbn [nth]. split; [rewrite clenshaw_pt_correct by (cbn; lia); apply fev_idfun22|]. apply Rabs_le. lra.
  - rewrite Rmax_left by lra. assert (/ 2 ^ 50 < 1) by (rewrite <- Rinv_1; apply Rinv_lt_contravar; [rewrite Rmult_1_l; apply pow_lt; lra|]; apply Rlt_pow_R1; [lra|lia]). lra.
  - exists idfun22, (mkFun g (-2) 2). split; [apply fwf_idfun22|]. split; [reflexivity|]. split; [reflexivity|]. split; [apply fev_idfun22|]. split.
    + unfold fun_compose. cbn [dom0 dom1 idfun22 onefun coeffs map]. unfold fun_hscale.
      replace (Rmax (Rabs (-2)) (Rabs 2)) with 2 by (rewrite Rabs_left, (Rabs_pos_eq 2) by lra; rewrite Rmax_left; lra).
      assert (B1 : map_bwd (-2) 2 (-1) = - / 2) by (unfold map_bwd; field). assert (B2 : map_bwd (-2) 2 1 = / 2) by (unfold map_bwd; field). rewrite B1, B2.
      replace (Rleb (-1) (- / 2)) with true by (symmetry; apply Rleb_true; lra). replace (Rleb (/ 2) 1) with true by (symmetry; apply Rleb_true; lra).
      replace (Rleb (-1) (/ 2)) with true by (symmetry; apply Rleb_true; lra). replace (Rleb (- / 2) 1) with true by (symmetry; apply Rleb_true; lra). cbn [andb].
      rewrite EG. reflexivity.
    + specialize (HG 0%nat 1 ltac:(cbn; lia) ltac:(lra)). unfold fev. cbn [onefun dom0 dom1]. replace ((2 * 2 - -2 - 2) / (2 - -2)) with 1 by field.
      rewrite Rmax_left in HG by lra. assert (P := pow_small _ E50). rewrite Rabs_minus_sym. eapply Rle_trans; [exact HG|]. change (INR 2) with (1 + 1).
      assert (/ 2 ^ 20 <= / 4). { apply Rinv_le_contravar; [lra|]. change 4 with (IZR 4). rewrite pow_IZR. apply IZR_le. vm_compute. discriminate. } lra.
Qed.
Print Assumptions C141_rescaling_refuted.
Example ex_C141 : fwf (tfun 3) /\ dom0 (tfun 3) = -1 /\ dom1 (tfun 3) = 1 /\ forall j x, (j < fcols (tfun 3))%nat -> -1 <= x <= 1 -> Rabs (sin (fev (tfun 3) j x)) <= 1.
Proof. split; [apply fwf_tfun|]. split; [reflexivity|]. split; [reflexivity|]. intros j x _ _. apply Rabs_le. apply SIN_bound. Qed.

(** ** C142: Mapping.inv *)
(** C142: the map and its stored backward map are inverse to each other *)
Theorem C142_backward_partial : forall a b, a < b -> let M := mapping_init (a, b) None None None in
  (forall y, bwd M (fwd M y) = y) /\ (forall x, fwd M (bwd M x) = x) /\ (forall y, -1 <= y <= 1 -> a <= fwd M y <= b) /\ forall y, is_derive (fwd M) y (der M y).
Proof.
  intros a b H. cbv zeta. cbn [mapping_init mapping_linear fwd bwd der fst snd]. unfold map_fwd, map_bwd, map_der. split; [intros y; field; lra|]. split; [intros x; field; lra|]. split; [intros y Hy; split; nra|].
  intros y. auto_derive; [exact I|]. field.
Qed.
Print Assumptions C142_backward_partial.
(** Mapping([a,b]).inv() is the forward map again; it is the inverse map for no interval but [-1,1] *)
Theorem C142_inverse_refuted : forall a b, a < b -> let M := mapping_init (a, b) None None None in
  (forall y, fwd (mapping_inv M) y = fwd M y) /\ ((forall y, -1 <= y <= 1 -> fwd (mapping_inv M) (fwd M y) = y) -> a = -1 /\ b = 1).
Proof.
  intros a b H. cbv zeta. cbn [mapping_inv mapping_init mapping_linear fwd bwd der ends fst snd]. split; [reflexivity|]. intros E. assert (E1 := E (-1) ltac:(lra)). assert (E2 := E 1 ltac:(lra)). assert (E3 := E 0 ltac:(lra)). unfold map_fwd in *.
  assert (Q1 : b * (a + 1) + a * (1 - a) = -2) by lra. assert (Q2 : b * (b + 1) + a * (1 - b) = 2) by lra.
  assert (D : (b - a) * (b - a) = 4) by lra. assert (b - a = 2) by nra. nra.
Qed.
Print Assumptions C142_inverse_refuted.
Example ex_C142 : fwd (mapping_init (0, 2) None None None) (1 / 2) = 3 / 2.
Proof. cbn [mapping_init mapping_linear fwd fst snd]. unfold map_fwd. field. Qed.

(** ** C143: constant functions *)
(** C143: zeros_like(f), ones_like(f): the constant with the shape and the domain of f; zeros(n), ones(n)
    on [a,b]; asfun(number) *)
Theorem C143_constants : forall F a b n v, fwf F -> a < b -> (1 <= n)%nat ->
  (exists Z O, fun_zeros_like F = Some Z /\ fun_ones_like F = Some O /\ fwf Z /\ fwf O /\ same_dom F Z /\ same_dom F O /\ fcols Z = fcols F /\ fcols O = fcols F /\ flen Z = flen F /\ flen O = flen F /\
     forall j x, (j < fcols F)%nat -> fev Z j x = 0 /\ fev O j x = 1) /\
  (exists Z O, fun_zeros n a b = Some Z /\ fun_ones n a b = Some O /\ fwf Z /\ fwf O /\ dom0 Z = a /\ dom1 Z = b /\ dom0 O = a /\ dom1 O = b /\ fcols Z = n /\ fcols O = n /\
     forall j x, (j < n)%nat -> fev Z j x = 0 /\ fev O j x = 1) /\
  (exists G, asfun_number v a b = Some G /\ fwf G /\ dom0 G = a /\ dom1 G = b /\ fcols G = 1%nat /\ forall x, fev G 0 x = v).
Proof.
  intros F a b n v W Hd Hn. split; [|split].
  - destruct (const_like_correct 0 F W) as (Z & A1 & A2 & A3 & A4 & A5 & A6). destruct (const_like_correct 1 F W) as (O & B1 & B2 & B3 & B4 & B5 & B6).
    exists Z, O. do 10 (split; [assumption|]). intros j x Hj. split; auto.
  - destruct (const_correct 0 n a b Hn Hd) as (Z & A1 & A2 & A3 & A4 & A5 & A6 & A7). destruct (const_correct 1 n a b Hn Hd) as (O & B1 & B2 & B3 & B4 & B5 & B6 & B7).
    exists Z, O. do 10 (split; [assumption|]). intros j x Hj. split; auto.
  - apply asfun_correct. exact Hd.
Qed.
Print Assumptions C143_constants.
Example ex_C143 : fwf sq01 /\ (0 < 1) /\ (1 <= 2)%nat.
Proof. split; [apply fwf_sq01|]. split; [lra|lia]. Qed.
