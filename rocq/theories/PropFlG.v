(** C202: building a function on a domain in floating point, then integrating and differentiating it. *)
From Coq Require Import Reals List Arith Lia Lra Bool ZArith.
From Flocq Require Import Core.
From Coquelicot Require Import Coquelicot.
From Verif Require Import Base ToolsProofs ChebSpec ChebModel ChebDct ChebMath FlModel FlModel2 FlProofs FlSum FlMap FlTrigModel FlTrig FlMul FlDctModel FlDct PropFlT PropFlD FlSampleModel FlSample PropFlS PropFl PropFl2 FlDomModel FlDom.
Import ListNotations.
Open Scope R_scope.
Local Opaque uro eta.

(** ** Specification *)
(** the point of [a, b] that corresponds to a point of [-1, 1] *)
Definition dom_point (a b y : R) : R := (b * (y + 1) + a * (1 - y)) / 2.
(** the callable computes, on the doubles of [a, b], the polynomial with coefficients h on [a, b], with accuracy r *)
Definition computes_on (a b : R) (op : R -> R) (h : list R) (r : R) : Prop :=
  forall x, is_double x -> a <= x <= b -> Rabs (op x - fun_value a b h x) <= r.
(** what the rounding of the map adds *)
Definition map_error (a b : R) (h : list R) : R :=
  INR (length h) ^ 2 * PropFlS.abs_sum h * (12 * / 2 ^ 53 * (Rabs a + Rabs b) + 8 * / 2 ^ 1075) / (b - a).
(** accuracy of the coefficients: construct_error (PropFlS) with the callable's accuracy increased by that *)
Definition build_error (a b s r d e : R) (h : list R) : R := construct_error s (r + map_error a b h) d e h.
(** the computed map takes the doubles of [-1, 1] into [a, b] *)
Definition stays_inside (a b : R) : Prop := forall y, is_double y -> -1 <= y <= 1 -> a <= ffwd a b y <= b.

(** The sample points of a domain are accurate. *)
Theorem C202_mapping a b y : -1 <= y <= 1 ->
  is_double (ffwd a b y) /\ Rabs (ffwd a b y - dom_point a b y) <= 6 * / 2 ^ 53 * (Rabs a + Rabs b) + 4 * / 2 ^ 1075.
Proof. intros Hy. split; [apply ffwd_double|]. change (/ 2 ^ 53) with uro. change (/ 2 ^ 1075) with eta. apply ffwd_err, Hy. Qed.
Print Assumptions C202_mapping.
(** ... and lie in the domain, in increasing order, if the domain contains 0, *)
Theorem C202_inside_partial a b : is_double a -> is_double b -> a <= 0 <= b ->
  stays_inside a b /\ forall y z, y <= z -> ffwd a b y <= ffwd a b z.
Proof.
  intros Fa Fb H. split; [|intros y z; apply ffwd_mono, H]. intros y _ [H1 H2]. destruct (C170_sample_ends a b Fa Fb) as [E1 E2].
  split; [rewrite <- E1 at 1|rewrite <- E2 at 2]; apply ffwd_mono; assumption.
Qed.
Print Assumptions C202_inside_partial.

Lemma dom_ref a b y : a < b -> ref_point a b (dom_point a b y) = y.
Proof. intros H. unfold ref_point, dom_point. field. lra. Qed.
Lemma ref_range a b x : a < b -> a <= x <= b -> -1 <= ref_point a b x <= 1.
Proof. intros H Hx. unfold ref_point. split; [apply Rmult_le_reg_r with (b - a)|apply Rmult_le_reg_r with (b - a)]; try lra; unfold Rdiv; rewrite Rmult_assoc, Rinv_l by lra; lra. Qed.
Lemma computes_ref a b op h r : a < b -> stays_inside a b -> computes_on a b op h r -> computes (fun y => op (ffwd a b y)) h (r + map_error a b h).
Proof.
  intros H I O y Fy Hy. cbv beta. pose proof (I y Fy Hy) as J. pose proof (O _ (ffwd_double a b y) J) as O1. unfold fun_value in O1. destruct (C202_mapping a b y Hy) as [_ M].
  pose proof (evalT_lip h (ref_point a b (ffwd a b y)) y (ref_range a b _ H J) Hy) as LI. rewrite <- PropFlS.abs_sum_lasum in LI.
  assert (P : 0 <= INR (length h) ^ 2 * PropFlS.abs_sum h) by (apply Rmult_le_pos; [apply pow2_ge_0|rewrite PropFlS.abs_sum_lasum; apply lasum_pos]).
  assert (X : Rabs (ref_point a b (ffwd a b y) - y) <= (12 * / 2 ^ 53 * (Rabs a + Rabs b) + 8 * / 2 ^ 1075) / (b - a)).
  { rewrite <- (dom_ref a b y H) at 2. unfold ref_point. replace ((2 * ffwd a b y - a - b) / (b - a) - (2 * dom_point a b y - a - b) / (b - a)) with ((ffwd a b y - dom_point a b y) * (2 / (b - a))) by (field; lra).
    rewrite Rabs_mult, (Rabs_right (2 / (b - a))) by (apply Rle_ge, Rlt_le, Rdiv_lt_0_compat; lra). assert (K : 0 < 2 / (b - a)) by (apply Rdiv_lt_0_compat; lra). eapply Rle_trans; [apply Rmult_le_compat_r; [lra|exact M]|]. apply Req_le. generalize (/ 2 ^ 53) (/ 2 ^ 1075). intros u t. field. lra. }
  assert (Y : INR (length h) ^ 2 * PropFlS.abs_sum h * Rabs (ref_point a b (ffwd a b y) - y) <= map_error a b h). { unfold map_error, Rdiv. rewrite (Rmult_assoc (INR (length h) ^ 2 * PropFlS.abs_sum h)). apply Rmult_le_compat_l; [exact P|exact X]. }
  replace (op (ffwd a b y) - evalT h y) with ((op (ffwd a b y) - evalT h (ref_point a b (ffwd a b y))) + (evalT h (ref_point a b (ffwd a b y)) - evalT h y)) by ring. eapply Rle_trans; [apply Rabs_triang|]. lra.
Qed.

(** The coefficients of a function built from a callable. *)
Theorem C202_coefficients D L s d e a b op h r k : accurate_sin L s -> computes_on a b op h r -> accurate_dct D (length h) d e -> 0 <= d <= / 16 -> 0 <= e ->
  a < b -> stays_inside a b -> (2 <= length h)%nat -> (k < length h)%nat ->
  length (fbuild D L a b op (length h)) = length h /\ Rabs (nth k (fbuild D L a b op (length h)) 0 - nth k h 0) <= build_error a b s r d e h.
Proof. intros HL HO HD Hd He H I H2 Hk. apply (C201_coefficients D L s d e _ h (r + map_error a b h) k HL (computes_ref a b op h r H I HO) HD Hd He H2 Hk). Qed.
Print Assumptions C202_coefficients.
(** The function, at every point of the domain. *)
Theorem C202_function D L s d e a b op h r x : accurate_sin L s -> computes_on a b op h r -> accurate_dct D (length h) d e -> 0 <= d <= / 16 -> 0 <= e ->
  a < b -> stays_inside a b -> (2 <= length h)%nat -> a <= x <= b ->
  Rabs (fun_value a b (fbuild D L a b op (length h)) x - fun_value a b h x) <= INR (length h) * build_error a b s r d e h.
Proof. intros HL HO HD Hd He H I H2 Hx. apply (C201_function D L s d e _ h (r + map_error a b h) (ref_point a b x) HL (computes_ref a b op h r H I HO) HD Hd He H2 (ref_range a b x H Hx)). Qed.
Print Assumptions C202_function.

Lemma fconstruct_doubles D L s d e op (h : list R) : accurate_sin L s -> accurate_dct D (length h) d e -> (2 <= length h)%nat -> PropFlD.doubles (fconstruct D L op (length h)).
Proof.
  intros HL HD H2. unfold fconstruct, fpolyfit. assert (LW : length (fsample L op (length h)) = length h) by (unfold fsample; rewrite map_length; apply fchebpts_length). rewrite LW.
  destruct (Nat.eqb_spec (length h) 1) as [E|_]; [lia|]. destruct (HD (mk (length h) (fun i => fdiv (nth (length h - i - 1) (fsample L op (length h)) 0) (INR (length h - 1)))) ltac:(apply mk_length)) as (_ & DD & _).
  { intros t It. apply (In_nth _ _ 0) in It. destruct It as (j & Lj & <-). rewrite mk_length in Lj. rewrite nth_mk by exact Lj. apply fl_is_double. }
  intros t It. revert t It. apply upd_doubles; [|apply fl_is_double]. apply upd_doubles; [exact DD|apply fl_is_double].
Qed.
Lemma size_near c h E : length c = length h -> (forall k, (k < length h)%nat -> Rabs (nth k c 0 - nth k h 0) <= E) -> PropFl.abs_sum c <= PropFlS.abs_sum h + INR (length h) * E.
Proof. intros L H. rewrite PropFl.abs_sum_lasum, PropFlS.abs_sum_lasum, <- rsum_const. apply (lasum_near h c (fun _ => E)); [exact L|]. intros i Hi. apply H, Hi. Qed.

(** np.sum of a function built from a callable. *)
Theorem C202_integral D L s d e a b op h r v : accurate_sin L s -> computes_on a b op h r -> accurate_dct D (length h) d e -> 0 <= d <= / 16 -> 0 <= e ->
  is_double a -> is_double b -> a < b -> stays_inside a b -> (2 <= length h <= 2 ^ 24)%nat -> ffun_sum a b (fbuild D L a b op (length h)) v ->
  let N := INR (length h) in let E := build_error a b s r d e h in let H := PropFlS.abs_sum h + N * E in
  exists I : R, is_RInt (fun_value a b h) a b I /\
    Rabs (v - I) <= (b - a) * ((6 + 5 * N) * / 2 ^ 53 * H + 2 * N * / 2 ^ 1075 + N * E) + (3 + 7 * H) * / 2 ^ 1075.
Proof.
  intros HL HO HD Hd He Fa Fb Hab I [H2 H24] HS N E H. assert (C := fun k Hk => C202_coefficients D L s d e a b op h r k HL HO HD Hd He Hab I H2 Hk). destruct (C 0%nat ltac:(lia)) as [LC _].
  assert (FD : PropFlD.doubles (fbuild D L a b op (length h))) by (unfold fbuild; apply (fconstruct_doubles D L s d e); auto).
  assert (FN := fun x Hx => C202_function D L s d e a b op h r x HL HO HD Hd He Hab I H2 Hx). set (c := fbuild D L a b op (length h)) in *.
  destruct (C169_domain a b c v ltac:(lia) FD Fa Fb Hab HS) as (J & RJ & EJ). rewrite LC in EJ. fold N in EJ. fold E in FN.
  assert (SN : PropFl.abs_sum c <= H) by (apply (size_near c h E LC); intros k Hk; apply C, Hk).
  assert (EX : ex_RInt (fun_value a b h) a b). { apply @ex_RInt_continuous. intros x _. unfold fun_value. apply (continuous_comp (ref_point a b) (evalT h)); [|apply continuous_evalT]. unfold ref_point. apply (ex_derive_continuous (V := R_NormedModule)). auto_derive. lra. }
  destruct EX as [K RK]. exists K. split; [exact RK|].
  assert (DF : is_RInt (fun x => minus (fun_value a b c x) (fun_value a b h x)) a b (minus J K)) by (apply @is_RInt_minus; assumption).
  assert (B : norm (minus J K) <= (b - a) * (N * E)). { apply (norm_RInt_le_const (V := R_NormedModule) _ a b _ (N * E) ltac:(lra)) in DF; [exact DF|]. intros x Hx. apply FN, Hx. }
  change (Rabs (J - K) <= (b - a) * (N * E)) in B. replace (v - K) with ((v - J) + (J - K)) by ring. eapply Rle_trans; [apply Rabs_triang|].
  assert (N0 : 0 <= N) by apply pos_INR. destruct uro_small as [U0 _]. pose proof eta_pos as E0. change (/ 2 ^ 53) with uro in *. change (/ 2 ^ 1075) with eta in *.
  assert (M1 : (6 + 5 * N) * uro * PropFl.abs_sum c <= (6 + 5 * N) * uro * H) by (apply Rmult_le_compat_l; [apply Rmult_le_pos; lra|exact SN]).
  assert (M2 : (b - a) * ((6 + 5 * N) * uro * PropFl.abs_sum c + 2 * N * eta) <= (b - a) * ((6 + 5 * N) * uro * H + 2 * N * eta)) by (apply Rmult_le_compat_l; lra).
  assert (M3 : (3 + 7 * PropFl.abs_sum c) * eta <= (3 + 7 * H) * eta) by (apply Rmult_le_compat_r; lra).
  replace ((b - a) * ((6 + 5 * N) * uro * H + 2 * N * eta + N * E)) with ((b - a) * ((6 + 5 * N) * uro * H + 2 * N * eta) + (b - a) * (N * E)) by ring. lra.
Qed.
Print Assumptions C202_integral.

(** np.diff of a function built from a callable, everywhere on the domain. *)
Theorem C202_derivative D L s d e a b op h r x : accurate_sin L s -> computes_on a b op h r -> accurate_dct D (length h) d e -> 0 <= d <= / 16 -> 0 <= e ->
  is_double a -> is_double b -> a < b -> / 2 ^ 1000 <= b - a -> stays_inside a b -> (2 <= length h <= 2 ^ 24)%nat -> a <= x <= b ->
  let N := INR (length h) in let E := build_error a b s r d e h in let H := PropFlS.abs_sum h + N * E in
  exists g, is_derive (fun_value a b h) x g /\
    Rabs (fun_value a b (ffun_diff a b (fbuild D L a b op (length h))) x - g) <= (36 * N ^ 2 * (/ 2 ^ 53 * (N * H) + / 2 ^ 1075) + 2 * N ^ 3 * E) / (b - a) + N * / 2 ^ 1075.
Proof.
  intros HL HO HD Hd He Fa Fb Hab W I [H2 H24] Hx N E H. assert (C := fun k Hk => C202_coefficients D L s d e a b op h r k HL HO HD Hd He Hab I H2 Hk). destruct (C 0%nat ltac:(lia)) as [LC _].
  assert (FD : PropFlD.doubles (fbuild D L a b op (length h))) by (unfold fbuild; apply (fconstruct_doubles D L s d e); auto).
  set (c := fbuild D L a b op (length h)) in *. destruct (C177_domain a b c x ltac:(lia) FD Fa Fb Hab W Hx) as (g & Dg & Eg). rewrite LC in Eg. fold N in Eg.
  assert (SN : PropFl.abs_sum c <= H) by (apply (size_near c h E LC); intros k Hk; apply C, Hk).
  assert (WS : weighted_sum c <= N * H). { apply Rle_trans with (N * PropFl.abs_sum c); [|apply Rmult_le_compat_l; [apply pos_INR|exact SN]]. unfold weighted_sum, PropFl.abs_sum. rewrite <- rsum_scal. apply rsum_le. intros k Hk. apply Rmult_le_compat_r; [apply Rabs_pos|]. unfold N. apply le_INR. lia. }
  destruct (ex_intro (fun l => is_derive (evalT c) (ref_point a b x) l) _ (is_derive_evalT c (ref_point a b x))) as [p Dp]. destruct (ex_intro (fun l => is_derive (evalT h) (ref_point a b x) l) _ (is_derive_evalT h (ref_point a b x))) as [q Dq].
  pose proof (derive_small c h (ref_point a b x) E p q LC (ref_range a b x Hab Hx) (fun k Hk => proj2 (C k Hk)) Dp Dq) as PQ. fold N in PQ.
  pose proof (chain a b c p x Hab Dp) as Cp. pose proof (chain a b h q x Hab Dq) as Cq. exists (q / ((b - a) / 2)). split; [exact Cq|].
  assert (EG : g = p / ((b - a) / 2)) by (rewrite <- (is_derive_unique _ _ _ Dg); apply is_derive_unique, Cp). rewrite EG in Eg.
  change (/ 2 ^ 53) with uro in *. change (/ 2 ^ 1075) with eta in *. destruct uro_small as [U0 _]. pose proof eta_pos as E0. assert (IB : 0 < / (b - a)) by (apply Rinv_0_lt_compat; lra).
  assert (B2 : Rabs (p / ((b - a) / 2) - q / ((b - a) / 2)) <= 2 * N ^ 3 * E / (b - a)). { replace (p / ((b - a) / 2) - q / ((b - a) / 2)) with ((p - q) * (2 * / (b - a))) by (field; lra). rewrite Rabs_mult, (Rabs_right (2 * / (b - a))) by lra. replace (2 * N ^ 3 * E / (b - a)) with (N ^ 3 * E * (2 * / (b - a))) by (field; lra). apply Rmult_le_compat_r; [lra|exact PQ]. }
  assert (M : 36 * N ^ 2 * (uro * weighted_sum c + eta) / (b - a) <= 36 * N ^ 2 * (uro * (N * H) + eta) / (b - a)). { apply Rmult_le_compat_r; [lra|]. apply Rmult_le_compat_l; [apply Rmult_le_pos; [lra|apply pow2_ge_0]|]. assert (uro * weighted_sum c <= uro * (N * H)) by (apply Rmult_le_compat_l; [lra|exact WS]). lra. }
  replace ((36 * N ^ 2 * (uro * (N * H) + eta) + 2 * N ^ 3 * E) / (b - a)) with (36 * N ^ 2 * (uro * (N * H) + eta) / (b - a) + 2 * N ^ 3 * E / (b - a)) by (field; lra).
  replace (fun_value a b (ffun_diff a b c) x - q / ((b - a) / 2)) with ((fun_value a b (ffun_diff a b c) x - p / ((b - a) / 2)) + (p / ((b - a) / 2) - q / ((b - a) / 2))) by ring. eapply Rle_trans; [apply Rabs_triang|]. lra.
Qed.
Print Assumptions C202_derivative.

(** ... but a domain of two units in the last place is left. *)
Theorem C202_outside_refuted : is_double na /\ is_double nb /\ na < nb /\ ~ stays_inside na nb.
Proof.
  assert (Fa : is_double na) by (apply float_double; lia). assert (Fb : is_double nb) by (apply float_double; lia). assert (Fy : is_double ny) by (apply float_double; lia).
  assert (P := bpow_gt_0 radix2 (-52)). split; [exact Fa|]. split; [exact Fb|]. split; [unfold na, nb; apply Rmult_lt_compat_r; [exact P|lra]|].
  intros H. specialize (H ny Fy). rewrite narrow in H. assert (Y : -1 <= ny <= 1). { unfold ny. change (bpow radix2 (-53)) with (/ IZR (2 ^ 53)). change (2 ^ 53)%Z with 9007199254740992%Z. split; lra. }
  destruct (H Y) as [_ H2]. unfold nb in H2. apply Rmult_le_reg_r in H2; [lra|exact P].
Qed.
Print Assumptions C202_outside_refuted.

(** Sampling x^2 (computed as fl(x x)) at three points of [0, 2] with libraries that round exact results, and integrating:
    8/3 to eleven digits. *)
Lemma fdot_some l : l <> [] -> exists s, fdot l s.
Proof.
  intros H. assert (X : exists t, leaves t = l).
  { induction l as [|[w t] l IH]; [contradiction H; reflexivity|]. destruct l as [|p l]; [exists (SLeaf w t); reflexivity|]. destruct IH as [u E]; [discriminate|]. exists (SNode (SLeaf w t) u). cbn [leaves]. rewrite E. reflexivity. }
  destruct X as [t E]. exists (fsum t). exists t. rewrite E. split; [apply Permutation.Permutation_refl|reflexivity].
Qed.
Theorem C202_case : exists v, ffun_sum 0 2 (fbuild rounded_dct round_lib 0 2 (fun x => fmul x x) 3) v /\ Rabs (v - 8 / 3) <= 50000 * / 2 ^ 53 /\ 50000 * / 2 ^ 53 < / 10 ^ 11.
Proof.
  destruct uro_small as [U0 _]. pose proof tiny_uro as U1. pose proof eta_uro as EU. pose proof eta_pos as E0.
  assert (UB : uro <= / 9000000000000000). { Local Transparent uro. unfold uro. apply Rinv_le_contravar; [lra|]. rewrite !pow_IZR. apply IZR_le. cbn. lia. Local Opaque uro. }
  assert (P11 : / 10 ^ 11 = / 100000000000). { f_equal. rewrite pow_IZR. f_equal. }
  set (h := [3 / 2; 2; / 2]). assert (V : forall t, fun_value 0 2 h t = t * t) by (intros t; unfold fun_value, ref_point, evalT, h; cbn [length rsum nth T]; field).
  assert (O : computes_on 0 2 (fun t => fmul t t) h (5 * / 2 ^ 53)).
  { intros t _ Ht. rewrite V. change (/ 2 ^ 53) with uro. change (Rabs (fl (t * t) - t * t) <= 5 * uro). pose proof (fl_err (t * t)) as F. assert (Y : Rabs (t * t) <= 4) by (apply Rabs_le; nra). assert (uro * Rabs (t * t) <= uro * 4) by (apply Rmult_le_compat_l; lra). lra. }
  assert (F0 : is_double 0) by (apply (dbl_Z 0); lia). assert (F2 : is_double 2) by (apply (dbl_Z 2); lia).
  assert (SI : stays_inside 0 2) by (apply C202_inside_partial; [exact F0|exact F2|lra]).
  assert (HD : accurate_dct rounded_dct (length h) (2 * / 2 ^ 53) (/ 2 ^ 1075)) by (apply rounded_accurate; cbn; lia).
  assert (D1 : 0 <= 2 * / 2 ^ 53 <= / 16) by (change (/ 2 ^ 53) with uro; lra). assert (D2 : 0 <= / 2 ^ 1075) by (change (/ 2 ^ 1075) with eta; lra).
  assert (EXV : exists v, ffun_sum 0 2 (fbuild rounded_dct round_lib 0 2 (fun x => fmul x x) (length h)) v).
  { set (c := fbuild rounded_dct round_lib 0 2 (fun x => fmul x x) (length h)). destruct (C202_coefficients rounded_dct round_lib (2 * / 2 ^ 53) (2 * / 2 ^ 53) (/ 2 ^ 1075) 0 2 _ h (5 * / 2 ^ 53) 0 round_lib_accurate O HD D1 D2 ltac:(lra) SI ltac:(cbn; lia) ltac:(cbn; lia)) as [LC _]. fold c in LC. change (length h) with 3%nat in LC.
    destruct (fdot_some (fterms c)) as [q Q]; [unfold fterms; rewrite LC; discriminate|]. exists (fmul q (fmul (/ 2) (fsub 2 0))), q. split; [|reflexivity]. unfold fintegral. rewrite LC. exact Q. }
  destruct EXV as [v HV]. exists v. split; [exact HV|]. split; [|change (/ 2 ^ 53) with uro; rewrite P11; lra].
  destruct (C202_integral rounded_dct round_lib (2 * / 2 ^ 53) (2 * / 2 ^ 53) (/ 2 ^ 1075) 0 2 _ h (5 * / 2 ^ 53) v round_lib_accurate O HD D1 D2 F0 F2 ltac:(lra) SI ltac:(split; [cbn; lia|change (length h) with 3%nat; apply Nat.le_trans with (2 ^ 2)%nat; [cbn; lia|apply Nat.pow_le_mono_r; lia]]) HV) as (I & RI & B).
  assert (EI : I = 8 / 3). { apply (is_RInt_unique (V := R_CompleteNormedModule)) in RI. rewrite <- RI. apply is_RInt_unique. apply (is_RInt_ext (fun t => t * t)); [intros t _; symmetry; apply V|]. evar_last; [apply (is_RInt_derive (fun t => t ^ 3 / 3) (fun t => t * t))|].
    - intros t _. auto_derive; [exact Logic.I|]. field.
    - intros t _. apply (ex_derive_continuous (V := R_NormedModule)). auto_derive. exact Logic.I.
    - change (2 ^ 3 / 3 - 0 ^ 3 / 3 = 8 / 3). field. }
  rewrite EI in B. eapply Rle_trans; [exact B|]. clear B RI HV HD O. change (INR (length h)) with (INR 3). replace (INR 3) with 3 by (cbn; ring).
  assert (AS : PropFlS.abs_sum h = 4). { unfold PropFlS.abs_sum, h. cbn [length rsum nth]. rewrite !Rabs_right by lra. field. }
  set (E := build_error 0 2 (2 * / 2 ^ 53) (5 * / 2 ^ 53) (2 * / 2 ^ 53) (/ 2 ^ 1075) h). assert (EB : 0 <= E <= 7000 * uro).
  { unfold E, build_error, construct_error, sample_error, map_error. rewrite AS. change (INR (length h)) with (INR 3). replace (INR 3) with 3 by (cbn; ring). rewrite Rabs_R0, (Rabs_right 2) by lra. change (/ 2 ^ 53) with uro. change (/ 2 ^ 1075) with eta. split; lra. }
  rewrite AS. change (/ 2 ^ 53) with uro. change (/ 2 ^ 1075) with eta. generalize dependent E. intros E EB.
  assert (M1 : uro * (4 + 3 * E) <= uro * 5) by (apply Rmult_le_compat_l; lra). assert (M2 : (4 + 3 * E) * eta <= 5 * eta) by (apply Rmult_le_compat_r; lra). lra.
Qed.
Print Assumptions C202_case.
