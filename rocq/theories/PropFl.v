(** C168-C171: evaluation and integration in floating point. *)
From Coq Require Import Reals List Arith Lia Lra ZArith Permutation Bool.
From Flocq Require Import Core.
From Coquelicot Require Import Coquelicot.
From Verif Require Import Base ChebSpec ChebMath ChebModel ChebEval ChebCalc FlModel FlProofs FlSum FlMap.
Import ListNotations.
Open Scope R_scope.

(** ** Specification: the sum of the absolute values, the point of [-1, 1] that
    corresponds to a point of [a, b], the function on [a, b]. *)
Definition abs_sum (c : list R) : R := rsum (length c) (fun k => Rabs (nth k c 0)).
Definition ref_point (a b x : R) : R := (2 * x - a - b) / (b - a).
Definition fun_value (a b : R) (c : list R) (x : R) : R := evalT c (ref_point a b x).
Definition series_sum (a b : list R) : list R := map (fun p => fst p + snd p) (combine a b).

Lemma abs_sum_lasum c : abs_sum c = lasum c.
Proof. unfold abs_sum. now rewrite lasum_nth. Qed.
Lemma series_sum_ladd a b : series_sum a b = ladd a b.
Proof. unfold series_sum. revert b; induction a as [|x a IH]; intros [|y b]; cbn; try reflexivity. now rewrite IH. Qed.
Lemma size_ok n : (n <= 2 ^ 24)%nat -> 24 * INR n ^ 2 * uro <= 1 /\ INR n * uro <= / 2.
Proof.
  intros H. assert (N : INR n <= 2 ^ 24). { apply le_INR in H. rewrite pow_INR in H. exact H. }
  assert (P := pos_INR n). unfold uro.
  assert (E : 2 ^ 53 = 32 * (2 ^ 24 * 2 ^ 24)) by (change 53%nat with (5 + (24 + 24))%nat; rewrite (pow_add 2 5), (pow_add 2 24 24); replace (2 ^ 5) with 32 by (cbn [pow]; ring); reflexivity).
  assert (Q : 0 < 2 ^ 24) by (apply pow_lt; lra). assert (Q1 : 1 <= 2 ^ 24) by (apply pow_R1_Rle; lra). rewrite E. generalize dependent (2 ^ 24). intros q N _ Q Q1.
  assert (0 < q * q) by nra. split.
  - apply Rmult_le_reg_r with (32 * (q * q)); [lra|]. rewrite Rmult_assoc, Rinv_l by lra. assert (INR n ^ 2 <= q * q) by (cbn [pow]; rewrite Rmult_1_r; nra). lra.
  - apply Rmult_le_reg_r with (32 * (q * q)); [lra|]. rewrite Rmult_assoc, Rinv_l by lra. nra.
Qed.

(** ** C168: accuracy of evaluation *)
Theorem C168_backward z c x : (1 <= length c <= 2 ^ 24)%nat -> is_double x -> -1 <= x <= 1 ->
  exists e, length e = length c /\ fclenshaw_pt z c x = evalT (series_sum c e) x /\
    abs_sum e <= (8 + 24 * INR (length c) ^ 2) * / 2 ^ 53 * abs_sum c + 8 * INR (length c) * / 2 ^ 1075.
Proof.
  intros [H1 H2] Fx Hx. destruct (size_ok _ H2) as [S1 _].
  destruct (fclenshaw_backward z c x H1 S1 Fx Hx) as (e & L & E & B). exists e. split; [exact L|]. rewrite series_sum_ladd. split; [exact E|].
  rewrite !abs_sum_lasum. exact B.
Qed.
Print Assumptions C168_backward.

Theorem C168_evaluation z c x : (1 <= length c <= 2 ^ 24)%nat -> is_double x -> -1 <= x <= 1 ->
  Rabs (fclenshaw_pt z c x - evalT c x) <= (8 + 24 * INR (length c) ^ 2) * / 2 ^ 53 * abs_sum c + 8 * INR (length c) * / 2 ^ 1075.
Proof.
  intros H Fx Hx. destruct (C168_backward z c x H Fx Hx) as (e & L & E & B). eapply Rle_trans; [|exact B].
  rewrite E, series_sum_ladd, evalT_ladd by (symmetry; exact L). replace (evalT c x + evalT e x - evalT c x) with (evalT e x) by ring.
  rewrite abs_sum_lasum. apply evalT_abs, Hx.
Qed.
Print Assumptions C168_evaluation.

(** What a call that returns has computed. *)
Lemma call_some z a b c xs vs : ffun_call z a b c xs = Some vs ->
  length vs = length xs /\ forall i, (i < length xs)%nat -> -1 <= fbwd a b (nth i xs 0) <= 1 /\ nth i vs 0 = fclenshaw_pt z c (fbwd a b (nth i xs 0)).
Proof.
  unfold ffun_call. destruct (forallb _ _) eqn:E; [|discriminate]. intros H. injection H as <-. rewrite !map_length. split; [reflexivity|]. intros i Hi.
  rewrite forallb_forall in E. split.
  - assert (In (fbwd a b (nth i xs 0)) (map (fbwd a b) xs)) as I by (apply in_map, nth_In, Hi). specialize (E _ I). destruct (Rle_dec (-1) _); [|discriminate]. destruct (Rle_dec _ 1); [lra|discriminate].
  - rewrite (nth_indep _ 0 (fclenshaw_pt z c (fbwd a b 0))) by (rewrite !map_length; exact Hi). rewrite map_nth, map_nth. reflexivity.
Qed.
Lemma ref_point_in a b x : a < b -> a <= x <= b -> -1 <= ref_point a b x <= 1.
Proof. intros H Hx. unfold ref_point. split; apply Rmult_le_reg_r with (b - a); try lra; unfold Rdiv; rewrite Rmult_assoc, Rinv_l by lra; lra. Qed.

Theorem C168_domain z a b c xs vs : (1 <= length c <= 2 ^ 24)%nat -> is_double a -> is_double b -> a < b ->
  (forall x, In x xs -> is_double x /\ a <= x <= b) -> ffun_call z a b c xs = Some vs ->
  length vs = length xs /\ forall i, (i < length xs)%nat ->
  Rabs (nth i vs 0 - fun_value a b c (nth i xs 0)) <=
    (8 + (24 + 8 * ((Rabs a + Rabs b) / (b - a))) * INR (length c) ^ 2) * / 2 ^ 53 * abs_sum c
    + (8 * INR (length c) + INR (length c) ^ 2 * abs_sum c) * / 2 ^ 1075.
Proof.
  intros H Fa Fb Hab Hxs HC. destruct (call_some _ _ _ _ _ _ HC) as [L V]. split; [exact L|]. intros i Hi. destruct (V i Hi) as [Y ->].
  destruct (Hxs (nth i xs 0) (nth_In _ _ Hi)) as [Fx Hx]. set (x := nth i xs 0) in *. set (y := fbwd a b x) in *. unfold fun_value. set (y0 := ref_point a b x).
  assert (Fy : is_double y) by apply fl_is_double. pose proof (C168_evaluation z c y H Fy Y) as B1.
  pose proof (evalT_lip c y y0 Y (ref_point_in a b x Hab Hx)) as B2. pose proof (fbwd_err a b x Fa Fb Fx Hab Hx) as B3. fold (ref_point a b x) in B3. fold y y0 in B3.
  rewrite abs_sum_lasum in *. assert (PS := lasum_pos c). set (S := lasum c) in *. set (N := INR (length c)) in *. assert (PN : 0 <= N ^ 2) by (apply pow_le; apply pos_INR).
  set (K := (Rabs a + Rabs b) / (b - a)) in *.
  assert (B4 : N ^ 2 * S * Rabs (y - y0) <= N ^ 2 * S * (8 * uro * K + eta)) by (apply Rmult_le_compat_l; [apply Rmult_le_pos; lra|exact B3]).
  replace (fclenshaw_pt z c y - evalT c y0) with ((fclenshaw_pt z c y - evalT c y) + (evalT c y - evalT c y0)) by ring.
  eapply Rle_trans; [apply Rabs_triang|]. fold uro eta in B1 |- *. generalize dependent (N ^ 2). intros. clearbody K S N. generalize dependent uro. generalize dependent eta. intros. lra.
Qed.
Print Assumptions C168_domain.

(** ** C169: accuracy of the definite integral *)
Theorem C169_integral c s : (1 <= length c <= 2 ^ 24)%nat -> (forall a, In a c -> is_double a) -> fintegral c s ->
  exists I : R, is_RInt (evalT c) (-1) 1 I /\
    Rabs (s - I) <= (3 + 6 * INR (length c)) * / 2 ^ 53 * abs_sum c + 2 * INR (length c) * / 2 ^ 1075.
Proof.
  intros [H1 H2] D H. destruct (size_ok _ H2) as [_ S2]. exists (rsum (length c) (fun k => nth k c 0 * moment k)). split; [apply is_RInt_evalT|].
  rewrite abs_sum_lasum. exact (fintegral_err c s D S2 H).
Qed.
Print Assumptions C169_integral.

Lemma moment_sum_abs c : Rabs (rsum (length c) (fun k => nth k c 0 * moment k)) <= 2 * lasum c.
Proof.
  eapply Rle_trans; [apply rsum_Rabs|]. rewrite lasum_nth, <- rsum_scal. apply rsum_le. intros k _. rewrite Rabs_mult. pose proof (moment_abs k). pose proof (Rabs_pos (nth k c 0)). nra.
Qed.
Lemma scale_err u e S E n s I H D' h r : 0 < u <= / 8 -> 0 < e -> e <= u * / 8 -> 0 <= S -> 0 <= n -> n * u <= / 2 ->
  E = (3 + 6 * n) * u * S + 2 * n * e -> Rabs (s - I) <= E -> Rabs I <= 2 * S -> 0 < H -> Rabs (D' - 2 * H) <= u * (2 * H) ->
  Rabs (h - / 2 * D') <= u * Rabs (/ 2 * D') + e -> Rabs (r - s * h) <= u * Rabs (s * h) + e ->
  Rabs (r - I * H) <= 2 * H * ((6 + 5 * n) * u * S + 2 * n * e) + (3 + 7 * S) * e.
Proof.
  intros [U0 U1] E0 EU S0 N0 NU HE Hs HI H0 HD Hh Hr.
  assert (UH : u * H <= / 8 * H) by (apply Rmult_le_compat_r; lra). assert (UH0 : 0 <= u * H) by (apply Rmult_le_pos; lra).
  assert (D1 : Rabs (/ 2 * D') <= H + u * H). { apply Rabs_le. apply Rabs_le_inv in HD. lra. }
  assert (UUH : u * (u * H) <= / 8 * (u * H)) by (apply Rmult_le_compat_r; lra).
  assert (Hd1 : u * Rabs (/ 2 * D') <= u * (H + u * H)) by (apply Rmult_le_compat_l; lra).
  assert (DD : Rabs (/ 2 * D' - H) <= u * H). { apply Rabs_le. apply Rabs_le_inv in HD. lra. }
  assert (HH : Rabs (h - H) <= 17 / 8 * (u * H) + e).
  { replace (h - H) with ((h - / 2 * D') + (/ 2 * D' - H)) by ring. eapply Rle_trans; [apply Rabs_triang|]. lra. }
  assert (h1 : Rabs h <= 4 / 3 * H + e). { replace h with (H + (h - H)) by ring. eapply Rle_trans; [apply Rabs_triang|]. rewrite (Rabs_right H) by lra. lra. }
  assert (UUS : 0 <= u * S) by (apply Rmult_le_pos; lra). assert (NUS : 0 <= n * (u * S)) by (apply Rmult_le_pos; lra). assert (NE : 0 <= n * e) by (apply Rmult_le_pos; lra).
  assert (PE : 0 <= E) by (rewrite HE; lra).
  assert (NUS1 : n * u * S <= / 2 * S) by (apply Rmult_le_compat_r; lra).
  assert (US1 : u * S <= / 8 * S) by (apply Rmult_le_compat_r; lra).
  assert (NE1 : n * e <= n * (u * / 8)) by (apply Rmult_le_compat_l; lra).
  assert (E1 : E <= 4 * S + 1) by (rewrite HE; lra).
  assert (s1 : Rabs s <= 2 * S + E). { replace s with (I + (s - I)) by ring. eapply Rle_trans; [apply Rabs_triang|]. lra. }
  assert (P0 := Rabs_pos h). assert (P1 := Rabs_pos s). assert (P2 := Rabs_pos (s - I)). assert (P3 := Rabs_pos I). assert (P4 := Rabs_pos (h - H)).
  assert (A1 : Rabs (s * h) <= (2 * S + E) * (4 / 3 * H + e)). { rewrite Rabs_mult. apply Rmult_le_compat; lra. }
  assert (A2 : Rabs (s * h - I * H) <= E * (4 / 3 * H + e) + 2 * S * (17 / 8 * (u * H) + e)).
  { replace (s * h - I * H) with ((s - I) * h + I * (h - H)) by ring. eapply Rle_trans; [apply Rabs_triang|]. rewrite !Rabs_mult. apply Rplus_le_compat; apply Rmult_le_compat; lra. }
  assert (A3 : u * Rabs (s * h) <= u * ((2 * S + E) * (4 / 3 * H + e))) by (apply Rmult_le_compat_l; lra).
  replace (r - I * H) with ((r - s * h) + (s * h - I * H)) by ring. eapply Rle_trans; [apply Rabs_triang|].
  assert (EH : 0 <= E * H) by (apply Rmult_le_pos; lra). assert (SE : 0 <= S * e) by (apply Rmult_le_pos; lra). assert (EE : 0 <= E * e) by (apply Rmult_le_pos; lra).
  assert (SH : 0 <= S * H) by (apply Rmult_le_pos; lra).
  assert (Q1 : u * (E * H) <= / 8 * (E * H)) by (apply Rmult_le_compat_r; lra).
  assert (Q2 : u * (S * e) <= / 8 * (S * e)) by (apply Rmult_le_compat_r; lra).
  assert (Q3 : u * (E * e) <= / 8 * (E * e)) by (apply Rmult_le_compat_r; lra).
  assert (Q4 : E * e <= (4 * S + 1) * e) by (apply Rmult_le_compat_r; lra).
  assert (Q5 : E * H = (3 + 6 * n) * u * S * H + 2 * n * e * H) by (rewrite HE; ring).
  assert (Q6 : 0 <= n * e * H) by (apply Rmult_le_pos; lra). assert (Q7 : 0 <= u * S * H) by (apply Rmult_le_pos; lra). assert (Q8 : 0 <= n * u * S * H) by (apply Rmult_le_pos; [|lra]; replace (n * u * S) with (n * (u * S)) by ring; lra).
  lra.
Qed.
Lemma is_RInt_scaled a b c I : a < b -> is_RInt (evalT c) (-1) 1 I -> is_RInt (fun_value a b c) a b (I * ((b - a) / 2)).
Proof.
  intros H HI. unfold fun_value, ref_point.
  assert (L : is_RInt (evalT c) (2 / (b - a) * a + (- (a + b) / (b - a))) (2 / (b - a) * b + (- (a + b) / (b - a))) I).
  { replace (2 / (b - a) * a + - (a + b) / (b - a)) with (-1) by (field; lra). replace (2 / (b - a) * b + - (a + b) / (b - a)) with 1 by (field; lra). exact HI. }
  pose proof (is_RInt_comp_lin (evalT c) (2 / (b - a)) (- (a + b) / (b - a)) a b I L) as M.
  apply (is_RInt_scal _ _ _ ((b - a) / 2)) in M. replace (I * ((b - a) / 2)) with (scal ((b - a) / 2) I) by (unfold scal; cbn; unfold mult; cbn; ring).
  eapply is_RInt_ext; [|exact M]. intros x _. unfold scal; cbn; unfold mult; cbn.
  replace (2 / (b - a) * x + - (a + b) / (b - a)) with ((2 * x - a - b) / (b - a)) by (field; lra). field. lra.
Qed.
Theorem C169_domain a b c r : (1 <= length c <= 2 ^ 24)%nat -> (forall t, In t c -> is_double t) -> is_double a -> is_double b -> a < b -> ffun_sum a b c r ->
  exists I : R, is_RInt (fun_value a b c) a b I /\
    Rabs (r - I) <= (b - a) * ((6 + 5 * INR (length c)) * / 2 ^ 53 * abs_sum c + 2 * INR (length c) * / 2 ^ 1075) + (3 + 7 * abs_sum c) * / 2 ^ 1075.
Proof.
  intros [H1 H2] D Fa Fb Hab (s & Hs & ->). destruct (size_ok _ H2) as [_ S2].
  set (I := rsum (length c) (fun k => nth k c 0 * moment k)). exists (I * ((b - a) / 2)). split; [apply is_RInt_scaled; [exact Hab|apply is_RInt_evalT]|].
  rewrite abs_sum_lasum. pose proof (fintegral_err c s D S2 Hs) as B. fold I in B.
  pose proof (scale_err uro eta (lasum c) _ (INR (length c)) s I ((b - a) / 2) (fsub b a) (fmul (/ 2) (fsub b a)) (fmul s (fmul (/ 2) (fsub b a)))
    uro_small eta_pos eta_small (lasum_pos c) (pos_INR _) S2 eq_refl B (moment_sum_abs c) ltac:(lra)) as G.
  replace (2 * ((b - a) / 2)) with (b - a) in G by field. apply G.
  - pose proof (fsub_rel b a Fb Fa) as F. rewrite (Rabs_right (b - a)) in F by lra. exact F.
  - apply fl_err.
  - apply fl_err.
Qed.
Print Assumptions C169_domain.

(** ** C170: which points of its domain a function can be evaluated at *)
Definition evaluable (a b : R) : Prop := forall z c xs, (forall x, In x xs -> is_double x /\ a <= x <= b) -> exists vs, ffun_call z a b c xs = Some vs.
Lemma call_ok z a b c xs : (forall x, In x xs -> -1 <= fbwd a b x <= 1) -> exists vs, ffun_call z a b c xs = Some vs.
Proof.
  intros H. unfold ffun_call. replace (forallb _ _) with true; [eexists; reflexivity|]. symmetry. apply forallb_forall. intros y Hy. apply in_map_iff in Hy.
  destruct Hy as (x & <- & Hx). specialize (H x Hx). destruct (Rle_dec (-1) _); [|lra]. destruct (Rle_dec _ 1); [reflexivity|lra].
Qed.
Theorem C170_evaluable_iff a b : is_double a -> is_double b -> a < b ->
  (evaluable a b <-> fl (fl (2 * b - a) - b) <= fl (b - a)).
Proof.
  intros Fa Fb H. pose proof (fbwd_right a b Fa Fb H) as R. unfold fsub in R. rewrite <- R. split.
  - intros E. destruct (E (fun _ => true) [1] [b]) as (vs & V). { intros x [<-|[]]. split; [exact Fb|lra]. }
    destruct (call_some _ _ _ _ _ _ V) as [_ W]. specialize (W 0%nat ltac:(cbn; lia)). cbn [nth] in W. lra.
  - intros E z c xs Hxs. apply call_ok. intros x Hx. destruct (Hxs x Hx) as [_ B]. split.
    + rewrite <- (fbwd_left a b Fa Fb H). apply fbwd_mono; try assumption. apply B.
    + eapply Rle_trans; [|exact E]. apply fbwd_mono; try assumption. apply B.
Qed.
Print Assumptions C170_evaluable_iff.

Theorem C170_left_end a b z c : is_double a -> is_double b -> a < b -> exists v, ffun_call z a b c [a] = Some [v] /\ v = fclenshaw_pt z c (-1).
Proof.
  intros Fa Fb H. destruct (call_ok z a b c [a]) as (vs & V). { intros x [<-|[]]. rewrite fbwd_left by assumption. lra. }
  destruct (call_some _ _ _ _ _ _ V) as [L W]. destruct vs as [|v [|? ?]]; try discriminate. exists v. split; [exact V|].
  destruct (W 0%nat ltac:(cbn; lia)) as [_ E]. cbn [nth] in E. rewrite E, fbwd_left by assumption. reflexivity.
Qed.
Print Assumptions C170_left_end.

Theorem C170_exact_partial a b : is_double a -> is_double b -> a < b -> is_double (2 * b - a) -> evaluable a b.
Proof. intros Fa Fb H F. apply C170_evaluable_iff; try assumption. rewrite (fl_double _ F). apply Req_le. f_equal. ring. Qed.
Print Assumptions C170_exact_partial.
Theorem C170_from_zero_partial b : is_double b -> 0 < b -> evaluable 0 b.
Proof.
  intros Fb H. assert (F0 : is_double 0) by (apply (dbl_Z 0); lia). apply C170_exact_partial; try assumption. replace (2 * b - 0) with (2 * b) by ring. apply double_twice, Fb.
Qed.
Print Assumptions C170_from_zero_partial.
Theorem C170_integer_ends_partial i j : (i < j)%Z -> (Z.abs i <= 2 ^ 51)%Z -> (Z.abs j <= 2 ^ 51)%Z -> evaluable (IZR i) (IZR j).
Proof.
  intros H Hi Hj. apply C170_exact_partial; [apply dbl_Z; lia|apply dbl_Z; lia|apply IZR_lt; exact H|].
  rewrite <- mult_IZR, <- minus_IZR. apply dbl_Z. lia.
Qed.
Print Assumptions C170_integer_ends_partial.

(** The doubles nearest to -0.1 and 0.1. *)
Definition tenth : R := IZR 3602879701896397 * bpow radix2 (-55).
Example tenth_nearest : Rabs (tenth - / 10) < bpow radix2 (-57).
Proof.
  unfold tenth. change (bpow radix2 (-55)) with (/ IZR (2 ^ 55)). change (bpow radix2 (-57)) with (/ IZR (2 ^ 57)).
  change (2 ^ 55)%Z with 36028797018963968%Z. change (2 ^ 57)%Z with 144115188075855872%Z. apply Rabs_def1; lra.
Qed.
Lemma tenth_double : is_double tenth.
Proof. unfold is_double. apply generic_format_FLT. exists (Float radix2 3602879701896397 (-55)); cbn [Fnum Fexp]; [reflexivity|vm_compute; reflexivity|lia]. Qed.
Lemma tenth_pos : 0 < tenth.
Proof. unfold tenth. apply Rmult_lt_0_compat; [lra|apply bpow_gt_0]. Qed.
Lemma tenth_right : ~ fl (fl (2 * tenth - - tenth) - tenth) <= fl (tenth - - tenth).
Proof.
  assert (B0 := bpow_gt_0 radix2 (-55)).
  assert (E1 : fl (2 * tenth - - tenth) = IZR 5404319552844596 * bpow radix2 (-54)).
  { replace (2 * tenth - - tenth) with ((IZR 5404319552844595 + / 2) * bpow radix2 (-54)).
    - apply (fl_tie_up 5404319552844595 (-54)); [lia|lia|reflexivity].
    - unfold tenth. change (-54)%Z with (1 + -55)%Z. rewrite bpow_plus. change (bpow radix2 1) with 2. field. }
  rewrite E1. replace (IZR 5404319552844596 * bpow radix2 (-54) - tenth) with (IZR 7205759403792795 * bpow radix2 (-55)).
  2:{ unfold tenth. change (-54)%Z with (1 + -55)%Z. rewrite bpow_plus. change (bpow radix2 1) with 2. ring. }
  rewrite (fl_double (IZR 7205759403792795 * bpow radix2 (-55))).
  2:{ unfold is_double. apply generic_format_FLT. exists (Float radix2 7205759403792795 (-55)); cbn [Fnum Fexp]; [reflexivity|vm_compute; reflexivity|lia]. }
  replace (tenth - - tenth) with (2 * tenth) by ring. rewrite fl_double by apply double_twice, tenth_double. unfold tenth. lra.
Qed.
Theorem C170_tenth_refuted : is_double (- tenth) /\ is_double tenth /\ - tenth < tenth /\ ~ evaluable (- tenth) tenth.
Proof.
  pose proof tenth_pos as P. assert (F := tenth_double). assert (F' := dbl_opp _ F). split; [exact F'|]. split; [exact F|]. split; [lra|].
  intros E. apply C170_evaluable_iff in E; [|exact F'|exact F|lra]. exact (tenth_right E).
Qed.
Print Assumptions C170_tenth_refuted.

(** The sample points end at the ends of the domain, so that a function cannot
    be evaluated at its own points. *)
Theorem C170_sample_ends a b : is_double a -> is_double b -> ffwd a b (-1) = a /\ ffwd a b 1 = b.
Proof.
  intros Fa Fb. assert (D2 : is_double 2) by (apply (dbl_Z 2); lia). assert (D0 : is_double 0) by (apply (dbl_Z 0); lia). unfold ffwd, fdiv, fadd, fmul, fsub. split.
  - replace (-1 + 1) with 0 by ring. replace (1 - -1) with 2 by ring. rewrite (fl_double 0 D0), (fl_double 2 D2), Rmult_0_r, (fl_double 0 D0).
    rewrite (Rmult_comm a 2), (fl_double (2 * a)) by apply double_twice, Fa. rewrite Rplus_0_l, (fl_double (2 * a)) by apply double_twice, Fa. replace (2 * a / 2) with a by field. apply fl_double, Fa.
  - replace (1 + 1) with 2 by ring. replace (1 - 1) with 0 by ring. rewrite (fl_double 0 D0), (fl_double 2 D2), Rmult_0_r, (fl_double 0 D0).
    rewrite (Rmult_comm b 2), (fl_double (2 * b)) by apply double_twice, Fb. rewrite Rplus_0_r, (fl_double (2 * b)) by apply double_twice, Fb. replace (2 * b / 2) with b by field. apply fl_double, Fb.
Qed.
Print Assumptions C170_sample_ends.
Theorem C170_own_points_refuted z c ys : In 1 ys -> ffun_call z (- tenth) tenth c (map (ffwd (- tenth) tenth) ys) = None.
Proof.
  intros H. pose proof tenth_pos as P. assert (F := tenth_double). assert (F' := dbl_opp _ F).
  destruct (ffun_call z (- tenth) tenth c (map (ffwd (- tenth) tenth) ys)) as [vs|] eqn:V; [|reflexivity]. exfalso.
  destruct (call_some _ _ _ _ _ _ V) as [_ W]. assert (I : In tenth (map (ffwd (- tenth) tenth) ys)).
  { apply in_map_iff. exists 1. split; [apply C170_sample_ends; assumption|exact H]. }
  apply In_nth with (d := 0) in I. destruct I as (i & Hi & E). destruct (W i Hi) as [Q _]. rewrite E in Q.
  pose proof (fbwd_right _ _ F' F ltac:(lra)) as R. unfold fsub in R. apply tenth_right. apply R. lra.
Qed.
Print Assumptions C170_own_points_refuted.

(** ** C171: exact laws of evaluation *)
Lemma fstep_0 z x : fstep z 0 x 0 0 = 0.
Proof. unfold fstep, fsub, fadd, fmul. rewrite Rmult_0_r, fl_0. replace (0 + 0) with 0 by ring. destruct z; rewrite fl_0; replace (0 - 0) with 0 by ring; apply fl_0. Qed.
Lemma fstep_const z a x : is_double a -> fstep z a x 0 0 = a.
Proof.
  intros F. unfold fstep, fsub, fadd, fmul. rewrite Rmult_0_r, fl_0. rewrite Rplus_0_r. assert (E : (if z then fl a else fl a) = a) by (destruct z; apply fl_double, F). rewrite E, Rminus_0_r. apply fl_double, F.
Qed.
Lemma fstep_opp z a p q d : fstep z (- a) p (- q) (- d) = - fstep z a p q d.
Proof.
  unfold fstep, fsub, fadd, fmul. replace (p * - q) with (- (p * q)) by ring. rewrite fl_opp. replace (- a + - (p * q)) with (- (a + p * q)) by ring. replace (- a + - fl (p * q)) with (- (a + fl (p * q))) by ring.
  rewrite !fl_opp. destruct z; (match goal with |- fl ?u = _ => replace u with (- - u) by ring end); rewrite fl_opp; f_equal; f_equal; ring.
Qed.
Lemma fstep_flip z a p q d : fstep z a (- p) (- q) d = fstep z a p q d.
Proof. unfold fstep, fmul. replace (- p * - q) with (p * q) by ring. reflexivity. Qed.

(** A constant is its own value everywhere. *)
Theorem C171_constant z a x : is_double a -> is_double x -> fclenshaw_pt z [a] x = a.
Proof. intros Fa Fx. rewrite fclenshaw_fbl by (cbn; lia || assumption). cbn [tl nth fbl]. apply fstep_const, Fa. Qed.
Print Assumptions C171_constant.

(** Prolongation by zeros does not change any value. *)
Lemma fbl_zeros z x m : fbl z x (repeat 0 m) = 0 /\ fbl z x (tl (repeat 0 m)) = 0.
Proof.
  induction m as [|m [I1 I2]]; [split; reflexivity|]. split; [|exact I1]. change (repeat 0 (S m)) with (0 :: repeat 0 m). rewrite fbl_cons, I1, I2. apply fstep_0.
Qed.
Lemma fbl_pad z x m l : fbl z x (l ++ repeat 0 m) = fbl (fun k => z (k + m)%nat) x l /\ fbl z x (tl (l ++ repeat 0 m)) = fbl (fun k => z (k + m)%nat) x (tl l).
Proof.
  induction l as [|a l [I1 I2]].
  - cbn [app tl fbl]. apply fbl_zeros.
  - cbn [app tl]. split; [|exact I1]. rewrite !fbl_cons, I1, I2, app_length, repeat_length. reflexivity.
Qed.
Theorem C171_prolong z c m x : (1 <= length c)%nat -> is_double x ->
  fclenshaw_pt z (c ++ repeat 0 m) x = fclenshaw_pt (fun k => z (k + m)%nat) c x.
Proof.
  intros H Fx. rewrite !fclenshaw_fbl by (try rewrite app_length; try assumption; lia). destruct c as [|a l]; [cbn in H; lia|]. cbn [app tl nth].
  destruct (fbl_pad z x m l) as [P1 P2]. rewrite P1, P2. f_equal. f_equal. cbn [length]. rewrite app_length, repeat_length. lia.
Qed.
Print Assumptions C171_prolong.

(** The value of -f is minus the value of f. *)
Lemma fbl_opp z x l : fbl z x (map Ropp l) = - fbl z x l /\ fbl z x (tl (map Ropp l)) = - fbl z x (tl l).
Proof.
  induction l as [|a l [I1 I2]]; [cbn; split; ring|]. split; [|exact I1]. cbn [map]. rewrite !fbl_cons, I1, I2, map_length. apply fstep_opp.
Qed.
Theorem C171_negative z c x : (1 <= length c)%nat -> is_double x -> fclenshaw_pt z (map Ropp c) x = - fclenshaw_pt z c x.
Proof.
  intros H Fx. rewrite !fclenshaw_fbl by (try rewrite map_length; assumption). destruct c as [|a l]; [cbn in H; lia|]. cbn [map tl nth length].
  destruct (fbl_opp z x l) as [P1 P2]. rewrite P1, P2, map_length. apply fstep_opp.
Qed.
Print Assumptions C171_negative.

(** An even series has an even, an odd series an odd computed value. *)
Definition flip (c : list R) : list R := mk (length c) (fun k => (-1) ^ k * nth k c 0).
Fixpoint alt (s : R) (l : list R) : list R := match l with [] => [] | a :: t => s * a :: alt (- s) t end.
Lemma alt_length s l : length (alt s l) = length l.
Proof. revert s; induction l; intros s; cbn; auto. Qed.
Lemma alt_nth s l k : nth k (alt s l) 0 = s * ((-1) ^ k * nth k l 0).
Proof.
  revert s k; induction l as [|a l IH]; intros s [|k]; cbn [alt nth pow]; try ring. rewrite IH. ring.
Qed.
Lemma flip_alt c : flip c = alt 1 c.
Proof.
  apply (nth_ext _ _ 0 0); [unfold flip; rewrite mk_length, alt_length; reflexivity|]. intros k Hk. unfold flip in *. rewrite mk_length in Hk. rewrite nth_mk by exact Hk. rewrite alt_nth. ring.
Qed.
Lemma fbl_alt z x l s : (s = 1 \/ s = -1) -> fbl z (- x) (alt s l) = s * fbl z x l.
Proof.
  assert (G : forall s, (s = 1 \/ s = -1) -> fbl z (- x) (alt s l) = s * fbl z x l /\ fbl z (- x) (tl (alt s l)) = - s * fbl z x (tl l)).
  { induction l as [|a l IH]; intros t Ht; [cbn; split; ring|]. assert (Ht' : - t = 1 \/ - t = -1) by (destruct Ht; subst; [right|left]; ring).
    destruct (IH (- t) Ht') as [I1 I2]. cbn [alt tl]. split; [|exact I1]. rewrite !fbl_cons, I1, I2, alt_length. replace (2 * - x) with (- (2 * x)) by ring.
    destruct Ht as [-> | ->].
    - replace (- (1) * fbl z x l) with (- fbl z x l) by ring. rewrite fstep_flip, !Rmult_1_l. f_equal; ring.
    - replace (- -1 * fbl z x l) with (- - fbl z x l) by ring. rewrite fstep_flip. replace (- - -1 * fbl z x (tl l)) with (- fbl z x (tl l)) by ring. replace (-1 * a) with (- a) by ring.
      rewrite fstep_opp. ring. }
  intros H. apply (G s H).
Qed.
Theorem C171_reflection z c x : (1 <= length c)%nat -> is_double x -> fclenshaw_pt z (flip c) (- x) = fclenshaw_pt z c x.
Proof.
  intros H Fx. rewrite flip_alt. rewrite !fclenshaw_fbl by (try rewrite alt_length; try assumption; apply dbl_opp; assumption). destruct c as [|a l]; [cbn in H; lia|]. cbn [alt tl nth length].
  rewrite fbl_alt by (right; ring). rewrite alt_length. replace (- (1) * fbl z x l) with (- fbl z x l) by ring. rewrite fstep_flip. f_equal; [ring|].
  destruct l as [|b l]; [cbn; reflexivity|]. cbn [alt tl]. rewrite fbl_alt by (left; ring). ring.
Qed.
Print Assumptions C171_reflection.
Theorem C171_even z c x : (1 <= length c)%nat -> is_double x -> (forall k, Nat.odd k = true -> nth k c 0 = 0) -> fclenshaw_pt z c (- x) = fclenshaw_pt z c x.
Proof.
  intros H Fx E. rewrite <- (C171_reflection z c x H Fx). f_equal. apply (nth_ext _ _ 0 0); [unfold flip; now rewrite mk_length|]. intros k Hk. unfold flip. rewrite nth_mk by exact Hk.
  destruct (Nat.odd k) eqn:O; [rewrite (E k O); ring|]. assert (V : Nat.even k = true) by (now rewrite <- Nat.negb_odd, O). apply Nat.even_spec in V. destruct V as [m ->]. rewrite pow_1_even. ring.
Qed.
Print Assumptions C171_even.

(** ** Cases that meet the hypotheses *)
Example C168_case : (1 <= length [1; / 2; / 4]%R <= 2 ^ 24)%nat /\ is_double tenth /\ -1 <= tenth <= 1 /\ abs_sum [1; / 2; / 4] = 7 / 4.
Proof.
  split; [split; [cbn; lia|]; apply Nat.le_trans with (2 ^ 2)%nat; [cbn; lia|apply Nat.pow_le_mono_r; lia]|]. split; [exact tenth_double|]. split.
  - pose proof tenth_pos. split; [lra|]. pose proof tenth_nearest as Q. apply Rabs_def2 in Q. assert (bpow radix2 (-57) < bpow radix2 (-1)) by (apply bpow_lt; lia). change (bpow radix2 (-1)) with (/ 2) in *. lra.
  - unfold abs_sum. cbn [length rsum nth]. rewrite !Rabs_right by lra. lra.
Qed.
Example C169_case : exists s, fintegral [tenth; tenth; tenth] s /\ forall t, In t [tenth; tenth; tenth] -> is_double t.
Proof.
  exists (fsum (SFuse (SNode (SLeaf (fweight 0) (fmask 0 tenth)) (SLeaf (fweight 1) (fmask 1 tenth))) (fweight 2) (fmask 2 tenth))). split.
  - unfold fintegral. cbn [length Nat.eqb]. eexists. split; [|reflexivity]. apply Permutation_refl.
  - intros t [<-|[<-|[<-|[]]]]; exact tenth_double.
Qed.
Example C170_case : evaluable (IZR (-3)) (IZR 5) /\ evaluable 0 tenth.
Proof. split; [apply C170_integer_ends_partial; lia|apply C170_from_zero_partial; [exact tenth_double|exact tenth_pos]]. Qed.
