(** C177-C179: derivatives, running integrals and sums in floating point. *)
From Coq Require Import Reals List Arith Lia Lra ZArith Permutation Bool.
From Flocq Require Import Core.
From Coquelicot Require Import Coquelicot.
From Verif Require Import Base ChebSpec ChebMath ChebModel ChebEval ChebDct ChebCalc FlModel FlProofs FlSum FlMap FlModel2 FlCalc FlCum PropFl.
Import ListNotations.
Open Scope R_scope.

(** The sum of k |c_k|: it bounds the derivative's coefficients. *)
Definition weighted_sum (c : list R) : R := rsum (length c) (fun k => INR k * Rabs (nth k c 0)).
Definition doubles (c : list R) : Prop := forall t, In t c -> is_double t.

Lemma chain a b c d x : a < b -> is_derive (evalT c) (ref_point a b x) d -> is_derive (fun_value a b c) x (d / ((b - a) / 2)).
Proof.
  intros H D. unfold fun_value. evar_last.
  - apply (is_derive_comp (evalT c) (ref_point a b) x d (/ ((b - a) / 2))); [exact D|]. unfold ref_point. auto_derive; [lra|]. field. lra.
  - unfold scal; cbn; unfold mult; cbn. field. lra.
Qed.

(** ** C177: diff returns the coefficients of a function that is close to the derivative. *)
Theorem C177_reference c x : (2 <= length c <= 2 ^ 24)%nat -> doubles c -> -1 <= x <= 1 ->
  exists d, is_derive (evalT c) x d /\
    Rabs (evalT (fder c) x - d) <= 6 * INR (length c) ^ 2 * (/ 2 ^ 53 * weighted_sum c + / 2 ^ 1075).
Proof.
  intros [H2 H3] Hd Hx. destruct (size_ok _ H3) as [_ S2]. exists (evalT (computeDerCoeffs1 c) x). split; [apply computeDerCoeffs1_correct, H2|].
  exact (fder_err c x H2 Hd S2 Hx).
Qed.
Print Assumptions C177_reference.
Theorem C177_domain a b c x : (2 <= length c <= 2 ^ 24)%nat -> doubles c -> is_double a -> is_double b -> a < b -> / 2 ^ 1000 <= b - a -> a <= x <= b ->
  exists d, is_derive (fun_value a b c) x d /\
    Rabs (fun_value a b (ffun_diff a b c) x - d) <= 36 * INR (length c) ^ 2 * (/ 2 ^ 53 * weighted_sum c + / 2 ^ 1075) / (b - a) + INR (length c) * / 2 ^ 1075.
Proof.
  intros [H2 H3] Hd Fa Fb Hab HL Hx. destruct (size_ok _ H3) as [_ S2]. exists (evalT (computeDerCoeffs1 c) (ref_point a b x) / ((b - a) / 2)). split.
  - apply chain; [exact Hab|]. apply computeDerCoeffs1_correct, H2.
  - exact (fdiff_err a b c (ref_point a b x) H2 Hd S2 (ref_point_in a b x Hab Hx) Fa Fb Hab HL).
Qed.
Print Assumptions C177_domain.
(** The derivative has one coefficient less, all of them doubles. *)
Theorem C177_shape a b c : (2 <= length c)%nat -> length (ffun_diff a b c) = (length c - 1)%nat /\ doubles (ffun_diff a b c).
Proof. intros H. split; [apply fdiff_length|]. intros t Ht. unfold ffun_diff in Ht. apply in_map_iff in Ht. destruct Ht as (d & <- & _). apply fl_is_double. Qed.
Print Assumptions C177_shape.
(** Straight lines on [-1, 1]: the derivative is exact. *)
Theorem C177_line p q : is_double q -> fder [p; q] = [q].
Proof.
  intros Fq. unfold fder. cbn [length Nat.sub mk seq map skipn stride2 fcum upd firstn app nth]. change (INR 1) with 1. unfold fmul.
  rewrite (fl_double (2 * 1 * q)) by (replace (2 * 1 * q) with (2 * q) by ring; apply double_twice, Fq). replace (/ 2 * (2 * 1 * q)) with q by field. rewrite fl_double by exact Fq. reflexivity.
Qed.
Print Assumptions C177_line.

(** ** C178: cumsum is close to the integral from the left end.
    [s] is what simplify makes of the coefficients, any series within [d] of them
    on [-1, 1]; [g] the result on [-1, 1]. *)
Definition within (d : R) (s b : list R) : Prop := forall y, -1 <= y <= 1 -> Rabs (evalT s y - evalT b y) <= d.
Definition cum_bound (d : R) (c s : list R) : R :=
  2 * d + 12 * / 2 ^ 53 * abs_sum c + 6 * INR (length c) * / 2 ^ 1075 + 5 * INR (length s) * (/ 2 ^ 53 * abs_sum s + / 2 ^ 1075).
Lemma exact_cum c x : (1 <= length c)%nat -> is_RInt (evalT c) (-1) x (evalT (cumsum_coeffs1 c) x).
Proof.
  intros H. replace (evalT (cumsum_coeffs1 c) x) with (minus (evalT (cumsum_coeffs1 c) x) (evalT (cumsum_coeffs1 c) (-1))) by (rewrite cumsum_coeffs1_left; unfold minus, plus, opp; cbn; ring).
  apply (is_RInt_derive (V := R_CompleteNormedModule)); intros; [apply cumsum_coeffs1_derive, H|apply continuous_evalT].
Qed.
Theorem C178_reference c b s g d x : (1 <= length c)%nat -> (1 <= length s <= 2 ^ 24)%nat -> doubles c -> doubles s ->
  fcumsum_coeffs c b -> within d s b -> fshift s g -> -1 <= x <= 1 ->
  exists I, is_RInt (evalT c) (-1) x I /\ Rabs (evalT g x - I) <= cum_bound d c s.
Proof.
  intros H1 [H2 H3] Hc Hs Hb Hd Hg Hx. destruct (size_ok _ H3) as [_ S2]. exists (evalT (cumsum_coeffs1 c) x). split; [apply exact_cum, H1|].
  unfold cum_bound. rewrite !abs_sum_lasum. exact (fcumsum_total c b s g d x H1 H2 S2 Hc Hs Hb Hd Hg Hx).
Qed.
Print Assumptions C178_reference.
(** Whatever simplify returned, the value at the left end is as small as rounding
    allows: the errors of simplify and of the sum b_0 do not count. *)
Theorem C178_left_end s g : (1 <= length s <= 2 ^ 24)%nat -> doubles s -> fshift s g ->
  Rabs (evalT g (-1)) <= 5 * INR (length s) * (/ 2 ^ 53 * abs_sum s + / 2 ^ 1075).
Proof.
  intros [H2 H3] Hs Hg. destruct (size_ok _ H3) as [_ S2]. destruct (fshift_err s g H2 Hs S2 Hg) as (_ & e & E & B). rewrite E.
  replace (evalT s (-1) - evalT s (-1) + e) with e by ring. rewrite abs_sum_lasum. exact B.
Qed.
Print Assumptions C178_left_end.
Lemma scaled_from a b c x I : a < b -> is_RInt (evalT c) (-1) (ref_point a b x) I -> is_RInt (fun_value a b c) a x (I * ((b - a) / 2)).
Proof.
  intros H HI. unfold fun_value, ref_point in *.
  assert (L : is_RInt (evalT c) (2 / (b - a) * a + (- (a + b) / (b - a))) (2 / (b - a) * x + (- (a + b) / (b - a))) I).
  { replace (2 / (b - a) * a + - (a + b) / (b - a)) with (-1) by (field; lra). replace (2 / (b - a) * x + - (a + b) / (b - a)) with ((2 * x - a - b) / (b - a)) by (field; lra). exact HI. }
  pose proof (is_RInt_comp_lin (evalT c) (2 / (b - a)) (- (a + b) / (b - a)) a x I L) as M.
  apply (is_RInt_scal _ _ _ ((b - a) / 2)) in M. replace (I * ((b - a) / 2)) with (scal ((b - a) / 2) I) by (unfold scal; cbn; unfold mult; cbn; ring).
  eapply is_RInt_ext; [|exact M]. intros y _. unfold scal; cbn; unfold mult; cbn.
  replace (2 / (b - a) * y + - (a + b) / (b - a)) with ((2 * y - a - b) / (b - a)) by (field; lra). field. lra.
Qed.
Theorem C178_domain a b c cb s g d x : (1 <= length c)%nat -> (1 <= length s <= 2 ^ 24)%nat -> doubles c -> doubles s ->
  is_double a -> is_double b -> a < b -> / 2 ^ 1000 <= b - a ->
  fcumsum_coeffs c cb -> within d s cb -> fshift s g -> a <= x <= b ->
  exists I, is_RInt (fun_value a b c) a x I /\
    Rabs (fun_value a b (fcum_scale a b g) x - I) <= (b - a) * (cum_bound d c s / 2 + 2 * / 2 ^ 53 * abs_sum g) + INR (length g) * / 2 ^ 1075.
Proof.
  intros H1 H2 Hc Hs Fa Fb Hab HL Hb Hd Hg Hx. pose proof (ref_point_in a b x Hab Hx) as Hy.
  destruct (C178_reference c cb s g d (ref_point a b x) H1 H2 Hc Hs Hb Hd Hg Hy) as (I & HI & B). exists (I * ((b - a) / 2)). split; [apply scaled_from; assumption|].
  pose proof (fcum_scale_err a b g (ref_point a b x) Fa Fb Hab HL Hy) as S. change (evalT (fcum_scale a b g) (ref_point a b x)) with (fun_value a b (fcum_scale a b g) x) in S.
  rewrite abs_sum_lasum. set (E := cum_bound d c s) in *. clearbody E. set (y := evalT g (ref_point a b x)) in *. set (r := fun_value a b (fcum_scale a b g) x) in *.
  assert (B2 : Rabs ((y - I) * ((b - a) / 2)) <= E * ((b - a) / 2)). { rewrite Rabs_mult, (Rabs_right ((b - a) / 2)) by lra. apply Rmult_le_compat_r; lra. }
  replace (r - I * ((b - a) / 2)) with ((r - y * ((b - a) / 2)) + (y - I) * ((b - a) / 2)) by ring. eapply Rle_trans; [apply Rabs_triang|].
  change (/ 2 ^ 53) with uro. change (/ 2 ^ 1075) with eta.
  generalize dependent uro. generalize dependent eta. intros. lra.
Qed.
Print Assumptions C178_domain.

(** ** C179: sums *)
Definition tol (eps vscl : R) : R := fmul (fl (2 / 10)) (fmul eps vscl).
Theorem C179_accuracy eps vscl c d x : doubles c -> doubles d -> -1 <= x <= 1 ->
  Rabs (evalT (fadd_fun eps vscl c d) x - (evalT c x + evalT d x)) <= / 2 ^ 53 * (abs_sum c + abs_sum d) + INR (Nat.max (length c) (length d)) * Rmax 0 (tol eps vscl).
Proof.
  intros Hc Hd Hx. pose proof (fadd_err c d x Hc Hd Hx) as F. rewrite !abs_sum_lasum. change (/ 2 ^ 53) with uro. set (n := Nat.max (length c) (length d)). assert (N := pos_INR n).
  assert (M0 := Rmax_l 0 (tol eps vscl)). unfold fadd_fun. fold (tol eps vscl). destruct (forallb _ _) eqn:Z.
  - rewrite forallb_forall in Z. replace (evalT [0] x) with 0 by (unfold evalT; cbn; ring).
    assert (B : Rabs (evalT (fadd_cols c d) x) <= INR n * Rmax 0 (tol eps vscl)).
    { unfold evalT. rewrite fadd_cols_length. fold n. eapply Rle_trans; [apply rsum_Rabs|]. rewrite <- rsum_const. apply rsum_le. intros k Hk. rewrite Rabs_mult.
      assert (I : In (nth k (fadd_cols c d) 0) (fadd_cols c d)) by (apply nth_In; rewrite fadd_cols_length; exact Hk). specialize (Z _ I). destruct (Rlt_dec (Rabs (nth k (fadd_cols c d) 0)) (tol eps vscl)) as [Q|Q]; [|discriminate].
      pose proof (Rmax_r 0 (tol eps vscl)). pose proof (T_bound k x Hx). pose proof (Rabs_pos (T k x)). pose proof (Rabs_pos (nth k (fadd_cols c d) 0)). nra. }
    apply Rabs_le_inv in F, B. apply Rabs_le. lra.
  - assert (0 <= INR n * Rmax 0 (tol eps vscl)) by (apply Rmult_le_pos; lra). lra.
Qed.
Print Assumptions C179_accuracy.
(** f - f is exactly zero. *)
Theorem C179_self eps vscl c x : doubles c -> evalT (fsub_fun eps vscl c c) x = 0.
Proof.
  intros Hc. assert (Z : forall k, nth k (fadd_cols c (fneg_col c)) 0 = 0).
  { intros k. rewrite fadd_cols_nth. unfold fneg_col. destruct (Nat.lt_ge_cases k (length c)) as [L|L].
    - rewrite (nth_indep (map _ _) 0 ((fun t => fmul (-1) t) 0)) by (rewrite map_length; exact L). rewrite (map_nth (fun t => fmul (-1) t)).
      unfold fmul, fadd. rewrite (fl_double (-1 * nth k c 0)) by (replace (-1 * nth k c 0) with (- nth k c 0) by ring; apply dbl_opp, double_nth, Hc). replace (nth k c 0 + -1 * nth k c 0) with 0 by ring. apply fl_0.
    - rewrite !nth_overflow by (rewrite ?map_length; exact L). unfold fadd. rewrite Rplus_0_r. apply fl_0. }
  unfold fsub_fun, fadd_fun. destruct (forallb _ _); [unfold evalT; cbn; ring|]. unfold evalT.
  rewrite (rsum_ext _ _ (fun _ => 0)) by (intros k _; rewrite Z; ring). rewrite rsum_const. ring.
Qed.
Print Assumptions C179_self.
(** Adding the zero function, doubling and negating twice are exact. *)
Theorem C179_exact c m : doubles c ->
  fadd_cols c (repeat 0 m) = c ++ repeat 0 (m - length c) /\ fadd_cols c c = fscale_col c 2 /\ fneg_col (fneg_col c) = c.
Proof.
  intros Hc. split; [|split].
  - apply (nth_ext _ _ 0 0). { rewrite fadd_cols_length, app_length, !repeat_length. lia. } intros k _. rewrite fadd_cols_nth. rewrite nth_repeat. unfold fadd. rewrite Rplus_0_r, fl_double by (apply double_nth, Hc).
    destruct (Nat.lt_ge_cases k (length c)) as [L|L]; [rewrite app_nth1 by exact L; reflexivity|]. rewrite app_nth2 by exact L. rewrite nth_repeat. apply nth_overflow, L.
  - apply (nth_ext _ _ 0 0). { rewrite fadd_cols_length. unfold fscale_col. rewrite map_length. lia. } intros k Hk. rewrite fadd_cols_length in Hk. rewrite fadd_cols_nth. unfold fscale_col.
    rewrite (nth_indep (map _ _) 0 ((fun s => fmul s 2) 0)) by (rewrite map_length; lia). rewrite (map_nth (fun s => fmul s 2)). unfold fadd, fmul. f_equal. ring.
  - unfold fneg_col. rewrite map_map. rewrite <- (map_id c) at 2. apply map_ext_in. intros t Ht. unfold fmul. assert (F : fl (-1 * t) = - t) by (replace (-1 * t) with (- t) by ring; apply fl_double, dbl_opp, Hc, Ht).
    rewrite F. replace (-1 * - t) with t by ring. apply fl_double, Hc, Ht.
Qed.
Print Assumptions C179_exact.
(** Sums do not depend on the order of two operands of the same tolerance ... *)
Theorem C179_commutes_partial eps vscl c d : fadd_fun eps vscl c d = fadd_fun eps vscl d c.
Proof. unfold fadd_fun. rewrite fadd_cols_comm. reflexivity. Qed.
Print Assumptions C179_commutes_partial.
(** ... but the tolerance of the first operand decides what is taken for zero. *)
Definition small : R := bpow radix2 (-10).
Lemma bp_double e : (-1074 <= e)%Z -> is_double (bpow radix2 e).
Proof. intros H. apply generic_format_bpow. unfold FLT_exp. lia. Qed.
Lemma fifth_bounds : / 8 <= fl (2 / 10) <= / 4.
Proof.
  split.
  - rewrite <- (fl_double (/ 8)) by (change (/ 8) with (bpow radix2 (-3)); apply bp_double; lia). apply fl_le. lra.
  - rewrite <- (fl_double (/ 4)) by (change (/ 4) with (bpow radix2 (-2)); apply bp_double; lia). apply fl_le. lra.
Qed.
Theorem C179_commutes_refuted :
  let c := [1] in let d := [small - 1] in
  doubles c /\ doubles d /\ fadd_fun (bpow radix2 (-5)) 1 c d = [0] /\ fadd_fun (bpow radix2 (-52)) 1 d c = [small].
Proof.
  intros c d. assert (S0 : small = / 1024) by reflexivity. assert (Fd : is_double (small - 1)).
  { apply generic_format_FLT. exists (Float radix2 (-1023) (-10)); [|cbn; lia|cbn; lia]. unfold F2R. cbn [Fnum Fexp]. rewrite S0. change (bpow radix2 (-10)) with (/ 1024). lra. }
  assert (Fs : is_double small) by (apply bp_double; lia).
  split; [intros t [<-|[]]; exact dbl_1|]. split; [intros t [<-|[]]; exact Fd|].
  assert (A1 : fadd_cols c d = [small]). { unfold fadd_cols, c, d. cbn [length Nat.max mk seq map nth]. unfold fadd. replace (1 + (small - 1)) with small by ring. rewrite fl_double by exact Fs. reflexivity. }
  assert (A2 : fadd_cols d c = [small]) by (rewrite fadd_cols_comm; exact A1).
  pose proof fifth_bounds as [Q1 Q2].
  assert (T1 : bpow radix2 (-8) <= fmul (fl (2 / 10)) (fmul (bpow radix2 (-5)) 1)).
  { unfold fmul. rewrite Rmult_1_r, (fl_double (bpow radix2 (-5))) by (apply bp_double; lia). rewrite <- (fl_double (bpow radix2 (-8))) by (apply bp_double; lia). apply fl_le.
    change (bpow radix2 (-8)) with (/ 256). change (bpow radix2 (-5)) with (/ 32). lra. }
  assert (T2 : fmul (fl (2 / 10)) (fmul (bpow radix2 (-52)) 1) <= bpow radix2 (-52)).
  { unfold fmul. rewrite Rmult_1_r, (fl_double (bpow radix2 (-52))) by (apply bp_double; lia). rewrite <- (fl_double (bpow radix2 (-52))) at 2 by (apply bp_double; lia). apply fl_le.
    pose proof (bpow_gt_0 radix2 (-52)). generalize dependent (bpow radix2 (-52)). intros. nra. }
  assert (T3 : bpow radix2 (-52) < small) by (apply bpow_lt; lia). assert (T4 : small < bpow radix2 (-8)) by (apply bpow_lt; lia).
  assert (SA : Rabs small = small) by (apply Rabs_right; lra).
  unfold fadd_fun. rewrite A1, A2. cbn [forallb]. rewrite SA. split.
  - destruct (Rlt_dec small _) as [_|N]; [reflexivity|]. exfalso. apply N. lra.
  - destruct (Rlt_dec small _) as [N|_]; [|reflexivity]. exfalso. lra.
Qed.
Print Assumptions C179_commutes_refuted.

(** ** Cases that meet the hypotheses *)
Example C177_case : (2 <= length [1; tenth; tenth]%R <= 2 ^ 24)%nat /\ doubles [1; tenth; tenth] /\ / 2 ^ 1000 <= 1 - 0.
Proof.
  split; [split; [cbn; lia|]; apply Nat.le_trans with (2 ^ 2)%nat; [cbn; lia|apply Nat.pow_le_mono_r; lia]|]. split.
  - intros t [<-|[<-|[<-|[]]]]; [exact dbl_1|exact tenth_double|exact tenth_double].
  - rewrite Rminus_0_r, <- Rinv_1. apply Rinv_le_contravar; [lra|]. apply pow_R1_Rle. lra.
Qed.
Example C178_case : exists b g, fcumsum_coeffs [1; tenth] b /\ within 0 b b /\ fshift b g /\ doubles b /\ length b = 3%nat.
Proof.
  set (l := map (fun j => ((if Nat.odd j then -1 else 1), fcum_coeff [1; tenth] (S j))) (seq 0 2)).
  set (b := fsum (SNode (SLeaf 1 (fcum_coeff [1; tenth] 1)) (SLeaf (-1) (fcum_coeff [1; tenth] 2))) :: [fcum_coeff [1; tenth] 1; fcum_coeff [1; tenth] 2]).
  set (t := SNode (SLeaf 1 (fmul (nth 0 b 0) 1)) (SNode (SLeaf 1 (fmul (nth 1 b 0) (-1))) (SLeaf 1 (fmul (nth 2 b 0) 1)))).
  exists b, (upd b 0 (fsub (nth 0 b 0) (fsum t))). split; [|split; [|split; [|split]]].
  - eexists. split; [|reflexivity]. eexists. split; [|reflexivity]. apply Permutation_refl.
  - intros y _. rewrite Rminus_diag_eq by reflexivity. rewrite Rabs_R0. lra.
  - exists (fsum t). split; [|reflexivity]. exists t. split; [|reflexivity]. apply Permutation_refl.
  - intros y [<-|[<-|[<-|[]]]]; [apply fsum_double|apply fl_is_double|apply fl_is_double].
  - reflexivity.
Qed.
