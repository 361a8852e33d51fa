(** Properties of the Chebyshev technology: each theorem is closed by the lemma
    that proves it.  Specification vocabulary: [T], [evalT], [spanT] (ChebSpec);
    [wf f] = non-empty rectangular coefficient array, [ncols], [len] its shape,
    [coef f j k] coefficient k of column j, [ev f j x] the Chebyshev series of
    column j at x (ChebObj); [evK f j K x] the same series cut after K terms,
    [trunc_ok f e K] = all coefficients from K on are at most e^(2/5) (ChebOps);
    integrals and derivatives are Coquelicot's. *)
From Coq Require Import Reals ZArith List Arith Lia Lra Bool.
From Coquelicot Require Import Coquelicot.
From Verif Require Import Base ChebSpec ChebModel ChebEval CosSums ChebDct ChebCalc ChebMul ChebChop ChebObj ChebOps ChebOps2 ChebArith ChebMulObj ChebModel2 ChebConstr ChebModel3 ChebBary ChebRefute.
Import ListNotations.
Open Scope R_scope.

(** C01: calling a function at points returns the Chebyshev series of every column. *)
Theorem C01_evaluation : forall f xs i j,
  wf f -> (j < ncols f)%nat -> (i < length xs)%nat ->
  nth i (nth j (feval f xs) []) 0 = ev f j (nth i xs 0).
Proof. exact feval_correct. Qed.
Print Assumptions C01_evaluation.

(** C01: the result has one column per column of f and one row per point. *)
Theorem C01_evaluation_shape : forall f xs,
  length (feval f xs) = ncols f /\
  (forall j, (j < ncols f)%nat -> length (nth j (feval f xs) []) = length xs).
Proof. exact feval_shape. Qed.
Print Assumptions C01_evaluation_shape.

(** C02: values() are the values at the second-kind points. *)
Theorem C02_values_at_points : forall f i j,
  wf f -> (j < ncols f)%nat -> (i < len f)%nat ->
  nth i (nth j (polyval (coeffs f)) []) 0 = ev f j (nth i (chebpts_type2_compute (len f)) 0).
Proof. exact values_correct. Qed.
Print Assumptions C02_values_at_points.

(** C02: the points are -cos(pi j/(N-1)), ascending. *)
Theorem C02_points : forall N j,
  (2 <= N)%nat -> (j < N)%nat ->
  nth j (chebpts_type2_compute N) 0 = chebnode N j.
Proof. exact chebpts_chebnode. Qed.
Print Assumptions C02_points.

(** C03 *)
Theorem C03_coeffs_values_coeffs : forall c,
  (1 <= length c)%nat -> polyfit1 (polyval1 c) = c.
Proof. exact polyfit_polyval. Qed.
Print Assumptions C03_coeffs_values_coeffs.

(** C03 *)
Theorem C03_values_coeffs_values : forall v,
  (1 <= length v)%nat -> polyval1 (polyfit1 v) = v.
Proof. exact polyval_polyfit. Qed.
Print Assumptions C03_values_coeffs_values.

(** C04 *)
Theorem C04_prolong_length : forall c N,
  length (prolong1 c N) = Z.to_nat N.
Proof. exact prolong1_length. Qed.
Print Assumptions C04_prolong_length.

(** C04 *)
Theorem C04_prolong_keeps_function : forall c N x,
  (Z.of_nat (length c) <= N)%Z -> evalT (prolong1 c N) x = evalT c x.
Proof. exact prolong1_eval. Qed.
Print Assumptions C04_prolong_keeps_function.

(** C04 *)
Theorem C04_prolong_truncates : forall c N,
  (N <= Z.of_nat (length c))%Z -> prolong1 c N = firstn (Z.to_nat N) c.
Proof. exact prolong1_trunc. Qed.
Print Assumptions C04_prolong_truncates.

(** C05: diff is the n-th derivative of the function whose coefficients below eps^(2/5) at the end have been dropped (evK with K terms). *)
Theorem C05_diff : forall f n,
  wf f -> (1 <= n)%nat ->
  exists g K, cheb_diff f n = Some g /\ wf g /\ ncols g = ncols f /\ same_params f g /\
    (len g <= len f)%nat /\ trunc_ok f (eps f) K /\
    forall j x, (j < ncols f)%nat -> is_derive_n (evK f j K) n x (ev g j x).
Proof. exact diff_correct. Qed.
Print Assumptions C05_diff.

(** C05: and of f itself when its last coefficient exceeds eps^(2/5). *)
Theorem C05_diff_exact : forall f n j0,
  wf f -> (1 <= n)%nat -> 0 < eps f < 1 ->
  Rpower (eps f) (2 / 5) < Rabs (coef f j0 (len f - 1)) ->
  exists g, cheb_diff f n = Some g /\ ncols g = ncols f /\
    forall j x, (j < ncols f)%nat -> is_derive_n (ev f j) n x (ev g j x).
Proof. exact diff_exact. Qed.
Print Assumptions C05_diff_exact.

(** C05: size of the difference between f and its truncation. *)
Theorem C05_trunc_error : forall f e K j x,
  wf f -> trunc_ok f e K -> 0 < e < 1 -> -1 <= x <= 1 ->
  Rabs (ev f j x - evK f j K x) <= INR (len f - K) * Rpower e (2 / 5).
Proof. exact evK_err. Qed.
Print Assumptions C05_trunc_error.

(** C06 *)
Theorem C06_diff_order_zero_refuted :
  exists f g, wf f /\ cheb_diff f 0 = Some g /\ exists x, ev g 0 x <> ev f 0 x.
Proof. exact diff0_refuted. Qed.
Print Assumptions C06_diff_order_zero_refuted.

(** C07 *)
Theorem C07_sum : forall f j,
  (j < ncols f)%nat -> is_RInt (ev f j) (-1) 1 (nth j (cheb_sum f) 0).
Proof. exact sum_correct. Qed.
Print Assumptions C07_sum.

(** C08: K is the number of retained coefficients; with K > len f nothing was dropped. *)
Theorem C08_cumsum : forall f,
  wf f ->
  exists g, cheb_cumsum f = Some g /\ wf g /\ ncols g = ncols f /\ same_params f g /\
   (1 <= len g <= len f + 2)%nat /\
   forall j, (j < ncols f)%nat ->
     ev g j (-1) = 0 /\
     ((len f < len g)%nat -> forall x, is_RInt (ev f j) (-1) x (ev g j x) /\ is_derive (ev g j) x (ev f j x)) /\
     (0 < eps f < 1 -> forall x, -1 <= x <= 1 ->
        Rabs (RInt (ev f j) (-1) x - ev g j x) <= 2 * (INR (len f + 1 - len g) * Rpower (eps f) (2 / 5))) /\
     (0 < eps f < 1 -> Rpower (eps f) (2 / 5) < Rabs (coef f j (len f - 1)) / (2 * INR (len f)) -> (len f < len g)%nat).
Proof. exact cumsum_correct_len. Qed.
Print Assumptions C08_cumsum.

(** C09 *)
Theorem C09_inner : forall f g,
  wf f -> wf g ->
  exists M, cheb_inner f g = Some M /\ length M = ncols f /\
    forall i j, (i < ncols f)%nat -> (j < ncols g)%nat ->
      length (nth i M []) = ncols g /\
      is_RInt (fun x => ev f i x * ev g j x) (-1) 1 (nth j (nth i M []) 0).
Proof. exact inner_correct. Qed.
Print Assumptions C09_inner.

(** C09 *)
Theorem C09_dot : forall f g,
  wf f -> wf g -> ncols f = ncols g ->
  exists v, cheb_dot f g = Some v /\
    is_RInt (fun x => rsum (ncols f) (fun i => ev f i x * ev g i x)) (-1) 1 v.
Proof. exact dot_correct. Qed.
Print Assumptions C09_dot.

(** C09: the weighted product, after substituting x = cos t. *)
Theorem C09_innerw : forall f g j,
  wf f -> wf g -> (j < ncols f)%nat -> (j < ncols g)%nat ->
  is_RInt (fun t => ev f j (cos t) * ev g j (cos t)) 0 PI (nth j (cheb_innerw f g) 0).
Proof. exact innerw_correct. Qed.
Print Assumptions C09_innerw.

(** C10 *)
Theorem C10_quadrature : forall N w f,
  (1 <= N)%nat -> quadwts N = Some w -> spanT N f ->
  is_RInt f (-1) 1 (rsum N (fun j => nth j w 0 * f (nth j (chebpts_type2_compute N) 0))).
Proof. exact quadwts_exact. Qed.
Print Assumptions C10_quadrature.

(** C10 *)
Theorem C10_quadrature_length : forall N,
  (1 <= N)%nat -> exists w, quadwts N = Some w /\ length w = N.
Proof. exact quadwts_some. Qed.
Print Assumptions C10_quadrature_length.

(** C10 *)
Theorem C10_quadrature_symmetric : forall N w j,
  quadwts N = Some w -> (j < N)%nat -> nth (N - 1 - j) w 0 = nth j w 0.
Proof. exact quadwts_sym. Qed.
Print Assumptions C10_quadrature_symmetric.

(** C10 on an interval [a,b]. *)
Theorem C10_quadrature_interval : forall N a b q,
  (2 <= N)%nat -> a < b -> spanT N q ->
  exists x w, chebpts2 N a b = Some (x, w) /\ length x = N /\ length w = N /\
    is_RInt q a b (rsum N (fun j => nth j w 0 * q (nth j x 0))).
Proof. exact chebpts2_quadrature. Qed.
Print Assumptions C10_quadrature_interval.

(** C11: bc g j is column j of g, or its only column. *)
Theorem C11_add : forall f g,
  wf f -> wf g -> (ncols g = ncols f \/ ncols g = 1%nat) ->
  exists h, add f g = Some h /\ wf h /\ ncols h = ncols f /\ eps h = Rmax (eps f) (eps g) /\
   ((len h = Nat.max (len f) (len g) /\
     forall j x, (j < ncols f)%nat -> ev h j x = ev f j x + ev g (bc (coeffs g) j) x)
    \/
    ((forall j k, (j < ncols f)%nat -> (k < Nat.max (len f) (len g))%nat ->
        Rabs (coef f j k + coef g (bc (coeffs g) j) k)
          < 2/10 * (eps f * Rmax (vscl (coeffs f)) (vscl (coeffs g)))) /\
     len h = 1%nat /\ forall j x, (j < ncols f)%nat -> ev h j x = 0)).
Proof. exact add_correct. Qed.
Print Assumptions C11_add.

(** C11: the effect of the snap to zero. *)
Theorem C11_add_error : forall f g M,
  wf f -> wf g -> (ncols g = ncols f \/ ncols g = 1%nat) -> 0 <= eps f ->
  (forall j x, (j < ncols f)%nat -> -1 <= x <= 1 -> Rabs (ev f j x) <= M) ->
  (forall j x, (j < ncols g)%nat -> -1 <= x <= 1 -> Rabs (ev g j x) <= M) ->
  exists h, add f g = Some h /\ forall j x, (j < ncols f)%nat -> -1 <= x <= 1 ->
    Rabs (ev h j x - (ev f j x + ev g (bc (coeffs g) j) x))
      <= INR (Nat.max (len f) (len g)) * (2/10 * (eps f * M)).
Proof. exact add_error. Qed.
Print Assumptions C11_add_error.

(** C11 *)
Theorem C11_subtract : forall f g,
  wf f -> wf g -> (ncols g = ncols f \/ ncols g = 1%nat) ->
  exists h, subtract f g = Some h /\ wf h /\ ncols h = ncols f /\
   ((forall j x, (j < ncols f)%nat -> ev h j x = ev f j x - ev g (bc (coeffs g) j) x)
    \/
    ((forall j k, (j < ncols f)%nat -> (k < Nat.max (len f) (len g))%nat ->
        Rabs (coef f j k - coef g (bc (coeffs g) j) k)
          < 2/10 * (eps f * Rmax (vscl (coeffs f)) (vscl (coeffs g)))) /\
     len h = 1%nat /\ forall j x, (j < ncols f)%nat -> ev h j x = 0)).
Proof. exact subtract_correct. Qed.
Print Assumptions C11_subtract.

(** C11 *)
Theorem C11_negative : forall f,
  wf f -> exists r, negative f = Some r /\ wf r /\ ncols r = ncols f /\
  len r = len f /\ eps r = eps f /\ forall j x, (j < ncols f)%nat -> ev r j x = - ev f j x.
Proof. exact negative_correct. Qed.
Print Assumptions C11_negative.

(** C11 *)
Theorem C11_add_number : forall f a,
  wf f -> exists r, add_number f a = Some r /\ wf r /\
  ncols r = ncols f /\ len r = len f /\ eps r = eps f /\
  forall j x, (j < ncols f)%nat -> ev r j x = ev f j x + a.
Proof. exact add_number_correct. Qed.
Print Assumptions C11_add_number.

(** C11 *)
Theorem C11_add_row : forall f row,
  wf f -> length row = ncols f -> exists r, add_row f row = Some r /\ wf r /\
  ncols r = ncols f /\ len r = len f /\ eps r = eps f /\
  forall j x, (j < ncols f)%nat -> ev r j x = ev f j x + nth j row 0.
Proof. exact add_row_correct. Qed.
Print Assumptions C11_add_row.

(** C11: f += g changes f to the sum and leaves the function g unchanged. *)
Theorem C11_iadd : forall f g,
  wf f -> wf g -> (ncols g = ncols f \/ ncols g = 1%nat) ->
  exists f' g', iadd f g = Some (f', g') /\ wf f' /\ wf g' /\ ncols f' = ncols f /\ ncols g' = ncols g /\
    (forall j x, (j < ncols f)%nat -> ev f' j x = ev f j x + ev g (bc (coeffs g) j) x) /\
    (forall j x, ev g' j x = ev g j x).
Proof. exact iadd_correct. Qed.
Print Assumptions C11_iadd.

(** C12: p j are the coefficients of the exact product. *)
Theorem C12_multiply : forall f g,
  wf f -> wf g -> (2 <= len f)%nat -> (2 <= len g)%nat ->
  (ncols f = ncols g \/ ncols f = 1%nat \/ ncols g = 1%nat) ->
  exists h (p : nat -> list R), multiply f g = Some h /\ wf h /\ ncols h = Nat.max (ncols f) (ncols g) /\
    eps h = Rmax (eps f) (eps g) /\ (1 <= len h <= len f + len g)%nat /\
    forall j, (j < ncols h)%nat ->
      let F := ev f (bc (coeffs f) j) in
      let G := ev g (bc (coeffs g) j) in
      length (p j) = (len f + len g - 1)%nat /\
      (forall x, evalT (p j) x = F x * G x) /\
      (0 < eps h < 1 -> forall k, (len h <= k)%nat -> Rabs (nth k (p j) 0) <= Rpower (eps h) (2 / 5)) /\
      ((len f + len g - 1 <= len h)%nat -> forall x, ev h j x = F x * G x) /\
      ((forall x, ev h j x = rsum (len h) (fun k => nth k (p j) 0 * T k x)) \/
       ((forall x, F x = G x) /\
        forall i, (i < len h)%nat -> let xi := nth i (chebpts_type2_compute (len h)) 0 in
          ev h j xi = Rabs (rsum (len h) (fun k => nth k (p j) 0 * T k xi)))).
Proof. exact multiply_correct. Qed.
Print Assumptions C12_multiply.

(** C12 *)
Theorem C12_multiply_error : forall f g,
  wf f -> wf g -> (2 <= len f)%nat -> (2 <= len g)%nat ->
  (ncols f = ncols g \/ ncols f = 1%nat \/ ncols g = 1%nat) -> 0 < eps f < 1 -> 0 < eps g < 1 ->
  exists h, multiply f g = Some h /\ ncols h = Nat.max (ncols f) (ncols g) /\
    forall j, (j < ncols h)%nat ->
      let F := ev f (bc (coeffs f) j) in
      let G := ev g (bc (coeffs g) j) in
      let t := INR (len f + len g - 1 - len h) * Rpower (Rmax (eps f) (eps g)) (2 / 5) in
      (forall i, (i < len h)%nat -> let xi := nth i (chebpts_type2_compute (len h)) 0 in
         Rabs (F xi * G xi - ev h j xi) <= t) /\
      ((exists x, F x <> G x) -> forall x, -1 <= x <= 1 -> Rabs (F x * G x - ev h j x) <= t).
Proof. exact multiply_error. Qed.
Print Assumptions C12_multiply_error.

(** C12 *)
Theorem C12_multiply_number : forall f a,
  wf f -> exists r, multiply_number f a = Some r /\ wf r /\ ncols r = ncols f /\
  len r = len f /\ eps r = eps f /\ forall j x, (j < ncols f)%nat -> ev r j x = a * ev f j x.
Proof. exact multiply_number_correct. Qed.
Print Assumptions C12_multiply_number.

(** C12 *)
Theorem C12_multiply_constant_left : forall f g,
  wf f -> wf g -> len f = 1%nat -> ncols f = 1%nat ->
  exists h, multiply f g = Some h /\ wf h /\ ncols h = ncols g /\ len h = len g /\
    forall j x, (j < ncols g)%nat -> ev h j x = ev f 0 x * ev g j x.
Proof. exact multiply_const_l. Qed.
Print Assumptions C12_multiply_constant_left.

(** C12 *)
Theorem C12_multiply_constant_right : forall f g,
  wf f -> wf g -> (2 <= len f)%nat -> len g = 1%nat -> ncols g = 1%nat ->
  exists h, multiply f g = Some h /\ wf h /\ ncols h = ncols f /\ len h = len f /\
    forall j x, (j < ncols f)%nat -> ev h j x = ev f j x * ev g 0 x.
Proof. exact multiply_const_r. Qed.
Print Assumptions C12_multiply_constant_right.

Lemma trunc_quot f a j m d x t : a <> 0 -> -1 <= x <= 1 -> (forall k, (m <= k)%nat -> Rabs (coef f j k / a) <= t) ->
  Rabs (rsum (m + d) (fun k => coef f j k * T k x) / a - rsum m (fun k => coef f j k * T k x) / a) <= INR d * t.
Proof.
  intros Ha Hx H. induction d as [|d IH].
  - rewrite Nat.add_0_r, Rminus_diag_eq, Rabs_R0 by reflexivity. cbn. lra.
  - rewrite Nat.add_succ_r, S_INR. cbn [rsum]. assert (Q := H (m + d)%nat ltac:(lia)). assert (TB := ChebMath.T_bound (m + d) x Hx).
    replace ((rsum (m + d) (fun k => coef f j k * T k x) + coef f j (m + d) * T (m + d) x) / a - rsum m (fun k => coef f j k * T k x) / a)
      with ((rsum (m + d) (fun k => coef f j k * T k x) / a - rsum m (fun k => coef f j k * T k x) / a) + (coef f j (m + d) / a) * T (m + d) x) by (field; exact Ha).
    eapply Rle_trans; [apply Rabs_triang|]. rewrite Rabs_mult.
    assert (B := Rmult_le_compat _ _ _ _ (Rabs_pos (coef f j (m + d) / a)) (Rabs_pos (T (m + d) x)) Q TB). lra.
Qed.
(** C12 *)
Theorem C12_divide_number : forall f a,
  wf f -> a <> 0 -> exists r, divide_number f a = Some r /\ wf r /\ ncols r = ncols f /\
  (1 <= len r <= len f + 1)%nat /\ eps r = eps f /\
  (forall j x, (j < ncols f)%nat -> ev r j x = rsum (len r) (fun k => coef f j k * T k x) / a) /\
  (0 < eps f < 1 -> forall j k, (len r <= k)%nat -> Rabs (coef f j k / a) <= Rpower (eps f) (2 / 5)) /\
  ((len f <= len r)%nat -> forall j x, (j < ncols f)%nat -> ev r j x = ev f j x / a) /\
  (0 < eps f < 1 -> forall j x, (j < ncols f)%nat -> -1 <= x <= 1 ->
     Rabs (ev f j x / a - ev r j x) <= INR (len f - len r) * Rpower (eps f) (2 / 5)).
Proof.
  intros f a Hw Ha. destruct (divide_number_correct_len f a Hw Ha) as (r & E & Wr & Cr & HL & He & Hv & Ht).
  exists r. split; [exact E|]. split; [exact Wr|]. split; [exact Cr|]. split; [exact HL|]. split; [exact He|].
  split; [exact Hv|]. split; [exact Ht|]. split.
  - intros H j x Hj. rewrite (Hv j x Hj), (evK_full f j (len r) x Hw H). reflexivity.
  - intros H j x Hj Hx. destruct (Nat.le_gt_cases (len f) (len r)) as [L|L].
    + rewrite (Hv j x Hj), (evK_full f j (len r) x Hw L). rewrite Rminus_diag_eq, Rabs_R0 by reflexivity.
      apply Rmult_le_pos; [apply pos_INR|left; apply exp_pos].
    + rewrite (Hv j x Hj), <- (evK_full f j (len f) x Hw (le_n _)). unfold evK.
      assert (Q := trunc_quot f a j (len r) (len f - len r) x _ Ha Hx (Ht H j)). replace (len r + (len f - len r))%nat with (len f) in Q by lia. exact Q.
Qed.
Print Assumptions C12_divide_number.

(** C13: the product is rejected for every such pair. *)
Theorem C13_multiply_constant_columns_refuted : forall f g,
  (2 <= len f)%nat -> len g = 1%nat -> (2 <= ncols g)%nat ->
  multiply f g = None /\ multiply g f = None.
Proof. exact multiply_const_multi. Qed.
Print Assumptions C13_multiply_constant_columns_refuted.

(** C14 *)
Theorem C14_chop_total : forall c tol,
  exists k, standardChop c tol = Some k /\ (k <= length c)%nat.
Proof. exact standardChop_total. Qed.
Print Assumptions C14_chop_total.

(** C14 *)
Theorem C14_chop_tol : forall c tol,
  1 <= tol -> standardChop c tol = Some 0%nat.
Proof. exact standardChop_big_tol. Qed.
Print Assumptions C14_chop_tol.

(** C14 *)
Theorem C14_chop_short : forall c tol,
  tol < 1 -> (length c < 17)%nat -> standardChop c tol = Some (length c).
Proof. exact standardChop_short. Qed.
Print Assumptions C14_chop_short.

(** C14 *)
Theorem C14_chop_zero : forall c tol,
  (17 <= length c)%nat -> (forall k, nth k c 0 = 0) -> standardChop c tol = Some 0%nat.
Proof. exact standardChop_zero. Qed.
Print Assumptions C14_chop_zero.

(** C14: what is cut off is small. *)
Theorem C14_chop_tail : forall c tol k,
  0 < tol < 1 -> standardChop c tol = Some k -> (k < length c)%nat ->
  forall i, (k < i)%nat -> Rabs (nth i c 0) <= Rpower tol (2 / 5).
Proof. exact standardChop_tail. Qed.
Print Assumptions C14_chop_tail.

(** C15 *)
Theorem C15_chop_scale_refuted :
  forall tol, 0 < tol < 1 ->
  exists c a, a <> 0 /\ standardChop (map (Rmult a) c) tol <> standardChop c tol.
Proof. exact chop_scale_refuted. Qed.
Print Assumptions C15_chop_scale_refuted.

(** C15: the only scale factor for which it is unconditional. *)
Theorem C15_chop_sign_partial : forall c tol,
  standardChop (map (Rmult (-1)) c) tol = standardChop c tol.
Proof. exact chop_sign. Qed.
Print Assumptions C15_chop_sign_partial.

(** C16 *)
Theorem C16_simplify_prefix : forall n A e,
  rect n A ->
  exists K, (1 <= K <= n + 1)%nat /\
    simplify_coeffs A e = Some (prolong A (Z.of_nat K)) /\
    (0 < e < 1 -> forall j k, (K <= k)%nat -> Rabs (nth k (nth j A []) 0) <= Rpower e (2 / 5)).
Proof. exact simplify_coeffs_spec. Qed.
Print Assumptions C16_simplify_prefix.

(** C17 *)
Theorem C17_simplify_longer_refuted : forall e,
  0 < e < 1 ->
  exists B, simplify_coeffs [ones 17] e = Some B /\ nrows B = 18%nat.
Proof. exact simplify_longer. Qed.
Print Assumptions C17_simplify_longer_refuted.

(** C22 *)
Theorem C22_flipud : forall f,
  wf f -> exists r, flipud f = Some r /\ wf r /\ ncols r = ncols f /\ len r = len f /\
  same_params f r /\ forall j x, (j < ncols f)%nat -> ev r j x = ev f j (- x).
Proof. exact flipud_correct. Qed.
Print Assumptions C22_flipud.

(** C22 *)
Theorem C22_lval : forall f j,
  (j < ncols f)%nat -> nth j (lval f) 0 = ev f j (-1).
Proof. exact lval_correct. Qed.
Print Assumptions C22_lval.

(** C22 *)
Theorem C22_rval : forall f j,
  (j < ncols f)%nat -> nth j (rval f) 0 = ev f j 1.
Proof. exact rval_correct. Qed.
Print Assumptions C22_rval.

(** C22 *)
Theorem C22_fliplr : forall f,
  wf f -> exists r, fliplr f = Some r /\ wf r /\ ncols r = ncols f /\ same_params f r /\
  forall j x, (j < ncols f)%nat -> ev r j x = ev f (ncols f - 1 - j) x.
Proof. exact fliplr_correct. Qed.
Print Assumptions C22_fliplr.

(** C45 *)
Theorem C45_nested_grid : forall ops n,
  (2 <= n)%nat ->
  nested_values ops (sample ops n) = sample ops (2 * n - 1).
Proof. exact nested_values_correct. Qed.
Print Assumptions C45_nested_grid.

(** C45 *)
Theorem C45_points_nested : forall n i,
  (2 <= n)%nat -> (i < n)%nat ->
  nth (2 * i) (chebpts_type2_compute (2 * n - 1)) 0 = nth i (chebpts_type2_compute n) 0.
Proof. exact chebpts_nested. Qed.
Print Assumptions C45_points_nested.

(** C48 *)
Theorem C48_restrict : forall f a b,
  wf f -> (2 <= len f)%nat -> (2 <= ncols f)%nat ->
  -1 <= a -> a < b -> b <= 1 ->
  exists g, restrict f [a; b] = Some g /\ wf g /\ ncols g = ncols f /\ len g = len f /\
    forall j x, (j < ncols f)%nat -> ev g j x = ev f j (/ 2 * ((1 - x) * a + (1 + x) * b)).
Proof. exact restrict_correct. Qed.
Print Assumptions C48_restrict.

(** C48 *)
Theorem C48_restrict_single_refuted : forall f a b,
  ncols f = 1%nat -> ~ (a = -1 /\ b = 1) -> restrict f [a; b] = None.
Proof. exact restrict_single_fails. Qed.
Print Assumptions C48_restrict_single_refuted.

(** C49 *)
Theorem C49_construct : forall ops e h ml ms,
  ops <> [] -> (initial_n ml ms <= ml)%Z ->
  exists f N K, construct ops e h ml ms = Some f /\ wf f /\ ncols f = length ops /\ eps f = e /\ hscale f = h /\
    (initial_n ml ms <= Z.of_nat N <= ml)%Z /\ (1 <= K <= len f)%nat /\
    (forall j k, (j < length ops)%nat ->
       coef f j k = if Nat.ltb k K then nth k (interp (nth j ops (fun _ => 0)) N) 0 else 0) /\
    (ishappy f = false -> K = N /\ (ml < 2 * Z.of_nat N - 1)%Z) /\
    (forall j, (j < length ops)%nat ->
       let c := interp (nth j ops (fun _ => 0)) N in
       let tol := Rmax h (vscale_col c) * e in
       0 < e < 1 -> 0 < tol < 1 -> forall i, (K <= i)%nat ->
         Rabs (nth i c 0) <= Rmax (Rpower tol (2 / 5)) (Rpower e (2 / 5))).
Proof. exact construct_spec. Qed.
Print Assumptions C49_construct.

(** C49 *)
Theorem C49_construct_error : forall ops e h ml ms,
  ops <> [] -> (initial_n ml ms <= ml)%Z -> 0 < e < 1 ->
  exists f N, construct ops e h ml ms = Some f /\ wf f /\ ncols f = length ops /\
    (initial_n ml ms <= Z.of_nat N <= ml)%Z /\
    forall j, (j < length ops)%nat ->
      let op := nth j ops (fun _ => 0) in
      let tol := Rmax h (vscale_col (interp op N)) * e in
      0 < tol < 1 ->
      let B := INR N * Rmax (Rpower tol (2 / 5)) (Rpower e (2 / 5)) in
      (forall i, (i < N)%nat -> let xi := nth i (chebpts_type2_compute N) 0 in Rabs (op xi - ev f j xi) <= B) /\
      (spanT N op -> forall x, -1 <= x <= 1 -> Rabs (op x - ev f j x) <= B).
Proof. exact construct_error. Qed.
Print Assumptions C49_construct_error.

(** C49 *)
Theorem C49_construct_short_refuted : forall ops e h ml ms,
  (ml < 9 \/ (9 < ml < 17 /\ ml <= ms))%Z -> construct ops e h ml ms = None.
Proof. exact construct_short_fails. Qed.
Print Assumptions C49_construct_short_refuted.

(** C50 *)
Theorem C50_hstack : forall fs,
  fs <> [] -> List.Forall wf fs ->
  exists h, cheb_hstack fs = Some h /\ wf h /\ ncols h = total_cols fs /\
    (forall f, In f fs -> (len f <= len h)%nat) /\
    forall fs1 f fs2, fs = fs1 ++ f :: fs2 -> forall j x, (j < ncols f)%nat ->
      ev h (total_cols fs1 + j) x = ev f j x.
Proof. exact hstack_correct. Qed.
Print Assumptions C50_hstack.

(** C50 *)
Theorem C50_getitem : forall f i,
  wf f ->
  (forall idx, (0 <= idx)%Z -> Z.to_nat idx = i -> (i < ncols f)%nat ->
     exists r, getitem f idx = Some r /\ wf r /\ ncols r = 1%nat /\ len r = len f /\ eps r = eps f /\ forall x, ev r 0 x = ev f i x) /\
  (forall idx, (idx < 0 \/ Z.of_nat (ncols f) <= idx)%Z -> getitem f idx = None).
Proof. exact getitem_correct. Qed.
Print Assumptions C50_getitem.

(** C51 *)
Theorem C51_deepcopy_partial : forall f,
  wf f -> exists r, deepcopy f = Some r /\ coeffs r = coeffs f /\ eps r = eps f /\
  maxLength r = maxLength f /\ (ishappy f = true -> ishappy r = true) /\ hscale r = eps f.
Proof. exact deepcopy_correct. Qed.
Print Assumptions C51_deepcopy_partial.

(** C51 *)
Theorem C51_deepcopy_hscale_refuted :
  exists f g, wf f /\ deepcopy f = Some g /\ hscale g <> hscale f.
Proof. exact deepcopy_hscale_refuted. Qed.
Print Assumptions C51_deepcopy_hscale_refuted.

(** C52 *)
Theorem C52_add_out_refuted :
  exists f g h f' g' h', wf f /\ wf g /\ wf h /\
  add_out f g h = Some (f', g', h') /\ exists x, ev h' 0 x <> ev f 0 x + ev g 0 x.
Proof. exact add_out_refuted. Qed.
Print Assumptions C52_add_out_refuted.

(** C53: one row of the barycentric matrix evaluates every polynomial of degree below N, also at the nodes themselves. *)
Theorem C53_barycentric_evaluation : forall N a b y,
  (2 <= N)%nat -> a < b ->
  let x := scaleNodes (chebpts_type2_compute N) a b in
  exists row, bary_row y x (bary_weights N) = map Fin row /\ length row = N /\
    forall q, spanT N q -> rsum N (fun k => nth k row 0 * q (nth k x 0)) = q y.
Proof. exact barymat_correct. Qed.
Print Assumptions C53_barycentric_evaluation.

(** C54 *)
Theorem C54_differentiation_matrix : forall N a b k q i,
  (2 <= N)%nat -> a < b -> spanT N q -> (i < N)%nat ->
  let x := scaleNodes (chebpts_type2_compute N) a b in
  rsum N (fun j => diffmat x k i j * q (nth j x 0)) = Derive_n q k (nth i x 0).
Proof. exact diffmat_correct. Qed.
Print Assumptions C54_differentiation_matrix.

(** C55 *)
Theorem C55_type1_quadrature_refuted :
  exists x w, chebpts1 3 (-1) 1 = Some (x, w) /\
  is_RInt (fun t => t * t) (-1) 1 (2 / 3) /\ rsum 3 (fun j => nth j w 0 * (nth j x 0 * nth j x 0)) = / 2.
Proof. exact type1_quadrature_wrong. Qed.
Print Assumptions C55_type1_quadrature_refuted.


(** ** The hypotheses are met by concrete, non-trivial objects *)
Definition ex_f : chebtech := mkCheb [[1; 2; 3]; [0; -1; 5]] eps_default 1 maxLength_default true.
Definition ex_g : chebtech := mkCheb [[4; 1]; [2; 7]] eps_default 1 maxLength_default true.
Definition ex_c : chebtech := mkCheb [[4]] eps_default 1 maxLength_default true.
Definition ex_cc : chebtech := mkCheb [[4]; [5]] eps_default 1 maxLength_default true.
Example ex_f_wf : wf ex_f. Proof. exists 3%nat. repeat split; [lia|discriminate|repeat constructor]. Qed.
Example ex_g_wf : wf ex_g. Proof. exists 2%nat. repeat split; [lia|discriminate|repeat constructor]. Qed.
Example ex_c_wf : wf ex_c /\ len ex_c = 1%nat /\ ncols ex_c = 1%nat.
Proof. split; [exists 1%nat; repeat split; [lia|discriminate|repeat constructor]|split; reflexivity]. Qed.
Example ex_cc_const : len ex_cc = 1%nat /\ (2 <= ncols ex_cc)%nat /\ (2 <= len ex_f)%nat.
Proof. cbn. lia. Qed.
Example ex_cols : ncols ex_g = ncols ex_f /\ (2 <= len ex_f)%nat /\ (2 <= len ex_g)%nat /\ (2 <= ncols ex_f)%nat.
Proof. cbn. lia. Qed.
Example ex_eps : 0 < eps ex_f < 1 /\ Rpower (eps ex_f) (2 / 5) < Rabs (coef ex_f 0 (len ex_f - 1)).
Proof.
  split; [exact eps_default_range|]. change (coef ex_f 0 (len ex_f - 1)) with 3.
  rewrite Rabs_right by lra. assert (H := rpow_eps_lt1 _ eps_default_range). cbn [eps ex_f]. lra.
Qed.
Example ex_span : spanT 3 (fun x => 2 * x * x - 1).
Proof. exists [0; 0; 1]. split; [reflexivity|]. intros x. unfold evalT. cbn. ring. Qed.
Example ex_construct : (initial_n maxLength_default 17 <= maxLength_default)%Z.
Proof. vm_compute. discriminate. Qed.
Example ex_tol : 0 < / 1000 < 1. Proof. lra. Qed.
Example ex_hstack : [ex_f; ex_g] <> [] /\ List.Forall wf [ex_f; ex_g].
Proof. split; [discriminate|]. constructor; [exact ex_f_wf|]. constructor; [exact ex_g_wf|constructor]. Qed.
