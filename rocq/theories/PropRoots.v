(** Roots and extrema of Chebyshev functions (C122-C126). *)
From Coq Require Import Reals ZArith List Arith Bool Lra Lia Classical_Prop.
From Coquelicot Require Import Coquelicot.
From Verif Require Import Base ChebSpec ChebMath ChebModel ChebEval ChebDct ChebObj RootsSpec RootsModel RootsProofs RootsObj RootsObj2 RootsMin RootsExist RootsEx RootsEx2.
Import ListNotations.
Open Scope R_scope.

(** ** C122: completeness *)
Lemma fun_roots_in eigs fuel a b f rs x j : a < b -> fun_roots eigs fuel a b f = Some rs -> (j < length (coeffs f))%nat -> rect (len f) (coeffs f) ->
  (exists g r, cheb_simplify f = Some g /\ nth j (map (roots_scalar eigs fuel (eps g)) (coeffs g)) None = Some r /\ In ((2 * x - a - b) / (b - a)) r) -> In x (nth j rs []).
Proof.
  intros Hab HF Hj HR (g & r & Eg & Er & Ix). unfold fun_roots, cheb_roots in HF. rewrite Eg in HF.
  destruct (all_opt _) as [l|] eqn:EA; [|discriminate]. cbn in HF. injection HF as <-.
  assert (Lj : (j < length (map (roots_scalar eigs fuel (eps g)) (coeffs g)))%nat).
  { destruct (le_lt_dec (length (map (roots_scalar eigs fuel (eps g)) (coeffs g))) j) as [G|G]; [|exact G]. rewrite nth_overflow in Er by exact G. discriminate. }
  assert (E1 := all_opt_nth _ l [] j EA Lj). rewrite Er in E1. injection E1 as E1.
  rewrite (nth_indep _ [] (map (fun y => (b * (y + 1) + a * (1 - y)) / 2) [])) by (rewrite map_length, (all_opt_length _ _ EA); exact Lj).
  rewrite (map_nth (map (fun y => (b * (y + 1) + a * (1 - y)) / 2))). rewrite <- E1. apply in_map_iff. exists ((2 * x - a - b) / (b - a)). split; [field; lra|exact Ix].
Qed.
Lemma unit_range a b x : a < b -> a <= x <= b -> -1 <= (2 * x - a - b) / (b - a) <= 1.
Proof.
  intros H Hx. assert (E : (2 * x - a - b) / (b - a) * (b - a) = 2 * x - a - b) by (field; lra).
  split; apply Rmult_le_reg_r with (b - a); try lra; rewrite E; lra.
Qed.
(** C122: a column of at most 50 coefficients, the last one (number K) not negligible; the
    eigenvalue routine is exact on the column's pencil.  Then every zero in [a,b] is returned. *)
Theorem C122_roots_complete : forall eigs fuel f n j K a b rs, a < b -> rect n (coeffs f) -> 0 < eps f < 1 -> (j < length (coeffs f))%nat ->
  let c := nth j (coeffs f) [] in
  (2 <= K <= 50)%nat -> (K <= n)%nat -> (forall k, (K <= k)%nat -> nth k c 0 = 0) ->
  (ishappy f = true -> Rpower (eps f) (2 / 5) < Rabs (nth (K - 1) c 0)) -> 5 * (148 / 10 ^ 10) * norm1 c < Rabs (nth (K - 1) c 0) ->
  ((3 <= K)%nat -> eig_ok eigs (firstn K c)) ->
  fun_roots eigs (S fuel) a b f = Some rs ->
  forall x, a <= x <= b -> evalT c ((2 * x - a - b) / (b - a)) = 0 -> In x (nth j rs []).
Proof.
  intros eigs fuel f n j K a b rs Hab HR He Hj c HK HKn HZ Hl HT HO HF x Hx Hr.
  destruct (cheb_roots_complete eigs fuel f n j K HR He Hj HK HKn Hl HT HZ HO) as (g & Eg & _ & r & Er & Ir).
  apply (fun_roots_in eigs (S fuel) a b f rs x j Hab HF Hj); [rewrite (rect_len n); assumption|]. exists g, r. split; [exact Eg|]. split; [exact Er|].
  apply Ir; [apply unit_range; assumption|exact Hr].
Qed.
Print Assumptions C122_roots_complete.
(** C122: for a function with one column the call does return. *)
Theorem C122_roots_defined : forall eigs fuel c K e h ml hp a b, 0 < e < 1 ->
  (2 <= K <= 50)%nat -> (K <= length c)%nat -> (forall k, (K <= k)%nat -> nth k c 0 = 0) ->
  (hp = true -> Rpower e (2 / 5) < Rabs (nth (K - 1) c 0)) -> 5 * (148 / 10 ^ 10) * norm1 c < Rabs (nth (K - 1) c 0) ->
  ((3 <= K)%nat -> eig_ok eigs (firstn K c)) ->
  exists r, fun_roots eigs (S fuel) a b (mkCheb [c] e h ml hp) = Some [r].
Proof.
  intros eigs fuel c K e h ml hp a b He HK HL HZ Hl HT HO. set (f := mkCheb [c] e h ml hp).
  destruct (cheb_roots_complete eigs fuel f (length c) 0 K) as (g & Eg & _ & r & Er & Ir); try assumption.
  - apply rect_onecol. lia.
  - cbn. lia.
  - destruct (simplify_keeps f (length c) 0 K) as (g' & Eg' & _ & Lg & _); try assumption; [apply rect_onecol; lia|cbn; lia|lia|].
    rewrite Eg in Eg'. injection Eg' as <-. unfold fun_roots, cheb_roots. rewrite Eg. cbn [coeffs f length] in Lg.
    destruct (coeffs g) as [|g0 [|g1 G]]; cbn in Lg; try lia. cbn [map nth] in Er. cbn [map all_opt]. rewrite Er. cbn. eexists. reflexivity.
Qed.
Print Assumptions C122_roots_defined.
(** C122: T_2 on [0,4] *)
Example ex_C122 : eig_ok exact_eigs (firstn 3 [0; 0; 1]) /\ Rpower eps_default (2 / 5) < Rabs (nth 2 [0; 0; 1] 0) /\ 5 * (148 / 10 ^ 10) * norm1 [0; 0; 1] < Rabs (nth 2 [0; 0; 1] 0) /\
  evalT [0; 0; 1] ((2 * (2 + sqrt 2) - 0 - 4) / (4 - 0)) = 0.
Proof.
  split; [apply exact_eigs_ok; cbn; [lia|lra]|]. cbn [nth]. rewrite Rabs_R1. split; [assert (P := eps_default_pow); lra|]. split.
  - unfold norm1. cbn. rewrite Rabs_R0, Rabs_R1. lra.
  - unfold evalT. cbn. assert (S := sqrt_sqrt 2 ltac:(lra)). replace ((2 * (2 + sqrt 2) - 0 - 4) / (4 - 0)) with (sqrt 2 / 2) by field. nra.
Qed.
(** C122: any number of coefficients, with splitting and truncation.  If the function (as left
    by the simplification) changes sign between x1 and x2, and exceeds the accumulated
    truncation error there and at the split points in between, then a root is returned
    between x1 and x2. *)
Theorem C122_sign_changes : forall eigs fuel f g rs j S N,
  (forall c, (3 <= length c <= 50)%nat -> nth (length c - 1) c 0 <> 0 -> eig_ok eigs c) ->
  cheb_roots eigs fuel f = Some (g, rs) -> 0 < eps g -> (j < length (coeffs g))%nat ->
  let c := nth j (coeffs g) [] in
  (2 <= length c <= N)%nat -> (forall x, -1 <= x <= 1 -> Rabs (evalT c x) <= S) ->
  let err := S * ((1 + 10 * INR N ^ 2 * (148 / 10 ^ 10)) ^ fuel - 1) in
  forall x1 x2, -1 <= x1 <= x2 -> x2 <= 1 -> evalT c x1 * evalT c x2 < 0 ->
    (forall p, p = x1 \/ p = x2 \/ (In p (split_pts fuel) /\ x1 < p < x2) -> err < Rabs (evalT c p)) ->
    exists y, In y (nth j rs []) /\ x1 <= y <= x2.
Proof.
  intros eigs fuel f g rs j S N HE HR He Hj c HL HS err x1 x2 H1 H2 Hp Hm. unfold cheb_roots in HR. destruct (cheb_simplify f) as [g'|]; [|discriminate].
  destruct (all_opt _) as [l|] eqn:EA; [|discriminate]. cbn in HR. injection HR as <- <-.
  assert (Lj : (j < length (map (roots_scalar eigs fuel (eps g')) (coeffs g')))%nat) by (rewrite map_length; exact Hj).
  assert (E1 := all_opt_nth _ l [] j EA Lj). rewrite (nth_indep _ None (roots_scalar eigs fuel (eps g') [])) in E1 by exact Lj. rewrite map_nth in E1. fold c in E1.
  assert (NZ : exists k, nth k c 0 <> 0).
  { destruct (classic (exists k, nth k c 0 <> 0)) as [X|X]; [exact X|]. exfalso.
    assert (Z : evalT c x1 = 0). { unfold evalT. apply rsum_zero. intros k Hk. destruct (Req_dec (nth k c 0) 0) as [->|D]; [ring|]. exfalso. apply X. exists k. exact D. }
    rewrite Z in Hp. lra. }
  destruct NZ as [k Hk].
  exact (roots_scalar_sign eigs HE N fuel (eps g') c (nth j l []) S k He HL Hk E1 HS x1 x2 H1 H2 Hp Hm).
Qed.
Print Assumptions C122_sign_changes.
(** T_1 + 10^-6 T_50 (51 coefficients): the interval is split, the root near 0 is found. *)
Example ex_C122_sign : (forall c, (3 <= length c <= 50)%nat -> nth (length c - 1) c 0 <> 0 -> eig_ok exact_eigs c) /\
  (exists r, cheb_roots exact_eigs 2 (onecol (c51 50) false) = Some (onecol (c51 50) false, [r])) /\
  length (c51 50) = 51%nat /\ (forall x, -1 <= x <= 1 -> Rabs (evalT (c51 50) x) <= 1 + dl) /\ evalT (c51 50) (- (2 / 5)) * evalT (c51 50) (2 / 5) < 0 /\
  forall p, p = - (2 / 5) \/ p = 2 / 5 \/ (In p (split_pts 2) /\ - (2 / 5) < p < 2 / 5) -> (1 + dl) * ((1 + 10 * INR 51 ^ 2 * (148 / 10 ^ 10)) ^ 2 - 1) < Rabs (evalT (c51 50) p).
Proof.
  split; [intros c L H; apply exact_eigs_ok; [lia|exact H]|]. split; [apply c51_run; reflexivity|]. split; [apply mk_length|]. split; [|split].
  - intros x Hx. assert (B := c51_bound 50 eq_refl x Hx). revert B. unfold Rabs. repeat destruct (Rcase_abs _); lra.
  - assert (B1 := c51_bound 50 eq_refl (- (2 / 5)) ltac:(lra)). assert (B2 := c51_bound 50 eq_refl (2 / 5) ltac:(lra)). revert B1 B2. unfold dl.
    generalize (evalT (c51 50) (- (2 / 5))) (evalT (c51 50) (2 / 5)). intros u v. unfold Rabs. repeat destruct (Rcase_abs _); intros; nra.
  - intros p Hp. apply (c51_margin 50 eq_refl p Hp).
Qed.

(** ** C123: soundness *)
(** C123: at most 50 coefficients: every returned value belongs to a complex zero, close to the
    real line, of a series q (of degree at least 1) that differs from the function by at most
    n * 5 * 1.48e-8 * |c|_1; and it lies within 100 eps of [-1,1] if q is not linear. *)
Theorem C123_roots_sound_partial : forall eigs fuel f g rs j y k,
  (forall c, (3 <= length c <= 50)%nat -> nth (length c - 1) c 0 <> 0 -> eig_ok eigs c) ->
  cheb_roots eigs (S fuel) f = Some (g, rs) -> 0 < eps g -> (j < length (coeffs g))%nat ->
  let c := nth j (coeffs g) [] in
  (2 <= length c <= 50)%nat -> nth k c 0 <> 0 -> In y (nth j rs []) ->
  exists q, (2 <= length q <= length c)%nat /\ nth (length q - 1) q 0 <> 0 /\ near_root (100 * eps g) q y /\ ((3 <= length q)%nat -> Rabs y <= 1 + 100 * eps g) /\
    forall x, -1 <= x <= 1 -> Rabs (evalT c x - evalT q x) <= INR (length c) * (5 * (148 / 10 ^ 10) * norm1 c).
Proof.
  intros eigs fuel f g rs j y k HE HR He Hj c HL Hk Hy. unfold cheb_roots in HR. destruct (cheb_simplify f) as [g'|]; [|discriminate].
  destruct (all_opt _) as [l|] eqn:EA; [|discriminate]. cbn in HR. injection HR as <- <-.
  assert (Lj : (j < length (map (roots_scalar eigs (S fuel) (eps g')) (coeffs g')))%nat) by (rewrite map_length; exact Hj).
  assert (E1 := all_opt_nth _ l [] j EA Lj). rewrite (nth_indep _ None (roots_scalar eigs (S fuel) (eps g') [])) in E1 by exact Lj. rewrite map_nth in E1. fold c in E1.
  exact (roots_scalar_sound eigs HE fuel (eps g') c (nth j l []) y k He HL Hk E1 Hy).
Qed.
Print Assumptions C123_roots_sound_partial.
(** C123 REFUTED: x + 3 on [-1,1] has no root, the call returns -3. *)
Theorem C123_roots_outside_refuted : forall eigs fuel, exists rs,
  fun_roots eigs (S fuel) (-1) 1 (mkCheb [[3; 1]] eps_default 1 maxLength_default true) = Some rs /\ In (-3) (nth 0 rs []) /\
  forall x, -1 <= x <= 1 -> evalT [3; 1] x <> 0.
Proof.
  intros eigs fuel. destruct (lin_roots2 eigs fuel 3 1) as [g E]; [rewrite Rabs_pos_eq; lra|apply Rabs_R1|]. unfold fun_roots. change (mkCheb [[3; 1]] eps_default 1 maxLength_default true) with (onecol [3; 1] true).
  rewrite E. cbn [option_map snd map]. eexists. split; [reflexivity|]. split; [left; field|]. intros x Hx. unfold evalT. cbn. lra.
Qed.
Print Assumptions C123_roots_outside_refuted.

(** ** C124: accuracy *)
(** C124: the truncation inside the root finder is the only approximation: with an exact
    eigenvalue routine, a real eigenvalue in [-1,1] of the pencil is returned with a residual of at
    most n * 5 * 1.48e-8 * |c|_1, whatever the tolerance of the function. *)
Theorem C124_residual_partial : forall c n y, (2 <= length c)%nat -> trunc_len (148 / 10 ^ 10) c = Some n -> -1 <= y <= 1 -> evalT (firstn n c) y = 0 ->
  Rabs (evalT c y) <= INR (length c) * (5 * (148 / 10 ^ 10) * norm1 c).
Proof.
  intros c n y L E Hy Hz. destruct (trunc_firstn_bound (148 / 10 ^ 10) c n y E ltac:(lia) ltac:(lra) Hy) as [_ B]. rewrite Hz in B. rewrite Rminus_0_r in B. exact B.
Qed.
Print Assumptions C124_residual_partial.
Example ex_C124 : trunc_len (148 / 10 ^ 10) [0; 1] = Some 2%nat /\ evalT (firstn 2 [0; 1]) 0 = 0.
Proof.
  split; [|unfold evalT; cbn; ring]. change 2%nat with (length [0; 1]). apply trunc_len_full; [cbn; lia|]. unfold norm1. cbn. rewrite Rabs_R0, Rabs_R1. lra.
Qed.
(** C124 REFUTED: the function x + 7e-8 T_2(x) with tolerance 2^-52: the value returned is 0, where
    the function is -7e-8 (more than 10^8 times the tolerance). *)
Theorem C124_tolerance_refuted : forall eigs fuel, exists g,
  cheb_roots eigs (S fuel) (mkCheb [[0; 1; 7 / 10 ^ 8]] eps_default 1 maxLength_default true) = Some (g, [[0]]) /\
  Rabs (evalT [0; 1; 7 / 10 ^ 8] 0) = 7 / 10 ^ 8 /\ 10 ^ 8 * eps_default < 7 / 10 ^ 8.
Proof.
  intros eigs fuel. destruct (lin_roots eigs fuel 0 1 (7 / 10 ^ 8)) as [g E]; [rewrite Rabs_R0; lra|apply Rabs_R1|rewrite Rabs_pos_eq; lra|]. exists g.
  change (mkCheb [[0; 1; 7 / 10 ^ 8]] eps_default 1 maxLength_default true) with (onecol [0; 1; 7 / 10 ^ 8] true). rewrite E. split; [do 4 f_equal; lra|]. split.
  - unfold evalT. cbn. rewrite Rabs_left; lra.
  - unfold eps_default. lra.
Qed.
Print Assumptions C124_tolerance_refuted.

(** ** C125: roots of a function with several columns *)
(** C125: if every column has its own non-negligible last coefficient the call returns. *)
Theorem C125_defined_partial : forall eigs fuel f n, rect n (coeffs f) -> 0 < eps f < 1 ->
  (forall j, (j < length (coeffs f))%nat -> let c := nth j (coeffs f) [] in exists K, (2 <= K <= 50)%nat /\ (K <= n)%nat /\ (forall k, (K <= k)%nat -> nth k c 0 = 0) /\
     (ishappy f = true -> Rpower (eps f) (2 / 5) < Rabs (nth (K - 1) c 0)) /\ 5 * (148 / 10 ^ 10) * norm1 c < Rabs (nth (K - 1) c 0) /\ ((3 <= K)%nat -> eig_ok eigs (firstn K c))) ->
  exists g rs, cheb_roots eigs (S fuel) f = Some (g, rs) /\ length rs = length (coeffs f).
Proof.
  intros eigs fuel f n HR He H. assert (L := rect_cols n (coeffs f) HR).
  assert (G : exists g, cheb_simplify f = Some g /\ length (coeffs g) = length (coeffs f)).
  { destruct (H 0%nat ltac:(lia)) as (K & K1 & K2 & K3 & K4 & K5 & K6). destruct (simplify_keeps f n 0 K HR He ltac:(lia) ltac:(lia) K4 K3) as (g & Eg & _ & Lg & _). exists g. split; assumption. }
  destruct G as (g & Eg & Lg). unfold cheb_roots. rewrite Eg.
  assert (A : forall j, (j < length (coeffs g))%nat -> nth j (map (roots_scalar eigs (S fuel) (eps g)) (coeffs g)) None <> None).
  { intros j Hj. rewrite Lg in Hj. destruct (H j Hj) as (K & K1 & K2 & K3 & K4 & K5 & K6).
    destruct (cheb_roots_complete eigs fuel f n j K HR He Hj K1 K2 K4 K5 K3 K6) as (g' & Eg' & _ & r & Er & _). rewrite Eg in Eg'. injection Eg' as <-. rewrite Er. discriminate. }
  assert (B : exists l, all_opt (map (roots_scalar eigs (S fuel) (eps g)) (coeffs g)) = Some l).
  { clear - A. revert A. generalize (roots_scalar eigs (S fuel) (eps g)). intros F. induction (coeffs g) as [|a l IH]; intros A; [exists []; reflexivity|].
    cbn [map all_opt]. destruct (F a) as [r|] eqn:Ea; [|exfalso; apply (A 0%nat); [cbn; lia|exact Ea]].
    destruct IH as [l' ->]; [intros j Hj; apply (A (S j)); cbn; lia|]. eexists. reflexivity. }
  destruct B as [l El]. rewrite El. exists g, l. split; [reflexivity|]. rewrite (all_opt_length _ _ El), map_length. exact Lg.
Qed.
Print Assumptions C125_defined_partial.
(** C125 REFUTED: the function (x, 0): the call raises (0/0 in the second column). *)
Theorem C125_zero_column_refuted : forall eigs fuel a b, fun_roots eigs fuel a b (mkCheb [[0; 1]; [0; 0]] eps_default 1 maxLength_default true) = None.
Proof. intros eigs fuel a b. unfold fun_roots. change (mkCheb [[0; 1]; [0; 0]] eps_default 1 maxLength_default true) with xzero. rewrite xzero_raises. reflexivity. Qed.
Print Assumptions C125_zero_column_refuted.

(** ** C126: extrema *)
(** C126: n = 3..51 coefficients, derivative with coefficients d.  If no zero of the derivative
    lies just outside [-1,1] (for quadratics: outside), the column's minimum and maximum over
    [-1,1] and their positions are returned. *)
Theorem C126_minandmax_partial : forall eigs fuel f n j d res, rect n (coeffs f) -> 0 < eps f < 1 -> (j < length (coeffs f))%nat -> (3 <= n <= 51)%nat ->
  let c := nth j (coeffs f) [] in
  Rpower (eps f) (2 / 5) < Rabs (nth (n - 1) c 0) ->
  (forall t, is_derive (evalT c) t (evalT d t)) -> length d = (n - 1)%nat ->
  Rpower (eps f) (2 / 5) < Rabs (nth (n - 2) d 0) -> 5 * (148 / 10 ^ 10) * norm1 d < Rabs (nth (n - 2) d 0) ->
  ((4 <= n)%nat -> eig_ok eigs d) -> zeros_clear (100 * eps f) d ->
  cheb_minandmax eigs (S fuel) f = Some res -> extrema (evalT c) (nth j res ((0, 0), (0, 0))).
Proof.
  intros eigs fuel f n j d res HR He Hj Hn c Hl Hd Ld Hdl HT HO HC HM.
  destruct (minandmax_correct eigs fuel f n j d HR He Hj Hn Hl Hd Ld Hdl HT HO HC) as (fp & e & Efp & Ee & Ex).
  rewrite cheb_minandmax_eq, Efp in HM. assert (Lj : (j < length (mk (length (coeffs f)) (col_result eigs (S fuel) f fp)))%nat) by (rewrite mk_length; exact Hj).
  assert (E1 := all_opt_nth _ res ((0, 0), (0, 0)) j HM Lj). rewrite nth_mk in E1 by exact Hj. rewrite Ee in E1. injection E1 as E1. rewrite <- E1. exact Ex.
Qed.
Print Assumptions C126_minandmax_partial.
(** Whatever the eigenvalue routine does, the reported values are f at the reported positions, and
    no value of f at an end point or on the Chebyshev grid lies outside them. *)
Lemma col_min_weak f r x v : length x = length v -> (forall k, (k < length v)%nat -> nth k v 0 = f (nth k x 0)) ->
  let '(m, p) := col_min f r x v in f p = m /\ m <= f (-1) /\ m <= f 1 /\ forall t, In t x -> m <= f t.
Proof.
  intros Lx Hv. unfold col_min. destruct (amin_spec f (r ++ [1]) (-1)) as [A1 A2]. set (p := amin _ _ _) in *.
  assert (L1 : f p <= f (-1)) by (apply A2; left; reflexivity). assert (L2 : f p <= f 1) by (apply A2; right; apply in_or_app; right; left; reflexivity).
  assert (S := min_of_values_spec (f p) v). destruct (min_of_values (f p) v) as [k|].
  - destruct S as (S1 & S2 & S3). split; [symmetry; apply Hv; exact S1|]. split; [lra|]. split; [lra|]. intros t Ht. apply (In_nth _ _ 0) in Ht. destruct Ht as (i & Hi & <-). rewrite Lx in Hi. rewrite <- (Hv i Hi). now apply S3.
  - split; [reflexivity|]. split; [lra|]. split; [lra|]. intros t Ht. apply (In_nth _ _ 0) in Ht. destruct Ht as (i & Hi & <-). rewrite Lx in Hi. rewrite <- (Hv i Hi). now apply S.
Qed.
Theorem C126_values_consistent : forall eigs fuel f n j res, rect n (coeffs f) -> (j < length (coeffs f))%nat ->
  cheb_minandmax eigs fuel f = Some res ->
  let '((m, a), (M, b)) := nth j res ((0, 0), (0, 0)) in
  ev f j a = m /\ ev f j b = M /\ m <= ev f j (-1) <= M /\ m <= ev f j 1 <= M /\
  forall x, In x (chebpts_type2_compute n) -> m <= ev f j x <= M.
Proof.
  intros eigs fuel f n j res HR Hj HM. rewrite cheb_minandmax_eq in HM. destruct (cheb_diff f 1) as [fp|]; [|discriminate].
  assert (Lj : (j < length (mk (length (coeffs f)) (col_result eigs fuel f fp)))%nat) by (rewrite mk_length; exact Hj).
  assert (E1 := all_opt_nth _ res ((0, 0), (0, 0)) j HM Lj). rewrite nth_mk in E1 by exact Hj.
  assert (E : exists r, minandmax_col r (nth j (coeffs f) []) = nth j res ((0, 0), (0, 0))).
  { unfold col_result in E1. destruct (if Nat.eqb _ 1 then _ else _) as [fj|]; [|discriminate]. destruct (cheb_roots eigs fuel fj) as [[g rs]|]; [|discriminate]. injection E1 as E1. eexists; exact E1. }
  destruct E as [r <-]. unfold ev, minandmax_col. set (c := nth j (coeffs f) []). assert (Lc : length c = n) by (apply rect_nth; assumption). rewrite Lc.
  assert (N0 : (1 <= length c)%nat) by (destruct HR; lia).
  assert (LX : length (chebpts_type2_compute n) = length (polyval1 c)) by (rewrite polyval1_length, chebpts_length; symmetry; exact Lc).
  assert (CE : forall t, clenshaw_pt c t = evalT c t) by (intros; now apply clenshaw_pt_correct).
  assert (HV : forall k, (k < length (polyval1 c))%nat -> nth k (polyval1 c) 0 = clenshaw_pt c (nth k (chebpts_type2_compute n) 0)).
  { intros k Hk. rewrite polyval1_length in Hk. rewrite CE, <- Lc. apply polyval1_spec; lia. }
  assert (A := col_min_weak (clenshaw_pt c) r _ _ LX HV). unfold col_max.
  assert (B := col_min_weak (fun t => - clenshaw_pt c t) r (chebpts_type2_compute n) (map Ropp (polyval1 c)) ltac:(rewrite map_length; exact LX)).
  assert (HV2 : forall k, (k < length (map Ropp (polyval1 c)))%nat -> nth k (map Ropp (polyval1 c)) 0 = - clenshaw_pt c (nth k (chebpts_type2_compute n) 0)).
  { intros k Hk. rewrite (nth_indep _ 0 (- 0)) by exact Hk. rewrite map_nth. rewrite HV by (rewrite map_length in Hk; exact Hk). reflexivity. }
  specialize (B HV2). destruct (col_min (clenshaw_pt c) _ _ _) as [m a]. destruct (col_min (fun t => - clenshaw_pt c t) _ _ _) as [M b].
  rewrite !CE in A, B. destruct A as (A1 & A2 & A3 & A4). destruct B as (B1 & B2 & B3 & B4).
  split; [exact A1|]. split; [lra|]. split; [lra|]. split; [lra|]. intros t Ht. specialize (A4 t Ht). specialize (B4 t Ht). rewrite CE in A4, B4. lra.
Qed.
Print Assumptions C126_values_consistent.
(** C126 REFUTED: x^2/2 + 3x on [-1,1]: the minimum returned is -9/2 at -3. *)
Theorem C126_quadratic_refuted : forall eigs fuel, exists M, cheb_minandmax eigs (S fuel) (mkCheb [[1 / 4; 3; 1 / 4]] eps_default 1 maxLength_default true) = Some [((- (9 / 2), -3), M)] /\
  forall x, -1 <= x <= 1 -> - (5 / 2) <= evalT [1 / 4; 3; 1 / 4] x.
Proof.
  intros eigs fuel. destruct (quad_minmax eigs fuel) as [M E]. exists M. split; [exact E|]. intros x Hx. change [1 / 4; 3; 1 / 4] with quad. rewrite quad_eval. nra.
Qed.
Print Assumptions C126_quadratic_refuted.
(** T_3: extrema -1 and 1, inside and at the ends *)
Example ex_C126 : Rpower eps_default (2 / 5) < Rabs (nth 3 [0; 0; 0; 1] 0) /\ (forall t, is_derive (evalT [0; 0; 0; 1]) t (evalT [3; 0; 6] t)) /\
  Rpower eps_default (2 / 5) < Rabs (nth 2 [3; 0; 6] 0) /\ 5 * (148 / 10 ^ 10) * norm1 [3; 0; 6] < Rabs (nth 2 [3; 0; 6] 0) /\ eig_ok exact_eigs [3; 0; 6] /\ zeros_clear (100 * eps_default) [3; 0; 6].
Proof.
  assert (P := eps_default_pow). cbn [nth]. rewrite Rabs_R1, (Rabs_pos_eq 6) by lra.
  split; [lra|]. split; [|split; [lra|split; [|split]]].
  - intros t. apply is_derive_ext with (fun x => 4 * x ^ 3 - 3 * x); [intros x; unfold evalT; cbn; ring|]. unfold evalT. cbn. auto_derive; [exact I|]. ring.
  - unfold norm1. cbn. rewrite Rabs_R0, !Rabs_pos_eq; lra.
  - apply exact_eigs_ok; cbn; [lia|lra].
  - intros z Hz. left. unfold evalTC in Hz. cbn in Hz. destruct z as [x y]. cbn.
    assert (E1 := f_equal Re Hz). assert (E2 := f_equal Im Hz). cbn in E1, E2. ring_simplify in E1. ring_simplify in E2.
    assert (y = 0 \/ x = 0) by nra. destruct H as [->| ->]; [split; [reflexivity|nra]|]. assert (y = 0) by nra. subst y. split; [reflexivity|lra].
Qed.
