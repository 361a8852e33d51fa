(** Barycentric interpolation and differentiation matrices at Chebyshev points. *)
From Coq Require Import Reals ZArith List Arith Lia Lra Bool.
From Coquelicot Require Import Coquelicot.
From Verif Require Import Base ChebSpec ChebMath ChebModel ChebEval CosSums ChebDct ChebCalc ChebChop ChebObj ChebOps ChebArith ChebModel3.
Import ListNotations.
Open Scope R_scope.
Ltac req := match goal with |- @eq _ ?a ?b => change (@eq R a b) end.

(** ** Quadrature weights are symmetric *)
Lemma quadwts_sym N w j : quadwts N = Some w -> (j < N)%nat -> nth (N - 1 - j) w 0 = nth j w 0.
Proof.
  intros E Hj. destruct (Nat.le_gt_cases 2 N) as [HN|HN].
  - rewrite !(quadwts_nth N w) by (try assumption; lia).
    assert (HM : INR (N - 1) <> 0) by (apply not_0_INR; lia).
    f_equal.
    + unfold ew. destruct (Nat.eqb_spec (N - 1 - j) 0), (Nat.eqb_spec j (N - 1)), (Nat.eqb_spec j 0),
        (Nat.eqb_spec (N - 1 - j) (N - 1)); try lia; reflexivity.
    + f_equal. apply rsum_ext. intros k Hk. f_equal. rewrite minus_INR by lia.
      replace (2 * PI * (INR (N - 1) - INR j) * INR k / INR (N - 1))
        with (- (2 * PI * INR j * INR k / INR (N - 1)) + 2 * INR k * PI) by (field; exact HM).
      rewrite cos_period, cos_neg. reflexivity.
  - replace (N - 1 - j)%nat with j by lia. reflexivity.
Qed.

(** ** Divided differences *)
Lemma spanT_id : spanT 2 (fun x => x).
Proof. apply spanT_ext with (T 1); [reflexivity|]. apply spanT_T; lia. Qed.
Lemma divdiff_T k y : exists r, spanT k r /\ forall x, T k x = T k y + (x - y) * r x.
Proof.
  induction k as [| |k IH1 IH2] using nat_ind2.
  - exists (fun _ => 0). split; [apply spanT_0|]. intros x. cbn. ring.
  - exists (fun _ => 1). split; [apply spanT_ext with (T 0); [reflexivity|]; apply spanT_T; lia|].
    intros x. cbn. ring.
  - destruct IH1 as [r1 [S1 E1]]. destruct IH2 as [r2 [S2 E2]].
    exists (fun x => 2 * T (S k) y * T 0 x + (2 * (x * r2 x) + (-1) * r1 x)). split.
    + apply spanT_plus; [apply spanT_scal, spanT_T; lia|].
      apply spanT_plus; apply spanT_scal.
      * apply (spanT_mul 2 (S k)); [lia|apply spanT_id|exact S2].
      * apply (spanT_mono k); [lia|exact S1].
    + intros x. rewrite !T_SS. rewrite (E1 x), (E2 x). change (T 0 x) with 1. ring.
Qed.
Lemma divdiff n q y : spanT (S n) q -> exists r, spanT n r /\ forall x, q x = q y + (x - y) * r x.
Proof.
  intros [c [L E]].
  assert (H : forall m, (m <= S n)%nat -> exists r, spanT n r /\ forall x,
     rsum m (fun k => nth k c 0 * T k x) = rsum m (fun k => nth k c 0 * T k y) + (x - y) * r x).
  { induction m as [|m IH]; intros Hm.
    - exists (fun _ => 0). split; [apply spanT_0|]. intros x. cbn. ring.
    - destruct IH as [r [Sr Er]]; [lia|]. destruct (divdiff_T m y) as [r' [Sr' Er']].
      exists (fun x => r x + nth m c 0 * r' x). split.
      + apply spanT_plus; [exact Sr|]. apply spanT_scal. apply (spanT_mono m); [lia|exact Sr'].
      + intros x. cbn [rsum]. rewrite Er, (Er' x). ring. }
  destruct (H (S n) (le_n _)) as [r [Sr Er]]. exists r. split; [exact Sr|].
  intros x. rewrite !E. unfold evalT. rewrite L. apply Er.
Qed.

(** ** Barycentric weights *)
Lemma bary_weights_length N : (1 <= N)%nat -> length (bary_weights N) = N.
Proof. intros H. unfold bary_weights. rewrite upd_length, mk_length, app_length, repeat_length. cbn. lia. Qed.
Lemma sgn_even_sub a b : (b <= a)%nat -> sgn (a - b) = sgn a * sgn b.
Proof.
  intros H. replace (sgn a) with (sgn ((a - b) + b)) by (f_equal; lia).
  rewrite sgn_add, Rmult_assoc, sgn_sq. ring.
Qed.
Lemma bary_weights_nth N j : (2 <= N)%nat -> (j < N)%nat ->
  nth j (bary_weights N) 0 = sgn (N - 1 - j) * ew (N - 1) j.
Proof.
  intros HN Hj. unfold bary_weights.
  assert (L : length (repeat 1 (N - 1) ++ [/ 2]) = N) by (rewrite app_length, repeat_length; cbn; lia).
  rewrite L.
  assert (V : forall i, (i < N)%nat ->
     nth i (mk N (fun i => if Nat.leb (i + 2) N && Nat.even (N - 2 - i) then -1
         else nth i (repeat 1 (N - 1) ++ [/ 2]) 0)) 0 = if Nat.eqb i (N - 1) then / 2 else sgn (N - 1 - i)).
  { intros i Hi. rewrite nth_mk by exact Hi. destruct (Nat.eqb_spec i (N - 1)) as [->|Hne].
    - destruct (Nat.leb_spec (N - 1 + 2) N); [lia|]. cbn [andb].
      rewrite app_nth2 by (rewrite repeat_length; lia). rewrite repeat_length, Nat.sub_diag. reflexivity.
    - destruct (Nat.leb_spec (i + 2) N) as [Hle|]; [|lia]. cbn [andb].
      replace (N - 1 - i)%nat with (S (N - 2 - i)) by lia. rewrite sgn_S. unfold sgn.
      destruct (Nat.even (N - 2 - i)); [reflexivity|].
      rewrite app_nth1 by (rewrite repeat_length; lia).
      rewrite (nth_indep _ 0 1) by (rewrite repeat_length; lia). rewrite nth_repeat. ring. }
  destruct (Nat.eq_dec j 0) as [->|H0].
  - rewrite upd_same by (rewrite mk_length; lia). rewrite V by lia. unfold ew. rewrite Nat.eqb_refl. cbn [orb].
    destruct (Nat.eqb_spec 0 (N - 1)); [lia|]. rewrite Nat.sub_0_r. reflexivity.
  - rewrite upd_other by exact H0. rewrite V by exact Hj. unfold ew.
    destruct (Nat.eqb_spec j 0); [lia|]. cbn [orb].
    destruct (Nat.eqb_spec j (N - 1)) as [->|]; [rewrite Nat.sub_diag; cbn; lra|ring].
Qed.
Lemma sgn_ne k : sgn k <> 0.
Proof. unfold sgn. destruct (Nat.even k); lra. Qed.
Lemma bary_weights_ne N j : (2 <= N)%nat -> (j < N)%nat -> nth j (bary_weights N) 0 <> 0.
Proof.
  intros. rewrite bary_weights_nth by assumption.
  apply Rmult_integral_contrapositive; split; [apply sgn_ne|apply ew_ne].
Qed.

(** a set of nodes with weights for which barycentric formulas hold *)
Record good_nodes (N : nat) (x w : list R) : Prop := {
  gn_N : (2 <= N)%nat;
  gn_x : length x = N;
  gn_w : length w = N;
  gn_ne : forall j, (j < N)%nat -> nth j w 0 <> 0;
  gn_dist : forall i j, (i < N)%nat -> (j < N)%nat -> i <> j -> nth i x 0 <> nth j x 0;
  gn_card : forall j, (j < N)%nat -> exists q, spanT N q /\
     forall i, (i < N)%nat -> q (nth i x 0) = if Nat.eqb i j then 1 else 0;
  gn_orth : forall q, spanT (N - 1) q -> rsum N (fun k => nth k w 0 * q (nth k x 0)) = 0
}.

Lemma chebpts_dist N i j : (i < N)%nat -> (j < N)%nat -> i <> j ->
  nth i (chebpts_type2_compute N) 0 <> nth j (chebpts_type2_compute N) 0.
Proof.
  intros Hi Hj Hne. assert (HN : (2 <= N)%nat) by lia.
  rewrite !chebpts_nth by assumption. intros E.
  assert (HM : 0 < INR (N - 1)) by (apply lt_0_INR; lia).
  assert (R : forall k, (k < N)%nat -> 0 <= PI * INR (N - 1 - k) / INR (N - 1) <= PI).
  { intros k Hk. assert (0 < PI) by apply PI_RGT_0. assert (0 <= INR (N - 1 - k)) by apply pos_INR.
    assert (INR (N - 1 - k) <= INR (N - 1)) by (apply le_INR; lia). split.
    - apply Rmult_le_pos; [nra|]. left. apply Rinv_0_lt_compat; exact HM.
    - apply (Rmult_le_reg_r (INR (N - 1))); [exact HM|].
      unfold Rdiv. rewrite Rmult_assoc, Rinv_l by lra. nra. }
  assert (E2 : PI * INR (N - 1 - i) / INR (N - 1) = PI * INR (N - 1 - j) / INR (N - 1)).
  { rewrite <- (acos_cos (PI * INR (N - 1 - i) / INR (N - 1))) by (apply R; exact Hi).
    rewrite <- (acos_cos (PI * INR (N - 1 - j) / INR (N - 1))) by (apply R; exact Hj). f_equal. exact E. }
  assert (HP := PI_RGT_0).
  assert (INR (N - 1 - i) = INR (N - 1 - j)).
  { apply (Rmult_eq_reg_l (PI / INR (N - 1))).
    - unfold Rdiv in *. lra.
    - unfold Rdiv. apply Rmult_integral_contrapositive. split; [lra|apply Rinv_neq_0_compat; lra]. }
  apply INR_eq in H. lia.
Qed.

Lemma chebpts_unit N j : (1 <= N)%nat -> (j < N)%nat -> exists q, spanT N q /\
     forall i, (i < N)%nat -> q (nth i (chebpts_type2_compute N) 0) = if Nat.eqb i j then 1 else 0.
Proof.
  intros HN Hj. set (v := mk N (fun i => if Nat.eqb i j then 1 else 0)).
  assert (Lv : length v = N) by apply mk_length.
  exists (evalT (polyfit1 v)). split; [apply spanT_evalT; rewrite polyfit1_length; lia|].
  intros i Hi. transitivity (nth i (polyval1 (polyfit1 v)) 0).
  - rewrite polyval1_spec by (rewrite polyfit1_length; lia). rewrite polyfit1_length, Lv. reflexivity.
  - rewrite polyval_polyfit by lia. unfold v. rewrite nth_mk by exact Hi. reflexivity.
Qed.

Lemma sgn_cos N j : (2 <= N)%nat -> (j < N)%nat ->
  T (N - 1) (nth j (chebpts_type2_compute N) 0) = sgn (N - 1 - j).
Proof.
  intros HN Hj. rewrite chebpts_nth by assumption. rewrite T_cos.
  replace (INR (N - 1) * (PI * INR (N - 1 - j) / INR (N - 1))) with (INR (N - 1 - j) * PI).
  - apply cos_INR_PI.
  - field. apply not_0_INR. lia.
Qed.

Lemma bary_orth N q : (2 <= N)%nat -> spanT (N - 1) q ->
  rsum N (fun k => nth k (bary_weights N) 0 * q (nth k (chebpts_type2_compute N) 0)) = 0.
Proof.
  intros HN [c [L E]]. set (M := (N - 1)%nat).
  assert (HMR : INR M <> 0) by (apply not_0_INR; unfold M; lia).
  replace N with (S M) at 1 by (unfold M; lia).
  rewrite (rsum_ext (S M) _ (fun k => rsum M (fun l => nth l c 0 *
     (ew M k * (cos (PI * INR M * INR (M - k) / INR M) * cos (PI * INR l * INR (M - k) / INR M)))))).
  2:{ intros k Hk. assert (Hk' : (k < N)%nat) by (unfold M in Hk; lia).
      rewrite bary_weights_nth by assumption. rewrite <- sgn_cos by assumption.
      rewrite E. unfold evalT. rewrite L. fold M.
      rewrite <- rsum_scal. apply rsum_ext. intros l Hl.
      rewrite chebpts_nth by assumption. fold M. rewrite !T_cos.
      replace (PI * INR M * INR (M - k) / INR M) with (INR M * (PI * INR (M - k) / INR M)) by (field; exact HMR).
      replace (PI * INR l * INR (M - k) / INR M) with (INR l * (PI * INR (M - k) / INR M)) by (field; exact HMR).
      ring. }
  rewrite rsum_swap. apply rsum_zero. intros l Hl. rewrite rsum_scal.
  rewrite <- (trap_ew M (fun k => cos (PI * INR M * INR (M - k) / INR M) * cos (PI * INR l * INR (M - k) / INR M))) by (unfold M; lia).
  rewrite (trap_rev M (fun k => cos (PI * INR M * INR k / INR M) * cos (PI * INR l * INR k / INR M))).
  rewrite cos_orth by (unfold M in *; lia).
  destruct (Nat.eqb_spec M l); [lia|]. ring.
Qed.

Lemma cheb_good N : (2 <= N)%nat -> good_nodes N (chebpts_type2_compute N) (bary_weights N).
Proof.
  intros HN. constructor.
  - exact HN.
  - apply chebpts_length.
  - apply bary_weights_length; lia.
  - intros; apply bary_weights_ne; assumption.
  - intros; apply chebpts_dist; assumption.
  - intros; apply chebpts_unit; [lia|assumption].
  - intros; apply bary_orth; assumption.
Qed.

Lemma scaled_good N a b : (2 <= N)%nat -> a < b ->
  good_nodes N (scaleNodes (chebpts_type2_compute N) a b) (bary_weights N).
Proof.
  intros HN Hab. destruct (cheb_good N HN) as [_ G1 G2 G3 G4 G5 G6].
  unfold scaleNodes. destruct (Reqb a (-1) && Reqb b 1) eqn:Ez; [constructor; assumption|].
  set (x := chebpts_type2_compute N) in *.
  assert (V : forall i, (i < N)%nat -> nth i (map (fun t => / 2 * b * (1 + t) + / 2 * a * (1 - t)) x) 0
                = (/ 2 * (b - a)) * nth i x 0 + / 2 * (a + b)).
  { intros i Hi. rewrite nth_map_R by lia. field. }
  constructor; try assumption.
  - rewrite map_length. exact G1.
  - intros i j Hi Hj Hne. rewrite !V by assumption. intros E. apply (G4 i j Hi Hj Hne). nra.
  - intros j Hj. destruct (G5 j Hj) as [q [Sq Eq]].
    exists (fun y => q (2 / (b - a) * y + (- (a + b) / (b - a)))). split.
    + apply spanT_affine. exact Sq.
    + intros i Hi. rewrite V by exact Hi. rewrite <- Eq by exact Hi. f_equal. field. lra.
  - intros q Sq. rewrite (rsum_ext N _ (fun k => nth k (bary_weights N) 0 *
       (fun t => q (/ 2 * (b - a) * t + / 2 * (a + b))) (nth k x 0))).
    + apply (G6 (fun t => q (/ 2 * (b - a) * t + / 2 * (a + b)))). apply spanT_affine. exact Sq.
    + intros k Hk. rewrite V by exact Hk. reflexivity.
Qed.

Section Good.
Variables (N : nat) (x w : list R).
Hypothesis G : good_nodes N x w.
Let X k := nth k x 0.
Let W k := nth k w 0.

Lemma bary_identity q y : spanT N q -> (forall k, (k < N)%nat -> y <> X k) ->
  q y * rsum N (fun k => W k / (y - X k)) = rsum N (fun k => W k / (y - X k) * q (X k)).
Proof.
  intros Sq Hy. destruct G as [HN _ _ _ _ _ G6].
  replace N with (S (N - 1)) in Sq by lia.
  destruct (divdiff (N - 1) q y Sq) as [r [Sr Er]].
  rewrite <- rsum_scal. apply Rminus_diag_uniq. rewrite <- rsum_minus.
  rewrite <- (G6 r Sr). apply rsum_ext. intros k Hk. fold (W k). fold (X k). rewrite (Er (X k)). field.
  specialize (Hy k Hk). lra.
Qed.
Lemma bary_denom y : (forall k, (k < N)%nat -> y <> X k) -> rsum N (fun k => W k / (y - X k)) <> 0.
Proof.
  intros Hy E. destruct G as [HN _ _ G3 _ G5 _].
  destruct (G5 0%nat ltac:(lia)) as [q [Sq Eq]].
  assert (Q := bary_identity q y Sq Hy). rewrite E, Rmult_0_r in Q.
  rewrite (rsum_single N _ 0%nat) in Q; [|lia|].
  - unfold X in Q. rewrite Eq in Q by lia. cbn [Nat.eqb] in Q. fold (X 0%nat) in Q.
    apply (G3 0%nat); [lia|]. fold (W 0%nat). specialize (Hy 0%nat ltac:(lia)).
    apply (Rmult_eq_reg_r (/ (y - X 0%nat))); [unfold Rdiv in Q; lra|]. apply Rinv_neq_0_compat. lra.
  - intros k Hk Hne. unfold X at 2. rewrite Eq by exact Hk. destruct (Nat.eqb_spec k 0); [lia|]. ring.
Qed.

Lemma xsum_fin l s : fold_left xadd (map Fin l) (Fin s) = Fin (s + lsum l).
Proof.
  revert s. induction l as [|a l IH]; intros s; cbn; [f_equal; ring|].
  rewrite IH. f_equal. fold (lsum l). ring.
Qed.

(** the row for a point that is not a node *)
Lemma bary_row_generic y : (forall k, (k < N)%nat -> y <> X k) ->
  exists row, bary_row y x w = map Fin row /\ length row = N /\
    forall q, spanT N q -> rsum N (fun k => nth k row 0 * q (X k)) = q y.
Proof.
  intros Hy. assert (D := bary_denom y Hy).
  set (p := mk N (fun k => W k / (y - X k))).
  assert (EP : map (fun '(xk, wk) => xdiv0 wk (y - xk)) (combine x w) = map Fin p).
  { destruct G as [_ G1 G2 _ _ _ _]. apply (list_ext _ _ NaN).
    - rewrite !map_length, combine_length. unfold p. rewrite mk_length. lia.
    - intros k Hk. rewrite map_length, combine_length in Hk.
      rewrite (nth_map_combine_gen (fun xk wk => xdiv0 wk (y - xk)) x w 0 0) by lia.
      rewrite (nth_indep (map Fin p) NaN (Fin 0)) by (rewrite map_length; unfold p; rewrite mk_length; lia).
      rewrite map_nth. unfold p. rewrite nth_mk by lia. unfold xdiv0.
      fold (X k). fold (W k). destruct (Reqb (y - X k) 0) eqn:E; [|reflexivity].
      apply Reqb_true in E. exfalso. apply (Hy k); [lia|lra]. }
  unfold bary_row. rewrite EP. unfold xsum. rewrite xsum_fin.
  assert (Ls : lsum p = rsum N (fun k => W k / (y - X k))) by (unfold p; apply lsum_mk).
  rewrite Rplus_0_l, Ls. set (s := rsum N (fun k => W k / (y - X k))) in *.
  exists (map (fun a => a / s) p). split; [|split].
  - rewrite !map_map. apply map_ext. intros a. cbn. unfold xdiv0.
    destruct (Reqb s 0) eqn:E; [apply Reqb_true in E; contradiction|]. reflexivity.
  - rewrite map_length. apply mk_length.
  - intros q Sq. rewrite (rsum_ext N _ (fun k => W k / (y - X k) * q (X k) * / s)).
    + rewrite rsum_scal_r. rewrite <- bary_identity by assumption. fold s. field. exact D.
    + intros k Hk. rewrite nth_map_R by (unfold p; rewrite mk_length; exact Hk). unfold p. rewrite nth_mk by exact Hk.
      unfold Rdiv. ring.
Qed.

Lemma xsum_inf l : forall a, (a = PInf \/ a = NInf) -> (forall b, In b l -> exists r, b = Fin r) ->
  fold_left xadd l a = a.
Proof.
  induction l as [|b l IH]; intros a Ha Hl; [reflexivity|]. cbn [fold_left].
  destruct (Hl b (or_introl eq_refl)) as [r ->].
  replace (xadd a (Fin r)) with a by (destruct Ha; subst; reflexivity).
  apply IH; [exact Ha|]. intros; apply Hl; right; assumption.
Qed.
Lemma xsum_one_inf l i a : forall s, (i < length l)%nat -> nth i l NaN = a -> (a = PInf \/ a = NInf) ->
  (forall k, (k < length l)%nat -> k <> i -> exists r, nth k l NaN = Fin r) ->
  fold_left xadd l (Fin s) = a.
Proof.
  revert i. induction l as [|b l IH]; intros i s Hi E Ha H; [cbn in Hi; lia|].
  destruct i as [|i].
  - cbn in E. subst b. cbn [fold_left]. replace (xadd (Fin s) a) with a by (destruct Ha; subst; reflexivity).
    apply xsum_inf; [exact Ha|]. intros b Hb. destruct (In_nth l b NaN Hb) as [k [Hk Ek]].
    destruct (H (S k) ltac:(cbn; lia) ltac:(lia)) as [r Er]. exists r. cbn in Er. congruence.
  - cbn. destruct (H 0%nat ltac:(cbn; lia) ltac:(lia)) as [r Er]. cbn in Er. subst b. cbn [xadd].
    apply (IH i); [cbn in Hi; lia|exact E|exact Ha|]. intros k Hk Hne. apply (H (S k)); cbn; lia.
Qed.

(** the row for a node is a unit row *)
Lemma bary_row_node i : (i < N)%nat ->
  bary_row (X i) x w = map Fin (mk N (fun k => if Nat.eqb k i then 1 else 0)).
Proof.
  intros Hi. destruct G as [HN G1 G2 G3 G4 _ _]. unfold bary_row.
  set (P := map (fun '(xk, wk) => xdiv0 wk (X i - xk)) (combine x w)).
  assert (LP : length P = N) by (unfold P; rewrite map_length, combine_length; lia).
  assert (EP : forall k, (k < N)%nat -> nth k P NaN = xdiv0 (W k) (X i - X k)).
  { intros k Hk. unfold P. rewrite (nth_map_combine_gen (fun xk wk => xdiv0 wk (X i - xk)) x w 0 0) by lia. reflexivity. }
  set (a := nth i P NaN).
  assert (Ha : a = PInf \/ a = NInf).
  { unfold a. rewrite EP by exact Hi. unfold xdiv0. rewrite Rminus_diag_eq by reflexivity.
    replace (Reqb 0 0) with true by (symmetry; apply Reqb_true; reflexivity).
    destruct (Reqb (W i) 0) eqn:E0; [apply Reqb_true in E0; exfalso; apply (G3 i Hi); exact E0|].
    destruct (Rltb 0 (W i)); auto. }
  assert (Hf : forall k, (k < N)%nat -> k <> i -> exists r, nth k P NaN = Fin r).
  { intros k Hk Hne. rewrite EP by exact Hk. unfold xdiv0.
    destruct (Reqb (X i - X k) 0) eqn:E; [|eexists; reflexivity].
    apply Reqb_true in E. exfalso. apply (G4 i k Hi Hk); [lia|]. unfold X in E. lra. }
  assert (Es : xsum P = a).
  { unfold xsum. apply (xsum_one_inf P i a 0); [lia|reflexivity|exact Ha|]. intros k Hk. apply Hf. lia. }
  rewrite Es. apply (list_ext _ _ NaN); [rewrite !map_length, mk_length; exact LP|].
  intros k Hk. rewrite map_length, LP in Hk.
  rewrite (nth_indep _ NaN (nan_to_one (xdiv NaN a))) by (rewrite map_length; lia).
  rewrite (map_nth (fun p => nan_to_one (xdiv p a))).
  rewrite (nth_indep (map Fin _) NaN (Fin 0)) by (rewrite map_length, mk_length; exact Hk).
  rewrite map_nth, nth_mk by exact Hk.
  destruct (Nat.eqb_spec k i) as [->|Hne].
  - fold a. destruct Ha as [-> | ->]; reflexivity.
  - destruct (Hf k Hk Hne) as [r ->]. destruct Ha as [-> | ->]; reflexivity.
Qed.

(** evaluation of every polynomial of degree below N at every point *)
Lemma bary_row_correct y : exists row, bary_row y x w = map Fin row /\ length row = N /\
    forall q, spanT N q -> rsum N (fun k => nth k row 0 * q (X k)) = q y.
Proof.
  assert (D : (exists i, (i < N)%nat /\ y = X i) \/ forall k, (k < N)%nat -> y <> X k).
  { generalize N. intros n; induction n as [|n [[i [Hi E]]|IH]].
    - right. intros; lia.
    - left. exists i. split; [lia|exact E].
    - destruct (Req_EM_T y (X n)) as [E|E]; [left; exists n; split; [lia|exact E]|].
      right. intros k Hk. destruct (Nat.eq_dec k n) as [->|]; [exact E|apply IH; lia]. }
  destruct D as [[i [Hi ->]]|D]; [|apply bary_row_generic; exact D].
  exists (mk N (fun k => if Nat.eqb k i then 1 else 0)).
  split; [apply bary_row_node; exact Hi|]. split; [apply mk_length|].
  intros q _. rewrite (rsum_single N _ i Hi).
  - rewrite nth_mk by exact Hi. rewrite Nat.eqb_refl. ring.
  - intros k Hk Hne. rewrite nth_mk by exact Hk. destruct (Nat.eqb_spec k i); [contradiction|]. ring.
Qed.
End Good.

(** ** Differentiation matrices *)
Lemma ex_derive_n_evalT c n x : ex_derive_n (evalT c) n x.
Proof.
  destruct n as [|n]; [exact I|].
  destruct (Nat.lt_ge_cases (S n) (length c)) as [H|H].
  - apply (is_derive_n_evalT (S n)) with (x := x) in H. exists (evalT (der_n (S n) c) x). exact H.
  - destruct c as [|a c].
    + apply ex_derive_n_ext with (f := fun _ => 0); [reflexivity|]. apply ex_derive_n_const.
    + exists 0. apply (is_derive_n_evalT_zero (S n)); cbn in *; lia.
Qed.
Lemma ex_derive_n_spanT n q k x : spanT n q -> ex_derive_n q k x.
Proof. intros [c [_ E]]. apply ex_derive_n_ext with (f := evalT c); [intros; symmetry; apply E|]. apply ex_derive_n_evalT. Qed.
Lemma Derive_n_linmul n q a k x : spanT n q ->
  Derive_n (fun t => (t - a) * q t) k x = (x - a) * Derive_n q k x + INR k * Derive_n q (k - 1) x.
Proof.
  intros Sq. revert x. induction k as [|k IH]; intros x.
  - cbn. ring.
  - cbn [Derive_n]. rewrite (Derive_ext _ _ _ IH). rewrite S_INR.
    replace (S k - 1)%nat with k by lia.
    assert (D1 : is_derive (Derive_n q k) x (Derive_n q (S k) x)).
    { cbn [Derive_n]. apply Derive_correct. apply (ex_derive_n_spanT n q (S k) x Sq). }
    apply is_derive_unique.
    assert (D2 : is_derive (fun t => (t - a) * Derive_n q k t) x (Derive_n q k x + (x - a) * Derive_n q (S k) x)).
    { evar_last; [apply (is_derive_mult (fun t => t - a) (Derive_n q k) x 1 (Derive_n q (S k) x))|].
      - auto_derive; [exact I|ring].
      - exact D1.
      - intros; apply Rmult_comm.
      - unfold plus, mult; cbn. ring. }
    destruct k as [|k].
    + cbn [INR Derive_n] in *. evar_last.
      * apply (is_derive_ext (fun t => (t - a) * q t)); [|exact D2]. intros t. req. ring.
      * req. ring.
    + replace (S k - 1)%nat with k in * by lia.
      assert (D3 : is_derive (Derive_n q k) x (Derive_n q (S k) x)).
      { cbn [Derive_n]. apply Derive_correct. apply (ex_derive_n_spanT n q (S k) x Sq). }
      evar_last; [apply (is_derive_plus (fun t => (t - a) * Derive_n q (S k) t) (fun t => INR (S k) * Derive_n q k t))|].
      * exact D2.
      * apply (is_derive_scal (Derive_n q k) x (INR (S k))). exact D3.
      * unfold plus; cbn -[INR Derive_n]. req. change (Derive (Derive_n q (S k)) x) with (Derive_n q (S (S k)) x). ring.
Qed.

Section Diffmat.
Variables (N : nat) (x : list R).
Let w := bary_weights N.
Hypothesis G : good_nodes N x w.
(** the grid is symmetric about its midpoint *)
Variable m : R.
Hypothesis Sym : forall i, (i < N)%nat -> nth (N - 1 - i) x 0 = m - nth i x 0.
Variable ell : nat -> R -> R.
Hypothesis Sell : forall j, (j < N)%nat -> spanT N (ell j).
Hypothesis Eell : forall i j, (i < N)%nat -> (j < N)%nat -> ell j (nth i x 0) = if Nat.eqb i j then 1 else 0.
Let X k := nth k x 0.
Let W k := nth k w 0.

Lemma spanT_lagrange q t : spanT N q -> q t = rsum N (fun j => q (X j) * ell j t).
Proof.
  intros Sq. destruct (bary_row_correct N x w G t) as [row [_ [_ H]]].
  rewrite <- (H q Sq). transitivity (rsum N (fun j => q (X j) * rsum N (fun k => nth k row 0 * ell j (X k)))).
  2:{ apply rsum_ext. intros j Hj. f_equal. apply H, Sell, Hj. }
  rewrite (rsum_ext N (fun j => q (X j) * _) (fun j => rsum N (fun k => q (X j) * (nth k row 0 * ell j (X k)))))
    by (intros; symmetry; apply rsum_scal).
  rewrite rsum_swap. apply rsum_ext. intros k Hk. rewrite (rsum_single N _ k Hk).
  - unfold X. rewrite Eell by exact Hk. rewrite Nat.eqb_refl. ring.
  - intros j Hj Hne. unfold X. rewrite Eell by assumption. destruct (Nat.eqb_spec k j); [lia|]. ring.
Qed.

Lemma ell_cross i j t : (i < N)%nat -> (j < N)%nat -> i <> j ->
  W i * ((t - X j) * ell j t) = W j * ((t - X i) * ell i t).
Proof.
  intros Hi Hj Hne.
  assert (D : (exists k, (k < N)%nat /\ t = X k) \/ forall k, (k < N)%nat -> t <> X k).
  { generalize N. intros n; induction n as [|n [[k [Hk E]]|IH]].
    - right. intros; lia.
    - left. exists k. split; [lia|exact E].
    - destruct (Req_EM_T t (X n)) as [E|E]; [left; exists n; split; [lia|exact E]|].
      right. intros k Hk. destruct (Nat.eq_dec k n) as [->|]; [exact E|apply IH; lia]. }
  destruct D as [[k [Hk ->]]|D].
  - unfold X. rewrite !Eell by assumption.
    destruct (Nat.eqb_spec k j), (Nat.eqb_spec k i); subst; try lia; ring.
  - assert (S0 := bary_denom N x w G t D).
    assert (F : forall l, (l < N)%nat -> ell l t * rsum N (fun k => W k / (t - X k)) = W l / (t - X l)).
    { intros l Hl. transitivity (rsum N (fun k => nth k w 0 / (t - nth k x 0) * ell l (nth k x 0)));
        [exact (bary_identity N x w G (ell l) t (Sell l Hl) D)|].
      rewrite (rsum_single N _ l Hl).
      - rewrite Eell by exact Hl. rewrite Nat.eqb_refl. unfold W, X. ring.
      - intros k Hk Hkl. rewrite Eell by assumption. destruct (Nat.eqb_spec k l); [contradiction|]. ring. }
    set (s := rsum N (fun k => W k / (t - X k))) in *.
    apply (Rmult_eq_reg_r s); [|exact S0].
    replace (W i * ((t - X j) * ell j t) * s) with (W i * (t - X j) * (ell j t * s)) by ring.
    replace (W j * ((t - X i) * ell i t) * s) with (W j * (t - X i) * (ell i t * s)) by ring.
    rewrite !F by assumption. field. specialize (D i Hi) as D1. specialize (D j Hj) as D2. split; lra.
Qed.

(** derivative of the cardinal functions at the nodes *)
Let E k i j := Derive_n (ell j) k (X i).
Lemma ell_rec k i j : (1 <= k)%nat -> (i < N)%nat -> (j < N)%nat -> i <> j ->
  E k i j = INR k / (X i - X j) * (W j / W i * E (k - 1) i i - E (k - 1) i j).
Proof.
  intros Hk Hi Hj Hne.
  assert (Hw : W i <> 0) by (destruct G as [_ _ _ G3 _ _ _]; apply G3; exact Hi).
  assert (Hx : X i - X j <> 0) by (destruct G as [_ _ _ _ G4 _ _]; specialize (G4 i j Hi Hj Hne); unfold X; lra).
  assert (C : Derive_n (fun t => W i * ((t - X j) * ell j t)) k (X i) = Derive_n (fun t => W j * ((t - X i) * ell i t)) k (X i)).
  { apply Derive_n_ext. intros t. apply ell_cross; assumption. }
  rewrite !Derive_n_scal_l in C.
  rewrite (Derive_n_linmul N (ell j)) in C by (apply Sell; exact Hj).
  rewrite (Derive_n_linmul N (ell i)) in C by (apply Sell; exact Hi).
  fold (E k i j) (E (k-1) i j) (E k i i) (E (k-1) i i) in C.
  apply (Rmult_eq_reg_l (W i * (X i - X j))); [|apply Rmult_integral_contrapositive; split; assumption].
  replace (W i * (X i - X j) * (INR k / (X i - X j) * (W j / W i * E (k - 1) i i - E (k - 1) i j)))
    with (INR k * W j * E (k-1) i i - INR k * W i * E (k-1) i j) by (field; split; assumption).
  replace (X i - X i) with 0 in C by ring. lra.
Qed.
Lemma ell_rowsum k i : (1 <= k)%nat -> (i < N)%nat -> rsum N (fun j => E k i j) = 0.
Proof.
  intros Hk Hi. destruct G as [HN _ _ _ _ _ _].
  assert (S1 : spanT N (fun _ => 1)) by (apply spanT_ext with (T 0); [reflexivity|]; apply spanT_T; lia).
  assert (P : forall k, Derive_n (fun t => rsum N (fun j => ell j t)) k (X i) = rsum N (fun j => Derive_n (ell j) k (X i))).
  { clear k Hk. intros k. revert Sell. generalize N. intros n Sell0. generalize (X i).
    assert (Hind : forall p, (p <= n)%nat -> forall y, Derive_n (fun t => rsum p (fun j => ell j t)) k y = rsum p (fun j => Derive_n (ell j) k y) ).
    { induction p as [|p IH]; intros Hp y.
      - cbn [rsum]. destruct k; [reflexivity|]. rewrite Derive_n_const. reflexivity.
      - cbn [rsum]. rewrite <- IH by lia. apply Derive_n_plus.
        + exists (mkposreal 1 Rlt_0_1). intros z _ l Hl. apply (ex_derive_n_spanT n).
          apply spanT_rsum. intros q Hq. apply Sell0. lia.
        + exists (mkposreal 1 Rlt_0_1). intros z _ l Hl. apply (ex_derive_n_spanT n). apply Sell0. lia. }
    intros y. apply Hind. lia. }
  unfold E. rewrite <- P. rewrite (Derive_n_ext _ (fun _ => 1)).
  - destruct k; [lia|]. apply Derive_n_const.
  - intros t. rewrite (spanT_lagrange (fun _ => 1) t S1). apply rsum_ext. intros; ring.
Qed.

Definition mateq (D D' : mat) : Prop := forall i j, (i < N)%nat -> (j < N)%nat -> D i j = D' i j.

Lemma Dxi_off i j : (i < N)%nat -> (j < N)%nat -> i <> j -> dm_Dxi x i j = / (X i - X j).
Proof.
  intros Hi Hj Hne. unfold dm_Dxi, dm_Dx. destruct G as [HN G1 _ _ _ _ _]. rewrite G1.
  destruct (Nat.eqb_spec i j); [contradiction|].
  destruct (Nat.leb N (i + j)).
  - rewrite !Sym by assumption. fold (X i) (X j). unfold Rdiv. rewrite Rmult_1_l. f_equal. ring.
  - fold (X i) (X j). unfold Rdiv. ring.
Qed.
Lemma Dw_off i j : i <> j -> dm_Dw w i j = W j / W i.
Proof. intros H. unfold dm_Dw. destruct (Nat.eqb_spec i j); [contradiction|]. reflexivity. Qed.

Lemma rsum_split_at n f i : (i < n)%nat -> rsum n f = f i + rsum n (fun k => if Nat.eqb i k then 0 else f k).
Proof.
  intros Hi. replace (f i) with (rsum n (fun k => if Nat.eqb i k then f k else 0)).
  - rewrite <- rsum_plus. apply rsum_ext. intros k _. destruct (Nat.eqb i k); ring.
  - rewrite (rsum_single n _ i Hi); [rewrite Nat.eqb_refl; reflexivity|].
    intros k _ Hne. destruct (Nat.eqb_spec i k); [congruence|reflexivity].
Qed.
Lemma neg_sum_ell k D : (1 <= k)%nat ->
  (forall i j, (i < N)%nat -> (j < N)%nat -> i <> j -> D i j = E k i j) -> mateq (neg_sum N D) (E k).
Proof.
  intros Hk H i j Hi Hj. unfold neg_sum. destruct (Nat.eqb_spec i j) as [<-|Hne]; [|apply H; assumption].
  assert (R := ell_rowsum k i Hk Hi). rewrite (rsum_split_at N _ i Hi) in R.
  rewrite (rsum_ext N (fun k0 => if Nat.eqb i k0 then 0 else D i k0) (fun k0 => if Nat.eqb i k0 then 0 else E k i k0)).
  - lra.
  - intros l Hl. destruct (Nat.eqb_spec i l); [reflexivity|]. apply H; assumption.
Qed.
Lemma E0 i j : (i < N)%nat -> (j < N)%nat -> E 0 i j = if Nat.eqb i j then 1 else 0.
Proof. intros. unfold E. cbn. apply Eell; assumption. Qed.

Lemma dm_loop_ell s : forall n D, (2 <= n)%nat -> mateq D (E (n - 1)) ->
  mateq (dm_loop s n N (dm_Dxi x) (dm_Dw w) D) (E (n - 1 + s)).
Proof.
  induction s as [|s IH]; intros n D Hn HD; cbn [dm_loop].
  - rewrite Nat.add_0_r. exact HD.
  - replace (n - 1 + S s)%nat with (S n - 1 + s)%nat by lia. apply IH; [lia|].
    replace (S n - 1)%nat with n by lia. apply neg_sum_ell; [lia|].
    intros i j Hi Hj Hne. rewrite Dxi_off, Dw_off by assumption. rewrite !HD by assumption.
    rewrite (ell_rec n) by (try assumption; lia). unfold Rdiv. ring.
Qed.

Lemma diffmat_ell k : mateq (diffmat x k) (E k).
Proof.
  destruct G as [HN G1 _ _ _ _ _].
  unfold diffmat. rewrite G1. fold w.
  destruct k as [|k].
  { intros i j Hi Hj. rewrite E0 by assumption. reflexivity. }
  set (D1 := neg_sum N (fun i j => dm_Dw w i j * dm_Dxi x i j)).
  assert (H1 : mateq D1 (E 1)).
  { apply neg_sum_ell; [lia|]. intros i j Hi Hj Hne. rewrite Dxi_off, Dw_off by assumption.
    rewrite (ell_rec 1) by (try assumption; lia). cbn [Nat.sub]. rewrite !E0 by assumption.
    rewrite Nat.eqb_refl. destruct (Nat.eqb_spec i j); [contradiction|]. cbn [INR]. unfold Rdiv. ring. }
  destruct k as [|k]; [exact H1|].
  assert (H2 : mateq (neg_sum N (fun i j => 2 * D1 i j * (D1 i i - dm_Dxi x i j))) (E 2)).
  { apply neg_sum_ell; [lia|]. intros i j Hi Hj Hne. rewrite !H1 by assumption. rewrite Dxi_off by assumption.
    rewrite (ell_rec 2) by (try assumption; lia). change (2 - 1)%nat with 1%nat.
    assert (Hw : W i <> 0) by (destruct G as [_ _ _ G3 _ _ _]; apply G3; exact Hi).
    assert (Hx : X i - X j <> 0) by (destruct G as [_ _ _ _ G4 _ _]; specialize (G4 i j Hi Hj Hne); unfold X; lra).
    assert (R1 : E 1 i j = 1 / (X i - X j) * (W j / W i)).
    { rewrite (ell_rec 1) by (try assumption; lia). cbn [Nat.sub]. rewrite !E0 by assumption.
      rewrite Nat.eqb_refl. destruct (Nat.eqb_spec i j); [contradiction|]. cbn [INR]. ring. }
    rewrite R1. change (INR 2) with 2. field. split; assumption. }
  replace (E (S (S k))) with (E (3 - 1 + k)) by (f_equal; lia).
  apply dm_loop_ell; [lia|exact H2].
Qed.

Lemma diffmat_apply k q i : spanT N q -> (i < N)%nat ->
  rsum N (fun j => diffmat x k i j * q (X j)) = Derive_n q k (X i).
Proof.
  intros Sq Hi.
  rewrite (rsum_ext N _ (fun j => q (X j) * E k i j)).
  2:{ intros j Hj. rewrite diffmat_ell by assumption. ring. }
  assert (Hind : forall p, (p <= N)%nat -> forall y, Derive_n (fun t => rsum p (fun j => q (X j) * ell j t)) k y = rsum p (fun j => q (X j) * Derive_n (ell j) k y) ).
  { induction p as [|p IH]; intros Hp y.
    - cbn [rsum]. destruct k; [reflexivity|]. rewrite Derive_n_const. reflexivity.
    - cbn [rsum]. rewrite <- IH by lia. rewrite <- Derive_n_scal_l. apply Derive_n_plus.
      + exists (mkposreal 1 Rlt_0_1). intros z _ l Hl. apply (ex_derive_n_spanT N).
        apply spanT_rsum. intros r Hr. apply spanT_scal. apply Sell. lia.
      + exists (mkposreal 1 Rlt_0_1). intros z _ l Hl. apply (ex_derive_n_spanT N). apply spanT_scal, Sell. lia. }
  unfold E. rewrite <- (Hind N (le_n _)). apply Derive_n_ext. intros t. symmetry. apply spanT_lagrange. exact Sq.
Qed.
End Diffmat.

(** existence of the cardinal functions as a family *)
Lemma scaled_nth N a b i : a < b -> (i < N)%nat ->
  nth i (scaleNodes (chebpts_type2_compute N) a b) 0 = / 2 * (b - a) * nth i (chebpts_type2_compute N) 0 + / 2 * (a + b).
Proof.
  intros Hab Hi. unfold scaleNodes. destruct (Reqb a (-1) && Reqb b 1) eqn:Ez.
  - apply andb_true_iff in Ez. destruct Ez as [E1 E2]. apply Reqb_true in E1, E2. subst. field.
  - rewrite nth_map_R by (rewrite chebpts_length; exact Hi). field.
Qed.
Lemma chebpts_sym N i : (2 <= N)%nat -> (i < N)%nat ->
  nth (N - 1 - i) (chebpts_type2_compute N) 0 = - nth i (chebpts_type2_compute N) 0.
Proof.
  intros HN Hi. rewrite !chebpts_nth by lia. assert (INR (N - 1) <> 0) by (apply not_0_INR; lia).
  replace (N - 1 - (N - 1 - i))%nat with i by lia. rewrite (minus_INR (N - 1) i) by lia.
  replace (PI * (INR (N - 1) - INR i) / INR (N - 1)) with (PI - PI * INR i / INR (N - 1)) by (field; assumption).
  rewrite cos_minus, cos_PI, sin_PI. ring.
Qed.
Definition ellf (N : nat) (a b : R) (j : nat) (y : R) : R :=
  evalT (polyfit1 (mk N (fun i => if Nat.eqb i j then 1 else 0))) (2 / (b - a) * y + (- (a + b) / (b - a))).

Lemma diffmat_correct N a b k q i : (2 <= N)%nat -> a < b -> spanT N q -> (i < N)%nat ->
  let x := scaleNodes (chebpts_type2_compute N) a b in
  rsum N (fun j => diffmat x k i j * q (nth j x 0)) = Derive_n q k (nth i x 0).
Proof.
  intros HN Hab Sq Hi x.
  apply (diffmat_apply N x (scaled_good N a b HN Hab) (a + b)) with (ell := ellf N a b); [| | |exact Sq|exact Hi].
  - intros j Hj. unfold x. rewrite !scaled_nth by (try assumption; lia). rewrite chebpts_sym by assumption. field.
  - intros j Hj. unfold ellf. apply (spanT_affine N (evalT _)). apply spanT_evalT. rewrite polyfit1_length, mk_length. lia.
  - intros l j Hl Hj. unfold ellf, x. rewrite scaled_nth by assumption.
    set (v := mk N (fun i => if Nat.eqb i j then 1 else 0)). assert (Lv : length v = N) by apply mk_length.
    replace (2 / (b - a) * (/ 2 * (b - a) * nth l (chebpts_type2_compute N) 0 + / 2 * (a + b)) + - (a + b) / (b - a))
      with (nth l (chebpts_type2_compute N) 0) by (field; lra).
    transitivity (nth l (polyval1 (polyfit1 v)) 0).
    + rewrite polyval1_spec by (rewrite polyfit1_length; lia). rewrite polyfit1_length, Lv. reflexivity.
    + rewrite polyval_polyfit by lia. unfold v. rewrite nth_mk by exact Hl. reflexivity.
Qed.

Lemma barymat_correct N a b y : (2 <= N)%nat -> a < b ->
  let x := scaleNodes (chebpts_type2_compute N) a b in
  exists row, bary_row y x (bary_weights N) = map Fin row /\ length row = N /\
    forall q, spanT N q -> rsum N (fun k => nth k row 0 * q (nth k x 0)) = q y.
Proof. intros HN Hab x. apply (bary_row_correct N). apply scaled_good; assumption. Qed.

(** quadrature on [a,b] *)
Lemma chebpts2_quadrature N a b q : (2 <= N)%nat -> a < b -> spanT N q ->
  exists x w, chebpts2 N a b = Some (x, w) /\ length x = N /\ length w = N /\
    is_RInt q a b (rsum N (fun j => nth j w 0 * q (nth j x 0))).
Proof.
  intros HN Hab Sq. destruct (quadwts_some N ltac:(lia)) as [w [Ew Lw]].
  unfold chebpts2. rewrite Ew.
  exists (scaleNodes (chebpts_type2_compute N) a b), (scaleWeights w a b).
  split; [reflexivity|]. split; [unfold scaleNodes; destruct (_ && _); rewrite ?map_length, chebpts_length; reflexivity|].
  split; [unfold scaleWeights; destruct (_ && _); rewrite ?map_length; exact Lw|].
  assert (Hw : forall j, (j < N)%nat -> nth j (scaleWeights w a b) 0 = / 2 * (b - a) * nth j w 0).
  { intros j Hj. unfold scaleWeights. destruct (Reqb a (-1) && Reqb b 1) eqn:Ez.
    - apply andb_true_iff in Ez. destruct Ez as [E1 E2]. apply Reqb_true in E1, E2. subst. field.
    - rewrite nth_map_R by lia. reflexivity. }
  set (u := / 2 * (b - a)). set (v := / 2 * (a + b)).
  assert (Q := quadwts_exact N w (fun t => q (u * t + v)) ltac:(lia) Ew (spanT_affine N q u v Sq)).
  assert (Hu : u <> 0) by (unfold u; lra).
  assert (Q2 : is_RInt (fun y => scal (/ u) (q (u * (/ u * y + - (v / u)) + v))) a b
      (rsum N (fun j => nth j w 0 * q (u * nth j (chebpts_type2_compute N) 0 + v)))).
  { apply (is_RInt_comp_lin (fun t => q (u * t + v)) (/ u) (- (v / u)) a b).
    replace (/ u * a + - (v / u)) with (-1) by (unfold u, v; field; lra).
    replace (/ u * b + - (v / u)) with 1 by (unfold u, v; field; lra). exact Q. }
  apply (is_RInt_scal _ a b u) in Q2.
  evar_last; [eapply is_RInt_ext; [|exact Q2]|].
  - intros y _. unfold scal; cbn. unfold mult; cbn. rewrite <- Rmult_assoc, Rinv_r, Rmult_1_l by exact Hu.
    f_equal. field. exact Hu.
  - unfold scal; cbn. unfold mult; cbn. rewrite <- rsum_scal. apply rsum_ext. intros j Hj.
    rewrite Hw, scaled_nth by assumption. fold u v. ring.
Qed.

(** the first-kind rule carries the weights of the second-kind points *)
Lemma quadwts_3 : exists w0 w1, quadwts 3 = Some [w0; w1; w0] /\ w0 = / 3.
Proof.
  destruct (quadwts_some 3 ltac:(lia)) as [w [E L]].
  assert (S3 := quadwts_sym 3 w 0 E ltac:(lia)). cbn [Nat.sub] in S3.
  assert (Q1 := quadwts_exact 3 w (T 0) ltac:(lia) E (spanT_T 3 0 ltac:(lia))).
  assert (Q2 := quadwts_T 3 w 2 ltac:(lia) E ltac:(lia)).
  assert (Q0 := quadwts_T 3 w 0 ltac:(lia) E ltac:(lia)). clear Q1.
  destruct w as [|w0 [|w1 [|w2 [|w3 w]]]]; try discriminate L. cbn [nth] in S3. subst w2.
  exists w0, w1. split; [exact E|].
  cbn [rsum nth] in Q2, Q0.
  assert (X : forall j, (j < 3)%nat -> nth j (chebpts_type2_compute 3) 0 = cos (PI * INR (2 - j) / INR 2)) by (intros; apply chebpts_nth; lia).
  rewrite !X in Q2 by lia. rewrite !X in Q0 by lia. change (INR (2 - 0)) with 2 in *. change (INR (2 - 1)) with 1 in *. change (INR (2 - 2)) with 0 in *.
  change (INR 2) with 2 in *.
  replace (PI * 2 / 2) with PI in * by field. replace (PI * 1 / 2) with (PI / 2) in * by field.
  replace (PI * 0 / 2) with 0 in * by field. rewrite cos_PI, cos_PI2, cos_0 in *.
  unfold moment in *. cbn [Nat.even] in *. cbn [T INR] in *. lra.
Qed.
Lemma type1_quadrature_wrong : exists x w, chebpts1 3 (-1) 1 = Some (x, w) /\
  is_RInt (fun t => t * t) (-1) 1 (2 / 3) /\ rsum 3 (fun j => nth j w 0 * (nth j x 0 * nth j x 0)) = / 2.
Proof.
  destruct quadwts_3 as [w0 [w1 [E H0]]]. unfold chebpts1. rewrite E.
  assert (R : Reqb (-1) (-1) && Reqb 1 1 = true).
  { apply andb_true_iff. split; apply Reqb_true; reflexivity. }
  unfold scaleNodes, scaleWeights. rewrite R. do 2 eexists. split; [reflexivity|]. split.
  - evar_last; [apply (is_RInt_derive (fun t => t ^ 3 / 3) (fun t => t * t))|].
    + intros t _. auto_derive; [exact I|]. field.
    + intros t _. apply (ex_derive_continuous (fun t => t * t)). auto_derive. exact I.
    + unfold minus, plus, opp; cbn. field.
  - cbn [rsum nth chebpts_type1_compute]. rewrite !nth_mk by lia.
    change (INR (3 - 1)) with 2. change (INR 0) with 0. change (INR 1) with 1. change (INR 2) with 2. change (INR 3) with (1 + 1 + 1).
    replace (PI * (2 * 0 - 2) / (2 * (1 + 1 + 1))) with (- (PI / 3)) by field.
    replace (PI * (2 * 1 - 2) / (2 * (1 + 1 + 1))) with 0 by field.
    replace (PI * (2 * 2 - 2) / (2 * (1 + 1 + 1))) with (PI / 3) by field.
    rewrite sin_neg, sin_0, sin_PI3. subst w0.
    assert (Q := sqrt_sqrt 3 ltac:(lra)). set (s := sqrt 3) in *.
    replace (0 + / 3 * (- (s / 2) * - (s / 2)) + w1 * (0 * 0) + / 3 * (s / 2 * (s / 2))) with (/ 6 * (s * s)) by field.
    rewrite Q. field.
Qed.
