(** C175, C176: the remaining helpers of support/tools.py. *)
From Coq Require Import Reals List Arith Lia Lra ZArith.
From Coquelicot Require Import Coquelicot.
From Flocq Require Import Core.
From Verif Require Import Base ChebSpec ChebMath ChebModel ChebEval ChebCalc FunModel.
Import ListNotations.
Open Scope R_scope.

Definition sgn (r : R) : R := if Rlt_dec 0 r then 1 else if Rlt_dec r 0 then -1 else 0.
(** support/tools.py 57-74, orientation_y: [c] is the first column of u.  The sign
    is that of the only coefficient or of the value at the left end (fun.py passes
    lval on to chebtech.py 285-288). *)
Definition orientation_y (c : list R) : R :=
  if Nat.eqb (length c) 1 then sgn (nth 0 c 0) else sgn (lval1 c).

(** The function on [a, b] with these coefficients, and its integral. *)
Definition on (a b : R) (c : list R) (x : R) : R := evalT c ((2 * x - a - b) / (b - a)).

Lemma sgn_pos r : 0 < r -> sgn r = 1.
Proof. intros. unfold sgn. destruct (Rlt_dec 0 r); [reflexivity|lra]. Qed.
Lemma sgn_neg r : r < 0 -> sgn r = -1.
Proof. intros. unfold sgn. destruct (Rlt_dec 0 r); [lra|]. destruct (Rlt_dec r 0); [reflexivity|lra]. Qed.
Lemma sgn_zero : sgn 0 = 0.
Proof. unfold sgn. destruct (Rlt_dec 0 0); [lra|]. destruct (Rlt_dec 0 0); [lra|reflexivity]. Qed.
Lemma sgn_opp r : sgn (- r) = - sgn r.
Proof.
  destruct (Rtotal_order r 0) as [H|[-> |H]].
  - rewrite (sgn_neg r), sgn_pos by lra. lra.
  - rewrite Ropp_0, sgn_zero. lra.
  - rewrite (sgn_pos r), sgn_neg by lra. lra.
Qed.
Lemma orient_left c : orientation_y c = sgn (evalT c (-1)).
Proof.
  unfold orientation_y. destruct (Nat.eqb_spec (length c) 1) as [E|E]; [|now rewrite lval1_eval].
  destruct c as [|r [|]]; try discriminate. f_equal. unfold evalT. cbn. ring.
Qed.
Lemma on_left a b c : a < b -> on a b c a = evalT c (-1).
Proof. intros. unfold on. f_equal. field. lra. Qed.
Lemma on_cont a b c x : a < b -> continuous (on a b c) x.
Proof.
  intros H. unfold on. apply (continuous_comp (fun x => (2 * x - a - b) / (b - a)) (evalT c)).
  - apply (ex_derive_continuous (K := R_AbsRing) (V := R_NormedModule)). auto_derive. lra.
  - apply continuous_evalT.
Qed.

(** It is the sign of the function at the left end, for all functions ... *)
Theorem C175_left a b c : a < b -> orientation_y c = sgn (on a b c a).
Proof. intros H. rewrite on_left by exact H. apply orient_left. Qed.
Print Assumptions C175_left.
(** ... and turns with the function. *)
Theorem C175_turns c : orientation_y (map Ropp c) = - orientation_y c.
Proof.
  rewrite !orient_left. rewrite <- sgn_opp. f_equal. unfold evalT.
  replace (- rsum (length c) (fun k => nth k c 0 * T k (-1))) with (rsum (length c) (fun k => -1 * (nth k c 0 * T k (-1)))) by (rewrite rsum_scal; ring).
  rewrite map_length. apply rsum_ext. intros k Hk. replace (nth k (map Ropp c) 0) with (- nth k c 0); [ring|]. rewrite <- Ropp_0 at 2. rewrite map_nth. reflexivity.
Qed.
Print Assumptions C175_turns.
(** It is the sign of the integral, as the documentation has it, if the function
    keeps one sign. *)
Theorem C175_one_sign_partial a b c : a < b ->
  (forall x, a <= x < b -> 0 < on a b c x) \/ (forall x, a <= x < b -> on a b c x < 0) ->
  orientation_y c = sgn (RInt (on a b c) a b).
Proof.
  intros H [P|P]; rewrite (C175_left a b c H).
  - rewrite !sgn_pos; [reflexivity| |apply P; lra]. apply RInt_gt_0; [exact H|intros; apply P; lra|intros; apply on_cont, H].
  - rewrite !sgn_neg; [reflexivity| |apply P; lra].
    assert (X : 0 < RInt (fun x => - on a b c x) a b). { apply RInt_gt_0; [exact H|intros; cbv beta; enough (on a b c x < 0) by lra; apply P; lra|]. intros. apply (continuous_opp (V := R_NormedModule)), on_cont, H. }
    assert (I : @eq R (RInt (fun x => - on a b c x) a b) (- RInt (on a b c) a b)).
    { apply (RInt_opp (V := R_CompleteNormedModule)). apply (ex_RInt_continuous (V := R_CompleteNormedModule)). intros. apply on_cont, H. }
    rewrite I in X. lra.
Qed.
Print Assumptions C175_one_sign_partial.
Example C175_one_sign_ex : (forall x, 0 <= x < 2 -> 0 < on 0 2 [2; 1] x) /\ orientation_y [2; 1] = 1.
Proof.
  assert (E : forall x, on 0 2 [2; 1] x = 1 + x) by (intros; unfold on, evalT; cbn; field).
  split; [intros x Hx; rewrite E; lra|]. rewrite (C175_left 0 2) by lra. rewrite E. apply sgn_pos. lra.
Qed.
Lemma int_lin p q : RInt (on (-1) 1 [p; q]) (-1) 1 = 2 * p.
Proof.
  apply is_RInt_unique. apply (is_RInt_ext (fun x => p + q * x)). { intros x _. unfold on, evalT. cbn. field. }
  assert (D : is_RInt (fun x => p + q * x) (-1) 1 (minus ((fun x => p * x + q * x ^ 2 / 2) 1) ((fun x => p * x + q * x ^ 2 / 2) (-1)))).
  { apply (is_RInt_derive (V := R_CompleteNormedModule) (fun x => p * x + q * x ^ 2 / 2)).
    - intros x _. auto_derive; [exact I|]. field.
    - intros x _. apply (ex_derive_continuous (K := R_AbsRing) (V := R_NormedModule)). auto_derive. exact I. }
  replace (2 * p) with (minus ((fun x => p * x + q * x ^ 2 / 2) 1) ((fun x => p * x + q * x ^ 2 / 2) (-1))); [exact D|]. unfold minus, plus, opp. cbn. field.
Qed.
(** In general it is not: 1 + 2x has integral 2 and orientation -1, and 1 + x is
    not zero but has orientation 0. *)
Theorem C175_refuted :
  orientation_y [1; 2] = -1 /\ sgn (RInt (on (-1) 1 [1; 2]) (-1) 1) = 1
  /\ orientation_y [1; 1] = 0 /\ sgn (RInt (on (-1) 1 [1; 1]) (-1) 1) = 1.
Proof.
  rewrite !int_lin, !orient_left. replace (evalT [1; 2] (-1)) with (-1) by (unfold evalT; cbn; ring). replace (evalT [1; 1] (-1)) with 0 by (unfold evalT; cbn; ring).
  rewrite sgn_neg, sgn_pos, sgn_zero by lra. auto.
Qed.
Print Assumptions C175_refuted.

(** support/tools.py 87-90, theta_interp; the argument wd is not used.  np.round
    to three decimals rounds halves to even; the arithmetic is exact here. *)
Definition radix10 : radix := Build_radix 10 eq_refl.
Definition round3 (r : R) : R := round radix10 (FIX_exp (-3)) ZnearestE r.
Definition theta_interp (s1 s2 kappa kc : R) : R :=
  round3 (/ 2 * (tanh (- (kappa - kc) / (3 / 10)) + 1) * s1 + / 2 * (tanh ((kappa - kc) / (3 / 10)) + 1) * s2).

Lemma tanh_form x : tanh x = 1 - 2 / (exp (2 * x) + 1).
Proof.
  unfold tanh, sinh, cosh. replace (2 * x) with (x + x) by ring. rewrite exp_plus, exp_Ropp. pose proof (exp_pos x). field. split; nra.
Qed.
Lemma tanh_bounds x : -1 < tanh x < 1.
Proof.
  rewrite tanh_form. pose proof (exp_pos (2 * x)) as P. assert (Q : 0 < 2 / (exp (2 * x) + 1) < 2).
  { split; [apply Rdiv_lt_0_compat; lra|]. apply Rmult_lt_reg_r with (exp (2 * x) + 1); [lra|]. unfold Rdiv. rewrite Rmult_assoc, Rinv_l by lra. lra. }
  lra.
Qed.
Lemma tanh_odd x : tanh (- x) = - tanh x.
Proof. unfold tanh, sinh, cosh. rewrite Ropp_involutive. pose proof (exp_pos x). pose proof (exp_pos (- x)). field. lra. Qed.
Lemma tanh_incr x y : x < y -> tanh x < tanh y.
Proof.
  intros H. rewrite !tanh_form. assert (E : exp (2 * x) < exp (2 * y)) by (apply exp_increasing; lra). pose proof (exp_pos (2 * x)).
  enough (2 / (exp (2 * y) + 1) < 2 / (exp (2 * x) + 1)) by lra. apply Rmult_lt_compat_l; [lra|]. apply Rinv_lt_contravar; [nra|lra].
Qed.
Lemma tanh_0 : tanh 0 = 0.
Proof. unfold tanh, sinh. rewrite Ropp_0. unfold Rdiv. ring. Qed.
(** The weight of s2. *)
Definition weight (kappa kc : R) : R := / 2 * (tanh ((kappa - kc) / (3 / 10)) + 1).
Lemma theta_convex s1 s2 kappa kc : theta_interp s1 s2 kappa kc = round3 ((1 - weight kappa kc) * s1 + weight kappa kc * s2).
Proof.
  unfold theta_interp, weight. f_equal. replace (- (kappa - kc) / (3 / 10)) with (- ((kappa - kc) / (3 / 10))) by field. rewrite tanh_odd. field.
Qed.
Local Instance v10 : Valid_exp (FIX_exp (-3)) := FIX_exp_valid (-3).
Lemma round3_err r : Rabs (round3 r - r) <= / 2000.
Proof.
  unfold round3. pose proof (error_le_half_ulp radix10 (FIX_exp (-3)) (fun n => negb (Z.even n)) r) as H. rewrite ulp_FIX in H. eapply Rle_trans; [exact H|].
  change (bpow radix10 (-3)) with (/ IZR 1000). lra.
Qed.
Lemma round3_le r s : r <= s -> round3 r <= round3 s.
Proof. apply round_le; typeclasses eauto. Qed.

(** The result is within half a thousandth of a proper mean of s1 and s2 whose
    weights do not depend on them, ... *)
Theorem C176_mean s1 s2 kappa kc :
  0 < weight kappa kc < 1 /\ Rabs (theta_interp s1 s2 kappa kc - ((1 - weight kappa kc) * s1 + weight kappa kc * s2)) <= / 2000.
Proof.
  split; [unfold weight; pose proof (tanh_bounds ((kappa - kc) / (3 / 10))); lra|]. rewrite theta_convex. apply round3_err.
Qed.
Print Assumptions C176_mean.
(** ... it moves from s1 to s2 as kappa grows, never the other way and never
    past s1 or s2 rounded, ... *)
Theorem C176_monotone s1 s2 k k' kc : s1 <= s2 -> k <= k' ->
  round3 s1 <= theta_interp s1 s2 k kc <= theta_interp s1 s2 k' kc /\ theta_interp s1 s2 k' kc <= round3 s2.
Proof.
  intros S K. rewrite !theta_convex. pose proof (C176_mean s1 s2 k kc) as [[A B] _]. pose proof (C176_mean s1 s2 k' kc) as [[A' B'] _].
  assert (W : weight k kc <= weight k' kc).
  { destruct (Req_dec k k') as [-> |N]; [lra|]. unfold weight. assert (X : tanh ((k - kc) / (3 / 10)) < tanh ((k' - kc) / (3 / 10))) by (apply tanh_incr; lra). lra. }
  split; [split|]; apply round3_le; nra.
Qed.
Print Assumptions C176_monotone.
(** ... gives the middle at kappa = kc, and approaches s1 and s2: the weight of s2
    is as near to 1 (and, on the other side, to 0) as one likes. *)
Theorem C176_ends s1 s2 kc : theta_interp s1 s2 kc kc = round3 ((s1 + s2) / 2)
  /\ (forall e, 0 < e -> exists K, forall k, K <= k - kc -> 1 - e < weight k kc)
  /\ (forall e, 0 < e -> exists K, forall k, K <= kc - k -> weight k kc < e).
Proof.
  assert (U : forall e, 0 < e -> exists K, forall t, K <= t -> 1 - e < / 2 * (tanh (t / (3 / 10)) + 1)).
  { intros e He. exists (Rmax 0 (/ e)). intros t Ht. rewrite tanh_form.
    assert (T0 : 0 <= t) by (eapply Rle_trans; [apply Rmax_l|exact Ht]). assert (T1 : / e <= t) by (eapply Rle_trans; [apply Rmax_r|exact Ht]).
    pose proof (exp_ineq1_le (2 * (t / (3 / 10)))) as X. assert (Y : t < exp (2 * (t / (3 / 10))) + 1) by lra.
    assert (E0 : 0 < / e) by (apply Rinv_0_lt_compat; exact He).
    enough (/ (exp (2 * (t / (3 / 10))) + 1) < e) by (unfold Rdiv at 1; lra). rewrite <- (Rinv_inv e). apply Rinv_lt_contravar; nra. }
  split; [rewrite theta_convex; f_equal; unfold weight; replace ((kc - kc) / (3 / 10)) with 0 by field; rewrite tanh_0; field|]. split.
  - intros e He. destruct (U e He) as [K HK]. exists K. intros k Hk. unfold weight. apply HK, Hk.
  - intros e He. destruct (U e He) as [K HK]. exists K. intros k Hk. specialize (HK _ Hk). unfold weight. replace ((k - kc) / (3 / 10)) with (- ((kc - k) / (3 / 10))) by field. rewrite tanh_odd. lra.
Qed.
Print Assumptions C176_ends.
