(** Derivative, integral, inner product, product, shift and convolution. *)
From Coq Require Import Reals ZArith List Arith Lia Lra Bool.
From Coquelicot Require Import Coquelicot.
From Verif Require Import Base ToolsProofs TrigSpec TrigBase TrigModel TrigTrans TrigEval TrigCalc.
Import ListNotations.
Open Scope R_scope.
Open Scope C_scope.

(** ** derivative *)

Lemma family_derive (F : nat -> R -> R) : (forall n x, is_derive (F n) x (F (S n) x)) -> forall n x, is_derive_n (F 0%nat) n x (F n x).
Proof.
  intros H n x. destruct n as [|n]; [reflexivity|]. cbn [is_derive_n].
  apply (is_derive_ext (F n)); [|apply H].
  intros t. symmetry. clear x. revert t. induction n as [|n IH]; intros t; [reflexivity|]. cbn [Derive_n].
  rewrite (Derive_ext _ (F n)) by exact IH. apply is_derive_unique, H.
Qed.
Lemma cfamily_derive (F : nat -> R -> C) :
  (forall n x, is_derive (fun t => Re (F n t)) x (Re (F (S n) x)) /\ is_derive (fun t => Im (F n t)) x (Im (F (S n) x))) ->
  forall n x, cderive_n (F 0%nat) n x (F n x).
Proof.
  intros H n x. split.
  - apply (family_derive (fun n t => Re (F n t))). intros; apply H.
  - apply (family_derive (fun n t => Im (F n t))). intros; apply H.
Qed.

Definition dmode (n k j : nat) (x : R) : C :=
  if andb (Nat.even n) (Nat.eqb k 0) then RtoC ((PI * INR (n / 2)) ^ j * cos (PI * INR (n / 2) * x + INR j * (PI / 2)))
  else cpow (Ci * RtoC PI * RtoC (IZR (freq n k))) j * cis (PI * IZR (freq n k) * x).
Lemma dmode_0 n k x : dmode n k 0 x = mode n k x.
Proof.
  unfold dmode, mode. destruct (andb _ _); [|cbn [cpow]; ring]. cbn [pow INR]. f_equal. rewrite Rmult_0_l, Rplus_0_r. ring.
Qed.
Lemma dmode_derive n k j x :
  is_derive (fun t => Re (dmode n k j t)) x (Re (dmode n k (S j) x)) /\ is_derive (fun t => Im (dmode n k j t)) x (Im (dmode n k (S j) x)).
Proof.
  unfold dmode. destruct (andb _ _).
  - set (w := (PI * INR (n / 2))%R). unfold Re, Im. cbn [fst snd RtoC]. split.
    + assert (E : cos (w * x + INR (S j) * (PI / 2)) = (- sin (w * x + INR j * (PI / 2)))%R).
      { rewrite S_INR. replace (w * x + (INR j + 1) * (PI / 2))%R with (PI / 2 + (w * x + INR j * (PI / 2)))%R by ring. rewrite (sin_cos (w * x + INR j * (PI / 2))). ring. }
      rewrite E. cbn [pow]. generalize (w ^ j)%R (INR j * (PI / 2))%R. intros p q. auto_derive; [exact I|]. ring.
    + apply (is_derive_const (K := R_AbsRing) (V := R_NormedModule)).
  - cbn [cpow]. set (z := IZR (freq n k)). generalize (cpow (Ci * RtoC PI * RtoC z) j). intros [a b]. unfold Re, Im, cis. cbn.
    split; auto_derive; try exact I; ring.
Qed.
Lemma csum_derive n (f g : nat -> R -> C) x :
  (forall k, is_derive (fun t => Re (f k t)) x (Re (g k x)) /\ is_derive (fun t => Im (f k t)) x (Im (g k x))) ->
  is_derive (fun t => Re (csum n (fun k => f k t))) x (Re (csum n (fun k => g k x))) /\
  is_derive (fun t => Im (csum n (fun k => f k t))) x (Im (csum n (fun k => g k x))).
Proof.
  intros H. induction n as [|n [IH1 IH2]]; cbn [csum].
  - split; apply (is_derive_const (K := R_AbsRing) (V := R_NormedModule)).
  - split.
    + apply (is_derive_plus (fun t => Re (csum n (fun k => f k t))) (fun t => Re (f n t))); [exact IH1|apply H].
    + apply (is_derive_plus (fun t => Im (csum n (fun k => f k t))) (fun t => Im (f n t))); [exact IH2|apply H].
Qed.
Lemma cmul_derive (a : C) (f : R -> C) x l :
  is_derive (fun t => Re (f t)) x (Re l) /\ is_derive (fun t => Im (f t)) x (Im l) ->
  is_derive (fun t => Re (a * f t)) x (Re (a * l)) /\ is_derive (fun t => Im (a * f t)) x (Im (a * l)).
Proof.
  intros [H1 H2]. destruct a as [p q]. unfold Re, Im in *. cbn. split.
  - apply (is_derive_minus (K := R_AbsRing) (V := R_NormedModule) (fun t => p * fst (f t))%R (fun t => q * snd (f t))%R); apply is_derive_scal; assumption.
  - apply (is_derive_plus (K := R_AbsRing) (V := R_NormedModule) (fun t => p * snd (f t))%R (fun t => q * fst (f t))%R); apply is_derive_scal; assumption.
Qed.
Lemma evalF_derive_all c n x :
  cderive_n (evalF c) n x (csum (length c) (fun k => nth k c C0 * dmode (length c) k n x)).
Proof.
  assert (H := cfamily_derive (fun j t => csum (length c) (fun k => nth k c C0 * dmode (length c) k j t))).
  cbn beta in H. assert (E : forall t, csum (length c) (fun k => nth k c C0 * dmode (length c) k 0 t) = evalF c t).
  { intros t. unfold evalF. apply csum_ext. intros k _. rewrite dmode_0. reflexivity. }
  assert (H' := H ltac:(intros j t; apply (csum_derive (length c) (fun k t => nth k c C0 * dmode (length c) k j t) (fun k t => nth k c C0 * dmode (length c) k (S j) t)); intros k; apply cmul_derive, dmode_derive) n x).
  destruct H' as [A B]. split.
  - apply (is_derive_n_ext (fun t => Re (csum (length c) (fun k => nth k c C0 * dmode (length c) k 0 t)))); [intros; rewrite E; reflexivity|exact A].
  - apply (is_derive_n_ext (fun t => Im (csum (length c) (fun k => nth k c C0 * dmode (length c) k 0 t)))); [intros; rewrite E; reflexivity|exact B].
Qed.

Lemma cpow_sq a n : cpow a (2 * n) = cpow (a * a) n.
Proof. induction n as [|n IH]; [reflexivity|]. replace (2 * S n)%nat with (S (S (2 * n))) by lia. cbn [cpow]. rewrite IH. ring. Qed.
Lemma cpow_R a n : cpow (RtoC a) n = RtoC (a ^ n).
Proof. induction n as [|n IH]; [reflexivity|]. cbn [cpow pow]. rewrite IH, RtoC_mult. reflexivity. Qed.
Lemma top_even (w x : R) n : (w ^ (2 * n) * cos (w * x + INR (2 * n) * (PI / 2)) = (- (w * w)) ^ n * cos (w * x))%R.
Proof.
  rewrite mult_INR. cbn [INR]. replace ((1 + 1) * INR n * (PI / 2))%R with (INR n * PI)%R by field.
  induction n as [|n IH]; [cbn; rewrite Rmult_0_l, Rplus_0_r; ring|].
  replace (2 * S n)%nat with (S (S (2 * n))) by lia. cbn [pow]. rewrite S_INR.
  replace (w * x + (INR n + 1) * PI)%R with ((w * x + INR n * PI) + PI)%R by ring. rewrite neg_cos.
  transitivity (- (w * w) * (w ^ (2 * n) * cos (w * x + INR n * PI)))%R; [cbn [pow]; ring|]. rewrite IH. ring.
Qed.

(** C32: diff is the derivative, of every order *)
Lemma trig_diff_correct c n x : (1 <= length c)%nat ->
  (Nat.even (length c) = true -> nth 0 c (RtoC 0) = RtoC 0 \/ Nat.even n = true) ->
  length (tdiff_col c n) = length c /\ cderive_n (evalF c) n x (evalF (tdiff_col c n) x).
Proof.
  intros Hn Hc. split; [apply mk_length|].
  assert (E : evalF (tdiff_col c n) x = csum (length c) (fun k => nth k c C0 * dmode (length c) k n x)).
  { unfold evalF. unfold tdiff_col at 1. rewrite mk_length. apply csum_ext. intros k Hk. unfold tdiff_col. rewrite mk_length.
    rewrite nth_mk by exact Hk. unfold dmode, mode. destruct (Nat.even (length c)) eqn:He; cbn [andb]; [|ring].
    destruct (Nat.eqb_spec k 0) as [->|]; [|ring]. destruct (Hc eq_refl) as [Z|En].
    - unfold C0. rewrite Z. ring.
    - apply Nat.even_spec in En. destruct En as [p ->]. rewrite cpow_sq, top_even. unfold freq. cbn [Z.of_nat]. rewrite Z.sub_0_l, opp_IZR, <- INR_IZR_INZ.
      assert (Eq : Ci * RtoC PI * RtoC (- INR (length c / 2)) * (Ci * RtoC PI * RtoC (- INR (length c / 2))) = RtoC (- (PI * INR (length c / 2) * (PI * INR (length c / 2))))).
      { apply injective_projections; cbn; ring. }
      rewrite Eq, cpow_R. rewrite RtoC_mult. ring. }
  rewrite E. apply evalF_derive_all.
Qed.

(** C32 is false for odd orders when the length is even: cos(pi x) is stored
    as [1, 0]; its derivative at 1/2 is -pi, the result is purely imaginary *)
Lemma trig_diff_even_wrong : exists c x, length c = 2%nat /\ (forall t, evalF c t = RtoC (cos (PI * t))) /\
  ~ cderive_n (evalF c) 1 x (evalF (tdiff_col c 1) x) /\ Re (evalF (tdiff_col c 1) x) = 0%R /\ is_derive (fun t => Re (evalF c t)) x (- PI)%R.
Proof.
  exists [RtoC 1; RtoC 0], (/ 2)%R. split; [reflexivity|].
  assert (E : forall t, evalF [RtoC 1; RtoC 0] t = RtoC (cos (PI * t))).
  { intros t. unfold evalF, mode. cbn. replace (PI * 1 * t)%R with (PI * t)%R by ring. ring. }
  assert (D : is_derive (fun t => Re (evalF [RtoC 1; RtoC 0] t)) (/ 2)%R (- PI)%R).
  { apply (is_derive_ext (fun t => cos (PI * t))); [intros t; rewrite E; reflexivity|]. auto_derive; [exact I|].
    replace (PI * / 2)%R with (PI / 2)%R by field. rewrite sin_PI2. ring. }
  assert (Z : Re (evalF (tdiff_col [RtoC 1; RtoC 0] 1) (/ 2)%R) = 0%R).
  { unfold evalF, tdiff_col, mode, freq, Re. cbn. replace (PI * 1 * / 2)%R with (PI / 2)%R by field. rewrite cos_PI2. ring. }
  split; [exact E|]. split; [|split; [exact Z|exact D]].
  intros [H _]. cbn [is_derive_n Derive_n] in H. rewrite Z in H.
  assert (H1 := is_derive_unique _ _ _ H). assert (H2 := is_derive_unique _ _ _ D). assert (H3 : (0 = - PI)%R) by (transitivity (Derive (fun t => Re (evalF [RtoC 1; RtoC 0] t)) (/ 2)%R); [symmetry; exact H1|exact H2]). assert (P := PI_RGT_0). lra.
Qed.

(** ** integral *)
Lemma cint_ext f g a b l : (forall x, f x = g x) -> cint f a b l -> cint g a b l.
Proof. intros E [H1 H2]. split; (eapply is_RInt_ext; [|eassumption]); intros; cbn; rewrite E; reflexivity. Qed.
Lemma cint_scal (a : C) f p q l : cint f p q l -> cint (fun t => a * f t) p q (a * l).
Proof.
  intros [H1 H2]. destruct a as [u v]. unfold cint, Re, Im in *. cbn. split.
  - apply (is_RInt_minus (V := R_NormedModule) (fun t => u * fst (f t))%R (fun t => v * snd (f t))%R); apply (is_RInt_scal (V := R_NormedModule)); assumption.
  - apply (is_RInt_plus (V := R_NormedModule) (fun t => u * snd (f t))%R (fun t => v * fst (f t))%R); apply (is_RInt_scal (V := R_NormedModule)); assumption.
Qed.
Lemma cint_csum n (f : nat -> R -> C) p q (l : nat -> C) : (forall k, (k < n)%nat -> cint (f k) p q (l k)) ->
  cint (fun t => csum n (fun k => f k t)) p q (csum n l).
Proof.
  induction n as [|n IH]; intros H; cbn [csum].
  - split; cbn; evar_last; try apply (is_RInt_const (V := R_NormedModule)); unfold scal; cbn; unfold mult; cbn; ring.
  - destruct (IH ltac:(intros; apply H; lia)) as [A1 A2]. destruct (H n ltac:(lia)) as [B1 B2]. split.
    + apply (is_RInt_plus (V := R_NormedModule) (fun t => Re (csum n (fun k => f k t))) (fun t => Re (f n t))); assumption.
    + apply (is_RInt_plus (V := R_NormedModule) (fun t => Im (csum n (fun k => f k t))) (fun t => Im (f n t))); assumption.
Qed.
Definition Iexp (z : Z) : C := if Z.eqb z 0 then RtoC 2 else RtoC 0.
Lemma sin_PI_Z z : sin (PI * IZR z) = 0%R.
Proof. assert (E := cis_PI_Z z). apply (f_equal snd) in E. cbn in E. rewrite E. destruct (Z.even z); reflexivity. Qed.
Lemma cint_cis z : cint (fun t => cis (PI * IZR z * t)) (-1) 1 (Iexp z).
Proof.
  unfold Iexp. destruct (Z.eqb_spec z 0) as [->|Hz].
  - apply (cint_ext (fun _ => RtoC 1)); [intros x; rewrite <- cis_0; f_equal; ring|].
    split; cbn; evar_last; try apply (is_RInt_const (V := R_NormedModule)); unfold scal; cbn; unfold mult; cbn; ring.
  - assert (Hz' : IZR z <> 0%R) by (intros E; apply Hz, eq_IZR, E). assert (HP := PI_RGT_0).
    assert (Hw : (PI * IZR z)%R <> 0%R) by (apply Rmult_integral_contrapositive; split; lra).
    unfold cint, cis, Re, Im. cbn [fst snd RtoC]. assert (S1 : sin (PI * IZR z * 1) = 0%R) by (rewrite Rmult_1_r; apply sin_PI_Z).
    assert (S2 : sin (PI * IZR z * -1) = 0%R) by (replace (PI * IZR z * -1)%R with (- (PI * IZR z * 1))%R by ring; rewrite sin_neg, S1; ring).
    assert (S3 : cos (PI * IZR z * -1) = cos (PI * IZR z * 1)) by (replace (PI * IZR z * -1)%R with (- (PI * IZR z * 1))%R by ring; apply cos_neg).
    split.
    + evar_last. 1: apply (is_RInt_derive (fun t => sin (PI * IZR z * t) / (PI * IZR z))%R).
      * intros x _. auto_derive; [exact I|]. field. split; [exact Hz'|lra].
      * intros x _. apply (ex_derive_continuous (K := R_AbsRing) (V := R_NormedModule)). auto_derive. exact I.
      * unfold minus, plus, opp. cbn. rewrite S1, S2. field. split; [exact Hz'|lra].
    + evar_last. 1: apply (is_RInt_derive (fun t => - cos (PI * IZR z * t) / (PI * IZR z))%R).
      * intros x _. auto_derive; [exact I|]. field. split; [exact Hz'|lra].
      * intros x _. apply (ex_derive_continuous (K := R_AbsRing) (V := R_NormedModule)). auto_derive. exact I.
      * unfold minus, plus, opp. cbn. rewrite S3. field. split; [exact Hz'|lra].
Qed.
(** C32: sum is the integral over the period *)
Lemma trig_sum_correct c : (1 <= length c)%nat -> cint (evalF c) (-1) 1 (tsum_col c).
Proof.
  intros Hn. set (m := (length c / 2)%nat).
  apply (cint_ext (fun t => csum (2 * m + 1) (fun k => term c m k t))); [intros x; symmetry; apply evalF_coef0, Hn|].
  assert (E : tsum_col c = csum (2 * m + 1) (fun k => coef c (Z.of_nat k - Z.of_nat m) * Iexp (Z.of_nat k - Z.of_nat m))).
  { rewrite (csum_single _ _ m); [|lia|].
    - rewrite Z.sub_diag. unfold Iexp. cbn [Z.eqb]. unfold tsum_col. rewrite half_plus. replace (S (length c / 2) - 1)%nat with m by (unfold m; lia).
      rewrite Cmult_comm. f_equal. destruct (Nat.eq_dec m 0) as [E0|E0].
      + rewrite coef_odd; [fold m; rewrite E0; reflexivity| |lia].
        assert (length c < 2)%nat. { destruct (Nat.lt_ge_cases (length c) 2); [assumption|]. assert (1 <= length c / 2)%nat by (apply Nat.div_le_lower_bound; lia). fold m in H0. lia. }
        replace (length c) with 1%nat by lia. reflexivity.
      + rewrite coef_even by (fold m; lia). fold m. f_equal. lia.
    - intros j Hj Hne. unfold Iexp. destruct (Z.eqb_spec (Z.of_nat j - Z.of_nat m) 0); [lia|]. ring. }
  rewrite E. apply cint_csum. intros k Hk. unfold term. apply cint_scal, cint_cis.
Qed.

(** ** trapezoidal rule and inner product *)
Lemma trapez n z : (1 <= n)%nat -> (Z.abs z < Z.of_nat n)%Z ->
  csum n (fun j => RtoC (2 / INR n) * cis (PI * IZR z * gridpt n j)) = Iexp z.
Proof.
  intros Hn Hz. assert (HN := INR_pos n Hn).
  rewrite (csum_ext _ _ (fun j => RtoC (2 / INR n) * cis (- (PI * IZR z)) * cis (INR j * (2 * PI * IZR z / INR n)))).
  2:{ intros j _. transitivity (RtoC (2 / INR n) * (cis (- (PI * IZR z)) * cis (INR j * (2 * PI * IZR z / INR n)))); [|ring]. f_equal.
      rewrite <- cis_plus. f_equal. unfold gridpt. field. lra. }
  rewrite csum_scal, root_sum by lia. unfold Iexp. destruct (Z.eqb_spec z 0) as [->|]; [|ring].
  replace (- (PI * 0))%R with 0%R by ring. rewrite cis_0. apply injective_projections; cbn; field; lra.
Qed.
Lemma evalF_mul_conj c d M K x : (1 <= length c)%nat -> (1 <= length d)%nat -> (length c / 2 <= M)%nat -> (length d / 2 <= K)%nat ->
  evalF c x * Cconj (evalF d x) =
  csum (2 * M + 1) (fun k => csum (2 * K + 1) (fun l =>
     coef c (Z.of_nat k - Z.of_nat M) * Cconj (coef d (Z.of_nat l - Z.of_nat K)) * cis (PI * IZR (Z.of_nat k - Z.of_nat M - (Z.of_nat l - Z.of_nat K)) * x))).
Proof.
  intros Hc Hd HM HK. rewrite (evalF_coef c M), (evalF_coef d K) by assumption. rewrite Cconj_csum, <- csum_scal_r. apply csum_ext. intros k _.
  rewrite <- csum_scal. apply csum_ext. intros l _. unfold term. rewrite Cconj_mult, <- cis_neg.
  set (a := (Z.of_nat k - Z.of_nat M)%Z). set (b := (Z.of_nat l - Z.of_nat K)%Z).
  replace (PI * IZR (a - b) * x)%R with (PI * IZR a * x + - (PI * IZR b * x))%R by (rewrite minus_IZR; ring). rewrite cis_plus. ring.
Qed.
Lemma half_le n : (2 * (n / 2) <= n)%nat. Proof. apply Nat.mul_div_le. lia. Qed.
(** inner product = integral of f conj(g) over the period *)
Lemma trig_inner_correct c d : (1 <= length c)%nat -> (1 <= length d)%nat ->
  exists r, tinner_col c d = Some r /\ cint (fun x => evalF c x * Cconj (evalF d x)) (-1) 1 r.
Proof.
  intros Hc Hd. unfold tinner_col. set (n := (length c + length d)%nat).
  destruct (trig_prolong_fun_correct c n ltac:(lia)) as [c' [Ec [Lc Hc']]]. destruct (trig_prolong_fun_correct d n ltac:(lia)) as [d' [Ed [Ld Hd']]].
  rewrite Ec, Ed. eexists. split; [reflexivity|].
  set (M := (length c / 2)%nat). set (K := (length d / 2)%nat).
  assert (B1 := half_le (length c)). assert (B2 := half_le (length d)). fold M in B1. fold K in B2.
  assert (E : csum n (fun j => nth j (coeffs2vals1 c') C0 * RtoC (2 / INR n) * Cconj (nth j (coeffs2vals1 d') C0)) =
    csum (2 * M + 1) (fun k => csum (2 * K + 1) (fun l =>
     coef c (Z.of_nat k - Z.of_nat M) * Cconj (coef d (Z.of_nat l - Z.of_nat K)) * Iexp (Z.of_nat k - Z.of_nat M - (Z.of_nat l - Z.of_nat K))))).
  { rewrite (csum_ext n _ (fun j => csum (2 * M + 1) (fun k => csum (2 * K + 1) (fun l =>
      coef c (Z.of_nat k - Z.of_nat M) * Cconj (coef d (Z.of_nat l - Z.of_nat K)) * (RtoC (2 / INR n) * cis (PI * IZR (Z.of_nat k - Z.of_nat M - (Z.of_nat l - Z.of_nat K)) * gridpt n j)))))).
    2:{ intros j Hj. rewrite trig_values_correct by (rewrite Lc; exact Hj). rewrite trig_values_correct by (rewrite Ld; exact Hj).
        rewrite Lc, Ld, Hc', Hd'.
        transitivity (RtoC (2 / INR n) * (evalF c (gridpt n j) * Cconj (evalF d (gridpt n j)))); [ring|].
        rewrite (evalF_mul_conj c d M K) by (unfold M, K; lia). rewrite <- csum_scal. apply csum_ext. intros k _. rewrite <- csum_scal. apply csum_ext. intros l _. ring. }
    rewrite csum_swap. apply csum_ext. intros k Hk. rewrite csum_swap. apply csum_ext. intros l Hl. rewrite csum_scal, trapez by lia. reflexivity. }
  rewrite E.
  apply (cint_ext (fun x => csum (2 * M + 1) (fun k => csum (2 * K + 1) (fun l =>
     coef c (Z.of_nat k - Z.of_nat M) * Cconj (coef d (Z.of_nat l - Z.of_nat K)) * cis (PI * IZR (Z.of_nat k - Z.of_nat M - (Z.of_nat l - Z.of_nat K)) * x))))).
  { intros x. symmetry. apply evalF_mul_conj; unfold M, K; lia. }
  apply cint_csum. intros k _. apply cint_csum. intros l _. apply cint_scal, cint_cis.
Qed.

(** ** product *)
Definition prodc (c d : list C) : list C :=
  mk (length c + length d - 1) (fun i => csum (length c) (fun k => csum (length d) (fun l => if Nat.eqb (k + l) i then nth k c C0 * nth l d C0 else C0))).
Lemma evalF_odd c x : Nat.odd (length c) = true -> evalF c x = csum (length c) (fun k => nth k c C0 * cis (PI * IZR (freq (length c) k) * x)).
Proof. intros H. unfold evalF. apply csum_ext. intros k _. unfold mode. rewrite (not_even _ H). reflexivity. Qed.
Lemma prodc_odd (c d : list C) : Nat.odd (length c) = true -> Nat.odd (length d) = true ->
  Nat.odd (length c + length d - 1) = true /\ ((length c + length d - 1) / 2 = length c / 2 + length d / 2)%nat.
Proof.
  intros Hc Hd. assert (A := odd_half _ Hc). assert (B := odd_half _ Hd).
  assert (O : Nat.odd (length c + length d - 1) = true) by (apply Nat.odd_spec; exists (length c / 2 + length d / 2)%nat; lia).
  split; [exact O|]. assert (D := odd_half _ O). lia.
Qed.
Lemma prodc_eval c d x : Nat.odd (length c) = true -> Nat.odd (length d) = true -> evalF (prodc c d) x = evalF c x * evalF d x.
Proof.
  intros Hc Hd. destruct (prodc_odd c d Hc Hd) as [Ho Hh]. assert (A := odd_half _ Hc). assert (B := odd_half _ Hd).
  set (n := (length c + length d - 1)%nat) in *. assert (Lp : length (prodc c d) = n) by apply mk_length.
  rewrite evalF_odd by (rewrite Lp; exact Ho). rewrite Lp. rewrite (evalF_odd c), (evalF_odd d) by assumption. rewrite <- csum_scal_r.
  rewrite (csum_ext n _ (fun i => csum (length c) (fun k => csum (length d) (fun l => (if Nat.eqb (k + l) i then nth k c C0 * nth l d C0 else C0) * cis (PI * IZR (freq n i) * x))))).
  2:{ intros i Hi. unfold prodc. rewrite nth_mk by exact Hi. rewrite <- csum_scal_r. apply csum_ext. intros k _. rewrite <- csum_scal_r. reflexivity. }
  rewrite csum_swap. apply csum_ext. intros k Hk. rewrite csum_swap. rewrite <- csum_scal. apply csum_ext. intros l Hl.
  rewrite (csum_single n _ (k + l)); [|unfold n; lia|].
  - rewrite Nat.eqb_refl. transitivity (nth k c C0 * nth l d C0 * (cis (PI * IZR (freq (length c) k) * x) * cis (PI * IZR (freq (length d) l) * x))); [|ring]. f_equal.
    rewrite <- cis_plus. f_equal. unfold freq. rewrite Hh, !minus_IZR, <- !INR_IZR_INZ, !plus_INR. ring.
  - intros i Hi Hne. destruct (Nat.eqb_spec (k + l) i); [lia|]. unfold C0. ring.
Qed.
Lemma trig_mul_correct c d : Nat.odd (length c) = true -> Nat.odd (length d) = true -> (2 <= length c)%nat -> (2 <= length d)%nat ->
  exists h, tmul_col c d = Some h /\ length h = (length c + length d - 1)%nat /\ forall x, evalF h x = evalF c x * evalF d x.
Proof.
  intros Hc Hd Hc2 Hd2. unfold tmul_col. set (n := (length c + length d - 1)%nat).
  destruct (trig_prolong_fun_correct c n ltac:(lia)) as [c' [Ec [Lc Hc']]]. destruct (trig_prolong_fun_correct d n ltac:(lia)) as [d' [Ed [Ld Hd']]].
  rewrite Ec, Ed. exists (prodc c d). split; [|split; [apply mk_length|intros; apply prodc_eval; assumption]].
  f_equal. rewrite <- (trig_c2v_v2c (prodc c d)). f_equal.
  assert (Lp : length (prodc c d) = n) by apply mk_length.
  apply (list_ext _ _ C0).
  - rewrite mk_length, coeffs2vals1_length, Lp. reflexivity.
  - rewrite mk_length. intros j Hj. rewrite nth_mk by exact Hj. rewrite !trig_values_correct by (rewrite ?Lc, ?Ld, ?Lp; exact Hj).
    rewrite Lc, Ld, Lp, Hc', Hd', prodc_eval by assumption. reflexivity.
Qed.

(** ** circular shift *)
Lemma trig_circshift_correct c a x : (Nat.even (length c) = true -> nth 0 c (RtoC 0) = RtoC 0) ->
  length (circshift_col c a) = length c /\ evalF (circshift_col c a) x = evalF c (x - a).
Proof.
  intros He. unfold circshift_col. unfold Reqb. destruct (Req_EM_T a 0) as [->|_]; [split; [reflexivity|f_equal; ring]|].
  split; [apply mk_length|]. unfold evalF. rewrite mk_length. apply csum_ext. intros k Hk. rewrite nth_mk by exact Hk.
  unfold mode. destruct (Nat.even (length c)) eqn:E; cbn [andb].
  - destruct (Nat.eqb_spec k 0) as [->|].
    + unfold C0. rewrite (He eq_refl). ring.
    + unfold C0. rewrite <- Cmult_assoc, <- cis_plus. f_equal. f_equal. ring.
  - unfold C0. rewrite <- Cmult_assoc, <- cis_plus. f_equal. f_equal. ring.
Qed.
Lemma trig_circshift_even_wrong : exists c a x, length c = 2%nat /\ (forall t, evalF c t = RtoC (cos (PI * t))) /\
  evalF (circshift_col c a) x <> evalF c (x - a).
Proof.
  exists [RtoC 1; RtoC 0], (/ 2)%R, 0%R. split; [reflexivity|].
  assert (E : forall t, evalF [RtoC 1; RtoC 0] t = RtoC (cos (PI * t))).
  { intros t. unfold evalF, mode. cbn. replace (PI * 1 * t)%R with (PI * t)%R by ring. ring. }
  split; [exact E|]. rewrite E. replace (PI * (0 - / 2))%R with (- (PI / 2))%R by field. rewrite cos_neg, cos_PI2.
  unfold circshift_col, Reqb. destruct (Req_EM_T (/ 2) 0) as [H|_]; [lra|]. unfold evalF, mode, freq. cbn. intros H. apply (f_equal snd) in H.
  unfold cis in H. cbn in H. replace (PI * 1 * 0)%R with 0%R in H by ring. replace (- (PI * / 2 * -1))%R with (PI / 2)%R in H by field.
  rewrite cos_0, sin_PI2, cos_PI2 in H. lra.
Qed.

(** ** circular convolution *)
Lemma fft_values c k : (1 <= length c)%nat -> (k < length c)%nat ->
  nth ((k + (length c - length c / 2)) mod length c) (fft (coeffs2vals1 c)) C0 = RtoC (INR (length c)) * (eofix (length c) k * nth k c C0).
Proof.
  intros Hn Hk. set (n := length c) in *. set (v := coeffs2vals1 c).
  assert (Lv : length v = n) by apply coeffs2vals1_length.
  assert (R := raw_coeffs v k ltac:(lia) ltac:(lia)). rewrite Lv in R.
  assert (Lf : length (fft v) = n) by (unfold fft; rewrite mk_length; exact Lv).
  rewrite map_nth_C in R by (unfold fftshift; rewrite mk_length, Lf; exact Hk). unfold fftshift in R. rewrite Lf, nth_mk in R by exact Hk.
  assert (EU : Usum v k = nth k c C0).
  { destruct (Nat.eq_dec n 1) as [E1|E1].
    - assert (Ev : v = c) by (unfold v, coeffs2vals1; fold n; rewrite E1; reflexivity). rewrite Ev. unfold Usum. fold n. rewrite E1. assert (k = 0)%nat by lia. subst k.
      cbn [csum]. unfold W, gridpt, freq. cbn. rewrite Rmult_0_r, Rmult_0_l, cis_0, Cconj_R, Rinv_1. ring.
    - rewrite <- vals2coeffs1_Usum by lia. unfold v. rewrite trig_c2v_v2c. reflexivity. }
  rewrite EU in R. rewrite <- R. rewrite Cmult_assoc, <- RtoC_mult, Rinv_r, Cmult_1_l; [reflexivity|]. apply Rgt_not_eq, INR_pos. lia.
Qed.
Lemma rot_inv n i : (1 <= n)%nat -> (i < n)%nat -> (((i + n / 2) mod n + (n - n / 2)) mod n = i)%nat.
Proof.
  intros Hn Hi. assert (B := half_le n). rewrite Nat.add_mod_idemp_l by lia. replace (i + n / 2 + (n - n / 2))%nat with (i + 1 * n)%nat by lia.
  rewrite Nat.mod_add by lia. apply Nat.mod_small, Hi.
Qed.
Lemma circconv_coeffs c d : (1 <= length c)%nat -> length d = length c ->
  circconv_col c d = mk (length c) (fun k => RtoC 2 * (nth k c C0 * nth k d C0)).
Proof.
  intros Hn Hd. set (n := length c) in *. set (h := mk n _). assert (Lh : length h = n) by apply mk_length.
  unfold circconv_col. rewrite <- (trig_c2v_v2c h). f_equal.
  set (d' := circshift_col d (-1)).
  assert (Ld' : length d' = n). { unfold d', circshift_col, Reqb. destruct (Req_EM_T (-1) 0); [exact Hd|rewrite mk_length; exact Hd]. }
  assert (Hd' : forall k, (k < n)%nat -> nth k d' C0 = nth k d C0 * eofix n k).
  { intros k Hk. unfold d', circshift_col, Reqb. destruct (Req_EM_T (-1) 0) as [E|_]; [lra|]. rewrite Hd, nth_mk by exact Hk. f_equal.
    rewrite eofix_cis. f_equal. ring. }
  unfold circconv_vals. rewrite coeffs2vals1_length. fold n.
  set (X := mk n (fun k => nth k (fft (coeffs2vals1 c)) C0 * nth k (fft (coeffs2vals1 d')) C0)).
  assert (EX : X = map (fun a => RtoC (INR n / 2) * a) (ifftshift (map (fun a => RtoC (INR n) * a) (mk n (fun k => eofix n k * nth k h C0))))).
  { apply (list_ext _ _ C0); [unfold X, ifftshift; rewrite map_length, !mk_length, map_length, mk_length; reflexivity|].
    unfold X at 1. rewrite mk_length. intros i Hi. unfold X. rewrite nth_mk by exact Hi.
    set (k := ((i + n / 2) mod n)%nat). assert (Hk : (k < n)%nat) by (apply Nat.mod_upper_bound; lia).
    assert (Ei : i = ((k + (n - n / 2)) mod n)%nat) by (symmetry; apply rot_inv; lia).
    assert (F1 := fft_values c k Hn Hk). fold n in F1. rewrite <- Ei in F1. rewrite F1.
    assert (F2 := fft_values d' k ltac:(lia) ltac:(lia)). rewrite Ld', <- Ei in F2. rewrite F2, Hd' by exact Hk.
    unfold ifftshift. rewrite map_length, mk_length. rewrite map_nth_C by (rewrite mk_length; exact Hi). rewrite nth_mk by exact Hi. fold k.
    rewrite map_nth_C by (rewrite mk_length; exact Hk). rewrite nth_mk by exact Hk. unfold h. rewrite nth_mk by exact Hk.
    transitivity (RtoC (INR n) * RtoC (INR n) * (eofix n k * eofix n k) * eofix n k * nth k c C0 * nth k d C0); [ring|]. rewrite eofix_sq.
    assert (E2 : RtoC (INR n / 2) * RtoC 2 = RtoC (INR n)) by (rewrite <- RtoC_mult; f_equal; field).
    rewrite <- E2 at 1. ring. }
  assert (Li : forall l, length (ifft l) = length l) by (intros; apply mk_length).
  assert (LX : length X = n) by apply mk_length.
  apply (list_ext _ _ C0).
  - rewrite map_length, Li, LX, coeffs2vals1_length. symmetry. exact Lh.
  - rewrite map_length, Li, LX. intros j Hj. rewrite map_nth_C by (rewrite Li, LX; exact Hj).
    rewrite trig_values_correct by (rewrite Lh; exact Hj). rewrite evalF_grid, <- raw_values by (rewrite Lh; lia). rewrite Lh.
    set (Y := ifftshift _) in *. assert (LY : length Y = n) by (rewrite <- LX, EX, map_length; reflexivity).
    unfold ifft. rewrite LX, LY, !nth_mk by exact Hj.
    rewrite EX. rewrite (csum_ext n (fun k => nth k (map _ Y) C0 * _) (fun k => RtoC (INR n / 2) * (nth k Y C0 * cis (2 * PI * INR j * INR k / INR n)))).
    2:{ intros k Hk. rewrite map_nth_C by lia. ring. }
    rewrite csum_scal.
    assert (E2 : RtoC (2 / INR n) * RtoC (INR n / 2) = RtoC 1).
    { rewrite <- RtoC_mult. f_equal. field. apply Rgt_not_eq, INR_pos, Hn. }
    set (S1 := csum n _). transitivity (RtoC (2 / INR n) * RtoC (INR n / 2) * (RtoC (/ INR n) * S1)); [ring|]. rewrite E2. ring.
Qed.
Lemma trig_conv_correct c d x : Nat.odd (length c) = true -> length d = length c ->
  cint (fun t => evalF c (x - t) * evalF d t) (-1) 1 (evalF (circconv_col c d) x).
Proof.
  intros Ho Hd. assert (A := odd_half _ Ho). rewrite circconv_coeffs by (try exact Hd; lia). set (n := length c) in *.
  rewrite evalF_odd by (rewrite mk_length; exact Ho). rewrite mk_length.
  apply (cint_ext (fun t => csum n (fun k => csum n (fun l => nth k c C0 * nth l d C0 * cis (PI * IZR (freq n k) * x) * cis (PI * IZR (freq n l - freq n k) * t))))).
  { intros t. rewrite (evalF_odd c), (evalF_odd d) by (rewrite ?Hd; exact Ho). rewrite Hd. fold n. rewrite <- csum_scal_r. apply csum_ext. intros k _.
    rewrite <- csum_scal. apply csum_ext. intros l _. rewrite minus_IZR.
    replace (PI * IZR (freq n k) * (x - t))%R with (PI * IZR (freq n k) * x + - (PI * IZR (freq n k) * t))%R by ring.
    replace (PI * (IZR (freq n l) - IZR (freq n k)) * t)%R with (PI * IZR (freq n l) * t + - (PI * IZR (freq n k) * t))%R by ring.
    rewrite !cis_plus. ring. }
  apply cint_csum. intros k Hk. rewrite nth_mk by exact Hk.
  assert (E : RtoC 2 * (nth k c C0 * nth k d C0) * cis (PI * IZR (freq n k) * x) =
     csum n (fun l => nth k c C0 * nth l d C0 * cis (PI * IZR (freq n k) * x) * Iexp (freq n l - freq n k))).
  { rewrite (csum_single n _ k); [|exact Hk|].
    - rewrite Z.sub_diag. unfold Iexp. cbn [Z.eqb]. ring.
    - intros l Hl Hne. unfold Iexp. destruct (Z.eqb_spec (freq n l - freq n k) 0) as [E|]; [unfold freq in E; lia|]. ring. }
  rewrite E. apply cint_csum. intros l _. apply cint_scal, cint_cis.
Qed.
