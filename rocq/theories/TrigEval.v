(** Horner evaluation of Fourier series. *)
From Coq Require Import Reals ZArith List Arith Lia Lra Bool.
From Coquelicot Require Import Coquelicot.
From Verif Require Import Base ToolsProofs TrigSpec TrigBase TrigModel TrigTrans.
Import ListNotations.
Open Scope R_scope.
Open Scope C_scope.

Lemma cis_mul_INR k t : cis (INR k * t) * cis t = cis (INR (S k) * t).
Proof. symmetry. apply cis_scal_plus. Qed.

Lemma horner_fold (c : nat -> C) t m q0 :
  fold_left (fun q j => c j + cis t * q) (rev (seq 1 m)) q0 = csum m (fun k => c (S k) * cis (INR k * t)) + cis (INR m * t) * q0.
Proof.
  revert q0. induction m as [|m IH]; intros q0; [cbn [seq rev fold_left csum INR]; rewrite Rmult_0_l, cis_0; ring|].
  rewrite seq_S, rev_app_distr. cbn [rev app fold_left]. rewrite IH. cbn [csum plus]. rewrite cis_scal_plus. cbn [Nat.add]. ring.
Qed.
Lemma horner_fold_full (c : nat -> C) t n : (2 <= n)%nat ->
  fold_left (fun q j => c j + cis t * q) (rev (seq 1 (n - 2))) (c (n - 1)%nat) = csum (n - 1) (fun k => c (S k) * cis (INR k * t)).
Proof.
  intros H. rewrite horner_fold. replace (n - 1)%nat with (S (n - 2)) by lia. cbn [csum]. ring.
Qed.

Lemma even_half n : Nat.even n = true -> (n = 2 * (n / 2))%nat.
Proof. intros H. apply Nat.even_spec in H. destruct H as [m ->]. rewrite (Nat.mul_comm 2 m), Nat.div_mul by lia. lia. Qed.
Lemma odd_half n : Nat.odd n = true -> (n = 2 * (n / 2) + 1)%nat.
Proof. intros H. apply Nat.odd_spec in H. destruct H as [m ->]. rewrite <- (Nat.div_unique (2 * m + 1) 2 m 1) by lia. lia. Qed.
Lemma odd_half' n : Nat.odd n = true -> ((n - 1) / 2 = n / 2)%nat.
Proof. intros H. assert (E := odd_half n H). replace (n - 1)%nat with ((n / 2) * 2)%nat by lia. apply Nat.div_mul. lia. Qed.

Lemma horner_cmplx_correct c x : (1 <= length c)%nat -> horner_cmplx c x = evalF c x.
Proof.
  intros Hn. unfold horner_cmplx. destruct (Nat.eqb_spec (length c) 1) as [E1|E1].
  { unfold evalF. rewrite E1. cbn [csum]. unfold mode, freq. cbn. rewrite Rmult_0_r, Rmult_0_l, cis_0. unfold C0. ring. }
  rewrite (horner_fold_full (fun j => nth j c C0)) by lia.
  unfold evalF. destruct (Nat.odd (length c)) eqn:Eo.
  - assert (Ee : Nat.even (length c) = false) by (rewrite <- Nat.negb_odd, Eo; reflexivity).
    assert (H2 := odd_half _ Eo). rewrite (odd_half' _ Eo). set (n := length c) in *. set (m := (n / 2)%nat) in *.
    replace n with (S (n - 1)) at 2 by lia. rewrite csum_head. rewrite Cmult_plus_distr_l. f_equal.
    + unfold mode. rewrite Ee. cbn [andb]. unfold freq. fold m. cbn [Z.of_nat]. rewrite Z.sub_0_l, opp_IZR, <- INR_IZR_INZ.
      rewrite Cmult_comm. f_equal. f_equal. ring.
    + rewrite <- !csum_scal. apply csum_ext. intros k Hk. unfold mode. rewrite Ee. cbn [andb].
      transitivity (nth (S k) c C0 * (cis (- (PI * INR m * x)) * (cis (PI * x) * cis (INR k * (PI * x))))); [ring|]. unfold C0. f_equal.
      rewrite <- !cis_plus. f_equal. unfold freq. fold m. rewrite minus_IZR, <- !INR_IZR_INZ, S_INR. ring.
  - assert (Ee : Nat.even (length c) = true) by (rewrite <- Nat.negb_odd, Eo; reflexivity).
    assert (H2 := even_half _ Ee). set (n := length c) in *. set (m := (n / 2)%nat) in *.
    replace n with (S (n - 1)) at 2 by lia. rewrite csum_head. rewrite Cplus_comm. f_equal.
    + unfold mode. rewrite Ee. cbn [andb Nat.eqb]. fold m. unfold C0. rewrite Cmult_comm. do 3 f_equal. ring.
    + rewrite <- !csum_scal. apply csum_ext. intros k Hk. unfold mode. rewrite Ee. cbn [andb Nat.eqb].
      transitivity (nth (S k) c C0 * (cis (- (PI * INR (m - 1) * x)) * cis (INR k * (PI * x)))); [ring|]. unfold C0. f_equal.
      rewrite <- !cis_plus. f_equal. unfold freq. fold m. rewrite minus_IZR, <- !INR_IZR_INZ, S_INR, minus_INR by lia. cbn [INR]. ring.
Qed.

(** ** real evaluation *)
Lemma touch_length c : length (touch c) = length c.
Proof. destruct c as [|a t]; [reflexivity|]. unfold touch. destruct (Nat.even _); reflexivity. Qed.
Lemma touch_odd c : Nat.odd (length c) = true -> touch c = c.
Proof. destruct c as [|a t]; [reflexivity|]. intros H. unfold touch. rewrite <- Nat.negb_odd, H. reflexivity. Qed.

Lemma pair_fold (d : nat -> C) u v l : forall co si : R,
  fold_left (fun '(co, si) j => (Re (d j) + u * co + v * si, Im (d j) + u * si - v * co)%R) l (co, si)
  = fold_left (fun (q : C) j => d j + (u, (- v)%R) * q) l ((co, si) : C).
Proof.
  induction l as [|j l IH]; intros co si; [reflexivity|]. cbn [fold_left]. rewrite IH. f_equal.
  unfold Re, Im. apply injective_projections; cbn; ring.
Qed.

Definition hsum (c : list C) (x : R) : R :=
  (Re (nth (length c / 2) c C0) +
   2 * Re (csum (length c / 2) (fun k => nth (length c / 2 - S k) (touch c) C0 * cis (- (PI * INR (S k) * x)))%C))%R.

Lemma half_plus N : ((N + 2) / 2 = S (N / 2))%nat.
Proof. replace (N + 2)%nat with (N + 1 * 2)%nat by lia. rewrite Nat.div_add by lia. lia. Qed.
Lemma nth_touch_S c k : (1 <= k)%nat -> nth k (touch c) C0 = nth k c C0.
Proof. intros H. destruct c as [|a t]; [reflexivity|]. unfold touch. destruct (Nat.even _); [|reflexivity]. destruct k; [lia|reflexivity]. Qed.

Lemma horner_real_hsum c x : (1 <= length c)%nat -> horner_real c x = hsum c x.
Proof.
  intros Hn. unfold horner_real, hsum. rewrite half_plus. set (N := length c) in *. set (m := (N / 2)%nat) in *.
  assert (Hm : (2 * m <= N < 2 * m + 2)%nat) by (unfold m; assert (A := Nat.div_mod N 2 ltac:(lia)); assert (B := Nat.mod_upper_bound N 2 ltac:(lia)); lia).
  set (c' := rev (firstn (S m) (touch c))).
  assert (Lf : length (firstn (S m) (touch c)) = S m) by (rewrite firstn_length, touch_length; fold N; destruct (Nat.eqb_spec N 0); lia).
  assert (Hc' : forall k, (k <= m)%nat -> nth k c' C0 = nth (m - k) (touch c) C0).
  { intros k Hk. unfold c'. rewrite rev_nth by lia. rewrite Lf. rewrite nth_firstn' by lia. replace (S m - S k)%nat with (m - k)%nat by lia. reflexivity. }
  destruct (Nat.eqb_spec N 1) as [E1|E1].
  { assert (m = 0)%nat by lia. rewrite H. cbn [csum]. rewrite Hc' by lia. rewrite H. cbn [Nat.sub].
    rewrite touch_odd by (fold N; rewrite E1; reflexivity). unfold Re. cbn [fst RtoC]. ring. }
  replace (S m - 2)%nat with (m - 1)%nat by lia. replace (S m - 1)%nat with m by lia.
  rewrite (pair_fold (fun j => nth j c' C0)).
  set (q := fold_left _ _ _).
  assert (Eq : q = csum m (fun k => nth (S k) c' C0 * cis (INR k * (- (PI * x))))).
  { unfold q. assert (Ez : ((cos (PI * x), (- sin (PI * x))%R) : C) = cis (- (PI * x))) by (rewrite cis_neg; reflexivity). rewrite Ez.
    assert (Ed : ((Re (nth m c' C0), Im (nth m c' C0)) : C) = nth m c' C0) by (unfold Re, Im; destruct (nth m c' C0); reflexivity).
    rewrite Ed. assert (F := horner_fold_full (fun j => nth j c' C0) (- (PI * x)) (S m) ltac:(lia)).
    replace (S m - 2)%nat with (m - 1)%nat in F by lia. replace (S m - 1)%nat with m in F by lia. exact F. }
  assert (E0 : Re (nth 0 c' C0) = Re (nth m c C0)).
  { rewrite Hc', Nat.sub_0_r by lia. rewrite nth_touch_S by lia. reflexivity. }
  transitivity (Re (nth 0 c' C0) + 2 * Re (cis (- (PI * x)) * q)%C)%R.
  { rewrite cis_neg. destruct q as [co si]. unfold Re. cbn. ring. }
  rewrite E0. do 3 f_equal. rewrite Eq, <- csum_scal. apply csum_ext. intros k Hk. rewrite Hc' by lia.
  transitivity (nth (m - S k) (touch c) C0 * (cis (- (PI * x)) * cis (INR k * (- (PI * x))))); [ring|]. f_equal.
  rewrite <- cis_plus. f_equal. rewrite S_INR. ring.
Qed.

(** coefficients of a real function *)
Lemma W_conj_freq n j k l : (freq n k = - freq n l)%Z -> W n j k = Cconj (W n j l).
Proof. intros H. unfold W. rewrite H, <- cis_neg, opp_IZR. f_equal. ring. Qed.
Lemma herm_sym c k l : hermitian c -> (k < length c)%nat -> (l < length c)%nat -> (freq (length c) k = - freq (length c) l)%Z ->
  nth k c C0 = Cconj (nth l c C0).
Proof.
  intros Hh Hk Hl Hf. destruct (Nat.le_gt_cases (length c) 1) as [Hs|Hs].
  { assert (length c = 1)%nat by lia. destruct c as [|a [|b t]]; cbn [length] in *; try lia. assert (k = 0 /\ l = 0)%nat as [-> ->] by lia.
    assert (E := Hh 0%R). unfold evalF, mode, freq in E. cbn in E. rewrite !Rmult_0_r in E. unfold cis in E. rewrite cos_0, sin_0 in E. unfold Im in E. cbn in E.
    apply injective_projections; cbn; lra. }
  assert (R : forall i, (i < length c)%nat -> nth i c C0 = Usum (coeffs2vals1 c) i).
  { intros i Hi. rewrite <- vals2coeffs1_Usum by (rewrite coeffs2vals1_length; lia). rewrite trig_c2v_v2c. reflexivity. }
  rewrite (R k), (R l) by assumption. unfold Usum. rewrite coeffs2vals1_length, Cconj_mult, Cconj_R, Cconj_csum. f_equal.
  apply csum_ext. intros j Hj. rewrite Cconj_mult, Cconj_conj, (W_conj_freq _ j k l Hf), Cconj_conj. f_equal.
  rewrite trig_values_correct by exact Hj. assert (E := Hh (gridpt (length c) j)). unfold Im in E.
  apply injective_projections; cbn; lra.
Qed.
Lemma herm_top c : hermitian c -> Nat.even (length c) = true -> (1 <= length c)%nat -> Im (nth 0 c C0) = 0%R.
Proof.
  intros Hh He Hn. assert (H2 := even_half _ He).
  assert (HR : nth 0 c C0 = Usum (coeffs2vals1 c) 0).
  { rewrite <- vals2coeffs1_Usum by (rewrite coeffs2vals1_length; lia). rewrite trig_c2v_v2c. reflexivity. }
  rewrite HR. unfold Usum. rewrite coeffs2vals1_length.
  rewrite (csum_ext _ _ (fun j => RtoC (Re (evalF c (gridpt (length c) j))) * RtoC (cos (PI * INR (length c / 2) * gridpt (length c) j)))).
  - rewrite (csum_ext _ _ (fun j => RtoC (Re (evalF c (gridpt (length c) j)) * cos (PI * INR (length c / 2) * gridpt (length c) j)))) by (intros; rewrite RtoC_mult; reflexivity).
    assert (Z : forall n (f : nat -> R), Im (csum n (fun j => RtoC (f j))) = 0%R) by (intros n f; rewrite csum_Im; apply rsum_zero; intros; reflexivity).
    unfold Im in *. cbn. rewrite Z. ring.
  - intros j Hj. rewrite trig_values_correct by exact Hj. f_equal.
    + assert (E := Hh (gridpt (length c) j)). unfold Im, Re in *. apply injective_projections; cbn; lra.
    + rewrite <- mode_grid by lia. unfold mode. rewrite He. cbn [andb Nat.eqb]. apply Cconj_R.
Qed.

Lemma plus_conj a : a + Cconj a = RtoC (2 * Re a).
Proof. unfold Re. apply injective_projections; cbn; ring. Qed.
Lemma Re_RtoC_mult r a : Re (RtoC r * a) = (r * Re a)%R. Proof. unfold Re. cbn. ring. Qed.

Lemma hsum_evalF c x : (1 <= length c)%nat -> hermitian c -> evalF c x = RtoC (hsum c x).
Proof.
  intros Hn Hh. unfold hsum. set (N := length c) in *. set (m := (N / 2)%nat) in *.
  assert (Hm0 : freq N m = 0%Z) by (unfold freq; fold m; lia).
  assert (Hmr : nth m c C0 = RtoC (Re (nth m c C0))).
  { assert (Hlt : (m < N)%nat) by (unfold m; apply Nat.div_lt; lia).
    assert (E := herm_sym c m m Hh Hlt Hlt ltac:(fold N; lia)). apply (f_equal snd) in E. cbn in E. unfold Re. apply injective_projections; cbn; lra. }
  destruct (Nat.odd N) eqn:Eo.
  - assert (Ee : Nat.even N = false) by (rewrite <- Nat.negb_odd, Eo; reflexivity).
    assert (H2 := odd_half _ Eo). fold m in H2. rewrite touch_odd by exact Eo.
    unfold evalF. fold N. rewrite H2 at 1. replace (2 * m + 1)%nat with (m + (1 + m))%nat by lia. rewrite csum_app, csum_app. cbn [csum].
    rewrite <- csum_rev.
    set (S1 := csum m (fun k => nth (m - S k) c C0 * cis (- (PI * INR (S k) * x)))).
    rewrite (csum_ext m _ (fun k => nth (m - S k) c C0 * cis (- (PI * INR (S k) * x)))).
    2:{ intros k Hk. replace (m - 1 - k)%nat with (m - S k)%nat by lia. unfold C0. f_equal. unfold mode. rewrite Ee. cbn [andb]. f_equal.
        unfold freq. fold m. rewrite minus_IZR, <- !INR_IZR_INZ, minus_INR by lia. ring. }
    fold S1.
    rewrite (csum_ext m (fun k => nth (m + (1 + k)) c 0 * mode N (m + (1 + k)) x) (fun k => Cconj (nth (m - S k) c C0 * cis (- (PI * INR (S k) * x))))).
    2:{ intros k Hk. rewrite Cconj_mult, <- cis_neg.
        assert (Es := herm_sym c (m + (1 + k)) (m - S k) Hh ltac:(fold N; lia) ltac:(fold N; lia) ltac:(fold N; unfold freq; fold m; lia)).
        fold N in Es. unfold C0 in Es |- *. rewrite Es. f_equal. unfold mode. rewrite Ee. cbn [andb]. f_equal.
        unfold freq. fold m. rewrite minus_IZR, <- !INR_IZR_INZ, !plus_INR, !S_INR. change (INR 0) with 0%R.
ring. }
    rewrite <- Cconj_csum. fold S1. rewrite Nat.add_0_r.
    unfold mode at 1. rewrite Ee. cbn [andb]. rewrite Hm0. replace (PI * 0 * x)%R with 0%R by ring. rewrite cis_0.
    change (nth m c 0) with (nth m c C0). rewrite Hmr at 1.
    transitivity (RtoC (Re (nth m c C0)) + (S1 + Cconj S1)); [ring|]. rewrite plus_conj, <- RtoC_plus. reflexivity.
  - assert (Ee : Nat.even N = true) by (rewrite <- Nat.negb_odd, Eo; reflexivity).
    assert (H2 := even_half _ Ee). fold m in H2. assert (Hm1 : (1 <= m)%nat) by lia.
    unfold evalF. fold N. rewrite H2 at 1. replace (2 * m)%nat with ((1 + (m - 1)) + (1 + (m - 1)))%nat by lia. rewrite csum_app, csum_app, csum_app. cbn [csum Nat.add].
    set (S1 := csum (m - 1) (fun k => nth (m - S k) c C0 * cis (- (PI * INR (S k) * x)))).
    rewrite (csum_ext (m - 1) (fun k => nth (S k) c 0 * mode N (S k) x) (fun k => (fun i => nth (S i) c C0 * mode N (S i) x) k)) by reflexivity.
    rewrite <- csum_rev.
    rewrite (csum_ext (m - 1) (fun k => nth (S (m - 1 - 1 - k)) c C0 * mode N (S (m - 1 - 1 - k)) x) (fun k => nth (m - S k) c C0 * cis (- (PI * INR (S k) * x)))).
    2:{ intros k Hk. replace (S (m - 1 - 1 - k))%nat with (m - S k)%nat by lia. f_equal. unfold mode. rewrite Ee. cbn [andb].
        destruct (Nat.eqb_spec (m - S k) 0); [lia|]. f_equal.
        unfold freq. fold m. rewrite minus_IZR, <- !INR_IZR_INZ, minus_INR by lia. ring. }
    fold S1. rewrite Nat.add_0_r. replace (S (m - 1)) with m by lia.
    rewrite (csum_ext (m - 1) (fun k => nth (S (m - 1 + S k)) c 0 * mode N (S (m - 1 + S k)) x) (fun k => Cconj (nth (m - S k) c C0 * cis (- (PI * INR (S k) * x))))).
    2:{ intros k Hk. rewrite Cconj_mult, <- cis_neg. replace (S (m - 1 + S k))%nat with (m + S k)%nat by lia.
        assert (Es := herm_sym c (m + S k) (m - S k) Hh ltac:(fold N; lia) ltac:(fold N; lia) ltac:(fold N; unfold freq; fold m; lia)).
        fold N in Es. unfold C0 in Es |- *. rewrite Es. f_equal. unfold mode. rewrite Ee. cbn [andb].
        destruct (Nat.eqb_spec (m + S k) 0); [lia|]. f_equal.
        unfold freq. fold m. rewrite minus_IZR, <- !INR_IZR_INZ, !plus_INR. ring. }
    rewrite <- Cconj_csum. fold S1.
    unfold mode at 1. rewrite Ee. cbn [andb Nat.eqb]. fold m.
    unfold mode at 1. rewrite Ee. cbn [andb]. destruct (Nat.eqb_spec m 0); [lia|]. rewrite Hm0. replace (PI * 0 * x)%R with 0%R by ring. rewrite cis_0.
    change (nth m c 0) with (nth m c C0). rewrite Hmr at 1.
    assert (H0 : nth 0 c C0 = RtoC (Re (nth 0 c C0))).
    { assert (E := herm_top c Hh Ee Hn). unfold Im, Re in *. apply injective_projections; cbn; lra. }
    change (nth 0 c 0) with (nth 0 c C0). rewrite H0.
    assert (Hsplit : csum m (fun k => nth (m - S k) (touch c) C0 * cis (- (PI * INR (S k) * x))) = S1 + RtoC (Re (nth 0 c C0) / 2) * cis (- (PI * INR m * x))).
    { replace m with (S (m - 1)) at 1 by lia. cbn [csum]. f_equal.
      - apply csum_ext. intros k Hk. rewrite nth_touch_S by lia. reflexivity.
      - replace (S (m - 1)) with m by lia. rewrite Nat.sub_diag. f_equal. destruct c as [|a t]; [cbn in Hn; lia|]. unfold touch. fold N. rewrite Ee. reflexivity. }
    rewrite Hsplit.
    transitivity (RtoC (Re (nth m c C0)) + (S1 + Cconj S1) + RtoC (Re (nth 0 c C0)) * RtoC (cos (PI * INR m * x))); [ring|].
    rewrite plus_conj, <- RtoC_mult, <- !RtoC_plus. f_equal. rewrite cis_neg. unfold Re, Cconj, cis. cbn. field.
Qed.
Lemma horner_real_correct c x : (1 <= length c)%nat -> hermitian c -> RtoC (horner_real c x) = evalF c x.
Proof. intros Hn Hh. rewrite horner_real_hsum by exact Hn. symmetry. apply hsum_evalF; assumption. Qed.
