(** Fourier objects: evaluation with the real flag, arithmetic, real and
    imaginary part. *)
From Coq Require Import Reals ZArith List Arith Lia Lra Bool.
From Coquelicot Require Import Coquelicot.
From Verif Require Import Base ToolsProofs ChebModel TrigSpec TrigBase TrigModel TrigTrans TrigEval TrigCalc TrigModel2.
Import ListNotations.
Open Scope R_scope.
Open Scope C_scope.

(** values and coefficients describe the same function, and a function flagged
    real is real *)
Definition trig_ok (t : trig) : Prop :=
  (1 <= length (tco t))%nat /\ tva t = coeffs2vals1 (tco t) /\ (tre t = true -> hermitian (tco t)).

Lemma interp_unique v h : length v = length h -> (forall j, (j < length h)%nat -> nth j v C0 = evalF h (gridpt (length h) j)) -> vals2coeffs1 v = h.
Proof.
  intros L H. rewrite <- (trig_c2v_v2c h). f_equal. apply (list_ext _ _ C0); [rewrite coeffs2vals1_length; exact L|].
  intros j Hj. rewrite H by lia. symmetry. apply trig_values_correct. lia.
Qed.
Lemma c2v_unique v h : length v = length h -> (forall j, (j < length h)%nat -> nth j v C0 = evalF h (gridpt (length h) j)) -> v = coeffs2vals1 h.
Proof.
  intros L H. apply (list_ext _ _ C0); [rewrite coeffs2vals1_length; exact L|].
  intros j Hj. rewrite H by lia. symmetry. apply trig_values_correct. lia.
Qed.
(** pointwise combinations of coefficient vectors of equal length *)
Definition zipc (g : C -> C -> C) (c d : list C) : list C := mk (length c) (fun k => g (nth k c C0) (nth k d C0)).
Lemma evalF_mk n f x : evalF (mk n f) x = csum n (fun k => f k * mode n k x).
Proof. unfold evalF. rewrite mk_length. apply csum_ext. intros k Hk. rewrite nth_mk by exact Hk. reflexivity. Qed.
Lemma evalF_lin a b c d x : length d = length c -> evalF (zipc (fun u v => a * u + b * v) c d) x = a * evalF c x + b * evalF d x.
Proof.
  intros L. unfold zipc. rewrite evalF_mk. unfold evalF. rewrite L. rewrite <- !csum_scal, <- csum_plus. apply csum_ext. intros k _. unfold C0. ring.
Qed.
(** coefficients of the conjugate function *)
Definition conjc (c : list C) : list C :=
  mk (length c) (fun k => if andb (Nat.even (length c)) (Nat.eqb k 0) then Cconj (nth 0 c C0) else Cconj (nth (2 * (length c / 2) - k) c C0)).
Lemma Cconj_coef_conjc c z : (1 <= length c)%nat -> coef (conjc c) z = Cconj (coef c (- z)).
Proof.
  intros Hn. assert (L : length (conjc c) = length c) by apply mk_length. set (m := (length c / 2)%nat).
  destruct (Z.lt_ge_cases (Z.of_nat m) (Z.abs z)) as [Hz|Hz].
  { rewrite !coef_big by (rewrite ?L, ?Z.abs_opp; fold m; lia). symmetry. apply Cconj_R. }
  destruct (even_or_odd (length c)) as [He|Ho].
  - assert (H2 := even_half _ He). fold m in H2.
    destruct (Z.eq_dec (Z.abs z) (Z.of_nat m)) as [Et|Nt].
    + rewrite !coef_top by (rewrite ?L, ?Z.abs_opp; fold m; assumption). rewrite Cconj_mult, Cconj_R. f_equal.
      unfold conjc. rewrite nth_mk by lia. rewrite He. reflexivity.
    + rewrite !coef_even by (rewrite ?L, ?Z.abs_opp; fold m; lia). rewrite L. fold m. unfold conjc. rewrite nth_mk by lia. rewrite He. cbn [andb].
      destruct (Nat.eqb_spec (Z.to_nat (z + Z.of_nat m)) 0); [lia|]. fold m. f_equal. f_equal. lia.
  - assert (H2 := odd_half _ Ho). fold m in H2. rewrite !coef_odd by (rewrite ?L, ?Z.abs_opp; fold m; try assumption; lia). rewrite L. fold m.
    unfold conjc. rewrite nth_mk by lia. rewrite (not_even _ Ho). cbn [andb]. fold m. f_equal. f_equal. lia.
Qed.
Lemma evalF_conjc c x : (1 <= length c)%nat -> evalF (conjc c) x = Cconj (evalF c x).
Proof.
  intros Hn. assert (L : length (conjc c) = length c) by apply mk_length. set (m := (length c / 2)%nat).
  rewrite (evalF_coef (conjc c) m), (evalF_coef c m) by (rewrite ?L; fold m; lia). rewrite Cconj_csum.
  rewrite <- (csum_rev (2 * m + 1) (fun k => Cconj (term c m k x))). apply csum_ext. intros k Hk. unfold term.
  rewrite Cconj_coef_conjc, Cconj_mult, <- cis_neg by exact Hn.
  replace (Z.of_nat (2 * m + 1 - 1 - k) - Z.of_nat m)%Z with (- (Z.of_nat k - Z.of_nat m))%Z by lia. f_equal. rewrite opp_IZR. f_equal. ring.
Qed.
Definition rec_ (c : list C) : list C := zipc (fun u v => RtoC (/ 2) * u + RtoC (/ 2) * v) c (conjc c).
Definition imc_ (c : list C) : list C := zipc (fun u v => (- Ci * RtoC (/ 2)) * u + (Ci * RtoC (/ 2)) * v) c (conjc c).
Lemma evalF_rec c x : (1 <= length c)%nat -> evalF (rec_ c) x = RtoC (Re (evalF c x)).
Proof.
  intros Hn. unfold rec_. rewrite evalF_lin by apply mk_length. rewrite evalF_conjc by exact Hn. unfold Re. apply injective_projections; cbn; field.
Qed.
Lemma evalF_imc c x : (1 <= length c)%nat -> evalF (imc_ c) x = RtoC (Im (evalF c x)).
Proof.
  intros Hn. unfold imc_. rewrite evalF_lin by apply mk_length. rewrite evalF_conjc by exact Hn. unfold Im. apply injective_projections; cbn; field.
Qed.

(** ** evaluation when the flag is only approximately right *)
Lemma csum_mod n f : (Cmod (csum n f) <= rsum n (fun k => Cmod (f k)))%R.
Proof.
  induction n as [|n IH]; cbn [csum rsum]; [rewrite Cmod_0; lra|]. eapply Rle_trans; [apply Cmod_triangle|]. lra.
Qed.
Lemma cis_mod t : Cmod (cis t) = 1%R.
Proof. unfold Cmod, cis. cbn [fst snd]. rewrite <- sqrt_1. f_equal. assert (H := sin2_cos2 t). unfold Rsqr in H. nra. Qed.
Lemma mode_mod n k x : (Cmod (mode n k x) <= 1)%R.
Proof. unfold mode. destruct (andb _ _); [|rewrite cis_mod; lra]. rewrite Cmod_R. apply Rabs_le, COS_bound. Qed.
Lemma coef_bound c B k : (forall j, (j < length c)%nat -> (Cmod (evalF c (gridpt (length c) j)) <= B)%R) -> (k < length c)%nat -> (Cmod (nth k c C0) <= B)%R.
Proof.
  intros H Hk. destruct (Nat.eq_dec (length c) 1) as [E1|E1].
  - specialize (H 0%nat ltac:(lia)). assert (k = 0)%nat by lia. subst k. unfold evalF in H. rewrite E1 in H. cbn [csum] in H. unfold mode, freq in H. cbn in H.
    rewrite Rmult_0_r, Rmult_0_l, cis_0, Cmult_1_r, Cplus_0_l in H. exact H.
  - assert (E : nth k c C0 = Usum (coeffs2vals1 c) k).
    { rewrite <- vals2coeffs1_Usum by (rewrite coeffs2vals1_length; lia). rewrite trig_c2v_v2c. reflexivity. }
    rewrite E. unfold Usum. rewrite coeffs2vals1_length. assert (HN := INR_pos (length c) ltac:(lia)).
    rewrite Cmod_mult, Cmod_R, Rabs_pos_eq by (apply Rlt_le, Rinv_0_lt_compat, HN).
    apply (Rmult_le_reg_l (INR (length c))); [exact HN|]. rewrite <- Rmult_assoc, Rinv_r, Rmult_1_l by lra.
    eapply Rle_trans; [apply csum_mod|]. rewrite <- rsum_const. apply rsum_le. intros j Hj. rewrite Cmod_mult.
    assert (Ew : Cmod (Cconj (W (length c) j k)) = 1%R) by (unfold W; rewrite <- cis_neg; apply cis_mod). rewrite Ew, Rmult_1_r.
    rewrite trig_values_correct by exact Hj. apply H, Hj.
Qed.
Lemma evalF_bound c B x : (forall k, (k < length c)%nat -> (Cmod (nth k c C0) <= B)%R) -> (Cmod (evalF c x) <= INR (length c) * B)%R.
Proof.
  intros H. unfold evalF. eapply Rle_trans; [apply csum_mod|]. rewrite <- rsum_const. apply rsum_le. intros k Hk. rewrite Cmod_mult.
  assert (H1 := mode_mod (length c) k x). assert (H2 := H k Hk). assert (H3 := Cmod_ge_0 (nth k c C0)). unfold C0 in *. nra.
Qed.
Lemma re_le_Cmod a : (Rabs (Re a) <= Cmod a)%R.
Proof. eapply Rle_trans; [|apply Rmax_Cmod]. apply Rmax_l. Qed.
Lemma Re_lin (r : R) a b : Re (a + RtoC r * b) = (Re a + r * Re b)%R. Proof. unfold Re. cbn. ring. Qed.

Lemma hsum_plus a b x : length a = length b -> (1 <= length a)%nat -> hsum (zipc (fun u v => RtoC 1 * u + Ci * v) a b) x =
  (hsum a x + hsum (mk (length b) (fun k => Ci * nth k b C0)%C) x)%R.
Proof.
  intros L Hn. unfold hsum. set (s := zipc _ a b). set (ib := mk (length b) (fun k => Ci * nth k b C0)).
  assert (Ls : length s = length a) by apply mk_length. assert (Li : length ib = length a) by (unfold ib; rewrite mk_length; auto).
  rewrite Ls, Li. set (m := (length a / 2)%nat). assert (Hm := half_plus (length a)).
  assert (Hlt : (m < length a)%nat) by (apply Nat.div_lt; lia).
  assert (Hs : forall k, (k < length a)%nat -> nth k s C0 = nth k a C0 + nth k ib C0).
  { intros k Hk. unfold s, zipc, ib. rewrite nth_mk by exact Hk. rewrite nth_mk by lia. ring. }
  assert (Ht : forall k, (k < length a)%nat -> nth k (touch s) C0 = nth k (touch a) C0 + nth k (touch ib) C0).
  { intros k Hk. destruct k as [|k]; [|rewrite !nth_touch_S by lia; apply Hs, Hk].
    assert (Et : forall l : list C, (1 <= length l)%nat -> nth 0 (touch l) C0 = if Nat.even (length l) then ((Re (nth 0 l C0) / 2)%R, 0%R) else nth 0 l C0).
    { intros [|p q] Hl; [cbn in Hl; lia|]. unfold touch. destruct (Nat.even _); reflexivity. }
    rewrite !Et by lia. rewrite Ls, Li, Hs by exact Hk. destruct (Nat.even (length a)); [|reflexivity].
    unfold Re. apply injective_projections; cbn; field. }
  rewrite Hs by exact Hlt.
  rewrite (csum_ext m _ (fun k => nth (m - S k) (touch a) C0 * cis (- (PI * INR (S k) * x)) + nth (m - S k) (touch ib) C0 * cis (- (PI * INR (S k) * x)))).
  2:{ intros k Hk. rewrite Ht by lia. ring. }
  rewrite csum_plus. unfold Re. cbn. ring.
Qed.
Lemma decomp c : (1 <= length c)%nat -> c = zipc (fun u v => RtoC 1 * u + Ci * v) (rec_ c) (imc_ c).
Proof.
  intros Hn. apply grid_unique.
  - unfold zipc at 1, rec_, zipc. rewrite !mk_length. reflexivity.
  - intros j Hj. rewrite evalF_lin by (unfold rec_, imc_, zipc; rewrite !mk_length; reflexivity).
    rewrite evalF_rec, evalF_imc by exact Hn. unfold Re, Im. apply injective_projections; cbn; ring.
Qed.
Lemma horner_real_error c B x : (1 <= length c)%nat -> (forall j, (j < length c)%nat -> (Rabs (Im (evalF c (gridpt (length c) j))) <= B)%R) ->
  (Cmod (RtoC (horner_real c x) - evalF c x)%C <= 2 * INR (length c) * B)%R.
Proof.
  intros Hn HB. rewrite horner_real_hsum by exact Hn. set (n := length c) in *.
  assert (La : length (rec_ c) = n) by (unfold rec_, zipc; apply mk_length). assert (Lb : length (imc_ c) = n) by (unfold imc_, zipc; apply mk_length).
  assert (Ha : hermitian (rec_ c)) by (intros t; rewrite evalF_rec by exact Hn; reflexivity).
  assert (Hb : hermitian (imc_ c)) by (intros t; rewrite evalF_imc by exact Hn; reflexivity).
  assert (HB0 : (0 <= B)%R) by (eapply Rle_trans; [apply Rabs_pos|apply (HB 0%nat); lia]).
  assert (Bb : forall k, (k < n)%nat -> (Cmod (nth k (imc_ c) C0) <= B)%R).
  { intros k Hk. apply coef_bound; [|lia]. rewrite Lb. intros j Hj. rewrite evalF_imc, Cmod_R by exact Hn. apply HB, Hj. }
  assert (Ec := decomp c Hn). set (ib := mk (length (imc_ c)) (fun k => Ci * nth k (imc_ c) C0)).
  assert (E1 : hsum c x = (hsum (rec_ c) x + hsum ib x)%R).
  { rewrite Ec at 1. apply hsum_plus; lia. }
  assert (E2 : evalF c x = evalF (rec_ c) x + Ci * evalF (imc_ c) x).
  { rewrite Ec at 1. rewrite evalF_lin by lia. ring. }
  assert (E3 := hsum_evalF (rec_ c) x ltac:(lia) Ha).
  rewrite E1, E2, E3, RtoC_plus.
  replace (RtoC (hsum (rec_ c) x) + RtoC (hsum ib x) - (RtoC (hsum (rec_ c) x) + Ci * evalF (imc_ c) x)) with (RtoC (hsum ib x) + - (Ci * evalF (imc_ c) x)) by ring.
  eapply Rle_trans; [apply Cmod_triangle|]. rewrite Cmod_opp, Cmod_mult.
  assert (Ci1 : Cmod Ci = 1%R) by (unfold Cmod, Ci; cbn; replace (0 * (0 * 1) + 1 * (1 * 1))%R with 1%R by ring; apply sqrt_1). rewrite Ci1, Rmult_1_l.
  assert (Q1 := evalF_bound (imc_ c) B x ltac:(intros; apply Bb; lia)). rewrite Lb in Q1.
  enough (Q2 : (Cmod (RtoC (hsum ib x)) <= INR n * B)%R) by lra.
  rewrite Cmod_R. unfold hsum. assert (Li : length ib = n) by (unfold ib; rewrite mk_length; exact Lb). rewrite Li. set (m := (n / 2)%nat).
  assert (Hlt : (m < n)%nat) by (apply Nat.div_lt; lia).
  assert (Z0 : Re (nth m ib C0) = 0%R).
  { unfold ib. rewrite nth_mk by lia. assert (Es := herm_sym (imc_ c) m m Hb ltac:(lia) ltac:(lia) ltac:(rewrite Lb; unfold freq; fold m; lia)).
    apply (f_equal snd) in Es. cbn in Es. unfold Re. cbn. lra. }
  rewrite Z0, Rplus_0_l, Rabs_mult, (Rabs_pos_eq 2) by lra.
  assert (Q3 : (Cmod (csum m (fun k => nth (m - S k) (touch ib) C0 * cis (- (PI * INR (S k) * x)))%C) <= INR m * B)%R).
  { eapply Rle_trans; [apply csum_mod|]. rewrite <- rsum_const. apply rsum_le. intros k Hk. rewrite Cmod_mult, cis_mod, Rmult_1_r.
    assert (Qi : forall i, (i < n)%nat -> (Cmod (nth i ib C0) <= B)%R).
    { intros i Hi. unfold ib. rewrite nth_mk by lia. rewrite Cmod_mult, Ci1, Rmult_1_l. apply Bb, Hi. }
    destruct (m - S k)%nat as [|i] eqn:Ei; [|rewrite nth_touch_S by lia; apply Qi; lia].
    assert (Qz := Qi 0%nat ltac:(lia)). destruct ib as [|p q]; [cbn in Li; lia|]. unfold touch. destruct (Nat.even _); [|exact Qz].
    cbn [nth] in *. eapply Rle_trans; [|exact Qz]. replace ((Re p / 2)%R, 0%R) with (RtoC (Re p / 2)) by reflexivity. rewrite Cmod_R.
    assert (G := re_le_Cmod p). assert (G2 := Cmod_ge_0 p). unfold Rdiv. rewrite Rabs_mult. rewrite (Rabs_pos_eq (/ 2)) by lra. lra. }
  assert (G := re_le_Cmod (csum m (fun k => nth (m - S k) (touch ib) C0 * cis (- (PI * INR (S k) * x))))).
  assert (Hm : (2 * INR m <= INR n)%R).
  { replace 2%R with (INR 2) by reflexivity. rewrite <- mult_INR. apply le_INR. unfold m. apply Nat.mul_div_le. lia. }
  nra.
Qed.

Lemma Rleb_true a b : Rleb a b = true <-> (a <= b)%R. Proof. unfold Rleb. destruct (Rle_dec a b); split; try congruence; tauto. Qed.
Lemma Rltb_true a b : Rltb a b = true <-> (a < b)%R. Proof. unfold Rltb. destruct (Rlt_dec a b); split; try congruence; tauto. Qed.
Lemma teps_pos : (0 < teps)%R. Proof. unfold teps. apply Rinv_0_lt_compat. lra. Qed.

(** C30: a function built from coefficients evaluates to its series, up to the
    error made when imaginary parts below the threshold are ignored *)
Lemma trig_call_error c x : (1 <= length c)%nat ->
  (Cmod (fst (tcall (trig_of_coeffs c) x) - evalF c x)%C <= 6 * INR (length c) * teps * Rmax teps (tvscale c))%R.
Proof.
  intros Hn. assert (Te := teps_pos). assert (HM := Rmax_l teps (tvscale c)). assert (HN := INR_pos _ Hn).
  unfold tcall, trig_of_coeffs, mk_trig. cbn [tre tco tva]. destruct (isrealb _ c) eqn:E; cbn [fst].
  - eapply Rle_trans; [apply (horner_real_error c (3 * teps * Rmax teps (tvscale c))); [exact Hn|]|].
    + intros j Hj. unfold isrealb in E. apply (proj1 (forallb_nth _ _ C0)) with (i := j) in E; [|rewrite coeffs2vals1_length; exact Hj].
      apply Rleb_true in E. rewrite trig_values_correct in E by exact Hj. exact E.
    + lra.
  - rewrite horner_cmplx_correct by exact Hn. unfold Cminus. rewrite Cplus_opp_r, Cmod_0.
    repeat apply Rmult_le_pos; lra.
Qed.
Lemma trig_call_correct t x : trig_ok t -> fst (tcall t x) = evalF (tco t) x.
Proof.
  intros [Hn [_ Hr]]. unfold tcall. destruct (tre t); cbn [fst]; [apply horner_real_correct; auto|apply horner_cmplx_correct, Hn].
Qed.
(** C59: evaluation leaves a function of odd length, or one flagged complex,
    unchanged *)
Lemma trig_call_stable t x : Nat.odd (length (tco t)) = true \/ tre t = false -> snd (tcall t x) = t.
Proof.
  intros H. unfold tcall. destruct (tre t) eqn:E; [|reflexivity]. cbn [snd]. destruct H as [H|H]; [|congruence]. rewrite touch_odd by exact H.
  destruct t; cbn in *; subst; reflexivity.
Qed.

Lemma maxmod_ge l a : In a l -> (Cmod a <= maxmod l)%R.
Proof.
  induction l as [|b t IH]; intros H; [destruct H|]. cbn [maxmod fold_right]. destruct H as [->|H]; [apply Rmax_l|]. eapply Rle_trans; [apply IH, H|apply Rmax_r].
Qed.
Lemma tvscale_pos c : (0 <= tvscale c)%R.
Proof. unfold tvscale, maxmod. induction (coeffs2vals1 c) as [|a t IH]; cbn; [lra|]. eapply Rle_trans; [apply IH|apply Rmax_r]. Qed.
Lemma isrealb_real v c : (forall j, (j < length v)%nat -> Im (nth j v C0) = 0%R) -> isrealb v c = true.
Proof.
  intros H. unfold isrealb. apply (forallb_nth _ _ C0). intros j Hj. apply Rleb_true. rewrite H, Rabs_R0 by exact Hj.
  assert (Te := teps_pos). assert (HM := Rmax_l teps (tvscale c)). repeat apply Rmult_le_pos; lra.
Qed.
Lemma realvals_id b v : (b = true -> forall j, (j < length v)%nat -> Im (nth j v C0) = 0%R) -> realvals b v = v.
Proof.
  destruct b; [|reflexivity]. intros H. cbn [realvals]. apply (list_ext _ _ C0); [apply map_length|]. rewrite map_length. intros j Hj.
  rewrite map_nth_C by exact Hj. specialize (H eq_refl j Hj). unfold Re, Im in *. apply injective_projections; cbn; lra.
Qed.
Lemma mk_trig_ok c : (1 <= length c)%nat -> hermitian c -> trig_ok (mk_trig (coeffs2vals1 c) c) /\ tre (mk_trig (coeffs2vals1 c) c) = true.
Proof.
  intros Hn Hh. assert (Hv : forall j, (j < length (coeffs2vals1 c))%nat -> Im (nth j (coeffs2vals1 c) C0) = 0%R).
  { rewrite coeffs2vals1_length. intros j Hj. rewrite trig_values_correct by exact Hj. apply Hh. }
  assert (E := isrealb_real _ c Hv). unfold mk_trig. split; [|exact E]. split; [exact Hn|]. cbn [tva tco tre]. split; [|intros _; exact Hh].
  apply realvals_id. intros _. exact Hv.
Qed.
Lemma ok_values f j : trig_ok f -> (j < length (tco f))%nat -> nth j (tva f) C0 = evalF (tco f) (gridpt (length (tco f)) j).
Proof. intros [_ [-> _]] Hj. apply trig_values_correct, Hj. Qed.
Lemma ok_len f : trig_ok f -> length (tva f) = length (tco f).
Proof. intros [_ [-> _]]. apply coeffs2vals1_length. Qed.

(** C59 is false for even lengths: cos(pi x), stored as [1, 0], evaluates at 0
    to 1 and then to 1/2 *)
Lemma trig_call_changes : exists t, trig_ok t /\ (forall x, evalF (tco t) x = RtoC (cos (PI * x))) /\
  let (v, t') := tcall t 0 in v = RtoC 1 /\ fst (tcall t' 0) = RtoC (1 / 2).
Proof.
  exists (mk_trig (coeffs2vals1 [RtoC 1; RtoC 0]) [RtoC 1; RtoC 0]).
  assert (E : forall t, evalF [RtoC 1; RtoC 0] t = RtoC (cos (PI * t))).
  { intros t. unfold evalF, mode. cbn. replace (PI * 1 * t)%R with (PI * t)%R by ring. ring. }
  assert (H : hermitian [RtoC 1; RtoC 0]) by (intros t; rewrite E; reflexivity).
  destruct (mk_trig_ok [RtoC 1; RtoC 0] ltac:(cbn; lia) H) as [Hok Hr]. split; [exact Hok|]. split; [exact E|].
  unfold tcall. rewrite Hr. cbn [tco mk_trig]. split.
  - rewrite horner_real_correct by (try exact H; cbn; lia). rewrite E, Rmult_0_r, cos_0. reflexivity.
  - cbn [tre tco fst]. unfold horner_real, touch. cbn. f_equal. rewrite Rmult_0_r, cos_0, sin_0. lra.
Qed.

(** ** arithmetic *)
Lemma prolong2_up c N b : (1 <= length c < N)%nat -> (b = true -> hermitian c) ->
  exists d, prolong2 c N b = Some (d, coeffs2vals1 d) /\ length d = N /\ forall x, evalF d x = evalF c x.
Proof.
  intros H Hh. destruct (trig_prolong_fun_correct c N H) as [d [E [L Hx]]]. exists d. unfold prolong2. rewrite E. split; [|split; assumption]. do 2 f_equal.
  apply realvals_id. intros Hb j. rewrite coeffs2vals1_length. intros Hj. rewrite trig_values_correct by exact Hj. rewrite Hx. apply Hh, Hb.
Qed.
Lemma nth_ladd u v j : (j < length u)%nat -> length v = length u -> nth j (ladd u v) C0 = nth j u C0 + nth j v C0.
Proof.
  intros Hj L. unfold ladd. rewrite nth_indep with (d' := (fun p : C * C => fst p + snd p) (C0, C0)) by (rewrite map_length, combine_length; lia).
  rewrite (map_nth (fun p : C * C => fst p + snd p)). rewrite combine_nth by (symmetry; exact L). reflexivity.
Qed.
Lemma ladd_length u v : length v = length u -> length (ladd u v) = length u.
Proof. intros L. unfold ladd. rewrite map_length, combine_length. lia. Qed.
Lemma allzero_nth l : allzero l = true -> forall j, nth j l C0 = C0.
Proof.
  intros H j. destruct (Nat.lt_ge_cases j (length l)) as [Hj|Hj]; [|apply nth_overflow, Hj].
  unfold allzero in H. apply (proj1 (forallb_nth _ _ C0)) with (i := j) in H; [|exact Hj]. apply andb_prop in H. destruct H as [H1 H2].
  apply Reqb_true in H1. apply Reqb_true in H2. unfold Re, Im in *. apply injective_projections; cbn; assumption.
Qed.
Lemma evalF_zero c x : (forall j, nth j c C0 = C0) -> evalF c x = RtoC 0.
Proof. intros H. unfold evalF. apply csum_zero. intros k _. unfold C0 in H. rewrite H. ring. Qed.
Lemma herm_lin a b c d : length d = length c -> hermitian c -> hermitian d -> hermitian (zipc (fun u v => RtoC a * u + RtoC b * v) c d).
Proof. intros L H1 H2 x. rewrite evalF_lin by exact L. assert (A := H1 x). assert (B := H2 x). unfold Im in *. cbn. rewrite A, B. ring. Qed.

(** the stored values agree with the coefficients up to the tolerance for being real *)
Definition near (r : trig) : Prop := length (tva r) = length (tco r) /\
  forall j, (j < length (tco r))%nat -> (Cmod (nth j (tva r) C0 - evalF (tco r) (gridpt (length (tco r)) j))%C <= 3 * teps * Rmax teps (tvscale (tco r)))%R.
Lemma near_mk h : near (mk_trig (coeffs2vals1 h) h).
Proof.
  assert (P : (0 <= 3 * teps * Rmax teps (tvscale h))%R).
  { assert (T := teps_pos). assert (Q := Rmax_l teps (tvscale h)). apply Rmult_le_pos; lra. }
  unfold near, mk_trig. cbn [tva tco]. split; [destruct (isrealb _ _); cbn [realvals]; rewrite ?map_length; apply coeffs2vals1_length|]. intros j Hj.
  rewrite <- trig_values_correct by exact Hj. assert (I : In (nth j (coeffs2vals1 h) C0) (coeffs2vals1 h)) by (apply nth_In; rewrite coeffs2vals1_length; exact Hj).
  destruct (isrealb (coeffs2vals1 h) h) eqn:E; cbn [realvals].
  - unfold isrealb in E. rewrite forallb_forall in E. specialize (E _ I). apply Rleb_true in E. rewrite (map_nth_C (fun a => RtoC (Re a))) by (rewrite coeffs2vals1_length; exact Hj).
    set (v := nth j (coeffs2vals1 h) C0) in *. replace (RtoC (Re v) - v) with (- (0%R, Im v)) by (apply injective_projections; cbn; unfold Re, Im; ring).
    rewrite Cmod_opp. unfold Cmod. cbn [fst snd]. replace (0 ^ 2 + Im v ^ 2)%R with (Rsqr (Im v)) by (unfold Rsqr; ring). rewrite sqrt_Rsqr_abs. exact E.
  - replace (nth j (coeffs2vals1 h) C0 - nth j (coeffs2vals1 h) C0) with (RtoC 0) by ring. rewrite Cmod_0. exact P.
Qed.
Lemma near_ok r : trig_ok r -> near r.
Proof.
  intros H. split; [apply ok_len, H|]. intros j Hj. rewrite ok_values by assumption. unfold Cminus. rewrite Cplus_opp_r, Cmod_0.
  assert (T := teps_pos). assert (Q := Rmax_l teps (tvscale (tco r))). apply Rmult_le_pos; lra.
Qed.

(** the result [r] of an operation represents the function F, its values agree with it to the tolerance, and it is exact
    when [re] holds *)
Definition represents (r : trig) (F : R -> C) (re : Prop) : Prop :=
  (1 <= length (tco r))%nat /\ (forall x, evalF (tco r) x = F x) /\ (re -> trig_ok r /\ tre r = true) /\ near r.

Lemma tadd_core c d (b : bool) : (1 <= length c)%nat -> length d = length c -> (b = true -> hermitian c /\ hermitian d) ->
  let v := realvals b (ladd (coeffs2vals1 c) (coeffs2vals1 d)) in
  exists h, length h = length c /\ (forall x, evalF h x = evalF c x + evalF d x) /\ v = coeffs2vals1 h /\ vals2coeffs1 v = h /\ (b = true -> hermitian h).
Proof.
  intros Hn L Hb v. set (h := zipc (fun u w => RtoC 1 * u + RtoC 1 * w) c d).
  assert (Lh : length h = length c) by apply mk_length.
  assert (Eh : forall x, evalF h x = evalF c x + evalF d x) by (intros x; unfold h; rewrite evalF_lin by exact L; ring).
  assert (Hh : b = true -> hermitian h) by (intros B; apply herm_lin; [exact L|apply Hb, B|apply Hb, B]).
  assert (Ll : length (ladd (coeffs2vals1 c) (coeffs2vals1 d)) = length h) by (rewrite ladd_length; rewrite !coeffs2vals1_length; lia).
  assert (Ev : v = coeffs2vals1 h).
  { unfold v.
    assert (G : ladd (coeffs2vals1 c) (coeffs2vals1 d) = coeffs2vals1 h).
    { apply c2v_unique; [exact Ll|]. intros j Hj. rewrite nth_ladd by (rewrite !coeffs2vals1_length; lia). rewrite !trig_values_correct by lia. rewrite Eh, L, Lh. reflexivity. }
    rewrite G. apply realvals_id. intros B j. rewrite coeffs2vals1_length. intros Hj. rewrite trig_values_correct by exact Hj. apply Hh, B. }
  exists h. split; [exact Lh|]. split; [exact Eh|]. split; [exact Ev|]. split; [rewrite Ev; apply trig_c2v_v2c|exact Hh].
Qed.
Lemma represents_mk h F (re : Prop) : (1 <= length h)%nat -> (forall x, evalF h x = F x) -> (re -> hermitian h) -> represents (mk_trig (coeffs2vals1 h) h) F re.
Proof. intros Hn HF Hre. split; [exact Hn|]. split; [exact HF|]. split; [|apply near_mk]. intros H. apply mk_trig_ok; auto. Qed.
Lemma zero_rep F (re : Prop) : (forall x, RtoC 0 = F x) -> represents (mk_trig [C0] [C0]) F re.
Proof.
  intros HF. assert (E : forall x, evalF [C0] x = RtoC 0) by (intros x; apply evalF_zero; intros [|[|j]]; reflexivity).
  assert (Ev : coeffs2vals1 [C0] = [C0]) by reflexivity. rewrite <- Ev at 1.
  apply represents_mk; [cbn; lia|intros x; rewrite E; apply HF|]. intros _ x. rewrite E. reflexivity.
Qed.
Lemma trig_add_correct f g : trig_ok f -> trig_ok g ->
  exists r, tadd f g = Some r /\ represents r (fun x => evalF (tco f) x + evalF (tco g) x) (tre f = true /\ tre g = true).
Proof.
  intros Hf Hg. assert (Hf' := Hf). assert (Hg' := Hg). destruct Hf as [Nf [Vf Rf]]. destruct Hg as [Ng [Vg Rg]]. unfold tadd.
  assert (K : exists c d, length d = length c /\ (1 <= length c)%nat /\ (forall x, evalF c x = evalF (tco f) x) /\ (forall x, evalF d x = evalF (tco g) x) /\
    (if Nat.ltb (length (tco g)) (length (tco f)) then
           match prolong2 (tco g) (length (tco f)) (tre g) with None => None | Some (_, ov) => Some (tva f, ov) end
         else if Nat.ltb (length (tco f)) (length (tco g)) then
           match prolong2 (tco f) (length (tco g)) (tre f) with None => None | Some (_, v) => Some (v, tva g) end
         else Some (tva f, tva g)) = Some (coeffs2vals1 c, coeffs2vals1 d)).
  { destruct (Nat.ltb_spec (length (tco g)) (length (tco f))) as [H1|H1].
    - destruct (prolong2_up (tco g) (length (tco f)) (tre g) ltac:(lia) Rg) as [d [E [L Hx]]]. rewrite E. exists (tco f), d. rewrite Vf. repeat split; auto.
    - destruct (Nat.ltb_spec (length (tco f)) (length (tco g))) as [H2|H2].
      + destruct (prolong2_up (tco f) (length (tco g)) (tre f) ltac:(lia) Rf) as [d [E [L Hx]]]. rewrite E. exists d, (tco g). rewrite Vg. repeat split; auto; lia.
      + exists (tco f), (tco g). rewrite Vf, Vg. repeat split; auto; lia. }
  destruct K as [c [d [L [Nc [Ec [Ed ->]]]]]].
  destruct (tadd_core c d (tre f && tre g) Nc L) as [h [Lh [Eh [Ev [Ehv Hh]]]]].
  { intros B. apply andb_prop in B. destruct B as [B1 B2]. split; intros x; [rewrite Ec|rewrite Ed]; auto; [apply Rf, B1|apply Rg, B2]. }
  rewrite Ehv. assert (EF : forall x, evalF h x = evalF (tco f) x + evalF (tco g) x) by (intros; rewrite Eh, Ec, Ed; reflexivity).
  destruct (allzero _ || allzero h) eqn:Ez.
  - eexists. split; [reflexivity|]. apply zero_rep. intros x. rewrite <- EF. symmetry. apply evalF_zero. apply orb_prop in Ez. destruct Ez as [Ez|Ez].
    + rewrite <- Ehv. assert (Z : forall j, nth j (vals2coeffs1 (realvals (tre f && tre g) (ladd (coeffs2vals1 c) (coeffs2vals1 d)))) C0 = C0); [|exact Z].
      set (v := realvals _ _) in *. assert (Zv := allzero_nth v Ez). intros j. destruct (Nat.lt_ge_cases j (length v)) as [Hj|Hj].
      2:{ apply nth_overflow. rewrite vals2coeffs1_length. exact Hj. }
      destruct (Nat.le_gt_cases (length v) 1) as [H1|H1].
      * unfold vals2coeffs1. destruct (Nat.leb_spec (length v) 1); [|lia]. apply Zv.
      * rewrite vals2coeffs1_Usum by lia. unfold Usum. rewrite (csum_zero (length v)); [unfold C0; ring|]. intros k _. rewrite Zv. unfold C0. ring.
    + apply allzero_nth, Ez.
  - eexists. split; [reflexivity|]. rewrite Ev. apply represents_mk; [lia|exact EF|]. intros [H1 H2]. apply Hh. rewrite H1, H2. reflexivity.
Qed.

Lemma map_rep (g : C -> C) F f (re : Prop) : trig_ok f ->
  (forall x, evalF (map g (tco f)) x = F x) ->
  (forall j, (j < length (tco f))%nat -> g (evalF (tco f) (gridpt (length (tco f)) j)) = F (gridpt (length (tco f)) j)) ->
  (re -> hermitian (map g (tco f))) ->
  represents (mk_trig (map g (tva f)) (map g (tco f))) F re.
Proof.
  intros Hok HF Hv Hre. assert (Hn := proj1 Hok).
  assert (E : map g (tva f) = coeffs2vals1 (map g (tco f))).
  { apply c2v_unique; [rewrite !map_length; apply ok_len, Hok|]. rewrite map_length. intros j Hj.
    rewrite map_nth_C by (rewrite ok_len by exact Hok; exact Hj). rewrite ok_values by assumption. rewrite Hv by exact Hj. symmetry. apply HF. }
  rewrite E. apply represents_mk; [rewrite map_length; exact Hn|exact HF|exact Hre].
Qed.
Lemma evalF_map_scal a c x : evalF (map (fun v => v * a) c) x = evalF c x * a.
Proof. unfold evalF. rewrite map_length, <- csum_scal_r. apply csum_ext. intros k Hk. rewrite map_nth_C by exact Hk. unfold C0. ring. Qed.
Lemma trig_neg_correct f : trig_ok f -> represents (tneg f) (fun x => - evalF (tco f) x) (tre f = true).
Proof.
  intros Hok. assert (E : forall x, evalF (map (fun a => RtoC (-1) * a) (tco f)) x = - evalF (tco f) x).
  { intros x. rewrite (map_ext _ (fun v => v * RtoC (-1))) by (intros; ring). rewrite evalF_map_scal. apply injective_projections; cbn; ring. }
  unfold tneg. apply map_rep; auto.
  - intros j Hj. apply injective_projections; cbn; ring.
  - intros Hr x. rewrite E. assert (H := proj2 (proj2 Hok) Hr x). unfold Im in *. cbn. rewrite H. ring.
Qed.
Lemma trig_mul_num_correct f a : trig_ok f -> represents (tmul_num f a) (fun x => evalF (tco f) x * a) (tre f = true /\ Im a = 0%R).
Proof.
  intros Hok. unfold tmul_num. apply map_rep; auto.
  - intros x. apply evalF_map_scal.
  - intros [Hr Ha] x. rewrite evalF_map_scal. assert (H := proj2 (proj2 Hok) Hr x). unfold Im in *. cbn. rewrite H, Ha. ring.
Qed.
Lemma trig_div_num_correct f a : trig_ok f -> (/ 10 ^ 16 <= Cmod a)%R ->
  exists r, tdiv_num f a = Some r /\ represents r (fun x => evalF (tco f) x / a) (tre f = true /\ Im a = 0%R).
Proof.
  intros Hok Ha. unfold tdiv_num. destruct (Rltb (Cmod a) (/ 10 ^ 16)) eqn:E; [apply Rltb_true in E; lra|]. eexists. split; [reflexivity|].
  unfold Cdiv. apply (map_rep (fun v => v * / a)); auto.
  - intros x. apply evalF_map_scal.
  - intros [Hr Hi] x. rewrite evalF_map_scal. assert (H := proj2 (proj2 Hok) Hr x). unfold Im in *. cbn. rewrite H, Hi. unfold Rdiv. ring.
Qed.
Lemma Cmod_neg1 a : Cmod (RtoC (-1) * a) = Cmod a.
Proof. rewrite Cmod_mult, Cmod_R. replace (Rabs (-1)) with 1%R by (rewrite Rabs_left; lra). ring. Qed.
Lemma neg_values c : coeffs2vals1 (map (fun a => RtoC (-1) * a) c) = map (fun a => RtoC (-1) * a) (coeffs2vals1 c).
Proof.
  symmetry. apply c2v_unique; [rewrite !map_length; apply coeffs2vals1_length|]. rewrite map_length. intros j Hj.
  rewrite map_nth_C by (rewrite coeffs2vals1_length; exact Hj). rewrite trig_values_correct by exact Hj.
  rewrite (map_ext _ (fun v => v * RtoC (-1))) by (intros; ring). rewrite evalF_map_scal. ring.
Qed.
Lemma isrealb_neg v c : isrealb (map (fun a => RtoC (-1) * a) v) (map (fun a => RtoC (-1) * a) c) = isrealb v c.
Proof.
  assert (E : tvscale (map (fun a => RtoC (-1) * a) c) = tvscale c).
  { unfold tvscale. rewrite neg_values. induction (coeffs2vals1 c) as [|a t IH]; [reflexivity|]. unfold maxmod in *. cbn [map fold_right]. rewrite IH, Cmod_neg1. reflexivity. }
  unfold isrealb. rewrite E. induction v as [|a t IH]; [reflexivity|]. cbn [map forallb]. rewrite IH. f_equal. f_equal.
  rewrite <- Rabs_Ropp. f_equal. unfold Im. cbn. ring.
Qed.
Lemma trig_sub_correct f g : trig_ok f -> trig_ok g -> tre g = isrealb (tva g) (tco g) ->
  exists r, tsub f g = Some r /\ represents r (fun x => evalF (tco f) x - evalF (tco g) x) (tre f = true /\ tre g = true).
Proof.
  intros Hf Hg Hflag. destruct (trig_neg_correct g Hg) as [N [E [K _]]].
  assert (Hok : trig_ok (tneg g)).
  { destruct (tre g) eqn:Rg; [apply K; reflexivity|]. split; [exact N|]. unfold tneg, mk_trig. cbn [tre tva tco]. rewrite isrealb_neg, <- Hflag. cbn [realvals].
    split; [|discriminate]. rewrite neg_values. f_equal. apply Hg. }
  destruct (trig_add_correct f (tneg g) Hf Hok) as [r [Er [Nr [Ex [Kr Kn]]]]]. exists r. split; [exact Er|]. split; [exact Nr|]. split; [|split; [|exact Kn]].
  - intros x. rewrite Ex, E. reflexivity.
  - intros [H1 H2]. apply Kr. split; [exact H1|]. apply K, H2.
Qed.
Lemma const_index n : (if Nat.odd n then (n + 1) / 2 - 1 else n / 2)%nat = (n / 2)%nat.
Proof.
  destruct (Nat.odd n) eqn:E; [|reflexivity]. assert (A := odd_half _ E). replace (n + 1)%nat with ((n / 2 + 1) * 2)%nat by lia. rewrite Nat.div_mul by lia. lia.
Qed.
Lemma trig_add_num_correct f a : trig_ok f -> represents (tadd_num f a) (fun x => evalF (tco f) x + a) (tre f = true /\ Im a = 0%R).
Proof.
  intros Hok. assert (Hn := proj1 Hok). unfold tadd_num. rewrite const_index. set (n := length (tco f)) in *. set (m := (n / 2)%nat).
  assert (Hm : (m < n)%nat) by (apply Nat.div_lt; lia).
  set (h := mk n _). assert (Lh : length h = n) by apply mk_length.
  assert (E : forall x, evalF h x = evalF (tco f) x + a).
  { intros x. unfold h. rewrite evalF_mk.
    rewrite (csum_ext n _ (fun k => nth k (tco f) C0 * mode n k x + (if Nat.eqb k m then a else RtoC 0))).
    - rewrite csum_plus. unfold evalF. fold n. f_equal. rewrite (csum_single n _ m Hm); [rewrite Nat.eqb_refl; reflexivity|].
      intros j _ Hj. destruct (Nat.eqb_spec j m); [contradiction|reflexivity].
    - intros k Hk. destruct (Nat.eqb_spec k m) as [->|]; [|ring]. rewrite Cmult_plus_distr_r. f_equal.
      assert (Em : mode n m x = RtoC 1).
      { unfold mode. destruct (Nat.even n) eqn:Ee; cbn [andb].
        - assert (A := even_half _ Ee). fold m in A. destruct (Nat.eqb_spec m 0); [lia|]. unfold freq. fold m. rewrite Z.sub_diag. rewrite <- cis_0. f_equal. ring.
        - unfold freq. fold m. rewrite Z.sub_diag. rewrite <- cis_0. f_equal. ring. }
      rewrite Em. ring. }
  assert (Ev : map (fun v => v + a) (tva f) = coeffs2vals1 h).
  { apply c2v_unique; [rewrite map_length, Lh; apply ok_len, Hok|]. rewrite Lh. intros j Hj. rewrite map_nth_C by (rewrite ok_len by exact Hok; exact Hj).
    rewrite ok_values by assumption. rewrite E. reflexivity. }
  rewrite Ev. apply represents_mk; [lia|exact E|]. intros [Hr Ha] x. rewrite E. assert (H := proj2 (proj2 Hok) Hr x). unfold Im in *. cbn. rewrite H, Ha. ring.
Qed.

(** C34 is false: 1/f for the constant 2, and 2**f for the constant 3 *)
Definition tconst (a : R) : trig := mk_trig [RtoC a] [RtoC a].
Lemma tconst_ok a : trig_ok (tconst a) /\ tre (tconst a) = true /\ forall x, evalF (tco (tconst a)) x = RtoC a.
Proof.
  assert (E : forall x, evalF [RtoC a] x = RtoC a).
  { intros x. unfold evalF, mode, freq. cbn. rewrite Rmult_0_r, Rmult_0_l, cis_0. ring. }
  destruct (mk_trig_ok [RtoC a] ltac:(cbn; lia)) as [A B]; [intros x; rewrite E; reflexivity|]. split; [exact A|]. split; [exact B|exact E].
Qed.
Lemma trig_num_div_wrong : exists f r, trig_ok f /\ (forall x, evalF (tco f) x = RtoC 2) /\ tnum_div (RtoC 1) f = Some r /\ forall x, evalF (tco r) x = RtoC 2.
Proof.
  destruct (tconst_ok 2) as [A [B E]]. destruct (trig_div_num_correct (tconst 2) (RtoC 1) A) as [r [Er [N [Ex _]]]].
  { rewrite Cmod_1. apply (Rmult_le_reg_l (10 ^ 16)); [lra|]. rewrite Rinv_r by lra. lra. }
  exists (tconst 2), r. split; [exact A|]. split; [exact E|]. split; [exact Er|]. intros x. rewrite Ex, E. apply injective_projections; cbn; field.
Qed.
Lemma trig_num_pow_wrong : exists f, trig_ok f /\ (forall x, evalF (tco f) x = RtoC 3) /\ forall x, tnum_pow_samples 2 f x = RtoC 9.
Proof.
  destruct (tconst_ok 3) as [A [B E]]. exists (tconst 3). split; [exact A|]. split; [exact E|]. intros x. unfold tnum_pow_samples, tpow_samples.
  rewrite trig_call_correct, E by exact A. cbn [cpow]. apply injective_projections; cbn; ring.
Qed.

(** ** real and imaginary part *)
Lemma map_part (g : C -> R) (gc : list C -> list C) f :
  (forall c, length (gc c) = length c) ->
  (forall c x, (1 <= length c)%nat -> evalF (gc c) x = RtoC (g (evalF c x))) -> trig_ok f ->
  let v := map (fun a => RtoC (g a)) (tva f) in
  v = coeffs2vals1 (gc (tco f)) /\ vals2coeffs1 v = gc (tco f) /\ hermitian (gc (tco f)).
Proof.
  intros Lg Hg Hok v. assert (Hn := proj1 Hok).
  assert (Ev : v = coeffs2vals1 (gc (tco f))).
  { apply c2v_unique; [unfold v; rewrite map_length, Lg; apply ok_len, Hok|]. rewrite Lg. intros j Hj. unfold v.
    rewrite map_nth_C by (rewrite ok_len by exact Hok; exact Hj). rewrite ok_values by assumption. symmetry. apply Hg, Hn. }
  split; [exact Ev|]. split; [rewrite Ev; apply trig_c2v_v2c|]. intros x. rewrite Hg by exact Hn. reflexivity.
Qed.
Lemma zeros_rep n (F : R -> C) : (1 <= n)%nat -> (forall x, F x = RtoC 0) -> represents (mk_trig (repeat C0 n) (repeat C0 n)) F True.
Proof.
  intros Hn HF. assert (Z : forall x, evalF (repeat C0 n) x = RtoC 0) by (intros x; apply evalF_zero; intros; apply nth_repeat_C0).
  assert (E : repeat C0 n = coeffs2vals1 (repeat C0 n)).
  { apply c2v_unique; [reflexivity|]. intros j Hj. rewrite Z, nth_repeat_C0. reflexivity. }
  rewrite E at 1. apply represents_mk; [rewrite repeat_length; exact Hn|intros; rewrite Z, HF; reflexivity|]. intros _ x. rewrite Z. reflexivity.
Qed.
Lemma trig_imag_correct f : trig_ok f -> represents (timag_part f) (fun x => RtoC (Im (evalF (tco f) x))) True.
Proof.
  intros Hok. assert (Hn := proj1 Hok). unfold timag_part. destruct (tre f) eqn:E.
  - rewrite ok_len by exact Hok. apply zeros_rep; [exact Hn|]. intros x. rewrite (proj2 (proj2 Hok) E x). reflexivity.
  - destruct (map_part Im imc_ f ltac:(intros; apply mk_length) evalF_imc Hok) as [A [B D]]. cbn zeta in *. rewrite B, A.
    apply represents_mk; [unfold imc_, zipc; rewrite mk_length; exact Hn|intros; apply evalF_imc, Hn|intros _; exact D].
Qed.
(** real(f) is right unless all real parts on the grid are below eps *)
Lemma trig_real_correct f : trig_ok f -> (tre f = true \/ exists j, (j < length (tva f))%nat /\ (teps <= Re (nth j (tva f) C0))%R) ->
  represents (treal_part f) (fun x => RtoC (Re (evalF (tco f) x))) True.
Proof.
  intros Hok H. assert (Hn := proj1 Hok). unfold treal_part. destruct (tre f) eqn:E.
  - split; [exact Hn|]. split; [|split; [intros _; split; [exact Hok|exact E]|apply near_ok, Hok]]. intros x. assert (Z := proj2 (proj2 Hok) E x). unfold Im, Re in *. apply injective_projections; cbn; lra.
  - destruct H as [H|[j [Hj Hge]]]; [congruence|].
    destruct (map_part Re rec_ f ltac:(intros; apply mk_length) evalF_rec Hok) as [A [B D]]. cbn zeta in *.
    assert (Ef : forallb (fun a => Rltb (Re a) teps) (map (fun a => RtoC (Re a)) (tva f)) = false).
    { apply not_true_iff_false. intros T. apply (proj1 (forallb_nth _ _ C0)) with (i := j) in T; [|rewrite map_length; exact Hj].
      apply Rltb_true in T. rewrite map_nth_C in T by exact Hj. cbn in T. unfold Re in *. lra. }
    rewrite Ef, B, A. apply represents_mk; [unfold rec_, zipc; rewrite mk_length; exact Hn|intros; apply evalF_rec, Hn|intros _; exact D].
Qed.
(** C35 is false: for the constant -1 + i the real part comes out as 0, and
    conj returns a complex function unchanged *)
Definition tmi : trig := mk_trig [((-1)%R, 1%R)] [((-1)%R, 1%R)].
Lemma tmi_ok : trig_ok tmi /\ tre tmi = false /\ forall x, evalF (tco tmi) x = ((-1)%R, 1%R).
Proof.
  assert (E : forall x, evalF [((-1)%R, 1%R)] x = ((-1)%R, 1%R)).
  { intros x. unfold evalF, mode, freq. cbn. rewrite Rmult_0_r, Rmult_0_l, cis_0. ring. }
  assert (V : tvscale [((-1)%R, 1%R)] = sqrt 2).
  { unfold tvscale, maxmod. cbn. rewrite Rmax_left by apply Cmod_ge_0. unfold Cmod. cbn. f_equal. ring. }
  assert (Hs : (sqrt 2 <= 2)%R) by (rewrite <- (sqrt_Rsqr 2) at 2 by lra; apply sqrt_le_1_alt; unfold Rsqr; lra).
  assert (Ef : tre tmi = false).
  { unfold tmi, mk_trig. cbn [tre]. unfold isrealb. apply not_true_iff_false. intros T. cbn [forallb] in T. apply andb_prop in T. destruct T as [T _]. apply Rleb_true in T.
    rewrite V in T. cbn in T. rewrite Rabs_R1 in T. unfold teps in T.
    assert (Rmax (/ 10 ^ 10) (sqrt 2) <= 2)%R. { apply Rmax_lub; [|exact Hs]. apply (Rmult_le_reg_l (10 ^ 10)); [lra|]. rewrite Rinv_r by lra. lra. }
    assert (I1 : (/ 10 ^ 10 <= / 100)%R) by (apply Rinv_le_contravar; lra).
    assert (I2 : (0 < / 10 ^ 10)%R) by (apply Rinv_0_lt_compat; lra). nra. }
  split; [|split; [exact Ef|exact E]]. split; [cbn; lia|]. split; [|rewrite Ef; discriminate].
  unfold tmi, mk_trig. cbn [tva tco]. unfold tmi, mk_trig in Ef. cbn [tre] in Ef. rewrite Ef. reflexivity.
Qed.
Lemma trig_real_wrong : exists f, trig_ok f /\ (forall x, Re (evalF (tco f) x) = (-1)%R) /\ forall x, evalF (tco (treal_part f)) x = RtoC 0.
Proof.
  destruct tmi_ok as [A [B E]]. exists tmi. split; [exact A|]. split; [intros x; rewrite E; reflexivity|]. intros x. unfold treal_part. rewrite B.
  unfold tmi at 1. unfold mk_trig at 1. unfold tmi, mk_trig in B. cbn [tre] in B. rewrite B. cbn [tva realvals map forallb].
  assert (T : Rltb (Re (RtoC (Re ((-1)%R, 1%R)))) teps = true) by (apply Rltb_true; change (Re (RtoC (Re ((-1)%R, 1%R)))) with (-1)%R; assert (Q := teps_pos); lra). rewrite T. cbn [andb].
  cbn [mk_trig tco]. apply evalF_zero. intros; apply nth_repeat_C0.
Qed.
Lemma trig_conj_wrong : exists f, trig_ok f /\ (forall x, evalF (tco f) x = ((-1)%R, 1%R)) /\ forall x, evalF (tco (tconj f)) x = ((-1)%R, 1%R).
Proof.
  destruct tmi_ok as [A [B E]]. exists tmi. split; [exact A|]. split; [exact E|]. intros x. unfold tconj. rewrite B. exact (E x).
Qed.
Lemma trig_conj_real f x : trig_ok f -> tre f = true -> evalF (tco (tconj f)) x = Cconj (evalF (tco f) x).
Proof.
  intros Hok Hr. unfold tconj. rewrite Hr. cbn [negb mk_trig tco]. assert (H := proj2 (proj2 Hok) Hr x). unfold Im in H. apply injective_projections; cbn [fst snd Cconj]; lra.
Qed.
