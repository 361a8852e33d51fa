(** Prolongation, derivative, integral, product, shift of Fourier series. *)
From Coq Require Import Reals ZArith List Arith Lia Lra Bool.
From Coquelicot Require Import Coquelicot.
From Verif Require Import Base ToolsProofs TrigSpec TrigBase TrigModel TrigTrans TrigEval.
Import ListNotations.
Open Scope R_scope.
Open Scope C_scope.

Definition term (c : list C) (M k : nat) (x : R) : C := coef c (Z.of_nat k - Z.of_nat M) * cis (PI * IZR (Z.of_nat k - Z.of_nat M) * x).

Lemma cos_cis t : RtoC (cos t) = RtoC (/ 2) * (cis t + cis (- t)).
Proof. rewrite cis_neg. unfold cis, Cconj. apply injective_projections; cbn; field. Qed.

Lemma coef_big c z : (Z.of_nat (length c / 2) < Z.abs z)%Z -> coef c z = C0.
Proof. intros H. unfold coef. apply Z.ltb_lt in H. rewrite H. reflexivity. Qed.
Lemma coef_odd c z : Nat.odd (length c) = true -> (Z.abs z <= Z.of_nat (length c / 2))%Z -> coef c z = nth (Z.to_nat (z + Z.of_nat (length c / 2))) c C0.
Proof.
  intros Ho H. unfold coef. rewrite <- Nat.negb_odd, Ho. cbn [negb andb].
  destruct (Z.ltb_spec (Z.of_nat (length c / 2)) (Z.abs z)); [lia|reflexivity].
Qed.
Lemma coef_even c z : (Z.abs z < Z.of_nat (length c / 2))%Z -> coef c z = nth (Z.to_nat (z + Z.of_nat (length c / 2))) c C0.
Proof.
  intros H. unfold coef. destruct (Z.ltb_spec (Z.of_nat (length c / 2)) (Z.abs z)); [lia|].
  destruct (Z.eqb_spec (Z.abs z) (Z.of_nat (length c / 2))); [lia|]. rewrite andb_false_r. reflexivity.
Qed.
Lemma coef_top c z : Nat.even (length c) = true -> (Z.abs z = Z.of_nat (length c / 2))%Z -> coef c z = RtoC (/ 2) * nth 0 c C0.
Proof.
  intros He H. unfold coef. rewrite He. destruct (Z.ltb_spec (Z.of_nat (length c / 2)) (Z.abs z)); [lia|].
  destruct (Z.eqb_spec (Z.abs z) (Z.of_nat (length c / 2))); [reflexivity|lia].
Qed.
Lemma even_or_odd n : Nat.even n = true \/ Nat.odd n = true.
Proof. rewrite <- (Nat.negb_odd n). destruct (Nat.odd n); auto. Qed.
Lemma not_even n : Nat.odd n = true -> Nat.even n = false. Proof. intros H. rewrite <- Nat.negb_odd, H. reflexivity. Qed.

Lemma evalF_coef0 c x : (1 <= length c)%nat -> evalF c x = csum (2 * (length c / 2) + 1) (fun k => term c (length c / 2) k x).
Proof.
  intros Hn. unfold evalF. set (m := (length c / 2)%nat).
  destruct (even_or_odd (length c)) as [He|Ho].
  - assert (H2 := even_half _ He). fold m in H2. replace (2 * m + 1)%nat with (1 + ((2 * m - 1) + 1))%nat by lia.
    rewrite H2 at 1. replace (2 * m)%nat with (1 + (2 * m - 1))%nat at 1 by lia. rewrite !csum_app. cbn [csum].
    rewrite (csum_ext (2 * m - 1) (fun k => nth (1 + k) c 0 * mode (length c) (1 + k) x) (fun k => term c m (1 + k) x)).
    + set (S1 := csum (2 * m - 1) _). unfold mode. rewrite He. cbn [andb Nat.eqb]. fold m. unfold term.
      rewrite (coef_top c _ He) by (fold m; lia). rewrite (coef_top c (Z.of_nat (1 + (2 * m - 1 + 0)) - Z.of_nat m) He) by (fold m; lia).
      rewrite cos_cis. unfold C0. replace (Z.of_nat (1 + (2 * m - 1 + 0)) - Z.of_nat m)%Z with (Z.of_nat m) by lia.
      cbn [Z.of_nat]. rewrite Z.sub_0_l, opp_IZR, <- INR_IZR_INZ.
      replace (PI * - INR m * x)%R with (- (PI * INR m * x))%R by ring. ring.
    + intros k Hk. unfold term. rewrite coef_even by (fold m; lia). fold m.
      replace (Z.to_nat (Z.of_nat (1 + k) - Z.of_nat m + Z.of_nat m)) with (1 + k)%nat by lia.
      unfold mode. rewrite He. cbn [andb Nat.eqb Nat.add]. unfold C0, freq. fold m. reflexivity.
  - assert (H2 := odd_half _ Ho). fold m in H2. rewrite H2 at 1. apply csum_ext. intros k Hk. unfold term.
    rewrite coef_odd by (try exact Ho; fold m; lia). fold m. replace (Z.to_nat (Z.of_nat k - Z.of_nat m + Z.of_nat m)) with k by lia.
    unfold mode. rewrite (not_even _ Ho). cbn [andb]. unfold freq. fold m. reflexivity.
Qed.
Lemma evalF_coef c M x : (1 <= length c)%nat -> (length c / 2 <= M)%nat -> evalF c x = csum (2 * M + 1) (fun k => term c M k x).
Proof.
  intros Hn HM. rewrite evalF_coef0 by exact Hn. set (m := (length c / 2)%nat) in *.
  replace (2 * M + 1)%nat with ((M - m) + ((2 * m + 1) + (M - m)))%nat by lia. rewrite (csum_app (M - m)), (csum_app (2 * m + 1) (M - m)).
  rewrite (csum_zero (M - m) (fun k => term c M k x)).
  2:{ intros k Hk. unfold term. rewrite coef_big by (fold m; lia). unfold C0. ring. }
  rewrite (csum_zero (M - m) (fun k => term c M (M - m + (2 * m + 1 + k)) x)).
  2:{ intros k Hk. unfold term. rewrite coef_big by (fold m; lia). unfold C0. ring. }
  rewrite Cplus_0_l, Cplus_0_r. apply csum_ext. intros k Hk. unfold term.
  replace (Z.of_nat (M - m + k) - Z.of_nat M)%Z with (Z.of_nat k - Z.of_nat m)%Z by lia. reflexivity.
Qed.
Lemma coef_evalF c d x : (1 <= length c)%nat -> (1 <= length d)%nat -> (forall z, coef c z = coef d z) -> evalF c x = evalF d x.
Proof.
  intros Hc Hd H. set (M := Nat.max (length c / 2) (length d / 2)).
  rewrite (evalF_coef c M), (evalF_coef d M) by (try assumption; unfold M; lia). apply csum_ext. intros k _. unfold term. rewrite H. reflexivity.
Qed.

(** ** prolongation *)
Lemma split_even_length c : (1 <= length c)%nat -> length (split_even c) = (if Nat.even (length c) then S (length c) else length c).
Proof.
  intros Hn. unfold split_even. destruct (Nat.even (length c)); [|reflexivity]. cbn [length]. rewrite app_length. cbn [length].
  destruct c; cbn [tl length] in *; lia.
Qed.
Lemma split_even_odd c : (1 <= length c)%nat -> Nat.odd (length (split_even c)) = true.
Proof.
  intros Hn. rewrite split_even_length by exact Hn. destruct (Nat.even (length c)) eqn:E.
  - rewrite Nat.odd_succ. exact E.
  - rewrite <- Nat.negb_even, E. reflexivity.
Qed.
Lemma coef_split c z : (1 <= length c)%nat -> coef (split_even c) z = coef c z.
Proof.
  intros Hn. destruct (even_or_odd (length c)) as [He|Ho].
  2:{ unfold split_even. rewrite (not_even _ Ho). reflexivity. }
  assert (H2 := even_half _ He). assert (Ls : length (split_even c) = S (length c)) by (rewrite split_even_length, He by exact Hn; reflexivity).
  assert (Os := split_even_odd c Hn).
  assert (Lh : (length (split_even c) / 2 = length c / 2)%nat).
  { assert (A := odd_half _ Os). rewrite Ls in A |- *. lia. }
  set (m := (length c / 2)%nat) in *.
  destruct (Z.lt_ge_cases (Z.of_nat m) (Z.abs z)) as [Hz|Hz].
  { rewrite !coef_big by (rewrite ?Lh; fold m; lia). reflexivity. }
  rewrite coef_odd by (rewrite ?Lh; fold m; try lia; exact Os). rewrite Lh.
  assert (Hform : forall k, nth k (split_even c) C0 = if Nat.eqb k 0 then RtoC (/ 2) * nth 0 c C0 else if Nat.ltb k (length c) then nth k c C0 else if Nat.eqb k (length c) then RtoC (/ 2) * nth 0 c C0 else C0).
  { intros k. destruct (Nat.eqb_spec k 0) as [->|K0]; [unfold split_even; rewrite He; reflexivity|].
    unfold split_even. rewrite He. destruct k as [|k]; [lia|]. cbn [nth]. destruct c as [|a t]; [cbn in Hn; lia|]. cbn [tl length] in *.
    destruct (Nat.ltb_spec (S k) (S (length t))).
    - rewrite app_nth1 by lia. reflexivity.
    - rewrite app_nth2 by lia. destruct (Nat.eqb_spec (S k) (S (length t))).
      + replace (k - length t)%nat with 0%nat by lia. reflexivity.
      + destruct (k - length t)%nat as [|[|q]] eqn:Eq; [lia|reflexivity|reflexivity]. }
  rewrite Hform.
  destruct (Z.eq_dec (Z.abs z) (Z.of_nat m)) as [Et|Nt].
  - rewrite (coef_top c z He Et). destruct (Z.to_nat (z + Z.of_nat m) =? 0)%nat eqn:Q1; [reflexivity|]. apply Nat.eqb_neq in Q1.
    assert (Qz : Z.to_nat (z + Z.of_nat m) = length c) by lia. rewrite Qz. rewrite Nat.ltb_irrefl, Nat.eqb_refl. reflexivity.
  - rewrite coef_even by (fold m; lia). fold m. destruct (Nat.eqb_spec (Z.to_nat (z + Z.of_nat m)) 0) as [Q1|Q1]; [lia|].
    destruct (Nat.ltb_spec (Z.to_nat (z + Z.of_nat m)) (length c)); [reflexivity|lia].
Qed.

Lemma nth_repeat_C0 k n : nth k (repeat C0 n) C0 = C0.
Proof. revert k. induction n; intros [|k]; cbn; auto. Qed.
Lemma pad_odd_length c N : (length c <= N)%nat -> length (pad_odd c N) = N.
Proof.
  intros H. unfold pad_odd. rewrite !app_length, !repeat_length.
  assert (A := Nat.div_mod (N - length c + 1) 2 ltac:(lia)). assert (B := Nat.mod_upper_bound (N - length c + 1) 2 ltac:(lia)).
  assert (D := Nat.div_mod (N - length c) 2 ltac:(lia)). assert (E := Nat.mod_upper_bound (N - length c) 2 ltac:(lia)). lia.
Qed.
Lemma nth_pad c N k : nth k (pad_odd c N) C0 = if Nat.ltb k ((N - length c + 1) / 2) then C0 else nth (k - (N - length c + 1) / 2) c C0.
Proof.
  unfold pad_odd. set (a := ((N - length c + 1) / 2)%nat). destruct (Nat.ltb_spec k a).
  - rewrite app_nth1 by (rewrite repeat_length; lia). apply nth_repeat_C0.
  - rewrite app_nth2 by (rewrite repeat_length; lia). rewrite repeat_length. destruct (Nat.lt_ge_cases (k - a) (length c)).
    + rewrite app_nth1 by lia. reflexivity.
    + rewrite app_nth2 by lia. rewrite nth_repeat_C0, nth_overflow by lia. reflexivity.
Qed.
Lemma coef_pad c N z : Nat.odd (length c) = true -> (length c <= N)%nat -> coef (pad_odd c N) z = coef c z.
Proof.
  intros Ho HN. assert (H2 := odd_half _ Ho). assert (Lp := pad_odd_length c N HN).
  assert (A := Nat.div_mod (N - length c + 1) 2 ltac:(lia)). assert (B := Nat.mod_upper_bound (N - length c + 1) 2 ltac:(lia)).
  set (a := ((N - length c + 1) / 2)%nat) in *. set (m := (length c / 2)%nat) in *.
  destruct (even_or_odd N) as [He|HoN].
  - assert (H3 := even_half _ He). assert (Hh : (N / 2 = m + a)%nat) by lia.
    destruct (Z.lt_ge_cases (Z.of_nat m) (Z.abs z)) as [Hz|Hz].
    + rewrite (coef_big c) by (fold m; lia). destruct (Z.lt_ge_cases (Z.of_nat (N / 2)) (Z.abs z)) as [Hz'|Hz'].
      * apply coef_big. rewrite Lp. lia.
      * destruct (Z.eq_dec (Z.abs z) (Z.of_nat (N / 2))) as [Et|Nt].
        { rewrite coef_top by (rewrite ?Lp; assumption). rewrite nth_pad. fold a. destruct (Nat.ltb_spec 0 a); [unfold C0; ring|lia]. }
        rewrite coef_even by (rewrite Lp; lia). rewrite Lp, nth_pad. fold a. destruct (Nat.ltb_spec (Z.to_nat (z + Z.of_nat (N / 2))) a); [reflexivity|].
        apply nth_overflow. lia.
    + rewrite coef_even by (rewrite Lp; lia). rewrite Lp, nth_pad. fold a. destruct (Nat.ltb_spec (Z.to_nat (z + Z.of_nat (N / 2))) a); [lia|].
      rewrite coef_odd by (try exact Ho; fold m; lia). fold m. f_equal. lia.
  - assert (H3 := odd_half _ HoN). assert (Hh : (N / 2 = m + a)%nat) by lia.
    destruct (Z.lt_ge_cases (Z.of_nat (N / 2)) (Z.abs z)) as [Hz'|Hz'].
    { rewrite !coef_big by (rewrite ?Lp; fold m; lia). reflexivity. }
    rewrite coef_odd by (rewrite ?Lp; try exact HoN; lia). rewrite Lp, nth_pad. fold a.
    destruct (Z.lt_ge_cases (Z.of_nat m) (Z.abs z)) as [Hz|Hz].
    + rewrite (coef_big c) by (fold m; lia). destruct (Nat.ltb_spec (Z.to_nat (z + Z.of_nat (N / 2))) a); [reflexivity|]. apply nth_overflow. lia.
    + rewrite coef_odd by (try exact Ho; fold m; lia). fold m. destruct (Nat.ltb_spec (Z.to_nat (z + Z.of_nat (N / 2))) a); [lia|]. f_equal. lia.
Qed.

Lemma prolong_up_coef c N : (1 <= length c <= N)%nat -> exists d, prolong_col c N = Some d /\ length d = N /\ forall z, coef d z = coef c z.
Proof.
  intros [Hn HN]. unfold prolong_col. destruct (Nat.eqb_spec N (length c)) as [->|Hne]; [exists c; auto|].
  assert (Ls := split_even_length c Hn). assert (Os := split_even_odd c Hn).
  destruct (Nat.eqb_spec (length (split_even c)) N) as [El|El].
  { exists (split_even c). split; [reflexivity|]. split; [exact El|]. intros z. apply coef_split, Hn. }
  assert (Hlt : (length (split_even c) < N)%nat) by (destruct (Nat.even (length c)); lia).
  destruct (Nat.ltb_spec (length (split_even c)) N); [|lia].
  exists (pad_odd (split_even c) N). split; [reflexivity|]. split; [apply pad_odd_length; lia|].
  intros z. rewrite coef_pad by (try exact Os; lia). apply coef_split, Hn.
Qed.
(** C31: prolongation to a larger length keeps the function *)
Lemma trig_prolong_correct c N : (1 <= length c <= N)%nat ->
  exists d, prolong_col c N = Some d /\ length d = N /\ forall x, evalF d x = evalF c x.
Proof.
  intros H. destruct (prolong_up_coef c N H) as [d [E [L Hz]]]. exists d. split; [exact E|]. split; [exact L|].
  intros x. apply coef_evalF; [lia|lia|exact Hz].
Qed.

Lemma chop_odd_coef c N : Nat.odd (length c) = true -> (1 <= N < length c)%nat ->
  exists d, chop_odd c N = Some d /\ length d = N /\
    forall z, (2 * Z.abs z < Z.of_nat N)%Z -> coef d z = coef c z.
Proof.
  intros Ho [HN1 HN]. assert (H2 := odd_half _ Ho). unfold chop_odd.
  assert (A := Nat.div_mod (length c - N + 1) 2 ltac:(lia)). assert (B := Nat.mod_upper_bound (length c - N + 1) 2 ltac:(lia)).
  assert (A' := Nat.div_mod (length c - N) 2 ltac:(lia)). assert (B' := Nat.mod_upper_bound (length c - N) 2 ltac:(lia)).
  set (kd := ((length c - N + 1) / 2)%nat) in *. set (ku := ((length c - N) / 2)%nat) in *. set (m := (length c / 2)%nat) in *.
  assert (Ek : (length c - kd - ku = N)%nat) by lia. rewrite Ek.
  set (d := firstn N (skipn ku c)).
  assert (Ld : length d = N) by (unfold d; rewrite firstn_length, skipn_length; lia).
  assert (Hd : forall k, (k < N)%nat -> nth k d C0 = nth (ku + k) c C0).
  { intros k Hk. unfold d. rewrite nth_firstn' by exact Hk. rewrite nth_skipn'. reflexivity. }
  destruct (Nat.ltb_spec ku kd) as [Hlt|Hge].
  - assert (Hk : (kd = ku + 1)%nat) by lia. destruct d as [|a t] eqn:Ed; [cbn in Ld; lia|].
    exists (RtoC 2 * a :: t). split; [reflexivity|]. split; [exact Ld|]. intros z Hz.
    assert (He : Nat.even N = true) by (apply Nat.even_spec; exists (m - ku)%nat; lia). assert (H3 := even_half _ He).
    assert (Ld' : length (RtoC 2 * a :: t) = N) by exact Ld.
    rewrite coef_even by (rewrite Ld'; lia). rewrite Ld'. rewrite coef_odd by (try exact Ho; fold m; lia). fold m.
    destruct (Z.to_nat (z + Z.of_nat (N / 2))) as [|q] eqn:Eq; [lia|]. cbn [nth].
    assert (Hq := Hd (S q) ltac:(lia)). cbn [nth] in Hq. rewrite Hq. f_equal. lia.
  - assert (Hk : (kd = ku)%nat) by lia. exists d. split; [reflexivity|]. split; [exact Ld|]. intros z Hz.
    assert (HoN : Nat.odd N = true) by (apply Nat.odd_spec; exists (m - ku)%nat; lia). assert (H3 := odd_half _ HoN).
    rewrite coef_odd by (rewrite ?Ld; try exact HoN; lia). rewrite Ld. rewrite Hd by lia. rewrite coef_odd by (try exact Ho; fold m; lia). fold m. f_equal. lia.
Qed.
(** C31: shortening keeps every coefficient of frequency below half the new
    length and drops the others *)
Lemma trig_chop_correct c N : (1 <= N < length c)%nat ->
  exists d, prolong_col c N = Some d /\ length d = N /\
    (forall z, (2 * Z.abs z < Z.of_nat N)%Z -> coef d z = coef c z) /\
    (forall z, (2 * Z.abs z > Z.of_nat N)%Z -> coef d z = RtoC 0).
Proof.
  intros HN. assert (Hn : (1 <= length c)%nat) by lia. unfold prolong_col. destruct (Nat.eqb_spec N (length c)); [lia|].
  assert (Ls := split_even_length c Hn). assert (Os := split_even_odd c Hn).
  destruct (Nat.eqb_spec (length (split_even c)) N); [destruct (Nat.even (length c)); lia|].
  destruct (Nat.ltb_spec (length (split_even c)) N); [destruct (Nat.even (length c)); lia|].
  destruct (chop_odd_coef (split_even c) N Os ltac:(lia)) as [d [E [L Hz]]]. exists d. split; [exact E|]. split; [exact L|]. split.
  - intros z Hz1. rewrite Hz by exact Hz1. apply coef_split, Hn.
  - intros z Hz1. apply coef_big. rewrite L. assert (2 * (N / 2) <= N)%nat by (apply Nat.mul_div_le; lia). lia.
Qed.
Lemma trig_prolong_fun_correct c N : (1 <= length c < N)%nat ->
  exists d, prolong_fun_col c N = Some d /\ length d = N /\ forall x, evalF d x = evalF c x.
Proof.
  intros H. unfold prolong_fun_col. destruct (Nat.eqb_spec N (length c)); [lia|]. apply trig_prolong_correct. lia.
Qed.
Lemma trig_prolong_fun_same c : prolong_fun_col c (length c) = None.
Proof. unfold prolong_fun_col. rewrite Nat.eqb_refl. reflexivity. Qed.
Lemma trig_prolong_coeffs_correct c N : (1 <= length c <= N)%nat -> (Nat.even (length c) = true -> (length c + 1 < N)%nat) ->
  exists d, prolong_coeffs_col c N = Some d /\ length d = N /\ forall x, evalF d x = evalF c x.
Proof.
  intros [Hn HN] Hx. unfold prolong_coeffs_col. assert (Ls := split_even_length c Hn). assert (Os := split_even_odd c Hn).
  destruct (even_or_odd (length c)) as [He|Ho].
  - specialize (Hx He). rewrite He in Ls. destruct (Nat.eqb_spec (length (split_even c)) N); [lia|].
    destruct (Nat.ltb_spec (length (split_even c)) N); [|lia]. eexists. split; [reflexivity|]. split; [apply pad_odd_length; lia|].
    intros x. apply coef_evalF; [rewrite pad_odd_length; lia|lia|]. intros z. rewrite coef_pad by (try exact Os; lia). apply coef_split, Hn.
  - rewrite (not_even _ Ho) in Ls. destruct (Nat.eqb_spec (length (split_even c)) N); [exists c; split; [reflexivity|split; [lia|reflexivity]]|].
    destruct (Nat.ltb_spec (length (split_even c)) N); [|lia]. eexists. split; [reflexivity|]. split; [apply pad_odd_length; lia|].
    intros x. apply coef_evalF; [rewrite pad_odd_length; lia|lia|]. intros z. rewrite coef_pad by (try exact Os; lia). apply coef_split, Hn.
Qed.
(** C31 is false for prolong_coeffs: from an even length to the next one the
    array comes back with the old length *)
Lemma trig_prolong_coeffs_wrong c : (1 <= length c)%nat -> Nat.even (length c) = true -> prolong_coeffs_col c (length c + 1) = Some c.
Proof.
  intros Hn He. unfold prolong_coeffs_col. rewrite split_even_length, He by exact Hn. destruct (Nat.eqb_spec (S (length c)) (length c + 1)); [reflexivity|lia].
Qed.
