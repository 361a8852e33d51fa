(** Proofs: value/coefficient transforms and Clenshaw-Curtis quadrature. *)
From Coq Require Import Reals ZArith List Lia Lra Arith Bool.
From Coquelicot Require Import Coquelicot.
From Verif Require Import Base ChebSpec ChebMath ChebModel ChebEval CosSums.
Import ListNotations.
Open Scope R_scope.

Lemma upd_length l i v : length (upd l i v) = length l.
Proof. apply mk_length. Qed.
Lemma upd_same l i v : (i < length l)%nat -> nth i (upd l i v) 0 = v.
Proof. intros H. unfold upd. rewrite nth_mk by lia. rewrite Nat.eqb_refl. reflexivity. Qed.
Lemma upd_other l i v k : k <> i -> nth k (upd l i v) 0 = nth k l 0.
Proof.
  intros H. unfold upd. destruct (lt_dec k (length l)).
  - rewrite nth_mk by lia. destruct (Nat.eqb_spec k i); [lia|reflexivity].
  - rewrite nth_mk_out by lia. rewrite nth_overflow by lia. reflexivity.
Qed.

Lemma chebpts_length N : length (chebpts_type2_compute N) = N.
Proof. destruct N as [|[|N]]; try reflexivity. unfold chebpts_type2_compute. apply mk_length. Qed.

Lemma chebpts_nth N j : (2 <= N)%nat -> (j < N)%nat ->
  nth j (chebpts_type2_compute N) 0 = cos (PI * INR (N - 1 - j) / INR (N - 1)).
Proof.
  intros HN Hj. destruct N as [|[|N]]; try lia. unfold chebpts_type2_compute.
  rewrite nth_mk by lia. set (M := (S (S N) - 1)%nat).
  assert (HMR : INR M <> 0) by (apply not_0_INR; unfold M; lia).
  rewrite <- sin_shift. f_equal. rewrite minus_INR by (unfold M; lia).
  unfold M in *. field. exact HMR.
Qed.

Lemma chebpts_chebnode N j : (2 <= N)%nat -> (j < N)%nat ->
  nth j (chebpts_type2_compute N) 0 = chebnode N j.
Proof.
  intros HN Hj. rewrite chebpts_nth by lia. unfold chebnode.
  assert (HMR : INR (N - 1) <> 0) by (apply not_0_INR; lia).
  rewrite minus_INR by lia.
  replace (PI * (INR (N - 1) - INR j) / INR (N - 1)) with (PI - PI * INR j / INR (N - 1)) by (field; exact HMR).
  rewrite cos_minus, cos_PI, sin_PI. ring.
Qed.

Lemma cos_INR_PI k : cos (INR k * PI) = sgn k.
Proof.
  induction k as [|k IH].
  - simpl. rewrite Rmult_0_l, cos_0. reflexivity.
  - rewrite S_INR, Rmult_plus_distr_r, Rmult_1_l, neg_cos, IH, sgn_S. reflexivity.
Qed.

Lemma dct1_length v : length (dct1 v) = length v.
Proof. apply mk_length. Qed.

Lemma dct1_trap v M k : length v = S M -> (1 <= M)%nat -> (k <= M)%nat ->
  nth k (dct1 v) 0 = 2 * trap M (fun i => nth i v 0 * cos (PI * INR k * INR i / INR M)).
Proof.
  intros Hv HM Hk. unfold dct1. rewrite nth_mk by lia.
  destruct M as [|m]; [lia|]. rewrite trap_ends.
  replace (length v - 2)%nat with m by lia.
  replace (length v - 1)%nat with (S m) by lia.
  assert (HMR : INR (S m) <> 0) by (apply not_0_INR; lia).
  replace (PI * INR k * INR (S m) / INR (S m)) with (INR k * PI) by (field; exact HMR).
  rewrite cos_INR_PI.
  replace (PI * INR k * INR 0 / INR (S m)) with 0 by (simpl; field; exact HMR).
  rewrite cos_0. lra.
Qed.

Lemma polyval1_length c : length (polyval1 c) = length c.
Proof.
  unfold polyval1. destruct (Nat.eqb _ _); [reflexivity|].
  rewrite rev_length, dct1_length, mk_length. reflexivity.
Qed.

Lemma polyval1_nth c M j : length c = S M -> (1 <= M)%nat -> (j <= M)%nat ->
  nth j (polyval1 c) 0 = rsum (S M) (fun i => nth i c 0 * cos (PI * INR (M - j) * INR i / INR M)).
Proof.
  intros Hc HM Hj. unfold polyval1. destruct (Nat.eqb_spec (length c) 1); [lia|].
  set (v := mk _ _). assert (Lv : length v = S M) by (unfold v; rewrite mk_length; exact Hc).
  rewrite rev_nth by (rewrite dct1_length; lia).
  rewrite dct1_length, Lv. replace (S M - S j)%nat with (M - j)%nat by lia.
  rewrite (dct1_trap v M) by (try exact Lv; lia).
  rewrite trap_ew by lia. rewrite <- rsum_scal. apply rsum_ext. intros i Hi.
  unfold v. rewrite nth_mk by lia. unfold ew.
  replace (length c - 1)%nat with M by lia.
  destruct (Nat.eqb i 0 || Nat.eqb i M)%bool; field; apply not_0_INR; lia.
Qed.

(** C02 *)
Lemma polyval1_spec c j : (1 <= length c)%nat -> (j < length c)%nat ->
  nth j (polyval1 c) 0 = evalT c (nth j (chebpts_type2_compute (length c)) 0).
Proof.
  intros Hc Hj. destruct (Nat.eq_dec (length c) 1) as [E|E].
  - unfold polyval1. rewrite E. cbn [Nat.eqb].
    destruct c as [|a [|b c]]; simpl in *; try lia.
    assert (j = 0)%nat as -> by lia. unfold evalT. simpl. lra.
  - rewrite (polyval1_nth c (length c - 1)) by lia.
    rewrite chebpts_nth by lia.
    unfold evalT. replace (S (length c - 1)) with (length c) by lia.
    apply rsum_ext. intros i Hi. rewrite T_cos. do 2 f_equal.
    field. apply not_0_INR. lia.
Qed.

Lemma polyfit1_length v : length (polyfit1 v) = length v.
Proof.
  unfold polyfit1. destruct (Nat.eqb _ _); [reflexivity|].
  rewrite !upd_length, dct1_length, mk_length. reflexivity.
Qed.

Lemma polyfit1_nth v M k : length v = S M -> (1 <= M)%nat -> (k <= M)%nat ->
  nth k (polyfit1 v) 0 = 2 / INR M * ew M k * trap M (fun j => nth (M - j) v 0 * cos (PI * INR k * INR j / INR M)).
Proof.
  intros Hv HM Hk. unfold polyfit1. destruct (Nat.eqb_spec (length v) 1); [lia|].
  rewrite Hv. replace (S M - 1)%nat with M by lia.
  set (c := mk _ _). assert (Lc : length c = S M) by (unfold c; apply mk_length).
  assert (D : forall k, (k <= M)%nat -> nth k (dct1 c) 0 =
     2 / INR M * trap M (fun j => nth (M - j) v 0 * cos (PI * INR k * INR j / INR M))).
  { intros k' Hk'. rewrite (dct1_trap c M) by (try exact Lc; lia).
    unfold Rdiv. rewrite Rmult_assoc. f_equal.
    rewrite <- trap_scal. apply trap_ext. intros j Hj. unfold c. rewrite nth_mk by lia.
    replace (S M - j - 1)%nat with (M - j)%nat by lia. unfold Rdiv. ring. }
  set (c1 := upd (dct1 c) 0 (nth 0 (dct1 c) 0 / 2)). assert (L1 : length c1 = S M) by (unfold c1; rewrite upd_length, dct1_length; exact Lc).
  unfold ew.
  destruct (Nat.eqb_spec k M) as [->|HkM].
  - rewrite upd_same by lia. unfold c1. rewrite upd_other by lia. rewrite D by lia.
    rewrite orb_true_r. field. apply not_0_INR; lia.
  - rewrite upd_other by lia. unfold c1. destruct (Nat.eqb_spec k 0) as [->|Hk0].
    + rewrite upd_same by (rewrite dct1_length; lia). rewrite D by lia. cbn [orb]. field. apply not_0_INR; lia.
    + rewrite upd_other by lia. rewrite D by lia. cbn [orb]. field. apply not_0_INR; lia.
Qed.

(** C03 *)
Lemma polyfit_polyval c : (1 <= length c)%nat -> polyfit1 (polyval1 c) = c.
Proof.
  intros Hc. destruct (Nat.eq_dec (length c) 1) as [E|E].
  { unfold polyfit1. rewrite polyval1_length, E. cbn [Nat.eqb].
    unfold polyval1. rewrite E. reflexivity. }
  apply list_ext with 0; [now rewrite polyfit1_length, polyval1_length|].
  intros k Hk. rewrite polyfit1_length, polyval1_length in Hk.
  set (M := (length c - 1)%nat).
  assert (HMR : INR M <> 0) by (apply not_0_INR; unfold M; lia).
  rewrite (polyfit1_nth _ M) by (rewrite ?polyval1_length; unfold M; lia).
  rewrite (trap_ext M _ (fun j => rsum (S M) (fun i =>
     nth i c 0 * (cos (PI * INR i * INR j / INR M) * cos (PI * INR k * INR j / INR M))))).
  2:{ intros j Hj. rewrite (polyval1_nth c M) by (unfold M in *; lia).
      rewrite <- rsum_scal_r. apply rsum_ext. intros i Hi.
      replace (M - (M - j))%nat with j by lia.
      replace (PI * INR j * INR i / INR M) with (PI * INR i * INR j / INR M) by (field; exact HMR). ring. }
  rewrite trap_rsum.
  rewrite (rsum_single (S M) _ k).
  - rewrite trap_scal, cos_orth by (unfold M in *; lia). rewrite Nat.eqb_refl.
    field. split; [apply ew_ne|exact HMR].
  - unfold M; lia.
  - intros i Hi Hne. rewrite trap_scal, cos_orth by (unfold M in *; lia).
    destruct (Nat.eqb_spec i k); [lia|ring].
Qed.

Lemma polyval_polyfit v : (1 <= length v)%nat -> polyval1 (polyfit1 v) = v.
Proof.
  intros Hc. destruct (Nat.eq_dec (length v) 1) as [E|E].
  { unfold polyval1. rewrite polyfit1_length, E. cbn [Nat.eqb].
    unfold polyfit1. rewrite E. reflexivity. }
  apply list_ext with 0; [now rewrite polyval1_length, polyfit1_length|].
  intros k Hk. rewrite polyval1_length, polyfit1_length in Hk.
  set (M := (length v - 1)%nat).
  assert (HMR : INR M <> 0) by (apply not_0_INR; unfold M; lia).
  rewrite (polyval1_nth _ M) by (rewrite ?polyfit1_length; unfold M; lia).
  rewrite (rsum_ext (S M) _ (fun i => ew M i * trap M (fun j => 2 / INR M * (nth (M - j) v 0 *
      (cos (PI * INR j * INR i / INR M) * cos (PI * INR (M - k) * INR i / INR M)))))).
  2:{ intros i Hi. rewrite (polyfit1_nth v M) by (unfold M in *; lia).
      rewrite trap_scal.
      rewrite (trap_ext M (fun j => nth (M - j) v 0 *
         (cos (PI * INR j * INR i / INR M) * cos (PI * INR (M - k) * INR i / INR M)))
         (fun j => (nth (M - j) v 0 * cos (PI * INR i * INR j / INR M)) * cos (PI * INR (M - k) * INR i / INR M))).
      2:{ intros j _. replace (PI * INR i * INR j / INR M) with (PI * INR j * INR i / INR M) by (field; exact HMR). ring. }
      rewrite trap_scal_r. ring. }
  rewrite <- trap_ew by (unfold M in *; lia).
  rewrite (trap_ext M _ (fun i => rsum (S M) (fun j => ew M j * (2 / INR M * (nth (M - j) v 0 *
      (cos (PI * INR j * INR i / INR M) * cos (PI * INR (M - k) * INR i / INR M))))))).
  2:{ intros i _. apply trap_ew. unfold M in *; lia. }
  rewrite trap_rsum.
  rewrite (rsum_single (S M) _ (M - k)).
  - rewrite !trap_scal, cos_orth by (unfold M in *; lia). rewrite Nat.eqb_refl.
    replace (M - (M - k))%nat with k by (unfold M in *; lia).
    field. split; [apply ew_ne|exact HMR].
  - lia.
  - intros i Hi Hne. rewrite !trap_scal, cos_orth by (unfold M in *; lia).
    destruct (Nat.eqb_spec i (M - k)); [lia|ring].
Qed.

(** Interpolation: fitting the values of a polynomial of degree < N recovers it. *)
Lemma polyfit_span N f : (1 <= N)%nat -> spanT N f ->
  forall x, evalT (polyfit1 (mk N (fun j => f (nth j (chebpts_type2_compute N) 0)))) x = f x.
Proof.
  intros HN [c [Hc Hf]] x. rewrite Hf.
  replace (mk N (fun j => f (nth j (chebpts_type2_compute N) 0))) with (polyval1 c).
  - rewrite polyfit_polyval by lia. reflexivity.
  - apply list_ext with 0.
    + rewrite polyval1_length, mk_length. exact Hc.
    + intros k Hk. rewrite polyval1_length in Hk. rewrite nth_mk by lia.
      rewrite polyval1_spec by lia. rewrite Hf, Hc. reflexivity.
Qed.
