(** Discrete orthogonality of cosines (pure mathematics). *)
From Coq Require Import Reals ZArith List Lia Lra Arith.
From Verif Require Import Base.
Open Scope R_scope.

(** trapezoid sum: f 0/2 + f 1 + ... + f (M-1) + f M/2 *)
Definition trap (M : nat) (f : nat -> R) : R := rsum M (fun j => (f j + f (S j)) / 2).

Lemma trap_ext M f g : (forall k, (k <= M)%nat -> f k = g k) -> trap M f = trap M g.
Proof. intros H. apply rsum_ext. intros k Hk. rewrite !H by lia. reflexivity. Qed.
Lemma trap_plus M f g : trap M (fun k => f k + g k) = trap M f + trap M g.
Proof. unfold trap. rewrite <- rsum_plus. apply rsum_ext. intros; lra. Qed.
Lemma trap_scal M a f : trap M (fun k => a * f k) = a * trap M f.
Proof. unfold trap. rewrite <- rsum_scal. apply rsum_ext. intros; lra. Qed.
Lemma trap_scal_r M a f : trap M (fun k => f k * a) = trap M f * a.
Proof. unfold trap. rewrite <- rsum_scal_r. apply rsum_ext. intros; lra. Qed.
Lemma trap_0 M : trap M (fun _ => 0) = 0.
Proof. unfold trap. apply rsum_zero. intros; lra. Qed.
Lemma trap_rsum M n (f : nat -> nat -> R) :
  trap M (fun j => rsum n (fun k => f j k)) = rsum n (fun k => trap M (fun j => f j k)).
Proof.
  unfold trap. rewrite <- rsum_swap. apply rsum_ext. intros j _.
  rewrite <- rsum_plus. unfold Rdiv. rewrite <- rsum_scal_r. reflexivity.
Qed.

Lemma trap_ends m f : trap (S m) f = f 0%nat / 2 + rsum m (fun i => f (S i)) + f (S m) / 2.
Proof.
  unfold trap. induction m as [|m IH].
  - cbn [rsum]. lra.
  - cbn [rsum]. cbn [rsum] in IH. rewrite IH. lra.
Qed.

(** the weight of entry k in a trapezoid sum *)
Definition ew (M k : nat) : R := if (Nat.eqb k 0 || Nat.eqb k M)%bool then / 2 else 1.
Lemma ew_ne M k : ew M k <> 0.
Proof. unfold ew. destruct (_ || _)%bool; lra. Qed.

Lemma trap_ew M f : (1 <= M)%nat -> trap M f = rsum (S M) (fun k => ew M k * f k).
Proof.
  intros HM. destruct M as [|m]; [lia|]. rewrite trap_ends.
  assert (H0 : ew (S m) 0 = / 2) by reflexivity.
  assert (H1 : ew (S m) (S m) = / 2)
    by (unfold ew; rewrite Nat.eqb_refl, Bool.orb_true_r; reflexivity).
  change (rsum (S (S m)) (fun k => ew (S m) k * f k))
    with (rsum (S m) (fun k => ew (S m) k * f k) + ew (S m) (S m) * f (S m)).
  rewrite rsum_S_l, H0, H1.
  rewrite (rsum_ext m (fun k => ew (S m) (S k) * f (S k)) (fun i => f (S i))).
  2:{ intros k Hk. unfold ew. destruct (Nat.eqb_spec (S k) (S m)); [lia|]. simpl. lra. }
  lra.
Qed.

Lemma trap_rev M f : trap M (fun k => f (M - k)%nat) = trap M f.
Proof.
  unfold trap. rewrite <- (rsum_rev M (fun j => (f j + f (S j)) / 2)).
  apply rsum_ext. intros k Hk. replace (M - k)%nat with (S (M - 1 - k)) by lia.
  replace (M - S k)%nat with (M - 1 - k)%nat by lia. lra.
Qed.

Lemma trap_single M f i : (i <= M)%nat -> (1 <= M)%nat ->
  (forall k, (k <= M)%nat -> k <> i -> f k = 0) -> trap M f = ew M i * f i.
Proof.
  intros Hi HM H. rewrite trap_ew by lia. rewrite (rsum_single (S M) _ i); [reflexivity|lia|].
  intros k Hk Hne. rewrite H by lia. ring.
Qed.

Lemma trap_cos_phi M phi :
  2 * sin (phi / 2) * trap M (fun j => cos (INR j * phi)) = sin (INR M * phi) * cos (phi / 2).
Proof.
  unfold trap. induction M as [|M IH].
  - simpl. rewrite Rmult_0_l, sin_0. ring.
  - cbn [rsum]. rewrite Rmult_plus_distr_l, IH.
    rewrite S_INR.
    set (a := INR M * phi).
    replace ((INR M + 1) * phi) with (a + phi) by (unfold a; ring).
    assert (E : forall t, t = t/2 + t/2) by (intros; lra).
    assert (H1 : cos phi = cos (phi/2) * cos (phi/2) - sin (phi/2) * sin (phi/2))
      by (rewrite (E phi) at 1; apply cos_plus).
    assert (H2 : sin phi = sin (phi/2) * cos (phi/2) + cos (phi/2) * sin (phi/2))
      by (rewrite (E phi) at 1; apply sin_plus).
    rewrite cos_plus, sin_plus, H1, H2.
    assert (H3 := sin2_cos2 (phi/2)). unfold Rsqr in H3.
    set (s := sin (phi/2)) in *. set (c := cos (phi/2)) in *. clearbody s c.
    set (ca := cos a). set (sa := sin a). clearbody ca sa.
    replace (s * s) with (1 - c * c) by lra.
    replace (2 * s * ((ca + (ca * (c * c - (1 - c * c)) - sa * (s * c + c * s))) / 2))
      with (2 * s * ca * (c * c) - 2 * (s * s) * sa * c) by field.
    replace (s * s) with (1 - c * c) by lra. ring.
Qed.

Lemma IZR_pos_nat (n : nat) : INR n = IZR (Z.of_nat n). Proof. apply INR_IZR_INZ. Qed.

Lemma trap_cos M r : (1 <= M)%nat ->
  trap M (fun j => cos (PI * INR r * INR j / INR M)) =
  if Nat.eqb (r mod (2 * M)) 0 then INR M else 0.
Proof.
  intros HM. assert (HMR : INR M <> 0) by (apply not_0_INR; lia).
  destruct (Nat.eqb_spec (r mod (2 * M)) 0) as [H|H].
  - apply Nat.mod_divides in H; [|lia]. destruct H as [q ->].
    rewrite (trap_ext M _ (fun _ => 1)).
    + unfold trap. rewrite rsum_const. lra.
    + intros k _. rewrite !mult_INR. change (INR 2) with 2.
      replace (PI * (2 * INR M * INR q) * INR k / INR M) with (0 + 2 * INR (q * k) * PI).
      2:{ rewrite mult_INR. field. exact HMR. }
      rewrite cos_period. apply cos_0.
  - set (phi := PI * INR r / INR M).
    rewrite (trap_ext M _ (fun j => cos (INR j * phi))).
    2:{ intros k _. f_equal. unfold phi. field. exact HMR. }
    assert (E := trap_cos_phi M phi).
    replace (INR M * phi) with (0 + INR r * PI) in E by (unfold phi; field; exact HMR).
    assert (S0 : sin (0 + INR r * PI) = 0).
    { rewrite Rplus_0_l. apply sin_eq_0_1. exists (Z.of_nat r). rewrite INR_IZR_INZ. reflexivity. }
    rewrite S0 in E. rewrite Rmult_0_l in E.
    assert (Hs : sin (phi / 2) <> 0).
    { intros C. apply sin_eq_0_0 in C. destruct C as [q Hq]. apply H.
      assert (HP := PI_RGT_0).
      assert (INR r = IZR q * (2 * INR M)).
      { unfold phi in Hq. apply Rmult_eq_reg_l with (PI / (2 * INR M)).
        - replace (PI / (2 * INR M) * INR r) with (PI * INR r / INR M / 2) by (field; exact HMR).
          rewrite Hq. field. exact HMR.
        - unfold Rdiv. apply Rmult_integral_contrapositive. split; [lra|].
          apply Rinv_neq_0_compat. lra. }
      rewrite !INR_IZR_INZ in H0. rewrite <- !mult_IZR in H0. apply eq_IZR in H0.
      assert (Z.of_nat (r mod (2 * M)) = 0%Z); [|lia].
      rewrite Nat2Z.inj_mod. rewrite H0. rewrite Nat2Z.inj_mul. change (Z.of_nat 2) with 2%Z.
      rewrite Z_mod_mult. reflexivity. }
    apply Rmult_integral in E. destruct E as [E|E]; [lra|exact E].
Qed.

(** discrete orthogonality on the grid pi j / M, j = 0..M, trapezoid weights *)
Lemma cos_orth M k l : (1 <= M)%nat -> (k <= M)%nat -> (l <= M)%nat ->
  trap M (fun j => cos (PI * INR k * INR j / INR M) * cos (PI * INR l * INR j / INR M)) =
  if Nat.eqb k l then INR M / 2 / ew M k else 0.
Proof.
  intros HM. assert (HMR : INR M <> 0) by (apply not_0_INR; lia).
  enough (W : forall k l, (l <= k)%nat -> (k <= M)%nat ->
     trap M (fun j => cos (PI * INR k * INR j / INR M) * cos (PI * INR l * INR j / INR M)) =
     if Nat.eqb k l then INR M / 2 / ew M k else 0).
  { intros Hk Hl. destruct (le_ge_dec l k); [apply W; lia|].
    rewrite (trap_ext M _ (fun j => cos (PI * INR l * INR j / INR M) * cos (PI * INR k * INR j / INR M)))
      by (intros; ring).
    rewrite W by lia. destruct (Nat.eqb_spec l k), (Nat.eqb_spec k l); subst; try lia; reflexivity. }
  clear k l. intros k l Hkl Hk.
  rewrite (trap_ext M _ (fun j => / 2 * cos (PI * INR (k + l) * INR j / INR M)
                               + / 2 * cos (PI * INR (k - l) * INR j / INR M))).
  2:{ intros j _. rewrite minus_INR, plus_INR by lia.
      replace (PI * (INR k + INR l) * INR j / INR M)
        with (PI * INR k * INR j / INR M + PI * INR l * INR j / INR M) by (field; exact HMR).
      replace (PI * (INR k - INR l) * INR j / INR M)
        with (PI * INR k * INR j / INR M - PI * INR l * INR j / INR M) by (field; exact HMR).
      rewrite cos_plus, cos_minus. lra. }
  rewrite trap_plus, !trap_scal, !trap_cos by lia.
  rewrite (Nat.mod_small (k - l)) by lia.
  unfold ew.
  destruct (Nat.eqb_spec k l) as [->|Hne].
  - rewrite Nat.sub_diag. cbn [Nat.eqb].
    destruct (Nat.eqb_spec l 0) as [->|H0].
    { rewrite Nat.mod_small by lia. simpl. field. }
    destruct (Nat.eqb_spec l M) as [->|H1].
    { replace (M + M)%nat with (2 * M)%nat by lia. rewrite Nat.mod_same by lia. simpl. field. }
    rewrite Nat.mod_small by lia. destruct (Nat.eqb_spec (l + l) 0); [lia|]. simpl. field.
  - destruct (Nat.eqb_spec (k - l) 0); [lia|].
    rewrite Nat.mod_small by lia. destruct (Nat.eqb_spec (k + l) 0); [lia|]. lra.
Qed.
