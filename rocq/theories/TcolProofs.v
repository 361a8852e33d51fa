(** Fourier differentiation matrices: the derivatives of the cardinal function at the grid points. *)
From Coq Require Import Reals ZArith List Arith Bool Lra Lia.
From Coquelicot Require Import Coquelicot.
From Verif Require Import Base TrigSpec TrigBase TrigModel TrigTrans TrigCalc TrigCalc2 ChebModel3 CollModel.
Import ListNotations.
Open Scope R_scope.

(** m-th derivative of the cardinal function of n equispaced points *)
Definition Sd (n m : nat) (t : R) : R := / INR n * rsum n (fun k => IZR (freq n k) ^ m * cos (IZR (freq n k) * t + INR m * (PI / 2))).

Lemma cos_mPI y m : cos (y + INR m * PI) = (-1) ^ m * cos y.
Proof.
  induction m as [|m IH]; [cbn; rewrite Rmult_0_l, Rplus_0_r; ring|]. rewrite S_INR. replace (y + (INR m + 1) * PI) with ((y + INR m * PI) + PI) by ring. rewrite neg_cos, IH. cbn [pow]. ring.
Qed.
Lemma sin_mPI y m : sin (y + INR m * PI) = (-1) ^ m * sin y.
Proof.
  induction m as [|m IH]; [cbn; rewrite Rmult_0_l, Rplus_0_r; ring|]. rewrite S_INR. replace (y + (INR m + 1) * PI) with ((y + INR m * PI) + PI) by ring. rewrite neg_sin, IH. cbn [pow]. ring.
Qed.
Lemma m1_sq m : (-1) ^ m * (-1) ^ m = 1.
Proof. rewrite <- Rpow_mult_distr. replace (-1 * -1) with 1 by ring. apply pow1. Qed.
Lemma cpow_polar a m : cpow (Cmult Ci (RtoC a)) m = Cmult (RtoC (a ^ m)) (cis (INR m * (PI / 2))).
Proof.
  induction m as [|m IH]; [cbn [cpow pow INR]; rewrite Rmult_0_l, cis_0; ring|]. cbn [cpow]. rewrite IH. rewrite S_INR, Rmult_plus_distr_r, cis_plus, Rmult_1_l.
  replace (cis (PI / 2)) with Ci by (unfold cis; rewrite cos_PI2, sin_PI2; reflexivity). cbn [pow]. rewrite RtoC_mult. ring.
Qed.
Lemma Ci_PI z : Cmult (Cmult Ci (RtoC PI)) (RtoC z) = Cmult Ci (RtoC (PI * z)).
Proof. rewrite RtoC_mult. ring. Qed.
(** odd functions sum to zero over the symmetric frequencies *)
Lemma odd_sum n (g : R -> R) : (forall z, g (- z) = - g z) -> rsum n (fun k => if (Nat.even n && Nat.eqb k 0)%bool then 0 else g (IZR (freq n k))) = 0.
Proof.
  intros Hg. destruct n as [|n]; [reflexivity|]. destruct (Nat.even (S n)) eqn:E.
  - rewrite rsum_S_l. cbn [Nat.eqb andb]. rewrite Rplus_0_l. set (s := rsum n _). assert (s = - s); [|lra]. unfold s at 1. rewrite <- rsum_rev.
    replace (- s) with (-1 * s) by ring. unfold s. rewrite <- rsum_scal. apply rsum_ext. intros k Hk. match goal with |- _ = -1 * ?b => replace (-1 * b) with (- b) by ring end. rewrite <- Hg, <- opp_IZR. f_equal. f_equal. unfold freq.
    apply Nat.even_spec in E. destruct E as [p E]. rewrite E, (Nat.mul_comm 2 p), Nat.div_mul by lia. lia.
  - cbn [andb]. set (s := rsum (S n) _). assert (s = - s); [|lra]. unfold s at 1. rewrite <- rsum_rev.
    replace (- s) with (-1 * s) by ring. unfold s. rewrite <- rsum_scal. apply rsum_ext. intros k Hk. match goal with |- _ = -1 * ?b => replace (-1 * b) with (- b) by ring end. rewrite <- Hg, <- opp_IZR. f_equal. f_equal. unfold freq.
    assert (O : Nat.odd (S n) = true) by (rewrite <- Nat.negb_even, E; reflexivity). apply Nat.odd_spec in O. destruct O as [p O]. rewrite O. replace ((2 * p + 1) / 2)%nat with p; [lia|].
    apply Nat.div_unique with 1%nat; lia.
Qed.
Lemma nyq_grid n i : (1 <= n)%nat -> Nat.even n = true -> sin (PI * INR (n / 2) * gridpt n i) = 0.
Proof.
  intros Hn E. apply Nat.even_spec in E. destruct E as [p E]. rewrite E, (Nat.mul_comm 2 p), Nat.div_mul by lia. assert (Hp : (1 <= p)%nat) by lia. assert (P := INR_pos p Hp).
  replace (PI * INR p * gridpt (p * 2) i) with (INR i * PI - INR p * PI) by (unfold gridpt; rewrite mult_INR; cbn [INR]; field; lra).
  rewrite sin_minus. replace (INR i * PI) with (0 + INR i * PI) by ring. replace (INR p * PI) with (0 + INR p * PI) by ring. rewrite !sin_mPI, sin_0. ring.
Qed.
(** with the highest frequency of an even length left out when b holds *)
Definition Sdb (b : bool) (n m : nat) (t : R) : R :=
  / INR n * rsum n (fun k => if (b && (Nat.even n && Nat.eqb k 0))%bool then 0 else IZR (freq n k) ^ m * cos (IZR (freq n k) * t + INR m * (PI / 2))).
Lemma Sdb_false n m t : Sdb false n m t = Sd n m t. Proof. reflexivity. Qed.
Definition dmodeb (b : bool) (n k m : nat) (x : R) : C := if (b && (Nat.even n && Nat.eqb k 0))%bool then RtoC 0 else dmode n k m x.
Lemma dmodeb_false n k m x : dmodeb false n k m x = dmode n k m x. Proof. reflexivity. Qed.
Lemma kernel b n m j i : (1 <= n)%nat -> csum n (fun k => Cmult (dmodeb b n k m (gridpt n j)) (Cconj (W n i k))) = RtoC (INR n * (PI ^ m * Sdb b n m (2 * PI * (INR j - INR i) / INR n))).
Proof.
  intros Hn. assert (Pn := INR_pos n Hn). set (th := 2 * PI * (INR j - INR i) / INR n). assert (Eth : th = PI * (gridpt n j - gridpt n i)) by (unfold th, gridpt; field; lra).
  assert (T : forall k, (k < n)%nat -> Cmult (dmode n k m (gridpt n j)) (Cconj (W n i k)) =
     (PI ^ m * (IZR (freq n k) ^ m * cos (IZR (freq n k) * th + INR m * (PI / 2))),
      if (Nat.even n && Nat.eqb k 0)%bool then 0 else (fun z => (PI * z) ^ m * sin (z * th + INR m * (PI / 2))) (IZR (freq n k)))).
  { intros k Hk. destruct (andb (Nat.even n) (Nat.eqb k 0)) eqn:E.
    - rewrite <- mode_grid by exact Hn. unfold dmode, mode. rewrite E. apply andb_prop in E. destruct E as [E1 E2]. apply Nat.eqb_eq in E2. subst k. set (w := PI * INR (n / 2)).
      assert (Z := nyq_grid n i Hn E1). fold w in Z. rewrite Cconj_R, <- RtoC_mult. unfold RtoC. f_equal.
      replace ((w ^ m * cos (w * gridpt n j + INR m * (PI / 2)) * cos (w * gridpt n i))) with (w ^ m * (cos (w * gridpt n j + INR m * (PI / 2) - w * gridpt n i))) by (rewrite (cos_minus _ (w * gridpt n i)), Z; ring).
      assert (F0 : IZR (freq n 0) = - INR (n / 2)) by (unfold freq; rewrite minus_IZR, <- !INR_IZR_INZ; cbn [INR]; ring). rewrite F0.
      replace (w * gridpt n j + INR m * (PI / 2) - w * gridpt n i) with (- (- INR (n / 2) * th + INR m * (PI / 2)) + INR m * PI) by (rewrite Eth; unfold w; field).
      rewrite cos_mPI, cos_neg. assert (EP : (- INR (n / 2)) ^ m = (-1) ^ m * INR (n / 2) ^ m) by (rewrite <- Rpow_mult_distr; f_equal; ring). rewrite EP. unfold w. rewrite Rpow_mult_distr. ring.
    - unfold dmode, W. rewrite E, Ci_PI, cpow_polar, <- cis_neg, <- Cmult_assoc, <- Cmult_assoc, <- !cis_plus.
      replace (INR m * (PI / 2) + (PI * IZR (freq n k) * gridpt n j + - (PI * IZR (freq n k) * gridpt n i))) with (IZR (freq n k) * th + INR m * (PI / 2)) by (rewrite Eth; ring).
      unfold cis, RtoC, Cmult. cbn [fst snd]. rewrite Rpow_mult_distr. f_equal; ring. }
  assert (T' : forall k, (k < n)%nat -> Cmult (dmodeb b n k m (gridpt n j)) (Cconj (W n i k)) =
     (PI ^ m * (if (b && (Nat.even n && Nat.eqb k 0))%bool then 0 else IZR (freq n k) ^ m * cos (IZR (freq n k) * th + INR m * (PI / 2))),
      if (Nat.even n && Nat.eqb k 0)%bool then 0 else (fun z => (PI * z) ^ m * sin (z * th + INR m * (PI / 2))) (IZR (freq n k)))).
  { intros k Hk. unfold dmodeb. destruct b; cbn [andb]; [|exact (T k Hk)]. destruct (Nat.even n && Nat.eqb k 0)%bool eqn:E; [|rewrite (T k Hk), E; reflexivity].
    rewrite Cmult_0_l, Rmult_0_r. reflexivity. }
  clear T. rewrite (csum_ext _ _ _ T'). apply injective_projections.
  - change (Re (csum n (fun k => (PI ^ m * (if (b && (Nat.even n && Nat.eqb k 0))%bool then 0 else IZR (freq n k) ^ m * cos (IZR (freq n k) * th + INR m * (PI / 2))),
       if (Nat.even n && Nat.eqb k 0)%bool then 0 else (fun z => (PI * z) ^ m * sin (z * th + INR m * (PI / 2))) (IZR (freq n k))))) = INR n * (PI ^ m * Sdb b n m th)).
    rewrite csum_Re. cbn [Re fst]. rewrite rsum_scal. unfold Sdb. field. lra.
  - change (Im (csum n (fun k => (PI ^ m * (if (b && (Nat.even n && Nat.eqb k 0))%bool then 0 else IZR (freq n k) ^ m * cos (IZR (freq n k) * th + INR m * (PI / 2))),
       if (Nat.even n && Nat.eqb k 0)%bool then 0 else (fun z => (PI * z) ^ m * sin (z * th + INR m * (PI / 2))) (IZR (freq n k))))) = 0).
    rewrite csum_Im. cbn [Im snd]. apply (odd_sum n (fun z => (PI * z) ^ m * sin (z * th + INR m * (PI / 2)))). intros z. rewrite <- Ropp_mult_distr_r. replace (- (PI * z)) with (-1 * (PI * z)) by ring. rewrite Rpow_mult_distr.
    replace (- z * th + INR m * (PI / 2)) with (- (z * th + INR m * (PI / 2)) + INR m * PI) by field. rewrite sin_mPI, sin_neg. transitivity (- ((-1) ^ m * (-1) ^ m) * ((PI * z) ^ m * sin (z * th + INR m * (PI / 2)))); [ring|]. rewrite m1_sq. ring.
Qed.
Lemma row_correctb b c m j (D : nat -> R) : (1 <= length c)%nat -> (forall i, (i < length c)%nat -> D i = PI ^ m * Sdb b (length c) m (2 * PI * (INR j - INR i) / INR (length c))) ->
  csum (length c) (fun i => Cmult (RtoC (D i)) (evalF c (gridpt (length c) i))) = csum (length c) (fun k => Cmult (nth k c C0) (dmodeb b (length c) k m (gridpt (length c) j))).
Proof.
  intros Hn HD. set (n := length c) in *. assert (Pn := INR_pos n Hn).
  rewrite (csum_ext _ _ (fun i => csum n (fun l => Cmult (nth l c C0) (Cmult (RtoC (D i)) (W n i l))))).
  2:{ intros i Hi. unfold n. rewrite evalF_grid by exact Hn. unfold Vsum. fold n. rewrite <- csum_scal. apply csum_ext. intros l _. ring. }
  rewrite csum_swap. apply csum_ext. intros l Hl. rewrite csum_scal. f_equal.
  rewrite (csum_ext _ _ (fun i => csum n (fun k => Cmult (Cmult (RtoC (/ INR n)) (dmodeb b n k m (gridpt n j))) (Cmult (W n i l) (Cconj (W n i k)))))).
  2:{ intros i Hi. rewrite (HD i Hi). replace (RtoC (PI ^ m * Sdb b n m (2 * PI * (INR j - INR i) / INR n))) with (Cmult (RtoC (/ INR n)) (RtoC (INR n * (PI ^ m * Sdb b n m (2 * PI * (INR j - INR i) / INR n))))).
      2:{ rewrite <- RtoC_mult. f_equal. field. lra. }
      rewrite <- (kernel b n m j i Hn). rewrite <- Cmult_assoc, <- csum_scal_r, <- csum_scal. apply csum_ext. intros k _. ring. }
  rewrite csum_swap. rewrite (csum_single n _ l Hl).
  - rewrite csum_scal, (W_W n l l Hn Hl Hl), Nat.eqb_refl. rewrite (Cmult_comm (RtoC (/ INR n))), <- Cmult_assoc, <- RtoC_mult. replace (/ INR n * INR n) with 1 by (field; lra). ring.
  - intros k Hk Hkl. rewrite csum_scal, (W_W n l k Hn Hl Hk). destruct (Nat.eqb_spec l k); [congruence|]. ring.
Qed.
Lemma row_derive c m j (D : nat -> R) : (1 <= length c)%nat -> (forall i, (i < length c)%nat -> D i = PI ^ m * Sd (length c) m (2 * PI * (INR j - INR i) / INR (length c))) ->
  cderive_n (evalF c) m (gridpt (length c) j) (csum (length c) (fun i => Cmult (RtoC (D i)) (evalF c (gridpt (length c) i)))).
Proof. intros Hn HD. rewrite (row_correctb false c m j D Hn HD). apply evalF_derive_all. Qed.
