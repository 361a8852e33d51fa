(** Legendre polynomials: recurrence, differential equation, orthogonality,
    bound and completeness.  Pure mathematics, used for the QR factorisation. *)
From Coq Require Import Reals List Arith Lra Lia.
From Coquelicot Require Import Coquelicot.
From Verif Require Import Base ChebSpec ChebMath.
Import ListNotations.
Open Scope R_scope.

(** (n+1) P_{n+1} = (2n+1) x P_n - n P_{n-1}. *)
Fixpoint leg (n : nat) (x : R) : R :=
  match n with
  | O => 1
  | S n1 => match n1 with
            | O => x
            | S n2 => ((2 * INR n1 + 1) * x * leg n1 x - INR n1 * leg n2 x) / INR n
            end
  end.
Fixpoint dleg (n : nat) (x : R) : R :=
  match n with O => 0 | S n1 => x * dleg n1 x + INR n * leg n1 x end.
Fixpoint d2leg (n : nat) (x : R) : R :=
  match n with O => 0 | S n1 => dleg n1 x + x * d2leg n1 x + INR n * dleg n1 x end.

Ltac Rring := match goal with |- ?a = ?b => change (a = b :> R); ring end.
Lemma INR_S_ne n : INR (S n) <> 0. Proof. apply not_0_INR. discriminate. Qed.
Lemma leg_rec n x : INR (S (S n)) * leg (S (S n)) x = (2 * INR (S n) + 1) * x * leg (S n) x - INR (S n) * leg n x.
Proof.
  assert (E : leg (S (S n)) x = ((2 * INR (S n) + 1) * x * leg (S n) x - INR (S n) * leg n x) / INR (S (S n))) by reflexivity.
  rewrite E. field. apply INR_S_ne.
Qed.
Lemma leg_A n x : x * dleg (S n) x - dleg n x = INR (S n) * leg (S n) x.
Proof.
  induction n as [|n IH].
  - cbn [leg dleg INR]. ring.
  - rewrite leg_rec. change (dleg (S (S n)) x) with (x * dleg (S n) x + INR (S (S n)) * leg (S n) x).
    assert (B : x * x * dleg (S n) x - dleg (S n) x = INR (S n) * x * leg (S n) x - INR (S n) * leg n x).
    { change (dleg (S n) x) with (x * dleg n x + INR (S n) * leg n x) at 2.
      transitivity (x * (x * dleg (S n) x - dleg n x) - INR (S n) * leg n x); [ring|]. rewrite IH. ring. }
    rewrite (S_INR (S n)). transitivity ((x * x * dleg (S n) x - dleg (S n) x) + (INR (S n) + 1) * x * leg (S n) x); [ring|]. rewrite B. ring.
Qed.
Lemma leg_B n x : (1 - x * x) * dleg (S n) x = INR (S n) * leg n x - INR (S n) * x * leg (S n) x.
Proof.
  assert (A := leg_A n x). assert (D : dleg (S n) x = x * dleg n x + INR (S n) * leg n x) by reflexivity.
  transitivity (dleg (S n) x - x * (x * dleg (S n) x - dleg n x) - x * dleg n x); [ring|]. rewrite A, D. ring.
Qed.
Lemma is_derive_leg n x : is_derive (leg n) x (dleg n x).
Proof.
  enough (H : is_derive (leg n) x (dleg n x) /\ is_derive (leg (S n)) x (dleg (S n) x)) by apply H.
  induction n as [|n [I1 I2]].
  - split; [apply (is_derive_const (V := R_NormedModule) 1 x)|]. cbn [dleg leg INR]. evar_last; [apply (is_derive_id (K := R_AbsRing) x)|]. unfold one; cbn; ring.
  - split; [exact I2|].
    apply is_derive_ext with (fun t => / INR (S (S n)) * ((2 * INR (S n) + 1) * (t * leg (S n) t) - INR (S n) * leg n t)).
    { intros t. apply Rmult_eq_reg_l with (INR (S (S n))); [|apply INR_S_ne]. rewrite leg_rec. field. apply INR_S_ne. }
    evar_last.
    + apply is_derive_scal. apply (is_derive_minus (V := R_NormedModule)).
      * apply is_derive_scal. apply (is_derive_mult (K := R_AbsRing)); [apply is_derive_id|exact I2|intros; apply Rmult_comm].
      * apply is_derive_scal. exact I1.
    + assert (A := leg_A n x). unfold minus, plus, opp, mult, one; cbn [AbelianGroup.plus AbelianGroup.opp Ring.mult Ring.one].
      change (dleg (S (S n)) x) with (x * dleg (S n) x + INR (S (S n)) * leg (S n) x).
      apply Rmult_eq_reg_l with (INR (S (S n))); [|apply INR_S_ne]. rewrite <- Rmult_assoc, Rinv_r, Rmult_1_l by apply INR_S_ne.
      rewrite (S_INR (S n)). set (N := INR (S n)) in *. set (P := leg (S n) x) in *. set (D := dleg (S n) x) in *. set (D0 := dleg n x) in *.
      change (((2 * N + 1) * (1 * P + x * D) + - (N * D0)) = (N + 1) * (x * D + (N + 1) * P)).
      assert (E : D0 = x * D - N * P) by lra. rewrite E. ring.
Qed.
Lemma is_derive_dleg n x : is_derive (dleg n) x (d2leg n x).
Proof.
  induction n as [|n IH]; [apply (is_derive_const (V := R_NormedModule) 0 x)|].
  apply is_derive_ext with (fun t => t * dleg n t + INR (S n) * leg n t); [reflexivity|].
  evar_last.
  - apply (is_derive_plus (V := R_NormedModule)).
    + apply (is_derive_mult (K := R_AbsRing)); [apply is_derive_id|exact IH|intros; apply Rmult_comm].
    + apply is_derive_scal. apply is_derive_leg.
  - change (1 * dleg n x + x * d2leg n x + INR (S n) * dleg n x = dleg n x + x * d2leg n x + INR (S n) * dleg n x). ring.
Qed.
Lemma is_derive_1x2 x : is_derive (fun t => 1 - t * t) x (- (2 * x)).
Proof. auto_derive; [trivial|]. ring. Qed.
(** ((1 - x^2) P_n')' = - n (n+1) P_n *)
Definition legG (n : nat) (x : R) : R := (1 - x * x) * dleg n x.
Lemma is_derive_legG n x : is_derive (legG n) x (- (INR n * (INR n + 1)) * leg n x).
Proof.
  destruct n as [|n].
  - apply is_derive_ext with (fun _ : R => 0); [intros t; unfold legG; cbn; symmetry; apply Rmult_0_r|]. evar_last; [apply (is_derive_const (V := R_NormedModule) 0 x)|]. cbn. unfold zero; cbn. ring.
  - apply is_derive_ext with (fun t => INR (S n) * leg n t - INR (S n) * (t * leg (S n) t)).
    { intros t. unfold legG. rewrite leg_B. Rring. }
    evar_last.
    + apply (is_derive_minus (V := R_NormedModule)); apply is_derive_scal; [apply is_derive_leg|].
      apply (is_derive_mult (K := R_AbsRing)); [apply is_derive_id|apply is_derive_leg|intros; apply Rmult_comm].
    + assert (A := leg_A n x). set (N := INR (S n)) in *. set (P := leg (S n) x) in *. set (D := dleg (S n) x) in *. set (D0 := dleg n x) in *.
      change (N * D0 + - (N * (1 * P + x * D)) = - (N * (N + 1)) * P). assert (E : D0 = x * D - N * P) by lra. rewrite E. ring.
Qed.
Lemma leg_ode n x : (1 - x * x) * d2leg n x = 2 * x * dleg n x - INR n * (INR n + 1) * leg n x.
Proof.
  assert (H : is_derive (legG n) x (- 2 * x * dleg n x + (1 - x * x) * d2leg n x)).
  { unfold legG. evar_last.
    - apply (is_derive_mult (K := R_AbsRing) (fun t => 1 - t * t) (dleg n)); [apply is_derive_1x2|apply is_derive_dleg|intros; apply Rmult_comm].
    - change (- (2 * x) * dleg n x + (1 - x * x) * d2leg n x = - 2 * x * dleg n x + (1 - x * x) * d2leg n x). ring. }
  assert (U := is_derive_unique _ _ _ H). rewrite (is_derive_unique _ _ _ (is_derive_legG n x)) in U. lra.
Qed.
Lemma continuous_leg n x : continuous (leg n) x.
Proof. apply (ex_derive_continuous (K := R_AbsRing) (V := R_NormedModule)). exists (dleg n x). apply is_derive_leg. Qed.

(** ** Orthogonality *)
Lemma is_RInt_legs m n : INR m * (INR m + 1) <> INR n * (INR n + 1) -> is_RInt (fun x => leg m x * leg n x) (-1) 1 0.
Proof.
  intros H. set (k := INR m * (INR m + 1) - INR n * (INR n + 1)).
  assert (Hk : k <> 0) by (unfold k; lra).
  assert (I : is_RInt (fun x => k * (leg m x * leg n x)) (-1) 1 (minus ((fun x => leg m x * legG n x - leg n x * legG m x) 1) ((fun x => leg m x * legG n x - leg n x * legG m x) (-1)))).
  { apply (is_RInt_derive (V := R_CompleteNormedModule) (fun x => leg m x * legG n x - leg n x * legG m x)).
    - intros x _. evar_last.
      + apply (is_derive_minus (V := R_NormedModule)); (apply (is_derive_mult (K := R_AbsRing)); [apply is_derive_leg|apply is_derive_legG|intros; apply Rmult_comm]).
      + unfold legG, k.
        change ((dleg m x * ((1 - x * x) * dleg n x) + leg m x * (- (INR n * (INR n + 1)) * leg n x)) + - (dleg n x * ((1 - x * x) * dleg m x) + leg n x * (- (INR m * (INR m + 1)) * leg m x)) = (INR m * (INR m + 1) - INR n * (INR n + 1)) * (leg m x * leg n x)). ring.
    - intros x _. apply (continuous_scal_r (K := R_AbsRing) k (fun x => leg m x * leg n x)). apply (continuous_mult (K := R_AbsRing)); apply continuous_leg. }
  apply is_RInt_scal with (k := / k) in I. evar_last.
  - eapply is_RInt_ext; [|exact I]. intros x _. unfold scal; cbn. unfold mult; cbn. field. exact Hk.
  - unfold legG, minus, plus, opp, scal; cbn. unfold mult; cbn. ring.
Qed.
Lemma leg_orth m n : m <> n -> is_RInt (fun x => leg m x * leg n x) (-1) 1 0.
Proof.
  intros H. apply is_RInt_legs. intros E. apply H. apply INR_eq. assert (0 <= INR m) by apply pos_INR. assert (0 <= INR n) by apply pos_INR. nra.
Qed.
Lemma leg_norm n : is_RInt (fun x => leg n x * leg n x) (-1) 1 (2 / (2 * INR n + 1)).
Proof.
  enough (H : is_RInt (fun x => leg n x * leg n x) (-1) 1 (2 / (2 * INR n + 1)) /\ is_RInt (fun x => leg (S n) x * leg (S n) x) (-1) 1 (2 / (2 * INR (S n) + 1))) by apply H.
  induction n as [|n [I1 I2]].
  - split.
    + evar_last; [apply is_RInt_ext with (fun _ : R => 1); [intros; cbn; symmetry; apply Rmult_1_r|]; apply (is_RInt_const (V := R_NormedModule))|].
      unfold scal; cbn; unfold mult; cbn. field.
    + evar_last; [apply (is_RInt_derive (V := R_CompleteNormedModule)) with (f := fun x => x ^ 3 / 3)|].
      * intros x _. auto_derive; [trivial|]. cbn. field.
      * intros x _. cbn. apply (continuous_mult (K := R_AbsRing)); apply continuous_id.
      * unfold minus, plus, opp; cbn. field.
  - split; [exact I2|].
    (* (n+2) |P_{n+2}|^2 = (2n+3) <x P_{n+1}, P_{n+2}>, and 0 = <(n+3)P_{n+3}, P_{n+1}> = (2n+5) <x P_{n+2}, P_{n+1}> - (n+2) |P_{n+1}|^2 *)
    set (a := INR (S n)) in *.
    assert (E2 : INR (S (S n)) = a + 1) by apply S_INR. assert (E3 : INR (S (S (S n))) = a + 2) by (rewrite S_INR, E2; ring).
    assert (Ha : 0 <= a) by apply pos_INR.
    assert (Hx : is_RInt (fun x => x * leg (S n) x * leg (S (S n)) x) (-1) 1 ((a + 1) / (2 * a + 3) * (2 / (2 * a + 1)))).
    { assert (O := leg_orth (S (S (S n))) (S n) ltac:(lia)).
      apply is_RInt_scal with (k := (a + 2) / (2 * a + 3)) in O. apply is_RInt_scal with (k := (a + 1) / (2 * a + 3)) in I2.
      assert (P := is_RInt_plus _ _ _ _ _ _ O I2). evar_last.
      - eapply is_RInt_ext; [|exact P]. intros x _. cbn beta. unfold plus, scal; cbn -[leg INR]. unfold mult; cbn -[leg INR].
        assert (R1 := leg_rec (S n) x). rewrite E3, E2 in R1.
        set (p1 := leg (S n) x) in *. set (p2 := leg (S (S n)) x) in *. set (p3 := leg (S (S (S n))) x) in *.
        apply Rmult_eq_reg_l with (2 * a + 3); [|lra].
        transitivity (((a + 2) * p3 + (a + 1) * p1) * p1); [field; lra|]. rewrite R1. ring.
      - unfold plus, scal; cbn. unfold mult; cbn. ring. }
    assert (O := leg_orth n (S (S n)) ltac:(lia)).
    apply is_RInt_scal with (k := - (a / (a + 1))) in O. apply is_RInt_scal with (k := (2 * a + 1) / (a + 1)) in Hx.
    assert (P := is_RInt_plus _ _ _ _ _ _ Hx O). evar_last.
    + eapply is_RInt_ext; [|exact P]. intros x _. cbn beta. unfold plus, scal; cbn -[leg INR]. unfold mult; cbn -[leg INR].
      assert (R1 := leg_rec n x). rewrite E2 in R1. fold a in R1.
      set (p0 := leg n x) in *. set (p1 := leg (S n) x) in *. set (p2 := leg (S (S n)) x) in *.
      apply Rmult_eq_reg_l with (a + 1); [|lra]. transitivity (((2 * a + 1) * x * p1 - a * p0) * p2); [field; lra|]. rewrite <- R1. ring.
    + unfold plus, scal; cbn -[INR]. unfold mult; cbn -[INR]. rewrite E2. field. lra.
Qed.

(** ** Bound *)
Lemma leg_1 n : leg n 1 = 1.
Proof.
  enough (H : leg n 1 = 1 /\ leg (S n) 1 = 1) by apply H. induction n as [|n [I1 I2]]; [split; reflexivity|]. split; [exact I2|].
  apply Rmult_eq_reg_l with (INR (S (S n))); [|apply INR_S_ne]. rewrite leg_rec, I1, I2. rewrite (S_INR (S n)). ring.
Qed.
Lemma leg_opp n x : leg n (- x) = sgn n * leg n x.
Proof.
  enough (H : leg n (-x) = sgn n * leg n x /\ leg (S n) (-x) = sgn (S n) * leg (S n) x) by apply H.
  induction n as [|n [I1 I2]]; [split; unfold sgn; cbn; ring|]. split; [exact I2|].
  apply Rmult_eq_reg_l with (INR (S (S n))); [|apply INR_S_ne].
  transitivity (sgn (S (S n)) * (INR (S (S n)) * leg (S (S n)) x)); [|ring]. rewrite !leg_rec, I1, I2, !sgn_S. ring.
Qed.
Lemma leg_bound_pos n x : 0 <= x <= 1 -> leg n x * leg n x <= 1.
Proof.
  intros [H0 H1]. destruct n as [|n]; [cbn; lra|].
  set (q := INR (S n) * (INR (S n) + 1)). assert (Hq : 0 < q). { unfold q. assert (0 < INR (S n)) by (apply lt_0_INR; lia). nra. }
  set (F := fun t => leg (S n) t * leg (S n) t + (1 - t * t) * (dleg (S n) t * dleg (S n) t) / q).
  assert (DF : forall t, is_derive F t (2 * t * (dleg (S n) t * dleg (S n) t) / q)).
  { intros t. unfold F. evar_last.
    + apply (is_derive_plus (V := R_NormedModule)).
      * apply (is_derive_mult (K := R_AbsRing)); [apply is_derive_leg|apply is_derive_leg|intros; apply Rmult_comm].
      * apply is_derive_ext with (fun t => / q * ((1 - t * t) * (dleg (S n) t * dleg (S n) t))); [intros; unfold Rdiv; Rring|].
        apply is_derive_scal. apply (is_derive_mult (K := R_AbsRing) (fun t => 1 - t * t)); [apply is_derive_1x2|apply (is_derive_mult (K := R_AbsRing)); [apply is_derive_dleg|apply is_derive_dleg|intros; apply Rmult_comm]|intros; apply Rmult_comm].
    + assert (O := leg_ode (S n) t). fold q in O. set (p := leg (S n) t) in *. set (d := dleg (S n) t) in *. set (e := d2leg (S n) t) in *.
      change (d * p + p * d + / q * (- (2 * t) * (d * d) + (1 - t * t) * (e * d + d * e)) = 2 * t * (d * d) / q).
      transitivity (2 * p * d + / q * (- (2 * t) * (d * d) + 2 * d * ((1 - t * t) * e))); [ring|]. rewrite O. field. lra. }
  assert (M : F x <= F 1).
  { destruct (Req_dec x 1) as [->|Hne]; [lra|].
    destruct (MVT_gen F x 1 (fun t => 2 * t * (dleg (S n) t * dleg (S n) t) / q)) as [c [Hc E]].
    - intros t _. apply DF.
    - intros t _. apply continuity_pt_filterlim. apply (ex_derive_continuous (K := R_AbsRing) (V := R_NormedModule)). eexists. apply DF.
    - rewrite Rmin_left, Rmax_right in Hc by lra. assert (0 <= 2 * c * (dleg (S n) c * dleg (S n) c) / q * (1 - x)); [|lra].
      apply Rmult_le_pos; [|lra]. apply Rdiv_le_0_compat; [|exact Hq]. assert (0 <= dleg (S n) c * dleg (S n) c) by apply Rle_0_sqr. nra. }
  unfold F in M. rewrite leg_1 in M.
  assert (0 <= (1 - x * x) * (dleg (S n) x * dleg (S n) x) / q).
  { apply Rdiv_le_0_compat; [|exact Hq]. apply Rmult_le_pos; [nra|apply Rle_0_sqr]. }
  replace ((1 - 1 * 1) * (dleg (S n) 1 * dleg (S n) 1) / q) with 0 in M by (unfold Rdiv; ring). lra.
Qed.
Lemma leg_bound n x : -1 <= x <= 1 -> Rabs (leg n x) <= 1.
Proof.
  intros H. assert (B : leg n x * leg n x <= 1).
  { destruct (Rle_lt_dec 0 x) as [P|P]; [apply leg_bound_pos; lra|]. assert (E := leg_bound_pos n (- x) ltac:(lra)). rewrite leg_opp in E.
    assert (S1 : sgn n * sgn n = 1) by (unfold sgn; destruct (Nat.even n); ring). nra. }
  apply Rabs_le. nra.
Qed.

(** ** The Legendre polynomials span the polynomials *)
Lemma spanT_leg n : spanT (S n) (leg n).
Proof.
  assert (X1 : spanT 2 (fun x => x)) by (apply spanT_ext with (T 1); [reflexivity|apply spanT_T; lia]).
  enough (H : spanT (S n) (leg n) /\ spanT (S (S n)) (leg (S n))) by apply H. induction n as [|n [I1 I2]].
  - split; [apply spanT_ext with (T 0); [reflexivity|apply spanT_T; lia]|exact X1].
  - split; [exact I2|].
    apply spanT_ext with (fun x => (2 * INR (S n) + 1) / INR (S (S n)) * (x * leg (S n) x) + - (INR (S n) / INR (S (S n))) * leg n x).
    { intros x. apply Rmult_eq_reg_l with (INR (S (S n))); [|apply INR_S_ne]. rewrite leg_rec. field. apply INR_S_ne. }
    apply spanT_plus; apply spanT_scal; [apply (spanT_mul 2 (S (S n))); [lia|exact X1|exact I2]|]. apply spanT_mono with (S n); [lia|exact I1].
Qed.
Definition spanP (n : nat) (f : R -> R) : Prop := exists c, forall x, f x = rsum n (fun k => c k * leg k x).
Lemma spanP_ext n f g : (forall x, f x = g x) -> spanP n f -> spanP n g.
Proof. intros E [c H]. exists c. intros x. now rewrite <- E. Qed.
Lemma spanP_plus n f g : spanP n f -> spanP n g -> spanP n (fun x => f x + g x).
Proof. intros [c Hc] [d Hd]. exists (fun k => c k + d k). intros x. rewrite Hc, Hd, <- rsum_plus. apply rsum_ext. intros. ring. Qed.
Lemma spanP_scal n a f : spanP n f -> spanP n (fun x => a * f x).
Proof. intros [c Hc]. exists (fun k => a * c k). intros x. rewrite Hc, <- rsum_scal. apply rsum_ext. intros. ring. Qed.
Lemma spanP_leg n k : (k < n)%nat -> spanP n (leg k).
Proof.
  intros H. exists (fun i => if Nat.eqb i k then 1 else 0). intros x. symmetry. rewrite (rsum_single n _ k H); [rewrite Nat.eqb_refl; ring|].
  intros i Hi Hne. destruct (Nat.eqb_spec i k); [contradiction|ring].
Qed.
Lemma spanP_rsum n m (F : nat -> R -> R) : (forall i, (i < m)%nat -> spanP n (F i)) -> spanP n (fun x => rsum m (fun i => F i x)).
Proof.
  induction m as [|m IH]; intros H.
  - exists (fun _ => 0). intros x. cbn. symmetry. apply rsum_zero. intros. ring.
  - apply spanP_ext with (fun x => rsum m (fun i => F i x) + F m x); [reflexivity|]. apply spanP_plus; [apply IH; intros; apply H; lia|apply H; lia].
Qed.
Lemma spanP_mono n m f : (n <= m)%nat -> spanP n f -> spanP m f.
Proof.
  intros H [c Hc]. apply spanP_ext with (fun x => rsum n (fun i => c i * leg i x)); [intros; symmetry; apply Hc|].
  apply spanP_rsum. intros i Hi. apply spanP_scal. apply spanP_leg. lia.
Qed.
Lemma spanP_mulx n f : spanP n f -> spanP (S n) (fun x => x * f x).
Proof.
  intros [c Hc]. apply spanP_ext with (fun x => rsum n (fun i => c i * (x * leg i x))).
  { intros x. rewrite Hc, <- rsum_scal. apply rsum_ext. intros. ring. }
  apply spanP_rsum. intros i Hi. apply spanP_scal. destruct i as [|i].
  - apply spanP_ext with (leg 1); [intros; cbn; ring|]. apply spanP_leg. lia.
  - apply spanP_ext with (fun x => INR (S (S i)) / (2 * INR (S i) + 1) * leg (S (S i)) x + INR (S i) / (2 * INR (S i) + 1) * leg i x).
    { intros x. assert (0 <= INR (S i)) by apply pos_INR. apply Rmult_eq_reg_l with (2 * INR (S i) + 1); [|lra].
      transitivity (INR (S (S i)) * leg (S (S i)) x + INR (S i) * leg i x); [field; lra|]. rewrite leg_rec. ring. }
    apply spanP_plus; apply spanP_scal; apply spanP_leg; lia.
Qed.
Lemma spanP_T n : spanP (S n) (T n).
Proof.
  enough (H : spanP (S n) (T n) /\ spanP (S (S n)) (T (S n))) by apply H. induction n as [|n [I1 I2]].
  - split; [apply spanP_ext with (leg 0); [reflexivity|apply spanP_leg; lia]|]. apply spanP_ext with (leg 1); [reflexivity|apply spanP_leg; lia].
  - split; [exact I2|]. apply spanP_ext with (fun x => 2 * (x * T (S n) x) + (-1) * T n x).
    { intros x. change (T (S (S n)) x) with (2 * x * T (S n) x - T n x). ring. }
    apply spanP_plus; apply spanP_scal; [apply spanP_mulx; exact I2|]. apply spanP_mono with (S n); [lia|exact I1].
Qed.
Lemma spanP_spanT n f : spanT n f -> spanP n f.
Proof.
  intros [c [Hc Hf]]. apply spanP_ext with (fun x => rsum n (fun k => nth k c 0 * T k x)).
  { intros x. rewrite Hf. unfold evalT. now rewrite Hc. }
  apply spanP_rsum. intros i Hi. apply spanP_scal. apply spanP_mono with (S i); [lia|apply spanP_T].
Qed.
