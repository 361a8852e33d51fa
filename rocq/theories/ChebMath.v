(** Mathematics of Chebyshev series (no code modelled here). *)
From Coq Require Import Reals List Lia Lra Arith.
From Coquelicot Require Import Coquelicot.
From Verif Require Import Base ChebSpec.
Import ListNotations.
Open Scope R_scope.

Lemma T_SS n x : T (S (S n)) x = 2 * x * T (S n) x - T n x.
Proof. reflexivity. Qed.
Lemma U_SS n x : U (S (S n)) x = 2 * x * U (S n) x - U n x.
Proof. reflexivity. Qed.

(** Induction two steps at a time. *)
Lemma nat_ind2 (P : nat -> Prop) :
  P 0%nat -> P 1%nat -> (forall n, P n -> P (S n) -> P (S (S n))) -> forall n, P n.
Proof.
  intros H0 H1 HS n. enough (P n /\ P (S n)) by tauto.
  induction n as [|n [IH1 IH2]]; split; auto.
Qed.

Lemma T_cos n t : T n (cos t) = cos (INR n * t).
Proof.
  induction n as [| |n IH1 IH2] using nat_ind2.
  - simpl. rewrite Rmult_0_l, cos_0. reflexivity.
  - simpl. f_equal. lra.
  - rewrite T_SS, IH2, IH1.
    replace (INR (S (S n)) * t) with (INR (S n) * t + t) by (rewrite (S_INR (S n)); lra).
    replace (INR n * t) with (INR (S n) * t - t) by (rewrite S_INR; lra).
    rewrite cos_plus, cos_minus. lra.
Qed.

Lemma T_opp n x : T n (- x) = sgn n * T n x.
Proof.
  induction n as [| |n IH1 IH2] using nat_ind2.
  - rewrite sgn_0. simpl. lra.
  - rewrite sgn_S, sgn_0. simpl. lra.
  - rewrite !T_SS, IH1, IH2, !sgn_S. lra.
Qed.

Lemma T_1 n : T n 1 = 1.
Proof.
  induction n as [| |n IH1 IH2] using nat_ind2; [reflexivity..|].
  rewrite T_SS, IH1, IH2. lra.
Qed.

Lemma T_m1 n : T n (-1) = sgn n.
Proof. replace (-1) with (- (1)) by lra. rewrite T_opp, T_1. lra. Qed.

Lemma T_bound n x : -1 <= x <= 1 -> Rabs (T n x) <= 1.
Proof.
  intros Hx. rewrite <- (cos_acos x) by lra. rewrite T_cos.
  apply Rabs_le. pose proof (COS_bound (INR n * acos x)). lra.
Qed.

(** 2 T_n = U_n - U_{n-2} *)
Lemma T_U n x : 2 * T (S (S n)) x = U (S (S n)) x - U n x.
Proof.
  induction n as [| |n IH1 IH2] using nat_ind2.
  - simpl. lra.
  - simpl. lra.
  - rewrite (T_SS (S (S n))), (U_SS (S (S n))).
    replace (2 * (2 * x * T (S (S (S n))) x - T (S (S n)) x))
      with (2 * x * (2 * T (S (S (S n))) x) - 2 * T (S (S n)) x) by ring.
    rewrite IH1, IH2, (U_SS n). ring.
Qed.

Lemma T_xU n x : T (S n) x = x * U n x - (match n with O => 0 | S m => U m x end).
Proof.
  destruct n as [|n]; [simpl; lra|].
  assert (H := T_U n x). rewrite U_SS in H. lra.
Qed.

(** Product formula T_m T_n = (T_{m+n} + T_{|m-n|})/2 *)
Lemma T_mul m n x : (n <= m)%nat -> 2 * (T m x * T n x) = T (m + n) x + T (m - n) x.
Proof.
  revert m. induction n as [| |n IH1 IH2] using nat_ind2; intros m Hnm.
  - rewrite Nat.add_0_r, Nat.sub_0_r. simpl. lra.
  - destruct m as [|m]; [lia|]. replace (S m + 1)%nat with (S (S m)) by lia.
    replace (S m - 1)%nat with m by lia. rewrite T_SS. change (T 1 x) with x. ring.
  - assert (E1 := IH1 m ltac:(lia)). assert (E2 := IH2 m ltac:(lia)).
    rewrite (T_SS n).
    replace (2 * (T m x * (2 * x * T (S n) x - T n x)))
      with (2 * x * (2 * (T m x * T (S n) x)) - 2 * (T m x * T n x)) by ring.
    rewrite E1, E2.
    replace (m + S (S n))%nat with (S (S (m + n))) by lia.
    replace (m + S n)%nat with (S (m + n)) by lia.
    rewrite T_SS.
    destruct (Nat.eq_dec m (S n)) as [->|Hne].
    { lia. }
    replace (m - n)%nat with (S (S (m - S (S n)))) by lia.
    replace (m - S n)%nat with (S (m - S (S n))) by lia.
    rewrite T_SS. ring.
Qed.

Lemma evalT_nil x : evalT [] x = 0. Proof. reflexivity. Qed.

(** any longer summation range gives the same value *)
Lemma evalT_ge c x N : (length c <= N)%nat -> evalT c x = rsum N (fun k => nth k c 0 * T k x).
Proof.
  intros H. unfold evalT. symmetry. apply rsum_extend; [exact H|].
  intros k Hk. rewrite nth_overflow by lia. lra.
Qed.

Lemma evalT_mk n f x : evalT (mk n f) x = rsum n (fun k => f k * T k x).
Proof.
  unfold evalT. rewrite mk_length. apply rsum_ext. intros k Hk. rewrite nth_mk by lia. reflexivity.
Qed.

(** ** Span of T_0..T_{n-1} *)
Lemma spanT_ext n f g : (forall x, f x = g x) -> spanT n f -> spanT n g.
Proof. intros E [c [H1 H2]]. exists c. split; [exact H1|]. intros x. rewrite <- E. apply H2. Qed.

Lemma spanT_mono n m f : (n <= m)%nat -> spanT n f -> spanT m f.
Proof.
  intros H [c [H1 H2]]. exists (mk m (fun k => nth k c 0)). split; [apply mk_length|].
  intros x. rewrite H2, evalT_mk. apply evalT_ge. lia.
Qed.

Lemma spanT_evalT c n : (length c <= n)%nat -> spanT n (evalT c).
Proof. intros H. apply spanT_mono with (length c); [exact H|]. exists c. auto. Qed.

Lemma spanT_plus n f g : spanT n f -> spanT n g -> spanT n (fun x => f x + g x).
Proof.
  intros [c [H1 H2]] [d [H3 H4]].
  exists (mk n (fun k => nth k c 0 + nth k d 0)). split; [apply mk_length|].
  intros x. rewrite H2, H4, evalT_mk.
  rewrite (evalT_ge c x n), (evalT_ge d x n) by lia. rewrite <- rsum_plus.
  apply rsum_ext. intros; ring.
Qed.

Lemma spanT_scal n a f : spanT n f -> spanT n (fun x => a * f x).
Proof.
  intros [c [H1 H2]]. exists (mk n (fun k => a * nth k c 0)). split; [apply mk_length|].
  intros x. rewrite H2, evalT_mk, (evalT_ge c x n) by lia. rewrite <- rsum_scal.
  apply rsum_ext. intros; ring.
Qed.

Lemma spanT_0 n : spanT n (fun _ => 0).
Proof.
  exists (mk n (fun _ => 0)). split; [apply mk_length|]. intros x. rewrite evalT_mk.
  rewrite rsum_zero; [reflexivity|]. intros; ring.
Qed.

Lemma spanT_T n k : (k < n)%nat -> spanT n (T k).
Proof.
  intros H. exists (mk n (fun i => if Nat.eqb i k then 1 else 0)). split; [apply mk_length|].
  intros x. rewrite evalT_mk. rewrite (rsum_single n _ k H).
  - rewrite Nat.eqb_refl. ring.
  - intros i _ Hne. apply Nat.eqb_neq in Hne. rewrite Hne. ring.
Qed.

Lemma spanT_rsum n m (F : nat -> R -> R) :
  (forall k, (k < m)%nat -> spanT n (F k)) -> spanT n (fun x => rsum m (fun k => F k x)).
Proof.
  induction m as [|m IH]; intros H.
  - apply spanT_0.
  - cbn [rsum]. apply spanT_plus; [apply IH; intros; apply H; lia | apply H; lia].
Qed.

Lemma spanT_TT i j n : (i + j < n)%nat -> spanT n (fun x => T i x * T j x).
Proof.
  intros H. destruct (le_ge_dec j i) as [L|L].
  - apply spanT_ext with (fun x => /2 * (T (i + j) x + T (i - j) x)).
    { intros x. rewrite <- T_mul by lia. lra. }
    apply spanT_scal, spanT_plus; apply spanT_T; lia.
  - apply spanT_ext with (fun x => /2 * (T (j + i) x + T (j - i) x)).
    { intros x. rewrite <- T_mul by lia. lra. }
    apply spanT_scal, spanT_plus; apply spanT_T; lia.
Qed.

Lemma rsum_mul n m f g : rsum n f * rsum m g = rsum n (fun i => rsum m (fun j => f i * g j)).
Proof.
  rewrite <- rsum_scal_r. apply rsum_ext. intros i _. rewrite <- rsum_scal. reflexivity.
Qed.

Lemma spanT_mul n m p f g : (n + m <= S p)%nat -> spanT n f -> spanT m g -> spanT p (fun x => f x * g x).
Proof.
  intros Hp [c [H1 H2]] [d [H3 H4]].
  apply spanT_ext with (fun x => rsum n (fun i => rsum m (fun j =>
      (nth i c 0 * nth j d 0) * (T i x * T j x)))).
  { intros x. rewrite H2, H4. unfold evalT. rewrite rsum_mul, H1, H3.
    apply rsum_ext; intros i _; apply rsum_ext; intros j _; ring. }
  apply spanT_rsum. intros i Hi. apply spanT_rsum. intros j Hj.
  apply spanT_scal, spanT_TT. lia.
Qed.

(** composition with an affine map *)
Lemma spanT_affine_T k a b : spanT (S k) (fun x => T k (a * x + b)).
Proof.
  induction k as [| |k IH1 IH2] using nat_ind2.
  - apply spanT_ext with (T 0); [reflexivity|]. apply spanT_T; lia.
  - apply spanT_ext with (fun x => a * T 1 x + b * T 0 x).
    { intros x. simpl. ring. }
    apply spanT_plus; apply spanT_scal, spanT_T; lia.
  - apply spanT_ext with (fun x => 2 * ((a * T 1 x + b * T 0 x) * T (S k) (a * x + b)) + (-1) * T k (a * x + b)).
    { intros x. rewrite T_SS. simpl (T 1 x). simpl (T 0 x). ring. }
    apply spanT_plus; apply spanT_scal.
    + apply spanT_mul with (n := 2%nat) (m := S (S k)); [lia| |exact IH2].
      apply spanT_plus; apply spanT_scal, spanT_T; lia.
    + apply spanT_mono with (S k); [lia|exact IH1].
Qed.

Lemma spanT_affine n f a b : spanT n f -> spanT n (fun x => f (a * x + b)).
Proof.
  intros [c [H1 H2]].
  apply spanT_ext with (fun x => rsum n (fun k => nth k c 0 * T k (a * x + b))).
  { intros x. rewrite H2. unfold evalT. rewrite H1. reflexivity. }
  apply spanT_rsum. intros k Hk. apply spanT_scal.
  apply spanT_mono with (S k); [lia|]. apply spanT_affine_T.
Qed.

(** ** Derivatives *)
Lemma is_derive_rec (f g : R -> R) (f' g' x : R) :
  is_derive f x f' -> is_derive g x g' ->
  is_derive (fun y => 2 * y * f y - g y) x (2 * f x + 2 * x * f' - g').
Proof.
  intros Hf Hg. auto_derive.
  - split; [exists f'; exact Hf|]. split; [exists g'; exact Hg|exact I].
  - replace (Derive (fun y : R => f y) x) with f' by (symmetry; apply is_derive_unique, Hf).
    replace (Derive (fun y : R => g y) x) with g' by (symmetry; apply is_derive_unique, Hg). ring.
Qed.

Lemma is_derive_T n x : is_derive (T n) x (match n with O => 0 | S m => INR n * U m x end).
Proof.
  revert x. induction n as [| |n IH1 IH2] using nat_ind2; intros x.
  - apply is_derive_ext with (fun _ => 1); [reflexivity|]. apply @is_derive_const.
  - apply is_derive_ext with (fun y => y); [reflexivity|].
    auto_derive; [exact I|]. simpl. ring.
  - apply is_derive_ext with (fun y => 2 * y * T (S n) y - T n y); [reflexivity|].
    evar_last; [apply is_derive_rec; [apply IH2|apply IH1]|].
    destruct n as [|n].
    + simpl. ring.
    + rewrite (T_xU (S n)). rewrite !S_INR. rewrite (U_SS n). ring.
Qed.

Lemma ex_derive_T n x : ex_derive (T n) x.
Proof. eexists. apply is_derive_T. Qed.

Lemma is_derive_rsum n (F : nat -> R -> R) (D : nat -> R) x :
  (forall k, (k < n)%nat -> is_derive (F k) x (D k)) ->
  is_derive (fun y => rsum n (fun k => F k y)) x (rsum n D).
Proof.
  induction n as [|n IH]; intros H; cbn [rsum].
  - apply @is_derive_const.
  - apply @is_derive_plus; [apply IH; intros; apply H; lia | apply H; lia].
Qed.

Lemma is_derive_evalT c x :
  is_derive (evalT c) x
    (rsum (length c) (fun k => nth k c 0 * match k with O => 0 | S m => INR k * U m x end)).
Proof.
  unfold evalT. apply is_derive_rsum. intros k Hk.
  apply is_derive_scal. apply is_derive_T.
Qed.

Lemma continuous_evalT c x : continuous (evalT c) x.
Proof. apply @ex_derive_continuous. eexists. apply is_derive_evalT. Qed.

Lemma ex_RInt_evalT c a b : ex_RInt (evalT c) a b.
Proof. apply @ex_RInt_continuous. intros. apply continuous_evalT. Qed.

(** fundamental theorem for series *)
Lemma is_RInt_evalT_prim c b lo hi :
  (forall x, is_derive (evalT b) x (evalT c x)) ->
  is_RInt (evalT c) lo hi (evalT b hi - evalT b lo).
Proof.
  intros H. apply @is_RInt_derive; intros; [apply H|apply continuous_evalT].
Qed.
