(** f.qr(): the discrete factorisation is the continuous one. *)
From Coq Require Import Reals ZArith List Arith Bool Lra Lia.
From Coquelicot Require Import Coquelicot.
From Verif Require Import Base Vecs ChebSpec ChebMath ChebDct ChebModel ChebModel2 ChebEval ChebCalc ChebChop ChebObj RootsMin FnlProofs FunModel FunProofs Legendre FqrSpec FqrModel FqrProofs.
Import ListNotations.
Open Scope R_scope.

Lemma rsum_cs n a b : rsum n (fun i => a i * b i) * rsum n (fun i => a i * b i) <= rsum n (fun i => a i * a i) * rsum n (fun i => b i * b i).
Proof.
  assert (P : 0 <= rsum n (fun i => rsum n (fun j => (a i * b j - a j * b i) * (a i * b j - a j * b i)))).
  { apply rsum_nonneg. intros i _. apply rsum_nonneg. intros j _. apply Rle_0_sqr. }
  assert (E : rsum n (fun i => rsum n (fun j => (a i * b j - a j * b i) * (a i * b j - a j * b i)))
    = 2 * (rsum n (fun i => a i * a i) * rsum n (fun i => b i * b i)) - 2 * (rsum n (fun i => a i * b i) * rsum n (fun i => a i * b i))).
  { transitivity (rsum n (fun i => a i * a i * rsum n (fun j => b j * b j) + b i * b i * rsum n (fun j => a j * a j) - 2 * (a i * b i) * rsum n (fun j => a j * b j))).
    { apply rsum_ext. intros i _. rewrite <- !rsum_scal, <- rsum_plus, <- rsum_minus. apply rsum_ext. intros j _. ring. }
    rewrite rsum_minus, rsum_plus, !rsum_scal_r. rewrite rsum_scal. ring. }
  lra.
Qed.
(** ** The largest value of a polynomial against its L2 norm *)
Lemma leg_inner n c k : (k < n)%nat -> is_RInt (fun x => leg k x * rsum n (fun i => c i * leg i x)) (-1) 1 (c k * (2 / (2 * INR k + 1))).
Proof.
  intros Hk. apply is_RInt_ext with (fun x => rsum n (fun i => c i * (leg k x * leg i x))).
  { intros x _. rewrite <- rsum_scal. apply rsum_ext. intros. ring. }
  evar_last.
  - apply is_RInt_rsum with (I := fun i => c i * (if Nat.eqb i k then 2 / (2 * INR k + 1) else 0)). intros i Hi.
    apply (is_RInt_scal (V := R_NormedModule)). destruct (Nat.eqb_spec i k) as [->|Hne]; [apply leg_norm|apply leg_orth; congruence].
  - rewrite (rsum_single n _ k Hk); [now rewrite Nat.eqb_refl|]. intros i _ Hne. destruct (Nat.eqb_spec i k); [contradiction|ring].
Qed.
Lemma sum_odd n : rsum n (fun k => (2 * INR k + 1) / 2) = INR n * INR n / 2.
Proof. induction n as [|n IH]; [cbn; field|]. change (rsum (S n) (fun k => (2 * INR k + 1) / 2)) with (rsum n (fun k => (2 * INR k + 1) / 2) + (2 * INR n + 1) / 2). rewrite IH, S_INR. field. Qed.
Lemma sup_L2 M p I x : spanT M p -> is_RInt (fun t => p t * p t) (-1) 1 I -> -1 <= x <= 1 -> p x * p x <= INR M * INR M / 2 * I.
Proof.
  intros Hs HI Hx. destruct (spanP_spanT M p Hs) as [c Hc].
  assert (EI : I = rsum M (fun k => c k * (c k * (2 / (2 * INR k + 1))))).
  { rewrite <- (is_RInt_unique _ _ _ _ HI). apply is_RInt_unique.
    apply is_RInt_ext with (fun t => rsum M (fun k => c k * (leg k t * rsum M (fun i => c i * leg i t)))).
    { intros t _. rewrite <- Hc. rewrite (Hc t) at 2. rewrite <- rsum_scal. apply rsum_ext. intros. ring. }
    apply is_RInt_rsum. intros k Hk. apply (is_RInt_scal (V := R_NormedModule)). now apply leg_inner. }
  set (s := fun k => sqrt ((2 * INR k + 1) / 2)).
  assert (Hs2 : forall k, s k * s k = (2 * INR k + 1) / 2 /\ 0 < s k).
  { intros k. assert (0 <= INR k) by apply pos_INR. split; [apply sqrt_sqrt; lra|apply sqrt_lt_R0; lra]. }
  assert (C := rsum_cs M (fun k => c k / s k) (fun k => s k * leg k x)). cbn beta in C.
  rewrite (rsum_ext M (fun i => c i / s i * (s i * leg i x)) (fun i => c i * leg i x)) in C by (intros i _; destruct (Hs2 i); field; lra).
  rewrite <- Hc in C. eapply Rle_trans; [exact C|].
  rewrite (rsum_ext M (fun i => c i / s i * (c i / s i)) (fun k => c k * (c k * (2 / (2 * INR k + 1))))).
  2:{ intros i _. destruct (Hs2 i) as [A B]. assert (0 <= INR i) by apply pos_INR. transitivity (c i * c i / (s i * s i)); [field; lra|]. rewrite A. field. lra. }
  rewrite <- EI. rewrite Rmult_comm. apply Rmult_le_compat_r.
  - rewrite EI. apply rsum_nonneg. intros k _. assert (0 <= INR k) by apply pos_INR. assert (0 <= 2 / (2 * INR k + 1)) by (apply Rdiv_le_0_compat; lra). assert (0 <= c k * c k) by apply Rle_0_sqr. nra.
  - rewrite <- sum_odd. apply rsum_le. intros k _. destruct (Hs2 k) as [A B]. assert (L := leg_bound k x Hx). apply Rabs_le_between in L.
    replace (s k * leg k x * (s k * leg k x)) with (s k * s k * (leg k x * leg k x)) by ring. rewrite A. assert (0 <= INR k) by apply pos_INR. assert (leg k x * leg k x <= 1) by nra. nra.
Qed.

(** ** Vectors of values *)
Section vals.
Context (M : nat) (HM : (1 <= M)%nat) (w : list R).
Let N := (2 * M)%nat.
Hypothesis Hw : quadwts N = Some w.
Let x i := nth i (chebpts_type2_compute N) 0.
Definition SPv (v : vecs) : Prop := exists f, spanT M f /\ forall i, (i < N)%nat -> (v : vec) i = f (x i).
Lemma SPv_sub : subspace SPv.
Proof.
  constructor.
  - exists (fun _ => 0). split; [apply spanT_0|reflexivity].
  - intros u v (f & Hf & Ef) (g & Hg & Eg). exists (fun t => f t + g t). split; [now apply spanT_plus|]. intros i Hi. rewrite vplus_i, Ef, Eg by exact Hi. reflexivity.
  - intros a u (f & Hf & Ef). exists (fun t => a * f t). split; [now apply spanT_scal|]. intros i Hi. rewrite vscal_i, Ef by exact Hi. reflexivity.
Qed.
Lemma wdot_semi : semi (wdot N w).
Proof.
  constructor; unfold wdot.
  - intros u v z. rewrite <- rsum_plus. apply rsum_ext. intros i _. rewrite vplus_i. ring.
  - intros a u z. rewrite <- rsum_scal. apply rsum_ext. intros i _. rewrite vscal_i. ring.
  - intros u z. apply rsum_ext. intros. ring.
  - intros u. apply rsum_nonneg. intros i Hi. assert (P := quadwts_pos N w i ltac:(unfold N; lia) Hw Hi).
    replace ((u : vec) i * nth i w 0 * (u : vec) i) with (nth i w 0 * ((u : vec) i * (u : vec) i)) by ring. apply Rmult_le_pos; [lra|apply Rle_0_sqr].
Qed.
Lemma wdot_int (u v : vecs) f g : spanT M f -> spanT M g -> (forall i, (i < N)%nat -> (u : vec) i = f (x i)) -> (forall i, (i < N)%nat -> (v : vec) i = g (x i)) ->
  is_RInt (fun t => f t * g t) (-1) 1 (wdot N w u v).
Proof.
  intros Hf Hg Eu Ev. evar_last.
  - apply (quadwts_exact N w (fun t => f t * g t)); [unfold N; lia|exact Hw|]. apply (spanT_mul M M N); [unfold N; lia|exact Hf|exact Hg].
  - unfold wdot. apply rsum_ext. intros i Hi. rewrite Eu, Ev by exact Hi. fold (x i). ring.
Qed.
Lemma x_range i : (i < N)%nat -> -1 <= x i <= 1.
Proof. intros Hi. unfold x. rewrite chebpts_nth by (unfold N in *; lia). apply COS_bound. Qed.
Lemma x_last : x (N - 1) = 1.
Proof. unfold x. rewrite chebpts_nth by (unfold N; lia). replace (N - 1 - (N - 1))%nat with O by lia. cbn [INR]. replace (PI * 0 / INR (N - 1)) with 0 by (unfold Rdiv; ring). apply cos_0. Qed.
Lemma leg_cols_spec (y : nat -> R) k : forall i, fst (leg_cols y k) i = leg k (y i) /\ snd (leg_cols y k) i = leg (S k) (y i).
Proof.
  induction k as [|k IH]; intros i; [split; reflexivity|]. cbn [leg_cols]. destruct (leg_cols y k) as [a b] eqn:E. destruct (IH i) as [I1 I2]. cbn [fst snd] in *. split; [exact I2|].
  rewrite I1, I2. apply Rmult_eq_reg_l with (INR (S (S k))); [|apply INR_S_ne]. rewrite leg_rec. rewrite plus_INR, !S_INR. cbn [INR]. assert (0 <= INR k) by apply pos_INR. field. lra.
Qed.
Lemma leg_E_val (y : nat -> R) j i : (leg_E y j : vec) i = sqrt ((2 * INR j + 1) / 2) * leg j (y i).
Proof. unfold leg_E. destruct (leg_cols_spec y j i) as [-> _]. rewrite Rmult_comm. do 2 f_equal. rewrite S_INR. field. Qed.
Let E0 := leg_E x.
Lemma E0_span j : (j < M)%nat -> spanT M (fun t => sqrt ((2 * INR j + 1) / 2) * leg j t).
Proof. intros H. apply spanT_scal. apply spanT_mono with (S j); [lia|apply spanT_leg]. Qed.
Lemma E0_orth i j : (i < M)%nat -> (j < M)%nat -> wdot N w (E0 i) (E0 j) = delta i j.
Proof.
  intros Hi Hj.
  assert (I := wdot_int (E0 i) (E0 j) _ _ (E0_span i Hi) (E0_span j Hj) (fun k _ => leg_E_val x i k) (fun k _ => leg_E_val x j k)).
  rewrite <- (is_RInt_unique _ _ _ _ I). apply is_RInt_unique.
  apply is_RInt_ext with (fun t => sqrt ((2 * INR i + 1) / 2) * sqrt ((2 * INR j + 1) / 2) * (leg i t * leg j t)); [intros; Rring|].
  unfold delta. destruct (Nat.eqb_spec i j) as [->|Hne].
  - evar_last; [apply (is_RInt_scal (V := R_NormedModule)); apply leg_norm|]. assert (0 <= INR j) by apply pos_INR. rewrite sqrt_sqrt by lra. unfold scal; cbn; unfold mult; cbn. field. lra.
  - evar_last; [apply (is_RInt_scal (V := R_NormedModule)); apply leg_orth; exact Hne|]. unfold scal; cbn; unfold mult; cbn. ring.
Qed.
Lemma E0_S j : (j < M)%nat -> SPv (E0 j).
Proof. intros H. exists (fun t => sqrt ((2 * INR j + 1) / 2) * leg j t). split; [now apply E0_span|]. intros i _. apply leg_E_val. Qed.
Lemma vinf_ge K (v : vecs) i : (i < K)%nat -> Rabs ((v : vec) i) <= vinf K v.
Proof.
  intros H. unfold vinf. assert (G : In i (seq 0 K)) by (apply in_seq; lia). revert G. generalize (seq 0 K). intros l.
  induction l as [|a l IH]; [intros []|]. intros [->|G]; cbn [fold_right]; [apply Rmax_l|]. eapply Rle_trans; [now apply IH|apply Rmax_r].
Qed.
Lemma vinf_le K (v : vecs) B : 0 <= B -> (forall i, (i < K)%nat -> Rabs ((v : vec) i) <= B) -> vinf K v <= B.
Proof.
  intros HB H. unfold vinf. assert (G : forall i, In i (seq 0 K) -> Rabs ((v : vec) i) <= B) by (intros i Hi; apply in_seq in Hi; apply H; lia).
  revert G. generalize (seq 0 K). intros l. induction l as [|a l IH]; intros G; cbn [fold_right]; [exact HB|]. apply Rmax_lub; [apply G; now left|apply IH; intros; apply G; now right].
Qed.
Lemma E0_norm j : 0 < vinf N (E0 j) <= sqrt ((2 * INR j + 1) / 2).
Proof.
  assert (0 <= INR j) by apply pos_INR. assert (P : 0 < sqrt ((2 * INR j + 1) / 2)) by (apply sqrt_lt_R0; lra). split.
  - eapply Rlt_le_trans; [|apply (vinf_ge N (E0 j) (N - 1)); unfold N; lia]. unfold E0. rewrite leg_E_val, x_last, leg_1, Rmult_1_r. rewrite Rabs_pos_eq; lra.
  - apply vinf_le; [lra|]. intros i Hi. unfold E0. rewrite leg_E_val, Rabs_mult, (Rabs_pos_eq (sqrt _)) by lra. assert (L := leg_bound j (x i) (x_range i Hi)). nra.
Qed.
Lemma vinf_L2 u r : SPv u -> 0 <= r -> wdot N w u u = r * r -> vinf N u <= INR M / sqrt 2 * r.
Proof.
  intros (f & Hf & Ef) Hr Hu. assert (I := wdot_int u u f f Hf Hf Ef Ef). rewrite Hu in I.
  assert (S2 : 0 < sqrt 2) by (apply sqrt_lt_R0; lra). assert (Q2 : sqrt 2 * sqrt 2 = 2) by (apply sqrt_sqrt; lra). assert (HMp : 0 <= INR M) by apply pos_INR.
  assert (B : 0 <= INR M / sqrt 2 * r) by (apply Rmult_le_pos; [apply Rdiv_le_0_compat|]; lra).
  apply vinf_le; [exact B|]. intros i Hi. rewrite Ef by exact Hi. assert (L := sup_L2 M f _ (x i) Hf I (x_range i Hi)).
  replace (INR M * INR M / 2 * (r * r)) with ((INR M / sqrt 2 * r) * (INR M / sqrt 2 * r)) in L.
  - apply Rabs_le. nra.
  - rewrite <- Q2 at 3. field. lra.
Qed.
(** a polynomial vanishing at the nodes vanishes *)
Lemma nodes_ext f g : spanT N f -> spanT N g -> (forall i, (i < N)%nat -> f (x i) = g (x i)) -> forall t, f t = g t.
Proof.
  intros Hf Hg H t. rewrite <- (polyfit_span N f ltac:(unfold N; lia) Hf t), <- (polyfit_span N g ltac:(unfold N; lia) Hg t). do 2 f_equal.
  apply mk_ext. intros i Hi. now apply H.
Qed.
(** coefficients of a column of Q *)
Lemma fit_trunc (v : vecs) f : spanT M f -> (forall i, (i < N)%nat -> (v : vec) i = f (x i)) ->
  let c := firstn (N / 2 + 1) (polyfit1 (mk N (fun i => (v : vec) i))) in length c = S M /\ forall t, evalT c t = f t.
Proof.
  intros Hf Ef c. assert (EN : (N / 2 + 1 = S M)%nat) by (unfold N; rewrite Nat.mul_comm, Nat.div_mul by lia; lia).
  assert (HL : length (polyfit1 (mk N (fun i => (v : vec) i))) = N) by (rewrite polyfit1_length, mk_length; reflexivity).
  assert (EV : forall t, evalT (polyfit1 (mk N (fun i => (v : vec) i))) t = f t).
  { intros t. rewrite <- (polyfit_span N f ltac:(unfold N; lia) (spanT_mono M N f ltac:(unfold N; lia) Hf) t). do 2 f_equal. apply mk_ext. exact Ef. }
  split. { unfold c. rewrite firstn_length, HL, EN. unfold N. lia. }
  intros t. destruct Hf as (d & Hd & Fd). rewrite Fd. unfold c. rewrite EN.
  rewrite (evalT_ge _ t (S M)) by (rewrite firstn_length; lia). rewrite (evalT_ge d t (S M)) by lia. apply rsum_ext. intros k Hk.
  rewrite nth_firstn_lt by exact Hk. f_equal. apply coef_unique. intros s. rewrite EV. apply Fd.
Qed.
End vals.
