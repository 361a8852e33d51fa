(** Rounding error of evaluation and integration. *)
From Coq Require Import Reals List Arith Lia Lra ZArith Permutation.
From Flocq Require Import Core Relative.
From Verif Require Import Base ChebSpec ChebMath ChebModel ChebEval FlModel.
Import ListNotations.
Open Scope R_scope.

Fixpoint lasum (l : list R) : R := match l with [] => 0 | a :: r => Rabs a + lasum r end.
Lemma lasum_pos l : 0 <= lasum l.
Proof. induction l; cbn; [lra|]. pose proof (Rabs_pos a). lra. Qed.
Lemma lasum_app a b : lasum (a ++ b) = lasum a + lasum b.
Proof. induction a; cbn; [lra|]. rewrite IHa. lra. Qed.
Lemma lasum_skipn k l : lasum (skipn k l) <= lasum l.
Proof. revert l; induction k; intros l; [cbn; lra|]. destruct l; cbn; [lra|]. pose proof (Rabs_pos r). pose proof (IHk l). lra. Qed.

(** ** Rounding *)
Lemma fl_err_bp t : Rabs (fl t - t) <= / 2 * bpow radix2 (-53 + 1) * Rabs t + / 2 * bpow radix2 (-1074).
Proof.
  assert (P1 : 0 < bpow radix2 (-53 + 1)) by apply bpow_gt_0. assert (P2 : 0 < bpow radix2 (-1074)) by apply bpow_gt_0. pose proof (Rabs_pos t) as P3.
  destruct (Rlt_or_le (Rabs t) (bpow radix2 (-1074 + 53 - 1))) as [H|H].
  - clear P2. assert (V : Valid_exp (FLT_exp (-1074) 53)) by (apply FLT_exp_valid; reflexivity).
    pose proof (error_le_half_ulp radix2 (FLT_exp (-1074) 53) (fun n => negb (Z.even n)) t) as E.
    assert (U : ulp radix2 (FLT_exp (-1074) 53) t = bpow radix2 (-1074)).
    { apply ulp_FLT_small; [reflexivity|]. eapply Rlt_trans; [exact H|]. apply bpow_lt. lia. }
    rewrite U in E. unfold fl. eapply Rle_trans; [exact E|]. generalize dependent (bpow radix2 (-53 + 1)). intros v Pv. generalize (/ 2 * bpow radix2 (-1074)). intros w. assert (0 <= / 2 * v * Rabs t) by (apply Rmult_le_pos; lra). lra.
  - pose proof (relative_error_N_FLT radix2 (-1074) 53 eq_refl (fun n => negb (Z.even n)) t H) as E. change (- (53) + 1)%Z with (-53 + 1)%Z in E. unfold fl. eapply Rle_trans; [exact E|]. generalize dependent (bpow radix2 (-1074)). intros w Pw. generalize (/ 2 * bpow radix2 (-53 + 1) * Rabs t). intros v. lra.
Qed.
Definition uro : R := / 2 ^ 53.
Definition eta : R := / 2 ^ 1075.
Lemma uro_bp : / 2 * bpow radix2 (-53 + 1) = uro.
Proof. unfold uro. change (-53 + 1)%Z with (- (52))%Z. rewrite bpow_opp. rewrite <- Rinv_mult. f_equal. change 53%nat with (S 52). cbn [pow]. f_equal. rewrite (bpow_powerRZ radix2 52). reflexivity. Qed.
Lemma eta_bp : / 2 * bpow radix2 (-1074) = eta.
Proof. unfold eta. change (-1074)%Z with (- (1074))%Z. rewrite bpow_opp. rewrite <- Rinv_mult. f_equal. rewrite (bpow_powerRZ radix2 1074). change 1075%nat with (1 + 1074)%nat. rewrite pow_add, pow_1. f_equal. Qed.
Lemma fl_err t : Rabs (fl t - t) <= uro * Rabs t + eta.
Proof. rewrite <- uro_bp, <- eta_bp. apply fl_err_bp. Qed.
Lemma uro_small : 0 < uro <= / 8.
Proof.
  unfold uro. split. { apply Rinv_0_lt_compat. apply pow_lt. lra. }
  apply Rinv_le_contravar; [lra|]. replace 8 with (2 ^ 3) by (cbn; ring). apply Rle_pow; [lra|lia].
Qed.
Lemma eta_pos : 0 < eta.
Proof. unfold eta. apply Rinv_0_lt_compat. apply pow_lt. lra. Qed.


Local Opaque uro eta.
Lemma step_err z a p q d : Rabs (fstep z a p q d - (a + p * q - d)) <= 4 * uro * (Rabs a + Rabs (p * q) + Rabs d) + 4 * eta.
Proof.
  unfold fstep. destruct uro_small as [U0 U1]. pose proof eta_pos as E0.
  replace (if z then fl (a + p * q) else fadd a (fmul p q)) with (fl (a + (if z then p * q else fl (p * q)))) by (destruct z; reflexivity).
  unfold fsub. set (w := if z then _ else _). set (s := fl (a + w)). set (r := fl (s - d)).
  assert (H1 : Rabs (w - p * q) <= uro * Rabs (p * q) + eta).
  { unfold w. destruct z; [|apply fl_err]. rewrite Rminus_diag_eq, Rabs_R0 by reflexivity. pose proof (Rabs_pos (p * q)). assert (0 <= uro * Rabs (p * q)) by (apply Rmult_le_pos; lra). lra. }
  assert (H2 : Rabs (s - (a + w)) <= uro * Rabs (a + w) + eta) by apply fl_err.
  assert (H3 : Rabs (r - (s - d)) <= uro * Rabs (s - d) + eta) by apply fl_err.
  set (P := Rabs (p * q)) in *. set (A := Rabs a). set (D := Rabs d). pose proof (Rabs_pos (p * q)) as P0. pose proof (Rabs_pos a) as A0. pose proof (Rabs_pos d) as D0. fold P in P0. fold A in A0. fold D in D0.
  assert (W : Rabs w <= P + (uro * P + eta)). { replace w with (p * q + (w - p * q)) by ring. eapply Rle_trans; [apply Rabs_triang|]. fold P. lra. }
  assert (AW : Rabs (a + w) <= A + (P + (uro * P + eta))). { eapply Rle_trans; [apply Rabs_triang|]. fold A. lra. }
  assert (S1 : Rabs s <= Rabs (a + w) + Rabs (s - (a + w))). { replace s with ((a + w) + (s - (a + w))) at 1 by ring. apply Rabs_triang. }
  assert (SD : Rabs (s - d) <= Rabs s + D). { unfold Rminus. eapply Rle_trans; [apply Rabs_triang|]. rewrite Rabs_Ropp. fold D. lra. }
  assert (T : Rabs (r - (a + p * q - d)) <= Rabs (r - (s - d)) + Rabs (s - (a + w)) + Rabs (w - p * q)).
  { replace (r - (a + p * q - d)) with ((r - (s - d)) + (s - (a + w)) + (w - p * q)) by ring. eapply Rle_trans; [apply Rabs_triang|]. apply Rplus_le_compat_r. apply Rabs_triang. }
  set (m1 := Rabs (a + w)) in *. set (m2 := Rabs (s - (a + w))) in *. set (m3 := Rabs s) in *. set (m4 := Rabs (s - d)) in *. set (m5 := Rabs (r - (s - d))) in *. set (m6 := Rabs (w - p * q)) in *.
  clearbody m1 m2 m3 m4 m5 m6. clearbody P A D. clear - U0 U1 E0 H1 H2 H3 P0 A0 D0 AW S1 SD T W. generalize dependent uro. generalize dependent eta. intros h E0 u U0 U1 H1 H2 H3 W AW.
  eapply Rle_trans; [exact T|].
  assert (B1 : u * m1 <= u * (A + (P + (u * P + h)))) by (apply Rmult_le_compat_l; lra).
  assert (B2 : m4 <= m1 + (u * m1 + h) + D) by lra.
  assert (B3 : u * m4 <= u * (m1 + (u * m1 + h) + D)) by (apply Rmult_le_compat_l; lra).
  assert (Q1 : u * (u * P) <= / 8 * (u * P)). { apply Rmult_le_compat_r; [|exact U1]. apply Rmult_le_pos; lra. }
  assert (Q2 : u * h <= / 8 * h) by (apply Rmult_le_compat_r; lra).
  assert (UP : 0 <= u * P) by (apply Rmult_le_pos; lra). assert (UA : 0 <= u * A) by (apply Rmult_le_pos; lra). assert (UD : 0 <= u * D) by (apply Rmult_le_pos; lra).
  assert (B4 : u * m1 <= u * A + u * P + / 8 * (u * P) + / 8 * h) by lra.
  assert (B5 : u * (u * m1) <= / 8 * (u * A + u * P + / 8 * (u * P) + / 8 * h)).
  { apply Rle_trans with (u * (u * A + u * P + / 8 * (u * P) + / 8 * h)); [apply Rmult_le_compat_l; lra|]. apply Rmult_le_compat_r; lra. }
  lra.
Qed.

(** ** U is bounded by its degree *)
Lemma U_SS n x : U (S (S n)) x = 2 * x * U (S n) x - U n x.
Proof. reflexivity. Qed.
Lemma U_T n x : U (S n) x = x * U n x + T (S n) x.
Proof.
  assert (G : U (S n) x = x * U n x + T (S n) x /\ U (S (S n)) x = x * U (S n) x + T (S (S n)) x).
  { induction n as [|n [I1 I2]].
    - split; [cbn; ring|]. rewrite U_SS, T_SS. cbn. ring.
    - split; [exact I2|]. rewrite (U_SS (S n)), (T_SS (S n)).
      assert (E1 : T (S n) x = U (S n) x - x * U n x) by lra. assert (E2 : T (S (S n)) x = U (S (S n)) x - x * U (S n) x) by lra.
      rewrite E1, E2, (U_SS n). ring. }
  apply G.
Qed.
Lemma U_bound n x : -1 <= x <= 1 -> Rabs (U n x) <= INR n + 1.
Proof.
  intros Hx. induction n as [|n IH]; [cbn; rewrite Rabs_R1; lra|]. rewrite U_T, S_INR. eapply Rle_trans; [apply Rabs_triang|].
  pose proof (T_bound (S n) x Hx) as B. rewrite Rabs_mult. assert (X : Rabs x <= 1) by (apply Rabs_le; lra). pose proof (Rabs_pos (U n x)). pose proof (Rabs_pos x). nra.
Qed.
Lemma bl_U x l : bl x l = rsum (length l) (fun k => nth k l 0 * U k x).
Proof.
  assert (G : bl x l = rsum (length l) (fun k => nth k l 0 * U k x) /\ bl x (tl l) = rsum (length (tl l)) (fun k => nth k (tl l) 0 * U k x)).
  { induction l as [|a l [I1 I2]]; [split; reflexivity|]. split; [|exact I1]. rewrite bl_cons, I1, I2. cbn [length]. rewrite rsum_S_l. cbn [nth].
    destruct l as [|b l]; [cbn; ring|]. cbn [length tl nth] in *. rewrite !rsum_S_l. cbn [nth].
    rewrite Rmult_plus_distr_l, <- rsum_scal. 
    transitivity (a * U 0 x + (b * U 1 x + (rsum (length l) (fun k => 2 * x * (nth k l 0 * U (S k) x)) - rsum (length l) (fun k => nth k l 0 * U k x)))); [cbn [U]; ring|].
    do 2 f_equal. rewrite <- rsum_minus. apply rsum_ext. intros k _. rewrite U_SS. ring. }
  apply G.
Qed.
Lemma lasum_nth l : lasum l = rsum (length l) (fun k => Rabs (nth k l 0)).
Proof. induction l as [|a l IH]; [reflexivity|]. cbn [lasum length]. rewrite rsum_S_l, IH. reflexivity. Qed.
Lemma bl_bound x l N : -1 <= x <= 1 -> (length l <= N)%nat -> Rabs (bl x l) <= INR N * lasum l.
Proof.
  intros Hx HN. rewrite bl_U, lasum_nth. eapply Rle_trans; [apply rsum_Rabs|]. rewrite <- rsum_scal. apply rsum_le. intros k Hk.
  rewrite Rabs_mult, Rmult_comm. apply Rmult_le_compat_r; [apply Rabs_pos|]. eapply Rle_trans; [apply U_bound; exact Hx|]. rewrite <- S_INR. apply le_INR. lia.
Qed.

(** ** The computed recurrence *)
Section Choice.
Variable z : nat -> bool.
Fixpoint fbl (x : R) (l : list R) : R :=
  match l with
  | [] => 0
  | a :: t => match t with [] => fstep (z 0%nat) a (2 * x) 0 0 | _ :: v => fstep (z (length t)) a (2 * x) (fbl x t) (fbl x v) end
  end.
Lemma fbl_cons x a t : fbl x (a :: t) = fstep (z (length t)) a (2 * x) (fbl x t) (fbl x (tl t)).
Proof. destruct t as [|b v]; reflexivity. Qed.
Lemma fbl_skipn x c k : (k < length c)%nat ->
  fbl x (skipn k c) = fstep (z (length c - 1 - k)%nat) (nth k c 0) (2 * x) (fbl x (skipn (S k) c)) (fbl x (skipn (S (S k)) c)).
Proof.
  intros Hk. rewrite skipn_cons_nth by exact Hk. rewrite fbl_cons, tl_skipn, skipn_length.
  replace (length c - S k)%nat with (length c - 1 - k)%nat by lia. reflexivity.
Qed.
Lemma fclenshaw_loop c x t : (2 * t <= length c - 1)%nat ->
  fold_left (fun '(bk1, bk2) t =>
      let i := (length c - 1 - 2 * t)%nat in
      let bk2 := fstep (z (length c - 1 - i)%nat) (nth i c 0) (2 * x) bk1 bk2 in
      let bk1 := fstep (z (length c - 1 - (i - 1))%nat) (nth (i - 1) c 0) (2 * x) bk2 bk1 in
      (bk1, bk2)) (seq 0 t) (0, 0)
  = (fbl x (skipn (length c - 2 * t) c), fbl x (skipn (S (length c - 2 * t)) c)).
Proof.
  induction t as [|t IH]; intros Ht.
  - cbn [seq fold_left]. rewrite !skipn_all2 by lia. reflexivity.
  - rewrite seq_S, fold_left_app, IH by lia. cbn [fold_left plus].
    cbv zeta. f_equal.
    + replace (length c - 2 * S t)%nat with (length c - 1 - 2 * t - 1)%nat by lia.
      rewrite (fbl_skipn x c (length c - 1 - 2 * t - 1)) by lia.
      replace (S (length c - 1 - 2 * t - 1)) with (length c - 1 - 2 * t)%nat by lia.
      rewrite (fbl_skipn x c (length c - 1 - 2 * t)) by lia.
      replace (S (length c - 1 - 2 * t)) with (length c - 2 * t)%nat by lia.
      reflexivity.
    + replace (S (length c - 2 * S t)) with (length c - 1 - 2 * t)%nat by lia.
      rewrite (fbl_skipn x c (length c - 1 - 2 * t)) by lia.
      replace (S (length c - 1 - 2 * t)) with (length c - 2 * t)%nat by lia.
      reflexivity.
Qed.
Lemma double_twice x : is_double x -> is_double (2 * x).
Proof.
  unfold is_double. intros H. apply FLT_format_generic in H; [|reflexivity]. destruct H as [f H1 H2 H3]. apply generic_format_FLT.
  exists (Float radix2 (Fnum f) (Fexp f + 1)); cbn [Fnum Fexp]; [|exact H2|lia].
  rewrite H1. unfold F2R. cbn [Fnum Fexp]. rewrite bpow_plus. change (bpow radix2 1) with 2. ring.
Qed.
Lemma fl_double x : is_double x -> fl x = x.
Proof. intros H. unfold fl. apply round_generic; [apply valid_rnd_N|exact H]. Qed.
Lemma fclenshaw_fbl c x : (1 <= length c)%nat -> is_double x ->
  fclenshaw_pt z c x = fstep (z (length c - 1)%nat) (nth 0 c 0) x (fbl x (tl c)) (fbl x (tl (tl c))).
Proof.
  intros Hc Fx. unfold fclenshaw_pt.
  assert (X2 : fmul 2 x = 2 * x) by (apply fl_double, double_twice, Fx). rewrite X2.
  assert (X1 : fmul (/ 2) (2 * x) = x) by (unfold fmul; replace (/ 2 * (2 * x)) with x by field; apply fl_double, Fx). rewrite X1.
  set (n := (length c - 1)%nat).
  assert (Hn := Nat.div_mod n 2 ltac:(lia)). assert (Hm := Nat.mod_upper_bound n 2 ltac:(lia)).
  pose proof (fclenshaw_loop c x (n / 2) ltac:(unfold n in *; lia)) as L.
  fold n in L. cbv zeta in L |- *. rewrite L. clear L.
  destruct (Nat.odd n) eqn:E.
  - assert (n mod 2 = 1)%nat by (rewrite <- Nat.bit0_mod, Nat.bit0_odd, E; reflexivity).
    replace (length c - 2 * (n / 2))%nat with 2%nat by (unfold n in *; lia).
    assert (H1 := fbl_skipn x c 1 ltac:(unfold n in *; lia)).
    replace (tl c) with (skipn 1 c) by (destruct c; reflexivity).
    rewrite (tl_skipn c 1). rewrite H1. reflexivity.
  - assert (n mod 2 = 0)%nat by (rewrite <- Nat.bit0_mod, Nat.bit0_odd, E; reflexivity).
    replace (length c - 2 * (n / 2))%nat with 1%nat by (unfold n in *; lia).
    replace (tl c) with (skipn 1 c) by (destruct c; reflexivity).
    rewrite (tl_skipn c 1). reflexivity.
Qed.

(** ** Backward error: the computed value is that of a nearby series *)
Fixpoint errs (x : R) (l : list R) : list R :=
  match l with [] => [] | a :: t => (fbl x (a :: t) - (a + 2 * x * fbl x t - fbl x (tl t))) :: errs x t end.
Fixpoint ladd (a b : list R) : list R := match a, b with x :: a, y :: b => (x + y) :: ladd a b | _, _ => [] end.
Lemma ladd_length a b : length a = length b -> length (ladd a b) = length a.
Proof. revert b; induction a; intros [|y b] H; cbn in *; try lia. f_equal. apply IHa. lia. Qed.
Lemma ladd_nth a b k : length a = length b -> nth k (ladd a b) 0 = nth k a 0 + nth k b 0.
Proof. revert b k; induction a; intros [|y b] k H; cbn in H; try lia. { destruct k; cbn; ring. } destruct k; cbn; [ring|]. apply IHa. lia. Qed.
Lemma errs_length x l : length (errs x l) = length l.
Proof. induction l; cbn; congruence. Qed.
Lemma errs_tl x l : errs x (tl l) = tl (errs x l).
Proof. destruct l; reflexivity. Qed.
Lemma ladd_tl a b : length a = length b -> tl (ladd a b) = ladd (tl a) (tl b).
Proof. destruct a, b; intros H; try discriminate; reflexivity. Qed.
Lemma lasum_ladd a b : lasum (ladd a b) <= lasum a + lasum b.
Proof.
  revert b; induction a as [|x a IH]; intros [|y b]; cbn [ladd lasum]; try lra.
  - pose proof (lasum_pos b). pose proof (Rabs_pos y). lra.
  - pose proof (lasum_pos a). pose proof (Rabs_pos x). lra.
  - pose proof (IH b). pose proof (Rabs_triang x y). lra.
Qed.
Lemma fbl_bl x l : fbl x l = bl x (ladd l (errs x l)).
Proof.
  assert (G : fbl x l = bl x (ladd l (errs x l)) /\ fbl x (tl l) = bl x (tl (ladd l (errs x l)))).
  { induction l as [|a l [I1 I2]]; [split; reflexivity|]. split; [|exact I1]. cbn [errs ladd]. rewrite bl_cons, <- I1, <- I2. ring. }
  apply G.
Qed.
Lemma fbl_bound x l N : -1 <= x <= 1 -> (length l <= N)%nat -> Rabs (fbl x l) <= INR N * (lasum l + lasum (errs x l)).
Proof.
  intros Hx HN. rewrite fbl_bl. eapply Rle_trans; [apply (bl_bound x _ N Hx)|].
  - rewrite ladd_length by (now rewrite errs_length). exact HN.
  - apply Rmult_le_compat_l; [apply pos_INR|apply lasum_ladd].
Qed.
Lemma lasum_tl l : lasum (tl l) <= lasum l.
Proof. destruct l; cbn; [lra|]. pose proof (Rabs_pos r). lra. Qed.
Lemma errs_sum x N M : -1 <= x <= 1 -> forall l, (length l <= N)%nat -> INR N * (lasum l + lasum (errs x l)) <= M ->
  lasum (errs x l) <= 4 * uro * lasum l + INR (length l) * (12 * uro * M + 4 * eta).
Proof.
  intros Hx l. destruct uro_small as [U0 U1]. pose proof eta_pos as E0. induction l as [|a l IH]; intros HN HM; [cbn; lra|].
  assert (PN : 0 <= INR N) by apply pos_INR. assert (PE := lasum_pos (errs x l)). assert (PL := lasum_pos l).
  cbn [errs lasum length] in HM |- *. set (e := fbl x (a :: l) - _) in *.
  assert (HM' : INR N * (lasum l + lasum (errs x l)) <= M).
  { eapply Rle_trans; [|exact HM]. apply Rmult_le_compat_l; [exact PN|]. pose proof (Rabs_pos a). pose proof (Rabs_pos e). lra. }
  cbn [length] in HN. specialize (IH ltac:(lia) HM').
  assert (B1 : Rabs (fbl x l) <= M) by (eapply Rle_trans; [apply (fbl_bound x l N Hx); lia|exact HM']).
  assert (B2 : Rabs (fbl x (tl l)) <= M).
  { eapply Rle_trans; [apply (fbl_bound x (tl l) N Hx); destruct l; cbn in *; lia|]. eapply Rle_trans; [|exact HM'].
    apply Rmult_le_compat_l; [exact PN|]. rewrite errs_tl. pose proof (lasum_tl l). pose proof (lasum_tl (errs x l)). lra. }
  assert (EB : Rabs e <= 4 * uro * (Rabs a + Rabs (2 * x * fbl x l) + Rabs (fbl x (tl l))) + 4 * eta).
  { unfold e. rewrite fbl_cons. apply step_err. }
  assert (X2 : Rabs (2 * x * fbl x l) <= 2 * M).
  { rewrite Rabs_mult. assert (Rabs (2 * x) <= 2) by (apply Rabs_le; lra). pose proof (Rabs_pos (2 * x)). pose proof (Rabs_pos (fbl x l)). nra. }
  rewrite S_INR.
  assert (EB2 : Rabs e <= 4 * uro * (Rabs a + 2 * M + M) + 4 * eta).
  { eapply Rle_trans; [exact EB|]. apply Rplus_le_compat_r. apply Rmult_le_compat_l; lra. }
  lra.
Qed.

Lemma evalT_abs e x : -1 <= x <= 1 -> Rabs (evalT e x) <= lasum e.
Proof.
  intros Hx. unfold evalT. rewrite lasum_nth. eapply Rle_trans; [apply rsum_Rabs|]. apply rsum_le. intros k _. rewrite Rabs_mult.
  pose proof (T_bound k x Hx). pose proof (Rabs_pos (nth k e 0)). pose proof (Rabs_pos (T k x)). nra.
Qed.
Lemma evalT_ladd a b x : length a = length b -> evalT (ladd a b) x = evalT a x + evalT b x.
Proof.
  intros H. unfold evalT. rewrite ladd_length, <- H by exact H. rewrite <- rsum_plus. apply rsum_ext. intros k _. rewrite ladd_nth by exact H. ring.
Qed.
(** The computed value is the exact value of a series with coefficients c + e. *)
Lemma fclenshaw_backward c x : (1 <= length c)%nat -> 24 * INR (length c) ^ 2 * uro <= 1 -> is_double x -> -1 <= x <= 1 ->
  exists e, length e = length c /\ fclenshaw_pt z c x = evalT (ladd c e) x /\
    lasum e <= (8 + 24 * INR (length c) ^ 2) * uro * lasum c + 8 * INR (length c) * eta.
Proof.
  intros Hc HN Fx Hx. rewrite (fclenshaw_fbl c x Hc Fx). destruct c as [|c0 l]; [cbn in Hc; lia|]. cbn [nth tl].
  set (r := fstep _ _ _ _ _). set (e0 := r - (c0 + x * fbl x l - fbl x (tl l))).
  exists (e0 :: errs x l). split; [cbn; now rewrite errs_length|]. split.
  - rewrite evalT_bl. cbn [ladd nth tl]. rewrite ladd_tl by (now rewrite errs_length). rewrite <- errs_tl, <- !fbl_bl. unfold e0. ring.
  - destruct uro_small as [U0 U1]. pose proof eta_pos as E0. set (N := length (c0 :: l)) in *.
    set (S := lasum (c0 :: l)). assert (S0 : 0 <= S) by apply lasum_pos. set (E := lasum (errs x l)). assert (PE : 0 <= E) by apply lasum_pos.
    assert (PN : 0 <= INR N) by apply pos_INR. assert (P1 := Rabs_pos e0). assert (PL := lasum_pos l). assert (PC := Rabs_pos c0).
    assert (LN : (length l <= N)%nat) by (unfold N; cbn; lia).
    assert (ES : S = Rabs c0 + lasum l) by reflexivity.
    set (M := INR N * (S + E)).
    assert (ML : INR N * (lasum l + lasum (errs x l)) <= M) by (apply Rmult_le_compat_l; [exact PN|]; fold E; lra).
    pose proof (errs_sum x N M Hx l LN ML) as B. fold E in B.
    assert (B1 : Rabs (fbl x l) <= M) by (eapply Rle_trans; [apply (fbl_bound x l N Hx LN)|exact ML]).
    assert (B2 : Rabs (fbl x (tl l)) <= M).
    { eapply Rle_trans; [apply (fbl_bound x (tl l) N Hx); destruct l; cbn in *; lia|]. eapply Rle_trans; [|exact ML].
      apply Rmult_le_compat_l; [exact PN|]. rewrite errs_tl. pose proof (lasum_tl l). pose proof (lasum_tl (errs x l)). lra. }
    assert (M0 : 0 <= M) by (eapply Rle_trans; [apply Rabs_pos|exact B1]).
    assert (EB : Rabs e0 <= 4 * uro * (Rabs c0 + Rabs (x * fbl x l) + Rabs (fbl x (tl l))) + 4 * eta) by apply step_err.
    assert (X1 : Rabs (x * fbl x l) <= M).
    { rewrite Rabs_mult. assert (Rabs x <= 1) by (apply Rabs_le; lra). pose proof (Rabs_pos x). pose proof (Rabs_pos (fbl x l)). nra. }
    assert (EB2 : Rabs e0 <= 4 * uro * (Rabs c0 + 3 * M) + 4 * eta).
    { eapply Rle_trans; [exact EB|]. apply Rplus_le_compat_r. apply Rmult_le_compat_l; lra. }
    assert (NL : INR N = INR (length l) + 1) by (unfold N; cbn [length]; now rewrite S_INR).
    change (lasum (e0 :: errs x l)) with (Rabs e0 + E). set (W := Rabs e0 + E).
    assert (BW : W <= 4 * uro * S + INR N * (12 * uro * M + 4 * eta)).
    { unfold W. rewrite NL, ES. rewrite ES in *. lra. }
    assert (MW : M <= INR N * (S + W)) by (apply Rmult_le_compat_l; [exact PN|]; unfold W; lra).
    assert (BW2 : W <= 4 * uro * S + 12 * (INR N ^ 2 * uro) * (S + W) + 4 * INR N * eta).
    { eapply Rle_trans; [exact BW|]. assert (INR N * (12 * uro * M) <= INR N * (12 * uro * (INR N * (S + W)))).
      { apply Rmult_le_compat_l; [exact PN|]. apply Rmult_le_compat_l; [lra|exact MW]. } lra. }
    assert (W0 : 0 <= W) by (unfold W; lra).
    assert (Q : 12 * (INR N ^ 2 * uro) * W <= / 2 * W) by (apply Rmult_le_compat_r; lra).
    lra.
Qed.
End Choice.
