(** Running integrals in floating point. *)
From Coq Require Import Reals List Arith Lia Lra ZArith Permutation.
From Flocq Require Import Core.
From Verif Require Import Base ChebSpec ChebMath ChebModel ChebEval ChebDct ChebCalc FlModel FlProofs FlSum FlMap FlModel2 FlCalc.
Import ListNotations.
Open Scope R_scope.
Local Opaque uro eta.

Lemma fmul_pm t k : is_double t -> fmul t (if Nat.odd k then -1 else 1) = t * sgn k.
Proof.
  intros H. unfold fmul. rewrite fl_double; [|destruct (Nat.odd k); [replace (t * -1) with (- t) by ring; apply dbl_opp, H|rewrite Rmult_1_r; exact H]].
  unfold sgn. rewrite <- Nat.negb_odd. destruct (Nat.odd k); reflexivity.
Qed.
Lemma double_nth s k : (forall t, In t s -> is_double t) -> is_double (nth k s 0).
Proof. intros H. destruct (Nat.lt_ge_cases k (length s)) as [L|L]; [apply H, nth_In, L|]. rewrite nth_overflow by exact L. apply (dbl_Z 0). cbn. lia. Qed.
Lemma lasum_scal_sgn s : rsum (length s) (fun k => Rabs (1 * (nth k s 0 * sgn k))) = lasum s.
Proof. rewrite lasum_nth. apply rsum_ext. intros k _. rewrite Rmult_1_l, Rabs_mult. replace (Rabs (sgn k)) with 1; [ring|]. unfold sgn. destruct (Nat.even k); [rewrite Rabs_right|rewrite Rabs_left]; lra. Qed.
Lemma nth_skipn2 (c : list R) k : nth k (skipn 2 c) 0 = nth (S (S k)) c 0.
Proof. destruct c as [|a [|b c]]; destruct k; reflexivity. Qed.
Lemma flval_err s v : (forall t, In t s -> is_double t) -> INR (length s) * uro <= / 2 -> flval s v ->
  is_double v /\ Rabs (v - evalT s (-1)) <= 2 * INR (length s) * uro * lasum s + 2 * INR (length s) * eta.
Proof.
  intros Hd HN Hv. split; [destruct Hv as (t & _ & ->); apply fsum_double|].
  set (L := map (fun k => (1, fmul (nth k s 0) (if Nat.odd k then -1 else 1))) (seq 0 (length s))) in *.
  assert (LL : length L = length s) by (unfold L; rewrite map_length; apply seq_length).
  assert (PR : prods L = mk (length s) (fun k => 1 * (nth k s 0 * sgn k))).
  { unfold prods, L, mk. rewrite map_map. apply map_ext. intros k. cbn [fst snd]. rewrite fmul_pm by (apply double_nth, Hd). reflexivity. }
  pose proof (fdot_err L v ltac:(rewrite LL; exact HN) Hv) as F. rewrite LL, PR in F.
  rewrite lsum_nth, mk_length in F. rewrite (rsum_ext (length s) _ (fun k => nth k s 0 * T k (-1))) in F by (intros k Hk; rewrite nth_mk by exact Hk; rewrite T_m1; ring).
  replace (lasum (mk (length s) (fun k => 1 * (nth k s 0 * sgn k)))) with (lasum s) in F; [exact F|].
  symmetry. rewrite lasum_nth, mk_length. rewrite <- lasum_scal_sgn. apply rsum_ext. intros k Hk. rewrite nth_mk by exact Hk. reflexivity.
Qed.
Lemma evalT_m1_abs s : Rabs (evalT s (-1)) <= lasum s.
Proof. apply evalT_abs. lra. Qed.
Lemma nth_lasum s k : Rabs (nth k s 0) <= lasum s.
Proof.
  revert k; induction s as [|a s IH]; intros [|k]; cbn [nth lasum]; try (rewrite Rabs_R0; lra).
  - pose proof (lasum_pos s). lra.
  - specialize (IH k). pose proof (Rabs_pos a). lra.
Qed.
(** After the shift the function differs from s - s(-1) by a small constant. *)
Lemma fshift_err s g : (1 <= length s)%nat -> (forall t, In t s -> is_double t) -> INR (length s) * uro <= / 2 -> fshift s g ->
  length g = length s /\ exists e, (forall x, evalT g x = evalT s x - evalT s (-1) + e) /\ Rabs e <= 5 * INR (length s) * (uro * lasum s + eta).
Proof.
  intros H1 Hd HN (v & Hv & ->). split; [apply upd_length|]. destruct uro_small as [U0 U1]. pose proof eta_pos as E0.
  destruct (flval_err s v Hd HN Hv) as [Fv B]. assert (N1 : 1 <= INR (length s)) by (change 1 with (INR 1); apply le_INR, H1).
  exists (fsub (nth 0 s 0) v - nth 0 s 0 + evalT s (-1)). split; [intros x; rewrite evalT_upd0 by exact H1; ring|].
  pose proof (fsub_rel (nth 0 s 0) v (double_nth s 0 Hd) Fv) as F. pose proof (lasum_pos s) as PS.
  set (n := INR (length s)) in *. set (A := lasum s) in *. set (L := evalT s (-1)) in *.
  assert (LA : Rabs L <= A) by apply evalT_m1_abs. assert (S0 : Rabs (nth 0 s 0) <= A) by apply nth_lasum.
  assert (nuA : n * uro * A <= / 2 * A) by (apply Rmult_le_compat_r; lra).
  assert (V : Rabs v <= 2 * A + 2 * n * eta). { replace v with (L + (v - L)) by ring. eapply Rle_trans; [apply Rabs_triang|]. lra. }
  assert (SV : Rabs (nth 0 s 0 - v) <= 3 * A + 2 * n * eta). { unfold Rminus. eapply Rle_trans; [apply Rabs_triang|]. rewrite Rabs_Ropp. lra. }
  assert (USV : uro * Rabs (nth 0 s 0 - v) <= uro * (3 * A + 2 * n * eta)) by (apply Rmult_le_compat_l; lra).
  assert (UNE : uro * (n * eta) <= / 2 * eta) by (replace (uro * (n * eta)) with (n * uro * eta) by ring; apply Rmult_le_compat_r; lra).
  assert (UA : 0 <= uro * A) by (apply Rmult_le_pos; lra). assert (NUA : 1 * (uro * A) <= n * (uro * A)) by (apply Rmult_le_compat_r; lra).
  assert (NE : 1 * eta <= n * eta) by (apply Rmult_le_compat_r; lra).
  replace (fsub (nth 0 s 0) v - nth 0 s 0 + L) with ((fsub (nth 0 s 0) v - (nth 0 s 0 - v)) - (v - L)) by ring.
  unfold Rminus at 1. eapply Rle_trans; [apply Rabs_triang|]. rewrite Rabs_Ropp. lra.
Qed.

(** The coefficients of positive degree. *)
Lemma fcum_coeff_err c r : (forall t, In t c -> is_double t) -> (1 <= r <= length c)%nat ->
  Rabs (fcum_coeff c r - nth r (cumsum_coeffs1 c) 0) <= 3 * uro * (Rabs (nth (r - 1) c 0) + Rabs (nth (r + 1) c 0)) + 3 * eta.
Proof.
  intros Hd [R1 R2]. destruct uro_small as [U0 U1]. pose proof eta_pos as E0.
  assert (A := Rabs_pos (nth (r - 1) c 0)). assert (B := Rabs_pos (nth (r + 1) c 0)).
  assert (Fp := double_nth c (r - 1) Hd). assert (Fq := double_nth c (r + 1) Hd).
  destruct r as [|[|r]]; [lia| |].
  - cbn [fcum_coeff]. rewrite cumsum_coeffs1_nth1 by lia. change (1 - 1)%nat with 0%nat in *. change (1 + 1)%nat with 2%nat in *.
    set (p := nth 0 c 0) in *. set (q := nth 2 c 0) in *. pose proof (fl_err (q / 2)) as F1. fold (fdiv q 2) in F1. set (h := fdiv q 2) in *.
    pose proof (fsub_rel p h Fp (fl_is_double _)) as F2. set (y := fsub p h) in *.
    assert (Q2 : Rabs (q / 2) = / 2 * Rabs q) by (unfold Rdiv; rewrite Rabs_mult, (Rabs_right (/ 2)) by lra; ring). rewrite Q2 in F1.
    assert (uq : 0 <= uro * Rabs q <= / 8 * Rabs q) by (split; [apply Rmult_le_pos; lra|apply Rmult_le_compat_r; lra]).
    assert (up : 0 <= uro * Rabs p) by (apply Rmult_le_pos; lra).
    assert (hb : Rabs h <= Rabs q + eta). { replace h with (q / 2 + (h - q / 2)) by ring. eapply Rle_trans; [apply Rabs_triang|]. rewrite Q2. lra. }
    assert (PH : Rabs (p - h) <= Rabs p + Rabs q + eta). { unfold Rminus. eapply Rle_trans; [apply Rabs_triang|]. rewrite Rabs_Ropp. lra. }
    assert (UPH : uro * Rabs (p - h) <= uro * (Rabs p + Rabs q + eta)) by (apply Rmult_le_compat_l; lra).
    assert (ue : uro * eta <= / 8 * eta) by (apply Rmult_le_compat_r; lra).
    replace (y - (p - q / 2)) with ((y - (p - h)) + - (h - q / 2)) by ring. eapply Rle_trans; [apply Rabs_triang|]. rewrite Rabs_Ropp. lra.
  - rewrite cumsum_coeffs1_nthS by lia. change (fcum_coeff c (S (S r))) with (fdiv (fsub (nth (S (S r) - 1) c 0) (nth (S (S r) + 1) c 0)) (2 * INR (S (S r)))).
    set (p := nth (S (S r) - 1) c 0) in *. set (q := nth (S (S r) + 1) c 0) in *. set (D := 2 * INR (S (S r))).
    assert (D1 : 1 <= D). { unfold D. rewrite !S_INR. pose proof (pos_INR r). lra. }
    pose proof (fsub_rel p q Fp Fq) as F1. set (y := fsub p q) in *. pose proof (fl_err (y / D)) as F2. fold (fdiv y D) in F2. set (w := fdiv y D) in *.
    assert (I0 : 0 < / D <= 1). { split; [apply Rinv_0_lt_compat; lra|]. rewrite <- Rinv_1. apply Rinv_le_contravar; lra. }
    assert (PQ : Rabs (p - q) <= Rabs p + Rabs q). { unfold Rminus. eapply Rle_trans; [apply Rabs_triang|]. rewrite Rabs_Ropp. lra. }
    assert (UPQ : uro * Rabs (p - q) <= uro * (Rabs p + Rabs q)) by (apply Rmult_le_compat_l; lra).
    assert (yb : Rabs y <= 2 * (Rabs p + Rabs q)). { replace y with ((p - q) + (y - (p - q))) by ring. eapply Rle_trans; [apply Rabs_triang|]. assert (uro * (Rabs p + Rabs q) <= / 8 * (Rabs p + Rabs q)) by (apply Rmult_le_compat_r; lra). lra. }
    assert (DV : forall t, Rabs (t / D) <= Rabs t). { intros t. unfold Rdiv. rewrite Rabs_mult, (Rabs_right (/ D)) by lra. pose proof (Rabs_pos t). nra. }
    assert (UY : uro * Rabs (y / D) <= uro * (2 * (Rabs p + Rabs q))) by (apply Rmult_le_compat_l; [lra|]; eapply Rle_trans; [apply DV|exact yb]).
    replace (w - (p - q) / D) with ((w - y / D) + (y - (p - q)) / D) by (field; lra). eapply Rle_trans; [apply Rabs_triang|].
    pose proof (DV (y - (p - q))). lra.
Qed.
(** The computed coefficients integrate the function, up to a constant. *)
Lemma fcumsum_err c b x : (1 <= length c)%nat -> (forall t, In t c -> is_double t) -> fcumsum_coeffs c b -> -1 <= x <= 1 ->
  length b = S (length c) /\ Rabs ((evalT b x - evalT b (-1)) - evalT (cumsum_coeffs1 c) x) <= 12 * uro * lasum c + 6 * INR (length c) * eta.
Proof.
  intros H1 Hd (b0 & _ & ->) Hx. destruct uro_small as [U0 U1]. pose proof eta_pos as E0.
  split; [cbn [length]; rewrite map_length, seq_length; reflexivity|].
  set (b := b0 :: _). assert (Lb : length b = S (length c)) by (unfold b; cbn [length]; rewrite map_length, seq_length; reflexivity).
  replace (evalT (cumsum_coeffs1 c) x) with (evalT (cumsum_coeffs1 c) x - evalT (cumsum_coeffs1 c) (-1)) by (rewrite cumsum_coeffs1_left; ring).
  assert (D : forall d, length d = S (length c) -> evalT d x - evalT d (-1) = rsum (length c) (fun k => nth (S k) d 0 * (T (S k) x - T (S k) (-1)))).
  { intros d Ld. unfold evalT. rewrite Ld, !rsum_S_l. change (T 0 x) with 1. change (T 0 (-1)) with 1. rewrite (rsum_ext (length c) (fun k => nth (S k) d 0 * (T (S k) x - T (S k) (-1))) (fun k => nth (S k) d 0 * T (S k) x - nth (S k) d 0 * T (S k) (-1))) by (intros; ring). rewrite rsum_minus. lra. }
  rewrite (D b Lb), (D (cumsum_coeffs1 c) (cumsum_coeffs1_length c)). rewrite <- rsum_minus. eapply Rle_trans; [apply rsum_Rabs|].
  apply Rle_trans with (rsum (length c) (fun k => 6 * uro * (Rabs (nth k c 0) + Rabs (nth (S (S k)) c 0)) + 6 * eta)).
  - apply rsum_le. intros k Hk. replace (nth (S k) b 0 * (T (S k) x - T (S k) (-1)) - nth (S k) (cumsum_coeffs1 c) 0 * (T (S k) x - T (S k) (-1))) with ((nth (S k) b 0 - nth (S k) (cumsum_coeffs1 c) 0) * (T (S k) x - T (S k) (-1))) by ring.
    rewrite Rabs_mult. assert (TT : Rabs (T (S k) x - T (S k) (-1)) <= 2). { unfold Rminus. eapply Rle_trans; [apply Rabs_triang|]. rewrite Rabs_Ropp. pose proof (T_bound (S k) x Hx). pose proof (T_bound (S k) (-1) ltac:(lra)). lra. }
    assert (NB : nth (S k) b 0 = fcum_coeff c (S k)). { unfold b. cbn [nth]. rewrite (nth_indep _ 0 (fcum_coeff c 1)) by (rewrite map_length, seq_length; exact Hk). rewrite (map_nth (fun j => fcum_coeff c (S j)) (seq 0 (length c)) 0%nat). rewrite seq_nth by exact Hk. reflexivity. }
    rewrite NB. pose proof (fcum_coeff_err c (S k) Hd ltac:(lia)) as F. replace (S k - 1)%nat with k in F by lia. replace (S k + 1)%nat with (S (S k)) in F by lia.
    pose proof (Rabs_pos (fcum_coeff c (S k) - nth (S k) (cumsum_coeffs1 c) 0)). pose proof (Rabs_pos (T (S k) x - T (S k) (-1))). nra.
  - rewrite rsum_plus, rsum_const, rsum_scal, rsum_plus. rewrite <- lasum_nth.
    assert (SH : rsum (length c) (fun k => Rabs (nth (S (S k)) c 0)) <= lasum c).
    { apply Rle_trans with (lasum (skipn 2 c)); [|apply lasum_skipn]. rewrite lasum_nth. rewrite skipn_length. apply Req_le.
      rewrite (rsum_extend (length c - 2) (length c)) by (try lia; intros k Hk; rewrite nth_overflow by lia; apply Rabs_R0). apply rsum_ext. intros k _. rewrite nth_skipn2. reflexivity. }
    assert (0 <= uro * (lasum c - rsum (length c) (fun k => Rabs (nth (S (S k)) c 0)))) by (apply Rmult_le_pos; lra). lra.
Qed.
Lemma scale_coeff_err u e H h t y : 0 < u <= / 8 -> 0 < H -> Rabs (h - H) <= 9 / 4 * (u * H) -> Rabs (y - t * h) <= u * Rabs (t * h) + e ->
  Rabs (y - t * H) <= 4 * (u * H) * Rabs t + e.
Proof.
  intros [U0 U1] H0 Hh Hy. assert (UH0 : 0 <= u * H) by (apply Rmult_le_pos; lra). assert (UH1 : u * H <= / 8 * H) by (apply Rmult_le_compat_r; lra). assert (T0 := Rabs_pos t).
  assert (h1 : Rabs h <= 7 / 5 * H). { apply Rabs_le_inv in Hh. apply Rabs_le. lra. }
  assert (A1 : Rabs (t * (h - H)) <= Rabs t * (9 / 4 * (u * H))) by (rewrite Rabs_mult; apply Rmult_le_compat_l; lra).
  assert (A2 : u * Rabs (t * h) <= u * (Rabs t * (7 / 5 * H))). { apply Rmult_le_compat_l; [lra|]. rewrite Rabs_mult. apply Rmult_le_compat_l; lra. }
  replace (y - t * H) with ((y - t * h) + t * (h - H)) by ring. eapply Rle_trans; [apply Rabs_triang|]. assert (0 <= u * H * Rabs t) by (apply Rmult_le_pos; lra). lra.
Qed.
Lemma fcum_scale_err a b g x : is_double a -> is_double b -> a < b -> / 2 ^ 1000 <= b - a -> -1 <= x <= 1 ->
  Rabs (evalT (fcum_scale a b g) x - evalT g x * ((b - a) / 2)) <= 2 * (b - a) * uro * lasum g + INR (length g) * eta.
Proof.
  intros Fa Fb Hab HL Hx. set (H := (b - a) / 2). assert (H0 : 0 < H) by (unfold H; lra). destruct uro_small as [U0 U1]. pose proof eta_pos as E0.
  unfold evalT, fcum_scale. rewrite map_length. rewrite (Rmult_comm _ H), <- rsum_scal, <- rsum_minus. eapply Rle_trans; [apply rsum_Rabs|].
  apply Rle_trans with (rsum (length g) (fun k => 4 * (uro * H) * Rabs (nth k g 0) + eta)).
  - apply rsum_le. intros k Hk. rewrite (nth_indep (map _ _) 0 ((fun t => fmul t (fmul (/ 2) (fsub b a))) 0)) by (rewrite map_length; exact Hk). rewrite (map_nth (fun t => fmul t (fmul (/ 2) (fsub b a)))).
    pose proof (scale_coeff_err uro eta H _ (nth k g 0) _ uro_small H0 (half_err a b Fa Fb Hab HL) (fl_err _)) as F. fold (fmul (nth k g 0) (fmul (/ 2) (fsub b a))) in F.
    set (y := fmul (nth k g 0) _) in *. replace (y * T k x - H * (nth k g 0 * T k x)) with ((y - nth k g 0 * H) * T k x) by ring. rewrite Rabs_mult.
    pose proof (T_bound k x Hx). pose proof (Rabs_pos (T k x)). pose proof (Rabs_pos (y - nth k g 0 * H)). nra.
  - rewrite rsum_plus, rsum_const, rsum_scal, <- lasum_nth. apply Req_le. unfold H. field.
Qed.
(** One step back from the reference interval. *)
Lemma fcumsum_total c b s g d x : (1 <= length c)%nat -> (1 <= length s)%nat -> INR (length s) * uro <= / 2 ->
  (forall t, In t c -> is_double t) -> (forall t, In t s -> is_double t) ->
  fcumsum_coeffs c b -> (forall y, -1 <= y <= 1 -> Rabs (evalT s y - evalT b y) <= d) -> fshift s g -> -1 <= x <= 1 ->
  Rabs (evalT g x - evalT (cumsum_coeffs1 c) x) <= 2 * d + 12 * uro * lasum c + 6 * INR (length c) * eta + 5 * INR (length s) * (uro * lasum s + eta).
Proof.
  intros H1 H2 HN Hc Hs Hb Hd Hg Hx. destruct (fshift_err s g H2 Hs HN Hg) as (_ & e & E & Be). pose proof (fcumsum_err c b x H1 Hc Hb Hx) as [_ B].
  rewrite E. pose proof (Hd x Hx) as D1. pose proof (Hd (-1) ltac:(lra)) as D2. apply Rabs_le_inv in D1, D2, Be, B. apply Rabs_le. lra.
Qed.

(** ** Sums *)
Lemma fadd_cols_nth c d k : nth k (fadd_cols c d) 0 = fadd (nth k c 0) (nth k d 0).
Proof.
  unfold fadd_cols. destruct (Nat.lt_ge_cases k (Nat.max (length c) (length d))) as [L|L]; [rewrite nth_mk by exact L; reflexivity|].
  rewrite nth_overflow by (rewrite mk_length; lia). rewrite !nth_overflow by lia. unfold fadd. rewrite Rplus_0_r, fl_0. reflexivity.
Qed.
Lemma fadd_cols_length c d : length (fadd_cols c d) = Nat.max (length c) (length d).
Proof. apply mk_length. Qed.
Lemma fadd_comm a b : fadd a b = fadd b a.
Proof. unfold fadd. now rewrite Rplus_comm. Qed.
Lemma fadd_cols_comm c d : fadd_cols c d = fadd_cols d c.
Proof.
  apply (nth_ext _ _ 0 0). { rewrite !fadd_cols_length. apply Nat.max_comm. } intros k _. rewrite !fadd_cols_nth. apply fadd_comm.
Qed.
Lemma fadd_err c d x : (forall t, In t c -> is_double t) -> (forall t, In t d -> is_double t) -> -1 <= x <= 1 ->
  Rabs (evalT (fadd_cols c d) x - (evalT c x + evalT d x)) <= uro * (lasum c + lasum d).
Proof.
  intros Hc Hd Hx. destruct uro_small as [U0 U1]. set (n := Nat.max (length c) (length d)).
  rewrite (evalT_ge c x n), (evalT_ge d x n) by (unfold n; lia). unfold evalT. rewrite fadd_cols_length. fold n. rewrite <- rsum_plus, <- rsum_minus. eapply Rle_trans; [apply rsum_Rabs|].
  apply Rle_trans with (rsum n (fun k => uro * (Rabs (nth k c 0) + Rabs (nth k d 0)))).
  - apply rsum_le. intros k _. rewrite fadd_cols_nth. pose proof (fadd_rel _ _ (double_nth c k Hc) (double_nth d k Hd)) as F.
    set (p := nth k c 0) in *. set (q := nth k d 0) in *. set (y := fadd p q) in *. replace (y * T k x - (p * T k x + q * T k x)) with ((y - (p + q)) * T k x) by ring. rewrite Rabs_mult.
    pose proof (T_bound k x Hx). pose proof (Rabs_pos (T k x)). pose proof (Rabs_pos (y - (p + q))).
    assert (uro * Rabs (p + q) <= uro * (Rabs p + Rabs q)) by (apply Rmult_le_compat_l; [lra|apply Rabs_triang]). nra.
  - rewrite rsum_scal, rsum_plus. apply Rmult_le_compat_l; [lra|]. rewrite !lasum_nth. apply Rplus_le_compat; apply Req_le; apply rsum_extend; try (unfold n; lia); intros k Hk; rewrite nth_overflow by lia; apply Rabs_R0.
Qed.
