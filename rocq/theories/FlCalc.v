(** Proofs about FlModel2. *)
From Coq Require Import Reals List Arith Lia Lra ZArith Permutation.
From Flocq Require Import Core.
From Verif Require Import Base ChebSpec ChebMath ChebModel ChebEval ChebDct ChebCalc FlModel FlProofs FlSum FlMap FlModel2.
Import ListNotations.
Open Scope R_scope.
Local Opaque uro eta.

Definition pmul (p : R * R) : R := fmul (fst p) (snd p).
Lemma fcum_fdot l : l <> [] -> fdot l (fcum (map pmul l)).
Proof.
  induction l as [|p [|q r] IH]; intros H; [contradiction| |].
  - exists (SLeaf (fst p) (snd p)). destruct p. split; reflexivity.
  - destruct IH as (t & P & E); [discriminate|]. exists (SNode t (SLeaf (fst p) (snd p))). cbn [leaves fsum]. split.
    + destruct p. cbn [fst snd]. apply Permutation_sym. eapply Permutation_trans; [apply Permutation_cons_append|]. apply Permutation_app_tail. apply Permutation_sym, P.
    + change (fcum (map pmul (p :: q :: r))) with (fadd (fcum (map pmul (q :: r))) (pmul p)). rewrite E. reflexivity.
Qed.
Lemma list_ind2 {A} (P : list A -> Prop) : P [] -> (forall a, P [a]) -> (forall a b l, P l -> P (a :: b :: l)) -> forall l, P l.
Proof. intros H0 H1 H2. fix F 1. intros [|a [|b l]]; [exact H0|apply H1|apply H2, F]. Qed.
Lemma stride2_map {A B} (f : A -> B) l : stride2 (map f l) = map f (stride2 l).
Proof. induction l as [|a|a b l IH] using list_ind2; cbn [stride2 map]; try reflexivity. now rewrite IH. Qed.
Lemma stride2_length {A} (l : list A) : (length (stride2 l) <= length l)%nat.
Proof. induction l as [|a|a b l IH] using list_ind2; cbn [stride2 length]; lia. Qed.
Lemma stride2_sum l : sum_stride2 l = lsum (stride2 l).
Proof. induction l as [|a|a b l IH] using list_ind2; cbn [stride2 sum_stride2 lsum]; [reflexivity|reflexivity|]. now rewrite IH. Qed.
Lemma stride2_lasum l : lasum (stride2 l) <= lasum l.
Proof. induction l as [|a|a b l IH] using list_ind2; cbn [stride2 lasum]; try lra. pose proof (Rabs_pos b). lra. Qed.
Lemma stride2_nil {A} (l : list A) : l <> [] -> stride2 l <> [].
Proof. destruct l; [contradiction|]. intros _. discriminate. Qed.

Definition dpairs (c : list R) : list (R * R) := mk (length c - 1) (fun i => (2 * INR (S i), nth (S i) c 0)).
(** sum of k |c_k| *)
Definition wsum (c : list R) : R := rsum (length c) (fun k => INR k * Rabs (nth k c 0)).
Lemma map_mk {A B} (f : A -> B) n g : map f (mk n g) = mk n (fun i => f (g i)).
Proof. unfold mk. apply map_map. Qed.
Lemma wsum_pairs c : lasum (prods (dpairs c)) = 2 * wsum c.
Proof.
  unfold dpairs, prods. rewrite map_mk, lasum_nth, mk_length. unfold wsum. destruct (length c) as [|n] eqn:L; [cbn; ring|].
  rewrite rsum_S_l. change (INR 0) with 0. rewrite Rmult_0_l, Rplus_0_l, <- rsum_scal. replace (S n - 1)%nat with n by lia. apply rsum_ext. intros k Hk. rewrite nth_mk by lia. cbn [fst snd].
  rewrite !Rabs_mult, (Rabs_right 2), (Rabs_right (INR (S k))) by (try lra; apply Rle_ge, pos_INR). ring.
Qed.
Lemma wsum_pos c : 0 <= wsum c.
Proof. apply rsum_nonneg. intros. apply Rmult_le_pos; [apply pos_INR|apply Rabs_pos]. Qed.
Lemma fder_length c : length (fder c) = (length c - 1)%nat.
Proof. unfold fder. rewrite upd_length, mk_length. reflexivity. Qed.

(** One entry before the first is halved. *)
Lemma fder_entry c k : (forall a, In a c -> is_double a) -> INR (length c) * uro <= / 2 -> (k < length c - 1)%nat ->
  Rabs (fcum (stride2 (skipn k (mk (length c - 1) (fun i => fmul (2 * INR (S i)) (nth (S i) c 0))))) - sum_stride2 (skipn k (mk (length c - 1) (fun i => 2 * INR (S i) * nth (S i) c 0))))
    <= 4 * INR (length c) * uro * wsum c + 2 * INR (length c) * eta
  /\ Rabs (sum_stride2 (skipn k (mk (length c - 1) (fun i => 2 * INR (S i) * nth (S i) c 0)))) <= 2 * wsum c.
Proof.
  intros Hd HN Hk. destruct uro_small as [U0 U1]. pose proof eta_pos as E0.
  replace (mk (length c - 1) (fun i => fmul (2 * INR (S i)) (nth (S i) c 0))) with (map pmul (dpairs c)) by (unfold dpairs; rewrite map_mk; reflexivity).
  replace (mk (length c - 1) (fun i => 2 * INR (S i) * nth (S i) c 0)) with (prods (dpairs c)) by (unfold prods, dpairs; rewrite map_mk; reflexivity).
  set (P := dpairs c) in *. assert (LP : length P = (length c - 1)%nat) by apply mk_length.
  unfold prods. rewrite !skipn_map, stride2_sum, !stride2_map. fold (prods (stride2 (skipn k P))).
  assert (LL : (length (stride2 (skipn k P)) <= length c)%nat). { eapply Nat.le_trans; [apply stride2_length|]. rewrite skipn_length. lia. }
  assert (NE : stride2 (skipn k P) <> []). { apply stride2_nil. intros Z. apply (f_equal (@length _)) in Z. rewrite skipn_length, LP in Z. cbn in Z. lia. }
  assert (LI : INR (length (stride2 (skipn k P))) <= INR (length c)) by (apply le_INR, LL).
  assert (LA : lasum (prods (stride2 (skipn k P))) <= 2 * wsum c).
  { rewrite <- wsum_pairs. fold P. unfold prods. rewrite <- stride2_map, <- skipn_map. eapply Rle_trans; [apply stride2_lasum|apply lasum_skipn]. }
  split; [|eapply Rle_trans; [apply lsum_abs|exact LA]].
  assert (HN' : INR (length (stride2 (skipn k P))) * uro <= / 2) by (eapply Rle_trans; [apply Rmult_le_compat_r; [lra|exact LI]|exact HN]).
  eapply Rle_trans; [apply (fdot_err _ _ HN' (fcum_fdot _ NE))|].
  assert (PN := pos_INR (length (stride2 (skipn k P)))). assert (PW := wsum_pos c). assert (PL := lasum_pos (prods (stride2 (skipn k P)))).
  apply Rplus_le_compat.
  - replace (4 * INR (length c) * uro * wsum c) with ((2 * INR (length c) * uro) * (2 * wsum c)) by ring. apply Rmult_le_compat; [|exact PL| |exact LA].
    + apply Rmult_le_pos; lra.
    + apply Rmult_le_compat_r; lra.
  - apply Rmult_le_compat_r; lra.
Qed.
Lemma fder_coeff c k : (2 <= length c)%nat -> (forall a, In a c -> is_double a) -> INR (length c) * uro <= / 2 -> (k < length c - 1)%nat ->
  Rabs (nth k (fder c) 0 - nth k (computeDerCoeffs1 c) 0) <= 6 * INR (length c) * (uro * wsum c + eta)
  /\ Rabs (nth k (computeDerCoeffs1 c) 0) <= 2 * wsum c.
Proof.
  intros H2 Hd HN Hk. destruct uro_small as [U0 U1]. pose proof eta_pos as E0. assert (PW := wsum_pos c).
  assert (N2 : 2 <= INR (length c)) by (change 2 with (INR 2); apply le_INR, H2).
  pose proof (fder_entry c k Hd HN Hk) as [B A]. unfold fder, computeDerCoeffs1.
  assert (UW : 0 <= uro * wsum c) by (apply Rmult_le_pos; lra).
  assert (NUW : 0 <= INR (length c) * (uro * wsum c)) by (apply Rmult_le_pos; lra).
  assert (NE : 0 <= INR (length c) * eta) by (apply Rmult_le_pos; lra).
  destruct (Nat.eq_dec k 0) as [-> |K].
  - rewrite !upd_same by (rewrite mk_length; lia). rewrite !nth_mk by lia.
    set (x := fcum _) in *. set (s := sum_stride2 _) in *.
    pose proof (fl_err (/ 2 * x)) as F. fold (fmul (/ 2) x) in F. set (y := fmul (/ 2) x) in *. rewrite Rabs_mult, (Rabs_right (/ 2)) in F by lra.
    assert (X : Rabs x <= 2 * wsum c + (4 * INR (length c) * uro * wsum c + 2 * INR (length c) * eta)).
    { replace x with (s + (x - s)) by ring. eapply Rle_trans; [apply Rabs_triang|]. lra. }
    assert (NU1 : INR (length c) * uro * wsum c <= / 2 * wsum c) by (apply Rmult_le_compat_r; lra).
    assert (X2 : Rabs x <= 4 * wsum c + 2 * INR (length c) * eta) by lra.
    assert (UX : uro * Rabs x <= uro * (4 * wsum c + 2 * INR (length c) * eta)) by (apply Rmult_le_compat_l; lra).
    assert (UNE : uro * (INR (length c) * eta) <= / 2 * eta) by (replace (uro * (INR (length c) * eta)) with (INR (length c) * uro * eta) by ring; apply Rmult_le_compat_r; lra).
    assert (N2E : 2 * eta <= INR (length c) * eta) by (apply Rmult_le_compat_r; lra).
    assert (N2W : 2 * (uro * wsum c) <= INR (length c) * (uro * wsum c)) by (apply Rmult_le_compat_r; lra).
    split.
    + replace (y - / 2 * s) with ((y - / 2 * x) + / 2 * (x - s)) by ring. eapply Rle_trans; [apply Rabs_triang|]. rewrite (Rabs_mult (/ 2) (x - s)), (Rabs_right (/ 2)) by lra. lra.
    + rewrite Rabs_mult, (Rabs_right (/ 2)) by lra. pose proof (Rabs_pos s). lra.
  - rewrite !upd_other by lia. rewrite !nth_mk by lia. split; [|exact A]. eapply Rle_trans; [exact B|]. lra.
Qed.
(** The difference of two series of the same length. *)
Lemma evalT_diff c d x B : length c = length d -> -1 <= x <= 1 -> (forall k, (k < length c)%nat -> Rabs (nth k c 0 - nth k d 0) <= B) ->
  Rabs (evalT c x - evalT d x) <= INR (length c) * B.
Proof.
  intros L Hx H. unfold evalT. rewrite <- L, <- rsum_minus. eapply Rle_trans; [apply rsum_Rabs|]. rewrite <- rsum_const. apply rsum_le. intros k Hk.
  replace (nth k c 0 * T k x - nth k d 0 * T k x) with ((nth k c 0 - nth k d 0) * T k x) by ring. rewrite Rabs_mult. pose proof (T_bound k x Hx) as TB. specialize (H k Hk). pose proof (Rabs_pos (nth k c 0 - nth k d 0)). pose proof (Rabs_pos (T k x)). nra.
Qed.
Lemma fder_err c x : (2 <= length c)%nat -> (forall a, In a c -> is_double a) -> INR (length c) * uro <= / 2 -> -1 <= x <= 1 ->
  Rabs (evalT (fder c) x - evalT (computeDerCoeffs1 c) x) <= 6 * INR (length c) ^ 2 * (uro * wsum c + eta).
Proof.
  intros H2 Hd HN Hx. destruct uro_small as [U0 U1]. pose proof eta_pos as E0. assert (PW := wsum_pos c). assert (UW : 0 <= uro * wsum c) by (apply Rmult_le_pos; lra).
  assert (N := pos_INR (length c)).
  eapply Rle_trans; [apply (evalT_diff _ _ _ (6 * INR (length c) * (uro * wsum c + eta)))|].
  - rewrite fder_length, computeDerCoeffs1_length. reflexivity.
  - exact Hx.
  - intros k Hk. rewrite fder_length in Hk. apply fder_coeff; assumption.
  - rewrite fder_length. assert (L : INR (length c - 1) <= INR (length c)) by (apply le_INR; lia).
    replace (6 * INR (length c) ^ 2 * (uro * wsum c + eta)) with (INR (length c) * (6 * INR (length c) * (uro * wsum c + eta))) by (cbn [pow]; ring).
    apply Rmult_le_compat_r; [|exact L]. apply Rmult_le_pos; [lra|lra].
Qed.
(** Division by half the computed length of the interval. *)
Lemma half_length_err u e H D' h : 0 < u <= / 8 -> 0 < e -> 0 < H -> e <= u * H * / 8 -> Rabs (D' - 2 * H) <= u * (2 * H) ->
  Rabs (h - / 2 * D') <= u * Rabs (/ 2 * D') + e -> Rabs (h - H) <= 9 / 4 * (u * H).
Proof.
  intros [U0 U1] E0 H0 EH HD Hh. assert (UH0 : 0 <= u * H) by (apply Rmult_le_pos; lra).
  assert (D1 : Rabs (/ 2 * D') <= H + u * H). { apply Rabs_le. apply Rabs_le_inv in HD. lra. }
  assert (UUH : u * (u * H) <= / 8 * (u * H)) by (apply Rmult_le_compat_r; lra).
  assert (Hd1 : u * Rabs (/ 2 * D') <= u * (H + u * H)) by (apply Rmult_le_compat_l; lra).
  assert (DD : Rabs (/ 2 * D' - H) <= u * H). { apply Rabs_le. apply Rabs_le_inv in HD. lra. }
  replace (h - H) with ((h - / 2 * D') + (/ 2 * D' - H)) by ring. eapply Rle_trans; [apply Rabs_triang|]. lra.
Qed.
Lemma div_err u e H h d dh A B g : 0 < u <= / 8 -> 0 < H -> Rabs (h - H) <= 9 / 4 * (u * H) -> Rabs d <= A -> Rabs (dh - d) <= B ->
  Rabs (g - dh / h) <= u * Rabs (dh / h) + e -> Rabs (g - d / H) <= (2 * B + 6 * u * A) / H + e.
Proof.
  intros [U0 U1] H0 Hh HA HB Hg. assert (UH1 : u * H <= / 8 * H) by (apply Rmult_le_compat_r; lra).
  apply Rabs_le_inv in Hh. assert (h0 : 23 / 32 * H <= h) by lra. assert (hp : 0 < h) by lra.
  assert (B0 : 0 <= B) by (eapply Rle_trans; [apply Rabs_pos|exact HB]). assert (A0 : 0 <= A) by (eapply Rle_trans; [apply Rabs_pos|exact HA]).
  set (i := / H). set (j := / h). assert (i0 : 0 < i) by (apply Rinv_0_lt_compat; exact H0). assert (j0 : 0 < j) by (apply Rinv_0_lt_compat; exact hp).
  assert (Hi : H * i = 1) by (apply Rinv_r; lra). assert (Hj : h * j = 1) by (apply Rinv_r; lra).
  assert (ji : j <= 7 / 5 * i).
  { apply Rmult_le_reg_l with h; [exact hp|]. rewrite Hj. apply Rle_trans with (23 / 32 * H * (7 / 5 * i)); [replace (23 / 32 * H * (7 / 5 * i)) with (23 / 32 * (7 / 5) * (H * i)) by ring; rewrite Hi; lra|]. apply Rmult_le_compat_r; lra. }
  assert (dj : Rabs (j - i) <= 4 * u * i).
  { replace (j - i) with ((H - h) * i * j) by (transitivity (j * (H * i) - i * (h * j)); [ring|rewrite Hi, Hj; ring]).
    rewrite !Rabs_mult, (Rabs_right i), (Rabs_right j) by lra. assert (Q : Rabs (H - h) <= 9 / 4 * (u * H)) by (apply Rabs_le; lra).
    apply Rle_trans with (9 / 4 * (u * H) * i * (7 / 5 * i)).
    - apply Rmult_le_compat; [apply Rmult_le_pos; [apply Rabs_pos|lra]|lra|apply Rmult_le_compat_r; lra|exact ji].
    - replace (9 / 4 * (u * H) * i * (7 / 5 * i)) with (63 / 20 * (u * i) * (H * i)) by field. rewrite Hi. assert (0 <= u * i) by (apply Rmult_le_pos; lra). lra. }
  unfold Rdiv in Hg |- *. change (/ h) with j in Hg. change (/ H) with i. clearbody i j. rewrite (Rmult_comm (2 * B + 6 * u * A)).
  assert (q1 : Rabs (dh * j - d * i) <= i * (7 / 5 * B + 4 * u * A)).
  { replace (dh * j - d * i) with ((dh - d) * j + d * (j - i)) by ring. eapply Rle_trans; [apply Rabs_triang|]. rewrite !Rabs_mult, (Rabs_right j) by lra.
    replace (i * (7 / 5 * B + 4 * u * A)) with (B * (7 / 5 * i) + A * (4 * u * i)) by ring. apply Rplus_le_compat; apply Rmult_le_compat; try apply Rabs_pos; try assumption; lra. }
  assert (uA : u * A <= / 8 * A) by (apply Rmult_le_compat_r; lra). assert (uB : u * B <= / 8 * B) by (apply Rmult_le_compat_r; lra). assert (uA0 : 0 <= u * A) by (apply Rmult_le_pos; lra).
  assert (q2 : Rabs (dh * j) <= i * (7 / 5 * B + 3 / 2 * A)).
  { replace (dh * j) with (d * i + (dh * j - d * i)) by ring. eapply Rle_trans; [apply Rabs_triang|]. rewrite Rabs_mult, (Rabs_right i) by lra.
    apply Rle_trans with (A * i + i * (7 / 5 * B + 4 * u * A)); [apply Rplus_le_compat; [apply Rmult_le_compat_r; lra|exact q1]|]. replace (A * i + i * (7 / 5 * B + 4 * u * A)) with (i * (7 / 5 * B + (A + 4 * (u * A)))) by ring. apply Rmult_le_compat_l; lra. }
  assert (q3 : u * Rabs (dh * j) <= i * (7 / 40 * B + 3 / 2 * (u * A))).
  { apply Rle_trans with (u * (i * (7 / 5 * B + 3 / 2 * A))); [apply Rmult_le_compat_l; lra|]. replace (u * (i * (7 / 5 * B + 3 / 2 * A))) with (i * (7 / 5 * (u * B) + 3 / 2 * (u * A))) by ring. apply Rmult_le_compat_l; lra. }
  replace (g - d * i) with ((g - dh * j) + (dh * j - d * i)) by ring. eapply Rle_trans; [apply Rabs_triang|].
  assert (F : i * (7 / 40 * B + 3 / 2 * (u * A)) + i * (7 / 5 * B + 4 * u * A) <= i * (2 * B + 6 * u * A)) by (rewrite <- Rmult_plus_distr_l; apply Rmult_le_compat_l; lra).
  lra.
Qed.
Local Transparent uro eta.
Lemma eta_length H : / 2 ^ 1001 <= H -> eta <= uro * H * / 8.
Proof.
  intros HH. assert (E : eta = uro * / 2 ^ 1001 * / 2 ^ 21).
  { unfold eta, uro. replace 1075%nat with (53 + 1001 + 21)%nat by reflexivity. rewrite !pow_add. rewrite !Rinv_mult. reflexivity. }
  destruct uro_small as [U0 _]. rewrite E. clear E. assert (P : 0 < / 2 ^ 1001) by (apply Rinv_0_lt_compat, pow_lt; lra).
  assert (Q : 0 < / 2 ^ 21 <= / 8). { split; [apply Rinv_0_lt_compat, pow_lt; lra|]. apply Rinv_le_contravar; [lra|]. cbn [pow]. lra. }
  generalize dependent (/ 2 ^ 1001). generalize dependent (/ 2 ^ 21). generalize dependent uro. intros u U0 q Q p HH P.
  apply Rmult_le_compat; [apply Rmult_le_pos; lra|lra|apply Rmult_le_compat_l; lra|lra].
Qed.
Local Opaque uro eta.
Lemma fdiff_length a b c : length (ffun_diff a b c) = (length c - 1)%nat.
Proof. unfold ffun_diff. rewrite map_length. apply fder_length. Qed.
Lemma half_err a b : is_double a -> is_double b -> a < b -> / 2 ^ 1000 <= b - a -> Rabs (fmul (/ 2) (fsub b a) - (b - a) / 2) <= 9 / 4 * (uro * ((b - a) / 2)).
Proof.
  intros Fa Fb Hab HL. apply (half_length_err uro eta _ (fsub b a)); [exact uro_small|exact eta_pos|lra| | |].
  - apply eta_length. assert (E : / 2 ^ 1001 = / 2 ^ 1000 * / 2) by (replace 1001%nat with (1000 + 1)%nat by reflexivity; rewrite pow_add, Rinv_mult, pow_1; reflexivity). rewrite E. generalize dependent (/ 2 ^ 1000). intros. lra.
  - replace (2 * ((b - a) / 2)) with (b - a) by field. pose proof (fsub_rel b a Fb Fa) as F. rewrite (Rabs_right (b - a)) in F by lra. exact F.
  - apply fl_err.
Qed.
Lemma fdiff_err a b c x : (2 <= length c)%nat -> (forall t, In t c -> is_double t) -> INR (length c) * uro <= / 2 -> -1 <= x <= 1 ->
  is_double a -> is_double b -> a < b -> / 2 ^ 1000 <= b - a ->
  Rabs (evalT (ffun_diff a b c) x - evalT (computeDerCoeffs1 c) x / ((b - a) / 2)) <= 36 * INR (length c) ^ 2 * (uro * wsum c + eta) / (b - a) + INR (length c) * eta.
Proof.
  intros H2 Hd HN Hx Fa Fb Hab HL. destruct uro_small as [U0 U1]. pose proof eta_pos as E0. assert (PW := wsum_pos c). assert (UW : 0 <= uro * wsum c) by (apply Rmult_le_pos; lra).
  assert (N2 : 2 <= INR (length c)) by (change 2 with (INR 2); apply le_INR, H2).
  set (H := (b - a) / 2). assert (H0 : 0 < H) by (unfold H; lra).
  assert (S : evalT (computeDerCoeffs1 c) x / H = evalT (map (fun t => t / H) (computeDerCoeffs1 c)) x).
  { unfold evalT. rewrite map_length. unfold Rdiv. rewrite Rmult_comm, <- rsum_scal. apply rsum_ext. intros k Hk.
    rewrite (nth_indep (map _ _) 0 ((fun t => t * / H) 0)) by (rewrite map_length; exact Hk). rewrite (map_nth (fun t => t * / H)). ring. }
  rewrite S. set (n := INR (length c)) in *.
  assert (i0 : 0 < / H) by (apply Rinv_0_lt_compat; exact H0).
  assert (P0 : 0 <= (uro * wsum c + eta) * / H) by (apply Rmult_le_pos; lra).
  eapply Rle_trans; [apply (evalT_diff _ _ _ (18 * n * (uro * wsum c + eta) / H + eta))|].
  - rewrite fdiff_length, map_length, computeDerCoeffs1_length. reflexivity.
  - exact Hx.
  - intros k Hk. rewrite fdiff_length in Hk. pose proof (fder_coeff c k H2 Hd HN Hk) as [B A]. fold n in B.
    rewrite (nth_indep (ffun_diff a b c) 0 ((fun d => fdiv d (fmul (/ 2) (fsub b a))) 0)) by (rewrite fdiff_length; exact Hk). unfold ffun_diff at 1. rewrite (map_nth (fun d => fdiv d (fmul (/ 2) (fsub b a)))).
    rewrite (nth_indep (map _ _) 0 ((fun t => t / H) 0)) by (rewrite map_length, computeDerCoeffs1_length; exact Hk). rewrite (map_nth (fun t => t / H)).
    eapply Rle_trans; [apply (div_err uro eta H (fmul (/ 2) (fsub b a)) _ _ _ _ _ uro_small H0 (half_err a b Fa Fb Hab HL) A B (fl_err _))|].
    apply Rplus_le_compat_r. unfold Rdiv. apply Rmult_le_compat_r; [lra|]. assert (2 * (uro * wsum c) <= n * (uro * wsum c)) by (apply Rmult_le_compat_r; lra). assert (0 <= n * eta) by (apply Rmult_le_pos; lra). lra.
  - rewrite fdiff_length. assert (L : INR (length c - 1) <= n) by (apply le_INR; lia). assert (L0 := pos_INR (length c - 1)).
    apply Rle_trans with (n * (18 * n * (uro * wsum c + eta) / H + eta)).
    + apply Rmult_le_compat_r; [|exact L]. assert (0 <= n * ((uro * wsum c + eta) * / H)) by (apply Rmult_le_pos; lra). unfold Rdiv. lra.
    + apply Req_le. unfold H. field. lra.
Qed.
