(** Correctness of the chebtech operations on well-formed objects. *)
From Coq Require Import Reals ZArith List Arith Lia Lra Bool.
From Coquelicot Require Import Coquelicot.
From Verif Require Import Base ChebSpec ChebMath ChebModel ChebEval CosSums ChebDct ChebCalc ChebMul ChebChop ChebObj.
Import ListNotations.
Open Scope R_scope.

(** the series truncated to its first K terms *)
Definition evK (f : chebtech) (j K : nat) (x : R) : R := rsum K (fun k => coef f j k * T k x).
(** simplify with tolerance e may reduce f to its first K terms *)
Definition trunc_ok (f : chebtech) (e : R) (K : nat) : Prop :=
  (1 <= K <= len f + 1)%nat /\
  (0 < e < 1 -> forall j k, (K <= k)%nat -> Rabs (coef f j k) <= Rpower e (2 / 5)).

Lemma evalT_prolong_trunc c K x :
  evalT (prolong1 c (Z.of_nat K)) x = rsum K (fun k => nth k c 0 * T k x).
Proof.
  unfold evalT. rewrite prolong1_length, Nat2Z.id. apply rsum_ext. intros k Hk.
  rewrite prolong1_nth by (rewrite Nat2Z.id; exact Hk). reflexivity.
Qed.
Lemma evK_prolong f j K x : evalT (prolong1 (nth j (coeffs f) []) (Z.of_nat K)) x = evK f j K x.
Proof. apply evalT_prolong_trunc. Qed.
Lemma evK_full f j K x : wf f -> (len f <= K)%nat -> evK f j K x = ev f j x.
Proof.
  intros Hw HK. rewrite <- evK_prolong. apply prolong1_eval.
  destruct (Nat.lt_ge_cases j (ncols f)) as [Hj|Hj].
  - rewrite col_len by assumption. lia.
  - rewrite nth_overflow by exact Hj. simpl. lia.
Qed.
Lemma evK_err f e K j x : wf f -> trunc_ok f e K -> 0 < e < 1 -> -1 <= x <= 1 ->
  Rabs (ev f j x - evK f j K x) <= INR (len f - K) * Rpower e (2 / 5).
Proof.
  intros Hw [HK HT] He Hx. rewrite <- evK_prolong. unfold ev.
  destruct (Nat.lt_ge_cases j (ncols f)) as [Hj|Hj].
  - rewrite <- (col_len f j Hw Hj). apply evalT_trunc_err; [exact Hx|left; apply exp_pos|].
    intros k Hk. apply (HT He j k Hk).
  - rewrite nth_overflow by exact Hj. rewrite evalT_prolong_trunc, evalT_nil.
    rewrite rsum_zero by (intros k _; destruct k; simpl; ring).
    rewrite Rminus_diag_eq by reflexivity. rewrite Rabs_R0.
    apply Rmult_le_pos; [apply pos_INR|left; apply exp_pos].
Qed.
(** nothing can be dropped when the last coefficient of some column is large *)
Lemma trunc_ok_full f e K j : 0 < e < 1 -> trunc_ok f e K ->
  Rpower e (2 / 5) < Rabs (coef f j (len f - 1)) -> (len f <= K)%nat.
Proof.
  intros He [HK HT] H. destruct (Nat.le_gt_cases (len f) K) as [|Hlt]; [assumption|].
  specialize (HT He j (len f - 1)%nat ltac:(lia)). lra.
Qed.

Lemma simplify_spec f e : wf f -> exists K,
  simplify_coeffs (coeffs f) e = Some (prolong (coeffs f) (Z.of_nat K)) /\ trunc_ok f e K.
Proof.
  intros Hw. destruct (simplify_coeffs_spec (len f) (coeffs f) e (wf_rect f Hw)) as [K [H1 [H2 H3]]].
  exists K. split; [exact H2|]. split; [exact H1|]. exact H3.
Qed.

(** ** evaluation and values *)
Lemma nth_map_R (g : R -> R) l i : (i < length l)%nat -> nth i (map g l) 0 = g (nth i l 0).
Proof. intros H. rewrite (nth_indep _ 0 (g 0)) by (rewrite map_length; exact H). apply map_nth. Qed.

Lemma feval_correct f xs i j : wf f -> (j < ncols f)%nat -> (i < length xs)%nat ->
  nth i (nth j (feval f xs) []) 0 = ev f j (nth i xs 0).
Proof.
  intros Hw Hj Hi. unfold feval, clenshaw.
  rewrite (nth_map_col (fun c => map (clenshaw_pt c) xs)) by exact Hj.
  rewrite nth_map_R by exact Hi. apply clenshaw_pt_correct. rewrite col_len by assumption.
  apply len_pos. exact Hw.
Qed.
Lemma feval_shape f xs : length (feval f xs) = ncols f /\
  (forall j, (j < ncols f)%nat -> length (nth j (feval f xs) []) = length xs).
Proof.
  unfold feval, clenshaw. split; [apply map_length|]. intros j Hj.
  rewrite (nth_map_col (fun c => map (clenshaw_pt c) xs)) by exact Hj. apply map_length.
Qed.

Lemma values_correct f i j : wf f -> (j < ncols f)%nat -> (i < len f)%nat ->
  nth i (nth j (polyval (coeffs f)) []) 0 = ev f j (nth i (chebpts_type2_compute (len f)) 0).
Proof.
  intros Hw Hj Hi. unfold polyval. rewrite nth_map_col by exact Hj.
  rewrite polyval1_spec by (rewrite col_len by assumption; lia). rewrite col_len by assumption. reflexivity.
Qed.

(** ** diff *)
Lemma computeDerCoeffs_some n A : rect n A -> (2 <= n)%nat ->
  computeDerCoeffs A = Some (map computeDerCoeffs1 A) /\ rect (n - 1) (map computeDerCoeffs1 A).
Proof.
  intros HR Hn. unfold computeDerCoeffs. rewrite (rect_nrows n A HR).
  apply Nat.leb_le in Hn. rewrite Hn. apply Nat.leb_le in Hn. split; [reflexivity|].
  apply (rect_map n); [exact HR|lia|]. intros c Hc. rewrite computeDerCoeffs1_length. lia.
Qed.

Lemma iter_der_some k : forall n A, rect n A -> (k < n)%nat ->
  iter_der k A = Some (map (der_n k) A) /\ rect (n - k) (map (der_n k) A).
Proof.
  induction k as [|k IH]; intros n A HR Hk.
  - cbn [iter_der der_n]. rewrite map_id. split; [reflexivity|]. rewrite Nat.sub_0_r. exact HR.
  - cbn [iter_der]. destruct (computeDerCoeffs_some n A HR ltac:(lia)) as [E R1]. rewrite E.
    destruct (IH (n - 1)%nat _ R1 ltac:(lia)) as [E2 R2]. rewrite E2.
    rewrite map_map in *. replace (n - 1 - k)%nat with (n - S k)%nat in R2 by lia.
    split; [reflexivity|exact R2].
Qed.

Lemma is_derive_n_ext_eq (f g : R -> R) n x l : (forall t, f t = g t) -> is_derive_n f n x l -> is_derive_n g n x l.
Proof. intros H. apply is_derive_n_ext. exact H. Qed.

Lemma evalT_zeros n x : evalT (mk n (fun _ => 0)) x = 0.
Proof. rewrite evalT_mk. apply rsum_zero. intros; ring. Qed.

Definition same_params (f g : chebtech) : Prop :=
  eps g = eps f /\ hscale g = hscale f /\ maxLength g = maxLength f.

Lemma diff_correct f n : wf f -> (1 <= n)%nat ->
  exists g K, cheb_diff f n = Some g /\ wf g /\ ncols g = ncols f /\ same_params f g /\
    (len g <= len f)%nat /\ trunc_ok f (eps f) K /\
    forall j x, (j < ncols f)%nat -> is_derive_n (evK f j K) n x (ev g j x).
Proof.
  intros Hw Hn. destruct (simplify_spec f (eps f) Hw) as [K [Es HK]].
  unfold cheb_diff. rewrite Es.
  assert (RK : rect K (prolong (coeffs f) (Z.of_nat K))).
  { apply (rect_prolong (len f)); [apply wf_rect; exact Hw|apply HK]. }
  rewrite (rect_nrows K _ RK). destruct (Nat.leb_spec K n) as [Hle|Hgt].
  - assert (RZ : rect (len f) (zeros_like (coeffs f))).
    { unfold zeros_like. apply (rect_map (len f)); [apply wf_rect; exact Hw|apply len_pos; exact Hw|].
      intros c Hc. rewrite mk_length. exact Hc. }
    destruct (cheb_init_some (len f) (zeros_like (coeffs f)) (eps f) (hscale f) (maxLength f) (ishappy f) RZ) as [hp [E _]].
    exists (mkCheb (zeros_like (coeffs f)) (eps f) (hscale f) (maxLength f) hp), K.
    split; [exact E|]. split; [exists (len f); exact RZ|].
    split; [unfold ncols, zeros_like; simpl; apply map_length|].
    split; [repeat split|]. split; [unfold len at 1; cbn [coeffs]; rewrite (rect_nrows _ _ RZ); lia|]. split; [exact HK|].
    intros j x Hj. unfold ev. cbn [coeffs]. unfold zeros_like.
    rewrite (nth_map_col (fun c => mk (length c) (fun _ => 0))) by exact Hj. rewrite evalT_zeros.
    apply (is_derive_n_ext_eq _ _ n x 0 (evK_prolong f j K)).
    apply is_derive_n_evalT_zero; rewrite prolong1_length, Nat2Z.id; [exact Hle|apply HK].
  - destruct (computeDerCoeffs_some K _ RK ltac:(lia)) as [E1 R1]. rewrite E1.
    destruct (iter_der_some (n - 1) (K - 1) _ R1 ltac:(lia)) as [E2 R2]. rewrite E2.
    destruct (cheb_init_some _ _ (eps f) (hscale f) (maxLength f) (ishappy f) R2) as [hp [E _]].
    eexists _, K. split; [exact E|]. split; [eexists; exact R2|].
    split; [unfold ncols, prolong; cbn [coeffs]; rewrite !map_length; reflexivity|].
    split; [repeat split|].
    split; [unfold len at 1; cbn [coeffs]; rewrite (rect_nrows _ _ R2); destruct HK as [HK1 _]; lia|]. split; [exact HK|].
    intros j x Hj. unfold ev. cbn [coeffs]. rewrite map_map.
    rewrite (nth_map_col (fun c => der_n (n - 1) (computeDerCoeffs1 c)))
      by (unfold prolong; rewrite map_length; exact Hj).
    rewrite nth_prolong by exact Hj.
    apply (is_derive_n_ext_eq _ _ n x _ (evK_prolong f j K)).
    replace n with (S (n - 1)) at 1 by lia.
    change (der_n (n - 1) (computeDerCoeffs1 (prolong1 (nth j (coeffs f) []) (Z.of_nat K))))
      with (der_n (S (n - 1)) (prolong1 (nth j (coeffs f) []) (Z.of_nat K))).
    apply is_derive_n_evalT. rewrite prolong1_length, Nat2Z.id. lia.
Qed.

Lemma diff_exact f n j0 : wf f -> (1 <= n)%nat -> 0 < eps f < 1 ->
  Rpower (eps f) (2 / 5) < Rabs (coef f j0 (len f - 1)) ->
  exists g, cheb_diff f n = Some g /\ ncols g = ncols f /\
    forall j x, (j < ncols f)%nat -> is_derive_n (ev f j) n x (ev g j x).
Proof.
  intros Hw Hn He H0. destruct (diff_correct f n Hw Hn) as [g [K [E [_ [Hc [_ [_ [HK HD]]]]]]]].
  exists g. split; [exact E|]. split; [exact Hc|]. intros j x Hj.
  apply (is_derive_n_ext_eq (evK f j K)); [|apply HD; exact Hj].
  intros t. apply evK_full; [exact Hw|]. exact (trunc_ok_full f _ K j0 He HK H0).
Qed.

(** order zero returns the first derivative *)
Lemma diff_zero f : wf f -> (2 <= len f)%nat -> 0 < eps f < 1 ->
  (exists j0, Rpower (eps f) (2 / 5) < Rabs (coef f j0 (len f - 1))) ->
  cheb_diff f 0 = cheb_diff f 1.
Proof.
  intros Hw Hl He [j0 H0]. unfold cheb_diff.
  destruct (simplify_spec f (eps f) Hw) as [K [Es HK]]. rewrite Es.
  assert (RK : rect K (prolong (coeffs f) (Z.of_nat K))).
  { apply (rect_prolong (len f)); [apply wf_rect; exact Hw|apply HK]. }
  assert (HL := trunc_ok_full f _ K j0 He HK H0).
  rewrite (rect_nrows K _ RK). destruct (Nat.leb_spec K 0); [lia|]. destruct (Nat.leb_spec K 1); [lia|].
  reflexivity.
Qed.

(** ** sum *)
Lemma sum_correct f j : (j < ncols f)%nat -> is_RInt (ev f j) (-1) 1 (nth j (cheb_sum f) 0).
Proof.
  intros Hj. unfold cheb_sum.
  rewrite (nth_indep _ 0 (cheb_sum1 [])) by (rewrite map_length; exact Hj). rewrite map_nth.
  apply cheb_sum1_correct.
Qed.
