(** A run that splits the interval: T_1 + 10^-6 T_50. *)
From Coq Require Import Reals ZArith List Arith Bool Lra Lia.
From Coquelicot Require Import Coquelicot.
From Verif Require Import CosSums Base ChebSpec ChebMath ChebModel ChebEval ChebDct ChebCalc ChebChop ChebObj TrigSpec TrigBase RootsSpec RootsModel RootsColl RootsProofs RootsObj RootsObj2 RootsMin RootsExist RootsEx ToolsProofs.
Import ListNotations.
Open Scope R_scope.

Lemma spanT_id n : (2 <= n)%nat -> spanT n (fun x => x).
Proof. intros H. apply spanT_ext with (T 1); [reflexivity|]. apply spanT_T. lia. Qed.
Lemma lead_T a b n : spanT n (fun x => T n (a * x + b) - a ^ n * T n x) /\ spanT (S n) (fun x => T (S n) (a * x + b) - a ^ (S n) * T (S n) x).
Proof.
  induction n as [|n [I1 I2]].
  - split.
    + apply spanT_ext with (fun _ : R => 0); [intros x; cbn; ring|]. apply spanT_0.
    + apply spanT_ext with (fun x => b * T 0 x); [intros x; cbn; ring|]. apply spanT_scal. apply spanT_T. lia.
  - split; [exact I2|].
    apply spanT_ext with (fun x => (a ^ S (S n) * T n x + 2 * a * (x * (T (S n) (a * x + b) - a ^ S n * T (S n) x))) + (2 * b * T (S n) (a * x + b) + (-1) * T n (a * x + b))).
    + intros x. rewrite !T_SS. cbn [pow]. ring.
    + apply spanT_plus; apply spanT_plus.
      * apply spanT_scal. apply spanT_T. lia.
      * apply spanT_scal. apply (spanT_mul 2 (S n)); [lia|apply spanT_id; lia|exact I2].
      * apply spanT_scal. apply spanT_affine_T.
      * apply spanT_scal. apply spanT_mono with (S n); [lia|]. apply spanT_affine_T.
Qed.
Lemma top_coef n h f (t : R) : (forall y, evalT h y = f y) -> spanT n (fun y => f y - t * T n y) -> nth n h 0 = t.
Proof.
  intros E (d & Ld & Hd).
  rewrite (coef_unique h (mk (S n) (fun k => if Nat.eqb k n then t else nth k d 0))).
  - rewrite nth_mk by lia. rewrite Nat.eqb_refl. reflexivity.
  - intros x. rewrite evalT_mk. cbn [rsum]. rewrite Nat.eqb_refl. rewrite (rsum_ext n _ (fun k => nth k d 0 * T k x)).
    + rewrite <- evalT_ge by lia. rewrite <- Hd. rewrite E. ring.
    + intros k Hk. destruct (Nat.eqb_spec k n); [lia|reflexivity].
Qed.
Lemma norm1_sup c x : -1 <= x <= 1 -> Rabs (evalT c x) <= norm1 c.
Proof.
  intros Hx. unfold evalT, norm1. eapply Rle_trans; [apply rsum_Rabs|]. apply rsum_le. intros k Hk. rewrite Rabs_mult.
  assert (TB := T_bound k x Hx). assert (P := Rabs_pos (nth k c 0)). nra.
Qed.
Definition dl : R := / 10 ^ 6.
Section n50.
Context (n : nat) (Hn : n = 50%nat).
Lemma half_ok eigs htol h w a b y0 : 0 < w -> length h = S n -> (forall y, evalT h y = w * ((a * y + b) + dl * T n (a * y + b))) ->
  0 <= a <= 6 / 10 -> -1 <= y0 <= 1 -> w / 2 <= Rabs (evalT h y0) -> exists r, roots_main eigs 1 htol eps0 h = Some r.
Proof.
  intros Hw Lh Hh Ha Hy H0.
  assert (C50 : nth n h 0 = w * dl * a ^ n).
  { apply top_coef with (fun y => w * ((a * y + b) + dl * T n (a * y + b))); [exact Hh|].
    apply spanT_ext with (fun y => (w * a * y + w * b * T 0 y) + w * dl * (T n (a * y + b) - a ^ n * T n y)).
    - intros y. change (T 0 y) with 1. ring.
    - apply spanT_plus; [apply spanT_plus|].
      + apply spanT_scal. apply spanT_id. lia.
      + apply spanT_scal. apply spanT_T. lia.
      + apply spanT_scal. apply (lead_T a b n). }
  assert (N := norm1_sup h y0 Hy).
  assert (A50 : 0 <= a ^ n <= 3 / 100).
  { split; [apply pow_le; lra|]. apply Rle_trans with ((6 / 10) ^ n); [apply pow_incr; exact Ha|].
    replace n with (7 + 43)%nat by (rewrite Hn; reflexivity). rewrite pow_add. assert (P1 : (6 / 10) ^ 43 <= 1) by (rewrite <- (pow1 43); apply pow_incr; lra).
    assert (P0 : 0 <= (6 / 10) ^ 43) by (apply pow_le; lra). assert (P2 : (6 / 10) ^ 7 <= 3 / 100) by lra. assert (P3 : 0 <= (6 / 10) ^ 7) by lra.
    apply Rle_trans with (3 / 100 * 1); [apply Rmult_le_compat; assumption|lra]. }
  assert (T50 : Rabs (nth n h 0) <= 5 * eps0 * norm1 h).
  { rewrite C50. rewrite Rabs_pos_eq; [|unfold dl; apply Rmult_le_pos; [|lra]; lra]. apply Rle_trans with (w * (3 / 10 ^ 8)); [unfold dl; nra|]. unfold eps0. nra. }
  rewrite roots_main_eq. assert (TL : exists m, trunc_len eps0 h = Some m /\ (1 <= m <= 50)%nat).
  { unfold trunc_len. rewrite Lh, Hn. cbn [Nat.ltb Nat.leb]. assert (S := last_above_spec (5 * eps0 * norm1 h) h). destruct (last_above _ h) as [i|].
    - destruct S as (S1 & S2 & S3). exists (S i). split; [reflexivity|]. rewrite Lh in S1. destruct (Nat.eq_dec i n) as [->|]; [lra|lia].
    - exfalso. assert (B : norm1 h <= INR 51 * (5 * eps0 * norm1 h)).
      { unfold norm1 at 1. rewrite Lh, Hn, <- rsum_const. apply rsum_le. intros k Hk. apply S. lia. }
      replace (INR 51) with 51 in B by (rewrite INR_IZR_INZ; reflexivity). unfold eps0 in B. lra. }
  destruct TL as (m & -> & Hm). cbv zeta. destruct (Nat.eqb m 0); [eexists; reflexivity|].
  destruct (Nat.eqb m 1); [destruct (Reqb _ _); eexists; reflexivity|]. destruct (Nat.eqb m 2); [eexists; reflexivity|].
  destruct (Nat.leb_spec m 50); [eexists; reflexivity|lia].
Qed.
Definition c51 : list R := mk (S n) (fun k => if Nat.eqb k 1 then 1 else if Nat.eqb k n then dl else 0).
Lemma c51_sum (w : nat -> R) : rsum (S n) (fun k => (if Nat.eqb k 1 then 1 else if Nat.eqb k n then dl else 0) * w k) = w 1%nat + dl * w n.
Proof.
  cbn [rsum]. replace n with (2 + (n - 2))%nat at 1 by lia. rewrite rsum_app. rewrite (rsum_zero (n - 2)).
  - cbn [rsum]. rewrite !Nat.eqb_refl. destruct (Nat.eqb_spec n 1); [lia|]. destruct (Nat.eqb_spec 0 1); [lia|]. destruct (Nat.eqb_spec 0 n); [lia|]. ring.
  - intros k Hk. destruct (Nat.eqb_spec (2 + k) 1); [lia|]. destruct (Nat.eqb_spec (2 + k) n); [lia|]. ring.
Qed.
Lemma c51_eval x : evalT c51 x = x + dl * T n x.
Proof. unfold c51. rewrite evalT_mk, (c51_sum (fun k => T k x)). reflexivity. Qed.
Lemma c51_norm1 : norm1 c51 = 1 + dl.
Proof.
  unfold norm1, c51. rewrite mk_length. replace (1 + dl) with (1 + dl * 1) by ring. rewrite <- (c51_sum (fun _ => 1)). apply rsum_ext. intros k Hk. rewrite nth_mk by exact Hk.
  destruct (Nat.eqb k 1); [rewrite Rabs_R1; ring|]. destruct (Nat.eqb k n); [rewrite Rabs_pos_eq by (unfold dl; lra); ring|rewrite Rabs_R0; ring].
Qed.
Lemma c51_bound x : -1 <= x <= 1 -> Rabs (evalT c51 x - x) <= dl.
Proof.
  intros Hx. rewrite c51_eval. replace (x + dl * T n x - x) with (dl * T n x) by ring. rewrite Rabs_mult, (Rabs_pos_eq dl) by (unfold dl; lra).
  assert (TB := T_bound n x Hx). assert (D : 0 <= dl) by (unfold dl; lra). rewrite <- (Rmult_1_r dl) at 2. apply Rmult_le_compat_l; assumption.
Qed.
Lemma c51_run eigs : exists r, cheb_roots eigs 2 (onecol c51 false) = Some (onecol c51 false, [r]).
Proof.
  unfold cheb_roots, cheb_simplify. cbn [ishappy onecol coeffs eps map].
  assert (L51 : length c51 = 51%nat) by (unfold c51; rewrite mk_length, Hn; reflexivity).
  assert (N1 : nth 1 c51 0 <> 0) by (unfold c51; rewrite nth_mk by lia; cbn; lra).
  assert (R : exists r, roots_scalar eigs 2 eps_default c51 = Some r).
  { rewrite (roots_scalar_main _ _ _ _ 1 N1) by lia. assert (Hv := vscale_pos c51 1 N1). set (v := vscale_col c51) in *. assert (Hi := Rinv_0_lt_compat v Hv).
    rewrite roots_main_eq. assert (L := scl_length v c51). rewrite L51 in L.
    assert (TL : trunc_len eps0 (scl v c51) = Some 51%nat).
    { rewrite <- L at 1. apply trunc_len_full; [lia|]. rewrite L, norm1_scl, scl_nth, c51_norm1 by exact Hv. replace (51 - 1)%nat with n by lia. unfold c51. rewrite nth_mk by lia. rewrite Nat.eqb_refl. destruct (Nat.eqb_spec n 1); [lia|]. unfold Rdiv.
      rewrite Rabs_mult, (Rabs_pos_eq (/ v)) by lra. rewrite (Rabs_pos_eq dl) by (unfold dl; lra). rewrite <- Rmult_assoc. apply Rmult_lt_compat_r; [exact Hi|]. unfold eps0, dl. lra. }
    rewrite TL. cbv zeta. cbn [Nat.eqb Nat.leb]. unfold trunc_c. rewrite L. cbn [Nat.ltb Nat.leb andb].
    assert (HC := fun y => halves_correct (scl v c51) y ltac:(lia)). unfold halves in HC. rewrite L in HC. cbn [Nat.leb fst snd] in HC.
    assert (SR := split_range). assert (SV : splitPoint = - (4849834917525 / 10 ^ 15)) by reflexivity.
    destruct (half_ok eigs (2 * (100 * eps_default)) (tw_apply (-1) splitPoint (scl v c51)) (/ v) ((splitPoint + 1) / 2) ((splitPoint - 1) / 2) (-1)) as [rl Rl].
    - exact Hi.
    - rewrite tw_apply_length, L, Hn. reflexivity.
    - intros y. rewrite (proj1 (HC y)), evalT_scl, c51_eval. unfold map_left. rewrite (Rplus_comm ((splitPoint - 1) / 2)). unfold Rdiv. ring.
    - rewrite SV. lra.
    - lra.
    - rewrite (proj1 (HC (-1))), evalT_scl. replace (map_left splitPoint (-1)) with (-1) by (unfold map_left; field). unfold Rdiv. rewrite Rabs_mult, (Rabs_pos_eq (/ v)) by lra.
      assert (B := c51_bound (-1) ltac:(lra)). assert (X : 1 / 2 <= Rabs (evalT c51 (-1))) by (revert B; unfold dl, Rabs; repeat destruct (Rcase_abs _); lra). nra.
    - destruct (half_ok eigs (2 * (100 * eps_default)) (tw_apply splitPoint 1 (scl v c51)) (/ v) ((1 - splitPoint) / 2) ((splitPoint + 1) / 2) 1) as [rr Rr].
      + exact Hi.
      + rewrite tw_apply_length, L, Hn. reflexivity.
      + intros y. rewrite (proj2 (HC y)), evalT_scl, c51_eval. unfold map_right. rewrite (Rplus_comm ((splitPoint + 1) / 2)). unfold Rdiv. ring.
      + rewrite SV. lra.
      + lra.
      + rewrite (proj2 (HC 1)), evalT_scl. replace (map_right splitPoint 1) with 1 by (unfold map_right; field). unfold Rdiv. rewrite Rabs_mult, (Rabs_pos_eq (/ v)) by lra.
        assert (B := c51_bound 1 ltac:(lra)). assert (X : 1 / 2 <= Rabs (evalT c51 1)) by (revert B; unfold dl, Rabs; repeat destruct (Rcase_abs _); lra). nra.
      + rewrite Rl, Rr. eexists. reflexivity. }
  destruct R as [r R]. exists r. rewrite R. reflexivity.
Qed.
Lemma c51_margin p : p = - (2 / 5) \/ p = 2 / 5 \/ (In p (split_pts 2) /\ - (2 / 5) < p < 2 / 5) ->
  (1 + dl) * ((1 + 10 * INR 51 ^ 2 * eps0) ^ 2 - 1) < Rabs (evalT c51 p).
Proof.
  intros H. assert (SV : splitPoint = - (4849834917525 / 10 ^ 15)) by reflexivity.
  assert (HP : 2 / 1000 <= Rabs p /\ -1 <= p <= 1).
  { cbn [split_pts map app In] in H. unfold map_left, map_right in H. rewrite SV in H.
    assert (X : p = - (2 / 5) \/ p = 2 / 5 \/ p = - (4849834917525 / 10 ^ 15)).
    { destruct H as [H|[H|[[H|[H|[H|H]]] B]]]; try (left; exact H); try (right; left; exact H).
      - right. right. symmetry. exact H.
      - exfalso. lra.
      - exfalso. lra.
      - destruct H. }
    destruct X as [->|[->| ->]]; unfold Rabs; destruct (Rcase_abs _); split; lra. }
  destruct HP as [P1 P2]. assert (B := c51_bound p P2). replace (INR 51) with 51 by (rewrite INR_IZR_INZ; reflexivity).
  apply Rlt_le_trans with (1 / 1000); [unfold dl, eps0; lra|]. revert P1 B. unfold dl, Rabs. repeat destruct (Rcase_abs _); lra.
Qed.
End n50.
