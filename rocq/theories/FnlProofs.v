(** Functional rows. *)
From Coq Require Import Reals ZArith List Arith Bool Lra Lia.
From Coquelicot Require Import Coquelicot.
From Verif Require Import Base ChebSpec ChebMath ChebModel CosSums ChebDct ChebCalc ChebObj ChebOps2 ChebBary FunModel FunProofs ToolsProofs FnlModel.
Import ListNotations.
Open Scope R_scope.

Lemma dotl_app r1 r2 c1 c2 : length r1 = length c1 -> dotl (r1 ++ r2) (c1 ++ c2) = dotl r1 c1 + dotl r2 c2.
Proof.
  intros L. unfold dotl. rewrite app_length, rsum_app. f_equal; apply rsum_ext; intros k Hk.
  - rewrite !app_nth1 by lia. reflexivity.
  - rewrite !app_nth2 by lia. rewrite L. replace (length c1 + k - length c1)%nat with k by lia. reflexivity.
Qed.
Lemma dotl_concat A : forall B, length A = length B ->
  (forall j, (j < length A)%nat -> length (nth j A []) = length (nth j B [])) ->
  dotl (concat A) (concat B) = rsum (length A) (fun j => dotl (nth j A []) (nth j B [])).
Proof.
  induction A as [|a A IH]; intros [|b B] L H; cbn [length] in L; try discriminate.
  - reflexivity.
  - cbn [concat length]. rewrite dotl_app by exact (H 0%nat ltac:(cbn; lia)).
    rewrite rsum_S_l. cbn [nth]. f_equal. apply IH; [lia|].
    intros j Hj. exact (H (S j) ltac:(cbn; lia)).
Qed.
Lemma dotl_scal r s c : dotl (map (fun x => x * s) r) c = s * dotl r c.
Proof.
  unfold dotl. rewrite map_length, <- rsum_scal. apply rsum_ext. intros k Hk.
  rewrite (nth_indep _ 0 (0 * s)) by (rewrite map_length; exact Hk). rewrite (map_nth (fun x => x * s)). ring.
Qed.

Lemma val2coef_length r : length (val2coef_row r) = length r.
Proof. unfold val2coef_row. now rewrite rev_length, polyval1_length, rev_length. Qed.

(** The conversion is adjoint to evaluation at the nodes. *)
Lemma val2coef_adj r c : (1 <= length r)%nat -> length r = length c ->
  dotl (val2coef_row r) c = dotl r (polyval1 c).
Proof.
  intros H1 L. unfold dotl. rewrite val2coef_length.
  destruct (Nat.eq_dec (length r) 1) as [E|E].
  - rewrite E. cbn [rsum]. unfold val2coef_row, polyval1. rewrite rev_length, E, <- L, E. cbn [Nat.eqb].
    rewrite rev_involutive. reflexivity.
  - set (M := (length r - 1)%nat).
    assert (HM : INR M <> 0) by (apply not_0_INR; unfold M; lia).
    rewrite (rsum_ext _ _ (fun j => rsum (length r) (fun i => nth i r 0 * (cos (PI * INR (M - i) * INR j / INR M) * nth j c 0)))).
    2:{ intros j Hj. unfold val2coef_row. rewrite rev_nth by (rewrite polyval1_length, rev_length; exact Hj).
        rewrite polyval1_length, rev_length. rewrite (polyval1_nth _ M) by (rewrite ?rev_length; unfold M; lia).
        replace (S M) with (length r) by (unfold M; lia).
        rewrite <- rsum_scal_r. rewrite <- rsum_rev. apply rsum_ext. intros i Hi.
        rewrite rev_nth by lia. replace (length r - S (length r - 1 - i))%nat with i by lia.
        replace (M - (length r - S j))%nat with j by (unfold M; lia).
        replace (length r - 1 - i)%nat with (M - i)%nat by (unfold M; lia).
        replace (PI * INR j * INR (M - i) / INR M) with (PI * INR (M - i) * INR j / INR M) by (field; exact HM). ring. }
    rewrite rsum_swap. apply rsum_ext. intros i Hi.
    rewrite (polyval1_nth c M) by (unfold M; lia). replace (S M) with (length r) by (unfold M; lia).
    rewrite <- rsum_scal. apply rsum_ext. intros j Hj. ring.
Qed.

(** ** Clenshaw-Curtis weights are positive *)
Definition acc (k : nat) : R := 1 / (2 * INR k - 1) - 1 / (2 * INR k + 1).
Lemma acc_moment k : (1 <= k)%nat -> Rabs (moment (2 * k)) = acc k /\ 0 <= acc k.
Proof.
  intros H. unfold moment, acc. rewrite Nat.even_mul. cbn [Nat.even orb].
  rewrite mult_INR. change (INR 2) with 2. assert (1 <= INR k) by (change 1 with (INR 1); apply le_INR, H).
  assert (E : 1 / (2 * INR k - 1) - 1 / (2 * INR k + 1) = 2 / ((2 * INR k) ^ 2 - 1)).
  { field. repeat split; nra. }
  rewrite E. assert (0 < (2 * INR k) ^ 2 - 1) by nra. split.
  - rewrite Rabs_left.
    + field. split; nra.
    + replace (2 / (1 - (2 * INR k) ^ 2)) with (- (2 / ((2 * INR k) ^ 2 - 1))) by (field; split; nra).
      assert (0 < 2 / ((2 * INR k) ^ 2 - 1)) by (apply Rdiv_lt_0_compat; lra). lra.
  - left. apply Rdiv_lt_0_compat; lra.
Qed.
Lemma acc_sum n : rsum n (fun k => acc (S k)) = 1 - 1 / (2 * INR n + 1).
Proof.
  induction n as [|n IH]; [cbn [rsum INR]; field; lra|]. cbn [rsum]. rewrite IH. unfold acc. rewrite S_INR.
  pose proof (pos_INR n). field. repeat split; nra.
Qed.

Lemma cc_sum_pos M (t : nat -> R) : (1 <= M)%nat -> (forall k, Rabs (t k) <= 1) -> t 0%nat = 1 ->
  0 < rsum M (fun k => moment (2 * Nat.min k (M - k)) * t k).
Proof.
  intros HM Ht T0. destruct M as [|M]; [lia|]. rewrite rsum_S_l.
  rewrite T0. change (2 * Nat.min 0 (S M - 0))%nat with 0%nat. replace (moment 0 * 1) with 2 by (unfold moment; cbn; field).
  assert (B : Rabs (rsum M (fun k => moment (2 * Nat.min (S k) (S M - S k)) * t (S k))) <= 2 * rsum M (fun k => acc (S k))).
  { eapply Rle_trans; [apply rsum_Rabs|].
    replace (2 * rsum M (fun k => acc (S k))) with (rsum M (fun k => acc (S k) + acc (M - k))).
    2:{ rewrite rsum_plus. replace (rsum M (fun k => acc (M - k))) with (rsum M (fun k => acc (S k))); [ring|].
        rewrite <- (rsum_rev M (fun k => acc (S k))). apply rsum_ext. intros k Hk. f_equal. lia. }
    apply rsum_le. intros k Hk. rewrite Rabs_mult.
    assert (Q : Rabs (moment (2 * Nat.min (S k) (S M - S k))) <= acc (S k) + acc (M - k)).
    { destruct (acc_moment (S k) ltac:(lia)) as [A1 A2]. destruct (acc_moment (M - k) ltac:(lia)) as [B1 B2].
      destruct (Nat.min_spec (S k) (S M - S k)) as [[_ ->]|[_ ->]].
      - rewrite A1. lra.
      - replace (S M - S k)%nat with (M - k)%nat by lia. rewrite B1. lra. }
    rewrite <- (Rmult_1_r (acc (S k) + acc (M - k))). apply Rmult_le_compat; try apply Rabs_pos; [exact Q|apply Ht]. }
  rewrite acc_sum in B. pose proof (pos_INR M).
  assert (0 < 1 / (2 * INR M + 1)) by (apply Rdiv_lt_0_compat; lra).
  apply Rabs_le_between in B. lra.
Qed.

Theorem quadwts_pos N w j : (1 <= N)%nat -> quadwts N = Some w -> (j < N)%nat -> 0 < nth j w 0.
Proof.
  intros HN Hw Hj. destruct (Nat.eq_dec N 1) as [->|H1].
  - assert (w = [2]) by (cbn in Hw; congruence). subst. assert (j = 0)%nat as -> by lia. cbn. lra.
  - rewrite (quadwts_nth N w j) by (auto; lia).
    assert (HM : 0 < INR (N - 1)) by (apply lt_0_INR; lia).
    apply Rmult_lt_0_compat; [unfold ew; destruct (_ || _)%bool; lra|].
    apply Rmult_lt_0_compat; [apply Rinv_0_lt_compat, HM|].
    apply cc_sum_pos; [lia|intros k; apply Rabs_le; split; apply COS_bound|].
    cbn [INR]. rewrite Rmult_0_r. unfold Rdiv. rewrite Rmult_0_l. apply cos_0.
Qed.

Theorem quadwts_bound N w f B : (1 <= N)%nat -> quadwts N = Some w ->
  (forall x, -1 <= x <= 1 -> Rabs (f x) <= B) ->
  Rabs (rsum N (fun j => nth j w 0 * f (nth j (chebpts_type2_compute N) 0))) <= 2 * B.
Proof.
  intros HN Hw HB. eapply Rle_trans; [apply rsum_Rabs|].
  assert (S2 : rsum N (fun j => nth j w 0) = 2).
  { assert (I1 : is_RInt (fun _ : R => 1) (-1) 1 (rsum N (fun j => nth j w 0 * 1))).
    { apply (quadwts_exact N w (fun _ => 1)); auto. apply (spanT_ext N (T 0)); [reflexivity|]. apply spanT_T. lia. }
    assert (I2 : is_RInt (fun _ : R => 1) (-1) 1 2).
    { evar_last; [apply (is_RInt_const (V := R_NormedModule) (-1) 1 1)|]. unfold scal; cbn; unfold mult; cbn. ring. }
    pose proof (is_RInt_unique (V := R_CompleteNormedModule) _ _ _ _ I1) as J1.
    pose proof (is_RInt_unique (V := R_CompleteNormedModule) _ _ _ _ I2) as J2.
    rewrite (rsum_ext N _ (fun j => nth j w 0 * 1)) by (intros; ring). congruence. }
  rewrite <- S2, <- rsum_scal_r. apply rsum_le. intros j Hj. rewrite Rabs_mult.
  pose proof (quadwts_pos N w j HN Hw Hj). rewrite Rabs_pos_eq by lra.
  apply Rmult_le_compat_l; [lra|]. apply HB.
  destruct (Nat.eq_dec N 1) as [->|H1].
  - assert (j = 0)%nat as -> by lia. cbn. lra.
  - rewrite chebpts_nth by lia. apply COS_bound.
Qed.

(** ** Functional rows *)
Lemma row1_dot N w c d : (1 <= N)%nat -> quadwts N = Some w -> length c = N -> length d = N ->
  dotl (functional_row1 w c) d =
  rsum N (fun k => nth k w 0 * (evalT c (nth k (chebpts_type2_compute N) 0) * evalT d (nth k (chebpts_type2_compute N) 0))).
Proof.
  intros HN Hw Lc Ld. unfold functional_row1. rewrite val2coef_adj.
  - unfold dotl. rewrite mk_length, polyval1_length, Lc. apply rsum_ext. intros k Hk.
    rewrite nth_mk by lia. rewrite !polyval1_spec by lia. rewrite Lc, Ld. ring.
  - rewrite mk_length, polyval1_length. lia.
  - rewrite mk_length, polyval1_length. lia.
Qed.
Lemma row1_length w c : length (functional_row1 w c) = length c.
Proof. unfold functional_row1. now rewrite val2coef_length, mk_length, polyval1_length. Qed.

Lemma nth_map_arr (g : list R -> list R) (A : arr) j : (j < length A)%nat -> nth j (map g A) [] = g (nth j A []).
Proof. intros H. rewrite (nth_indep _ [] (g [])) by (rewrite map_length; exact H). apply map_nth. Qed.

Theorem functional_row_quad F G : fwf F -> fwf G -> len (onefun G) = len (onefun F) -> fcols G = fcols F ->
  dom0 G = dom0 F -> dom1 G = dom1 F ->
  exists row w, functional_row F = Some row /\ quadwts (len (onefun F)) = Some w /\
    length row = (len (onefun F) * fcols F)%nat /\
    dotl row (fun_flatten G) = rsum (fcols F) (fun j => (dom1 F - dom0 F) / 2 * rsum (len (onefun F)) (fun k =>
       nth k w 0 * (ev (onefun F) j (nth k (chebpts_type2_compute (len (onefun F))) 0)
                  * ev (onefun G) j (nth k (chebpts_type2_compute (len (onefun F))) 0)))).
Proof.
  intros [[n Rf] Df] [[n' Rg] Dg] L C _ _.
  assert (Lf : len (onefun F) = n) by (apply rect_nrows, Rf).
  assert (Lg : len (onefun G) = n') by (apply rect_nrows, Rg).
  rewrite Lf in *. rewrite Lg in *. subst n'.
  assert (HN : (1 <= n)%nat) by apply Rf.
  destruct (quadwts_some n HN) as [w [Hw Lw]].
  unfold functional_row. change (nrows (coeffs (onefun F))) with (len (onefun F)). rewrite Lf, Hw.
  eexists. exists w. split; [reflexivity|]. split; [reflexivity|]. split.
  - rewrite map_length. rewrite (concat_length_rect n).
    + rewrite map_length. reflexivity.
    + rewrite List.Forall_map. destruct Rf as [_ [_ Rf]]. eapply List.Forall_impl; [|exact Rf]. intros c Hc. now rewrite row1_length.
  - rewrite dotl_scal. unfold fun_flatten.
    assert (E1 : length (map (functional_row1 w) (coeffs (onefun F))) = fcols F) by (rewrite map_length; reflexivity).
    rewrite dotl_concat.
    + rewrite E1, <- rsum_scal. apply rsum_ext. intros j Hj.
      rewrite nth_map_arr by exact Hj.
      rewrite (row1_dot n w) by (try assumption; try apply rect_nth; try assumption; unfold fcols, ncols in *; lia).
      unfold ev. unfold Rdiv. ring.
    + rewrite E1. symmetry. exact C.
    + rewrite E1. intros j Hj. rewrite nth_map_arr by exact Hj. rewrite row1_length.
      rewrite !(rect_nth n) by (try assumption; unfold fcols, ncols in *; lia). reflexivity.
Qed.

Theorem functional_row_exact F G p q : fwf F -> fwf G -> len (onefun G) = len (onefun F) -> fcols G = fcols F ->
  dom0 G = dom0 F -> dom1 G = dom1 F ->
  (p + q <= S (len (onefun F)))%nat ->
  (forall j k, (j < fcols F)%nat -> (p <= k)%nat -> coef (onefun F) j k = 0) ->
  (forall j k, (j < fcols F)%nat -> (q <= k)%nat -> coef (onefun G) j k = 0) ->
  exists row, functional_row F = Some row /\
    is_RInt (fun x => rsum (fcols F) (fun j => fev F j x * fev G j x)) (dom0 F) (dom1 F) (dotl row (fun_flatten G)).
Proof.
  intros HF HG L C D0 D1 PQ Zf Zg.
  destruct (functional_row_quad F G HF HG L C D0 D1) as [row [w [Hr [Hw [_ E]]]]].
  exists row. split; [exact Hr|]. rewrite E.
  assert (HN : (1 <= len (onefun F))%nat) by (apply len_pos, HF).
  rewrite rsum_scal.
  rewrite Rmult_comm. replace ((dom1 F - dom0 F) / 2) with (/ 2 * (dom1 F - dom0 F)) by (unfold Rdiv; ring).
  eapply is_RInt_ext.
  2:{ apply (is_RInt_bwd (fun z => rsum (fcols F) (fun j => ev (onefun F) j z * ev (onefun G) j z)) (dom0 F) (dom1 F)).
      - apply HF.
      - replace ((2 * dom0 F - dom0 F - dom1 F) / (dom1 F - dom0 F)) with (-1) by (destruct HF; field; lra).
        replace ((2 * dom1 F - dom0 F - dom1 F) / (dom1 F - dom0 F)) with 1 by (destruct HF; field; lra).
        evar_last.
        + apply (quadwts_exact (len (onefun F)) w); [exact HN|exact Hw|].
          apply spanT_rsum. intros j Hj.
          apply (spanT_mul p q); [exact PQ| |].
          * apply (spanT_ext p (evalT (mk p (coef (onefun F) j)))); [|apply spanT_evalT; rewrite mk_length; lia].
            intros x. rewrite evalT_mk. unfold ev.
            set (c := nth j (coeffs (onefun F)) []). 
            rewrite (evalT_ge c x (Nat.max p (length c))) by lia.
            symmetry. apply rsum_extend; [lia|]. intros k [Hk _]. change (nth k c 0) with (coef (onefun F) j k). rewrite Zf by lia. ring.
          * apply (spanT_ext q (evalT (mk q (coef (onefun G) j)))); [|apply spanT_evalT; rewrite mk_length; lia].
            intros x. rewrite evalT_mk. unfold ev.
            set (c := nth j (coeffs (onefun G)) []). 
            rewrite (evalT_ge c x (Nat.max q (length c))) by lia.
            symmetry. apply rsum_extend; [lia|]. intros k [Hk _]. change (nth k c 0) with (coef (onefun G) j k). rewrite Zg by lia. ring.
        + rewrite (rsum_ext _ _ (fun k => rsum (fcols F) (fun j => nth k w 0 *
              (ev (onefun F) j (nth k (chebpts_type2_compute (len (onefun F))) 0) * ev (onefun G) j (nth k (chebpts_type2_compute (len (onefun F))) 0))))).
          2:{ intros k Hk. rewrite rsum_scal. reflexivity. }
          rewrite rsum_swap. reflexivity. }
  intros x _. cbn beta. apply rsum_ext. intros j Hj. unfold fev. rewrite D0, D1. reflexivity.
Qed.

(** ** Value rows, and back *)
Lemma convert_functional_dot n m r A : (1 <= n)%nat -> length r = (n * m)%nat -> length A = m ->
  List.Forall (fun c => length c = n) A ->
  dotl (convert_functional n m r) (concat A) = dotl r (concat (polyval A)).
Proof.
  intros HN Lr LA FA.
  assert (B : r = concat (mk m (fun k => firstn n (skipn (k * n) r)))).
  { clear A LA FA. revert r Lr. induction m as [|m IH]; intros r Lr.
    - destruct r; [reflexivity|]. cbn in Lr. lia.
    - assert (E : mk (S m) (fun k => firstn n (skipn (k * n) r)) =
                  firstn n r :: mk m (fun k => firstn n (skipn (k * n) (skipn n r)))).
      { apply list_ext with []; [rewrite mk_length; cbn [length]; now rewrite mk_length|]. intros k Hk. rewrite mk_length in Hk.
        destruct k as [|k]; rewrite nth_mk by lia; [reflexivity|]. cbn [nth]. rewrite nth_mk by lia.
        rewrite skipn_skipn. f_equal. }
      rewrite E. cbn [concat]. rewrite <- IH by (rewrite skipn_length; lia). symmetry. apply firstn_skipn. }
  rewrite B at 2. unfold convert_functional.
  assert (Lk : forall k, (k < m)%nat -> length (firstn n (skipn (k * n) r)) = n).
  { intros k Hk. rewrite firstn_length, skipn_length. apply Nat.min_l. nia. }
  assert (Fn : forall j, (j < m)%nat -> length (nth j A []) = n).
  { intros j Hj. rewrite List.Forall_forall in FA. apply FA, nth_In. lia. }
  rewrite !dotl_concat; rewrite ?mk_length.
  - apply rsum_ext. intros k Hk. rewrite !nth_mk by lia. unfold polyval. rewrite nth_map_arr by lia.
    apply val2coef_adj; rewrite Lk by lia; [lia|]. symmetry. apply Fn. lia.
  - unfold polyval. rewrite map_length. lia.
  - intros j Hj. rewrite nth_mk by lia. unfold polyval. rewrite nth_map_arr by lia. rewrite polyval1_length, Lk, Fn by lia. reflexivity.
  - lia.
  - intros j Hj. rewrite nth_mk by lia. rewrite val2coef_length, Lk, Fn by lia. reflexivity.
Qed.

(** The function recovered from a row represents it: the row built from its
    values is the row we started from. *)
Lemma coef2val_col_back N w r : (1 <= N)%nat -> quadwts N = Some w -> length r = N ->
  val2coef_row (mk N (fun i => nth i w 0 * nth i (coef2val_col w r) 0)) = r.
Proof.
  intros HN Hw Lr. unfold val2coef_row.
  assert (E : rev (mk N (fun i => nth i w 0 * nth i (coef2val_col w r) 0)) = polyfit1 (rev r)).
  { assert (Lp : length (polyfit1 (rev r)) = N) by (rewrite polyfit1_length, rev_length; exact Lr).
    apply list_ext with 0; [rewrite rev_length, mk_length; lia|].
    intros k Hk. rewrite rev_length, mk_length in Hk. rewrite rev_nth by (rewrite mk_length; lia). rewrite mk_length.
    rewrite nth_mk by lia. unfold coef2val_col. rewrite Lp. rewrite rev_nth by (rewrite mk_length; lia). rewrite mk_length.
    rewrite nth_mk by lia. replace (N - S (N - S k))%nat with k by lia.
    replace (N - S k)%nat with (N - 1 - k)%nat by lia. rewrite (quadwts_sym N w k Hw Hk).
    pose proof (quadwts_pos N w k HN Hw Hk). field. lra. }
  rewrite E, polyval_polyfit by (rewrite rev_length; lia). apply rev_involutive.
Qed.
