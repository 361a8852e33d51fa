(** Counterexamples: concrete inputs on which the model of the code violates a
    property one would expect. *)
From Coq Require Import Reals ZArith List Arith Lia Lra Bool.
From Coquelicot Require Import Coquelicot.
From Verif Require Import Base ChebSpec ChebMath ChebModel ChebEval ChebDct ChebCalc ChebChop ChebObj ChebOps ChebArith.
Import ListNotations.
Open Scope R_scope.

Lemma scan_return fuel : forall j n env tol, length env = n -> (n <= j + fuel)%nat -> (j < n)%nat ->
  (forall i, (j <= i)%nat -> (round125 i < n)%nat -> nth i env 0 = 1 /\ nth (round125 i) env 0 <= 3) ->
  scan fuel j n env tol = SReturn.
Proof.
  induction fuel as [|fuel IH]; intros j n env tol L Hf Hj H; [lia|].
  cbn [scan]. destruct (Nat.leb_spec n (round125 j)) as [|Hr]; [reflexivity|].
  destruct (H j (le_n _) Hr) as [H1 H2].
  rewrite (nth_error_nth' env 0) by lia. rewrite (nth_error_nth' env 0) by lia.
  rewrite H1. destruct (Reqb 1 0) eqn:E0; [apply Reqb_true in E0; lra|].
  destruct (Rltb (r_fun 1 tol) _) eqn:E1.
  - apply Rltb_true in E1. unfold r_fun in E1. rewrite ln_1 in E1. exfalso.
    unfold Rdiv in E1. rewrite Rmult_0_l in E1. rewrite Rinv_1 in E1. lra.
  - assert (R5 := round125_ge j). apply IH; [exact L|lia|lia|]. intros i Hi. apply H. lia.
Qed.

(** ** C15: the cutoff depends on the scale of the coefficients *)
Definition ones (n : nat) : list R := repeat 1 n.

Lemma chop_ones tol : 0 < tol < 1 -> exists k, standardChop (ones 17) tol = Some k /\ (16 <= k)%nat.
Proof.
  intros Ht. destruct (standardChop_total (ones 17) tol) as [k [E Hk]]. exists k. split; [exact E|].
  destruct (Nat.le_gt_cases 16 k) as [|Hlt]; [assumption|exfalso].
  assert (L : length (ones 17) = 17%nat) by reflexivity.
  assert (Q := standardChop_tail _ _ _ Ht E ltac:(lia) 16%nat Hlt).
  change (nth 16 (ones 17) 0) with 1 in Q. rewrite Rabs_R1 in Q.
  assert (Rpower tol (2/5) < 1); [|lra].
  rewrite <- (Rpower_O 1) by lra. unfold Rpower. apply exp_increasing.
  rewrite ln_1. assert (ln tol < 0) by (apply ln_tol_neg; exact Ht). lra.
Qed.

Lemma chop_scaled_ones tol : 0 < tol < 1 ->
  exists k, standardChop (map (Rmult tol) (ones 17)) tol = Some k /\ (k <= 5)%nat.
Proof.
  intros Ht. destruct (standardChop_total (map (Rmult tol) (ones 17)) tol) as [k [E _]].
  exists k. split; [exact E|].
  unfold standardChop in E.
  destruct (Rleb 1 tol) eqn:E1; [apply Rleb_true in E1; lra|].
  rewrite map_length in E. change (length (ones 17)) with 17%nat in E.
  change (Nat.ltb 17 17) with false in E. cbv iota zeta in E.
  set (v := map (Rmult tol) (ones 17)) in *.
  assert (Hv : forall i, (i < 17)%nat -> nth i v 0 = tol).
  { intros i Hi. unfold v. rewrite nth_map_R by exact Hi.
    unfold ones. rewrite (nth_indep _ 0 1) by (rewrite repeat_length; exact Hi). rewrite nth_repeat. ring. }
  assert (Lv : length v = 17%nat) by reflexivity.
  assert (He : forall m i, i = (16 - m)%nat -> (m <= 16)%nat -> nth i (envelope v) 0 = tol).
  { induction m as [|m IH]; intros i Hi Hm.
    - rewrite envelope_last by (rewrite Lv; lia). rewrite Hv by lia. apply Rabs_right. lra.
    - rewrite envelope_step by (rewrite Lv; lia). rewrite Hv by lia. rewrite (IH (S i)) by lia.
      rewrite Rabs_right by lra. apply Rmax_left. lra. }
  assert (He' : forall i, (i <= 16)%nat -> nth i (envelope v) 0 = tol) by (intros i Hi; apply (He (16 - i)%nat); lia).
  clear He.
  destruct (Reqb (nth 0 (envelope v) 0) 0) eqn:E0.
  { apply Reqb_true in E0. rewrite He' in E0 by lia. lra. }
  apply Reqb_false in E0. rewrite normalize_env_eq in E by exact E0.
  set (env := upd (envelope v) 0 1) in *.
  assert (Le : length env = 17%nat) by (unfold env; rewrite upd_length, envelope_length; exact Lv).
  assert (Hs : scan (17 - 1) 1 17 env tol = SBreak 1 6).
  { change (17 - 1)%nat with 16%nat. cbn [scan]. change (round125 1) with 6%nat.
    change (Nat.leb 17 6) with false. cbv iota.
    rewrite (nth_error_nth' env 0) by lia. rewrite (nth_error_nth' env 0) by lia.
    unfold env. rewrite !upd_other by lia. rewrite !He' by lia.
    destruct (Reqb tol 0) eqn:Ez; [apply Reqb_true in Ez; lra|].
    destruct (Rltb (r_fun tol tol) (tol / tol)) eqn:Er; [reflexivity|].
    apply Rltb_false in Er. exfalso. unfold r_fun in Er.
    assert (ln tol < 0) by (apply ln_tol_neg; exact Ht).
    replace (tol / tol) with 1 in Er by (field; lra).
    replace (ln tol / ln tol) with 1 in Er by (field; lra). lra. }
  rewrite Hs in E. cbv iota in E. change (1 - 1)%nat with 0%nat in E.
  rewrite (nth_error_nth' env 0) in E by lia. cbv iota in E.
  destruct (Reqb (nth 0 env 0) 0) eqn:Ez.
  { injection E as <-. lia. }
  set (j3 := length (filter _ env)) in E.
  destruct (Nat.ltb_spec j3 6) as [H3|H3]; cbv zeta iota in E.
  - destruct (argmin_mk (j3 + 1) (fun i => log10 (nth i (upd env (j3 + 1 - 1) (Rpower tol (7/6))) 0) +
                nth i (linspace0 (-1/3 * log10 tol) (j3 + 1)) 0) ltac:(lia)) as [d [Ed [Hd _]]].
    rewrite Ed in E. injection E as <-. lia.
  - destruct (argmin_mk 6 (fun i => log10 (nth i env 0) +
                nth i (linspace0 (-1/3 * log10 tol) 6) 0) ltac:(lia)) as [d [Ed [Hd _]]].
    rewrite Ed in E. injection E as <-. lia.
Qed.

Lemma chop_scale_refuted : forall tol, 0 < tol < 1 ->
  exists c a, a <> 0 /\ standardChop (map (Rmult a) c) tol <> standardChop c tol.
Proof.
  intros tol Ht. exists (ones 17), tol. split; [lra|].
  destruct (chop_ones tol Ht) as [k [-> Hk]]. destruct (chop_scaled_ones tol Ht) as [k' [-> Hk']].
  intros E. injection E as ->. lia.
Qed.

Lemma envelope_opp c : envelope (map (Rmult (-1)) c) = envelope c.
Proof.
  induction c as [|a [|b t] IH]; [reflexivity| |].
  - cbn. f_equal. rewrite Rabs_mult. rewrite Rabs_left by lra. ring.
  - cbn [map] in *. rewrite !envelope_cons. rewrite IH. f_equal. rewrite Rabs_mult, Rabs_left by lra.
    f_equal. ring.
Qed.
Lemma chop_sign c tol : standardChop (map (Rmult (-1)) c) tol = standardChop c tol.
Proof. unfold standardChop. rewrite envelope_opp, map_length. reflexivity. Qed.

(** ** C17: simplify can lengthen a function by one coefficient *)
Lemma simplify_longer e : 0 < e < 1 ->
  exists B, simplify_coeffs [ones 17] e = Some B /\ nrows B = 18%nat.
Proof.
  intros He.
  assert (P : prolong [ones 17] (Z.of_nat 26) = [ones 17 ++ repeat 0 9]) by reflexivity.
  assert (C : standardChop (ones 17 ++ repeat 0 9) e = Some 26%nat).
  { unfold standardChop. destruct (Rleb 1 e) eqn:E1; [apply Rleb_true in E1; lra|].
    set (v := ones 17 ++ repeat 0 9). assert (Lv : length v = 26%nat) by reflexivity. rewrite Lv.
    change (Nat.ltb 26 17) with false. cbv iota zeta.
    assert (H0 : forall m i, i = (25 - m)%nat -> (m <= 8)%nat -> nth i (envelope v) 0 = 0).
    { induction m as [|m IH]; intros i Hi Hm.
      - rewrite envelope_last by (rewrite Lv; lia). replace i with 25%nat by lia. change (nth 25 v 0) with 0. apply Rabs_R0.
      - rewrite envelope_step by (rewrite Lv; lia). rewrite (IH (S i)) by lia.
        replace (nth i v 0) with 0. { rewrite Rabs_R0. apply Rmax_left. lra. }
        assert (Hi' : (17 <= i < 26)%nat) by lia. unfold v. rewrite app_nth2 by (change (length (ones 17)) with 17%nat; lia).
        rewrite nth_repeat. reflexivity. }
    assert (H1 : forall m i, i = (16 - m)%nat -> (m <= 16)%nat -> nth i (envelope v) 0 = 1).
    { induction m as [|m IH]; intros i Hi Hm.
      - rewrite envelope_step by (rewrite Lv; lia). rewrite (H0 8%nat (S i)) by lia.
        replace i with 16%nat by lia. change (nth 16 v 0) with 1. rewrite Rabs_R1. apply Rmax_left. lra.
      - rewrite envelope_step by (rewrite Lv; lia). rewrite (IH (S i)) by lia.
        replace (nth i v 0) with 1. { rewrite Rabs_R1. apply Rmax_left. lra. }
        unfold v. rewrite app_nth1 by (change (length (ones 17)) with 17%nat; lia).
        unfold ones. rewrite (nth_indep _ 0 1) by (rewrite repeat_length; lia). rewrite nth_repeat. reflexivity. }
    destruct (Reqb (nth 0 (envelope v) 0) 0) eqn:E0.
    { apply Reqb_true in E0. rewrite (H1 16%nat 0%nat) in E0 by lia. lra. }
    apply Reqb_false in E0. rewrite normalize_env_eq by exact E0.
    rewrite (scan_return (26 - 1) 1 26); [reflexivity| |lia|lia|].
    - rewrite upd_length, envelope_length. reflexivity.
    - intros i Hi Hr. assert (Q := round125_ge i). rewrite !upd_other by lia.
      assert (Hi16 : (i <= 16)%nat).
      { unfold round125 in Hr. destruct (Nat.le_gt_cases i 16); [assumption|exfalso].
        assert ((5 * i + 22) / 4 >= 26)%nat; [|lia]. apply (Nat.div_le_lower_bound _ 4 26); lia. }
      split; [apply (H1 (16 - i)%nat); lia|].
      destruct (Nat.le_gt_cases (round125 i) 16).
      + rewrite (H1 (16 - round125 i)%nat (round125 i)) by lia. lra.
      + rewrite (H0 (25 - round125 i)%nat (round125 i)) by lia. lra. }
  unfold simplify_coeffs. change (nrows [ones 17]) with 17%nat.
  change (Nat.max 17 (round125 17)) with 26%nat.
  rewrite polyfit_polyval_prolong by lia. rewrite P. cbn [chop_max]. rewrite C.
  cbv zeta. eexists. split; [reflexivity|]. reflexivity.
Qed.

(** ** C06: diff of order 0 *)
Lemma rpow_eps_lt1 e : 0 < e < 1 -> Rpower e (2/5) < 1.
Proof.
  intros He. rewrite <- (Rpower_O 1) by lra. unfold Rpower. apply exp_increasing.
  rewrite ln_1. assert (ln e < 0) by (apply ln_tol_neg; exact He). lra.
Qed.
Lemma eps_default_range : 0 < eps_default < 1.
Proof.
  unfold eps_default. assert (H : 1 < 2 ^ 52) by (apply Rlt_pow_R1; [lra|lia]).
  split; [apply Rinv_0_lt_compat; lra|]. rewrite <- Rinv_1. apply Rinv_lt_contravar; lra.
Qed.
Definition f_x : chebtech := mkCheb [[0; 1]] eps_default 1 maxLength_default true.
Lemma f_x_wf : wf f_x. Proof. exists 2%nat. repeat split; [lia|discriminate|repeat constructor]. Qed.

Lemma diff0_refuted : exists f g, wf f /\ cheb_diff f 0 = Some g /\ exists x, ev g 0 x <> ev f 0 x.
Proof.
  assert (Hc : Rpower (eps f_x) (2 / 5) < Rabs (coef f_x 0 (len f_x - 1))).
  { change (coef f_x 0 (len f_x - 1)) with 1. rewrite Rabs_R1. apply rpow_eps_lt1. exact eps_default_range. }
  destruct (diff_exact f_x 1 0 f_x_wf (le_n _) eps_default_range Hc) as [g [E [_ H]]].
  exists f_x, g. split; [exact f_x_wf|]. split.
  - rewrite diff_zero; [exact E|exact f_x_wf|cbn; lia|exact eps_default_range|exists 0%nat; exact Hc].
  - exists 0. specialize (H 0%nat 0 ltac:(cbn; lia)).
    assert (D : is_derive_n (ev f_x 0) 1 0 1).
    { apply is_derive_n_ext_eq with (f := fun x => x).
      - intros t. unfold ev, evalT. cbn. ring.
      - cbn. auto_derive; [exact I|ring]. }
    apply is_derive_n_unique in H. apply is_derive_n_unique in D. rewrite <- H, D.
    unfold ev, evalT. cbn. lra.
Qed.

(** ** deepcopy does not keep hscale *)
Lemma deepcopy_hscale_refuted : exists f g, wf f /\ deepcopy f = Some g /\ hscale g <> hscale f.
Proof.
  destruct (deepcopy_correct f_x f_x_wf) as [g [E [_ [_ [_ [_ H]]]]]].
  exists f_x, g. split; [exact f_x_wf|]. split; [exact E|]. rewrite H. cbn [hscale f_x eps].
  assert (Q := eps_default_range). lra.
Qed.

(** ** numpy.add with [out]: the old content of out is added, not f *)
Lemma add_out_refuted : exists f g h f' g' h', wf f /\ wf g /\ wf h /\
  add_out f g h = Some (f', g', h') /\ exists x, ev h' 0 x <> ev f 0 x + ev g 0 x.
Proof.
  exists f_x, f_x, (with_coeffs f_x [[5; 0]]).
  do 3 eexists. split; [exact f_x_wf|]. split; [exact f_x_wf|].
  split; [exists 2%nat; repeat split; [lia|discriminate|repeat constructor]|].
  split; [reflexivity|]. exists 0. unfold ev, evalT. cbn. lra.
Qed.
