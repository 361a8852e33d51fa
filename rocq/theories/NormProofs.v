(** Norms: how well abs, ** and the norms approximate the mathematical ones. *)
From Coq Require Import Reals ZArith List Arith Bool Lra Lia.
From Coquelicot Require Import Coquelicot.
From Verif Require Import Base ChebSpec ChebMath ChebDct ChebModel ChebModel2 ChebEval ChebCalc ChebChop ChebObj ChebOps ChebArith ChebConstr ChebRefute RootsMin FunModel FunProofs RootsModel NormSpec NormModel.
Import ListNotations.
Open Scope R_scope.

(** ** construction from samples of short series *)
Lemma interp_eq op q N : (1 <= N)%nat -> (forall t, -1 <= t <= 1 -> op t = q t) -> interp op N = interp q N.
Proof.
  intros HN H. unfold interp. f_equal. apply map_ext_in. intros t Ht. apply H. apply (In_nth _ _ 0) in Ht. destruct Ht as (i & Hi & <-). rewrite chebpts_length in Hi.
  destruct (Nat.eq_dec N 1) as [->|]; [assert (i = 0)%nat as -> by lia; cbn; lra|]. rewrite chebpts_nth by lia. apply COS_bound.
Qed.
Lemma construct_near ops (q : nat -> R -> R) D V e h ml ms : ops <> [] -> (initial_n ml ms <= ml)%Z -> 0 < e < 1 -> 1 <= h ->
  (Z.of_nat D <= initial_n ml ms)%Z -> (forall j, (j < length ops)%nat -> spanT D (q j)) ->
  (forall j t, (j < length ops)%nat -> -1 <= t <= 1 -> nth j ops (fun _ => 0) t = q j t /\ Rabs (q j t) <= V) ->
  Rmax h V * e < 1 ->
  exists f, construct ops e h ml ms = Some f /\ wf f /\ ncols f = length ops /\ eps f = e /\
    forall j x, (j < length ops)%nat -> -1 <= x <= 1 -> Rabs (q j x - ev f j x) <= INR D * Rpower (Rmax h V * e) (2 / 5).
Proof.
  intros Ho Hml He Hh HD Hq Hop Ht.
  destruct (construct_spec ops e h ml ms Ho Hml) as (f & N & K & EC & W & NC & Ee & _ & HN & HK & CF & _ & TL).
  exists f. split; [exact EC|]. split; [exact W|]. split; [exact NC|]. split; [exact Ee|]. intros j x Hj Hx.
  assert (H9 := initial_n_ge ml ms). assert (N1 : (1 <= N)%nat) by lia. assert (ND : (D <= N)%nat) by lia.
  set (c := interp (nth j ops (fun _ => 0)) N).
  assert (Ec : c = interp (q j) N) by (apply interp_eq; [exact N1|intros t Htt; now apply Hop]).
  assert (Ev : forall t, evalT c t = q j t) by (intros t; rewrite Ec; apply interp_span; [exact N1|apply spanT_mono with D; [exact ND|now apply Hq]]).
  assert (Lc : length c = N) by (unfold c, interp; rewrite polyfit1_length, map_length; apply chebpts_length).
  assert (CD : forall k, (D <= k)%nat -> nth k c 0 = 0).
  { intros k Hk. destruct (Hq j Hj) as (d & Ld & Ed). rewrite (coef_unique c d); [apply nth_overflow; lia|]. intros t. now rewrite Ev, Ed. }
  assert (VB : vscale_col c <= V).
  { destruct (vscale_col_attained c ltac:(lia)) as (t & Htt & ->). rewrite Ev. now apply Hop. }
  specialize (TL j Hj). cbv zeta in TL. fold c in TL. specialize (TL He).
  set (P := Rpower (Rmax h V * e) (2 / 5)). assert (P0 : 0 < P) by apply exp_pos.
  assert (M1 := Rmax_l h (vscale_col c)). assert (M2 : Rmax h (vscale_col c) <= Rmax h V) by (apply Rle_max_compat_l; exact VB). assert (M3 := Rmax_l h V).
  assert (T1 : 0 < Rmax h (vscale_col c) * e) by (apply Rmult_lt_0_compat; lra).
  assert (T2 : Rmax h (vscale_col c) * e <= Rmax h V * e) by (apply Rmult_le_compat_r; lra).
  assert (MD : 0 <= INR D) by apply pos_INR.
  set (M := Nat.max N (Nat.max D (length (nth j (coeffs f) [])))).
  rewrite <- Ev. unfold ev. rewrite (evalT_ge c x M) by (unfold M; lia). rewrite (evalT_ge (nth j (coeffs f) []) x M) by (unfold M; lia).
  rewrite <- rsum_minus. rewrite (rsum_extend D M).
  - eapply Rle_trans; [apply rsum_Rabs|]. rewrite <- rsum_const. apply rsum_le. intros k Hk.
    assert (EK := CF j k Hj). fold c in EK. unfold coef in EK. rewrite EK. destruct (Nat.ltb_spec k K) as [L|L].
    + replace (nth k c 0 * T k x - nth k c 0 * T k x) with 0 by ring. rewrite Rabs_R0. lra.
    + replace (nth k c 0 * T k x - 0 * T k x) with (nth k c 0 * T k x) by ring. rewrite Rabs_mult. assert (B := T_bound k x Hx).
      assert (TB : Rabs (nth k c 0) <= P).
      { eapply Rle_trans; [apply TL; [lra|exact L]|]. apply Rmax_lub; apply Rle_Rpower_l; try lra. split; [lra|]. nra. }
      assert (0 <= Rabs (nth k c 0)) by apply Rabs_pos. nra.
  - unfold M; lia.
  - intros k Hk. assert (EK := CF j k Hj). fold c in EK. unfold coef in EK. rewrite EK, CD by lia. destruct (k <? K)%nat; ring.
Qed.

(** ** integrals *)
Lemma lsum_rsum l : lsum l = rsum (length l) (fun j => nth j l 0).
Proof.
  unfold lsum. induction l as [|a l IH]; [reflexivity|]. cbn [fold_right length]. rewrite IH, rsum_S_l. reflexivity.
Qed.
Lemma fun_sum_length F : length (fun_sum F) = fcols F.
Proof. unfold fun_sum, cheb_sum. rewrite !map_length. reflexivity. Qed.
Lemma int_near q g a b J I d : a <= b -> is_RInt q a b J -> is_RInt g a b I -> (forall x, a <= x <= b -> Rabs (q x - g x) <= d) -> Rabs (I - J) <= (b - a) * d.
Proof.
  intros Hab HJ HI H. assert (M := is_RInt_minus (V := R_NormedModule) g q a b I J HI HJ).
  assert (C := is_RInt_const (V := R_NormedModule) a b d). change (scal (b - a) d) with ((b - a) * d) in C.
  assert (C' := is_RInt_const (V := R_NormedModule) a b (- d)). change (scal (b - a) (- d)) with ((b - a) * (- d)) in C'.
  change (minus I J) with (I - J) in M.
  apply Rabs_le. split.
  - replace (- ((b - a) * d)) with ((b - a) * - d) by ring. apply (is_RInt_le _ _ a b _ _ Hab C' M). intros x Hx. assert (B := H x ltac:(lra)). change (minus (g x) (q x)) with (g x - q x). apply Rabs_le_between in B. lra.
  - apply (is_RInt_le _ _ a b _ _ Hab M C). intros x Hx. assert (B := H x ltac:(lra)). change (minus (g x) (q x)) with (g x - q x). apply Rabs_le_between in B. lra.
Qed.
Lemma sum_near G (q : nat -> R -> R) J d : fwf G -> (forall j, (j < fcols G)%nat -> is_RInt (q j) (dom0 G) (dom1 G) (J j)) ->
  (forall j x, (j < fcols G)%nat -> dom0 G <= x <= dom1 G -> Rabs (q j x - fev G j x) <= d) ->
  Rabs (lsum (fun_sum G) - rsum (fcols G) J) <= INR (fcols G) * ((dom1 G - dom0 G) * d).
Proof.
  intros WG HJ Hd. rewrite lsum_rsum, fun_sum_length, <- rsum_minus. eapply Rle_trans; [apply rsum_Rabs|]. rewrite <- rsum_const. apply rsum_le. intros j Hj.
  apply (int_near (q j) (fev G j)); [destruct WG; lra|now apply HJ|now apply fun_sum_correct|intros x Hx; now apply Hd].
Qed.
(** the powers of the columns are integrable *)
Lemma continuous_fev F j x : continuous (fev F j) x.
Proof.
  unfold fev, ev. apply (continuous_comp (fun x => (2 * x - dom0 F - dom1 F) / (dom1 F - dom0 F)) (evalT (nth j (coeffs (onefun F)) []))); [|apply continuous_evalT].
  apply (ex_derive_continuous (K := R_AbsRing) (V := R_NormedModule)). auto_derive. exact I.
Qed.
Lemma ex_RInt_abs_pow F j p a b : ex_RInt (fun x => Rabs (fev F j x) ^ p) a b.
Proof.
  apply (ex_RInt_continuous (V := R_CompleteNormedModule)). intros x _.
  apply (continuous_comp (fev F j) (fun y => Rabs y ^ p)); [apply continuous_fev|].
  apply (continuous_comp Rabs (fun y => y ^ p)); [apply continuous_Rabs|].
  apply (ex_derive_continuous (K := R_AbsRing) (V := R_NormedModule)). auto_derive. exact I.
Qed.
Lemma Lp_power_ex F m p : exists I, Lp_power (dom0 F) (dom1 F) m p (fev F) I /\ (dom0 F <= dom1 F -> 0 <= I).
Proof.
  exists (rsum m (fun j => RInt (fun x => Rabs (fev F j x) ^ p) (dom0 F) (dom1 F))). split.
  - exists (fun j => RInt (fun x => Rabs (fev F j x) ^ p) (dom0 F) (dom1 F)). split; [|reflexivity]. intros j Hj. apply (RInt_correct (V := R_CompleteNormedModule)). apply ex_RInt_abs_pow.
  - intros Hab. apply rsum_nonneg. intros j _. apply RInt_ge_0; [exact Hab|apply ex_RInt_abs_pow|]. intros x _. apply pow_le, Rabs_pos.
Qed.
(** ** roots *)
Lemma nroot_some p s : (1 <= p)%nat -> 0 <= s -> exists v, nroot p s = Some v /\ 0 <= v /\ v ^ p = s.
Proof.
  intros Hp Hs. unfold nroot. destruct (Rltb s 0) eqn:E1; [apply Rltb_true in E1; lra|]. destruct (Reqb s 0) eqn:E2.
  - apply Reqb_true in E2. subst s. exists 0. split; [reflexivity|]. split; [lra|]. destruct p; [lia|]. apply pow_i. lia.
  - apply Reqb_false in E2. exists (Rpower s (1 / INR p)). split; [reflexivity|]. split; [left; apply exp_pos|].
    rewrite <- Rpower_pow by apply exp_pos. rewrite Rpower_mult. assert (0 < INR p) by (apply lt_0_INR; lia). replace (1 / INR p * INR p) with 1 by (field; lra). apply Rpower_1. lra.
Qed.
