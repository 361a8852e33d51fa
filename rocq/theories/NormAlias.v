(** Aliasing: a callable that is 1 at the points of the first grid is constructed as the constant 1. *)
From Coq Require Import Reals ZArith List Arith Bool Lra Lia.
From Coquelicot Require Import Coquelicot.
From Verif Require Import Base ChebSpec ChebMath ChebDct ChebModel ChebModel2 ChebEval ChebCalc ChebChop ChebObj ChebOps ChebArith ChebConstr ChebRefute RootsMin FunModel FunProofs RootsModel NormSpec NormModel NormProofs.
Import ListNotations.
Open Scope R_scope.

Definition unit17 : list R := 1 :: repeat 0 16.
Lemma nth_unit17 i : (1 <= i)%nat -> nth i unit17 0 = 0.
Proof. intros Hi. unfold unit17. destruct i; [lia|]. cbn [nth]. apply nth_repeat. Qed.

Lemma chop_unit17 tol : 0 < tol < 1 -> exists k, standardChop unit17 tol = Some k /\ (k <= 5)%nat.
Proof.
  intros Ht. destruct (standardChop_total unit17 tol) as [k [E _]]. exists k. split; [exact E|].
  unfold standardChop in E. destruct (Rleb 1 tol) eqn:E1; [apply Rleb_true in E1; lra|].
  change (length unit17) with 17%nat in E. change (Nat.ltb 17 17) with false in E. cbv iota zeta in E.
  assert (Lv : length unit17 = 17%nat) by reflexivity.
  assert (He : forall m i, i = (16 - m)%nat -> (m <= 15)%nat -> nth i (envelope unit17) 0 = 0).
  { induction m as [|m IH]; intros i Hi Hm.
    - rewrite envelope_last by (rewrite Lv; lia). rewrite nth_unit17 by lia. apply Rabs_R0.
    - rewrite envelope_step by (rewrite Lv; lia). rewrite nth_unit17 by lia. rewrite (IH (S i)) by lia. rewrite Rabs_R0. apply Rmax_left. lra. }
  assert (He' : forall i, (1 <= i <= 16)%nat -> nth i (envelope unit17) 0 = 0) by (intros i Hi; apply (He (16 - i)%nat); lia).
  clear He.
  assert (H0 : nth 0 (envelope unit17) 0 = 1) by (rewrite envelope_step by (rewrite Lv; lia); rewrite He' by lia; change (nth 0 unit17 0) with 1; rewrite Rabs_R1; apply Rmax_left; lra).
  destruct (Reqb (nth 0 (envelope unit17) 0) 0) eqn:E0; [apply Reqb_true in E0; rewrite H0 in E0; lra|].
  apply Reqb_false in E0. rewrite normalize_env_eq in E by exact E0.
  set (env := upd (envelope unit17) 0 1) in *.
  assert (Le : length env = 17%nat) by (unfold env; rewrite upd_length, envelope_length; exact Lv).
  assert (Hs : scan (17 - 1) 1 17 env tol = SBreak 1 6).
  { change (17 - 1)%nat with 16%nat. cbn [scan]. change (round125 1) with 6%nat. change (Nat.leb 17 6) with false. cbv iota.
    rewrite (nth_error_nth' env 0) by lia. rewrite (nth_error_nth' env 0) by lia. unfold env. rewrite !upd_other by lia. rewrite !He' by lia.
    destruct (Reqb 0 0) eqn:Ez; [reflexivity|apply Reqb_false in Ez; lra]. }
  rewrite Hs in E. cbv iota in E. change (1 - 1)%nat with 0%nat in E. rewrite (nth_error_nth' env 0) in E by lia. cbv iota in E.
  destruct (Reqb (nth 0 env 0) 0) eqn:Ez; [injection E as <-; lia|].
  set (j3 := length (filter _ env)) in E.
  destruct (Nat.ltb_spec j3 6) as [H3|H3]; cbv zeta iota in E.
  - destruct (argmin_mk (j3 + 1) (fun i => log10 (nth i (upd env (j3 + 1 - 1) (Rpower tol (7/6))) 0) + nth i (linspace0 (-1/3 * log10 tol) (j3 + 1)) 0) ltac:(lia)) as [d [Ed [Hd _]]].
    rewrite Ed in E. injection E as <-. lia.
  - destruct (argmin_mk 6 (fun i => log10 (nth i env 0) + nth i (linspace0 (-1/3 * log10 tol) 6) 0) ltac:(lia)) as [d [Ed [Hd _]]].
    rewrite Ed in E. injection E as <-. lia.
Qed.

Lemma interp_one N : (1 <= N)%nat -> forall k, nth k (interp (fun _ => 1) N) 0 = nth k [1] 0.
Proof.
  intros HN k. apply coef_unique. intros x. rewrite interp_span.
  - cbn. ring.
  - exact HN.
  - apply spanT_mono with 1%nat; [lia|]. exists [1]. split; [cbn; lia|]. intros y. cbn. ring.
Qed.
Lemma interp_one_list N : (1 <= N)%nat -> interp (fun _ => 1) N = 1 :: repeat 0 (N - 1).
Proof.
  intros HN. assert (L : length (interp (fun _ => 1) N) = N) by (unfold interp; rewrite polyfit1_length, map_length; apply chebpts_length).
  apply list_ext with 0; [rewrite L; cbn [length]; rewrite repeat_length; lia|]. intros k Hk. rewrite interp_one by exact HN. destruct k; [reflexivity|]. cbn [nth]. rewrite nth_repeat. destruct k; reflexivity.
Qed.
Lemma vscale_one N : (1 <= N)%nat -> vscale_col (1 :: repeat 0 (N - 1)) = 1.
Proof.
  intros HN. destruct (vscale_col_attained (1 :: repeat 0 (N - 1)) ltac:(cbn; lia)) as (t & _ & ->). rewrite <- interp_one_list by exact HN. rewrite interp_span; [apply Rabs_R1|exact HN|].
  apply spanT_mono with 1%nat; [lia|]. exists [1]. split; [cbn; lia|]. intros y. cbn. ring.
Qed.

Lemma happy_one N e : (N = 9 \/ N = 17)%nat -> 0 < e < 1 -> exists k, happy [1 :: repeat 0 (N - 1)] e 1 = Some (true, k).
Proof.
  intros HN He. unfold happy. cbn [map]. rewrite vscale_one by lia. rewrite Rmax_left by lra. rewrite Rmult_1_l.
  unfold happiness_check. destruct (chop_unit17 e He) as (k & Ek & Hk).
  replace (if Nat.ltb (nrows [1 :: repeat 0 (N - 1)]) 17 then polyfit (polyval (prolong [1 :: repeat 0 (N - 1)] 17)) else [1 :: repeat 0 (N - 1)]) with [unit17].
  2:{ destruct HN as [->| ->].
      - change (Nat.ltb (nrows [1 :: repeat 0 (9 - 1)]) 17) with true. cbv iota. change 17%Z with (Z.of_nat 17). rewrite polyfit_polyval_prolong by lia. unfold prolong. cbn [map]. f_equal.
      - change (Nat.ltb (nrows [1 :: repeat 0 (17 - 1)]) 17) with false. cbv iota. reflexivity. }
  cbn [happy_loop]. rewrite Ek. assert (Hn : (9 <= nrows [1%R :: repeat 0%R (N - 1)])%nat) by (unfold nrows; cbn [hd length]; rewrite repeat_length; lia).
  destruct (Nat.ltb_spec k (nrows [1 :: repeat 0 (N - 1)])); [eexists; reflexivity|lia].
Qed.

(** the construction only sees the first grid when that is accepted *)
Lemma construct_first ops ops' e h ml ms k : ops <> [] -> ops' <> [] -> sample ops (Z.to_nat (initial_n ml ms)) = sample ops' (Z.to_nat (initial_n ml ms)) ->
  happy (polyfit (sample ops' (Z.to_nat (initial_n ml ms)))) e h = Some (true, k) -> construct ops e h ml ms = construct ops' e h ml ms.
Proof.
  intros H1 H2 HS HH. unfold construct. destruct ops; [congruence|]. destruct ops'; [congruence|]. cbv zeta.
  destruct (ml <? initial_n ml ms)%Z; [reflexivity|]. rewrite HS.
  enough (E : forall fuel o, populate fuel o (sample (r0 :: ops') (Z.to_nat (initial_n ml ms))) e h ml = Some (prolong (polyfit (sample (r0 :: ops') (Z.to_nat (initial_n ml ms)))) (Z.of_nat (k + 1)), true)) by now rewrite !E.
  intros fuel o. destruct fuel; cbn [populate]; cbv zeta; rewrite HH; reflexivity.
Qed.

Lemma construct_alias op e ml ms N : 0 < e < 1 -> initial_n ml ms = Z.of_nat N -> (N = 9 \/ N = 17)%nat -> (initial_n ml ms <= ml)%Z ->
  (forall i, (i < N)%nat -> op (nth i (chebpts_type2_compute N) 0) = 1) ->
  exists f, construct [op] e 1 ml ms = Some f /\ wf f /\ ncols f = 1%nat /\ eps f = e /\ forall x, ev f 0 x = 1.
Proof.
  intros He EN HN Hml Hop. destruct (happy_one N e HN He) as (k & Hk).
  rewrite (construct_first [op] [fun _ => 1] e 1 ml ms k); try discriminate.
  - destruct (construct_spec [fun _ : R => 1] e 1 ml ms ltac:(discriminate) Hml) as (f & M & K & EC & W & NC & Ee & _ & HM & HK & CF & _ & _).
    exists f. repeat match goal with |- _ /\ _ => split end; try assumption. intros x. unfold ev.
    assert (E1 : forall y, evalT (nth 0 (coeffs f) []) y = evalT [1] y).
    { intros y. set (L := S (length (nth 0 (coeffs f) []))). rewrite (evalT_ge _ y L) by (unfold L; lia). rewrite (evalT_ge [1] y L) by (unfold L; cbn [length]; lia). apply rsum_ext. intros i Hi. f_equal.
      change (coef f 0 i = nth i [1] 0). rewrite CF by (cbn; lia). cbn [nth]. assert (H9 := initial_n_ge ml ms). rewrite interp_one by lia. destruct (Nat.ltb_spec i K); [reflexivity|]. destruct i; [lia|]. destruct i; reflexivity. }
    rewrite E1. cbn. ring.
  - rewrite EN, Nat2Z.id. unfold sample. cbn [map]. f_equal. apply map_ext_in. intros t Ht. apply (In_nth _ _ 0) in Ht. destruct Ht as (i & Hi & <-). rewrite chebpts_length in Hi. now apply Hop.
  - rewrite EN, Nat2Z.id. replace (polyfit (sample [fun _ : R => 1] N)) with [1 :: repeat 0 (N - 1)]; [exact Hk|].
    unfold polyfit, sample. cbn [map]. f_equal. symmetry. apply interp_one_list. lia.
Qed.

(** the Chebyshev polynomial of degree n is +-1 at the n+1 points *)
Lemma T_at_nodes n i : (1 <= n)%nat -> (i <= n)%nat -> T n (nth i (chebpts_type2_compute (S n)) 0) = sgn (n - i).
Proof.
  intros Hn Hi. rewrite chebpts_nth by lia. replace (S n - 1)%nat with n by lia. rewrite T_cos. rewrite <- cos_INR_PI. f_equal. field. apply not_0_INR. lia.
Qed.
