(** standardChop returns at most the index of the last non-zero entry. *)
From Coq Require Import Reals ZArith List Arith Bool Lia Lra.
From Verif Require Import Base ChebSpec ChebMath ChebModel ChebEval CosSums ChebDct ChebChop.
Import ListNotations.
Open Scope R_scope.

(** ** the cutoff never exceeds the last non-zero entry *)
Lemma scan_support n env tol s : length env = n -> nth (s + 1) env 0 = 0 -> (round125 (s + 1) < n)%nat ->
  forall fuel j, (j <= s + 1)%nat -> (s + 2 <= j + fuel)%nat -> exists k, (k <= s + 1)%nat /\ scan fuel j n env tol = SBreak k (round125 k).
Proof.
  intros Hl H0 Hs. induction fuel as [|fuel IH]; intros j Hj Hf; [lia|].
  cbn [scan]. assert (R1 : (round125 j <= round125 (s + 1))%nat) by (unfold round125; apply Nat.div_le_mono; lia).
  assert (J2 : (j <= round125 j)%nat) by (unfold round125; apply Nat.div_le_lower_bound; lia).
  destruct (Nat.leb_spec n (round125 j)) as [H|H]; [lia|].
  rewrite (nth_error_nth' env 0) by lia. rewrite (nth_error_nth' env 0) by lia.
  destruct (Reqb (nth j env 0) 0) eqn:E0; [exists j; split; [exact Hj|reflexivity]|].
  destruct (Rltb _ _) eqn:E1; [exists j; split; [exact Hj|reflexivity]|].
  apply Reqb_false in E0. assert (j <> s + 1)%nat by (intros ->; congruence). apply IH; lia.
Qed.
Lemma filter_le_support (p : R -> bool) s : forall l, (forall i, (s < i)%nat -> (i < length l)%nat -> p (nth i l 0) = false) -> (length (filter p l) <= s + 1)%nat.
Proof.
  revert s. assert (Hall : forall l, (forall i, (i < length l)%nat -> p (nth i l 0) = false) -> filter p l = []).
  { induction l as [|a l IH]; intros H; [reflexivity|]. cbn [filter]. assert (Ha := H 0%nat ltac:(cbn; lia)). cbn [nth] in Ha. rewrite Ha. apply IH. intros i Hi. apply (H (S i)). cbn. lia. }
  induction s as [|s IH]; intros l H.
  - destruct l as [|a l]; [cbn; lia|]. cbn [filter]. rewrite Hall; [destruct (p a); cbn; lia|]. intros i Hi. apply (H (S i)); cbn; lia.
  - destruct l as [|a l]; [cbn; lia|]. cbn [filter]. assert (Q := IH l ltac:(intros i Hi Hi2; apply (H (S i)); cbn; lia)). destruct (p a); cbn [length]; lia.
Qed.
Lemma chop_support c tol s : 0 < tol < 1 -> (17 <= length c)%nat -> (forall i, (s < i)%nat -> nth i c 0 = 0) -> (round125 (s + 1) < length c)%nat ->
  exists k, standardChop c tol = Some k /\ (k <= s)%nat.
Proof.
  intros Ht Hn Hz Hs. destruct (standardChop_total c tol) as [k [E _]]. exists k. split; [exact E|].
  unfold standardChop in E. destruct (Rleb 1 tol) eqn:E1; [apply Rleb_true in E1; lra|].
  destruct (Nat.ltb_spec (length c) 17) as [L|_]; [lia|].
  destruct (Reqb (nth 0 (envelope c) 0) 0) eqn:E0; [injection E as <-; lia|]. apply Reqb_false in E0. rewrite normalize_env_eq in E by exact E0.
  assert (He : forall d i, (i + d = length c - 1)%nat -> (s < i)%nat -> nth i (envelope c) 0 = 0).
  { induction d as [|d IH]; intros i Hi Hsi.
    - rewrite envelope_last by lia. rewrite Hz by exact Hsi. apply Rabs_R0.
    - rewrite envelope_step by lia. rewrite Hz by exact Hsi. rewrite (IH (S i)) by lia. rewrite Rabs_R0. apply Rmax_left. lra. }
  assert (He' : forall i, (s < i)%nat -> (i < length c)%nat -> nth i (envelope c) 0 = 0) by (intros i H1 H2; apply (He (length c - 1 - i)%nat); lia). clear He.
  set (env := upd (envelope c) 0 1) in *.
  assert (Le : length env = length c) by (unfold env; rewrite upd_length; apply envelope_length).
  assert (Hs1 : (s + 1 < length c)%nat) by (assert (s + 1 <= round125 (s + 1))%nat by (unfold round125; apply Nat.div_le_lower_bound; lia); lia).
  assert (Hen : forall i, (s < i)%nat -> (i < length c)%nat -> nth i env 0 = 0) by (intros i H1 H2; unfold env; rewrite upd_other by lia; apply He'; lia).
  destruct (scan_support (length c) env tol s Le ltac:(apply Hen; lia) Hs (length c - 1) 1 ltac:(lia) ltac:(lia)) as [j [Hj Es]]. rewrite Es in E.
  destruct (nth_error env (j - 1)) as [ep|]; [|discriminate]. destruct (Reqb ep 0); [injection E as <-; lia|].
  set (j3 := length (filter _ env)) in E.
  assert (Hj3 : (j3 <= s + 1)%nat).
  { unfold j3. apply filter_le_support. intros i H1 H2. rewrite Hen by lia. apply Rleb_false. apply exp_pos. }
  destruct (Nat.ltb_spec j3 (round125 j)) as [H3|H3]; cbv zeta iota in E.
  - match type of E with match argmin (mk ?n ?f) with _ => _ end = _ => destruct (argmin_mk n f ltac:(lia)) as [d [Ed [Hd _]]] end.
    rewrite Ed in E. injection E as <-. lia.
  - assert (R := round125_ge j). match type of E with match argmin (mk ?n ?f) with _ => _ end = _ => destruct (argmin_mk n f ltac:(lia)) as [d [Ed [Hd _]]] end.
    rewrite Ed in E. injection E as <-. lia.
Qed.

