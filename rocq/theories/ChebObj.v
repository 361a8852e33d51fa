(** Facts about the chebtech model: construction is total on well-formed
    arrays, simplify returns a truncation with a small tail. *)
From Coq Require Import Reals ZArith List Arith Lia Lra Bool.
From Coquelicot Require Import Coquelicot.
From Verif Require Import Base ChebSpec ChebMath ChebModel ChebEval CosSums ChebDct ChebCalc ChebMul ChebChop.
Import ListNotations.
Open Scope R_scope.

(** a non-empty rectangular array with n >= 1 rows *)
Definition rect (n : nat) (A : arr) : Prop :=
  (1 <= n)%nat /\ A <> [] /\ List.Forall (fun c => length c = n) A.
(** a well-formed function object *)
Definition wf (f : chebtech) : Prop := exists n, rect n (coeffs f).
Definition ncols (f : chebtech) : nat := length (coeffs f).
Definition len (f : chebtech) : nat := nrows (coeffs f).
(** coefficient k of column j and the value of column j at x *)
Definition coef (f : chebtech) (j k : nat) : R := nth k (nth j (coeffs f) []) 0.
Definition ev (f : chebtech) (j : nat) (x : R) : R := evalT (nth j (coeffs f) []) x.

Lemma rect_nrows n A : rect n A -> nrows A = n.
Proof. intros [_ [H F]]. destruct A as [|c A]; [congruence|]. inversion F; subst. reflexivity. Qed.
Lemma rect_nth n A j : rect n A -> (j < length A)%nat -> length (nth j A []) = n.
Proof.
  intros [_ [_ F]] Hj. rewrite List.Forall_forall in F. apply F. apply nth_In. exact Hj.
Qed.
Lemma rect_cols n A : rect n A -> (1 <= length A)%nat.
Proof. intros [_ [H _]]. destruct A; [congruence|simpl; lia]. Qed.
Lemma rect_map n m (g : list R -> list R) A : rect n A -> (1 <= m)%nat ->
  (forall c, length c = n -> length (g c) = m) -> rect m (map g A).
Proof.
  intros [Hn [H F]] Hm Hg. repeat split; [exact Hm| |].
  - destruct A; [congruence|discriminate].
  - rewrite List.Forall_forall in *. intros d Hd. apply in_map_iff in Hd. destruct Hd as [c [<- Hc]]. apply Hg, F, Hc.
Qed.
Lemma nth_map_col (g : list R -> list R) (A : arr) j : (j < length A)%nat ->
  nth j (map g A) [] = g (nth j A []).
Proof. intros H. rewrite (nth_indep _ [] (g [])) by (rewrite map_length; exact H). apply map_nth. Qed.

Lemma ncols_wf f : wf f -> (1 <= ncols f)%nat.
Proof. intros [n H]. apply (rect_cols n). exact H. Qed.
Lemma rect_len n f : rect n (coeffs f) -> len f = n.
Proof. apply rect_nrows. Qed.
Lemma wf_rect f : wf f -> rect (len f) (coeffs f).
Proof. intros [n H]. rewrite (rect_len n f H). exact H. Qed.
Lemma len_pos f : wf f -> (1 <= len f)%nat.
Proof. intros H. apply wf_rect in H. apply H. Qed.
Lemma col_len f j : wf f -> (j < ncols f)%nat -> length (nth j (coeffs f) []) = len f.
Proof. intros H Hj. apply rect_nth; [apply wf_rect; exact H|exact Hj]. Qed.

(** ** totality *)
Lemma chop_max_total A tol acc : exists k, chop_max A tol acc = Some k.
Proof.
  revert acc. induction A as [|c A IH]; intros acc; [eexists; reflexivity|].
  cbn [chop_max]. destruct (standardChop_total c tol) as [k [E _]]. rewrite E. apply IH.
Qed.

Lemma chop_max_spec A tol acc k : chop_max A tol acc = Some k ->
  (acc <= k)%nat /\ forall c, In c A -> exists j, standardChop c tol = Some j /\ (j <= k)%nat.
Proof.
  revert acc. induction A as [|c A IH]; intros acc; cbn [chop_max].
  - intros [= <-]. split; [lia|]. intros c [].
  - destruct (standardChop c tol) as [j|] eqn:E; [|discriminate]. intros H.
    destruct (IH _ H) as [H1 H2]. split; [lia|]. intros d [<-|Hd]; [|apply H2; exact Hd].
    exists j. split; [exact E|lia].
Qed.

Lemma happy_loop_total A tols n h rc :
  length A = length tols -> (A <> [] \/ h <> None) -> exists r, happy_loop A tols n h rc = Some r.
Proof.
  revert tols h rc. induction A as [|c A IH]; intros tols h rc Hl Hne; cbn [happy_loop].
  - destruct Hne as [Hne|Hne]; [congruence|]. destruct h; [eexists; reflexivity|congruence].
  - destruct tols as [|t tols]; [discriminate|].
    destruct (standardChop_total c t) as [k [E _]]. rewrite E.
    destruct (Nat.ltb k n); [|eexists; reflexivity]. apply IH; [simpl in Hl; lia|right; discriminate].
Qed.

Lemma happy_total A e h : A <> [] -> exists r, happy A e h = Some r.
Proof.
  intros HA. unfold happy, happiness_check.
  set (A' := if Nat.ltb (nrows A) 17 then polyfit (polyval (prolong A 17)) else A).
  destruct (happy_loop_total A' (map (fun c => Rmax h (vscale_col c) * e) A) (nrows A) None 0) as [[b k] E].
  - unfold A'. rewrite map_length. destruct (Nat.ltb _ _); [|reflexivity].
    unfold polyfit, polyval, prolong. rewrite !map_length. reflexivity.
  - left. unfold A', polyfit, polyval, prolong. destruct A as [|c A]; [congruence|].
    destruct (Nat.ltb _ _); simpl; discriminate.
  - rewrite E. eexists; reflexivity.
Qed.

Lemma cheb_init_some n A e h ml hp : rect n A ->
  exists hp', cheb_init A e h ml hp false = Some (mkCheb A e h ml hp') /\ (hp = true -> hp' = true).
Proof.
  intros HR. unfold cheb_init.
  assert (H1 := rect_nrows n A HR). assert (H2 := rect_cols n A HR). destruct HR as [Hn [HA F]].
  destruct (Nat.eqb_spec (nrows A * length A) 0) as [E|E]; [nia|].
  destruct hp.
  - exists true. split; [reflexivity|auto].
  - destruct (happy_total A e h HA) as [[b k] Eh]. rewrite Eh. cbn [option_map fst andb].
    exists b. split; [reflexivity|discriminate].
Qed.

(** ** simplify *)
Lemma polyfit_polyval_prolong A N : (1 <= N)%nat ->
  polyfit (polyval (prolong A (Z.of_nat N))) = prolong A (Z.of_nat N).
Proof.
  intros HN. unfold polyfit, polyval, prolong. rewrite !map_map. apply map_ext.
  intros c. apply polyfit_polyval. rewrite prolong1_length, Nat2Z.id. exact HN.
Qed.

Lemma firstn_prolong1 c K N : (K <= N)%nat ->
  firstn K (prolong1 c (Z.of_nat N)) = prolong1 c (Z.of_nat K).
Proof.
  intros H. apply list_ext with 0.
  - rewrite firstn_length, !prolong1_length, !Nat2Z.id. lia.
  - intros k Hk. rewrite firstn_length, prolong1_length, Nat2Z.id in Hk.
    rewrite nth_firstn_lt by lia. rewrite !prolong1_nth by (rewrite Nat2Z.id; lia). reflexivity.
Qed.

Lemma simplify_coeffs_spec n A e : rect n A ->
  exists K, (1 <= K <= n + 1)%nat /\
    simplify_coeffs A e = Some (prolong A (Z.of_nat K)) /\
    (0 < e < 1 -> forall j k, (K <= k)%nat -> Rabs (nth k (nth j A []) 0) <= Rpower e (2 / 5)).
Proof.
  intros HR. assert (Hn := rect_nrows n A HR). unfold simplify_coeffs. rewrite Hn.
  set (N := Nat.max 17 (round125 n)).
  assert (HN : (n + 1 <= N)%nat).
  { unfold N. assert (H := round125_ge n). lia. }
  rewrite polyfit_polyval_prolong by lia.
  destruct (chop_max_total (prolong A (Z.of_nat N)) e 0) as [cut Ec]. rewrite Ec.
  destruct (chop_max_spec _ _ _ _ Ec) as [_ Hc].
  exists (Nat.min cut n + 1)%nat. split; [lia|]. split.
  - f_equal. unfold prolong. rewrite map_map. apply map_ext. intros c. apply firstn_prolong1. lia.
  - intros He j k Hk.
    destruct (Nat.lt_ge_cases j (length A)) as [Hj|Hj].
    2:{ rewrite (nth_overflow A) by exact Hj. destruct k; simpl; rewrite Rabs_R0; left; apply exp_pos. }
    assert (Lc := rect_nth n A j HR Hj).
    destruct (Nat.lt_ge_cases k n) as [Hkn|Hkn].
    2:{ rewrite nth_overflow by lia. rewrite Rabs_R0. left. apply exp_pos. }
    destruct (Hc (prolong1 (nth j A []) (Z.of_nat N))) as [cj [E1 E2]].
    { unfold prolong. apply in_map_iff. exists (nth j A []). split; [reflexivity|apply nth_In; exact Hj]. }
    assert (H := standardChop_tail _ e cj He E1).
    rewrite prolong1_length, Nat2Z.id in H. specialize (H ltac:(lia) k ltac:(lia)).
    rewrite prolong1_nth in H by (rewrite Nat2Z.id; lia). exact H.
Qed.

(** the truncation that simplify may apply is close on [-1,1] *)
Lemma evalT_trunc_err c K x t : -1 <= x <= 1 -> 0 <= t ->
  (forall k, (K <= k)%nat -> Rabs (nth k c 0) <= t) ->
  Rabs (evalT c x - evalT (prolong1 c (Z.of_nat K)) x) <= INR (length c - K) * t.
Proof.
  intros Hx Ht H.
  destruct (Nat.le_gt_cases (length c) K) as [Hle|Hgt].
  - rewrite prolong1_eval by lia. rewrite Rminus_diag_eq by reflexivity. rewrite Rabs_R0.
    apply Rmult_le_pos; [apply pos_INR|exact Ht].
  - assert (E : evalT (prolong1 c (Z.of_nat K)) x = rsum K (fun k => nth k c 0 * T k x)).
    { unfold evalT. rewrite prolong1_length, Nat2Z.id. apply rsum_ext. intros k Hk.
      rewrite prolong1_nth by (rewrite Nat2Z.id; lia). reflexivity. }
    rewrite E. unfold evalT. replace (length c) with (K + (length c - K))%nat at 1 by lia.
    rewrite rsum_app.
    match goal with |- Rabs (?a + ?b - ?a) <= _ => replace (a + b - a) with b by ring end.
    eapply Rle_trans; [apply rsum_Rabs|].
    rewrite <- rsum_const. apply rsum_le. intros k Hk. rewrite Rabs_mult.
    assert (H1 := H (K + k)%nat ltac:(lia)). assert (H2 := T_bound (K + k) x Hx).
    assert (H3 := Rabs_pos (nth (K + k) c 0)). assert (H4 := Rabs_pos (T (K + k) x)). nra.
Qed.

Lemma rect_prolong n A K : rect n A -> (1 <= K)%nat -> rect K (prolong A (Z.of_nat K)).
Proof.
  intros HR HK. apply (rect_map n); [exact HR|exact HK|]. intros c _. rewrite prolong1_length, Nat2Z.id. reflexivity.
Qed.
Lemma nth_prolong A K j : (j < length A)%nat ->
  nth j (prolong A K) [] = prolong1 (nth j A []) K.
Proof. intros H. unfold prolong. apply (nth_map_col (fun c => prolong1 c K)). exact H. Qed.
