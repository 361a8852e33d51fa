(** chebtech.compose(f, op[, g]): ComposeModel.v.  [cheb_compose u Fs]: the
    result and the coefficient arrays the arguments have afterwards. *)
From Coq Require Import Reals ZArith List Arith Bool Lra Lia.
From Verif Require Import Base ToolsProofs ChebSpec ChebModel ChebModel2 ChebMath ChebEval ChebDct ChebObj ChebConstr ChebRefute TcolMat ComposeModel ComposeProofs.
Import ListNotations.
Open Scope R_scope.

(** ** C186 *)
Lemma initial_nine : (initial_n maxLength_default 9 <= maxLength_default)%Z.
Proof. vm_compute. discriminate. Qed.
Lemma grown_nth (Fs : list arr) N q j : (q < length Fs)%nat -> (j < length (nth q Fs []))%nat ->
  nth j (nth q (grown Fs N) []) [] = prolong1 (nine (nth j (nth q Fs []) [])) (Z.of_nat N).
Proof.
  intros Hq Hj. unfold grown. rewrite (map_nth' (A := arr) (B := arr) _ _ q [] []) by exact Hq. unfold prolong. rewrite map_map.
  now rewrite (map_nth' _ _ j [] []) by exact Hj.
Qed.
Lemma nine_eval c x : (length c <= 9)%nat -> evalT (nine c) x = evalT c x.
Proof. intros H. apply prolong1_eval. lia. Qed.

(** C186: for arguments of at most nine coefficients the result is op of the
    arguments on a grid of N >= 9 points, up to the dropping of small trailing
    coefficients (everywhere, if it is a polynomial the grid resolves), and the
    arguments still are the same functions. *)
Theorem C186_short_partial : forall (u : list R -> R) fs m, fs <> [] -> (1 <= m)%nat ->
  (forall f, In f fs -> wf f /\ ncols f = m /\ (len f <= 9)%nat) ->
  exists r Fs' N, cheb_compose u (map coeffs fs) = Some (r, Fs') /\ wf r /\ ncols r = m /\ (9 <= Z.of_nat N <= maxLength_default)%Z /\
    (forall q j x, (q < length fs)%nat -> (j < m)%nat -> evalT (nth j (nth q Fs' []) []) x = ev (nth q fs (mkCheb [] 0 0 0 false)) j x) /\
    forall j, (j < m)%nat ->
      let op := fun x => u (map (fun f => ev f j x) fs) in
      let tol := Rmax 1 (vscale_col (interp op N)) * eps_default in
      0 < tol < 1 ->
      let B := INR N * Rmax (Rpower tol (2 / 5)) (Rpower eps_default (2 / 5)) in
      (forall i, (i < N)%nat -> let xi := nth i (chebpts_type2_compute N) 0 in Rabs (op xi - ev r j xi) <= B) /\
      (spanT N op -> forall x, -1 <= x <= 1 -> Rabs (op x - ev r j x) <= B).
Proof.
  intros u fs m NE Hm H. set (Fs := map coeffs fs).
  assert (HD : length (hd [] Fs) = m).
  { unfold Fs. destruct fs as [|f fs]; [congruence|]. cbn. apply (H f). now left. }
  assert (EC : equal_cols Fs).
  { intros F I. rewrite HD. unfold Fs in I. apply in_map_iff in I. destruct I as [f [<- I]]. apply (H f I). }
  assert (NH : hd [] Fs <> []) by (destruct (hd [] Fs); [cbn in HD; lia|discriminate]).
  assert (CN : csampled u Fs <> []).
  { intros Z. apply (f_equal (@length _)) in Z. unfold csampled in Z. rewrite mk_length in Z. cbn in Z. lia. }
  destruct (construct_error (csampled u Fs) eps_default 1 maxLength_default 9 CN initial_nine eps_default_range) as [r [N [E [W [NC [HN ERR]]]]]].
  assert (S := compose_spec u Fs EC NH). rewrite E in S. destruct S as [M [HM S]].
  exists r, (grown Fs M), N. split; [exact S|]. split; [exact W|].
  split; [rewrite NC; unfold csampled; now rewrite mk_length|]. split; [exact HN|]. split.
  - intros q j x Hq Hj.
    assert (Hq' : (q < length Fs)%nat) by (unfold Fs; rewrite map_length; exact Hq).
    assert (NQ : nth q Fs [] = coeffs (nth q fs (mkCheb [] 0 0 0 false))) by (unfold Fs; now rewrite (map_nth' (B := arr) _ _ q [] (mkCheb [] 0 0 0 false))).
    assert (IQ : In (nth q fs (mkCheb [] 0 0 0 false)) fs) by (apply nth_In; exact Hq).
    destruct (H _ IQ) as [Wq [Nq Lq]].
    rewrite grown_nth; [|exact Hq'|rewrite NQ; fold (ncols (nth q fs (mkCheb [] 0 0 0 false))); lia].
    rewrite NQ. rewrite prolong1_eval by (rewrite nine_length; lia). rewrite nine_eval; [reflexivity|].
    rewrite col_len by (try exact Wq; lia). exact Lq.
  - intros j Hj. cbv zeta. specialize (ERR j). cbv zeta in ERR. unfold csampled in ERR at 1. rewrite mk_length, HD in ERR. specialize (ERR Hj).
    assert (OP : nth j (csampled u Fs) (fun _ => 0) = fun x => u (map (fun F => evalT (nine (nth j F [])) x) Fs)).
    { unfold csampled. rewrite nth_mk by (rewrite HD; exact Hj). reflexivity. }
    assert (EQ : forall x, u (map (fun F => evalT (nine (nth j F [])) x) Fs) = u (map (fun f => ev f j x) fs)).
    { intros x. f_equal. unfold Fs. rewrite map_map. apply map_ext_in. intros f I. destruct (H f I) as [Wf [Nf Lf]].
      rewrite nine_eval; [reflexivity|]. rewrite col_len by (try exact Wf; lia). exact Lf. }
    rewrite OP in ERR.
    assert (EI : interp (fun x => u (map (fun F => evalT (nine (nth j F [])) x) Fs)) N = interp (fun x => u (map (fun f => ev f j x) fs)) N).
    { unfold interp. f_equal. apply map_ext. exact EQ. }
    rewrite EI in ERR. intros T. specialize (ERR T). destruct ERR as [E1 E2]. split.
    + intros i Hi. rewrite <- EQ. apply E1. exact Hi.
    + intros SP x Hx. rewrite <- EQ. apply E2; [|exact Hx]. destruct SP as [c [Lc Ec]]. exists c. split; [exact Lc|].
      intros y. rewrite EQ. apply Ec.
Qed.
Print Assumptions C186_short_partial.

(** C186: only the first nine coefficients of the arguments count: arguments
    that agree in these give the same result. *)
Theorem C186_truncated_refuted : forall (u : list R -> R) (Fs Gs : list arr), equal_cols Fs -> equal_cols Gs -> hd [] Fs <> [] ->
  length Fs = length Gs -> (forall q, (q < length Fs)%nat -> length (nth q Fs []) = length (nth q Gs [])) ->
  (forall q j k, (q < length Fs)%nat -> (j < length (nth q Fs []))%nat -> (k < 9)%nat ->
     nth k (nth j (nth q Fs []) []) 0 = nth k (nth j (nth q Gs []) []) 0) ->
  option_map fst (cheb_compose u Fs) = option_map fst (cheb_compose u Gs).
Proof.
  intros u Fs Gs EF EG NF LL LQ AG.
  assert (HH : length (hd [] Fs) = length (hd [] Gs)).
  { destruct Fs as [|F Fs]; destruct Gs as [|G Gs]; try discriminate; [reflexivity|]. cbn. apply (LQ 0%nat). cbn. lia. }
  assert (NG : hd [] Gs <> []) by (destruct (hd [] Gs); [destruct (hd [] Fs); [congruence|discriminate]|discriminate]).
  assert (CS : csampled u Fs = csampled u Gs).
  { unfold csampled. rewrite <- HH. apply mk_ext. intros j Hj.
    assert (MN : map (fun F => nine (nth j F [])) Fs = map (fun F => nine (nth j F [])) Gs).
    { apply (list_ext _ _ []); [now rewrite !map_length|]. rewrite map_length. intros q Hq.
      rewrite !(map_nth' (A := arr) (B := _) _ _ q [] []) by (try exact Hq; rewrite <- LL; exact Hq).
      apply (list_ext _ _ 0); [now rewrite !nine_length|]. rewrite nine_length. intros k Hk. unfold nine.
      rewrite !prolong1_nth by exact Hk. apply AG; try assumption. rewrite EF by (apply nth_In; exact Hq). exact Hj. }
    assert (P : forall x, map (fun F => evalT (nine (nth j F [])) x) Fs = map (fun F => evalT (nine (nth j F [])) x) Gs).
    { intros x. rewrite <- (map_map (fun F => nine (nth j F [])) (fun c => evalT c x) Fs), MN, map_map. reflexivity. }
    apply FunctionalExtensionality.functional_extensionality. intros x. now rewrite P. }
  assert (SF := compose_spec u Fs EF NF). assert (SG := compose_spec u Gs EG NG). rewrite <- CS in SG.
  destruct (construct _ _ _ _ _) as [r|].
  - destruct SF as [N [_ SF]]. destruct SG as [M [_ SG]]. rewrite SF, SG. reflexivity.
  - now rewrite SF, SG.
Qed.
Print Assumptions C186_truncated_refuted.

(** C186: and afterwards the arguments are their own truncations: an argument
    with a coefficient beyond the ninth is another function after the call. *)
Theorem C186_argument_refuted : forall (u : list R -> R) (Fs : list arr) r (Fs' : list arr), equal_cols Fs -> hd [] Fs <> [] -> cheb_compose u Fs = Some (r, Fs') ->
  forall q j, (q < length Fs)%nat -> (j < length (nth q Fs []))%nat ->
    (forall x, evalT (nth j (nth q Fs' []) []) x = rsum 9 (fun k => nth k (nth j (nth q Fs []) []) 0 * T k x)) /\
    (forall k, (9 <= k)%nat -> nth k (nth j (nth q Fs' []) []) 0 = 0).
Proof.
  intros u Fs r Fs' E NH C q j Hq Hj. assert (S := compose_spec u Fs E NH).
  destruct (construct _ _ _ _ _) as [r'|]; [|congruence]. destruct S as [N [HN S]]. rewrite C in S. assert (FE : Fs' = grown Fs N) by congruence. subst Fs'.
  rewrite grown_nth by assumption. split.
  - intros x. rewrite prolong1_eval by (rewrite nine_length; lia). unfold evalT. rewrite nine_length. apply rsum_ext. intros k Hk.
    unfold nine. now rewrite prolong1_nth by exact Hk.
  - intros k Hk. destruct (Nat.lt_ge_cases k N) as [L|G].
    + rewrite prolong1_nth by (rewrite Nat2Z.id; exact L). apply nth_overflow. now rewrite nine_length.
    + apply nth_overflow. now rewrite prolong1_length, Nat2Z.id.
Qed.
Print Assumptions C186_argument_refuted.

(** compose(f, lambda v: v) for f = T_9: the zero function, for which f is
    mistaken, is what f is afterwards. *)
Definition c186_f : arr := [[0; 0; 0; 0; 0; 0; 0; 0; 0; 1]].
Theorem C186_T9_refuted : forall r Fs', cheb_compose (fun v => nth 0 v 0) [c186_f] = Some (r, Fs') ->
  (forall x, evalT (nth 0 c186_f []) x = T 9 x) /\ (forall x, evalT (nth 0 (nth 0 Fs' []) []) x = 0) /\
  option_map fst (cheb_compose (fun v => nth 0 v 0) [c186_f]) = option_map fst (cheb_compose (fun v => nth 0 v 0) [[[0]]]).
Proof.
  intros r Fs' E.
  assert (EC : forall F : arr, equal_cols [F]) by (intros F G [<-|[]]; reflexivity).
  split.
  { intros x. unfold evalT. cbn [c186_f nth length]. rewrite (rsum_single 10 _ 9); [cbn [nth]; ring|lia|].
    intros k Hk NE. do 9 (destruct k as [|k]; [cbn [nth]; ring|]). lia. }
  split.
  - destruct (C186_argument_refuted (fun v => nth 0 v 0) [c186_f] r Fs' (EC _) ltac:(discriminate) E 0 0 ltac:(cbn; lia) ltac:(cbn; lia)) as [H _].
    intros x. rewrite H. apply rsum_zero. intros k Hk. cbn [c186_f nth]. do 9 (destruct k as [|k]; [cbn [nth]; ring|]). lia.
  - apply C186_truncated_refuted; try apply EC; try discriminate; try reflexivity.
    + intros q Hq. destruct q; [reflexivity|cbn in Hq; lia].
    + intros q j k Hq Hj Hk. destruct q; [|cbn in Hq; lia]. destruct j; [|cbn in Hj; lia]. cbn [nth c186_f].
      do 9 (destruct k as [|k]; [reflexivity|]). lia.
Qed.
Print Assumptions C186_T9_refuted.
(** The hypotheses are met: f = x, and the call returns. *)
Example ex_C186 : (wf f_x /\ ncols f_x = 1%nat /\ (len f_x <= 9)%nat) /\ exists r Fs', cheb_compose (fun v => nth 0 v 0) [c186_f] = Some (r, Fs').
Proof.
  split; [split; [exact f_x_wf|]; split; [reflexivity|cbn; lia]|].
  assert (EC : equal_cols [c186_f]) by (intros G [<-|[]]; reflexivity).
  assert (S := compose_spec (fun v => nth 0 v 0) [c186_f] EC ltac:(discriminate)).
  destruct (construct_error (csampled (fun v => nth 0 v 0) [c186_f]) eps_default 1 maxLength_default 9) as [r [N [E _]]];
    [discriminate|exact initial_nine|exact eps_default_range|].
  rewrite E in S. destruct S as [M [_ S]]. eauto.
Qed.
