(** What the operations refuted in PropCheb.v do instead, for every input. *)
From Coq Require Import Reals ZArith List Arith Lia Lra Bool.
From Coquelicot Require Import Coquelicot.
From Verif Require Import Base ChebSpec ChebModel ChebEval CosSums ChebDct ChebMath ChebCalc ChebChop ChebObj ChebOps ChebArith ChebModel3 ChebBary ChebRefute PropCheb.
Import ListNotations.
Open Scope R_scope.

(** C06: diff(f, 0) is the first derivative of every f whose last coefficient is
    not negligible, and so f itself only for functions that solve f' = f. *)
Theorem C06_always_first_refuted f : wf f -> (2 <= len f)%nat -> 0 < eps f < 1 ->
  (exists j0, Rpower (eps f) (2 / 5) < Rabs (coef f j0 (len f - 1))) ->
  exists g, cheb_diff f 0 = Some g /\ ncols g = ncols f /\ forall j x, (j < ncols f)%nat -> is_derive (ev f j) x (ev g j x).
Proof.
  intros Hw Hl He H0. rewrite (diff_zero f Hw Hl He H0). destruct H0 as [j0 H0].
  destruct (diff_exact f 1 j0 Hw (le_n 1) He H0) as (g & E & Hc & D). exists g. split; [exact E|]. split; [exact Hc|].
  intros j x Hj. specialize (D j x Hj). cbn in D. exact D.
Qed.
Print Assumptions C06_always_first_refuted.

(** C17: the result is never more than one coefficient longer, and this one is zero. *)
Theorem C17_one_more_partial f e : wf f ->
  exists B, simplify_coeffs (coeffs f) e = Some B /\ (1 <= nrows B <= len f + 1)%nat /\
    forall j, (j < ncols f)%nat -> nth (len f) (nth j B []) 0 = 0.
Proof.
  intros Hw. destruct (simplify_coeffs_spec (len f) (coeffs f) e (wf_rect f Hw)) as (K & HK & E & _). exists (prolong (coeffs f) (Z.of_nat K)). split; [exact E|].
  assert (RK := rect_prolong (len f) (coeffs f) K (wf_rect f Hw) ltac:(lia)). rewrite (rect_nrows K _ RK). split; [exact HK|].
  intros j Hj. unfold prolong. rewrite (nth_indep _ [] (prolong1 [] (Z.of_nat K))) by (rewrite map_length; exact Hj). rewrite (map_nth (fun c => prolong1 c (Z.of_nat K))).
  destruct (Nat.lt_ge_cases (len f) K) as [L|L].
  - rewrite prolong1_nth by lia. apply nth_overflow. rewrite (rect_nth (len f) (coeffs f) j (wf_rect f Hw) Hj). lia.
  - apply nth_overflow. rewrite prolong1_length, Nat2Z.id. exact L.
Qed.
Print Assumptions C17_one_more_partial.

(** C52: numpy.add(f, g, out=h) raises if the coefficient arrays of h and of the
    longer operand differ in length, and returns h + g otherwise: right exactly
    when h was f to begin with. *)
Theorem C52_adds_to_out_refuted f g h f' g' h' : wf f -> wf g -> wf h -> ncols g = ncols h ->
  add_out f g h = Some (f', g', h') ->
  len h = Nat.max (len f) (len g) /\ (forall j x, ev f' j x = ev f j x) /\ (forall j x, ev g' j x = ev g j x) /\
  forall j x, (j < ncols h)%nat -> ev h' j x = ev h j x + ev g j x.
Proof.
  intros Hf Hg Hh Hn H. unfold add_out in H. assert (P := add_prolonged_spec f g Hf Hg). destruct (add_prolonged f g) as [f1 g1]. destruct P as (R1 & R2 & N1 & N2 & E1 & E2 & _).
  rewrite (rect_nrows _ _ R2) in H. destruct (Nat.eqb_spec (nrows (coeffs h)) (Nat.max (len f) (len g))) as [L|L]; [|discriminate].
  destruct (add_cols_spec (Nat.max (len f) (len g)) (coeffs h) (coeffs g1)) as (C & EC & RC & LC & HC).
  { rewrite <- L. apply wf_rect, Hh. } { exact R2. } { left. unfold ncols in *. congruence. }
  rewrite EC in H. injection H as <- <- <-. split; [exact L|]. split; [exact E1|]. split; [exact E2|]. intros j x Hj.
  rewrite <- E2. unfold ev. cbn [coeffs]. assert (Lg : length (coeffs g1) = length (coeffs h)) by (unfold ncols in *; congruence).
  assert (Q : nth j C [] = addl (nth j (coeffs h) []) (nth j (coeffs g1) [])).
  { destruct (HC j Hj) as [Q|[L1 Q]]; [exact Q|]. unfold ncols in Hj. replace j with 0%nat by lia. replace j with 0%nat in Q by lia. exact Q. }
  rewrite Q. apply addl_eval. rewrite (rect_nth _ _ j R2) by (rewrite Lg; exact Hj). rewrite (rect_nth _ _ j (wf_rect h Hh) Hj). exact L.
Qed.
Print Assumptions C52_adds_to_out_refuted.

(** C55: the first-kind rule is right for straight lines. *)
Lemma type1_odd N j : (2 <= N)%nat -> (j < N)%nat -> nth (N - 1 - j) (chebpts_type1_compute N) 0 = - nth j (chebpts_type1_compute N) 0.
Proof.
  intros HN Hj. destruct N as [|[|N]]; try lia. unfold chebpts_type1_compute. set (M := S (S N)) in *. rewrite !nth_mk by lia. rewrite <- sin_neg. f_equal.
  rewrite (minus_INR (M - 1) j) by lia. field. apply not_0_INR. lia.
Qed.
Theorem C55_lines_partial N a b p s : (2 <= N)%nat -> a < b ->
  exists x w, chebpts1 N a b = Some (x, w) /\ length x = N /\ length w = N /\
    is_RInt (fun t => p + s * t) a b (rsum N (fun j => nth j w 0 * (p + s * nth j x 0))).
Proof.
  intros HN Hab. destruct (quadwts_some N ltac:(lia)) as [w [Ew Lw]]. unfold chebpts1. rewrite Ew.
  assert (L1 : length (chebpts_type1_compute N) = N) by (destruct N as [|[|N]]; try lia; unfold chebpts_type1_compute; apply mk_length).
  exists (scaleNodes (chebpts_type1_compute N) a b), (scaleWeights w a b).
  split; [reflexivity|]. split; [unfold scaleNodes; destruct (_ && _); rewrite ?map_length; exact L1|].
  split; [unfold scaleWeights; destruct (_ && _); rewrite ?map_length; exact Lw|].
  assert (Hw : forall j, (j < N)%nat -> nth j (scaleWeights w a b) 0 = / 2 * (b - a) * nth j w 0).
  { intros j Hj. unfold scaleWeights. destruct (Reqb a (-1) && Reqb b 1) eqn:Ez.
    - apply andb_true_iff in Ez. destruct Ez as [E1 E2]. apply Reqb_true in E1, E2. subst. field.
    - rewrite nth_map_R by lia. reflexivity. }
  assert (Hx : forall j, (j < N)%nat -> nth j (scaleNodes (chebpts_type1_compute N) a b) 0 = / 2 * (b - a) * nth j (chebpts_type1_compute N) 0 + / 2 * (a + b)).
  { intros j Hj. unfold scaleNodes. destruct (Reqb a (-1) && Reqb b 1) eqn:Ez.
    - apply andb_true_iff in Ez. destruct Ez as [E1 E2]. apply Reqb_true in E1, E2. subst. field.
    - rewrite nth_map_R by lia. field. }
  assert (W0 : rsum N (fun j => nth j w 0) = 2).
  { assert (Q := quadwts_exact N w (T 0) ltac:(lia) Ew (spanT_T N 0 ltac:(lia))). cbn [T] in Q.
    assert (Q2 : is_RInt (fun _ : R => 1) (-1) 1 2). { evar_last; [apply (is_RInt_const (V := R_CompleteNormedModule))|]. unfold scal; cbn; unfold mult; cbn. ring. }
    pose proof (is_RInt_unique _ _ _ _ Q) as U1. pose proof (is_RInt_unique _ _ _ _ Q2) as U2. rewrite U2 in U1. rewrite U1. apply rsum_ext. intros. cbn [T]. ring. }
  assert (W1 : rsum N (fun j => nth j w 0 * nth j (chebpts_type1_compute N) 0) = 0).
  { assert (E : rsum N (fun j => nth j w 0 * nth j (chebpts_type1_compute N) 0) = - rsum N (fun j => nth j w 0 * nth j (chebpts_type1_compute N) 0)); [|lra].
    rewrite <- (rsum_rev N (fun j => nth j w 0 * nth j (chebpts_type1_compute N) 0)) at 1. replace (- rsum N (fun j => nth j w 0 * nth j (chebpts_type1_compute N) 0)) with (-1 * rsum N (fun j => nth j w 0 * nth j (chebpts_type1_compute N) 0)) by ring.
    rewrite <- rsum_scal. apply rsum_ext. intros j Hj. rewrite (quadwts_sym N w j Ew Hj), type1_odd by assumption. ring. }
  rewrite (rsum_ext N _ (fun j => / 2 * (b - a) * (p + s * (/ 2 * (a + b))) * nth j w 0 + / 2 * (b - a) * s * (/ 2 * (b - a)) * (nth j w 0 * nth j (chebpts_type1_compute N) 0))) by (intros j Hj; rewrite Hw, Hx by exact Hj; ring).
  rewrite rsum_plus, !rsum_scal, W0, W1.
  evar_last.
  - apply (is_RInt_derive (V := R_CompleteNormedModule) (fun t => p * t + s * (t * t) / 2)).
    + intros t _. auto_derive; [exact I|field].
    + intros t _. apply (ex_derive_continuous (fun t => p + s * t)). auto_derive. exact I.
  - unfold minus, plus, opp; cbn. field.
Qed.
Print Assumptions C55_lines_partial.

(** ** Cases *)
Example C06_case : wf f_x /\ (2 <= len f_x)%nat /\ 0 < eps f_x < 1 /\ exists j0, Rpower (eps f_x) (2 / 5) < Rabs (coef f_x j0 (len f_x - 1)).
Proof.
  split; [exact f_x_wf|]. split; [cbn; lia|]. assert (Q := eps_default_range). split; [cbn [eps f_x]; lra|]. exists 0%nat. cbn [eps f_x]. unfold coef. cbn. rewrite Rabs_R1.
  rewrite <- (Rpower_O 1 ltac:(lra)). apply Rlt_le_trans with (Rpower 1 (2 / 5)); [apply Rlt_Rpower_l; lra|]. unfold Rpower. rewrite ln_1, !Rmult_0_r. lra.
Qed.
Example C52_case : wf f_x /\ wf (with_coeffs f_x [[5; 0]]) /\ exists r, add_out f_x f_x (with_coeffs f_x [[5; 0]]) = Some r.
Proof. split; [exact f_x_wf|]. split; [exists 2%nat; repeat split; [lia|discriminate|repeat constructor]|]. eexists. reflexivity. Qed.
