(** C211: Fun.from_values. *)
From Coq Require Import Reals ZArith List Arith Bool Lia Lra.
From Verif Require Import Base ToolsProofs ChebSpec ChebMath ChebModel ChebModel2 ChebEval ChebDct ChebChop ChebObj ChebOps ChebOps2 ChebArith ChebConstr ChebRefute FunModel DivModel DivProofs FunTrigProofs TrigModel FunTrig EqModel PropEq ReprModel PropRepr FvalModel.
Import ListNotations.
Open Scope R_scope.

(** C211: from an n by m array of values, and any divisor k of its size, from_values gives m columns with n coefficients that take the values
    exactly at the n Chebyshev points of [a, b]; the number k has no influence *)
Theorem C211_interpolates : forall n V k a b, rect n V -> a < b -> (1 <= k)%nat -> ((n * length V) mod k = 0)%nat ->
  exists F, fun_from_values (V2 V) k TCheb a b = Some F /\ wf (onefun F) /\ dom0 F = a /\ dom1 F = b /\ ncols (onefun F) = length V /\ len (onefun F) = n /\
    ishappy (onefun F) = true /\ forall i j, (i < n)%nat -> (j < length V)%nat -> value F j (cpt a b n i) (nth i (nth j V []) 0).
Proof.
  intros n V k a b HR Hab Hk HM. assert (Hn : (1 <= n)%nat) by apply HR. assert (N1 := rect_nrows n V HR). assert (HP := rect_polyfit n V HR).
  unfold fun_from_values. destruct (Nat.eqb_spec k 0) as [|_]; [lia|]. unfold vsize. rewrite N1, HM, Nat.eqb_refl. unfold cheb_from_values.
  destruct (cheb_init_some n (polyfit V) eps_default 1 maxLength_default true HP) as [hp [E Hh]]. rewrite E. cbn [option_map].
  set (F := mkFun (mkCheb (polyfit V) eps_default 1 maxLength_default hp) a b). exists F.
  assert (W : wf (onefun F)) by (eexists; exact HP).
  split; [reflexivity|]. split; [exact W|]. split; [reflexivity|]. split; [reflexivity|]. split; [unfold ncols, F, polyfit; cbn [onefun coeffs]; apply map_length|].
  split; [apply rect_len; exact HP|]. split; [apply Hh; reflexivity|]. intros i j Hi Hj. set (t := nth i (chebpts_type2_compute n) 0).
  replace (nth i (nth j V []) 0) with (ev (onefun F) j (map_bwd (dom0 F) (dom1 F) (cpt a b n i))).
  - apply of_values_value; [exact W|exact Hab| |unfold ncols, F, polyfit; cbn [onefun coeffs]; rewrite map_length; exact Hj]. cbn [dom0 dom1 F]. rewrite cpt_fwd by lia. apply fwd_in; [exact Hab|apply chebpts_range].
  - cbn [dom0 dom1 F]. rewrite cpt_fwd by lia. rewrite bwd_fwd by exact Hab. unfold ev. cbn [onefun F coeffs].
    assert (EN : nth j (polyfit V) [] = polyfit1 (nth j V [])).
    { unfold polyfit. rewrite (nth_indep _ [] (polyfit1 [])) by (rewrite map_length; exact Hj). apply map_nth. }
    rewrite EN. assert (LN := rect_nth n V j HR Hj). transitivity (nth i (polyval1 (polyfit1 (nth j V []))) 0).
    + rewrite polyval1_spec by (rewrite polyfit1_length; lia). rewrite polyfit1_length, LN. reflexivity.
    + rewrite polyval_polyfit by lia. reflexivity.
Qed.
Print Assumptions C211_interpolates.

(** C211: a function is given back by its values *)
Theorem C211_values : forall F, wf (onefun F) ->
  exists G, fun_from_values (V2 (polyval (coeffs (onefun F)))) (ncols (onefun F)) TCheb (dom0 F) (dom1 F) = Some G /\ geq (GC F) (GC G) = true.
Proof.
  intros F W. assert (HRc := wf_rect _ W). assert (HR := rect_polyval _ _ HRc). assert (Hn := len_pos _ W). assert (Hm := ncols_wf _ W). assert (N1 := rect_nrows _ _ HR).
  unfold fun_from_values. destruct (Nat.eqb_spec (ncols (onefun F)) 0) as [|_]; [lia|]. unfold vsize. rewrite N1. unfold polyval at 1. rewrite map_length. fold (ncols (onefun F)).
  rewrite Nat.mod_mul by lia. cbn [Nat.eqb]. unfold cheb_from_values.
  assert (EP : polyfit (polyval (coeffs (onefun F))) = coeffs (onefun F)).
  { unfold polyfit, polyval. rewrite map_map. rewrite <- (map_id (coeffs (onefun F))) at 2. apply map_ext_in. intros c Hc. apply polyfit_polyval.
    destruct HRc as [_ [_ FA]]. rewrite Forall_forall in FA. rewrite (FA c Hc). exact Hn. }
  rewrite EP. destruct (cheb_init_some _ (coeffs (onefun F)) eps_default 1 maxLength_default true HRc) as [hp [E _]]. rewrite E. cbn [option_map].
  eexists. split; [reflexivity|]. apply geq_cheb. cbn [dom0 dom1 onefun coeffs]. repeat split.
Qed.
Print Assumptions C211_values.

(** not so: a flat array of m columns of n values can be given (as for from_coeffs), or a periodic function be built *)
Theorem C211_raises_refuted : (forall v k t a b, fun_from_values (V1 v) k t a b = None) /\ (forall A k a b, fun_from_values A k TTrig a b = None).
Proof.
  split.
  - intros v k t a b. unfold fun_from_values. destruct (Nat.eqb k 0); [reflexivity|]. destruct (Nat.eqb _ 0); [|reflexivity]. now destruct t.
  - intros A k a b. unfold fun_from_values. destruct (Nat.eqb k 0); [reflexivity|]. now destruct (Nat.eqb _ 0).
Qed.
Print Assumptions C211_raises_refuted.

(** not so: n_funs is the number of functions of the result: two columns although one function was asked for *)
Theorem C211_count_refuted : exists V F, rect 2 V /\ fun_from_values (V2 V) 1 TCheb (-1) 1 = Some F /\ ncols (onefun F) = 2%nat.
Proof.
  assert (HR : rect 2 [[0; 1]; [2; 3]]) by (split; [lia|]; split; [discriminate|]; repeat constructor).
  destruct (C211_interpolates 2 [[0; 1]; [2; 3]] 1 (-1) 1 HR ltac:(lra) ltac:(lia) eq_refl) as [F [E [_ [_ [_ [NC _]]]]]].
  exists [[0; 1]; [2; 3]], F. split; [exact HR|]. split; [exact E|]. exact NC.
Qed.
Print Assumptions C211_count_refuted.
