(** C204: comparing functions with == and !=. *)
From Coq Require Import Reals ZArith List Arith Bool Lia Lra.
From Coquelicot Require Import Coquelicot.
From Verif Require Import Base ToolsProofs ChebSpec ChebModel ChebModel2 ChebEval ChebDct ChebChop ChebObj ChebOps ChebOps2 ChebArith ChebConstr ChebRefute FunModel DivModel TrigSpec TrigBase TrigModel TrigTrans TrigEval TrigCalc TrigCalc2 TrigModel2 TrigObj TrigObj2 FunTrig FunTrigProofs VsModel PropCheb PropPer EqModel.
Import ListNotations.
Open Scope R_scope.

(** two functions of type 'cheb' (or two of type 'trig') *)
Definition same_kind (A B : gfun) : Prop := match A, B with GC _, GC _ => True | GT _, GT _ => True | _, _ => False end.

Lemma Ceqb_true z w : Ceqb z w = true <-> z = w.
Proof.
  unfold Ceqb. rewrite andb_true_iff, !Reqb_true. split; [intros [P Q]; apply injective_projections; assumption|intros ->; auto].
Qed.
Lemma all2_true {X} (e : X -> X -> bool) : (forall x y, e x y = true <-> x = y) -> forall c d, all2 e c d = true <-> c = d.
Proof.
  intros He. unfold all2. induction c as [|a c IH]; intros [|b d]; cbn; try (split; [discriminate|discriminate]); [split; reflexivity|].
  specialize (IH d). rewrite andb_true_iff in IH |- *. rewrite andb_true_iff, He. split.
  - intros [L [-> Q]]. f_equal. apply IH. split; assumption.
  - intros H. injection H as -> H. apply IH in H. tauto.
Qed.
Lemma carr_eqb_true A B : carr_eqb A B = true <-> A = B.
Proof. apply all2_true. intros c d. apply all2_true. exact Ceqb_true. Qed.
Lemma shape_eqb_true s t : shape_eqb s t = true <-> s = t.
Proof.
  unfold shape_eqb. rewrite andb_true_iff, !Nat.eqb_eq. split; [intros [P Q]; apply injective_projections; assumption|intros ->; auto].
Qed.
Lemma dom_eqb_true s t : dom_eqb s t = true <-> s = t.
Proof.
  unfold dom_eqb. rewrite andb_true_iff, !Reqb_true. split; [intros [P Q]; apply injective_projections; assumption|intros ->; auto].
Qed.
Lemma map_RtoC_inj (A B : list R) : map RtoC A = map RtoC B -> A = B.
Proof.
  revert B. induction A as [|a A IH]; intros [|b B] H; try discriminate; [reflexivity|]. cbn in H. injection H as H1 H2. f_equal; [exact H1|apply IH, H2].
Qed.
Lemma map2_RtoC_inj (A B : list (list R)) : map (map RtoC) A = map (map RtoC) B -> A = B.
Proof.
  revert B. induction A as [|a A IH]; intros [|b B] H; try discriminate; [reflexivity|]. cbn in H. injection H as H1 H2. f_equal; [apply map_RtoC_inj, H1|apply IH, H2].
Qed.
Lemma geq_cheb F G : geq (GC F) (GC G) = true <-> dom0 F = dom0 G /\ dom1 F = dom1 G /\ coeffs (onefun F) = coeffs (onefun G).
Proof.
  unfold geq, tech_eq. rewrite !andb_true_iff, dom_eqb_true, shape_eqb_true, carr_eqb_true. cbn [gdom gshape gcoeffs]. split.
  - intros [[P [_ Q]] _]. injection P as P1 P2. split; [exact P1|split; [exact P2|]]. apply map2_RtoC_inj. exact Q.
  - intros [-> [-> ->]]. auto.
Qed.
Lemma geq_trig P Q : geq (GT P) (GT Q) = true <-> pa P = pa Q /\ pb P = pb Q /\ tco (pt P) = tco (pt Q) /\ tva (pt P) = tva (pt Q).
Proof.
  unfold geq, tech_eq. rewrite !andb_true_iff, dom_eqb_true, shape_eqb_true, !carr_eqb_true. cbn [gdom gshape gcoeffs gvalues]. split.
  - intros [[U [[_ V] W]] _]. injection U as U1 U2. injection V as V. injection W as W. auto.
  - intros [-> [-> [-> ->]]]. auto.
Qed.

(** ** == is sound *)
(** equal functions of type 'cheb' have the same domain and the same answer to every call *)
Theorem C204_sound : forall F G, geq (GC F) (GC G) = true ->
  dom0 F = dom0 G /\ dom1 F = dom1 G /\ ncols (onefun F) = ncols (onefun G) /\ len (onefun F) = len (onefun G) /\ forall xs, fun_call F xs = fun_call G xs.
Proof.
  intros F G H. apply geq_cheb in H. destruct H as [A [B E]]. split; [exact A|]. split; [exact B|]. unfold ncols, len. rewrite E.
  split; [reflexivity|]. split; [reflexivity|]. intros xs. unfold fun_call, feval. rewrite A, B, E. reflexivity.
Qed.
Print Assumptions C204_sound.
(** equal periodic functions have the same domain and the same value at every point *)
Theorem C204_sound_periodic : forall P Q, pok P -> pok Q -> geq (GT P) (GT Q) = true ->
  pa P = pa Q /\ pb P = pb Q /\ forall x, option_map fst (pcall P x) = option_map fst (pcall Q x).
Proof.
  intros P Q HP HQ H. apply geq_trig in H. destruct H as [A [B [E _]]]. split; [exact A|]. split; [exact B|]. intros x.
  assert (F : pfn P x = pfn Q x) by (unfold pfn; rewrite A, B, E; reflexivity).
  destruct (pcall_correct P x HP) as [P1 P2]. destruct (pcall_correct Q x HQ) as [Q1 Q2]. rewrite <- A, <- B in Q1, Q2.
  destruct (Rle_dec (pa P) x) as [Hx|Hx]; [destruct (Rle_dec x (pb P)) as [Hy|Hy]|].
  - destruct (P1 (conj Hx Hy)) as [P' [-> _]]. destruct (Q1 (conj Hx Hy)) as [Q' [-> _]]. cbn. rewrite F. reflexivity.
  - rewrite P2, Q2 by lra. reflexivity.
  - rewrite P2, Q2 by lra. reflexivity.
Qed.
Print Assumptions C204_sound_periodic.

(** ** == is complete among functions of the same length *)
Lemma evalT_inj_unit c d : length c = length d -> (forall x, -1 <= x <= 1 -> evalT c x = evalT d x) -> c = d.
Proof.
  intros L E. destruct (Nat.eq_dec (length c) 0) as [Z|Z].
  { destruct c; [|discriminate]. destruct d; [reflexivity|discriminate]. }
  rewrite <- (polyfit_polyval c), <- (polyfit_polyval d) by lia. f_equal.
  assert (PL : forall c : list R, (1 <= length c)%nat -> length (polyval1 c) = length c) by (intros; apply polyval1_length; auto).
  apply (list_ext _ _ 0); [rewrite !PL by lia; exact L|]. rewrite PL by lia. intros k Hk.
  rewrite !polyval1_spec by lia. rewrite L. apply E. apply chebpts_range.
Qed.
Lemma fun_call_one F x j : wf (onefun F) -> dom0 F < dom1 F -> dom0 F <= x <= dom1 F -> (j < ncols (onefun F))%nat ->
  exists A, fun_call F [x] = Some A /\ nth 0 (nth j A []) 0 = ev (onefun F) j (map_bwd (dom0 F) (dom1 F) x).
Proof.
  intros Hw Hab Hx Hj.  assert (Z : -1 <= map_bwd (dom0 F) (dom1 F) x <= 1) by (apply (bwd_in (dom0 F) (dom1 F) x Hab); exact Hx).
  exists (feval (onefun F) [map_bwd (dom0 F) (dom1 F) x]). split.
  - unfold fun_call. cbn [map forallb]. set (z := map_bwd _ _ _) in *. unfold ChebModel.Rleb. destruct (Rle_dec (-1) z); [|lra]. destruct (Rle_dec z 1); [|lra]. reflexivity.
  - rewrite (feval_correct (onefun F) [map_bwd (dom0 F) (dom1 F) x] 0 j Hw Hj) by (cbn; lia). reflexivity.
Qed.
Theorem C204_complete : forall F G, wf (onefun F) -> wf (onefun G) -> dom0 F < dom1 F ->
  dom0 F = dom0 G -> dom1 F = dom1 G -> ncols (onefun F) = ncols (onefun G) -> len (onefun F) = len (onefun G) ->
  (forall x, dom0 F <= x <= dom1 F -> fun_call F [x] = fun_call G [x]) -> geq (GC F) (GC G) = true.
Proof.
  intros F G HF HG Hab A B N L H. apply geq_cheb. split; [exact A|]. split; [exact B|].
  apply (list_ext _ _ []); [exact N|]. intros j Hj. apply evalT_inj_unit.
  - rewrite (col_len (onefun F) j HF Hj), (col_len (onefun G) j HG) by (rewrite <- N; exact Hj). exact L.
  - intros z Hz. set (x := map_fwd (dom0 F) (dom1 F) z).
    assert (Hx : dom0 F <= x <= dom1 F) by (unfold x, map_fwd; nra).
    assert (Ez : map_bwd (dom0 F) (dom1 F) x = z) by (unfold x, map_bwd, map_fwd; field; lra).
    destruct (fun_call_one F x j HF Hab Hx Hj) as [U [EU VU]].
    destruct (fun_call_one G x j HG ltac:(lra) ltac:(lra) ltac:(rewrite <- N; exact Hj)) as [V [EV VV]].
    rewrite (H x Hx) in EU. rewrite EU in EV. injection EV as ->. rewrite VU, <- A, <- B, Ez in VV. exact VV.
Qed.
Print Assumptions C204_complete.
Theorem C204_complete_periodic : forall P Q, pok P -> pok Q -> pa P = pa Q -> pb P = pb Q -> length (tco (pt P)) = length (tco (pt Q)) ->
  (forall x, pa P <= x <= pb P -> option_map fst (pcall P x) = option_map fst (pcall Q x)) -> geq (GT P) (GT Q) = true.
Proof.
  intros P Q HP HQ A B L H. apply geq_trig. split; [exact A|]. split; [exact B|].
  assert (E : tco (pt P) = tco (pt Q)).
  { apply grid_unique; [exact L|]. intros j Hj. set (z := gridpt (length (tco (pt P))) j). set (x := map_fwd (pa P) (pb P) z).
    assert (Hab := proj1 HP). assert (Hz : -1 <= z <= 1).
    { unfold z, gridpt. assert (0 < INR (length (tco (pt P)))) by (apply lt_0_INR; lia). assert (INR j <= INR (length (tco (pt P)))) by (apply le_INR; lia).
      assert (0 <= INR j) by apply pos_INR. assert (0 <= 2 * INR j / INR (length (tco (pt P))) <= 2); [|lra]. split.
      - apply Rmult_le_pos; [lra|]. left. apply Rinv_0_lt_compat. assumption.
      - apply (Rmult_le_reg_r (INR (length (tco (pt P))))); [assumption|]. unfold Rdiv. rewrite Rmult_assoc, Rinv_l by lra. lra. }
    assert (Hx : pa P <= x <= pb P) by (unfold x, map_fwd; nra).
    assert (Ez : map_bwd (pa P) (pb P) x = z) by (unfold x, map_bwd, map_fwd; field; lra).
    specialize (H x Hx). destruct (proj1 (pcall_correct P x HP) Hx) as [P' [EP _]].
    assert (Hx' : pa Q <= x <= pb Q) by lra. destruct (proj1 (pcall_correct Q x HQ) Hx') as [Q' [EQ _]].
    rewrite EP, EQ in H. cbn in H. injection H as H. unfold pfn in H. rewrite <- A, <- B, Ez in H. exact H. }
  split; [exact E|]. destruct (proj2 HP) as [_ [-> _]]. destruct (proj2 HQ) as [_ [-> _]]. rewrite E. reflexivity.
Qed.
Print Assumptions C204_complete_periodic.

(** ** == is an equivalence relation on each kind *)
Theorem C204_equivalence : (forall A, geq A A = true) /\ (forall A B, same_kind A B -> geq A B = geq B A) /\
  (forall A B D, same_kind A B -> same_kind B D -> geq A B = true -> geq B D = true -> geq A D = true).
Proof.
  split; [|split].
  - intros [F|P]; [apply geq_cheb; auto|apply geq_trig; auto].
  - intros [F|P] [G|Q] K; try contradiction; apply eq_true_iff_eq; rewrite ?geq_cheb, ?geq_trig; intuition congruence.
  - intros [F|P] [G|Q] [H|T] K K' U V; try contradiction; rewrite ?geq_cheb, ?geq_trig in *; intuition congruence.
Qed.
Print Assumptions C204_equivalence.

(** ** operations and == *)
Theorem C204_deepcopy : forall F, wf (onefun F) -> exists G, fun_deepcopy F = Some G /\ geq (GC F) (GC G) = true.
Proof.
  intros F Hw. destruct (C51_deepcopy_partial (onefun F) Hw) as [r [E [K _]]]. unfold fun_deepcopy, wrap. rewrite E. cbn [option_map].
  eexists. split; [reflexivity|]. apply geq_cheb. cbn [dom0 dom1 onefun]. auto.
Qed.
Print Assumptions C204_deepcopy.
Lemma dom_check_refl F : dom_check F F = true.
Proof.
  unfold dom_check, ChebModel.Rltb, SMALL_EPS. assert (0 < / 10 ^ 8) by (apply Rinv_0_lt_compat; apply pow_lt; lra).
  destruct (Rlt_dec (dom0 F - dom0 F) (/ 10 ^ 8)); [|lra]. destruct (Rlt_dec (dom1 F - dom1 F) (/ 10 ^ 8)); [|lra]. reflexivity.
Qed.
Lemma dom_check_same F G : dom0 F = dom0 G -> dom1 F = dom1 G -> dom_check F G = true.
Proof. intros A B. rewrite <- (dom_check_refl F). unfold dom_check. rewrite A, B. reflexivity. Qed.
Lemma rect_map n g A : (forall c, length (g c) = length c) -> rect n A -> rect n (map g A).
Proof.
  intros Hg [H1 [H2 H3]]. split; [exact H1|]. split; [destruct A; [congruence|discriminate]|].
  clear - Hg H3. induction H3 as [|c A Hc H3 IH]; cbn; constructor; [rewrite Hg; exact Hc|exact IH].
Qed.
Theorem C204_double_negation : forall F, wf (onefun F) ->
  exists G H, fun_negative F = Some G /\ fun_negative G = Some H /\ geq (GC F) (GC H) = true.
Proof.
  intros F [n Hn]. unfold fun_negative. rewrite dom_check_refl. unfold negative.
  destruct (cheb_init_some n _ (eps (onefun F)) 1 (maxLength (onefun F)) (ishappy (onefun F)) (rect_map n (map (fun a => -1 * a)) _ (fun c => map_length _ c) Hn)) as [h1 [E1 _]].
  destruct (cheb_init_some n _ (eps (onefun F)) 1 (maxLength (onefun F)) h1 (rect_map n (map (fun a => -1 * a)) _ (fun c => map_length _ c) (rect_map n (map (fun a => -1 * a)) _ (fun c => map_length _ c) Hn))) as [h2 [E2 _]].
  rewrite E1. cbn [wrap option_map]. eexists. eexists. split; [reflexivity|]. rewrite dom_check_refl. cbn [onefun coeffs eps maxLength ishappy].
  rewrite E2. cbn [wrap option_map]. split; [reflexivity|]. apply geq_cheb. cbn [dom0 dom1 onefun coeffs]. split; [reflexivity|]. split; [reflexivity|].
  rewrite map_map. rewrite <- (map_id (coeffs (onefun F))) at 1. apply map_ext. intros c. rewrite map_map. rewrite <- (map_id c) at 1. apply map_ext. intros a. ring.
Qed.
Print Assumptions C204_double_negation.
Lemma add_cols_comm A B : length A = length B -> add_cols A B = add_cols B A.
Proof.
  intros H. unfold add_cols. rewrite H, Nat.eqb_refl. f_equal. clear H. revert B. induction A as [|c A IH]; intros [|d B]; cbn; try reflexivity. f_equal; [|apply IH].
  clear. revert d. induction c as [|a c IH]; intros [|b d]; cbn; try reflexivity. f_equal; [ring|apply IH].
Qed.
Lemma add_coeffs_comm A B : length A = length B -> add_coeffs A B = add_coeffs B A.
Proof.
  intros H. unfold add_coeffs. apply add_cols_comm. unfold prolong. destruct (Nat.ltb _ _), (Nat.ltb _ _); rewrite ?map_length; exact H.
Qed.
(** f + g == g + f for operands with the same number of columns and the same tolerance *)
Theorem C204_add_commutes : forall F G, wf (onefun F) -> wf (onefun G) -> dom0 F = dom0 G -> dom1 F = dom1 G ->
  ncols (onefun F) = ncols (onefun G) -> eps (onefun F) = eps (onefun G) ->
  exists H K, fun_add F G = Some H /\ fun_add G F = Some K /\ geq (GC H) (GC K) = true.
Proof.
  intros F G HF HG A B N E. unfold fun_add, fun_binary. rewrite !dom_check_refl, (dom_check_same F G A B), (dom_check_same G F (eq_sym A) (eq_sym B)). cbn [andb].
  assert (EQ : add (onefun F) (onefun G) = add (onefun G) (onefun F)).
  { unfold add. rewrite (add_coeffs_comm _ _ N). destruct (add_coeffs _ _) as [c|]; [|reflexivity].
    assert (S1 : snap_tol (onefun F) (onefun G) = snap_tol (onefun G) (onefun F)) by (unfold snap_tol; rewrite E, Rmax_comm; reflexivity).
    rewrite S1, (Rmax_comm (eps (onefun F))), (andb_comm (ishappy (onefun F))).
    assert (M : map (fun _ : list R => [0]) (coeffs (onefun F)) = map (fun _ => [0]) (coeffs (onefun G))).
    { unfold ncols in N. revert N. generalize (coeffs (onefun F)) (coeffs (onefun G)). clear. intros U. induction U as [|a U IH]; intros [|b m] H; try discriminate; [reflexivity|]. cbn. f_equal. apply IH. cbn in H. lia. }
    rewrite M. reflexivity. }
  rewrite EQ. destruct (add_correct (onefun G) (onefun F) HG HF (or_introl N)) as [r [Er _]]. rewrite Er. cbn [wrap option_map].
  eexists. eexists. split; [reflexivity|]. split; [reflexivity|]. apply geq_cheb. cbn [dom0 dom1 onefun]. auto.
Qed.
Print Assumptions C204_add_commutes.

(** ** what == and != do not do *)
(** the same function with one coefficient more (a zero) is not == *)
Theorem C204_length_refuted : exists F G, wf (onefun F) /\ wf (onefun G) /\ dom0 F = dom0 G /\ dom1 F = dom1 G /\ dom0 F < dom1 F /\ ncols (onefun F) = ncols (onefun G) /\
  coeffs (onefun G) = prolong (coeffs (onefun F)) 3 /\
  (forall j x, ev (onefun F) j x = ev (onefun G) j x) /\ geq (GC F) (GC G) = false.
Proof.
  exists (mkFun f_x (-1) 1), (mkFun (mkCheb (prolong [[0; 1]] 3) eps_default 1 maxLength_default true) (-1) 1).
  cbn [onefun dom0 dom1 ncols coeffs f_x]. split; [exact f_x_wf|]. split; [exists 3%nat; repeat split; [lia|discriminate|repeat constructor]|].
  split; [reflexivity|]. split; [reflexivity|]. split; [lra|]. split; [reflexivity|]. split; [reflexivity|]. split.
  - intros j x. unfold ev. cbn [coeffs f_x]. destruct j as [|j].
    + cbn [prolong map nth]. symmetry. apply C04_prolong_keeps_function. cbn. lia.
    + cbn [prolong map nth]. destruct j; reflexivity.
  - apply not_true_is_false. intros H. apply geq_cheb in H. destruct H as [_ [_ H]]. cbn in H. discriminate.
Qed.
Print Assumptions C204_length_refuted.
(** x^2 of type 'cheb' is == cos(pi x) of type 'trig', although they differ at 0, and == is not symmetric *)
Theorem C204_mixed_refuted : exists F P, wf (onefun F) /\ real_odd P /\ geq (GC F) (GT P) = true /\ geq (GT P) (GC F) = false /\
  (exists P', pcall P 0 = Some (RtoC 1, P')) /\ ev (onefun F) 0 (map_bwd (dom0 F) (dom1 F) 0) = 0.
Proof.
  exists (mkFun (mkCheb [[/ 2; 0; / 2]] eps_default 1 maxLength_default true) (-1) 1), (pcos (-1) 1).
  cbn [onefun dom0 dom1]. split; [exists 3%nat; repeat split; [lia|discriminate|repeat constructor]|]. assert (HO := pcos_real_odd (-1) 1 ltac:(lra)).
  split; [exact HO|]. split; [|split; [|split]].
  - unfold geq, tech_eq. rewrite !andb_true_iff, dom_eqb_true, shape_eqb_true, carr_eqb_true. cbn. auto.
  - apply not_true_is_false. intros H. unfold geq, tech_eq in H. rewrite !andb_true_iff, !carr_eqb_true in H. destruct H as [[_ [_ H]] _].
    cbn [gvalues] in H. apply (f_equal (fun l => nth 0 (nth 0 l []) C0)) in H. cbn [nth map polyval onefun coeffs] in H.
    assert (V : nth 0 (tva (pt (pcos (-1) 1))) C0 = RtoC (-1)).
    { rewrite (proj1 (proj2 (proj2 (proj1 HO)))). change (tco (pt (pcos (-1) 1))) with ccos. rewrite trig_values_correct by (cbn; lia). rewrite ccos_eval. f_equal.
      unfold gridpt. cbn [INR length ccos]. replace (PI * (-1 + 2 * 0 / (1 + 1 + 1))) with (- PI) by field. rewrite cos_neg, cos_PI. reflexivity. }
    
    match type of H with ?l = _ => change l with (nth 0 (tva (pt (pcos (-1) 1))) C0) in H end. rewrite V in H.
    match type of H with _ = ?l => change l with (nth 0 (map RtoC (polyval1 [/ 2; 0; / 2])) C0) in H end.
    change (nth 0 (map RtoC (polyval1 [/ 2; 0; / 2])) C0) with (nth 0 (map RtoC (polyval1 [/ 2; 0; / 2])) (RtoC 0)) in H.
    rewrite (map_nth RtoC) in H. apply RtoC_inj in H. rewrite polyval1_spec in H by (cbn; lia).
    assert (B := chebpts_range 3 0). change (length [/ 2; 0; / 2]) with 3%nat in H. set (y := nth 0 _ 0) in *.
    unfold evalT in H. cbn [rsum length nth T] in H. nra.
  - destruct (proj1 (pcall_correct (pcos (-1) 1) 0 (proj1 HO)) ltac:(cbn; lra)) as [P' [E _]]. exists P'. rewrite E, pcos_fn. do 3 f_equal.
    unfold map_bwd. replace (PI * ((2 * 0 - -1 - 1) / (1 - -1))) with 0 by field. apply cos_0.
  - unfold ev, evalT. cbn [coeffs nth length rsum T]. replace (map_bwd (-1) 1 0) with 0 by (unfold map_bwd; field). field.
Qed.
Print Assumptions C204_mixed_refuted.

(** calling a real periodic function with an even number of coefficients makes it different from what it was *)
Theorem C204_call_refuted : exists P v P', pok P /\ pcall P 0 = Some (v, P') /\ geq (GT P) (GT P) = true /\ geq (GT P) (GT P') = false.
Proof.
  set (c := [RtoC 1; RtoC 0]).
  assert (Hh : hermitian c).
  { intros x. unfold evalF, c. cbn [length csum nth]. unfold mode. cbn. ring. }
  destruct (mk_trig_ok c ltac:(cbn; lia) Hh) as [X Y].
  set (P := {| pa := -1; pb := 1; pt := mk_trig (coeffs2vals1 c) c |}).
  assert (HP : pok P) by (split; [cbn; lra|exact X]).
  assert (Z : map_bwd (pa P) (pb P) 0 = 0) by (cbn; unfold map_bwd; field).
  exists P, (RtoC (horner_real c 0)), {| pa := -1; pb := 1; pt := {| tco := touch c; tva := tva (pt P); tre := true |} |}.
  split; [exact HP|]. split; [|split; [apply (proj1 C204_equivalence)|]].
  - unfold pcall. rewrite Z. unfold ChebModel.Rleb, Rleb. destruct (Rle_dec (-1) 0); [|lra]. destruct (Rle_dec 0 1); [|lra]. cbn [andb].
    unfold tcall. change (pt P) with (mk_trig (coeffs2vals1 c) c). rewrite Y. reflexivity.
  - apply not_true_is_false. intros H. apply geq_trig in H. destruct H as [_ [_ [H _]]]. change (tco (pt P)) with c in H. cbn in H.
    apply (f_equal (fun l => Re (nth 0 l C0))) in H. cbn in H. lra.
Qed.
Print Assumptions C204_call_refuted.
(** f != g is a function, and it counts as true whatever f and g are: f == f and f != f are both true *)
Theorem C204_not_equal_refuted : forall F G, wf (onefun F) -> wf (onefun G) -> ncols (onefun F) = ncols (onefun G) -> dom0 F = dom0 G -> dom1 F = dom1 G ->
  (17 <= maxLength (onefun F))%Z -> exists H, fun_ne F G = Some H /\ fun_truth H = true.
Proof.
  intros F G HF HG N A B M. unfold fun_ne, fun_ufunc2, fun_binary. rewrite dom_check_refl, (dom_check_same F G A B). cbn [andb]. unfold cheb_ufunc2. unfold ncols in N. rewrite N, Nat.eqb_refl.
  destruct (C49_construct (map (fun p y => not_equal (clenshaw_pt (fst p) y) (clenshaw_pt (snd p) y)) (combine (coeffs (onefun F)) (coeffs (onefun G)))) (eps (onefun F)) 1 (maxLength (onefun F)) 17) as [f [n [K [E [_ [_ [_ [_ [_ [HK _]]]]]]]]]].
  - destruct HF as [a [_ [HA _]]]. destruct HG as [b [_ [HB _]]]. destruct (coeffs (onefun F)); [congruence|]. destruct (coeffs (onefun G)); [congruence|]. discriminate.
  - unfold initial_n. rewrite Z.min_r by lia. cbn. lia.
  - rewrite E. cbn [wrap option_map]. eexists. split; [reflexivity|]. unfold fun_truth. cbn [onefun]. unfold len in HK. destruct (Nat.eqb_spec (nrows (coeffs f)) 0); [lia|reflexivity].
Qed.
Print Assumptions C204_not_equal_refuted.
(** f + g and g + f can differ when the tolerances differ: only that of the left operand decides whether the sum is set to 0 *)
Theorem C204_add_tolerance_refuted : exists F G H K, wf (onefun F) /\ wf (onefun G) /\ 0 < eps (onefun F) < 1 /\ 0 < eps (onefun G) < 1 /\
  fun_add F G = Some H /\ fun_add G F = Some K /\ geq (GC H) (GC K) = false.
Proof.
  set (F := mkFun (mkCheb [[1]] (/ 2) 1 maxLength_default true) (-1) 1). set (G := mkFun (mkCheb [[- / 2 - 49 / 100]] (/ 100) 1 maxLength_default true) (-1) 1).
  assert (WF : wf (onefun F)) by (exists 1%nat; repeat split; [lia|discriminate|repeat constructor]).
  assert (WG : wf (onefun G)) by (exists 1%nat; repeat split; [lia|discriminate|repeat constructor]).
  assert (VF : vscl (coeffs (onefun F)) = 1).
  { cbn. unfold vscl, vscale_col. cbn. rewrite ?Rabs_R1. unfold Rmax. repeat destruct (Rle_dec _ _); try lra; rewrite ?Rabs_R1; reflexivity. }
  assert (VG : vscl (coeffs (onefun G)) = 99 / 100).
  { cbn. unfold vscl, vscale_col. cbn. assert (Q : Rabs (- / 2 - 49 / 100) = 99 / 100) by (rewrite Rabs_left by lra; lra). rewrite ?Q. repeat first [rewrite (Rmax_left (99 / 100) 0) by lra | rewrite (Rabs_pos_eq (99 / 100)) by lra]. reflexivity. }
  assert (MF : Rmax 1 (99 / 100) = 1) by (apply Rmax_left; lra).
  assert (E1 : exists H, add (onefun F) (onefun G) = Some H /\ coeffs H = [[0]]).
  { unfold add. change (add_coeffs (coeffs (onefun F)) (coeffs (onefun G))) with (Some [[1 + (- / 2 - 49 / 100)]]). cbv beta iota zeta. cbn [forallb]. unfold snap_tol. rewrite VF, VG, MF. unfold ChebModel.Rltb.
    rewrite (Rabs_pos_eq (1 + _)) by lra. destruct (Rlt_dec _ _) as [_|Q]; [|cbn in Q; lra]. cbn [andb]. cbn [map onefun F coeffs ishappy G].
    destruct (cheb_init_some 1 [[0]] (Rmax (eps (onefun F)) (eps (onefun G))) 1 maxLength_default true) as [hp [E _]]; [repeat split; [lia|discriminate|repeat constructor]|].
    eexists. split; [exact E|reflexivity]. }
  assert (E2 : exists H, add (onefun G) (onefun F) = Some H /\ coeffs H = [[- / 2 - 49 / 100 + 1]]).
  { unfold add. change (add_coeffs (coeffs (onefun G)) (coeffs (onefun F))) with (Some [[- / 2 - 49 / 100 + 1]]). cbv beta iota zeta. cbn [forallb]. unfold snap_tol. rewrite VF, VG, Rmax_comm, MF. unfold ChebModel.Rltb.
    rewrite (Rabs_pos_eq (_ + 1)) by lra. destruct (Rlt_dec _ _) as [Q|_]; [cbn in Q; lra|]. cbn [andb]. cbn [map onefun F coeffs ishappy G].
    destruct (cheb_init_some 1 [[- / 2 - 49 / 100 + 1]] (Rmax (eps (onefun G)) (eps (onefun F))) 1 maxLength_default true) as [hp [E _]]; [repeat split; [lia|discriminate|repeat constructor]|].
    eexists. split; [exact E|reflexivity]. }
  destruct E1 as [H [E1 C1]]. destruct E2 as [K [E2 C2]].
  exists F, G, (mkFun H (-1) 1), (mkFun K (-1) 1). split; [exact WF|]. split; [exact WG|]. split; [cbn; lra|]. split; [cbn; lra|].
  assert (D : dom_check F G = true) by (apply dom_check_same; reflexivity). assert (D' : dom_check G F = true) by (apply dom_check_same; reflexivity).
  unfold fun_add, fun_binary. rewrite !dom_check_refl, D, D'. cbn [andb]. rewrite E1, E2. split; [reflexivity|]. split; [reflexivity|].
  apply not_true_is_false. intros Q. apply geq_cheb in Q. destruct Q as [_ [_ Q]]. cbn [onefun] in Q. rewrite C1, C2 in Q. injection Q as Q. lra.
Qed.
Print Assumptions C204_add_tolerance_refuted.

(** a concrete case: the function x on [0,1] is == to itself and to its copy, and not == to its negative *)
Example C204_case : let F := mkFun f_x 0 1 in geq (GC F) (GC F) = true /\ (exists G, fun_deepcopy F = Some G /\ geq (GC F) (GC G) = true) /\
  (exists G, fun_negative F = Some G /\ geq (GC F) (GC G) = false) /\ geq (GT (pcos 0 1)) (GT (pcos 0 1)) = true.
Proof.
  cbv zeta. split; [apply (proj1 C204_equivalence)|]. split; [apply C204_deepcopy; exact f_x_wf|]. split; [|apply (proj1 C204_equivalence)].
  unfold fun_negative. rewrite dom_check_refl. unfold negative.
  destruct (cheb_init_some 2 (map (map (fun a => -1 * a)) (coeffs f_x)) eps_default 1 maxLength_default true) as [hp [E _]]; [repeat split; [lia|discriminate|repeat constructor]|].
  cbn [onefun]. change (eps f_x) with eps_default. change (maxLength f_x) with maxLength_default. change (ishappy f_x) with true. rewrite E. cbn [wrap option_map]. eexists. split; [reflexivity|].
  apply not_true_is_false. intros Q. apply geq_cheb in Q. destruct Q as [_ [_ Q]]. cbn in Q. injection Q as Q1 Q2. lra.
Qed.
