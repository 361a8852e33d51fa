(** C190: arithmetic between Chebyshev and periodic functions; C180: the Fourier construction is stable. *)
From Coq Require Import Reals ZArith List Arith Bool Lra Lia FunctionalExtensionality.
From Coquelicot Require Import Coquelicot.
From Verif Require Import Base ChebSpec ChebModel ChebModel2 ChebEval ChebObj ChebArith ChebConstr TrigSpec TrigModel TrigModel2 TrigBase TrigTrans TrigEval TrigCalc TrigCalc2 TrigObj TrigObj2 TrigCons TrigConsProofs FunModel FunTrigProofs PropTCons TrigStable MixModel NormProofs NormAlias.
Import ListNotations.
Open Scope R_scope.

(** C180: a real function on [a, b] within D of a trigonometric polynomial of degree at most 15 is returned up to 4096 (e^(2/5) + 2 D) + D. *)
Theorem C180_near_partial : forall (g p : R -> R) e a b d D, a < b -> (d <= 15)%nat -> 0 < e < 1 ->
  trig_poly d (fun y => RtoC (p (map_fwd a b y))) -> (forall x, a <= x <= b -> Rabs (g x - p x) <= D) ->
  exists h f, tconstruct [fun y => RtoC (g (map_fwd a b y))] e = Some (h, [f]) /\
    forall x, a <= x <= b -> Cmod (fst (tcall f (map_bwd a b x)) - RtoC (g x))%C <= 4096 * (Rpower e (2 / 5) + 2 * D) + D.
Proof.
  intros g p e a b d D Hab Hd He Hp Hc.
  destruct (near_low (fun y => RtoC (g (map_fwd a b y))) (fun y => RtoC (p (map_fwd a b y))) e d D Hd He Hp) as [h [f [E [_ [_ H]]]]].
  - intros x _. reflexivity.
  - intros y Hy. replace (RtoC (g (map_fwd a b y)) - RtoC (p (map_fwd a b y)))%C with (RtoC (g (map_fwd a b y) - p (map_fwd a b y))) by (apply injective_projections; cbn; ring).
    rewrite Cmod_R. apply Hc. unfold map_fwd. split.
    + apply Rmult_le_reg_r with 2; [lra|]. unfold Rdiv. rewrite Rmult_assoc, Rinv_l by lra. nra.
    + apply Rmult_le_reg_r with 2; [lra|]. unfold Rdiv. rewrite Rmult_assoc, Rinv_l by lra. nra.
  - exists h, f. split; [exact E|]. intros x Hx. specialize (H (map_bwd a b x)). cbv beta in H.
    assert (Em : map_fwd a b (map_bwd a b x) = x) by (unfold map_fwd, map_bwd; field; lra). rewrite Em in H.
    replace (fst (tcall f (map_bwd a b x)) - RtoC (g x))%C with ((fst (tcall f (map_bwd a b x)) - RtoC (p x)) + RtoC (p x - g x))%C by (apply injective_projections; cbn; ring).
    eapply Rle_trans; [apply Cmod_triangle|]. apply Rplus_le_compat; [exact H|]. rewrite Cmod_R, Rabs_minus_sym. apply Hc. exact Hx.
Qed.
Print Assumptions C180_near_partial.
(** the hypotheses are met: cos(pi (x-1)) + 2 + x/1000 on [0,2] *)
Example C180_near_example : trig_poly 1 (fun y => RtoC ((fun x => cos (PI * (x - 1)) + 2)%R (map_fwd 0 2 y))) /\
  forall x, 0 <= x <= 2 -> Rabs ((cos (PI * (x - 1)) + 2 + x / 1000) - (cos (PI * (x - 1)) + 2)) <= / 500.
Proof. split; [exact C180_low_degree_example|]. intros x Hx. rewrite Rabs_right; lra. Qed.

(** what is constructed from a real function is real and periodic *)
Lemma real_herm (op : R -> C) e : (forall x, -1 <= x <= 1 -> Im (op x) = 0) -> exists h f, tconstruct [op] e = Some (h, [f]) /\ hermitian (tco f) /\ (1 <= length (tco f))%nat.
Proof.
  intros Hre. destruct (tconstruct_spec [op] e ltac:(discriminate)) as [h [fs [N [K [E [L [HN [Hi H]]]]]]]].
  assert (H0 := H 0%nat ltac:(cbn; lia)). cbv zeta in H0. cbn [nth] in H0. destruct fs as [|f [|]]; [cbn in L; lia| |cbn in L; lia]. cbn [nth] in H0.
  exists h, f. split; [exact E|]. assert (Lc := icf_length op N). assert (Sy : symm (icf op N)) by (apply icf_symm; [lia|exact Hre]).
  destruct h.
  - destruct H0 as [T _]. assert (L1 : (1 <= length (tco f))%nat) by (destruct T as [LT [P _]]; lia). split; [apply symm_herm; [exact L1|exact (symm_trunc _ _ _ T Sy)]|exact L1].
  - destruct H0 as [_ Ht]. rewrite Ht. split; [apply symm_herm; [lia|exact Sy]|lia].
Qed.
Lemma trig_of_some q e : exists r, trig_of q e = Some r /\ hermitian (tco r) /\ (1 <= length (tco r))%nat.
Proof.
  unfold trig_of. destruct (real_herm (fun x => RtoC (clenshaw_pt (nth 0 (coeffs q) []) x)) e) as [h [f [E H]]]; [reflexivity|]. rewrite E. exists f. split; [reflexivity|exact H].
Qed.
Lemma trig_of_near q (p : R -> C) e d D : (d <= 15)%nat -> 0 < e < 1 -> trig_poly d p -> wf q -> ncols q = 1%nat ->
  (forall x, -1 <= x <= 1 -> Cmod (RtoC (ev q 0 x) - p x)%C <= D) ->
  exists r, trig_of q e = Some r /\ forall x, Cmod (fst (tcall r x) - p x)%C <= 4096 * (Rpower e (2 / 5) + 2 * D).
Proof.
  intros Hd He Hp Wq Nq Hc. unfold trig_of.
  destruct (near_low (fun x => RtoC (clenshaw_pt (nth 0 (coeffs q) []) x)) p e d D Hd He Hp) as [h [f [E [_ [_ H]]]]].
  - reflexivity.
  - intros x Hx. rewrite clenshaw_pt_correct by (assert (Q := len_pos q Wq); rewrite (col_len q 0 Wq) by lia; lia). apply Hc. exact Hx.
  - rewrite E. exists f. split; [reflexivity|exact H].
Qed.
Lemma initial_ok : (initial_n maxLength_default 17 <= maxLength_default)%Z.
Proof. vm_compute. discriminate. Qed.
Lemma cheb_of_some u e : exists q, cheb_of u e = Some q /\ wf q /\ ncols q = 1%nat /\ eps q = e.
Proof.
  destruct (construct_spec [fun x => Re (u x)] e 1 maxLength_default 17 ltac:(discriminate) initial_ok) as [f [N [K [E [W [Nc [Ee _]]]]]]].
  exists f. repeat split; assumption.
Qed.

Lemma teps_ok : 0 < teps < 1.
Proof. unfold teps. split; [apply Rinv_0_lt_compat; lra|]. rewrite <- Rinv_1. apply Rinv_lt_contravar; lra. Qed.
Lemma im_le_mod (z : C) : Rabs (Im z) <= Cmod z.
Proof. destruct z as [a b]. assert (Q := Rmax_Cmod (a, b)). cbn [fst snd Im] in *. eapply Rle_trans; [apply Rmax_r|exact Q]. Qed.
Lemma tcall_period g : (1 <= length (tco g))%nat -> (tre g = true -> hermitian (tco g)) -> fst (tcall g 1) = fst (tcall g (-1)).
Proof.
  intros Hn Hh. assert (E : forall x, fst (tcall g x) = evalF (tco g) x).
  { intros x. unfold tcall. destruct (tre g) eqn:Et; cbn [fst]; [apply horner_real_correct; [exact Hn|apply Hh; reflexivity]|apply horner_cmplx_correct; exact Hn]. }
  rewrite !E. replace 1 with (-1 + 2) at 1 by lra. apply evalF_period2.
Qed.

(** C190: whatever operation is asked for, if the Chebyshev operation is within D of a trigonometric polynomial p of degree
    at most 15, so is the answer up to 4096 (e^(2/5) + 2 D), with the Chebyshev function on either side. *)
Theorem C190_mixed_partial : forall op f g ge gc q (p : R -> C) d D, (d <= 15)%nat -> 0 < Rmax (eps f) ge < 1 -> trig_poly d p ->
  cheb_of (fun x => fst (tcall g x)) (Rmax (eps f) ge) = Some gc -> op f gc = Some q -> wf q -> ncols q = 1%nat ->
  (forall x, -1 <= x <= 1 -> Cmod (RtoC (ev q 0 x) - p x)%C <= D) ->
  exists r, mix_ct op f g ge = Some r /\ forall x, Cmod (fst (tcall r x) - p x)%C <= 4096 * (Rpower (Rmax (eps f) ge) (2 / 5) + 2 * D).
Proof.
  intros op f g ge gc q p d D Hd He Hp Eg Eq Wq Nq Hc. unfold mix_ct. rewrite Eg, Eq. exact (trig_of_near q p _ d D Hd He Hp Wq Nq Hc).
Qed.
Print Assumptions C190_mixed_partial.

Theorem C190_mixed_reversed_partial : forall op f g gc fc q (p : R -> C) d D, (d <= 15)%nat -> trig_poly d p ->
  cheb_of (fun x => fst (tcall g x)) eps_default = Some gc ->
  cheb_of (fun x => RtoC (clenshaw_pt (nth 0 (coeffs f) []) x)) eps_default = Some fc -> op gc fc = Some q -> wf q -> ncols q = 1%nat ->
  (forall x, -1 <= x <= 1 -> Cmod (RtoC (ev q 0 x) - p x)%C <= D) ->
  exists r, mix_tc op g f = Some r /\ forall x, Cmod (fst (tcall r x) - p x)%C <= 4096 * (Rpower teps (2 / 5) + 2 * D).
Proof.
  intros op f g gc fc q p d D Hd Hp Eg Ef Eq Wq Nq Hc. unfold mix_tc. rewrite Eg, Ef, Eq. exact (trig_of_near q p _ d D Hd teps_ok Hp Wq Nq Hc).
Qed.
Print Assumptions C190_mixed_reversed_partial.

(** C190: the sum f + g.  M bounds both operands, delta is the error of the Chebyshev construction of g, D the distance of
    f + g from a trigonometric polynomial of degree at most 15. *)
Theorem C190_sum_partial : forall f g ge gc (p : R -> C) d M delta D, (d <= 15)%nat -> 0 < eps f -> 0 < Rmax (eps f) ge < 1 -> trig_poly d p ->
  wf f -> ncols f = 1%nat -> cheb_of (fun x => fst (tcall g x)) (Rmax (eps f) ge) = Some gc ->
  (forall x, -1 <= x <= 1 -> Rabs (ev f 0 x) <= M /\ Rabs (ev gc 0 x) <= M /\ Cmod (RtoC (ev gc 0 x) - fst (tcall g x))%C <= delta) ->
  (forall x, -1 <= x <= 1 -> Cmod (RtoC (ev f 0 x) + fst (tcall g x) - p x)%C <= D) ->
  exists r, mix_ct add f g ge = Some r /\ forall x, -1 <= x <= 1 ->
    Cmod (fst (tcall r x) - (RtoC (ev f 0 x) + fst (tcall g x)))%C
      <= 4096 * (Rpower (Rmax (eps f) ge) (2 / 5) + 2 * (D + delta + INR (Nat.max (len f) (len gc)) * (2 / 10 * (eps f * M)))) + D.
Proof.
  intros f g ge gc p d M delta D Hd Hef He Hp Wf Nf Eg HM Hc.
  destruct (cheb_of_some (fun x => fst (tcall g x)) (Rmax (eps f) ge)) as [gc' [Eg' [Wg [Ng _]]]]. assert (gc' = gc) by congruence. subst gc'. clear Eg'.
  destruct (add_error f gc M Wf Wg ltac:(lia) ltac:(lra)) as [q [Eq Hq]].
  - intros j x Hj Hx. replace j with 0%nat by lia. apply HM. exact Hx.
  - intros j x Hj Hx. replace j with 0%nat by lia. apply HM. exact Hx.
  - destruct (add_correct f gc Wf Wg ltac:(lia)) as [q' [Eq' [Wq [Nq _]]]]. assert (q' = q) by congruence. subst q'. clear Eq'.
    set (Sn := INR (Nat.max (len f) (len gc)) * (2 / 10 * (eps f * M))) in *.
    assert (Hn : forall x, -1 <= x <= 1 -> Cmod (RtoC (ev q 0 x) - p x)%C <= D + delta + Sn).
    { intros x Hx. specialize (Hq 0%nat x ltac:(lia) Hx). replace (bc (coeffs gc) 0) with 0%nat in Hq by (unfold bc; destruct (Nat.eqb _ _); reflexivity).
      destruct (HM x Hx) as [_ [_ H3]]. specialize (Hc x Hx).
      replace (RtoC (ev q 0 x) - p x)%C with ((RtoC (ev f 0 x) + fst (tcall g x) - p x) + ((RtoC (ev gc 0 x) - fst (tcall g x)) + RtoC (ev q 0 x - (ev f 0 x + ev gc 0 x))))%C by (apply injective_projections; cbn; ring).
      eapply Rle_trans; [apply Cmod_triangle|]. rewrite Rplus_assoc. apply Rplus_le_compat; [exact Hc|].
      eapply Rle_trans; [apply Cmod_triangle|]. apply Rplus_le_compat; [exact H3|]. rewrite Cmod_R. exact Hq. }
    destruct (C190_mixed_partial add f g ge gc q p d _ Hd He Hp Eg Eq Wq ltac:(lia) Hn) as [r [Er Hr]].
    exists r. split; [exact Er|]. intros x Hx.
    replace (fst (tcall r x) - (RtoC (ev f 0 x) + fst (tcall g x)))%C with ((fst (tcall r x) - p x) + (- (RtoC (ev f 0 x) + fst (tcall g x) - p x)))%C by (apply injective_projections; cbn; ring).
    eapply Rle_trans; [apply Cmod_triangle|]. apply Rplus_le_compat; [apply Hr|]. rewrite Cmod_opp. apply Hc. exact Hx.
Qed.
Print Assumptions C190_sum_partial.

Lemma mix_ct_add f g ge : wf f -> ncols f = 1%nat -> exists r, mix_ct add f g ge = Some r /\ hermitian (tco r) /\ (1 <= length (tco r))%nat.
Proof.
  intros Wf Nf. unfold mix_ct. destruct (cheb_of_some (fun x => fst (tcall g x)) (Rmax (eps f) ge)) as [gc [Eg [Wg [Ng _]]]]. rewrite Eg.
  destruct (add_correct f gc Wf Wg ltac:(lia)) as [q [Eq _]]. rewrite Eq. apply trig_of_some.
Qed.
Lemma mix_tc_add f g : exists r, mix_tc add g f = Some r /\ hermitian (tco r) /\ (1 <= length (tco r))%nat.
Proof.
  unfold mix_tc. destruct (cheb_of_some (fun x => fst (tcall g x)) eps_default) as [gc [Eg [Wg [Ng _]]]]. rewrite Eg.
  destruct (cheb_of_some (fun x => RtoC (clenshaw_pt (nth 0 (coeffs f) []) x)) eps_default) as [fc [Ef [Wf [Nf _]]]]. rewrite Ef.
  destruct (add_correct gc fc Wg Wf ltac:(lia)) as [q [Eq _]]. rewrite Eq. apply trig_of_some.
Qed.
Lemma ends_apart (a b s u : C) v w : s = u -> b = a -> Rabs (v - w) <= Cmod (s - (RtoC v + a))%C + Cmod (u - (RtoC w + b))%C.
Proof.
  intros -> ->. rewrite <- (Cmod_opp (u - (RtoC v + a))%C). replace (Rabs (v - w)) with (Cmod (- (u - (RtoC v + a)) + (u - (RtoC w + a)))%C); [apply Cmod_triangle|].
  rewrite <- Cmod_R. f_equal. apply injective_projections; cbn; ring.
Qed.

(** C190: the answer is periodic whatever f is, so at one end the sum is wrong by half the jump of f. *)
Theorem C190_jump_refuted : forall f g ge, wf f -> ncols f = 1%nat -> (1 <= length (tco g))%nat -> (tre g = true -> hermitian (tco g)) ->
  exists r r', mix_ct add f g ge = Some r /\ mix_tc add g f = Some r' /\ forall s, s = r \/ s = r' -> exists x, (x = 1 \/ x = -1) /\
    Rabs (ev f 0 1 - ev f 0 (-1)) / 2 <= Cmod (fst (tcall s x) - (RtoC (ev f 0 x) + fst (tcall g x)))%C.
Proof.
  intros f g ge Wf Nf Hn Hh. destruct (mix_ct_add f g ge Wf Nf) as [r [Er [Hr Lr]]]. destruct (mix_tc_add f g) as [r' [Er' [Hr' Lr']]].
  exists r, r'. split; [exact Er|]. split; [exact Er'|]. intros s Hs.
  assert (P : fst (tcall s 1) = fst (tcall s (-1))) by (destruct Hs as [->| ->]; apply tcall_period; auto).
  assert (Q := ends_apart _ _ _ _ (ev f 0 1) (ev f 0 (-1)) P (eq_sym (tcall_period g Hn Hh))).
  destruct (Rle_lt_dec (Rabs (ev f 0 1 - ev f 0 (-1)) / 2) (Cmod (fst (tcall s 1) - (RtoC (ev f 0 1) + fst (tcall g 1)))%C)) as [C|C].
  - exists 1. split; [left; reflexivity|exact C].
  - exists (-1). split; [right; reflexivity|]. lra.
Qed.
Print Assumptions C190_jump_refuted.

(** C190: the imaginary part of a complex periodic operand is dropped. *)
Theorem C190_complex_refuted : forall f g ge, wf f -> ncols f = 1%nat ->
  exists r r', mix_ct add f g ge = Some r /\ mix_tc add g f = Some r' /\ forall s x, s = r \/ s = r' -> Im (fst (tcall s x)) = 0 /\
    Rabs (Im (fst (tcall g x))) <= Cmod (fst (tcall s x) - (RtoC (ev f 0 x) + fst (tcall g x)))%C.
Proof.
  intros f g ge Wf Nf. destruct (mix_ct_add f g ge Wf Nf) as [r [Er [Hr Lr]]]. destruct (mix_tc_add f g) as [r' [Er' [Hr' Lr']]].
  exists r, r'. split; [exact Er|]. split; [exact Er'|]. intros s x Hs.
  assert (I0 : Im (fst (tcall s x)) = 0) by (destruct Hs as [->| ->]; rewrite tcall_herm by assumption; auto).
  split; [exact I0|]. set (z := fst (tcall s x)) in *. set (u := fst (tcall g x)).
  assert (Q := im_le_mod (z - (RtoC (ev f 0 x) + u))%C). eapply Rle_trans; [|exact Q].
  replace (Im (z - (RtoC (ev f 0 x) + u))%C) with (- Im u); [rewrite Rabs_Ropp; apply Rle_refl|].
  unfold Im in *. cbn. rewrite I0. ring.
Qed.
Print Assumptions C190_complex_refuted.

(** a case that meets the hypotheses of [C190_sum_partial]: 3 + x/10^6 and the periodic function 1 *)
Definition mf : chebtech := mkCheb [[3; / 10 ^ 6]] eps_default 1 maxLength_default true.
Definition mg : trig := {| tco := [RtoC 1]; tva := [RtoC 1]; tre := true |}.
Lemma evalF_one c x : evalF [c] x = c.
Proof.
  unfold evalF. cbn [length csum nth]. unfold mode. change (Nat.even 1) with false. cbn [andb]. change (freq 1 0) with 0%Z.
  rewrite Rmult_0_r, Rmult_0_l. unfold cis. rewrite cos_0, sin_0. destruct c as [a b]. apply injective_projections; cbn; ring.
Qed.
Lemma mg_one x : fst (tcall mg x) = RtoC 1.
Proof. rewrite tcall_herm; [apply evalF_one|cbn; lia|]. intros t. cbn [mg tco]. rewrite evalF_one. reflexivity. Qed.
Lemma mf_ev x : ev mf 0 x = 3 + / 10 ^ 6 * x.
Proof. unfold ev, mf, evalT. cbn [coeffs nth length rsum]. rewrite ?T_0, ?T_1. cbn. ring. Qed.
Example C190_sum_example : 0 < eps mf /\ 0 < Rmax (eps mf) eps_default < 1 /\ trig_poly 0 (fun _ => RtoC 4) /\ wf mf /\ ncols mf = 1%nat /\
  exists gc, cheb_of (fun x => fst (tcall mg x)) (Rmax (eps mf) eps_default) = Some gc /\
  (forall x, -1 <= x <= 1 -> Rabs (ev mf 0 x) <= 4 /\ Rabs (ev gc 0 x) <= 4 /\ Cmod (RtoC (ev gc 0 x) - fst (tcall mg x))%C <= 0) /\
  (forall x, -1 <= x <= 1 -> Cmod (RtoC (ev mf 0 x) + fst (tcall mg x) - RtoC 4)%C <= / 10 ^ 6).
Proof.
  assert (Ee : 0 < eps_default < 1). { unfold eps_default. split; [apply Rinv_0_lt_compat, pow_lt; lra|]. rewrite <- Rinv_1. apply Rinv_lt_contravar; [rewrite Rmult_1_l; apply pow_lt; lra|]. apply Rlt_pow_R1; [lra|lia]. }
  assert (E6 : 0 < / 10 ^ 6 < 1). { split; [apply Rinv_0_lt_compat, pow_lt; lra|]. rewrite <- Rinv_1. apply Rinv_lt_contravar; [rewrite Rmult_1_l; apply pow_lt; lra|]. apply Rlt_pow_R1; [lra|lia]. }
  change (eps mf) with eps_default. rewrite Rmax_left by lra. split; [apply Ee|]. split; [exact Ee|]. split.
  { exists [RtoC 4]. split; [reflexivity|]. intros x. rewrite evalF_one. reflexivity. }
  split; [exists 2%nat; split; [lia|]; split; [discriminate|repeat constructor]|]. split; [reflexivity|].
  destruct (construct_spec [fun x => Re (fst (tcall mg x))] eps_default 1 maxLength_default 17 ltac:(discriminate) initial_ok) as [gc [N [K [E [W [Nc [Eg [_ [HN [HK [HC _]]]]]]]]]]].
  exists gc. split; [exact E|].
  assert (H9 := initial_n_ge maxLength_default 17).
  assert (G : forall x, ev gc 0 x = 1).
  { intros x. unfold ev, evalT.
    transitivity (rsum (length (nth 0 (coeffs gc) [])) (fun k => nth k [1] 0 * T k x)).
    - apply rsum_ext. intros k Hk. f_equal. specialize (HC 0%nat k ltac:(cbn; lia)). unfold ChebObj.coef in HC. rewrite HC. cbn [nth].
      rewrite (interp_eq _ (fun _ => 1)), interp_one; [|lia|lia|intros t _; rewrite mg_one; reflexivity].
      destruct (Nat.ltb_spec k K); [reflexivity|]. destruct k as [|k]; [lia|]. destruct k; reflexivity.
    - rewrite (col_len gc 0 W) by (cbn in Nc; lia). assert (Q := len_pos gc W). destruct (len gc) as [|m]; [lia|].
      rewrite rsum_S_l. rewrite rsum_zero; [cbn; ring|]. intros k _. destruct k; cbn; ring. }
  split.
  - intros x Hx. rewrite mf_ev, G, mg_one. repeat split.
    + apply Rabs_le. nra.
    + rewrite Rabs_R1. lra.
    + replace (RtoC 1 - RtoC 1)%C with (RtoC 0) by (apply injective_projections; cbn; ring). rewrite Cmod_R, Rabs_R0. lra.
  - intros x Hx. rewrite mf_ev, mg_one. replace (RtoC (3 + / 10 ^ 6 * x) + RtoC 1 - RtoC 4)%C with (RtoC (/ 10 ^ 6 * x)) by (apply injective_projections; cbn; ring).
    rewrite Cmod_R. apply Rabs_le. nra.
Qed.

(** the hypotheses of [C190_jump_refuted] and [C190_complex_refuted] are met: x, and the function i *)
Example C190_jump_example : let f := mkCheb [[0; 1]] eps_default 1 maxLength_default true in let g := {| tco := [Ci]; tva := [Ci]; tre := false |} in
  wf f /\ ncols f = 1%nat /\ (1 <= length (tco g))%nat /\ (tre g = true -> hermitian (tco g)) /\ Rabs (ev f 0 1 - ev f 0 (-1)) / 2 = 1 /\ Im (fst (tcall g 0)) = 1.
Proof.
  cbv zeta. split; [exists 2%nat; split; [lia|]; split; [discriminate|repeat constructor]|]. split; [reflexivity|]. split; [cbn; lia|]. split; [discriminate|]. split.
  - unfold ev, evalT. cbn [coeffs nth length rsum]. rewrite ?T_0, ?T_1. cbn. rewrite Rabs_right; lra.
  - unfold tcall. cbn [tre]. rewrite horner_cmplx_correct by (cbn; lia). cbn [tco]. rewrite evalF_one. reflexivity.
Qed.
