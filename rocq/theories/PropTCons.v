(** C180: adaptive construction of periodic functions from callables. *)
From Coq Require Import Reals ZArith List Arith Bool Lia Lra.
From Coquelicot Require Import Coquelicot.
From Verif Require Import Base ToolsProofs ChebModel ChebChop UconvModel TrigSpec TrigBase TrigModel TrigTrans TrigEval TrigCalc TrigCalc2 TrigModel2 TrigObj TrigObj2 TrigCons TrigConsProofs TrigConsEx FunModel.
Import ListNotations.
Open Scope R_scope.

(** [interpolates c op N]: the N coefficients of the trigonometric interpolant of op on N equispaced points
    (at -1 the average of the values at both ends, which is op(-1) when op is periodic) *)
Definition interpolates (c : list C) (op : R -> C) (N : nat) : Prop :=
  length c = N /\ forall j, (j < N)%nat ->
    evalF c (gridpt N j) = if Nat.eqb j 0 then (RtoC (/ 2) * (op (-1)%R + op 1%R))%C else op (gridpt N j).
Lemma icf_interpolates op N : interpolates (icf op N) op N.
Proof. split; [apply icf_length|]. intros j Hj. apply icf_grid. exact Hj. Qed.

(** sizes of the grids: 8, 16, ..., 4096; at least 32 when a tolerance below one is met *)
Lemma size_32 c e K N : (exists i, N = (8 * 2 ^ i)%nat) -> length c = N -> (e < 1)%R -> chop_ok c e K -> (32 <= N)%nat.
Proof.
  intros [i ->] Lc He [k [Ek [Hk _]]]. destruct (Nat.lt_ge_cases (length c) 17) as [H|H].
  - rewrite standardChop_short in Ek by (rewrite ?map_length; assumption). rewrite map_length in Ek. injection Ek as <-. lia.
  - rewrite Lc in H. destruct i as [|[|i]]; [cbn in H; lia|cbn in H; lia|]. rewrite !Nat.pow_succ_r by lia. assert (Hp := pow2_pos i). lia.
Qed.

(** C180: the construction always terminates with functions that are the trigonometric interpolant of the callable on a grid
    of N = 8*2^i <= 4096 points, either complete (N = 4096, not resolved) or cut to the frequencies below some K, where no
    positive frequency dropped has a coefficient above e^(2/5) (the highest one, N/2, excepted) *)
Theorem C180_construct_partial : forall ops e, ops <> [] -> 0 < e < 1 ->
  exists h fs N K, tconstruct ops e = Some (h, fs) /\ length fs = length ops /\ (32 <= Z.of_nat N <= 4096)%Z /\ (exists i, N = (8 * 2 ^ i)%nat) /\
    forall j, (j < length ops)%nat -> exists c, interpolates c (nth j ops (fun _ => RtoC 0)) N /\
      if h then truncation K (tco (nth j fs dtrig)) c /\
                (forall z, (Z.of_nat K <= z < Z.of_nat (N / 2))%Z -> Cmod (coef c z) <= Rpower e (2 / 5))
      else N = Z.to_nat 4096 /\ tco (nth j fs dtrig) = c.
Proof.
  intros ops e Hne He. destruct (tconstruct_spec ops e Hne) as [h [fs [N [K [E [L [HN [Hi H]]]]]]]].
  exists h, fs, N, K. split; [exact E|]. split; [exact L|].
  assert (Hop : (0 < length ops)%nat) by (destruct ops; [congruence|cbn; lia]).
  split.
  { split; [|apply HN]. assert (H0 := H 0%nat Hop). cbv zeta in H0. destruct h; [|unfold tmaxlen in H0; lia].
    destruct H0 as [_ [Hc _]]. assert (Q := size_32 _ e _ N Hi (icf_length _ _) ltac:(lra) Hc). lia. }
  split; [exact Hi|]. intros j Hj. specialize (H j Hj). cbv zeta in H. exists (icf (nth j ops (fun _ => RtoC 0)) N). split; [apply icf_interpolates|].
  destruct h.
  - destruct H as [T [_ [_ Hs]]]. split; [exact T|]. destruct (Hs He) as [S1 _]. intros z Hz. apply S1. rewrite icf_length. exact Hz.
  - destruct H as [HZ Hc]. split; [|exact Hc]. unfold tmaxlen in HZ. rewrite <- HZ. symmetry. apply Nat2Z.id.
Qed.
Print Assumptions C180_construct_partial.

(** C180: a real function without component in the highest mode of the grid is returned up to N e^(2/5), everywhere *)
Theorem C180_real_partial : forall ops e, ops <> [] -> 0 < e < 1 ->
  exists h fs N, tconstruct ops e = Some (h, fs) /\ length fs = length ops /\ (32 <= Z.of_nat N <= 4096)%Z /\
    forall j, (j < length ops)%nat -> let op := nth j ops (fun _ => RtoC 0) in
      (forall x, -1 <= x <= 1 -> Im (op x) = 0) ->
      forall c, interpolates c op N -> nth 0 c (RtoC 0) = RtoC 0 ->
        forall x, Cmod (fst (tcall (nth j fs dtrig) x) - evalF c x)%C <= INR N * Rpower e (2 / 5).
Proof.
  intros ops e Hne He. destruct (C180_construct_partial ops e Hne He) as [h' [fs' [N' [K' [E' [_ [HN32 _]]]]]]].
  destruct (tconstruct_spec ops e Hne) as [h [fs [N [K [E [L [HN [Hi H]]]]]]]].
  assert (Hop : (0 < length ops)%nat) by (destruct ops; [congruence|cbn; lia]).
  exists h, fs, N. split; [exact E|]. split; [exact L|]. split.
  { split; [|apply HN]. assert (H0 := H 0%nat Hop). cbv zeta in H0. destruct h; [|unfold tmaxlen in H0; lia].
    destruct H0 as [_ [Hc _]]. assert (Q := size_32 _ e _ N Hi (icf_length _ _) ltac:(lra) Hc). lia. }
  intros j Hj op Hre c [Lc Hc] H0 x. specialize (H j Hj). cbv zeta in H. change (fun _ : R => C0) with (fun _ : R => RtoC 0) in H. fold op in H.
  assert (Ec : c = icf op N). { apply grid_unique; [rewrite icf_length; exact Lc|]. rewrite Lc. intros i Hlt. rewrite Hc, icf_grid by exact Hlt. reflexivity. }
  assert (N1 : (1 <= N)%nat) by lia.
  assert (Sy : symm (icf op N)) by (apply icf_symm; [exact N1|exact Hre]). rewrite <- Ec in *.
  assert (Hev : Nat.even (length c) = true) by (rewrite Lc; destruct Hi as [i ->]; apply Nat.even_spec; exists (4 * 2 ^ i)%nat; lia).
  destruct h.
  - destruct H as [T [_ [_ Hs]]]. destruct (Hs He) as [_ S2].
    rewrite tcall_herm; [|destruct T as [LT [P _]]; lia|apply symm_herm; [destruct T as [LT [P _]]; lia|exact (symm_trunc _ _ _ T Sy)]].
    rewrite <- Lc at 1. apply trunc_close with K; [exact Hev|lia|exact T|exact H0|left; apply exp_pos|]. rewrite Lc. exact (S2 Sy).
  - destruct H as [_ Ht]. rewrite tcall_herm; [|rewrite Ht; lia|rewrite Ht; apply symm_herm; [lia|exact Sy]]. rewrite Ht.
    replace (evalF c x - evalF c x)%C with (RtoC 0) by (apply injective_projections; cbn; ring). rewrite Cmod_0. apply Rmult_le_pos; [apply pos_INR|left; apply exp_pos].
Qed.
Print Assumptions C180_real_partial.

(** [trig_poly d f]: f is a trigonometric polynomial of degree at most d with period 2 *)
Definition trig_poly (d : nat) (f : R -> C) : Prop := exists c, length c = (2 * d + 1)%nat /\ forall x, f x = evalF c x.

(** C180: real trigonometric polynomials of degree at most 15, on the domain [a,b], are reproduced up to 4096 e^(2/5);
    the function is called at the mapped point as Fun.__call__ does *)
Theorem C180_low_degree_partial : forall (g : R -> R) e a b d, a < b -> (d <= 15)%nat -> 0 < e < 1 ->
  trig_poly d (fun y => RtoC (g (map_fwd a b y))) ->
  exists h f, tconstruct [fun y => RtoC (g (map_fwd a b y))] e = Some (h, [f]) /\
    forall x, a <= x <= b -> Cmod (fst (tcall f (map_bwd a b x)) - RtoC (g x))%C <= 4096 * Rpower e (2 / 5).
Proof.
  intros g e a b d Hab Hd He Hp. set (op := fun y => RtoC (g (map_fwd a b y))) in *.
  destruct (C180_real_partial [op] e ltac:(discriminate) He) as [h [fs [N [E [L [HN H]]]]]].
  destruct fs as [|f [|]]; [cbn in L; lia| |cbn in L; lia]. exists h, f. split; [exact E|]. intros x Hx.
  specialize (H 0%nat ltac:(cbn; lia)). cbv zeta in H. cbn [nth] in H.
  destruct (icf_tpoly op d N Hp ltac:(lia)) as [H1 H2].
  assert (H3 : nth 0 (icf op N) (RtoC 0) = RtoC 0).
  { destruct (Nat.even N) eqn:Hev.
    - assert (Q := H2 (Z.of_nat (N / 2))). assert (A := even_half _ Hev). rewrite coef_top in Q by (rewrite ?icf_length; try exact Hev; lia).
      specialize (Q ltac:(lia)). assert (Z2 : RtoC (/ 2) <> RtoC 0) by (apply RtoC_neq; lra).
      destruct (Ceq_dec (nth 0 (icf op N) (RtoC 0)) (RtoC 0)) as [|Hne]; [assumption|]. exfalso. exact (Cmult_neq_0 _ _ Z2 Hne Q).
    - assert (Ho : Nat.odd N = true) by (rewrite <- Nat.negb_even, Hev; reflexivity). assert (A := odd_half _ Ho). assert (Q := H2 (- Z.of_nat (N / 2))%Z ltac:(lia)).
      rewrite coef_odd in Q by (rewrite ?icf_length; try exact Ho; lia). rewrite icf_length in Q. replace (Z.to_nat (- Z.of_nat (N / 2) + Z.of_nat (N / 2))) with 0%nat in Q by lia. exact Q. }
  specialize (H ltac:(intros y _; reflexivity) (icf op N) (icf_interpolates op N) H3 (map_bwd a b x)). rewrite H1 in H.
  assert (Eg : op (map_bwd a b x) = RtoC (g x)). { unfold op. do 2 f_equal. unfold map_fwd, map_bwd. field. lra. }
  rewrite Eg in H. eapply Rle_trans; [exact H|]. apply Rmult_le_compat_r; [left; apply exp_pos|]. rewrite INR_IZR_INZ. apply IZR_le. lia.
Qed.
Print Assumptions C180_low_degree_partial.
(** the hypotheses are met: cos(pi (x-1)) + 2 on [0,2] *)
Theorem C180_low_degree_example : trig_poly 1 (fun y => RtoC ((fun x => cos (PI * (x - 1)) + 2)%R (map_fwd 0 2 y))).
Proof.
  exists [RtoC (/ 2); RtoC 2; RtoC (/ 2)]. split; [reflexivity|]. intros y. unfold evalF, mode, freq. cbn [length csum nth Nat.even andb]. change (3 / 2)%nat with 1%nat.
  change (Z.of_nat 0 - Z.of_nat 1)%Z with (-1)%Z. change (Z.of_nat 1 - Z.of_nat 1)%Z with 0%Z. change (Z.of_nat 2 - Z.of_nat 1)%Z with 1%Z.
  unfold map_fwd. replace (PI * ((2 * (y + 1) + 0 * (1 - y)) / 2 - 1))%R with (PI * y)%R by field.
  replace (PI * -1 * y)%R with (- (PI * y))%R by ring. replace (PI * 0 * y)%R with 0%R by ring. replace (PI * 1 * y)%R with (PI * y)%R by ring.
  unfold cis. rewrite cos_neg, sin_neg, cos_0, sin_0. apply injective_projections; cbn; field.
Qed.

(** C180: for every tolerance, cos(16 pi x), exp(-6 i pi x) and a complex function that is real at the trial point are returned as zero, and reported as resolved *)
Theorem C180_highest_mode_refuted : forall e, 0 < e < 1 ->
  exists f, tconstruct [fun x => RtoC (cos (16 * PI * x))] e = Some (true, [f]) /\ forall x, fst (tcall f x) = RtoC 0.
Proof. exact cos16_lost. Qed.
Print Assumptions C180_highest_mode_refuted.
Theorem C180_negative_frequency_refuted : forall e, 0 < e < 1 ->
  exists f, tconstruct [fun x => cis (- (6 * PI * x))] e = Some (true, [f]) /\ forall x, fst (tcall f x) = RtoC 0.
Proof. exact expm6_lost. Qed.
Print Assumptions C180_negative_frequency_refuted.
Theorem C180_real_at_one_point_refuted : forall e, 0 < e < 1 ->
  exists f, tconstruct [fun x => cis (PI * (x - (2 * (376989633393435 / 10 ^ 15) - 1)))] e = Some (true, [f]) /\ forall x, fst (tcall f x) = RtoC 0.
Proof. exact flag_lost. Qed.
Print Assumptions C180_real_at_one_point_refuted.
