(** Stability of the adaptive Fourier construction: what is built from a function close to a trigonometric polynomial. *)
From Coq Require Import Reals ZArith List Arith Bool Lra Lia.
From Coquelicot Require Import Coquelicot.
From Verif Require Import Base ChebModel TrigSpec TrigModel TrigModel2 TrigBase TrigTrans TrigEval TrigCalc TrigCalc2 TrigObj TrigObj2 TrigCons TrigConsProofs PropTCons.
Import ListNotations.
Open Scope R_scope.

(** a top coefficient at most D, the others dropped at most B *)
Lemma trunc_close2 K r c B D x : Nat.even (length c) = true -> (2 <= length c)%nat -> truncation K r c -> Cmod (nth 0 c C0) <= D -> 0 <= B ->
  (forall z, (Z.of_nat K <= Z.abs z < Z.of_nat (length c / 2))%Z -> Cmod (coef c z) <= B) -> Cmod (evalF r x - evalF c x)%C <= INR (length c) * B + D.
Proof.
  intros Hev Hn T H0 HB H. assert (H2 := even_half _ Hev). set (m := (length c / 2)%nat) in *.
  assert (D0 : 0 <= D) by (eapply Rle_trans; [apply Cmod_ge_0|exact H0]).
  assert (Top : Cmod (RtoC (/ 2) * nth 0 c C0)%C <= D / 2). { rewrite Cmod_mult, Cmod_R, Rabs_right by lra. lra. }
  eapply Rle_trans; [apply (truncation_error K r c x ltac:(lia) T)|]. fold m.
  replace (2 * m + 1)%nat with (1 + (length c - 1 + 1))%nat by lia. rewrite !rsum_app. cbn [rsum].
  apply Rle_trans with ((0 + D / 2) + (rsum (length c - 1) (fun _ => B) + (0 + D / 2))).
  - repeat apply Rplus_le_compat; try lra.
    + destruct (Z.leb_spec (Z.of_nat K) (Z.abs (Z.of_nat 0 - Z.of_nat m))) as [Hz|Hz]; [|lra]. rewrite coef_top by (try exact Hev; fold m; lia). exact Top.
    + apply rsum_le. intros k Hk. destruct (Z.leb_spec (Z.of_nat K) (Z.abs (Z.of_nat (1 + k) - Z.of_nat m))) as [Hz|Hz]; [|exact HB]. apply H. lia.
    + destruct (Z.leb_spec (Z.of_nat K) (Z.abs (Z.of_nat (1 + (length c - 1 + 0)) - Z.of_nat m))) as [Hz|Hz]; [|lra]. rewrite coef_top by (try exact Hev; fold m; lia). exact Top.
  - rewrite rsum_const. assert (INR (length c - 1) <= INR (length c)) by (apply le_INR; lia). assert (INR (length c - 1) * B <= INR (length c) * B) by (apply Rmult_le_compat_r; assumption). lra.
Qed.

Lemma near_low (op p : R -> C) e d D : (d <= 15)%nat -> 0 < e < 1 -> trig_poly d p ->
  (forall x, -1 <= x <= 1 -> Im (op x) = 0) -> (forall x, -1 <= x <= 1 -> Cmod (op x - p x)%C <= D) ->
  exists h f, tconstruct [op] e = Some (h, [f]) /\ hermitian (tco f) /\ (1 <= length (tco f))%nat /\
    forall x, Cmod (fst (tcall f x) - p x)%C <= 4096 * (Rpower e (2 / 5) + 2 * D).
Proof.
  intros Hd He Hp Hre Hc.
  destruct (tconstruct_spec [op] e ltac:(discriminate)) as [h [fs [N [K [E [L [HN [Hi H]]]]]]]].
  assert (H0 := H 0%nat ltac:(cbn; lia)). cbv zeta in H0. cbn [nth] in H0. destruct fs as [|f [|]]; [cbn in L; lia| |cbn in L; lia]. cbn [nth] in H0.
  exists h, f. split; [exact E|].
  assert (N32 : (32 <= N)%nat).
  { destruct h; [|unfold tmaxlen in H0; lia]. destruct H0 as [_ [Hk _]]. assert (Q := size_32 _ e _ N Hi (icf_length _ _) ltac:(lra) Hk). lia. }
  assert (Hev : Nat.even N = true) by (destruct Hi as [i ->]; apply Nat.even_spec; exists (4 * 2 ^ i)%nat; lia). assert (A := even_half _ Hev).
  destruct (icf_tpoly p d N Hp ltac:(lia)) as [H1 H2]. assert (Lc := icf_length op N). assert (Lp := icf_length p N).
  assert (Sy : symm (icf op N)) by (apply icf_symm; [lia|exact Hre]).
  assert (He2 : 0 < Rpower e (2 / 5)) by apply exp_pos.
  assert (D0 : 0 <= D) by (eapply Rle_trans; [apply Cmod_ge_0|apply (Hc 0); lra]).
  assert (NN : INR N <= 4096) by (rewrite INR_IZR_INZ; apply IZR_le; unfold tmaxlen in HN; lia).
  assert (N0 : 32 <= INR N) by (rewrite INR_IZR_INZ; apply IZR_le; lia).
  set (q := zipc (fun u v => RtoC 1 * u + RtoC (-1) * v)%C (icf op N) (icf p N)).
  assert (Lq : length q = N) by (unfold q, zipc; rewrite mk_length; exact Lc).
  assert (Eq : forall x, evalF q x = (evalF (icf op N) x - p x)%C).
  { intros x. rewrite <- (H1 x). unfold q. rewrite evalF_lin by lia. apply injective_projections; cbn; ring. }
  assert (Bq : forall k, (k < N)%nat -> Cmod (nth k q C0) <= D).
  { intros k Hk. apply coef_bound; [|rewrite Lq; exact Hk]. rewrite Lq. intros j Hj. rewrite Eq, icf_grid by exact Hj.
    destruct (Nat.eqb_spec j 0) as [->|Hj0].
    - assert (P0 : p (gridpt N 0) = p (-1)) by (f_equal; unfold gridpt; cbn; field; lra).
      assert (P1 : p 1 = p (-1)). { destruct Hp as [c [Lc' Hcc]]. rewrite !Hcc. rewrite evalF_period by lia. reflexivity. }
      rewrite P0. replace (RtoC (/ 2) * (op (-1) + op 1) - p (-1))%C with (RtoC (/ 2) * ((op (-1) - p (-1)) + (op 1 - p 1)))%C by (rewrite P1; apply injective_projections; cbn; field).
      rewrite Cmod_mult, Cmod_R, Rabs_right by lra. assert (T := Cmod_triangle (op (-1)%R - p (-1)%R)%C (op 1%R - p 1%R)%C). assert (Q1 := Hc (-1) ltac:(lra)). assert (Q2 := Hc 1 ltac:(lra)). lra.
    - apply Hc. unfold gridpt. assert (INR j <= INR N)%R by (apply le_INR; lia). assert (P := pos_INR j).
      assert (0 <= INR j / INR N <= 1). { split; [apply Rmult_le_pos; [exact P|left; apply Rinv_0_lt_compat; lra]|]. apply Rmult_le_reg_r with (INR N); [lra|]. unfold Rdiv. rewrite Rmult_assoc, Rinv_l by lra. lra. }
      unfold Rdiv in *. lra. }
  assert (Fq : forall x, Cmod (evalF (icf op N) x - p x)%C <= INR N * D).
  { intros x. rewrite <- Eq. unfold evalF. eapply Rle_trans; [apply csum_mod|]. rewrite <- rsum_const, Lq. apply rsum_le. intros k Hk. rewrite Cmod_mult.
    assert (Q := mode_mod N k x). assert (Q1 := Bq k Hk). assert (Q2 := Cmod_ge_0 (mode N k x)). assert (Q3 := Cmod_ge_0 (nth k q C0)). fold C0. rewrite <- (Rmult_1_r D). apply Rmult_le_compat; assumption. }
  assert (Pz : nth 0 (icf p N) C0 = C0).
  { assert (Q := H2 (Z.of_nat (N / 2))). rewrite coef_top in Q by (rewrite ?Lp; try exact Hev; lia). specialize (Q ltac:(lia)).
    assert (Z2 : RtoC (/ 2) <> RtoC 0) by (apply RtoC_neq; lra). fold C0 in Q. destruct (Ceq_dec (nth 0 (icf p N) C0) C0) as [|Hne]; [assumption|]. exfalso. exact (Cmult_neq_0 _ _ Z2 Hne Q). }
  assert (Top : Cmod (nth 0 (icf op N) C0) <= D).
  { assert (Q := Bq 0%nat ltac:(lia)). unfold q, zipc in Q. rewrite nth_mk in Q by lia. rewrite Pz in Q.
    replace (RtoC 1 * nth 0 (icf op N) C0 + RtoC (-1) * C0)%C with (nth 0 (icf op N) C0) in Q by (apply injective_projections; cbn; ring). exact Q. }
  destruct h.
  - destruct H0 as [T [_ [_ Hs]]]. destruct (Hs He) as [_ S2].
    assert (L1 : (1 <= length (tco f))%nat) by (destruct T as [LT [P _]]; lia).
    assert (HH : hermitian (tco f)) by (apply symm_herm; [exact L1|exact (symm_trunc _ _ _ T Sy)]).
    split; [exact HH|]. split; [exact L1|]. intros x. rewrite tcall_herm by assumption.
    assert (TC := trunc_close2 K (tco f) (icf op N) (Rpower e (2 / 5)) D x ltac:(now rewrite Lc) ltac:(lia) T Top ltac:(lra) ltac:(rewrite Lc; exact (S2 Sy))). rewrite Lc in TC.
    replace (evalF (tco f) x - p x)%C with ((evalF (tco f) x - evalF (icf op N) x) + (evalF (icf op N) x - p x))%C by (apply injective_projections; cbn; ring).
    eapply Rle_trans; [apply Cmod_triangle|]. assert (F := Fq x).
    assert (INR N * Rpower e (2 / 5) <= 4096 * Rpower e (2 / 5)) by (apply Rmult_le_compat_r; lra). assert (INR N * D <= 4096 * D) by (apply Rmult_le_compat_r; lra). lra.
  - destruct H0 as [_ Ht]. assert (HH : hermitian (tco f)) by (rewrite Ht; apply symm_herm; [lia|exact Sy]).
    split; [exact HH|]. split; [rewrite Ht; lia|]. intros x. rewrite tcall_herm; [|rewrite Ht; lia|assumption]. rewrite Ht. assert (F := Fq x).
    assert (INR N * D <= 4096 * D) by (apply Rmult_le_compat_r; lra). lra.
Qed.
