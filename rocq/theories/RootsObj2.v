(** Root finding on functions: soundness, sign changes, extrema. *)
From Coq Require Import Reals ZArith List Arith Bool Lra Lia.
From Coquelicot Require Import Coquelicot.
From Verif Require Import Base ChebSpec ChebMath ChebModel ChebEval ChebDct ChebCalc ChebChop ChebObj TrigSpec TrigBase RootsSpec RootsModel RootsColl RootsProofs RootsObj ToolsProofs.
Import ListNotations.
Open Scope R_scope.

Lemma evalTC_scl v c z : v <> 0 -> (evalTC (scl v c) z = RtoC 0 <-> evalTC c z = RtoC 0).
Proof.
  intros Hv. assert (E : evalTC (scl v c) z = (RtoC (/ v) * evalTC c z)%C).
  { unfold evalTC. rewrite scl_length, <- csum_scal. apply csum_ext. intros k Hk. rewrite scl_nth. unfold Rdiv. rewrite RtoC_mult. ring. }
  rewrite E. split; intros H.
  - replace (evalTC c z) with (RtoC v * (RtoC (/ v) * evalTC c z))%C; [rewrite H; ring|]. rewrite Cmult_assoc, <- RtoC_mult. rewrite Rinv_r by exact Hv. ring.
  - rewrite H. ring.
Qed.
Section sound.
  Context (eigs : nat -> (nat -> nat -> R) -> (nat -> nat -> R) -> list C).
  Context (HE : forall c, (3 <= length c <= 50)%nat -> nth (length c - 1) c 0 <> 0 -> eig_ok eigs c).
  Lemma roots_main_sound fuel htol eps c r y : 0 < htol -> 0 <= eps -> (2 <= length c <= 50)%nat -> roots_main eigs (S fuel) htol eps c = Some r -> In y r ->
    exists q, (2 <= length q <= length c)%nat /\ nth (length q - 1) q 0 <> 0 /\ near_root htol q y /\ ((3 <= length q)%nat -> Rabs y <= 1 + htol) /\
      forall x, -1 <= x <= 1 -> Rabs (evalT c x - evalT q x) <= INR (length c) * (5 * eps * norm1 c).
  Proof.
    intros Hh He HL HR Hy. rewrite roots_main_eq in HR. destruct (trunc_len eps c) as [n|] eqn:ET; [|discriminate]. cbv zeta in HR.
    destruct (trunc_len_some eps c n ET ltac:(lia) He) as (Hn & Hnz & _). set (q := firstn n c) in *.
    assert (Lq : length q = n) by (apply firstn_length_le; lia).
    assert (HLq : nth (length q - 1) q 0 <> 0) by (unfold q at 2; rewrite Lq, nth_firstn_lt by lia; exact Hnz).
    assert (DQ : forall x, -1 <= x <= 1 -> Rabs (evalT c x - evalT q x) <= INR (length c) * (5 * eps * norm1 c)).
    { intros x Hx. destruct (trunc_firstn_bound eps c n x ET ltac:(lia) He Hx) as [_ B]. exact B. }
    destruct (Nat.eqb_spec n 0); [lia|]. destruct (Nat.eqb_spec n 1) as [E1|N1].
    { exfalso. assert (E : trunc_c n c = c) by (unfold trunc_c; destruct (Nat.ltb_spec 1 n); [lia|reflexivity]). rewrite E in HR.
      rewrite E1 in Hnz. cbn [Nat.sub] in Hnz. rewrite Reqb_false_ne in HR by exact Hnz. injection HR as <-. exact Hy. }
    assert (EC : trunc_c n c = q).
    { unfold trunc_c, q. destruct (Nat.ltb_spec 1 n); [|lia]. cbn [andb]. destruct (Nat.ltb_spec n (length c)); [reflexivity|]. rewrite firstn_all2 by lia. reflexivity. }
    rewrite EC in HR. exists q. split; [lia|]. split; [exact HLq|].
    destruct (Nat.eqb_spec n 2) as [E2|N2].
    { injection HR as <-. destruct Hy as [<-|[]]. rewrite Lq, E2 in HLq. cbn [Nat.sub] in HLq. split; [|split; [intros; lia|exact DQ]].
      exists (RtoC (- nth 0 q 0 / nth 1 q 0)). split; [|split].
      - rewrite evalTC_real. unfold evalT. rewrite Lq, E2. cbn [rsum T]. f_equal. field. exact HLq.
      - cbn. rewrite Rabs_R0. exact Hh.
      - cbn. rewrite Rminus_diag_eq by reflexivity. rewrite Rabs_R0. lra. }
    destruct (Nat.leb_spec n 50) as [L50|G50]; [|lia]. injection HR as <-.
    assert (HE' := HE q ltac:(lia) HLq). unfold eig_ok in HE'. rewrite Lq in HE'.
    destruct (clean_sound _ _ _ Hy) as (z & Iz & I1 & I2 & I3). apply HE' in Iz. rewrite <- Lq in Iz.
    apply colleague in Iz; [|lia|exact HLq]. split; [|split; [|exact DQ]].
    - exists z. split; [exact Iz|]. split; [exact I1|]. clear - I2 I3 Hh. revert I2 I3. unfold Rabs. repeat destruct (Rcase_abs _); intros; destruct I3 as [|[|]]; lra.
    - intros _. clear - I2 I3 Hh. revert I2 I3. unfold Rabs. repeat destruct (Rcase_abs _); intros; destruct I3 as [|[|]]; lra.
  Qed.
  Lemma roots_scalar_sound fuel e c r y k : 0 < e -> (2 <= length c <= 50)%nat -> nth k c 0 <> 0 -> roots_scalar eigs (S fuel) e c = Some r -> In y r ->
    exists q, (2 <= length q <= length c)%nat /\ nth (length q - 1) q 0 <> 0 /\ near_root (100 * e) q y /\ ((3 <= length q)%nat -> Rabs y <= 1 + 100 * e) /\
      forall x, -1 <= x <= 1 -> Rabs (evalT c x - evalT q x) <= INR (length c) * (5 * eps0 * norm1 c).
  Proof.
    intros He HL Hk HR Hy. rewrite (roots_scalar_main _ _ _ _ k Hk) in HR by lia. assert (Hv := vscale_pos c k Hk). set (v := vscale_col c) in *.
    assert (Hi := Rinv_0_lt_compat v Hv).
    assert (Hc : c = scl (/ v) (scl v c)).
    { unfold scl. rewrite map_map. symmetry. rewrite <- (map_id c) at 2. apply map_ext. intros a. field. lra. }
    destruct (roots_main_sound fuel (100 * e) eps0 (scl v c) r y ltac:(lra) ltac:(unfold eps0; lra) ltac:(rewrite scl_length; lia) HR Hy) as (q & L & N & NR & B & D).
    rewrite scl_length in L, D. exists (scl (/ v) q). rewrite scl_length. split; [exact L|]. split; [|split; [|split; [exact B|]]].
    - rewrite scl_nth. unfold Rdiv. rewrite Rinv_inv. apply Rmult_integral_contrapositive. split; [exact N|lra].
    - destruct NR as (z & Z1 & Z2 & Z3). exists z. split; [|split; assumption]. apply evalTC_scl; [lra|exact Z1].
    - intros x Hx. specialize (D x Hx). rewrite norm1_scl, evalT_scl in D by exact Hv. rewrite evalT_scl. unfold Rdiv in *. rewrite Rinv_inv.
      replace (evalT c x - evalT q x * v) with ((evalT c x * / v - evalT q x) * v) by (field; lra). rewrite Rabs_mult, (Rabs_pos_eq v) by lra.
      apply Rmult_le_compat_r with (r := v) in D; [|lra]. eapply Rle_trans; [exact D|]. right. field. lra.
  Qed.
  Lemma roots_scalar_sign N fuel e c r S k : 0 < e -> (2 <= length c <= N)%nat -> nth k c 0 <> 0 -> roots_scalar eigs fuel e c = Some r ->
    (forall x, -1 <= x <= 1 -> Rabs (evalT c x) <= S) ->
    forall x1 x2, -1 <= x1 <= x2 -> x2 <= 1 -> evalT c x1 * evalT c x2 < 0 ->
      (forall p, p = x1 \/ p = x2 \/ (In p (split_pts fuel) /\ x1 < p < x2) -> S * ((1 + 10 * INR N ^ 2 * eps0) ^ fuel - 1) < Rabs (evalT c p)) ->
      exists y, In y r /\ x1 <= y <= x2.
  Proof.
    intros He HL Hk HR HS x1 x2 H1 H2 Hp Hm. rewrite (roots_scalar_main _ _ _ _ k Hk) in HR by lia. assert (Hv := vscale_pos c k Hk). set (v := vscale_col c) in *.
    assert (Hi := Rinv_0_lt_compat v Hv).
    apply (roots_main_sign eigs HE N fuel (100 * e) eps0 (scl v c) r (S / v)).
    - lra.
    - unfold eps0. lra.
    - rewrite scl_length. lia.
    - intros x Hx. rewrite evalT_scl. unfold Rdiv. rewrite Rabs_mult, (Rabs_pos_eq (/ v)) by lra. apply Rmult_le_compat_r; [lra|]. apply HS. exact Hx.
    - exact HR.
    - exact H1.
    - exact H2.
    - rewrite !evalT_scl. unfold Rdiv. replace (evalT c x1 * / v * (evalT c x2 * / v)) with ((evalT c x1 * evalT c x2) * (/ v * / v)) by ring.
      assert (0 < / v * / v) by (apply Rmult_lt_0_compat; lra). nra.
    - intros p Hpp. rewrite evalT_scl. unfold Rdiv. rewrite Rabs_mult, (Rabs_pos_eq (/ v)) by lra.
      replace (S * / v * ((1 + 10 * INR N ^ 2 * eps0) ^ fuel - 1)) with (S * ((1 + 10 * INR N ^ 2 * eps0) ^ fuel - 1) * / v) by ring.
      apply Rmult_lt_compat_r; [lra|]. apply Hm. exact Hpp.
  Qed.
End sound.

(** ** when everything after the linear term is negligible *)
Lemma roots_main_linear eigs fuel htol eps c : 0 <= eps -> (2 <= length c)%nat ->
  5 * eps * norm1 c < Rabs (nth 1 c 0) -> (forall k, (2 <= k)%nat -> Rabs (nth k c 0) <= 5 * eps * norm1 c) ->
  roots_main eigs (S fuel) htol eps c = Some [- nth 0 c 0 / nth 1 c 0].
Proof.
  intros He LK HT HZ. rewrite roots_main_eq. assert (N := norm1_pos c).
  assert (TL : trunc_len eps c = Some 2%nat).
  { unfold trunc_len. destruct (Nat.ltb_spec 1 (length c)); [|lia]. assert (S := last_above_spec (5 * eps * norm1 c) c).
    destruct (last_above _ c) as [i|].
    - destruct S as (S1 & S2 & S3). cbn. f_equal. destruct (le_lt_dec 2 i) as [Hi|Hi].
      + specialize (HZ i Hi). lra.
      + destruct (Nat.eq_dec i 1) as [->|Ne]; [lia|]. exfalso. specialize (S3 1%nat ltac:(lia)). lra.
    - exfalso. specialize (S 1%nat ltac:(lia)). lra. }
  rewrite TL. cbv zeta. cbn [Nat.eqb].
  assert (EC : trunc_c 2 c = firstn 2 c).
  { unfold trunc_c. destruct (Nat.ltb_spec 1 2); [|lia]. cbn [andb]. destruct (Nat.ltb_spec 2 (length c)); [reflexivity|]. rewrite firstn_all2 by lia. reflexivity. }
  rewrite EC. rewrite !nth_firstn_lt by lia. reflexivity.
Qed.
Lemma roots_scalar_linear eigs fuel e c : (2 <= length c)%nat ->
  5 * eps0 * norm1 c < Rabs (nth 1 c 0) -> (forall k, (2 <= k)%nat -> Rabs (nth k c 0) <= 5 * eps0 * norm1 c) ->
  roots_scalar eigs (S fuel) e c = Some [- nth 0 c 0 / nth 1 c 0].
Proof.
  intros L HT HZ. assert (E0 : 0 < eps0) by (unfold eps0; lra). assert (NP := norm1_pos c).
  assert (Hn : nth 1 c 0 <> 0) by (intros Z; rewrite Z, Rabs_R0 in HT; nra).
  assert (Hv := vscale_pos c _ Hn). rewrite (roots_scalar_main _ _ _ _ _ Hn) by lia. set (v := vscale_col c) in *. assert (Hi := Rinv_0_lt_compat v Hv).
  rewrite roots_main_linear.
  - rewrite !scl_nth. do 2 f_equal. field. split; [exact Hn|lra].
  - lra.
  - rewrite scl_length. exact L.
  - rewrite norm1_scl, scl_nth by exact Hv. unfold Rdiv. rewrite Rabs_mult, (Rabs_pos_eq (/ v)) by lra. rewrite <- Rmult_assoc. apply Rmult_lt_compat_r; assumption.
  - intros k Hk. rewrite norm1_scl, scl_nth by exact Hv. unfold Rdiv. rewrite Rabs_mult, (Rabs_pos_eq (/ v)) by lra. rewrite <- Rmult_assoc. apply Rmult_le_compat_r; [lra|]. apply HZ. exact Hk.
Qed.
