(** Root finding on functions: scaling, simplification, domains. *)
From Coq Require Import Reals ZArith List Arith Bool Lra Lia.
From Coquelicot Require Import Coquelicot.
From Verif Require Import CosSums Base ChebSpec ChebMath ChebModel ChebEval ChebDct ChebCalc ChebChop ChebObj TrigSpec TrigBase RootsSpec RootsModel RootsColl RootsProofs ToolsProofs.
Import ListNotations.
Open Scope R_scope.

(** ** scaling *)
Definition scl (v : R) (c : list R) : list R := map (fun x => x / v) c.
Lemma scl_length v c : length (scl v c) = length c. Proof. apply map_length. Qed.
Lemma scl_nth v c k : nth k (scl v c) 0 = nth k c 0 / v.
Proof.
  unfold scl. destruct (le_lt_dec (length c) k) as [G|G].
  - rewrite !nth_overflow by (rewrite ?map_length; exact G). unfold Rdiv. ring.
  - rewrite (nth_indep _ 0 (0 / v)) by (rewrite map_length; exact G). rewrite (map_nth (fun x => x / v)). reflexivity.
Qed.
Lemma evalT_scl v c x : evalT (scl v c) x = evalT c x / v.
Proof. unfold evalT. rewrite scl_length. unfold Rdiv. rewrite Rmult_comm, <- rsum_scal. apply rsum_ext. intros k Hk. rewrite scl_nth. unfold Rdiv. ring. Qed.
Lemma evalT_scl0 v c x : v <> 0 -> (evalT (scl v c) x = 0 <-> evalT c x = 0).
Proof.
  intros Hv. rewrite evalT_scl. split; intros H.
  - apply Rmult_eq_reg_r with (/ v); [|apply Rinv_neq_0_compat; exact Hv]. unfold Rdiv in H. rewrite H. ring.
  - rewrite H. unfold Rdiv. ring.
Qed.
Lemma norm1_scl v c : 0 < v -> norm1 (scl v c) = norm1 c / v.
Proof.
  intros Hv. unfold norm1. rewrite scl_length. unfold Rdiv. rewrite Rmult_comm, <- rsum_scal. apply rsum_ext. intros k Hk. rewrite scl_nth.
  unfold Rdiv. rewrite Rabs_mult, (Rabs_pos_eq (/ v)) by (left; apply Rinv_0_lt_compat; exact Hv). ring.
Qed.
Lemma fmax_abs_scl v c : 0 < v -> fmax_abs (scl v c) = fmax_abs c / v.
Proof.
  intros Hv. assert (Hi := Rinv_0_lt_compat v Hv). induction c as [|a c IH]; cbn; [unfold Rdiv; ring|]. fold (scl v c). unfold fmax_abs in IH |- *. cbn [fold_right].
  rewrite IH. unfold Rdiv. rewrite Rabs_mult, (Rabs_pos_eq (/ v)) by lra. unfold Rmax. repeat destruct (Rle_dec _ _); try reflexivity; exfalso; nra.
Qed.
Lemma cscaled_scl v c : 0 < v -> fmax_abs c <> 0 -> cscaled (scl v c) = cscaled c.
Proof.
  intros Hv Hm. unfold cscaled. rewrite fmax_abs_scl by exact Hv. unfold scl. rewrite map_map. apply map_ext. intros a. field. split; lra.
Qed.
Definition pencilA (n : nat) (cs : list R) (i j : nat) : R :=
  if Nat.eqb j 0 then - / 2 * nth (n - 2 - i) cs 0 + (if Nat.eqb (n - 2 - i) (n - 3) then / 2 * nth (n - 1) cs 0 else 0)
  else if Nat.eqb i (n - 3) && Nat.eqb j (n - 2) then 1
  else if Nat.eqb j (i + 1) && Nat.ltb j (n - 2) then / 2
  else if Nat.eqb i (j + 1) then / 2 else 0.
Definition pencilB (n : nat) (cs : list R) (i j : nat) : R := if Nat.eqb i j then (if Nat.eqb i 0 then nth (n - 1) cs 0 else 1) else 0.
Lemma collA_pencil c : collA c = pencilA (length c) (cscaled c). Proof. reflexivity. Qed.
Lemma collB_pencil c : collB c = pencilB (length c) (cscaled c). Proof. reflexivity. Qed.
Lemma fmax_abs_nz c k : nth k c 0 <> 0 -> 0 < fmax_abs c.
Proof. intros H. assert (A := fmax_abs_ge c k). assert (B := Rabs_pos_lt _ H). lra. Qed.
Lemma eig_ok_scl eigs v c k : 0 < v -> nth k c 0 <> 0 -> eig_ok eigs c -> eig_ok eigs (scl v c).
Proof.
  intros Hv Hk H. unfold eig_ok in *. rewrite collA_pencil, collB_pencil in *. rewrite scl_length, cscaled_scl; [exact H|exact Hv|].
  apply Rgt_not_eq. apply (fmax_abs_nz c k Hk).
Qed.
Lemma firstn_scl v n c : firstn n (scl v c) = scl v (firstn n c).
Proof. unfold scl. apply firstn_map. Qed.
Lemma fmax_abs_zero l k : fmax_abs l = 0 -> nth k l 0 = 0.
Proof. intros H. assert (A := fmax_abs_ge l k). rewrite H in A. assert (B := Rabs_pos (nth k l 0)). destruct (Req_dec (nth k l 0) 0) as [E|E]; [exact E|]. assert (C := Rabs_pos_lt _ E). lra. Qed.
Lemma fmax_abs_nonneg l : 0 <= fmax_abs l.
Proof. destruct l as [|a l]; [cbn; lra|]. unfold fmax_abs. cbn [fold_right]. apply Rle_trans with (Rabs a); [apply Rabs_pos|apply Rmax_l]. Qed.
Lemma vscale_pos c k : nth k c 0 <> 0 -> 0 < vscale_col c.
Proof.
  intros Hk. assert (L : (k < length c)%nat) by (destruct (le_lt_dec (length c) k) as [G|G]; [rewrite nth_overflow in Hk by exact G; lra|exact G]).
  unfold vscale_col. destruct (Nat.eqb_spec (length c) 1) as [E|E].
  - assert (k = 0)%nat by lia. subst k. apply Rabs_pos_lt. exact Hk.
  - destruct (fmax_abs_nonneg (polyval1 c)) as [P|P]; [exact P|]. exfalso. apply Hk. rewrite <- (polyfit_polyval c) by lia.
    rewrite (polyfit1_nth (polyval1 c) (length c - 1)) by (rewrite ?polyval1_length; lia).
    rewrite (trap_ext _ _ (fun _ => 0)).
    + unfold trap. rewrite (rsum_ext _ _ (fun _ => 0)) by (intros i Hi; lra). rewrite rsum_0. ring.
    + intros j Hj. rewrite fmax_abs_zero by (symmetry; exact P). ring.
Qed.
Lemma Reqb_false_ne a b : a <> b -> Reqb a b = false.
Proof. intros H. unfold Reqb. destruct (Req_EM_T a b); [contradiction|reflexivity]. Qed.

(** ** simplification keeps columns with a coefficient that is not negligible *)
Lemma simplify_keeps f n j K : rect n (coeffs f) -> 0 < eps f < 1 -> (j < length (coeffs f))%nat -> (1 <= K)%nat ->
  (ishappy f = true -> Rpower (eps f) (2 / 5) < Rabs (nth (K - 1) (nth j (coeffs f) []) 0)) ->
  (forall k, (K <= k)%nat -> nth k (nth j (coeffs f) []) 0 = 0) ->
  exists g, cheb_simplify f = Some g /\ eps g = eps f /\ length (coeffs g) = length (coeffs f) /\
    (exists n', rect n' (coeffs g) /\ (K <= n' \/ n' = n)%nat) /\
    forall k, nth k (nth j (coeffs g) []) 0 = nth k (nth j (coeffs f) []) 0.
Proof.
  intros HR He Hj HK Hl Hz. unfold cheb_simplify. destruct (ishappy f) eqn:Hp.
  - destruct (simplify_coeffs_spec n (coeffs f) (eps f) HR) as (K' & RK & E & D). rewrite E. cbn [option_map]. eexists. split; [reflexivity|]. cbn [eps coeffs].
    specialize (D He j). assert (KK : (K <= K')%nat).
    { destruct (le_lt_dec K K') as [G|G]; [exact G|]. specialize (D (K - 1)%nat ltac:(lia)). specialize (Hl eq_refl). lra. }
    split; [reflexivity|]. split; [unfold prolong; apply map_length|]. split.
    + exists K'. split; [apply rect_prolong with n; [exact HR|lia]|left; exact KK].
    + intros k. rewrite nth_prolong by exact Hj. assert (Ln : length (nth j (coeffs f) []) = n) by (apply rect_nth; assumption).
      unfold prolong1. rewrite Ln. destruct (Z.eqb_spec (Z.of_nat K' - Z.of_nat n) 0) as [E0|N0]; [reflexivity|].
      destruct (Z.ltb_spec 0 (Z.of_nat K' - Z.of_nat n)) as [G|G].
      * rewrite Nat2Z.id. destruct (le_lt_dec K' k) as [G2|G2].
        -- rewrite !nth_overflow by (rewrite ?mk_length; lia). reflexivity.
        -- rewrite nth_mk by exact G2. destruct (Nat.ltb_spec k n); [reflexivity|]. rewrite nth_overflow by lia. reflexivity.
      * rewrite Z.max_l by lia. rewrite Nat2Z.id. destruct (le_lt_dec K' k) as [G2|G2].
        -- rewrite nth_overflow by (rewrite firstn_length; lia). rewrite Hz by lia. reflexivity.
        -- rewrite nth_firstn_lt by exact G2. reflexivity.
  - exists f. repeat match goal with |- _ /\ _ => split end; try reflexivity. exists n. split; [exact HR|right; reflexivity].
Qed.
Lemma evalT_same c d x : (forall k, nth k c 0 = nth k d 0) -> evalT c x = evalT d x.
Proof.
  intros H. rewrite (evalT_ge c x (Nat.max (length c) (length d))) by lia. rewrite (evalT_ge d x (Nat.max (length c) (length d))) by lia.
  apply rsum_ext. intros k Hk. rewrite H. reflexivity.
Qed.
Lemma norm1_ge c N : (length c <= N)%nat -> norm1 c = rsum N (fun k => Rabs (nth k c 0)).
Proof.
  intros H. unfold norm1. replace N with (length c + (N - length c))%nat by lia. rewrite rsum_app.
  rewrite (rsum_ext (N - length c) _ (fun _ => 0)) by (intros k Hk; rewrite nth_overflow by lia; apply Rabs_R0). rewrite rsum_0. ring.
Qed.
Lemma norm1_same c d : (forall k, nth k c 0 = nth k d 0) -> norm1 c = norm1 d.
Proof.
  intros H. rewrite (norm1_ge c (Nat.max (length c) (length d))), (norm1_ge d (Nat.max (length c) (length d))) by lia.
  apply rsum_ext. intros k Hk. rewrite H. reflexivity.
Qed.
Lemma firstn_same c d K : (forall k, nth k c 0 = nth k d 0) -> (K <= length c)%nat -> (K <= length d)%nat -> firstn K c = firstn K d.
Proof.
  intros H Hc Hd. apply (nth_ext _ _ 0 0); [rewrite !firstn_length_le by assumption; reflexivity|].
  intros k Hk. rewrite firstn_length_le in Hk by exact Hc. rewrite !nth_firstn_lt by exact Hk. apply H.
Qed.

Section objs.
  Context (eigs : nat -> (nat -> nat -> R) -> (nat -> nat -> R) -> list C).
  Lemma roots_scalar_main fuel e c k : nth k c 0 <> 0 -> (2 <= length c)%nat ->
    roots_scalar eigs fuel e c = roots_main eigs fuel (100 * e) eps0 (scl (vscale_col c) c).
  Proof.
    intros Hk HL. unfold roots_scalar. destruct (Nat.eqb_spec (length c) 1); [lia|].
    rewrite Reqb_false_ne by (apply Rgt_not_eq, (vscale_pos c k Hk)). reflexivity.
  Qed.
  Lemma roots_scalar_complete fuel e c K : 0 < e -> (2 <= K <= 50)%nat -> (K <= length c)%nat ->
    5 * eps0 * norm1 c < Rabs (nth (K - 1) c 0) -> (forall k, (K <= k)%nat -> nth k c 0 = 0) ->
    ((3 <= K)%nat -> eig_ok eigs (firstn K c)) ->
    exists r, roots_scalar eigs (S fuel) e c = Some r /\ forall x, -1 <= x <= 1 -> evalT c x = 0 -> In x r.
  Proof.
    intros He HK HL HT HZ HO.
    assert (E0 : 0 < eps0) by (unfold eps0; lra). assert (NP := norm1_pos c).
    assert (Hn : nth (K - 1) c 0 <> 0) by (intros Z; rewrite Z, Rabs_R0 in HT; nra).
    assert (Hv := vscale_pos c _ Hn). rewrite (roots_scalar_main _ _ _ _ Hn) by lia.
    set (v := vscale_col c) in *. assert (Hi := Rinv_0_lt_compat v Hv).
    destruct (roots_main_complete eigs fuel (100 * e) eps0 (scl v c) K) as (r & E & I).
    - lra.
    - lra.
    - exact HK.
    - rewrite scl_length. exact HL.
    - rewrite norm1_scl, scl_nth by exact Hv. unfold Rdiv. rewrite Rabs_mult, (Rabs_pos_eq (/ v)) by lra. rewrite <- Rmult_assoc. apply Rmult_lt_compat_r; assumption.
    - intros k Hk. rewrite scl_nth, HZ by exact Hk. unfold Rdiv. ring.
    - intros H3. rewrite firstn_scl. apply eig_ok_scl with (k := (K - 1)%nat); [exact Hv| |apply HO; exact H3]. rewrite nth_firstn_lt by lia. exact Hn.
    - exists r. split; [exact E|]. intros x Hx Hr. apply I; [exact Hx|]. apply evalT_scl0; [lra|exact Hr].
  Qed.
  Lemma all_opt_nth {A} (l : list (option A)) r d j : all_opt l = Some r -> (j < length l)%nat -> nth j l None = Some (nth j r d).
  Proof.
    revert r j. induction l as [|[a|] l IH]; intros r j H Hj; cbn in *; [lia| |discriminate].
    destruct (all_opt l) as [r'|] eqn:E; [|discriminate]. cbn in H. injection H as <-. destruct j; [reflexivity|]. cbn. apply IH; [reflexivity|lia].
  Qed.
  Lemma all_opt_length {A} (l : list (option A)) r : all_opt l = Some r -> length r = length l.
  Proof.
    revert r. induction l as [|[a|] l IH]; intros r H; cbn in *; [injection H as <-; reflexivity| |discriminate].
    destruct (all_opt l) as [r'|] eqn:E; [|discriminate]. cbn in H. injection H as <-. cbn. f_equal. apply IH. reflexivity.
  Qed.
  (** every column whose last coefficient is not negligible *)
  Lemma cheb_roots_complete fuel f n j K : rect n (coeffs f) -> 0 < eps f < 1 -> (j < length (coeffs f))%nat -> (2 <= K <= 50)%nat -> (K <= n)%nat ->
    let c := nth j (coeffs f) [] in
    (ishappy f = true -> Rpower (eps f) (2 / 5) < Rabs (nth (K - 1) c 0)) ->
    5 * eps0 * norm1 c < Rabs (nth (K - 1) c 0) -> (forall k, (K <= k)%nat -> nth k c 0 = 0) ->
    ((3 <= K)%nat -> eig_ok eigs (firstn K c)) ->
    exists g, cheb_simplify f = Some g /\ (forall x, evalT (nth j (coeffs g) []) x = evalT c x) /\
      exists r, nth j (map (roots_scalar eigs (S fuel) (eps g)) (coeffs g)) None = Some r /\ forall x, -1 <= x <= 1 -> evalT c x = 0 -> In x r.
  Proof.
    intros HR He Hj HK HKn c Hl HT HZ HO. destruct (simplify_keeps f n j K HR He Hj ltac:(lia) Hl HZ) as (g & Eg & Ee & Lg & (n' & Rg & Hn') & Sg).
    exists g. split; [exact Eg|]. split; [intros x; apply evalT_same; exact Sg|].
    set (d := nth j (coeffs g) []) in *. assert (Ld : length d = n') by (apply rect_nth; [exact Rg|lia]).
    assert (Lc : length c = n) by (apply rect_nth; assumption).
    destruct (roots_scalar_complete fuel (eps g) d K) as (r & E & I).
    - rewrite Ee. apply He.
    - exact HK.
    - lia.
    - rewrite (norm1_same d c Sg), Sg. exact HT.
    - intros k Hk. rewrite Sg. apply HZ. exact Hk.
    - intros H3. rewrite (firstn_same d c K Sg) by lia. apply HO. exact H3.
    - exists r. split.
      + rewrite (nth_indep _ None (roots_scalar eigs (S fuel) (eps g) [])) by (rewrite map_length, Lg; exact Hj). rewrite map_nth. exact E.
      + intros x Hx Hr. apply I; [exact Hx|]. rewrite (evalT_same d c x Sg). exact Hr.
  Qed.
End objs.
