(** Correctness of cumsum, inner, innerw, dot. *)
From Coq Require Import Reals ZArith List Arith Lia Lra Bool.
From Coquelicot Require Import Coquelicot.
From Verif Require Import Base ChebSpec ChebMath ChebModel ChebEval CosSums ChebDct ChebCalc ChebMul ChebChop ChebObj ChebOps.
Import ListNotations.
Open Scope R_scope.

Lemma cheb_simplify_spec f : wf f -> exists K, trunc_ok f (eps f) K /\
  cheb_simplify f = Some (with_coeffs f (prolong (coeffs f) (Z.of_nat K))).
Proof.
  intros Hw. unfold cheb_simplify. destruct (ishappy f) eqn:Eh.
  - destruct (simplify_spec f (eps f) Hw) as [K [Es HK]]. exists K. split; [exact HK|]. rewrite Es.
    unfold with_coeffs. rewrite Eh. reflexivity.
  - exists (len f). split.
    + split; [assert (H := len_pos f Hw); lia|]. intros He j k Hk. unfold coef.
      assert (H : nth k (nth j (coeffs f) []) 0 = 0).
      { destruct (Nat.lt_ge_cases j (ncols f)) as [Hj|Hj].
        - apply nth_overflow. rewrite col_len by assumption. exact Hk.
        - rewrite (nth_overflow (coeffs f)) by exact Hj. destruct k; reflexivity. }
      rewrite H, Rabs_R0. left. apply exp_pos.
    + f_equal. unfold with_coeffs. destruct f as [A e h ml hp]. cbn [coeffs eps hscale maxLength ishappy] in *.
      f_equal. unfold prolong. assert (HR := wf_rect _ Hw). cbn [coeffs] in HR.
      destruct HR as [_ [_ HF]]. rewrite List.Forall_forall in HF.
      rewrite <- (map_id A) at 1. apply map_ext_in. intros c Hc. unfold prolong1.
      rewrite (HF c Hc), Z.sub_diag. reflexivity.
Qed.

Lemma wf_coeffs_map f (g : list R -> list R) m A e h ml hp :
  A = map g (coeffs f) -> wf f -> (1 <= m)%nat -> (forall c, length c = len f -> length (g c) = m) ->
  rect m (coeffs (mkCheb A e h ml hp)).
Proof. intros -> Hw Hm Hg. cbn [coeffs]. apply (rect_map (len f)); [apply wf_rect; exact Hw|exact Hm|exact Hg]. Qed.

(** the antiderivative series of column j of f vanishing at -1 *)
Definition antiK (f : chebtech) (j : nat) (x : R) : R := evalT (cumsum_coeffs1 (nth j (coeffs f) [])) x.

Lemma antiK_RInt f j x : wf f -> (j < ncols f)%nat -> is_RInt (ev f j) (-1) x (antiK f j x).
Proof.
  intros Hw Hj. unfold antiK.
  assert (L : (1 <= length (nth j (coeffs f) []))%nat) by (rewrite col_len by assumption; apply len_pos; exact Hw).
  replace (evalT (cumsum_coeffs1 (nth j (coeffs f) [])) x)
    with (evalT (cumsum_coeffs1 (nth j (coeffs f) [])) x - evalT (cumsum_coeffs1 (nth j (coeffs f) [])) (-1))
    by (rewrite cumsum_coeffs1_left; ring).
  apply (is_RInt_evalT_prim (nth j (coeffs f) [])). intros y. apply cumsum_coeffs1_derive. exact L.
Qed.

Lemma cumsum_correct_len f : wf f ->
  exists g, cheb_cumsum f = Some g /\ wf g /\ ncols g = ncols f /\ same_params f g /\
   (1 <= len g <= len f + 2)%nat /\
   forall j, (j < ncols f)%nat ->
     ev g j (-1) = 0 /\
     ((len f < len g)%nat -> forall x, is_RInt (ev f j) (-1) x (ev g j x) /\ is_derive (ev g j) x (ev f j x)) /\
     (0 < eps f < 1 -> forall x, -1 <= x <= 1 ->
        Rabs (RInt (ev f j) (-1) x - ev g j x) <= 2 * (INR (len f + 1 - len g) * Rpower (eps f) (2 / 5))) /\
     (0 < eps f < 1 -> Rpower (eps f) (2 / 5) < Rabs (coef f j (len f - 1)) / (2 * INR (len f)) -> (len f < len g)%nat).
Proof.
  intros Hw. set (n := len f). assert (Hn := len_pos f Hw). fold n in Hn.
  set (B := map cumsum_coeffs1 (coeffs f)).
  assert (RB : rect (S n) B).
  { apply (rect_map n); [apply wf_rect; exact Hw|lia|]. intros c Hc. rewrite cumsum_coeffs1_length, Hc. reflexivity. }
  unfold cheb_cumsum. fold B.
  destruct (cheb_init_some (S n) B (eps f) (hscale f) (maxLength f) (ishappy f) RB) as [hp [E _]]. rewrite E.
  set (b := mkCheb B (eps f) (hscale f) (maxLength f) hp).
  assert (Wb : wf b) by (exists (S n); exact RB).
  assert (Lb : len b = S n) by (apply rect_nrows; exact RB).
  destruct (cheb_simplify_spec b Wb) as [K [HK Es]]. rewrite Es. cbn [with_coeffs eps hscale maxLength ishappy coeffs].
  set (A' := prolong B (Z.of_nat K)).
  assert (RA : rect K A') by (apply (rect_prolong (S n)); [exact RB|apply HK]).
  set (g := mkCheb (map (fun c => upd c 0 (nth 0 c 0 - lval1 c)) A') (eps f) (hscale f) (maxLength f) hp).
  exists g.
  assert (Rg : rect K (coeffs g)).
  { cbn [coeffs g]. apply (rect_map K); [exact RA|apply HK|]. intros c Hc. rewrite upd_length. exact Hc. }
  assert (LG : len g = K) by (apply rect_nrows; exact Rg). rewrite LG. clear LG.
  split; [reflexivity|]. split; [exists K; exact Rg|].
  split; [unfold ncols, g, A', B, prolong; cbn [coeffs]; rewrite !map_length; reflexivity|].
  split; [repeat split|]. split; [destruct HK as [HK _]; rewrite Lb in HK; lia|].
  intros j Hj.
  assert (JB : (j < length B)%nat) by (unfold B; rewrite map_length; exact Hj).
  assert (Ecol : nth j B [] = cumsum_coeffs1 (nth j (coeffs f) [])) by (unfold B; apply nth_map_col; exact Hj).
  assert (Lcol : length (nth j (coeffs f) []) = n) by (apply col_len; assumption).
  assert (Eg : forall x, ev g j x = evK b j K x - evK b j K (-1)).
  { intros x. unfold ev. cbn [coeffs g].
    rewrite (nth_map_col (fun c => upd c 0 (nth 0 c 0 - lval1 c))) by (unfold A', prolong; rewrite map_length; exact JB).
    unfold A'. rewrite nth_prolong by exact JB.
    rewrite evalT_upd0 by (rewrite prolong1_length, Nat2Z.id; apply HK).
    rewrite lval1_eval, <- !evK_prolong. cbn [coeffs b]. ring. }
  assert (Ea : forall x, ev b j x = antiK f j x) by (intros x; unfold ev, antiK; cbn [coeffs b]; rewrite Ecol; reflexivity).
  assert (Ea0 : ev b j (-1) = 0) by (rewrite Ea; unfold antiK; apply cumsum_coeffs1_left).
  assert (Efull : (n < K)%nat -> forall x, ev g j x = antiK f j x).
  { intros HKn x. rewrite Eg, !evK_full by (try exact Wb; rewrite Lb; lia). rewrite Ea0, Ea. ring. }
  split; [rewrite Eg; ring|]. split; [|split].
  - intros HKn x. split.
    + rewrite (Efull HKn). apply antiK_RInt; assumption.
    + apply (is_derive_ext (antiK f j)); [intros t; symmetry; apply Efull; exact HKn|].
      apply cumsum_coeffs1_derive. lia.
  - intros He x Hx. rewrite (is_RInt_unique _ _ _ _ (antiK_RInt f j x Hw Hj)).
    rewrite Eg, <- Ea.
    assert (H1 := evK_err b (eps f) K j x Wb HK He Hx).
    assert (H2 := evK_err b (eps f) K j (-1) Wb HK He ltac:(lra)).
    rewrite Lb in H1, H2. replace (S n - K)%nat with (n + 1 - K)%nat in H1, H2 by lia.
    rewrite Ea0 in H2. revert H1 H2. generalize (INR (n + 1 - K) * Rpower (eps f) (2 / 5)).
    intros t. unfold Rabs. repeat destruct Rcase_abs; lra.
  - intros He H. assert (HL : (len b <= K)%nat).
    { apply (trunc_ok_full b (eps f) K j He HK). rewrite Lb. replace (S n - 1)%nat with n by lia.
      unfold coef. cbn [coeffs b]. rewrite Ecol.
      assert (E1 : Rabs (nth n (cumsum_coeffs1 (nth j (coeffs f) [])) 0)
                   >= Rabs (coef f j (n - 1)) / (2 * INR n)).
      { unfold coef. destruct (Nat.eq_dec n 1) as [E1|E1].
        - rewrite E1. rewrite cumsum_coeffs1_nth1 by lia. rewrite (nth_overflow _ 0 (n := 2)) by lia.
          replace (nth 0 (nth j (coeffs f) []) 0 - 0 / 2) with (nth 0 (nth j (coeffs f) []) 0) by field.
          simpl (1 - 1)%nat. simpl (INR 1). assert (HA := Rabs_pos (nth 0 (nth j (coeffs f) []) 0)). lra.
        - rewrite cumsum_coeffs1_nthS by lia. rewrite (nth_overflow _ 0 (n := (n + 1)%nat)) by lia.
          rewrite Rminus_0_r. unfold Rdiv. rewrite Rabs_mult, Rabs_inv.
          rewrite (Rabs_right (2 * INR n)); [lra|]. assert (HA := pos_INR n). lra. }
      fold n in H. lra. }
    rewrite Lb in HL. lia.
Qed.
Lemma cumsum_correct f : wf f ->
  exists g K, cheb_cumsum f = Some g /\ wf g /\ ncols g = ncols f /\ same_params f g /\
   (1 <= K <= len f + 2)%nat /\
   forall j, (j < ncols f)%nat ->
     ev g j (-1) = 0 /\
     ((len f < K)%nat -> forall x, is_RInt (ev f j) (-1) x (ev g j x) /\ is_derive (ev g j) x (ev f j x)) /\
     (0 < eps f < 1 -> forall x, -1 <= x <= 1 ->
        Rabs (RInt (ev f j) (-1) x - ev g j x) <= 2 * (INR (len f + 1 - K) * Rpower (eps f) (2 / 5))) /\
     (0 < eps f < 1 -> Rpower (eps f) (2 / 5) < Rabs (coef f j (len f - 1)) / (2 * INR (len f)) -> (len f < K)%nat).
Proof. intros Hw. destruct (cumsum_correct_len f Hw) as [g H]. exists g, (len g). exact H. Qed.

(** ** inner *)
Lemma col_eqb_true c d : col_eqb c d = true -> c = d.
Proof.
  unfold col_eqb. rewrite andb_true_iff. intros [H1 H2]. apply Nat.eqb_eq in H1.
  revert d H1 H2. induction c as [|a c IH]; intros [|b d] H1 H2; try discriminate; [reflexivity|].
  cbn [combine forallb] in H2. apply andb_true_iff in H2. destruct H2 as [H2 H3].
  apply Reqb_true in H2. f_equal; [exact H2|]. apply IH; [simpl in H1; lia|exact H3].
Qed.
Lemma arr_eqb_true A B : arr_eqb A B = true -> A = B.
Proof.
  unfold arr_eqb. rewrite andb_true_iff. intros [H1 H2]. apply Nat.eqb_eq in H1.
  revert B H1 H2. induction A as [|a A IH]; intros [|b B] H1 H2; try discriminate; [reflexivity|].
  cbn [combine forallb] in H2. apply andb_true_iff in H2. destruct H2 as [H2 H3].
  apply col_eqb_true in H2. f_equal; [exact H2|]. apply IH; [simpl in H1; lia|exact H3].
Qed.
Lemma col_eqb_refl c : col_eqb c c = true.
Proof.
  unfold col_eqb. rewrite Nat.eqb_refl. cbn [andb]. induction c as [|a c IH]; [reflexivity|].
  cbn [combine forallb]. rewrite IH. assert (Reqb a a = true) as -> by (apply Reqb_true; reflexivity). reflexivity.
Qed.
Lemma arr_eqb_refl A : arr_eqb A A = true.
Proof.
  unfold arr_eqb. rewrite Nat.eqb_refl. cbn [andb]. induction A as [|a A IH]; [reflexivity|].
  cbn [combine forallb]. rewrite IH, col_eqb_refl. reflexivity.
Qed.

Lemma inner_entry_correct w c d n : (1 <= length c)%nat -> (1 <= length d)%nat ->
  n = (length c + length d)%nat -> quadwts n = Some w ->
  is_RInt (fun x => evalT c x * evalT d x) (-1) 1 (inner_entry w c d n).
Proof.
  intros Hc Hd Hn Hw.
  assert (HS : spanT n (fun x => evalT c x * evalT d x)).
  { apply (spanT_mul (length c) (length d)); [lia|apply spanT_evalT; lia..]. }
  assert (H := quadwts_exact n w _ ltac:(lia) Hw HS).
  replace (inner_entry w c d n)
    with (rsum n (fun j => nth j w 0 * (evalT c (nth j (chebpts_type2_compute n) 0) * evalT d (nth j (chebpts_type2_compute n) 0)))).
  { exact H. }
  unfold inner_entry. apply rsum_ext. intros k Hk.
  rewrite !polyval1_spec by (rewrite prolong1_length, Nat2Z.id; lia).
  rewrite !prolong1_length, !Nat2Z.id, !prolong1_eval by lia. ring.
Qed.

Lemma square_RInt_nonneg (p : R -> R) l : is_RInt (fun x => p x * p x) (-1) 1 l -> 0 <= l.
Proof.
  intros H. assert (E := is_RInt_unique _ _ _ _ H). rewrite <- E.
  apply RInt_ge_0; [lra|exists l; exact H|]. intros x _. apply Rle_0_sqr.
Qed.

Lemma inner_correct f g : wf f -> wf g ->
  exists M, cheb_inner f g = Some M /\ length M = ncols f /\
    forall i j, (i < ncols f)%nat -> (j < ncols g)%nat ->
      length (nth i M []) = ncols g /\
      is_RInt (fun x => ev f i x * ev g j x) (-1) 1 (nth j (nth i M []) 0).
Proof.
  intros Hf Hg. unfold cheb_inner. assert (H1 := len_pos f Hf). assert (H2 := len_pos g Hg).
  destruct (quadwts_some (nrows (coeffs f) + nrows (coeffs g))) as [w [Ew Lw]].
  { fold (len f) (len g). lia. }
  rewrite Ew. eexists. split; [reflexivity|]. split; [apply mk_length|].
  intros i j Hi Hj. rewrite nth_mk by exact Hi. split; [apply mk_length|].
  rewrite nth_mk by exact Hj.
  assert (H := inner_entry_correct w (nth i (coeffs f) []) (nth j (coeffs g) [])
            (nrows (coeffs f) + nrows (coeffs g))).
  rewrite !col_len in H by assumption. specialize (H H1 H2 eq_refl Ew).
  cbv zeta. destruct (arr_eqb _ _ && Nat.eqb i j) eqn:E; [|exact H].
  apply andb_true_iff in E. destruct E as [E1 E2]. apply arr_eqb_true in E1. apply Nat.eqb_eq in E2.
  subst j. rewrite Rabs_right; [exact H|]. apply Rle_ge. rewrite E1 in *.
  apply (square_RInt_nonneg (evalT (nth i (coeffs g) []))). exact H.
Qed.

Lemma dot_correct f g : wf f -> wf g -> ncols f = ncols g ->
  exists v, cheb_dot f g = Some v /\
    is_RInt (fun x => rsum (ncols f) (fun i => ev f i x * ev g i x)) (-1) 1 v.
Proof.
  intros Hf Hg Hm. unfold cheb_dot. destruct (inner_correct f g Hf Hg) as [M [E [_ HM]]].
  rewrite E. eexists. split; [reflexivity|]. fold (ncols f) (ncols g).
  replace (Nat.min (ncols f) (ncols g)) with (ncols f) by lia.
  apply is_RInt_rsum. intros k Hk. apply HM; lia.
Qed.

(** ** innerw: the Chebyshev-weighted product, x = cos t *)
Lemma is_RInt_coscos m n : is_RInt (fun t => cos (INR m * t) * cos (INR n * t)) 0 PI
  (if Nat.eqb m n then (if Nat.eqb m 0 then PI else PI / 2) else 0).
Proof.
  assert (HC : forall z : Z, is_RInt (fun t => cos (IZR z * t)) 0 PI (if Z.eqb z 0 then PI else 0)).
  { intros z. destruct (Z.eqb_spec z 0) as [->|Hz].
    - apply (is_RInt_ext (fun _ => 1)); [intros t _; rewrite Rmult_0_l, cos_0; reflexivity|].
      evar_last; [apply (is_RInt_const 0 PI 1)|]. unfold scal. simpl. unfold mult. simpl. ring.
    - assert (Hz' : IZR z <> 0) by (apply not_0_IZR; exact Hz).
      evar_last.
      + apply (is_RInt_derive (fun t => sin (IZR z * t) / IZR z)).
        * intros x _. auto_derive; [exact I|]. field. exact Hz'.
        * intros x _. apply (ex_derive_continuous (fun t => cos (IZR z * t))). auto_derive. exact I.
      + unfold minus, plus, opp; simpl. rewrite Rmult_0_r, sin_0.
        assert (sin (IZR z * PI) = 0) as ->.
        { apply sin_eq_0_1. exists z. reflexivity. }
        field. exact Hz'. }
  assert (E : forall t, cos (INR m * t) * cos (INR n * t) =
     / 2 * (cos (IZR (Z.of_nat m + Z.of_nat n) * t) + cos (IZR (Z.of_nat m - Z.of_nat n) * t))).
  { intros t. rewrite plus_IZR, minus_IZR, <- !INR_IZR_INZ.
    replace ((INR m + INR n) * t) with (INR m * t + INR n * t) by ring.
    replace ((INR m - INR n) * t) with (INR m * t - INR n * t) by ring.
    rewrite cos_plus, cos_minus. field. }
  apply (is_RInt_ext (fun t => scal (/ 2) (plus (cos (IZR (Z.of_nat m + Z.of_nat n) * t)) (cos (IZR (Z.of_nat m - Z.of_nat n) * t))))).
  { intros t _. rewrite E. reflexivity. }
  evar_last.
  - apply (is_RInt_scal (V := R_NormedModule)). apply (is_RInt_plus (V := R_NormedModule)); apply HC.
  - unfold scal, plus; simpl. unfold mult; simpl.
    destruct (Nat.eqb_spec m n) as [->|Hmn].
    + destruct (Z.eqb_spec (Z.of_nat n - Z.of_nat n) 0); [|lia].
      destruct (Nat.eqb_spec n 0) as [->|Hn].
      * simpl. field.
      * destruct (Z.eqb_spec (Z.of_nat n + Z.of_nat n) 0); [lia|]. field.
    + destruct (Z.eqb_spec (Z.of_nat m - Z.of_nat n) 0); [lia|].
      destruct (Z.eqb_spec (Z.of_nat m + Z.of_nat n) 0); [lia|]. field.
Qed.

Lemma is_RInt_rsum_ab n (F : nat -> R -> R) (I : nat -> R) a b :
  (forall k, (k < n)%nat -> is_RInt (F k) a b (I k)) ->
  is_RInt (fun x => rsum n (fun k => F k x)) a b (rsum n I).
Proof. apply is_RInt_rsum. Qed.

Lemma innerw1_correct c d : (1 <= length c)%nat -> (1 <= length d)%nat ->
  is_RInt (fun t => evalT c (cos t) * evalT d (cos t)) 0 PI (innerw1 c d).
Proof.
  intros Hc Hd.
  apply (is_RInt_ext (fun t => rsum (length c) (fun i => rsum (length d) (fun j =>
     nth i c 0 * nth j d 0 * (cos (INR i * t) * cos (INR j * t)))))).
  { intros t _. unfold evalT. rewrite rsum_mul. apply rsum_ext. intros i _. apply rsum_ext. intros j _.
    rewrite !T_cos. ring. }
  evar_last.
  { apply is_RInt_rsum. intros i Hi. apply is_RInt_rsum. intros j Hj.
    apply (is_RInt_scal (V := R_NormedModule) _ 0 PI (nth i c 0 * nth j d 0)). apply is_RInt_coscos. }
  cbv beta. unfold scal; simpl; unfold mult; simpl.
  set (n := Nat.min (length c) (length d)).
  assert (E : forall i, (i < length c)%nat ->
    rsum (length d) (fun j => nth i c 0 * nth j d 0 * (if Nat.eqb i j then (if Nat.eqb i 0 then PI else PI / 2) else 0))
    = if Nat.ltb i n then nth i c 0 * nth i d 0 * (if Nat.eqb i 0 then PI else PI / 2) else 0).
  { intros i Hi. destruct (Nat.ltb_spec i n) as [Hin|Hin].
    - rewrite (rsum_single _ _ i); [rewrite Nat.eqb_refl; reflexivity|unfold n in Hin; lia|].
      intros k _ Hk. destruct (Nat.eqb_spec i k); [congruence|ring].
    - apply rsum_zero. intros k Hk. destruct (Nat.eqb_spec i k); [unfold n in Hin; lia|ring]. }
  rewrite (rsum_ext _ _ _ E).
  rewrite (rsum_extend n (length c)) by (first [unfold n; lia | intros k Hk; destruct (Nat.ltb_spec k n); [lia|reflexivity]]).
  unfold innerw1. fold n.
  assert (Hn1 : (1 <= n)%nat) by (unfold n; lia).
  rewrite !prolong1_nth by (rewrite Nat2Z.id; lia).
  transitivity (rsum n (fun k => (nth k c 0 * nth k d 0) * (if Nat.eqb k 0 then PI else PI / 2))).
  { apply rsum_ext. intros k Hk. destruct (Nat.ltb_spec k n); [reflexivity|lia]. }
  rewrite (rsum_ext n (fun k => nth k (prolong1 c (Z.of_nat n)) 0 * nth k (prolong1 d (Z.of_nat n)) 0) (fun k => nth k c 0 * nth k d 0))
    by (intros k Hk; rewrite !prolong1_nth by (rewrite Nat2Z.id; lia); reflexivity).
  destruct n as [|n]; [lia|]. rewrite !rsum_S_l.
  rewrite (rsum_ext n (fun k => nth (S k) c 0 * nth (S k) d 0 * (if Nat.eqb (S k) 0 then PI else PI / 2))
                      (fun k => nth (S k) c 0 * nth (S k) d 0 * (PI / 2))) by (intros; reflexivity).
  rewrite rsum_scal_r. cbn [Nat.eqb]. field.
Qed.

Lemma innerw_correct f g j : wf f -> wf g -> (j < ncols f)%nat -> (j < ncols g)%nat ->
  is_RInt (fun t => ev f j (cos t) * ev g j (cos t)) 0 PI (nth j (cheb_innerw f g) 0).
Proof.
  intros Hf Hg Hj Hj'. unfold cheb_innerw. rewrite nth_mk by exact Hj.
  apply innerw1_correct; rewrite col_len by assumption; apply len_pos; assumption.
Qed.
