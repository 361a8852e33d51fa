(** Minima and maxima: proofs. *)
From Coq Require Import Reals ZArith List Arith Bool Lra Lia.
From Coquelicot Require Import Coquelicot.
From Verif Require Import Base ChebSpec ChebMath ChebModel ChebEval ChebDct ChebCalc ChebChop ChebObj TrigSpec TrigBase OpProofs RootsSpec RootsModel RootsColl RootsProofs RootsObj RootsObj2 ToolsProofs.
Import ListNotations.
Open Scope R_scope.

Lemma amin_spec f l x : In (amin x l f) (x :: l) /\ forall y, In y (x :: l) -> f (amin x l f) <= f y.
Proof.
  revert x. induction l as [|a l IH]; intros x; cbn [amin].
  - split; [left; reflexivity|]. intros y [<-|[]]. lra.
  - destruct (Rltb (f a) (f x)) eqn:E.
    + apply Rltb_true in E. destruct (IH a) as [I1 I2]. split; [right; exact I1|]. intros y [<-|Hy]; [assert (A := I2 a (or_introl eq_refl)); lra|apply I2; exact Hy].
    + apply Rltb_false in E. destruct (IH x) as [I1 I2]. split; [destruct I1; [left; assumption|right; right; assumption]|].
      intros y [<-|[<-|Hy]]; [apply I2; left; reflexivity|assert (A := I2 x (or_introl eq_refl)); lra|apply I2; right; exact Hy].
Qed.
Definition mv_step (v : list R) : option nat * R -> nat -> option nat * R :=
  fun '(best, bv) k => if Rltb (nth k v 0) bv then (Some k, nth k v 0) else (best, bv).
Lemma min_of_values_gen m v n : let '(b, w) := fold_left (mv_step v) (seq 0 n) (None, m) in
  (forall k, (k < n)%nat -> w <= nth k v 0) /\ match b with None => w = m | Some k => (k < n)%nat /\ w = nth k v 0 /\ w < m end.
Proof.
  induction n as [|n IH]; [cbn; split; [intros; lia|reflexivity]|].
  rewrite seq_S, fold_left_app. destruct (fold_left (mv_step v) (seq 0 n) (None, m)) as [b w]. cbn [Nat.add fold_left]. unfold mv_step at 1.
  destruct IH as [I1 I2]. destruct (Rltb (nth n v 0) w) eqn:E.
  - apply Rltb_true in E. split.
    + intros k Hk. destruct (Nat.eq_dec k n) as [->|]; [lra|]. specialize (I1 k ltac:(lia)). lra.
    + split; [lia|]. split; [reflexivity|]. destruct b as [k|]; [destruct I2 as (_ & _ & I2); lra|lra].
  - apply Rltb_false in E. split.
    + intros k Hk. destruct (Nat.eq_dec k n) as [->|]; [lra|]. apply I1. lia.
    + destruct b as [k|]; [destruct I2 as (A & B & C); repeat split; [lia|exact B|exact C]|exact I2].
Qed.
Lemma min_of_values_spec m v : match min_of_values m v with
  | None => forall k, (k < length v)%nat -> m <= nth k v 0
  | Some k => (k < length v)%nat /\ nth k v 0 < m /\ forall i, (i < length v)%nat -> nth k v 0 <= nth i v 0 end.
Proof.
  assert (G := min_of_values_gen m v (length v)). assert (E : min_of_values m v = fst (fold_left (mv_step v) (seq 0 (length v)) (None, m))) by reflexivity. rewrite E. clear E.
  destruct (fold_left _ _ _) as [b w]. cbn [fst]. destruct G as [G1 G2]. destruct b as [k|].
  - destruct G2 as (A & B & C). subst w. repeat split; assumption.
  - subst w. exact G1.
Qed.
(** the minimum is attained at an end point or at a zero of the derivative *)
Lemma min_exists (f d : R -> R) : (forall x, is_derive f x (d x)) ->
  exists m, -1 <= m <= 1 /\ (forall x, -1 <= x <= 1 -> f m <= f x) /\ (m = -1 \/ m = 1 \/ d m = 0).
Proof.
  intros Hd. assert (Hc : forall c, -1 <= c <= 1 -> continuity_pt f c).
  { intros c _. apply derivable_continuous_pt. exists (d c). apply is_derive_Reals. apply Hd. }
  destruct (continuity_ab_min f (-1) 1 ltac:(lra) Hc) as (m & H1 & H2). exists m. split; [exact H2|]. split; [exact H1|].
  destruct (Req_dec m (-1)) as [|N1]; [left; assumption|]. destruct (Req_dec m 1) as [|N2]; [right; left; assumption|]. right. right.
  assert (pr : derivable_pt_lim f m (d m)) by (apply is_derive_Reals, Hd).
  assert (E := deriv_minimum f (-1) 1 m (exist _ (d m) pr) ltac:(lra) ltac:(lra) (fun x A B => H1 x ltac:(lra))). exact E.
Qed.
Lemma col_min_correct f d r x v : (forall t, is_derive f t (d t)) -> (forall t, -1 <= t <= 1 -> d t = 0 -> In t r) -> (forall t, In t r -> -1 <= t <= 1) ->
  length x = length v -> (forall k, (k < length v)%nat -> -1 <= nth k x 0 <= 1 /\ nth k v 0 = f (nth k x 0)) ->
  let '(m, p) := col_min f r x v in -1 <= p <= 1 /\ f p = m /\ forall t, -1 <= t <= 1 -> m <= f t.
Proof.
  intros Hd Hc Hi Lx Hv. unfold col_min. destruct (amin_spec f (r ++ [1]) (-1)) as [A1 A2]. set (p := amin _ _ _) in *.
  assert (Rp : -1 <= p <= 1).
  { destruct A1 as [<-|A1]; [lra|]. apply in_app_or in A1. destruct A1 as [A1|[<-|[]]]; [apply Hi; exact A1|lra]. }
  destruct (min_exists f d Hd) as (m & M1 & M2 & M3).
  assert (LE : f p <= f m).
  { apply A2. destruct M3 as [->|[->|Z]]; [left; reflexivity|right; apply in_or_app; right; left; reflexivity|right; apply in_or_app; left; apply Hc; assumption]. }
  assert (S := min_of_values_spec (f p) v). destruct (min_of_values (f p) v) as [k|].
  - destruct S as (S1 & S2 & _). exfalso. destruct (Hv k S1) as [H1 H2]. assert (X := M2 _ H1). lra.
  - split; [exact Rp|]. split; [reflexivity|]. intros t Ht. assert (X := M2 t Ht). lra.
Qed.
Lemma col_max_correct f d r x v : (forall t, is_derive f t (d t)) -> (forall t, -1 <= t <= 1 -> d t = 0 -> In t r) -> (forall t, In t r -> -1 <= t <= 1) ->
  length x = length v -> (forall k, (k < length v)%nat -> -1 <= nth k x 0 <= 1 /\ nth k v 0 = f (nth k x 0)) ->
  let '(m, p) := col_max f r x v in -1 <= p <= 1 /\ f p = m /\ forall t, -1 <= t <= 1 -> f t <= m.
Proof.
  intros Hd Hc Hi Lx Hv. unfold col_max.
  assert (G : let '(m, p) := col_min (fun t => - f t) r x (map Ropp v) in -1 <= p <= 1 /\ - f p = m /\ forall t, -1 <= t <= 1 -> m <= - f t).
  { apply (col_min_correct (fun t => - f t) (fun t => - d t) r x (map Ropp v)).
    - intros t. exact (is_derive_opp f t (d t) (Hd t)).
    - intros t Ht Hz. apply Hc; [exact Ht|lra].
    - exact Hi.
    - rewrite map_length. exact Lx.
    - intros k Hk. rewrite map_length in Hk. destruct (Hv k Hk) as [H1 H2]. split; [exact H1|]. rewrite <- H2.
      rewrite (nth_indep _ 0 (- 0)) by (rewrite map_length; exact Hk). rewrite map_nth. reflexivity. }
  destruct (col_min (fun t => - f t) r x (map Ropp v)) as [m p]. destruct G as (G1 & G2 & G3).
  split; [exact G1|]. split; [lra|]. intros t Ht. assert (X := G3 t Ht). lra.
Qed.
Lemma extrema_ext f g p : (forall x, f x = g x) -> extrema f p -> extrema g p.
Proof.
  intros E. destruct p as [[m a] [M b]]. cbn. intros ((H1 & H2 & H3) & (H4 & H5 & H6)). rewrite E in H2, H5.
  repeat match goal with |- _ /\ _ => split end; try lra; intros t Ht; rewrite <- E; [apply H3|apply H6]; exact Ht.
Qed.
Lemma minandmax_col_correct c d r : (1 <= length c)%nat -> (forall t, is_derive (evalT c) t (evalT d t)) ->
  (forall t, -1 <= t <= 1 -> evalT d t = 0 -> In t r) -> (forall t, In t r -> -1 <= t <= 1) -> extrema (evalT c) (minandmax_col r c).
Proof.
  intros Hl Hd Hc Hi. unfold minandmax_col.
  assert (HD : forall t, is_derive (clenshaw_pt c) t (evalT d t)).
  { intros t. apply is_derive_ext with (evalT c); [intros u; symmetry; apply clenshaw_pt_correct; exact Hl|apply Hd]. }
  assert (LX : length (chebpts_type2_compute (length c)) = length (polyval1 c)) by (rewrite polyval1_length, chebpts_length; reflexivity).
  assert (HV : forall k, (k < length (polyval1 c))%nat -> -1 <= nth k (chebpts_type2_compute (length c)) 0 <= 1 /\ nth k (polyval1 c) 0 = clenshaw_pt c (nth k (chebpts_type2_compute (length c)) 0)).
  { intros k Hk. rewrite polyval1_length in Hk. split.
    - destruct (Nat.eq_dec (length c) 1) as [E1|N1].
      + rewrite E1. assert (k = 0)%nat as -> by lia. cbn. lra.
      + rewrite chebpts_nth by lia. apply COS_bound.
    - rewrite clenshaw_pt_correct by exact Hl. apply polyval1_spec; lia. }
  assert (A := col_min_correct _ _ r _ _ HD Hc Hi LX HV). assert (B := col_max_correct _ _ r _ _ HD Hc Hi LX HV).
  apply extrema_ext with (clenshaw_pt c); [intros x; apply clenshaw_pt_correct; exact Hl|].
  destruct (col_min _ _ _ _) as [m a]. destruct (col_max _ _ _ _) as [M b]. cbn. split; assumption.
Qed.

(** ** no value outside the interval *)
Definition padT (N : nat) (c : list R) : list R := mk N (fun k => nth k c 0).
Lemma coef_unique c d : (forall x, evalT c x = evalT d x) -> forall k, nth k c 0 = nth k d 0.
Proof.
  intros H k. set (N := (Nat.max (length c) (length d) + k + 1)%nat).
  assert (E : padT N c = padT N d).
  { apply evalT_inj; [unfold padT; rewrite !mk_length; reflexivity|]. intros x. unfold padT. rewrite !evalT_mk. rewrite <- !evalT_ge by (unfold N; lia). apply H. }
  assert (X := f_equal (fun l => nth k l 0) E). unfold padT in X. cbn beta in X. rewrite !nth_mk in X by (unfold N; lia). exact X.
Qed.
Section inside.
  Context (eigs : nat -> (nat -> nat -> R) -> (nat -> nat -> R) -> list C).
  Lemma roots_main_inside fuel htol eps c K r y : 0 < htol -> 0 <= eps -> (2 <= K <= 50)%nat -> (K <= length c)%nat ->
    5 * eps * norm1 c < Rabs (nth (K - 1) c 0) -> (forall k, (K <= k)%nat -> nth k c 0 = 0) ->
    ((3 <= K)%nat -> eig_ok eigs (firstn K c)) -> zeros_clear htol (firstn K c) ->
    roots_main eigs (S fuel) htol eps c = Some r -> In y r -> -1 <= y <= 1.
  Proof.
    intros Hh He HK LK HT HZ HO HC HR Hy. rewrite roots_main_eq in HR.
    assert (N := norm1_pos c).
    assert (Hl : nth (K - 1) c 0 <> 0). { intros Z. rewrite Z, Rabs_R0 in HT. nra. }
    assert (TL : trunc_len eps c = Some K).
    { unfold trunc_len. destruct (Nat.ltb_spec 1 (length c)); [|lia]. assert (S := last_above_spec (5 * eps * norm1 c) c).
      destruct (last_above _ c) as [i|].
      - destruct S as (S1 & S2 & S3). cbn. f_equal. destruct (le_lt_dec K i) as [Hi|Hi].
        + rewrite HZ, Rabs_R0 in S2 by exact Hi. nra.
        + destruct (Nat.eq_dec i (K - 1)) as [->|Ne]; [lia|]. exfalso. specialize (S3 (K - 1)%nat ltac:(lia)). lra.
      - exfalso. specialize (S (K - 1)%nat ltac:(lia)). lra. }
    rewrite TL in HR. cbv zeta in HR.
    assert (EC : trunc_c K c = firstn K c).
    { unfold trunc_c. destruct (Nat.ltb_spec 1 K); [|lia]. cbn [andb]. destruct (Nat.ltb_spec K (length c)); [reflexivity|].
      rewrite firstn_all2 by lia. reflexivity. }
    rewrite EC in HR. set (q := firstn K c) in *.
    assert (Lq : length q = K) by (apply firstn_length_le; lia).
    assert (HLq : nth (K - 1) q 0 <> 0) by (unfold q; rewrite nth_firstn_lt by lia; exact Hl).
    destruct (Nat.eqb_spec K 0); [lia|]. destruct (Nat.eqb_spec K 1); [lia|].
    destruct (Nat.eqb_spec K 2) as [E2|N2].
    { injection HR as <-. destruct Hy as [<-|[]]. rewrite E2 in HLq. cbn [Nat.sub] in HLq.
      destruct (HC (RtoC (- nth 0 q 0 / nth 1 q 0))) as [(_ & B)|(B & _)]; [|exact B|lia].
      rewrite evalTC_real. unfold evalT. rewrite Lq, E2. cbn [rsum T]. f_equal. field. exact HLq. }
    destruct (Nat.leb_spec K 50) as [L50|G50]; [|lia]. injection HR as <-.
    destruct (clean_sound _ _ _ Hy) as (z & Iz & I1 & I2 & I3).
    assert (HE' := HO ltac:(lia)). unfold eig_ok in HE'. rewrite Lq in HE'. apply HE' in Iz. rewrite <- Lq in Iz.
    apply colleague in Iz; [|lia|rewrite Lq; exact HLq].
    destruct (HC z Iz) as [(_ & B)|(_ & [B|B])]; [|lra|lra]. destruct I3 as [->|[[-> _]|[-> _]]]; lra.
  Qed.
  Lemma zeros_clear_scl h v c : v <> 0 -> zeros_clear h c -> zeros_clear h (scl v c).
  Proof. intros Hv H z Hz. rewrite scl_length. apply H. apply evalTC_scl in Hz; assumption. Qed.
  Lemma roots_scalar_inside fuel e c K r y : 0 < e -> (2 <= K <= 50)%nat -> (K <= length c)%nat ->
    5 * eps0 * norm1 c < Rabs (nth (K - 1) c 0) -> (forall k, (K <= k)%nat -> nth k c 0 = 0) ->
    ((3 <= K)%nat -> eig_ok eigs (firstn K c)) -> zeros_clear (100 * e) (firstn K c) ->
    roots_scalar eigs (S fuel) e c = Some r -> In y r -> -1 <= y <= 1.
  Proof.
    intros He HK HL HT HZ HO HC HR Hy.
    assert (E0 : 0 < eps0) by (unfold eps0; lra). assert (NP := norm1_pos c).
    assert (Hn : nth (K - 1) c 0 <> 0) by (intros Z; rewrite Z, Rabs_R0 in HT; nra).
    assert (Hv := vscale_pos c _ Hn). rewrite (roots_scalar_main _ _ _ _ _ Hn) in HR by lia.
    set (v := vscale_col c) in *. assert (Hi := Rinv_0_lt_compat v Hv).
    apply (roots_main_inside fuel (100 * e) eps0 (scl v c) K r y).
    - lra.
    - lra.
    - exact HK.
    - rewrite scl_length. exact HL.
    - rewrite norm1_scl, scl_nth by exact Hv. unfold Rdiv. rewrite Rabs_mult, (Rabs_pos_eq (/ v)) by lra. rewrite <- Rmult_assoc. apply Rmult_lt_compat_r; assumption.
    - intros k Hk. rewrite scl_nth, HZ by exact Hk. unfold Rdiv. ring.
    - intros H3. rewrite firstn_scl. apply eig_ok_scl with (k := (K - 1)%nat); [exact Hv| |apply HO; exact H3]. rewrite nth_firstn_lt by lia. exact Hn.
    - rewrite firstn_scl. apply zeros_clear_scl; [lra|exact HC].
    - exact HR.
    - exact Hy.
  Qed.
  (** cheb_minandmax: every column *)
  Definition col_result (fuel : nat) (f fp : chebtech) (j : nat) : option ((R * R) * (R * R)) :=
    match (if Nat.eqb (length (coeffs f)) 1 then Some fp else getitem fp (Z.of_nat j)) with
    | None => None
    | Some fj => match cheb_roots eigs fuel fj with None => None | Some (_, rs) => Some (minandmax_col (nth 0 rs []) (nth j (coeffs f) [])) end
    end.
  Lemma cheb_minandmax_eq fuel f : cheb_minandmax eigs fuel f = match cheb_diff f 1 with None => None | Some fp => all_opt (mk (length (coeffs f)) (col_result fuel f fp)) end.
  Proof. reflexivity. Qed.
  Lemma minandmax_correct fuel f n j d : rect n (coeffs f) -> 0 < eps f < 1 -> (j < length (coeffs f))%nat -> (3 <= n <= 51)%nat ->
    let c := nth j (coeffs f) [] in
    Rpower (eps f) (2 / 5) < Rabs (nth (n - 1) c 0) ->
    (forall t, is_derive (evalT c) t (evalT d t)) -> length d = (n - 1)%nat ->
    Rpower (eps f) (2 / 5) < Rabs (nth (n - 2) d 0) -> 5 * eps0 * norm1 d < Rabs (nth (n - 2) d 0) ->
    ((4 <= n)%nat -> eig_ok eigs d) -> zeros_clear (100 * eps f) d ->
    exists fp e, cheb_diff f 1 = Some fp /\ col_result (S fuel) f fp j = Some e /\ extrema (evalT c) e.
  Proof.
    intros HR He Hj Hn c Hl Hd Ld Hdl HT HO HC. unfold cheb_diff.
    assert (Lc : length c = n) by (apply rect_nth; assumption).
    destruct (simplify_coeffs_spec n (coeffs f) (eps f) HR) as (K & RK & E & D). rewrite E.
    assert (KK : (n <= K)%nat).
    { destruct (le_lt_dec n K) as [G|G]; [exact G|]. specialize (D He j (n - 1)%nat ltac:(lia)). fold c in D. lra. }
    assert (RP := rect_prolong n (coeffs f) K HR ltac:(lia)). rewrite (rect_nrows _ _ RP).
    destruct (Nat.leb_spec K 1); [lia|]. unfold computeDerCoeffs. rewrite (rect_nrows _ _ RP).
    destruct (Nat.leb_spec 2 K); [|lia]. cbn [Nat.sub iter_der].
    set (B := map computeDerCoeffs1 (prolong (coeffs f) (Z.of_nat K))).
    assert (RB : rect (K - 1) B).
    { apply (rect_map K); [exact RP|lia|]. intros a Ha. rewrite computeDerCoeffs1_length, Ha. reflexivity. }
    destruct (cheb_init_some (K - 1) B (eps f) (hscale f) (maxLength f) (ishappy f) RB) as (hp & EB & _). rewrite EB.
    set (fp := mkCheb B (eps f) (hscale f) (maxLength f) hp). exists fp.
    assert (LB : length B = length (coeffs f)) by (unfold B, prolong; rewrite !map_length; reflexivity).
    (* the derivative's column j *)
    set (b := nth j B []).
    assert (Hb : forall k, nth k b 0 = nth k d 0).
    { apply coef_unique. intros x. unfold b, B. rewrite nth_map_col by (unfold prolong; rewrite map_length; exact Hj).
      rewrite nth_prolong by exact Hj. fold c.
      assert (P : forall u, evalT (prolong1 c (Z.of_nat K)) u = evalT c u).
      { intros u. apply evalT_same. intros k. unfold prolong1. rewrite Lc. destruct (Z.eqb_spec (Z.of_nat K - Z.of_nat n) 0); [reflexivity|].
        destruct (Z.ltb_spec 0 (Z.of_nat K - Z.of_nat n)); [|lia]. rewrite Nat2Z.id. destruct (le_lt_dec K k) as [G2|G2].
        - rewrite !nth_overflow by (rewrite ?mk_length; lia). reflexivity.
        - rewrite nth_mk by exact G2. destruct (Nat.ltb_spec k n); [reflexivity|]. rewrite nth_overflow by lia. reflexivity. }
      assert (LP : length (prolong1 c (Z.of_nat K)) = K) by (rewrite prolong1_length, Nat2Z.id; reflexivity).
      assert (X := computeDerCoeffs1_correct (prolong1 c (Z.of_nat K)) x ltac:(lia)).
      assert (Y : is_derive (evalT (prolong1 c (Z.of_nat K))) x (evalT d x)) by (apply is_derive_ext with (evalT c); [intros u; symmetry; apply P|apply Hd]).
      rewrite <- (is_derive_unique _ _ _ X). rewrite <- (is_derive_unique _ _ _ Y). reflexivity. }
    (* the function whose roots are computed *)
    assert (FJ : exists hj hp', (if Nat.eqb (length (coeffs f)) 1 then Some fp else getitem fp (Z.of_nat j)) = Some (mkCheb [b] (eps f) hj (maxLength f) hp')).
    { destruct (Nat.eqb_spec (length (coeffs f)) 1) as [E1|N1].
      - exists (hscale f), hp. unfold fp. f_equal. f_equal. rewrite E1 in Hj, LB. unfold b. assert (j = 0)%nat as -> by lia.
        destruct B as [|b0 [|b1 B']]; cbn in LB; try lia. reflexivity.
      - unfold getitem. cbn [coeffs fp]. destruct (Z.ltb_spec (Z.of_nat j) 0); [lia|]. destruct (Z.leb_spec (Z.of_nat (length B)) (Z.of_nat j)); [lia|]. cbn [orb].
        rewrite Nat2Z.id. fold b.
        destruct (cheb_init_some (K - 1) [b] (eps f) 1 (maxLength f) hp) as (hp' & E' & _).
        { unfold rect. split; [lia|]. split; [discriminate|]. constructor; [|constructor]. apply rect_nth; [exact RB|lia]. }
        exists 1, hp'. exact E'. }
    destruct FJ as (hj & hp' & FJ). unfold col_result. rewrite FJ. set (fj := mkCheb [b] (eps f) hj (maxLength f) hp') in *.
    assert (Lb : length b = (K - 1)%nat) by (apply rect_nth; [exact RB|lia]).
    assert (Rj : rect (K - 1) (coeffs fj)).
    { unfold rect. cbn. split; [lia|]. split; [discriminate|]. constructor; [exact Lb|constructor]. }
    assert (HZb : forall k, (n - 1 <= k)%nat -> nth k b 0 = 0) by (intros k Hk; rewrite Hb; apply nth_overflow; lia).
    assert (Nb : norm1 b = norm1 d) by (apply norm1_same; exact Hb).
    replace (n - 2)%nat with (n - 1 - 1)%nat in Hdl, HT by lia.
    destruct (simplify_keeps fj (K - 1) 0 (n - 1) Rj He ltac:(cbn; lia) ltac:(lia)) as (g & Eg & Ee & Lg & (n' & Rg & Hn') & Sg).
    { intros _. cbn [nth coeffs fj]. rewrite Hb. exact Hdl. }
    { exact HZb. }
    cbn [nth coeffs fj length] in Sg, Lg. set (bb := nth 0 (coeffs g) []) in *.
    assert (Lbb : length bb = n') by (apply rect_nth; [exact Rg|lia]).
    assert (Sd : forall k, nth k bb 0 = nth k d 0) by (intros k; rewrite Sg; apply Hb).
    assert (F : firstn (n - 1) bb = d).
    { rewrite <- (firstn_all2 d (n := n - 1)) by lia. apply firstn_same; [exact Sd| |]; lia. }
    destruct (roots_scalar_complete eigs fuel (eps g) bb (n - 1)) as (r & Er & Ir).
    - rewrite Ee. apply He.
    - lia.
    - lia.
    - rewrite (norm1_same bb d Sd), Sd. exact HT.
    - intros k Hk. rewrite Sd. apply nth_overflow. lia.
    - intros H3. rewrite F. apply HO. lia.
    - exists (minandmax_col r c). split; [reflexivity|].
      unfold cheb_roots. rewrite Eg. destruct (coeffs g) as [|g0 [|g1 G']] eqn:EG; cbn in Lg; try lia. cbn [nth] in bb. subst bb.
      cbn [map all_opt]. rewrite Er. cbn [option_map nth]. fold c. split; [reflexivity|].
      apply minandmax_col_correct with d.
      + lia.
      + exact Hd.
      + intros t Ht Hz. apply Ir; [exact Ht|]. rewrite (evalT_same g0 d t Sd). exact Hz.
      + intros t Ht. apply (roots_scalar_inside fuel (eps g) g0 (n - 1) r t).
        * rewrite Ee. apply He.
        * lia.
        * lia.
        * rewrite (norm1_same g0 d Sd), Sd. exact HT.
        * intros k Hk. rewrite Sd. apply nth_overflow. lia.
        * intros H3. rewrite F. apply HO. lia.
        * rewrite F, Ee. exact HC.
        * exact Er.
        * exact Ht.
  Qed.
End inside.
