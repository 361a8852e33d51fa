(** Proofs about elementwise functions, quotients and compositions. *)
From Coq Require Import Reals ZArith List Arith Bool Lra Lia.
From Coquelicot Require Import Coquelicot.
From Verif Require Import CosSums Base ChebSpec ChebMath ChebDct ChebModel ChebModel2 ChebEval ChebCalc ChebChop ChebObj ChebOps ChebArith ChebConstr ChebRefute RootsMin RootsProofs FunModel FunProofs FqrFun FqrMain NormProofs NormAlias NormThm DivModel.
Import ListNotations.
Open Scope R_scope.

Lemma interp_length op N : length (interp op N) = N.
Proof. unfold interp. rewrite polyfit1_length, map_length. apply chebpts_length. Qed.
Lemma vscale_interp op N V : (1 <= N)%nat -> (forall t, -1 <= t <= 1 -> Rabs (op t) <= V) -> vscale_col (interp op N) <= V.
Proof.
  intros HN H. unfold vscale_col. rewrite interp_length. destruct (Nat.eqb_spec N 1) as [->|E].
  - assert (X := interp_nodes op 1 0 ltac:(lia) ltac:(lia)). change (nth 0 (chebpts_type2_compute 1) 0) with 0 in X.
    assert (Y : evalT (interp op 1) 0 = nth 0 (interp op 1) 0) by (unfold evalT; rewrite interp_length; cbn [rsum T]; ring). rewrite <- Y, X. apply H. lra.
  - destruct (fmax_abs_attained (polyval1 (interp op N))) as [a [Ha Ea]].
    { intros Hn. apply (f_equal (@length R)) in Hn. rewrite polyval1_length, interp_length in Hn. simpl in Hn. lia. }
    apply In_nth with (d := 0) in Ha. destruct Ha as [i [Hi Ei]]. rewrite polyval1_length, interp_length in Hi.
    rewrite Ea, <- Ei, polyval1_spec by (rewrite interp_length; lia). rewrite interp_length, interp_nodes by lia. apply H. apply chebpts_range.
Qed.
(** the constructed function agrees with the sampled one at the points of the last grid *)
Lemma construct_grid ops V e h ml ms : ops <> [] -> (initial_n ml ms <= ml)%Z -> 0 < e < 1 -> 1 <= h ->
  (forall j t, (j < length ops)%nat -> -1 <= t <= 1 -> Rabs (nth j ops (fun _ => 0) t) <= V) -> Rmax h V * e < 1 ->
  exists f N, construct ops e h ml ms = Some f /\ wf f /\ ncols f = length ops /\ eps f = e /\ (initial_n ml ms <= Z.of_nat N <= ml)%Z /\
    forall j, (j < length ops)%nat ->
      (forall i, (i < N)%nat -> let xi := nth i (chebpts_type2_compute N) 0 in Rabs (nth j ops (fun _ => 0) xi - ev f j xi) <= INR N * Rpower (Rmax h V * e) (2 / 5)) /\
      (spanT N (nth j ops (fun _ => 0)) -> forall x, -1 <= x <= 1 -> Rabs (nth j ops (fun _ => 0) x - ev f j x) <= INR N * Rpower (Rmax h V * e) (2 / 5)).
Proof.
  intros Ho Hml He Hh HV Ht. destruct (construct_error ops e h ml ms Ho Hml He) as (f & N & EC & W & NC & HN & HE).
  exists f, N. split; [exact EC|]. split; [exact W|]. split; [exact NC|]. split.
  { destruct (construct_spec ops e h ml ms Ho Hml) as (f' & _ & _ & EC' & _ & _ & Ee & _). congruence. }
  split; [exact HN|]. intros j Hj. specialize (HE j Hj). cbv zeta in HE. assert (H9 := initial_n_ge ml ms).
  assert (VB : vscale_col (interp (nth j ops (fun _ => 0)) N) <= V) by (apply vscale_interp; [lia|intros t Htt; now apply HV]).
  set (v := vscale_col _) in *. assert (M1 : Rmax h v <= Rmax h V) by (apply Rle_max_compat_l; exact VB).
  assert (M0 : 1 <= Rmax h v) by (eapply Rle_trans; [exact Hh|apply Rmax_l]).
  assert (T1 : Rmax h v * e <= Rmax h V * e) by (apply Rmult_le_compat_r; lra).
  assert (T0 : 0 < Rmax h v * e) by (apply Rmult_lt_0_compat; lra).
  assert (Te : e <= Rmax h V * e) by nra.
  assert (B : Rmax (Rpower (Rmax h v * e) (2 / 5)) (Rpower e (2 / 5)) <= Rpower (Rmax h V * e) (2 / 5)).
  { apply Rmax_lub; apply Rle_Rpower_l; lra. }
  destruct HE as [E1 E2]; [lra|]. assert (N0 := pos_INR N). split.
  - intros i Hi. cbv zeta. eapply Rle_trans; [apply E1; exact Hi|]. apply Rmult_le_compat_l; [exact N0|exact B].
  - intros HS x Hx. eapply Rle_trans; [apply E2; assumption|]. apply Rmult_le_compat_l; [exact N0|exact B].
Qed.

(** coefficients are bounded by twice the values *)
Lemma polyfit_bound v S k : (forall j, (j < length v)%nat -> Rabs (nth j v 0) <= S) -> 0 <= S -> Rabs (nth k (polyfit1 v) 0) <= 2 * S.
Proof.
  intros Hv S0. destruct (le_lt_dec (length v) k) as [G|G]; [rewrite nth_overflow, Rabs_R0 by (rewrite polyfit1_length; exact G); lra|].
  destruct (Nat.eq_dec (length v) 1) as [E1|N1].
  - unfold polyfit1. rewrite E1. cbn [Nat.eqb]. assert (X := Hv k G). lra.
  - rewrite (polyfit1_nth v (length v - 1)) by lia. rewrite !Rabs_mult. set (M := (length v - 1)%nat).
    assert (HM : 0 < INR M) by (apply lt_0_INR; unfold M; lia).
    assert (BB : Rabs (trap M (fun j => nth (M - j) v 0 * cos (PI * INR k * INR j / INR M))) <= INR M * S).
    { apply trap_bound. intros j Hj. rewrite Rabs_mult. assert (A := Hv (M - j)%nat ltac:(unfold M; lia)).
      assert (CB := COS_bound (PI * INR k * INR j / INR M)). assert (CA : Rabs (cos (PI * INR k * INR j / INR M)) <= 1) by (apply Rabs_le; lra).
      assert (P1 := Rabs_pos (nth (M - j) v 0)). assert (P2 := Rabs_pos (cos (PI * INR k * INR j / INR M))). nra. }
    set (t := Rabs (trap _ _)) in *. assert (T0 : 0 <= t) by apply Rabs_pos.
    assert (E1 : Rabs (2 / INR M) = 2 / INR M) by (apply Rabs_pos_eq; apply Rlt_le, Rdiv_lt_0_compat; lra). rewrite E1.
    assert (W : 0 <= Rabs (ew M k) <= 1) by (split; [apply Rabs_pos|]; unfold ew; destruct (_ || _)%bool; rewrite Rabs_pos_eq; lra).
    assert (Q : 2 / INR M * t <= 2 * S).
    { apply Rmult_le_reg_r with (INR M); [exact HM|]. replace (2 / INR M * t * INR M) with (2 * t) by (field; lra). lra. }
    assert (Q0 : 0 <= 2 / INR M * t) by (apply Rmult_le_pos; [apply Rlt_le, Rdiv_lt_0_compat; lra|exact T0]).
    replace (2 / INR M * Rabs (ew M k) * t) with (Rabs (ew M k) * (2 / INR M * t)) by ring. nra.
Qed.
(** a polynomial of degree below N that is small at N Chebyshev points is small *)
Lemma small_at_nodes N p S : (1 <= N)%nat -> spanT N p -> 0 <= S -> (forall i, (i < N)%nat -> Rabs (p (nth i (chebpts_type2_compute N) 0)) <= S) ->
  forall x, -1 <= x <= 1 -> Rabs (p x) <= INR N * (2 * S).
Proof.
  intros HN HS S0 H x Hx. rewrite <- (interp_span p N HN HS x). unfold evalT. rewrite interp_length.
  eapply Rle_trans; [apply rsum_Rabs|]. rewrite <- rsum_const. apply rsum_le. intros k Hk. rewrite Rabs_mult.
  assert (TB := T_bound k x Hx). apply Rle_trans with (2 * S * 1); [|lra]. apply Rmult_le_compat; try apply Rabs_pos; [|exact TB].
  unfold interp. apply polyfit_bound; [|exact S0]. intros j Hj. rewrite map_length, chebpts_length in Hj. rewrite nth_map_R by (rewrite chebpts_length; exact Hj). now apply H.
Qed.

(** ** ufuncs *)
Lemma nth_map_ops {A} (g : A -> R -> R) (l : list A) (d : A) j t : (j < length l)%nat -> nth j (map g l) (fun _ => 0) t = g (nth j l d) t.
Proof. intros Hj. rewrite (nth_indep _ (fun _ => 0) (g d)) by (rewrite map_length; exact Hj). now rewrite map_nth. Qed.
Lemma map_ne {A B} (g : A -> B) l : l <> [] -> map g l <> [].
Proof. destruct l; [congruence|discriminate]. Qed.

Definition grid_pt (F : Fun) (N i : nat) : R := map_fwd (dom0 F) (dom1 F) (nth i (chebpts_type2_compute N) 0).
Lemma fwd_ref a b t : map_fwd a b t = (b * (t + 1) + a * (1 - t)) / 2.
Proof. reflexivity. Qed.
Lemma fev_fwd F j t : dom0 F < dom1 F -> fev F j (map_fwd (dom0 F) (dom1 F) t) = ev (onefun F) j t.
Proof. intros Hd. unfold fev. f_equal. unfold map_fwd. field. lra. Qed.
Lemma fev_bwd F j x : fev F j x = ev (onefun F) j (map_bwd (dom0 F) (dom1 F) x).
Proof. reflexivity. Qed.
Lemma fwd_in a b t : a < b -> -1 <= t <= 1 -> a <= map_fwd a b t <= b.
Proof. intros H1 H2. unfold map_fwd. split; nra. Qed.

Theorem ufunc1_grid F u V : fwf F -> 0 < eps (onefun F) < 1 -> (17 <= maxLength (onefun F))%Z ->
  (forall j x, (j < fcols F)%nat -> dom0 F <= x <= dom1 F -> Rabs (u (fev F j x)) <= V) -> Rmax 1 V * eps (onefun F) < 1 ->
  exists G N, fun_ufunc1 u F = Some G /\ fwf G /\ same_dom F G /\ fcols G = fcols F /\ (17 <= N)%nat /\ (Z.of_nat N <= maxLength (onefun F))%Z /\
    forall j, (j < fcols F)%nat ->
      (forall i, (i < N)%nat -> Rabs (u (fev F j (grid_pt F N i)) - fev G j (grid_pt F N i)) <= INR N * Rpower (Rmax 1 V * eps (onefun F)) (2 / 5)) /\
      (spanT N (fun y => u (ev (onefun F) j y)) -> forall x, dom0 F <= x <= dom1 F -> Rabs (u (fev F j x) - fev G j x) <= INR N * Rpower (Rmax 1 V * eps (onefun F)) (2 / 5)).
Proof.
  intros [W Hd] He Hml HV HE. set (f := onefun F) in *.
  assert (No : forall j t, (j < ncols f)%nat -> nth j (map (fun c y => u (clenshaw_pt c y)) (coeffs f)) (fun _ => 0) t = u (ev f j t)).
  { intros j t Hj. rewrite (nth_map_ops _ _ []) by exact Hj. destruct (wf_pos f j W Hj) as [L1 L2]. rewrite clenshaw_pt_correct by lia. reflexivity. }
  assert (I17 : initial_n (maxLength f) 17 = 17%Z).
  { unfold initial_n. replace (Z.max 9 (Z.min (maxLength f) 17)) with 17%Z by lia. reflexivity. }
  destruct (construct_grid (map (fun c y => u (clenshaw_pt c y)) (coeffs f)) V (eps f) 1 (maxLength f) 17) as (g & N & EG & Wg & Cg & _ & HN & HG).
  - apply map_ne, wf_ne, W.
  - rewrite I17. exact Hml.
  - exact He.
  - lra.
  - intros j t Hj Ht. rewrite map_length in Hj. rewrite No by exact Hj. unfold f. rewrite <- (fev_fwd F j t Hd). apply HV; [exact Hj|]. now apply fwd_in.
  - exact HE.
  - rewrite map_length in Cg, HG. exists (mkFun g (dom0 F) (dom1 F)), N. rewrite I17 in HN.
    split; [unfold fun_ufunc1, cheb_ufunc1; rewrite dom_check_refl; fold f; rewrite EG; reflexivity|].
    split; [split; [exact Wg|exact Hd]|]. split; [split; reflexivity|]. split; [exact Cg|]. split; [lia|]. split; [lia|].
    intros j Hj. destruct (HG j Hj) as [G1 G2]. split.
    + intros i Hi. unfold grid_pt. rewrite (fev_fwd F) by exact Hd. set (G := mkFun g (dom0 F) (dom1 F)). change (dom0 F) with (dom0 G). change (dom1 F) with (dom1 G). rewrite (fev_fwd G) by exact Hd.
      specialize (G1 i Hi). cbv zeta in G1. rewrite No in G1 by exact Hj. exact G1.
    + intros HS x Hx. specialize (G2). assert (Q := bwd_ref F x Hd Hx). specialize (G2 (spanT_ext _ _ _ (fun t => eq_sym (No j t Hj)) HS) _ Q). rewrite No in G2 by exact Hj. exact G2.
Qed.

(** ** quotients *)
Lemma divide_grid_gen (num den : nat -> R -> R) ops nn nd m e ms V M : (1 <= m)%nat -> length ops = m -> 0 < e < 1 -> 0 <= M ->
  (forall j t, (j < m)%nat -> nth j ops (fun _ => 0) t = num j t / den j t) ->
  (forall j, (j < m)%nat -> spanT nn (num j) /\ spanT nd (den j)) -> (1 <= nd)%nat ->
  (forall j t, (j < m)%nat -> -1 <= t <= 1 -> den j t <> 0 /\ Rabs (den j t) <= M /\ Rabs (num j t / den j t) <= V) ->
  Rmax 1 V * e < 1 -> (Z.of_nat nn <= initial_n maxLength_default ms)%Z ->
  exists r N, construct ops e 1 maxLength_default ms = Some r /\ wf r /\ ncols r = m /\ eps r = e /\ (initial_n maxLength_default ms <= Z.of_nat N <= maxLength_default)%Z /\
    forall j, (j < m)%nat ->
      (forall i, (i < N)%nat -> let xi := nth i (chebpts_type2_compute N) 0 in Rabs (num j xi / den j xi - ev r j xi) <= INR N * Rpower (Rmax 1 V * e) (2 / 5)) /\
      ((len r + nd <= N + 1)%nat -> forall x, -1 <= x <= 1 -> Rabs (num j x - ev r j x * den j x) <= INR N * (2 * (M * (INR N * Rpower (Rmax 1 V * e) (2 / 5))))).
Proof.
  intros Hm Lo He HM No HS Hnd HD HE Hnn.
  destruct (construct_grid ops V e 1 maxLength_default ms) as (r & N & EG & Wr & Cr & Er & HN & HG).
  - destruct ops; [cbn in Lo; lia|discriminate].
  - apply initial_n_default.
  - exact He.
  - lra.
  - intros j t Hj Ht. rewrite Lo in Hj. rewrite No by exact Hj. now apply HD.
  - exact HE.
  - rewrite Lo in Cr. exists r, N. split; [exact EG|]. split; [exact Wr|]. split; [exact Cr|]. split; [exact Er|]. split; [exact HN|].
    assert (H9 := initial_n_ge maxLength_default ms). set (dl := Rpower (Rmax 1 V * e) (2 / 5)) in *. assert (D0 : 0 <= dl) by (left; apply exp_pos).
    assert (N0 := pos_INR N).
    intros j Hj. destruct (HG j ltac:(lia)) as [G1 _]. assert (GG : forall i, (i < N)%nat -> let xi := nth i (chebpts_type2_compute N) 0 in Rabs (num j xi / den j xi - ev r j xi) <= INR N * dl).
    { intros i Hi. specialize (G1 i Hi). cbv zeta in *. rewrite No in G1 by exact Hj. exact G1. }
    split; [exact GG|]. intros HL x Hx. destruct (HS j Hj) as [Sn Sd].
    assert (P0 : 0 <= M * (INR N * dl)) by (apply Rmult_le_pos; [exact HM|now apply Rmult_le_pos]).
    apply (small_at_nodes N (fun x => num j x - ev r j x * den j x)); [lia| |exact P0| |exact Hx].
    + apply spanT_ext with (fun x => num j x + (-1) * (ev r j x * den j x)); [intros y; ring|]. apply spanT_plus; [apply spanT_mono with nn; [lia|exact Sn]|].
      apply spanT_scal. apply spanT_mono with (len r + nd - 1)%nat; [lia|]. assert (Lr := wf_pos r j Wr ltac:(lia)). apply spanT_mul with (len r) nd; [lia|apply spanT_ev; [exact Wr|lia]|exact Sd].
    + intros i Hi. specialize (GG i Hi). cbv zeta in GG. set (xi := nth i _ 0) in *. assert (Hxi : -1 <= xi <= 1) by apply chebpts_range.
      destruct (HD j xi Hj Hxi) as (D1 & D2 & _). replace (num j xi - ev r j xi * den j xi) with (den j xi * (num j xi / den j xi - ev r j xi)) by (field; exact D1).
      rewrite Rabs_mult. apply Rmult_le_compat; try apply Rabs_pos; assumption.
Qed.
Lemma initial_n_min ml ms : (Z.min ml ms <= initial_n ml ms)%Z.
Proof.
  unfold initial_n. set (m := Z.max 9 (Z.min ml ms)). assert (9 <= m)%Z by lia.
  assert (L := Z.log2_up_spec (m - 1) ltac:(lia)). lia.
Qed.
Lemma fwf_bounds F (P : nat -> R -> Prop) : dom0 F < dom1 F -> (forall j x, (j < fcols F)%nat -> dom0 F <= x <= dom1 F -> P j x) ->
  forall j t, (j < fcols F)%nat -> -1 <= t <= 1 -> P j (map_fwd (dom0 F) (dom1 F) t).
Proof. intros Hd H j t Hj Ht. apply H; [exact Hj|]. now apply fwd_in. Qed.

Theorem divide_grid F G V M : fwf F -> fwf G -> same_dom F G -> fcols G = fcols F -> 0 < eps (onefun F) < 1 -> 0 < eps (onefun G) < 1 ->
  (Z.of_nat (flen F + flen G) <= maxLength_default)%Z ->
  (forall j x, (j < fcols F)%nat -> dom0 F <= x <= dom1 F -> fev G j x <> 0 /\ Rabs (fev G j x) <= M /\ Rabs (fev F j x / fev G j x) <= V) ->
  Rmax 1 V * Rmax (eps (onefun F)) (eps (onefun G)) < 1 ->
  exists Q N, fun_divide F G = Some Q /\ fwf Q /\ same_dom F Q /\ fcols Q = fcols F /\ (flen F + flen G <= N)%nat /\
    let err := INR N * Rpower (Rmax 1 V * Rmax (eps (onefun F)) (eps (onefun G))) (2 / 5) in
    forall j, (j < fcols F)%nat ->
      (forall i, (i < N)%nat -> let x := grid_pt F N i in Rabs (fev F j x / fev G j x - fev Q j x) <= err) /\
      ((flen Q + flen G <= N + 1)%nat -> forall x, dom0 F <= x <= dom1 F -> Rabs (fev F j x - fev Q j x * fev G j x) <= INR N * (2 * (M * err))).
Proof.
  intros [Wf Hd] [Wg Hg] [S0 S1] HC He1 He2 HL HD HE. set (f := onefun F) in *. set (g := onefun G) in *. set (e := Rmax (eps f) (eps g)) in *.
  assert (He : 0 < e < 1) by (unfold e, Rmax; destruct (Rle_dec _ _); lra).
  assert (Hm : (1 <= ncols f)%nat) by (apply wf_cols; exact Wf).
  assert (Cg : length (coeffs g) = length (coeffs f)) by exact HC.
  assert (Lc : length (combine (coeffs f) (coeffs g)) = ncols f) by (rewrite combine_length, Cg; unfold ncols; lia).
  assert (EG : forall j t, fev G j (map_fwd (dom0 F) (dom1 F) t) = ev g j t) by (intros j t; rewrite <- S0, <- S1; apply fev_fwd; exact Hg).
  assert (EF : forall j t, fev F j (map_fwd (dom0 F) (dom1 F) t) = ev f j t) by (intros j t; apply fev_fwd; exact Hd).
  assert (M0 : 0 <= M). { destruct (HD 0%nat (dom0 F) ltac:(exact Hm) ltac:(lra)) as (_ & B & _). eapply Rle_trans; [apply Rabs_pos|exact B]. }
  destruct (divide_grid_gen (ev f) (ev g) (map (fun p y => clenshaw_pt (fst p) y / clenshaw_pt (snd p) y) (combine (coeffs f) (coeffs g))) (len f) (len g) (ncols f) e (Z.of_nat (nrows (coeffs f) + nrows (coeffs g))) V M) as (r & N & EC & Wr & Cr & Er & HN & HR).
  - exact Hm.
  - rewrite map_length. exact Lc.
  - exact He.
  - exact M0.
  - intros j t Hj. rewrite (nth_map_ops _ _ ([], [])) by lia. rewrite combine_nth by lia. cbn [fst snd].
    destruct (wf_pos f j Wf Hj) as [L1 L2]. destruct (wf_pos g j Wg) as [L3 L4]; [unfold ncols in *; lia|]. rewrite !clenshaw_pt_correct by lia. reflexivity.
  - intros j Hj. split; apply spanT_ev; try assumption. unfold ncols in *; lia.
  - destruct (wf_pos g 0 Wg) as [_ L4]; [unfold ncols in *; lia|exact L4].
  - intros j t Hj Ht. assert (B := HD j _ Hj (fwd_in _ _ t Hd Ht)). rewrite EG, EF in B. exact B.
  - exact HE.
  - assert (X := initial_n_min maxLength_default (Z.of_nat (nrows (coeffs f) + nrows (coeffs g)))). change (flen F) with (nrows (coeffs f)) in HL. change (flen G) with (nrows (coeffs g)) in HL. unfold len. lia.
  - exists (mkFun r (dom0 F) (dom1 F)), N. set (Q := mkFun r (dom0 F) (dom1 F)).
    assert (X := initial_n_min maxLength_default (Z.of_nat (nrows (coeffs f) + nrows (coeffs g)))).
    split.
    { unfold fun_divide, fun_binary. rewrite dom_check_refl. replace (dom_check F G) with true by (symmetry; unfold dom_check; rewrite S0, S1; apply (dom_check_refl F)). cbn [andb]. fold f g. unfold cheb_divide. rewrite Cg, Nat.eqb_refl. fold e. rewrite EC. reflexivity. }
    split; [split; [exact Wr|exact Hd]|]. split; [split; reflexivity|]. split; [exact Cr|]. split.
    { change (flen F) with (nrows (coeffs f)) in *. change (flen G) with (nrows (coeffs g)) in *. lia. }
    cbv zeta. intros j Hj. destruct (HR j Hj) as [R1 R2].
    assert (EQ : forall t, fev Q j (map_fwd (dom0 F) (dom1 F) t) = ev r j t) by (intros t; change (dom0 F) with (dom0 Q); change (dom1 F) with (dom1 Q); apply (fev_fwd Q); exact Hd).
    split.
    + intros i Hi. unfold grid_pt. rewrite EG, EF, EQ. now apply R1.
    + intros Hlen x Hx. assert (Qx := bwd_ref F x Hd Hx). assert (A := R2 Hlen _ Qx). unfold fev. cbn [Q onefun dom0 dom1]. rewrite S0, S1. exact A.
Qed.
Theorem rdivide_grid a G V M : fwf G -> 0 < eps (onefun G) < 1 -> (Z.of_nat (2 * flen G) <= maxLength_default)%Z ->
  (forall j x, (j < fcols G)%nat -> dom0 G <= x <= dom1 G -> fev G j x <> 0 /\ Rabs (fev G j x) <= M /\ Rabs (a / fev G j x) <= V) ->
  Rmax 1 V * eps (onefun G) < 1 ->
  exists Q N, fun_rdivide a G = Some Q /\ fwf Q /\ same_dom G Q /\ fcols Q = fcols G /\ (2 * flen G <= N)%nat /\
    let err := INR N * Rpower (Rmax 1 V * eps (onefun G)) (2 / 5) in
    forall j, (j < fcols G)%nat ->
      (forall i, (i < N)%nat -> let x := grid_pt G N i in Rabs (a / fev G j x - fev Q j x) <= err) /\
      ((flen Q + flen G <= N + 1)%nat -> forall x, dom0 G <= x <= dom1 G -> Rabs (a - fev Q j x * fev G j x) <= INR N * (2 * (M * err))).
Proof.
  intros [Wg Hd] He HL HD HE. set (g := onefun G) in *.
  assert (Hm : (1 <= ncols g)%nat) by (apply wf_cols; exact Wg).
  assert (EG : forall j t, fev G j (map_fwd (dom0 G) (dom1 G) t) = ev g j t) by (intros j t; apply fev_fwd; exact Hd).
  assert (M0 : 0 <= M). { destruct (HD 0%nat (dom0 G) ltac:(exact Hm) ltac:(lra)) as (_ & B & _). eapply Rle_trans; [apply Rabs_pos|exact B]. }
  destruct (divide_grid_gen (fun _ _ => a) (ev g) (map (fun c y => a / clenshaw_pt c y) (coeffs g)) 1 (len g) (ncols g) (eps g) (Z.of_nat (2 * nrows (coeffs g))) V M) as (r & N & EC & Wr & Cr & Er & HN & HR).
  - exact Hm.
  - rewrite map_length. reflexivity.
  - exact He.
  - exact M0.
  - intros j t Hj. rewrite (nth_map_ops _ _ []) by exact Hj. destruct (wf_pos g j Wg Hj) as [L3 L4]. rewrite !clenshaw_pt_correct by lia. reflexivity.
  - intros j Hj. split; [|apply spanT_ev; assumption]. apply spanT_ext with (fun x => a * T 0 x); [intros x; cbn [T]; ring|]. apply spanT_scal. apply spanT_T. lia.
  - destruct (wf_pos g 0 Wg) as [_ L4]; [lia|exact L4].
  - intros j t Hj Ht. assert (B := HD j _ Hj (fwd_in _ _ t Hd Ht)). rewrite EG in B. exact B.
  - exact HE.
  - assert (X := initial_n_ge maxLength_default (Z.of_nat (2 * nrows (coeffs g)))). lia.
  - exists (mkFun r (dom0 G) (dom1 G)), N. set (Q := mkFun r (dom0 G) (dom1 G)).
    assert (X := initial_n_min maxLength_default (Z.of_nat (2 * nrows (coeffs g)))).
    split.
    { unfold fun_rdivide, cheb_rdivide. rewrite dom_check_refl. fold g. rewrite EC. reflexivity. }
    split; [split; [exact Wr|exact Hd]|]. split; [split; reflexivity|]. split; [exact Cr|]. split.
    { change (flen G) with (nrows (coeffs g)) in *. lia. }
    cbv zeta. intros j Hj. destruct (HR j Hj) as [R1 R2].
    assert (EQ : forall t, fev Q j (map_fwd (dom0 G) (dom1 G) t) = ev r j t) by (intros t; change (dom0 G) with (dom0 Q); change (dom1 G) with (dom1 Q); apply (fev_fwd Q); exact Hd).
    split.
    + intros i Hi. unfold grid_pt. rewrite EG, EQ. now apply R1.
    + intros Hlen x Hx. assert (Qx := bwd_ref G x Hd Hx). exact (R2 Hlen _ Qx).
Qed.

(** ** composition *)
Theorem compose_grid F u V : fwf F -> dom0 F <= -1 -> 1 <= dom1 F ->
  (forall j x, (j < fcols F)%nat -> -1 <= x <= 1 -> Rabs (u (fev F j x)) <= V) -> Rmax (Rmax (Rabs (dom0 F)) (Rabs (dom1 F))) V * eps_default < 1 ->
  exists G N, fun_compose F u = Some G /\ fwf G /\ same_dom F G /\ fcols G = fcols F /\ (17 <= N)%nat /\
    let err := INR N * Rpower (Rmax (Rmax (Rabs (dom0 F)) (Rabs (dom1 F))) V * eps_default) (2 / 5) in
    forall j, (j < fcols F)%nat ->
      (forall i, (i < N)%nat -> let t := nth i (chebpts_type2_compute N) 0 in Rabs (u (fev F j t) - fev G j (grid_pt F N i)) <= err) /\
      (spanT N (fun t => u (fev F j t)) -> forall t, -1 <= t <= 1 -> Rabs (u (fev F j t) - fev G j (map_fwd (dom0 F) (dom1 F) t)) <= err).
Proof.
  intros [W Hd] D0 D1 HV HE. set (f := onefun F) in *. set (h := Rmax (Rabs (dom0 F)) (Rabs (dom1 F))) in *.
  assert (Hh : 1 <= h) by (unfold h; eapply Rle_trans; [|apply Rmax_r]; rewrite Rabs_pos_eq; lra).
  set (ops := map (fun c x => u (clenshaw_pt c (map_bwd (dom0 F) (dom1 F) x))) (coeffs f)).
  assert (Lo : length ops = ncols f) by apply map_length.
  assert (No : forall j t, (j < ncols f)%nat -> nth j ops (fun _ => 0) t = u (fev F j t)).
  { intros j t Hj. unfold ops. rewrite (nth_map_ops _ _ []) by exact Hj. destruct (wf_pos f j W Hj) as [L1 L2]. rewrite clenshaw_pt_correct by lia. reflexivity. }
  destruct (construct_grid ops V eps_default h maxLength_default 17) as (g & N & EG & Wg & Cg & _ & HN & HG).
  - apply map_ne, wf_ne, W.
  - apply initial_n_default.
  - apply eps_default_range.
  - exact Hh.
  - intros j t Hj Ht. rewrite Lo in Hj. rewrite No by exact Hj. now apply HV.
  - exact HE.
  - rewrite Lo in Cg, HG. exists (mkFun g (dom0 F) (dom1 F)), N. set (G := mkFun g (dom0 F) (dom1 F)).
    split.
    { unfold fun_compose. assert (B1 := bwd_ref F (-1) Hd ltac:(lra)). assert (B2 := bwd_ref F 1 Hd ltac:(lra)). fold (map_bwd (dom0 F) (dom1 F) (-1)) in B1. fold (map_bwd (dom0 F) (dom1 F) 1) in B2.
      replace (Rleb (-1) (map_bwd (dom0 F) (dom1 F) (-1))) with true by (symmetry; apply Rleb_true; lra).
      replace (Rleb (map_bwd (dom0 F) (dom1 F) 1) 1) with true by (symmetry; apply Rleb_true; lra).
      replace (Rleb (-1) (map_bwd (dom0 F) (dom1 F) 1)) with true by (symmetry; apply Rleb_true; lra).
      replace (Rleb (map_bwd (dom0 F) (dom1 F) (-1)) 1) with true by (symmetry; apply Rleb_true; lra). cbn [andb]. fold f ops. unfold fun_hscale. fold h. rewrite EG. reflexivity. }
    split; [split; [exact Wg|exact Hd]|]. split; [split; reflexivity|]. split; [exact Cg|].
    split. { change (initial_n maxLength_default 17) with 17%Z in HN. lia. }
    cbv zeta. intros j Hj. destruct (HG j Hj) as [G1 G2].
    assert (EQ : forall t, fev G j (map_fwd (dom0 F) (dom1 F) t) = ev g j t) by (intros t; change (dom0 F) with (dom0 G); change (dom1 F) with (dom1 G); apply (fev_fwd G); exact Hd).
    split.
    + intros i Hi. unfold grid_pt. rewrite EQ. specialize (G1 i Hi). cbv zeta in G1. rewrite No in G1 by exact Hj. exact G1.
    + intros HS t Ht. rewrite EQ. specialize (G2 (spanT_ext _ _ _ (fun t => eq_sym (No j t Hj)) HS) t Ht). rewrite No in G2 by exact Hj. exact G2.
Qed.
Theorem compose_raises F u : dom0 F < dom1 F -> -1 < dom0 F \/ dom1 F < 1 -> fun_compose F u = None.
Proof.
  intros Hd H. unfold fun_compose.
  assert (L : forall x, map_bwd (dom0 F) (dom1 F) x * (dom1 F - dom0 F) = 2 * x - dom0 F - dom1 F) by (intros x; unfold map_bwd; field; lra).
  destruct H as [H|H].
  - replace (Rleb (-1) (map_bwd (dom0 F) (dom1 F) (-1))) with false; [reflexivity|]. symmetry. apply Rleb_false. assert (X := L (-1)). nra.
  - replace (Rleb (map_bwd (dom0 F) (dom1 F) 1) 1) with false; [rewrite andb_false_r; reflexivity|]. symmetry. apply Rleb_false. assert (X := L 1). nra.
Qed.

(** ** constants *)
Lemma interp_const v n : (1 <= n)%nat -> forall x, evalT (polyfit1 (repeat v n)) x = v.
Proof.
  intros Hn x. transitivity (evalT (interp (fun _ => v) n) x); [|apply (interp_span (fun _ => v) n Hn)].
  - unfold interp. do 2 f_equal. assert (L := chebpts_length n). revert L. generalize (chebpts_type2_compute n). clear. intros l <-. induction l; cbn; congruence.
  - apply spanT_mono with 1%nat; [lia|]. apply spanT_ext with (fun x => v * T 0 x); [intros y; cbn [T]; ring|]. apply spanT_scal. apply spanT_T. lia.
Qed.
Lemma nth_repeat_lt {A} (a d : A) n k : (k < n)%nat -> nth k (repeat a n) d = a.
Proof. revert k. induction n as [|n IH]; intros [|k] H; cbn; try lia; [reflexivity|]. apply IH. lia. Qed.
Lemma rect_repeat n m (c : list R) : (1 <= n)%nat -> (1 <= m)%nat -> length c = n -> rect n (repeat c m).
Proof.
  intros Hn Hm Hc. split; [exact Hn|]. split; [destruct m; [lia|discriminate]|]. apply Forall_forall. intros x Hx. apply repeat_spec in Hx. now subst.
Qed.
Theorem const_like_correct v F : fwf F -> exists G, fun_const_like v F = Some G /\ fwf G /\ same_dom F G /\ fcols G = fcols F /\ flen G = flen F /\
  forall j x, (j < fcols F)%nat -> fev G j x = v.
Proof.
  intros [W Hd]. set (f := onefun F) in *. assert (Hm := wf_cols f W). assert (Hn : (1 <= len f)%nat) by (apply (wf_pos f 0); [exact W|exact Hm]).
  set (A := repeat (polyfit1 (repeat v (nrows (coeffs f)))) (length (coeffs f))).
  assert (RA : rect (len f) A) by (apply rect_repeat; [exact Hn|exact Hm|rewrite polyfit1_length, repeat_length; reflexivity]).
  destruct (cheb_init_some (len f) A eps_default (fun_hscale (dom0 F) (dom1 F)) maxLength_default false RA) as (hp & E & _).
  set (g := mkCheb A eps_default (fun_hscale (dom0 F) (dom1 F)) maxLength_default hp) in *.
  exists (mkFun g (dom0 F) (dom1 F)). split.
  { unfold fun_const_like. fold f. unfold polyfit. replace (map polyfit1 (repeat (repeat v (nrows (coeffs f))) (length (coeffs f)))) with A.
    - rewrite E. reflexivity.
    - unfold A. generalize (length (coeffs f)). intros k. induction k; cbn; congruence. }
  split; [split; [exists (len f); exact RA|exact Hd]|]. split; [split; reflexivity|]. split; [unfold fcols, ncols; cbn [onefun g coeffs]; unfold A; apply repeat_length|].
  split; [unfold flen, len; cbn [onefun g coeffs]; rewrite (rect_nrows _ _ RA); reflexivity|].
  intros j x Hj. unfold fev, ev. cbn [onefun g coeffs]. unfold A. rewrite nth_repeat_lt by exact Hj. apply interp_const. exact Hn.
Qed.
Theorem const_correct v n a b : (1 <= n)%nat -> a < b -> exists G, fun_const v n a b = Some G /\ fwf G /\ dom0 G = a /\ dom1 G = b /\ fcols G = n /\ flen G = 1%nat /\
  forall j x, (j < n)%nat -> fev G j x = v.
Proof.
  intros Hn Hd. assert (RA : rect 1 (repeat [v] n)) by (apply rect_repeat; [lia|exact Hn|reflexivity]).
  destruct (cheb_init_some 1 (repeat [v] n) eps_default (fun_hscale a b) maxLength_default false RA) as (hp & E & _).
  set (g := mkCheb (repeat [v] n) eps_default (fun_hscale a b) maxLength_default hp) in *.
  exists (mkFun g a b). split; [unfold fun_const; rewrite E; reflexivity|]. split; [split; [exists 1%nat; exact RA|exact Hd]|]. split; [reflexivity|]. split; [reflexivity|].
  split; [unfold fcols, ncols; cbn [onefun g coeffs]; apply repeat_length|]. split; [unfold flen, len; cbn [onefun g coeffs]; apply (rect_nrows _ _ RA)|].
  intros j x Hj. unfold fev, ev. cbn [onefun g coeffs]. rewrite nth_repeat_lt by exact Hj. unfold evalT. cbn. ring.
Qed.
Theorem asfun_correct v a b : a < b -> exists G, asfun_number v a b = Some G /\ fwf G /\ dom0 G = a /\ dom1 G = b /\ fcols G = 1%nat /\ forall x, fev G 0 x = v.
Proof.
  intros Hd. assert (RA : rect 1 [[v]]) by (split; [lia|]; split; [discriminate|]; constructor; [reflexivity|constructor]).
  unfold asfun_number, cheb_init. destruct (Nat.eqb_spec (nrows [[v]] * length [[v]]) 0) as [E|_]; [cbn in E; lia|].
  destruct (happy_total [[v]] eps_default (fun_hscale a b) ltac:(discriminate)) as [[hp k] Eh]. rewrite Eh. cbn [option_map fst andb].
  assert (EV : forall c x, c = [v] \/ (exists K, (1 <= K)%nat /\ c = prolong1 [v] (Z.of_nat K)) -> evalT c x = v).
  { intros c x [->|(K & HK & ->)]; [unfold evalT; cbn; ring|]. rewrite FqrMain.evalT_prolong by (cbn; lia). unfold evalT. cbn. ring. }
  destruct hp.
  - destruct (simplify_coeffs_spec 1 [[v]] eps_default RA) as (K & HK & E & _). rewrite E. cbn [option_map]. eexists. split; [reflexivity|].
    split; [split; [exists K; apply (rect_prolong 1); [exact RA|lia]|exact Hd]|]. split; [reflexivity|]. split; [reflexivity|]. split; [reflexivity|].
    intros x. unfold fev, ev. cbn [onefun coeffs]. rewrite nth_prolong by (cbn; lia). cbn [nth]. apply EV. right. exists K. split; [lia|reflexivity].
  - cbn [option_map]. eexists. split; [reflexivity|]. split; [split; [exists 1%nat; exact RA|exact Hd]|]. split; [reflexivity|]. split; [reflexivity|]. split; [reflexivity|].
    intros x. unfold fev, ev. cbn [onefun coeffs nth]. apply EV. now left.
Qed.
