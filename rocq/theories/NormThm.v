(** Proofs about the norms. *)
From Coq Require Import Reals ZArith List Arith Bool Lra Lia.
From Coquelicot Require Import Coquelicot.
From Verif Require Import Base ChebSpec ChebMath ChebDct ChebModel ChebModel2 ChebEval ChebCalc ChebChop ChebObj ChebOps ChebArith ChebConstr ChebRefute RootsMin FunModel FunProofs RootsModel FqrFun NormSpec NormModel NormProofs NormAlias.
Import ListNotations.
Open Scope R_scope.

Lemma initial_n_pow2 k ms : (3 <= k)%Z -> (initial_n (2 ^ k + 1) ms <= 2 ^ k + 1)%Z.
Proof.
  intros Hk. unfold initial_n. assert (P : (2 ^ 3 <= 2 ^ k)%Z) by (apply Z.pow_le_mono_r; lia). set (m := Z.max 9 (Z.min (2 ^ k + 1) ms)). assert (Hm : (9 <= m <= 2 ^ k + 1)%Z) by lia.
  assert (L : (Z.log2_up (m - 1) <= k)%Z) by (rewrite <- (Z.log2_up_pow2 k) by lia; apply Z.log2_up_le_mono; lia).
  assert (2 ^ Z.log2_up (m - 1) <= 2 ^ k)%Z by (apply Z.pow_le_mono_r; lia). lia.
Qed.
Lemma initial_n_default ms : (initial_n maxLength_default ms <= maxLength_default)%Z.
Proof. change maxLength_default with (2 ^ 14 + 1)%Z. apply initial_n_pow2. lia. Qed.

Lemma spanT_pow n f p : (1 <= n)%nat -> spanT n f -> spanT (p * (n - 1) + 1) (fun x => f x ^ p).
Proof.
  intros Hn H. induction p as [|p IH].
  - exists [1]. split; [cbn; lia|]. intros x. cbn. ring.
  - apply spanT_ext with (fun x => f x * f x ^ p); [intros x; reflexivity|]. apply spanT_mul with n (p * (n - 1) + 1)%nat; [lia|exact H|exact IH].
Qed.
Lemma wf_pos f j : wf f -> (j < ncols f)%nat -> length (nth j (coeffs f) []) = len f /\ (1 <= len f)%nat.
Proof. intros [n HR] Hj. rewrite (rect_nth n) by assumption. unfold len. rewrite (rect_nrows n _ HR). destruct HR. split; [reflexivity|assumption]. Qed.
Lemma spanT_ev f j : wf f -> (j < ncols f)%nat -> spanT (len f) (ev f j).
Proof. intros W Hj. destruct (wf_pos f j W Hj) as [L _]. rewrite <- L. exists (nth j (coeffs f) []). split; [lia|reflexivity]. Qed.
Lemma wf_ne f : wf f -> coeffs f <> [].
Proof. intros [n HR]. apply HR. Qed.
Lemma wf_cols f : wf f -> (1 <= ncols f)%nat.
Proof. intros W. apply wf_ne in W. unfold ncols. destruct (coeffs f); [congruence|cbn; lia]. Qed.

(** bounds on the domain and on the reference interval *)
Lemma fev_ref F V : fwf F -> (forall j x, (j < fcols F)%nat -> dom0 F <= x <= dom1 F -> Rabs (fev F j x) <= V) ->
  forall j t, (j < fcols F)%nat -> -1 <= t <= 1 -> Rabs (ev (onefun F) j t) <= V.
Proof.
  intros [_ Hd] H j t Hj Ht. assert (B := H j _ Hj (fwd_dom _ _ t Hd Ht)). unfold fev in B. rewrite bwd_fwd' in B by exact Hd. exact B.
Qed.
Lemma bwd_ref F x : dom0 F < dom1 F -> dom0 F <= x <= dom1 F -> -1 <= (2 * x - dom0 F - dom1 F) / (dom1 F - dom0 F) <= 1.
Proof.
  intros Hd Hx. split.
  - apply Rmult_le_reg_r with (dom1 F - dom0 F); [lra|]. unfold Rdiv. rewrite Rmult_assoc, Rinv_l by lra. lra.
  - apply Rmult_le_reg_r with (dom1 F - dom0 F); [lra|]. unfold Rdiv. rewrite Rmult_assoc, Rinv_l by lra. lra.
Qed.

(** the p-th power of a function with few coefficients *)
Lemma fun_power_near F p V : fwf F -> (2 <= p)%nat -> (p * (flen F - 1) <= 8)%nat -> 0 < eps (onefun F) < 1 ->
  (forall j x, (j < fcols F)%nat -> dom0 F <= x <= dom1 F -> Rabs (fev F j x) <= V) -> Rmax 1 (V ^ p) * eps (onefun F) < 1 ->
  exists G, fun_power F p = Some G /\ fwf G /\ same_dom F G /\ fcols G = fcols F /\ eps (onefun G) = eps (onefun F) /\
    forall j x, (j < fcols F)%nat -> dom0 F <= x <= dom1 F ->
      Rabs (fev F j x ^ p - fev G j x) <= INR (p * (flen F - 1) + 1) * Rpower (Rmax 1 (V ^ p) * eps (onefun F)) (2 / 5).
Proof.
  intros [W Hd] Hp Hn He HV HE. set (f := onefun F) in *. assert (HV' := fev_ref F V (conj W Hd) HV). fold f in HV'.
  assert (Lo : length (map (fun c y => clenshaw_pt c y ^ p) (coeffs f)) = ncols f) by apply map_length.
  assert (No : forall j t, (j < ncols f)%nat -> nth j (map (fun c y => clenshaw_pt c y ^ p) (coeffs f)) (fun _ => 0) t = ev f j t ^ p).
  { intros j t Hj. rewrite (nth_indep _ (fun _ => 0) ((fun c y => clenshaw_pt c y ^ p) [])) by (rewrite Lo; exact Hj). rewrite (map_nth (fun c y => clenshaw_pt c y ^ p)).
    destruct (wf_pos f j W Hj) as [L1 L2]. rewrite clenshaw_pt_correct by lia. reflexivity. }
  destruct (construct_near (map (fun c y => clenshaw_pt c y ^ p) (coeffs f)) (fun j t => ev f j t ^ p) (p * (flen F - 1) + 1) (V ^ p) (eps f) 1 maxLength_default (Z.of_nat (nrows (coeffs f)))) as (g & Eg & Wg & Cg & Pg & Hg).
  - intros E. apply (wf_ne f W). destruct (coeffs f); [reflexivity|discriminate].
  - apply initial_n_default.
  - exact He.
  - lra.
  - assert (H9 := initial_n_ge maxLength_default (Z.of_nat (nrows (coeffs f)))). lia.
  - intros j Hj. rewrite Lo in Hj. apply spanT_pow; [apply (wf_pos f j W Hj)|apply spanT_ev; assumption].
  - intros j t Hj Ht. rewrite Lo in Hj. split; [now apply No|]. rewrite <- RPow_abs. apply pow_incr. split; [apply Rabs_pos|]. now apply HV'.
  - exact HE.
  - rewrite Lo in Cg, Hg. exists (mkFun g (dom0 F) (dom1 F)). unfold fun_power, cheb_power. rewrite dom_check_refl. fold f. destruct (Nat.eqb_spec p 1); [lia|]. rewrite Eg.
    split; [reflexivity|]. split; [split; assumption|]. split; [split; reflexivity|]. split; [exact Cg|]. split; [exact Pg|].
    intros j x Hj Hx. unfold fev. cbn [onefun dom0 dom1]. fold f. apply Hg; [exact Hj|now apply bwd_ref].
Qed.

(** |f|: the columns keep their signs *)
Lemma fun_absolute_near F V : fwf F -> (flen F <= 513)%nat -> 0 < eps (onefun F) < 1 ->
  (forall j, (j < fcols F)%nat -> (forall x, dom0 F <= x <= dom1 F -> 0 <= fev F j x) \/ (forall x, dom0 F <= x <= dom1 F -> fev F j x <= 0)) ->
  (forall j x, (j < fcols F)%nat -> dom0 F <= x <= dom1 F -> Rabs (fev F j x) <= V) -> Rmax 1 V * eps (onefun F) < 1 ->
  exists G, fun_absolute F = Some G /\ fwf G /\ same_dom F G /\ fcols G = fcols F /\ eps (onefun G) = eps (onefun F) /\
    forall j x, (j < fcols F)%nat -> dom0 F <= x <= dom1 F ->
      Rabs (Rabs (fev F j x) - fev G j x) <= INR (flen F) * Rpower (Rmax 1 V * eps (onefun F)) (2 / 5).
Proof.
  intros [W Hd] Hn He HS HV HE. set (f := onefun F) in *. assert (HV' := fev_ref F V (conj W Hd) HV). fold f in HV'.
  assert (HQ : forall j, exists s, (j < ncols f)%nat -> forall t, -1 <= t <= 1 -> Rabs (ev f j t) = s * ev f j t).
  { intros j. destruct (lt_dec j (ncols f)) as [Hj|]; [|exists 0; intros; lia]. destruct (HS j Hj) as [H|H].
    - exists 1. intros _ t Ht. assert (B := H _ (fwd_dom _ _ t Hd Ht)). unfold fev in B. rewrite bwd_fwd' in B by exact Hd. fold f in B. rewrite Rabs_pos_eq by exact B. ring.
    - exists (-1). intros _ t Ht. assert (B := H _ (fwd_dom _ _ t Hd Ht)). unfold fev in B. rewrite bwd_fwd' in B by exact Hd. fold f in B. rewrite Rabs_left1 by exact B. ring. }
  assert (HQ' : exists s, forall j, (j < ncols f)%nat -> forall t, -1 <= t <= 1 -> Rabs (ev f j t) = s j * ev f j t).
  { clear - HQ. assert (A : forall m, exists s : nat -> R, forall j, (j < m)%nat -> (j < ncols f)%nat -> forall t, -1 <= t <= 1 -> Rabs (ev f j t) = s j * ev f j t).
    { induction m as [|m [s Hs]]; [exists (fun _ => 0); intros; lia|]. destruct (HQ m) as [r Hr]. exists (fun j => if Nat.eqb j m then r else s j). intros j Hj Hj'. destruct (Nat.eqb_spec j m) as [->|]; [now apply Hr|]. apply Hs; [lia|exact Hj']. }
    destruct (A (ncols f)) as [s Hs]. exists s. intros j Hj. now apply Hs. }
  destruct HQ' as [s Hs]. clear HQ.
  assert (Lo : length (map (fun c y => Rabs (clenshaw_pt c y)) (coeffs f)) = ncols f) by apply map_length.
  assert (No : forall j t, (j < ncols f)%nat -> nth j (map (fun c y => Rabs (clenshaw_pt c y)) (coeffs f)) (fun _ => 0) t = Rabs (ev f j t)).
  { intros j t Hj. rewrite (nth_indep _ (fun _ => 0) ((fun c y => Rabs (clenshaw_pt c y)) [])) by (rewrite Lo; exact Hj). rewrite (map_nth (fun c y => Rabs (clenshaw_pt c y))).
    destruct (wf_pos f j W Hj) as [L1 L2]. rewrite clenshaw_pt_correct by lia. reflexivity. }
  change (flen F) with (len f) in *. change (fcols F) with (ncols f) in *.
  assert (N1 : (1 <= len f)%nat) by (apply (wf_pos f 0 W), wf_cols; exact W).
  assert (Hin : (Z.of_nat (len f) <= initial_n (2 ^ 10) (Z.of_nat (len f)) <= 2 ^ 10)%Z).
  { unfold initial_n. set (m := Z.max 9 (Z.min (2 ^ 10) (Z.of_nat (len f)))). assert (Hm : (9 <= m <= 513)%Z) by lia. assert (Hm' : (Z.of_nat (len f) <= m)%Z) by lia.
    assert (U := Z.log2_up_spec (m - 1) ltac:(lia)). assert (L : (Z.log2_up (m - 1) <= 9)%Z) by (change 9%Z with (Z.log2_up 512); apply Z.log2_up_le_mono; lia).
    assert (2 ^ Z.log2_up (m - 1) <= 2 ^ 9)%Z by (apply Z.pow_le_mono_r; lia). split; [lia|]. change (2 ^ 9)%Z with 512%Z in *. change (2 ^ 10)%Z with 1024%Z. lia. }
  destruct (construct_near (map (fun c y => Rabs (clenshaw_pt c y)) (coeffs f)) (fun j t => s j * ev f j t) (len f) V (eps f) 1 (2 ^ 10) (Z.of_nat (nrows (coeffs f)))) as (g & Eg & Wg & Cg & Pg & Hg).
  - intros E. apply (wf_ne f W). destruct (coeffs f); [reflexivity|discriminate].
  - apply Hin.
  - exact He.
  - lra.
  - apply Hin.
  - intros j Hj. rewrite Lo in Hj. apply spanT_scal. apply spanT_ev; assumption.
  - intros j t Hj Ht. rewrite Lo in Hj. rewrite No by exact Hj. rewrite <- Hs by assumption. split; [reflexivity|]. rewrite Rabs_Rabsolu. now apply HV'.
  - exact HE.
  - rewrite Lo in Cg, Hg. exists (mkFun g (dom0 F) (dom1 F)). unfold fun_absolute, cheb_absolute. rewrite dom_check_refl. fold f. rewrite Eg.
    split; [reflexivity|]. split; [split; assumption|]. split; [split; reflexivity|]. split; [exact Cg|]. split; [exact Pg|].
    intros j x Hj Hx. unfold fev. cbn [onefun dom0 dom1]. fold f. assert (R := bwd_ref F x Hd Hx). rewrite Hs by assumption. now apply Hg.
Qed.

(** ** norms *)
Lemma norm2_even_near F p V : fwf F -> (2 <= p)%nat -> Nat.even p = true -> (p * (flen F - 1) <= 8)%nat -> 0 < eps (onefun F) < 1 ->
  (forall j x, (j < fcols F)%nat -> dom0 F <= x <= dom1 F -> Rabs (fev F j x) <= V) -> Rmax 1 (V ^ p) * eps (onefun F) < 1 ->
  exists s I, fun_norm2 F p = Some s /\ Lp_power (dom0 F) (dom1 F) (fcols F) p (fev F) I /\ 0 <= I /\
    Rabs (s - I) <= INR (fcols F) * ((dom1 F - dom0 F) * (INR (p * (flen F - 1) + 1) * Rpower (Rmax 1 (V ^ p) * eps (onefun F)) (2 / 5))).
Proof.
  intros WF Hp Ev Hn He HV HE. destruct (fun_power_near F p V WF Hp Hn He HV HE) as (G & EG & WG & (S1 & S2) & CG & _ & HG).
  destruct (Lp_power_ex F (fcols F) p) as (I & (J & HJ & EI) & I0). exists (lsum (fun_sum G)), I.
  split; [|split; [exists J; split; assumption|split; [apply I0; destruct WF; lra|]]].
  - unfold fun_norm2, norm2_detail. destruct (Nat.eqb_spec p 0); [lia|]. destruct (Nat.eqb_spec p 1); [lia|]. rewrite <- Nat.negb_even, Ev. cbn [negb]. rewrite EG. reflexivity.
  - rewrite EI, <- CG, <- S1, <- S2. apply (sum_near G (fun j x => Rabs (fev F j x) ^ p)); [exact WG| |].
    + intros j Hj. rewrite CG in Hj. rewrite S1, S2. now apply HJ.
    + intros j x Hj Hx. rewrite CG in Hj. rewrite S1, S2 in *. rewrite RPow_abs. rewrite (Rabs_pos_eq (fev F j x ^ p)); [now apply HG|]. clear - Ev. apply Nat.even_spec in Ev. destruct Ev as [m ->]. rewrite pow_mult. apply pow_le. nra.
Qed.
Lemma norm_even_near F p V : fwf F -> (2 <= p)%nat -> Nat.even p = true -> (p * (flen F - 1) <= 8)%nat -> 0 < eps (onefun F) < 1 ->
  (forall j x, (j < fcols F)%nat -> dom0 F <= x <= dom1 F -> Rabs (fev F j x) <= V) -> Rmax 1 (V ^ p) * eps (onefun F) < 1 ->
  exists v, fun_norm F p = Some v /\ Lp_norm_near (dom0 F) (dom1 F) (fcols F) p (fev F) v
    (INR (fcols F) * ((dom1 F - dom0 F) * (INR (p * (flen F - 1) + 1) * Rpower (Rmax 1 (V ^ p) * eps (onefun F)) (2 / 5)))).
Proof.
  intros WF Hp Ev Hn He HV HE. destruct (norm2_even_near F p V WF Hp Ev Hn He HV HE) as (s & I & Es & HI & I0 & HD).
  destruct (nroot_some p (Rabs s) ltac:(lia) (Rabs_pos s)) as (v & Ev' & v0 & vp). exists v. split.
  - unfold fun_norm2 in Es. unfold fun_norm, norm_detail. destruct (Nat.eqb_spec p 0); [lia|]. rewrite Es. cbn [option_map]. rewrite <- Nat.negb_even, Ev. cbn [negb]. destruct (Nat.eqb_spec p 1); [lia|]. exact Ev'.
  - split; [exact v0|]. exists I. split; [exact HI|]. rewrite vp. eapply Rle_trans; [|exact HD]. eapply Rle_trans; [|apply Rabs_triang_inv2]. rewrite (Rabs_pos_eq I) by exact I0. lra.
Qed.
Lemma norm2_one_near F V : fwf F -> (flen F <= 513)%nat -> 0 < eps (onefun F) < 1 ->
  (forall j, (j < fcols F)%nat -> (forall x, dom0 F <= x <= dom1 F -> 0 <= fev F j x) \/ (forall x, dom0 F <= x <= dom1 F -> fev F j x <= 0)) ->
  (forall j x, (j < fcols F)%nat -> dom0 F <= x <= dom1 F -> Rabs (fev F j x) <= V) -> Rmax 1 V * eps (onefun F) < 1 ->
  exists s I, fun_norm2 F 1 = Some s /\ fun_norm F 1 = Some s /\ Lp_power (dom0 F) (dom1 F) (fcols F) 1 (fev F) I /\
    Rabs (s - I) <= INR (fcols F) * ((dom1 F - dom0 F) * (INR (flen F) * Rpower (Rmax 1 V * eps (onefun F)) (2 / 5))).
Proof.
  intros WF Hn He HS HV HE. destruct (fun_absolute_near F V WF Hn He HS HV HE) as (G & EG & WG & (S1 & S2) & CG & _ & HG).
  destruct (Lp_power_ex F (fcols F) 1) as (I & (J & HJ & EI) & I0). exists (lsum (fun_sum G)), I.
  assert (E : fun_norm2 F 1 = Some (lsum (fun_sum G))) by (unfold fun_norm2, norm2_detail; cbn [Nat.eqb]; rewrite EG; reflexivity).
  split; [exact E|]. split; [|split; [exists J; split; assumption|]].
  - unfold fun_norm2 in E. unfold fun_norm, norm_detail. cbn [Nat.eqb] in *. rewrite E. reflexivity.
  - rewrite EI, <- CG, <- S1, <- S2. apply (sum_near G (fun j x => Rabs (fev F j x) ^ 1)); [exact WG| |].
    + intros j Hj. rewrite CG in Hj. rewrite S1, S2. now apply HJ.
    + intros j x Hj Hx. rewrite CG in Hj. rewrite S1, S2 in *. rewrite pow_1. now apply HG.
Qed.
