(** Proofs: weighted norm, Sobolev norms, signed norms, normalisation, maximum norm. *)
From Coq Require Import Reals ZArith List Arith Bool Lra Lia.
From Coquelicot Require Import Coquelicot.
From Verif Require Import Base ChebSpec ChebMath ChebDct ChebModel ChebModel2 ChebEval ChebCalc ChebChop ChebObj ChebOps ChebArith ChebConstr ChebRefute RootsMin RootsObj RootsSpec FunModel FunProofs RootsModel FqrFun NormSpec NormModel NormProofs NormAlias NormThm NormEx.
Import ListNotations.
Open Scope R_scope.

(** ** weighted norm *)
Lemma norm_weighted F : fwf F -> exists v (W : nat -> R), fun_norm_weighted F 2 = Some v /\ 0 <= v /\ v ^ 2 = rsum (fcols F) W /\
  forall j, (j < fcols F)%nat -> is_RInt (fun t => fev F j (map_fwd (dom0 F) (dom1 F) (cos t)) ^ 2 * ((dom1 F - dom0 F) / 2)) 0 PI (W j).
Proof.
  intros WF. assert (M := wf_cols _ (proj1 WF)). destruct (fun_innerw_correct F F 0 WF WF eq_refl eq_refl M M) as (V & EV & _).
  assert (HW : forall j, (j < fcols F)%nat -> is_RInt (fun t => fev F j (map_fwd (dom0 F) (dom1 F) (cos t)) ^ 2 * ((dom1 F - dom0 F) / 2)) 0 PI (nth j V 0)).
  { intros j Hj. destruct (fun_innerw_correct F F j WF WF eq_refl eq_refl Hj Hj) as (V' & EV' & H). rewrite EV in EV'. injection EV' as <-. eapply is_RInt_ext; [|exact H]. intros t _. cbv beta. change (@eq R (fev F j (map_fwd (dom0 F) (dom1 F) (cos t)) * fev F j (map_fwd (dom0 F) (dom1 F) (cos t)) * ((dom1 F - dom0 F) / 2)) (fev F j (map_fwd (dom0 F) (dom1 F) (cos t)) ^ 2 * ((dom1 F - dom0 F) / 2))). ring. }
  assert (LV : length V = fcols F).
  { clear - EV. unfold fun_innerw in EV. destruct (dom_eqb F F); [|discriminate]. injection EV as <-. rewrite map_length. unfold cheb_innerw. rewrite mk_length. reflexivity. }
  assert (ES : lsum V = rsum (fcols F) (fun j => nth j V 0)) by (rewrite lsum_rsum, LV; reflexivity).
  assert (S0 : 0 <= lsum V).
  { rewrite ES. apply rsum_nonneg. intros j Hj. assert (H := HW j Hj). assert (P := PI_RGT_0). eapply (is_RInt_le (fun _ => 0) _ 0 PI 0 _ (Rlt_le _ _ P)); [|exact H|].
    - evar_last; [apply (is_RInt_const (V := R_NormedModule))|]. change ((PI - 0) * 0 = 0). ring.
    - intros t _. destruct WF. apply Rmult_le_pos; [apply pow2_ge_0|lra]. }
  destruct (nroot_some 2 (lsum V) ltac:(lia) S0) as (v & Ev & v0 & vp). exists v, (fun j => nth j V 0).
  split; [|split; [exact v0|split; [now rewrite vp|exact HW]]]. unfold fun_norm_weighted. cbn [Nat.eqb]. rewrite EV. exact Ev.
Qed.

(** ** Sobolev norms *)
Lemma wkp_loop_spec k : forall F p acc (G : nat -> Fun) (s : nat -> R), G 0%nat = F -> (forall i, (i < k)%nat -> fun_diff (G i) 1 = Some (G (S i))) ->
  (forall i, (1 <= i <= k)%nat -> fun_norm2 (G i) p = Some (s i)) -> wkp_loop k F p acc = Some (acc + rsum k (fun i => s (S i))).
Proof.
  induction k as [|k IH]; intros F p acc G s H0 HD HN; cbn [wkp_loop]; [cbn [rsum]; f_equal; ring|].
  rewrite <- H0, (HD 0%nat) by lia. rewrite (HN 1%nat) by lia. rewrite (IH (G 1%nat) p (acc + s 1%nat) (fun i => G (S i)) (fun i => s (S i))).
  - rewrite (rsum_S_l k). f_equal. ring.
  - reflexivity.
  - intros i Hi. apply HD. lia.
  - intros i Hi. apply HN. lia.
Qed.
Lemma Lp_unique a b m p f I I' : Lp_power a b m p f I -> Lp_power a b m p f I' -> I = I'.
Proof.
  intros (J & HJ & ->) (J' & HJ' & ->). apply rsum_ext. intros j Hj. assert (A := HJ j Hj). assert (B := HJ' j Hj). apply (is_RInt_unique (V := R_CompleteNormedModule)) in A. apply (is_RInt_unique (V := R_CompleteNormedModule)) in B. now rewrite <- A, <- B.
Qed.
(** error allowed for one term *)
Definition norm_err (F : Fun) (p : nat) (V : R) : R :=
  INR (fcols F) * ((dom1 F - dom0 F) * (INR (p * (flen F - 1) + 1) * Rpower (Rmax 1 (V ^ p) * eps (onefun F)) (2 / 5))).
Lemma list_choice (P : nat -> R -> Prop) k : (forall i, (i <= k)%nat -> exists r, P i r) -> exists s, forall i, (i <= k)%nat -> P i (s i).
Proof.
  induction k as [|k IH]; intros H.
  - destruct (H 0%nat (le_n _)) as [r Hr]. exists (fun _ => r). intros i Hi. replace i with 0%nat by lia. exact Hr.
  - destruct IH as [s Hs]; [intros i Hi; apply H; lia|]. destruct (H (S k) (le_n _)) as [r Hr]. exists (fun i => if Nat.eqb i (S k) then r else s i). intros i Hi.
    destruct (Nat.eqb_spec i (S k)) as [->|]; [exact Hr|]. apply Hs. lia.
Qed.
Lemma wkpnorm_near F p k (G : nat -> Fun) (V : nat -> R) : G 0%nat = F -> (forall i, (i < k)%nat -> fun_diff (G i) 1 = Some (G (S i))) ->
  (2 <= p)%nat -> Nat.even p = true ->
  (forall i, (i <= k)%nat -> fwf (G i) /\ (p * (flen (G i) - 1) <= 8)%nat /\ 0 < eps (onefun (G i)) < 1 /\ Rmax 1 (V i ^ p) * eps (onefun (G i)) < 1 /\
     forall j x, (j < fcols (G i))%nat -> dom0 (G i) <= x <= dom1 (G i) -> Rabs (fev (G i) j x) <= V i) ->
  forall I : nat -> R, (forall i, (i <= k)%nat -> Lp_power (dom0 (G i)) (dom1 (G i)) (fcols (G i)) p (fev (G i)) (I i)) ->
  rsum (S k) (fun i => norm_err (G i) p (V i)) <= rsum (S k) I ->
  exists v, fun_wkpnorm F p k = Some v /\ 0 <= v /\ Rabs (v ^ p - rsum (S k) I) <= rsum (S k) (fun i => norm_err (G i) p (V i)).
Proof.
  intros H0 HD Hp He HG I HI HB.
  destruct (list_choice (fun i r => fun_norm2 (G i) p = Some r /\ Rabs (r - I i) <= norm_err (G i) p (V i)) k) as [s Hs].
  { intros i Hi. destruct (HG i Hi) as (W & L & E & B & HV). destruct (norm2_even_near (G i) p (V i) W Hp He L E HV B) as (r & I' & Er & HI' & _ & HB'). exists r. split; [exact Er|].
    rewrite (Lp_unique _ _ _ _ _ _ _ (HI i Hi) HI'). exact HB'. }
  assert (D : Rabs (rsum (S k) s - rsum (S k) I) <= rsum (S k) (fun i => norm_err (G i) p (V i))).
  { rewrite <- rsum_minus. eapply Rle_trans; [apply rsum_Rabs|]. apply rsum_le. intros i Hi. apply Hs. lia. }
  assert (S0 : 0 <= rsum (S k) s) by (apply Rabs_le_between in D; lra).
  destruct (nroot_some p _ ltac:(lia) S0) as (v & Ev & v0 & vp). exists v. split; [|split; [exact v0|now rewrite vp]].
  unfold fun_wkpnorm. destruct (Hs 0%nat ltac:(lia)) as [E0 _]. rewrite H0 in E0. rewrite E0. rewrite (wkp_loop_spec k F p (s 0%nat) G s H0 HD); [|intros i Hi; apply Hs; lia]. rewrite <- (rsum_S_l k s). exact Ev.
Qed.

(** ** quotient by a number: length *)
Lemma divide_number_len f a r : wf f -> divide_number f a = Some r -> (len r <= len f + 1)%nat.
Proof.
  intros W. unfold divide_number, cheb_init. set (B := map _ (coeffs f)).
  assert (RB : rect (len f) B) by (apply (rect_map (len f)); [apply wf_rect; exact W|apply len_pos; exact W|intros c Hc; rewrite map_length; exact Hc]).
  destruct (Nat.eqb _ 0); [discriminate|]. destruct (if ishappy f then _ else _) as [hp|]; [|discriminate].
  destruct hp; cbn [andb].
  - destruct (simplify_coeffs_spec (len f) B (eps f) RB) as (K & HK & E & _). rewrite E. cbn [option_map]. intros Er. assert (Er' : coeffs r = prolong B (Z.of_nat K)) by (injection Er as <-; reflexivity). unfold len at 1. rewrite Er'. rewrite (rect_nrows K); [lia|]. apply (rect_prolong (len f)); [exact RB|lia].
  - intros Er. assert (Er' : coeffs r = B) by (injection Er as <-; reflexivity). unfold len at 1. rewrite Er'. rewrite (rect_nrows _ _ RB). lia.
Qed.

(** ** normalisation *)
Lemma normalize_near F V : fwf F -> (flen F <= 5)%nat -> 0 < eps (onefun F) < 1 ->
  (forall j x, (j < fcols F)%nat -> dom0 F <= x <= dom1 F -> Rabs (fev F j x) <= V) -> Rmax 1 (V ^ 2) * eps (onefun F) < 1 ->
  forall I, Lp_power (dom0 F) (dom1 F) (fcols F) 2 (fev F) I -> norm_err F 2 V < I ->
  exists v G, 0 < v /\ Rabs (v ^ 2 - I) <= norm_err F 2 V /\ fun_normalize F 2 = Some G /\ fwf G /\ same_dom F G /\ fcols G = fcols F /\
    forall j x, (j < fcols F)%nat -> dom0 F <= x <= dom1 F -> Rabs (fev G j x - fev F j x / v) <= INR (flen F) * Rpower (eps (onefun F)) (2 / 5).
Proof.
  intros WF Hn He HV HE I HI HIv. destruct (norm_even_near F 2 V WF ltac:(lia) eq_refl ltac:(lia) He HV HE) as (v & Ev & v0 & I' & HI' & HD).
  fold (norm_err F 2 V) in HD.
  assert (EI : I' = I) by (apply (Lp_unique _ _ _ _ _ _ _ HI' HI)).
  rewrite EI in HD. assert (vp : 0 < v). { destruct (Rle_lt_or_eq_dec 0 v v0) as [L|E]; [exact L|]. exfalso. rewrite <- E in HD. rewrite pow_i in HD by lia. apply Rabs_le_between in HD. lra. }
  destruct WF as [W Hd]. destruct (divide_number_correct (onefun F) v W ltac:(lra)) as (r & K & Er & Wr & Cr & HK & _ & Hev & Htr).
  exists v, (mkFun r (dom0 F) (dom1 F)). split; [exact vp|]. split; [exact HD|]. split.
  { unfold fun_normalize. rewrite Ev. destruct (Reqb v 0) eqn:E0; [apply Reqb_true in E0; lra|]. rewrite dom_check_refl, Er. reflexivity. }
  split; [split; assumption|]. split; [split; reflexivity|]. split; [exact Cr|]. intros j x Hj Hx. unfold fev. cbn [onefun dom0 dom1]. set (t := (2 * x - dom0 F - dom1 F) / (dom1 F - dom0 F)). assert (Ht : -1 <= t <= 1) by now apply bwd_ref.
  rewrite Hev by exact Hj. set (n := flen F). change (flen F) with (len (onefun F)) in n.
  destruct (wf_pos _ j W Hj) as [L1 L2]. unfold ev. set (M := Nat.max K n). rewrite (evalT_ge _ t M) by (unfold M, n; lia). unfold evK.
  assert (P0 : 0 < Rpower (eps (onefun F)) (2 / 5)) by apply exp_pos.
  rewrite (rsum_ext K (fun k => coef (onefun F) j k * T k t) (fun k => (if (k <? K)%nat then coef (onefun F) j k else 0) * T k t)) by (intros k Hk; destruct (Nat.ltb_spec k K); [reflexivity|lia]).
  rewrite <- (rsum_extend K M) by (unfold M; lia || (intros k Hk; destruct (Nat.ltb_spec k K); [lia|ring])).
  unfold Rdiv. rewrite !(Rmult_comm _ (/ v)), <- !rsum_scal, <- rsum_minus. eapply Rle_trans; [apply rsum_Rabs|].
  rewrite (rsum_extend n M).
  - rewrite <- rsum_const. apply rsum_le. intros k Hk. change (nth k (nth j (coeffs (onefun F)) []) 0) with (coef (onefun F) j k). destruct (Nat.ltb_spec k K).
    + replace (/ v * (coef (onefun F) j k * T k t) - / v * (coef (onefun F) j k * T k t)) with 0 by ring. rewrite Rabs_R0. lra.
    + replace (/ v * (0 * T k t) - / v * (coef (onefun F) j k * T k t)) with (- ((coef (onefun F) j k / v) * T k t)) by (field; lra). rewrite Rabs_Ropp, Rabs_mult. assert (B := Htr He j k ltac:(lia)). assert (B2 := T_bound k t Ht). assert (0 <= Rabs (coef (onefun F) j k / v)) by apply Rabs_pos. assert (0 <= Rabs (T k t)) by apply Rabs_pos. nra.
  - unfold M; lia.
  - intros k Hk. change (nth k (nth j (coeffs (onefun F)) []) 0) with (coef (onefun F) j k). replace (coef (onefun F) j k) with 0 by (symmetry; unfold coef; apply nth_overflow; rewrite L1; unfold n in Hk; lia). destruct (Nat.ltb_spec k K); rewrite <- (Rabs_R0); f_equal; ring.
Qed.

(** ** signed norms *)
Lemma left_values_spec D : fwf D -> exists l, left_values D = Some l /\ length l = fcols D /\ forall j, (j < fcols D)%nat -> nth j l 0 = fev D j (dom0 D).
Proof.
  intros WD. destruct (call_correct D [dom0 D] WD ltac:(discriminate)) as (V & EV & LV & HV).
  { intros x [<-|[]]. destruct WD. lra. }
  exists (map (fun v => nth 0 v 0) V). unfold left_values. rewrite EV. split; [reflexivity|]. split; [now rewrite map_length|]. intros j Hj.
  rewrite (nth_indep _ 0 ((fun v => nth 0 v 0) [])) by (rewrite map_length; lia). rewrite (map_nth (fun v => nth 0 v 0)). rewrite (HV 0%nat j Hj) by (cbn; lia). reflexivity.
Qed.
Lemma fun_diff_wf F G : fwf F -> fun_diff F 1 = Some G -> fwf G /\ same_dom F G /\ fcols G = fcols F.
Proof. intros WF E. destruct (fun_diff_correct F 1 WF ltac:(lia)) as (G' & K & K2 & D & E' & W & S & C & _). rewrite E in E'. injection E' as <-. auto. Qed.
Lemma sturm_spec F p l : fwf F -> fun_sturm_norm F p = Some l ->
  exists D dn v, fun_diff F 1 = Some D /\ fun_norm D p = Some dn /\ fun_norm F p = Some v /\
    ((dn <= / 10 ^ 7 /\ l = [v]) \/ (/ 10 ^ 7 < dn /\ length l = fcols F /\ forall j, (j < fcols F)%nat -> nth j l 0 = sign (fev D j (dom0 F)) * v)).
Proof.
  intros WF. unfold fun_sturm_norm. destruct (fun_diff F 1) as [D|] eqn:ED; [|discriminate]. destruct (fun_diff_wf F D WF ED) as (WD & (S1 & _) & CD).
  destruct (fun_norm D p) as [dn|] eqn:En; [|discriminate]. destruct (fun_norm F p) as [v|] eqn:Ev; [|discriminate]. intros E. exists D, dn, v. split; [reflexivity|]. split; [exact En|]. split; [reflexivity|].
  destruct (Rltb (/ 10 ^ 7) dn) eqn:EL.
  - right. apply Rltb_true in EL. split; [exact EL|]. destruct (left_values_spec D WD) as (lv & Elv & Llv & Hlv). rewrite Elv in E. cbn [option_map] in E. injection E as <-. rewrite map_length. split; [lia|].
    intros j Hj. rewrite (nth_indep _ 0 ((fun s => sign s * v) 0)) by (rewrite map_length; lia). rewrite (map_nth (fun s => sign s * v)). rewrite Hlv by lia. now rewrite S1.
  - left. apply Rltb_false in EL. split; [lra|]. congruence.
Qed.

Definition sq01 : Fun := mkFun (mkCheb [[3 / 8; 1 / 2; 1 / 8]] eps_default 1 maxLength_default true) 0 1.
Lemma fwf_sq01 : fwf sq01.
Proof. split; [|cbn; lra]. exists 3%nat. split; [lia|]. split; [discriminate|]. constructor; [reflexivity|constructor]. Qed.
Lemma fev_sq01 x : fev sq01 0 x = x ^ 2.
Proof. unfold fev, ev, evalT. cbn. field. Qed.
Lemma small_pow : Rpower eps_default (2 / 5) <= / 2 ^ 20.
Proof. apply pow_small. split; [apply eps_default_range|]. unfold eps_default. apply Rinv_le_contravar; [apply pow_lt; lra|]. apply Rle_pow; [lra|lia]. Qed.
Lemma diff_sq01 : exists D, fun_diff sq01 1 = Some D /\ fwf D /\ same_dom sq01 D /\ fcols D = 1%nat /\ (flen D <= 4)%nat /\ eps (onefun D) = eps_default /\ forall x, fev D 0 x = 2 * x.
Proof.
  assert (SP := small_pow). assert (S20 : / 2 ^ 20 < / 8) by (apply Rinv_lt_contravar; simpl; lra).
  destruct fwf_sq01 as [W Hd]. destruct (diff_correct (onefun sq01) 1 W ltac:(lia)) as (g & K & Eg & Wg & Cg & (Pe & _) & Lg & (K1 & K2) & Hg).
  change (eps (onefun sq01)) with eps_default in *. change (ncols (onefun sq01)) with 1%nat in *. change (len (onefun sq01)) with 3%nat in *.
  assert (K3 : (3 <= K)%nat).
  { destruct (le_lt_dec 3 K) as [|L]; [assumption|]. specialize (K2 eps_default_range 0%nat 2%nat ltac:(lia)). change (coef (onefun sq01) 0 2) with (1 / 8) in K2. rewrite Rabs_pos_eq in K2 by lra. lra. }
  assert (Hev : forall t, ev g 0 t = (1 + t) / 2).
  { intros t. assert (H := Hg 0%nat t ltac:(lia)). simpl in H. change (is_derive (evK (onefun sq01) 0 K) t (ev g 0 t)) in H.
    assert (A : is_derive (fun t => ((1 + t) / 2) ^ 2) t ((1 + t) / 2)) by (auto_derive; [exact I|field]).
    apply is_derive_unique in H. rewrite <- H. transitivity (Derive (fun t => ((1 + t) / 2) ^ 2) t); [|now apply is_derive_unique]. apply Derive_ext. intros u. unfold evK.
    rewrite (rsum_extend 3 K); [cbn; field|exact K3|]. intros k Hk. unfold coef. cbn [onefun sq01 coeffs nth]. do 3 (destruct k as [|k]; [lia|]). cbn [nth]. destruct k; ring. }
  destruct (divide_number_correct g (/ 2 * (1 - 0)) Wg ltac:(lra)) as (r & M & Er & Wr & Cr & HM & Per & Hr & Htr).
  exists (mkFun r 0 1). split; [|split; [split; [exact Wr|cbn; lra]|split; [split; reflexivity|split; [unfold fcols; cbn [onefun]; lia|split]]]].
  - unfold fun_diff. rewrite Eg. cbn [dom0 dom1 sq01]. rewrite pow_1, Er. reflexivity.
  - unfold flen. cbn [onefun]. assert (A := divide_number_len g _ r Wg Er). lia.
  - cbn [onefun]. split; [congruence|]. intros x. unfold fev. cbn [onefun dom0 dom1]. rewrite Hr by lia. rewrite Pe in Htr. 
    assert (CG : forall k, nth k (nth 0 (coeffs g) []) 0 = nth k [1 / 2; 1 / 2] 0).
    { intros k. apply coef_unique. intros t. change (ev g 0 t = evalT [1 / 2; 1 / 2] t). rewrite Hev. unfold evalT. cbn. field. }
    assert (M2 : (2 <= M)%nat).
    { destruct (le_lt_dec 2 M) as [|L]; [assumption|]. specialize (Htr eps_default_range 0%nat 1%nat ltac:(lia)). unfold coef in Htr. rewrite CG in Htr. cbn [nth] in Htr. rewrite Rabs_pos_eq in Htr by lra. lra. }
    unfold evK. rewrite (rsum_extend 2 M); [|exact M2|]; unfold coef; [rewrite (rsum_ext 2 _ (fun k => nth k [1 / 2; 1 / 2] 0 * T k ((2 * x - 0 - 1) / (1 - 0)))) by (intros k _; now rewrite CG); cbn; field|].
    intros k Hk. rewrite CG. do 2 (destruct k as [|k]; [lia|]). cbn [nth]. destruct k; ring.
Qed.
