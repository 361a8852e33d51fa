(** Simplification, product, anti-derivative and sampling of Fourier objects. *)
From Coq Require Import Reals ZArith List Arith Lia Lra Bool.
From Coquelicot Require Import Coquelicot.
From Verif Require Import Base ToolsProofs ChebModel ChebChop TrigSpec TrigBase TrigModel TrigTrans TrigEval TrigCalc TrigCalc2 TrigModel2 TrigObj.
Import ListNotations.
Open Scope R_scope.
Open Scope C_scope.

Lemma round_q_ge n : (n + 5 <= round_q n)%nat.
Proof.
  unfold round_q. assert (A := Nat.div_mod (5 * n + 20) 4 ltac:(lia)). assert (B := Nat.mod_upper_bound (5 * n + 20) 4 ltac:(lia)).
  set (q := ((5 * n + 20) / 4)%nat) in *. set (r := ((5 * n + 20) mod 4)%nat) in *. assert (n + 5 <= q)%nat by lia.
  destruct (Nat.ltb r 2), (Nat.eqb r 2), (Nat.even q); lia.
Qed.
Lemma simp_len_ge n : (n + 5 <= simp_len n)%nat.
Proof. unfold simp_len. assert (H := round_q_ge n). lia. Qed.
Lemma simp_cutoff_eq k : simp_cutoff k = (k / 2 + 1)%nat.
Proof.
  unfold simp_cutoff. destruct (Nat.even k) eqn:E; [reflexivity|]. assert (O : Nat.odd k = true) by (rewrite <- Nat.negb_even, E; reflexivity).
  rewrite (odd_half' _ O). reflexivity.
Qed.

Lemma dup_nth (x : C) t p d : (1 <= p)%nat -> nth (2 * p) (x :: flat_map (fun z => [z; z]) t) d = nth (p - 1) t d.
Proof.
  intros Hp. replace (2 * p)%nat with (S (2 * (p - 1) + 1)) by lia. cbn [nth]. generalize (p - 1)%nat. clear Hp p. intros q. revert q.
  induction t as [|a t IH]; intros q; cbn [flat_map app].
  - rewrite !nth_overflow; [reflexivity|cbn; lia|cbn; lia].
  - destruct q as [|q]; [reflexivity|]. replace (2 * S q + 1)%nat with (S (S (2 * q + 1))) by lia. cbn [nth]. apply IH.
Qed.
Lemma tl_nth (l : list C) k d : nth k (tl l) d = nth (S k) l d.
Proof. destruct l; [destruct k; reflexivity|reflexivity]. Qed.

Lemma fold_abs_nth c p : (1 <= p < length c / 2)%nat ->
  nth (2 * p) (fold_abs c) 0%R = (Cmod (nth (length c / 2 - p) c C0) + Cmod (nth (length c / 2 + p) c C0))%R.
Proof.
  intros Hp. unfold fold_abs. set (n := length c) in *. cbv zeta. set (V := vals2coeffs1 (coeffs2vals1 (map (fun z => RtoC (Cmod z)) (rev c)))). set (m := (n / 2)%nat) in *.
  assert (B := half_le n). fold m in B.
  assert (Ha : forall k, (k < n)%nat -> nth k V C0 = RtoC (Cmod (nth (n - 1 - k) c C0))).
  { intros k Hk. unfold V. rewrite trig_c2v_v2c. rewrite map_nth_C by (rewrite rev_length; exact Hk). rewrite rev_nth by exact Hk. fold n. do 3 f_equal. lia. }
  set (l := if Nat.even n then _ else _).
  assert (Hl : nth p (rev l) C0 = RtoC (Cmod (nth (m - p) c C0)) + RtoC (Cmod (nth (m + p) c C0)) /\ length l = S m).
  { unfold l. destruct (Nat.even n) eqn:E.
    - assert (H2 := even_half _ E). fold m in H2. assert (L : length (nth (n - 1) V C0 :: mk (m - 1) (fun k => nth (n - 2 - k) V C0 + nth k V C0) ++ [nth (m - 1) V C0]) = S m).
      { cbn [length]. rewrite app_length, mk_length. cbn [length Nat.add]. rewrite Nat.add_1_r. lia. }
      split; [|exact L]. rewrite rev_nth by lia. rewrite L. replace (S m - S p)%nat with (S (m - 1 - p)) by lia. cbn [nth].
      rewrite app_nth1 by (rewrite mk_length; lia). rewrite nth_mk by lia. rewrite !Ha by lia. f_equal; do 3 f_equal; lia.
    - assert (O : Nat.odd n = true) by (rewrite <- Nat.negb_even, E; reflexivity). assert (H2 := odd_half _ O). fold m in H2.
      assert (Eh : ((n + 1) / 2 - 1 = m)%nat). { assert (Q := const_index n). rewrite O in Q. exact Q. }
      rewrite Eh. assert (L : length (mk m (fun k => nth (n - 1 - k) V C0 + nth k V C0) ++ [nth m V C0]) = S m) by (rewrite app_length, mk_length; cbn; lia).
      split; [|exact L]. rewrite rev_nth by lia. rewrite L. rewrite app_nth1 by (rewrite mk_length; lia). rewrite nth_mk by lia. rewrite !Ha by lia. f_equal; do 3 f_equal; lia. }
  destruct Hl as [Hl Ll].
  set (w := hd C0 (rev l) :: flat_map (fun z => [z; z]) (tl (rev l))).
  assert (Ew : nth (2 * p) w C0 = RtoC (Cmod (nth (m - p) c C0)) + RtoC (Cmod (nth (m + p) c C0))).
  { unfold w. rewrite dup_nth by lia. rewrite tl_nth. replace (S (p - 1)) with p by lia. exact Hl. }
  rewrite <- Cmod_0. change (RtoC 0) with C0. rewrite (map_nth Cmod w C0). rewrite Ew, <- RtoC_plus, Cmod_R. apply Rabs_pos_eq.
  assert (G1 := Cmod_ge_0 (nth (m - p) c C0)). assert (G2 := Cmod_ge_0 (nth (m + p) c C0)). lra.
Qed.


(** simplify keeps the coefficients of the frequencies below some K; what is
    dropped is small *)
Lemma trig_simplify_correct c tol : (1 <= length c)%nat ->
  exists r K, tsimplify_col c tol = Some r /\ truncation K r c /\
    ((0 < tol < 1)%R -> forall z, (Z.of_nat K <= Z.abs z)%Z -> (Cmod (coef c z) + Cmod (coef c (- z)) <= Rpower tol (2 / 5))%R).
Proof.
  intros Hn. unfold tsimplify_col. set (nold := length c) in *. assert (HN := simp_len_ge nold). set (N := simp_len nold) in *.
  unfold prolong_fun_col. destruct (Nat.eqb_spec N (length c)) as [E|_]; [fold nold in E; lia|].
  destruct (prolong_up_coef c N ltac:(fold nold; lia)) as [d [Ed [Ld Hd]]]. rewrite Ed.
  destruct (standardChop_total (fold_abs d) tol) as [k [Ek Hk]]. rewrite Ek. rewrite simp_cutoff_eq.
  set (k' := Nat.min (Nat.max 1 k) nold). set (K := (k' / 2 + 1)%nat). rewrite Ld. set (m := (N / 2)%nat).
  assert (Bm := half_le N). assert (Bk := half_le k'). assert (Bo := half_le nold). fold m in Bm.
  assert (Bm' : (N < 2 * m + 2)%nat) by (assert (A := Nat.div_mod N 2 ltac:(lia)); assert (B := Nat.mod_upper_bound N 2 ltac:(lia)); fold m in A; lia).
  assert (Kle : (K - 1 <= nold / 2)%nat) by (unfold K; replace (k' / 2 + 1 - 1)%nat with (k' / 2)%nat by lia; apply Nat.div_le_mono; lia).
  set (e := if Nat.even N then _ else d).
  assert (He : length e = (2 * m + 1)%nat /\ forall i, (1 <= i)%nat -> (i < 2 * m)%nat -> nth i e C0 = nth i d C0).
  { unfold e. destruct (Nat.even N) eqn:Ev.
    - assert (H2 := even_half _ Ev). fold m in H2. split.
      + cbn [length]. rewrite app_length. destruct d as [|a t]; cbn [tl length] in *; lia.
      + intros i Hi1 Hi2. destruct i as [|i]; [lia|]. cbn [nth]. destruct d as [|a t]; [cbn [length] in Ld; lia|]. cbn [tl length] in *. rewrite app_nth1 by lia. reflexivity.
    - assert (O : Nat.odd N = true) by (rewrite <- Nat.negb_even, Ev; reflexivity). assert (H2 := odd_half _ O). fold m in H2. split; [lia|reflexivity]. }
  destruct He as [Le He].
  assert (Emid : ((length e + 1) / 2 = m + 1)%nat) by (rewrite Le; replace (2 * m + 1 + 1)%nat with ((m + 1) * 2)%nat by lia; apply Nat.div_mul; lia).
  rewrite Emid. set (r := firstn (2 * K - 1) (skipn (m + 1 - K) e)).
  assert (HK1 : (1 <= K)%nat) by (unfold K; lia).
  assert (Lr : length r = (2 * K - 1)%nat) by (unfold r; rewrite firstn_length, skipn_length; lia).
  assert (Or : Nat.odd (length r) = true) by (rewrite Lr; apply Nat.odd_spec; exists (K - 1)%nat; lia).
  assert (Hr2 : (length r / 2 = K - 1)%nat) by (assert (A := odd_half _ Or); rewrite Lr in A |- *; lia).
  assert (Hcoef : forall z, (Z.abs z < Z.of_nat m)%Z -> coef c z = nth (Z.to_nat (z + Z.of_nat m)) d C0).
  { intros z Hz. rewrite <- Hd. rewrite coef_even by (rewrite Ld; fold m; lia). rewrite Ld. reflexivity. }
  exists r, K. split; [reflexivity|]. split.
  - split; [exact Lr|]. split; [exact HK1|]. split; [exact Kle|]. split.
    + intros z Hz. rewrite coef_odd by (try exact Or; lia). rewrite Hr2. rewrite Hcoef by lia.
      unfold r. rewrite nth_firstn' by lia. rewrite nth_skipn'. rewrite He by lia. f_equal. lia.
    + intros z Hz. apply coef_big. lia.
  - intros Ht z Hz.
    destruct (Z.lt_ge_cases (Z.of_nat (nold / 2)) (Z.abs z)) as [Hb|Hb].
    { rewrite !coef_big by (rewrite ?Z.abs_opp; fold nold; lia). unfold C0. rewrite !Cmod_0. left. rewrite Rplus_0_l. apply exp_pos. }
    set (p := Z.to_nat (Z.abs z)). assert (Hp : (1 <= p < m)%nat) by lia.
    assert (Hkk : (k < 2 * p)%nat).
    { assert (A := Nat.div_mod k' 2 ltac:(lia)). assert (B := Nat.mod_upper_bound k' 2 ltac:(lia)). unfold K in Hz.
      destruct (Nat.le_gt_cases nold (Nat.max 1 k)); [|lia]. assert (k' = nold) by lia. rewrite H0 in Hz. lia. }
    assert (Hfa : nth (2 * p) (fold_abs d) 0%R = (Cmod (coef c z) + Cmod (coef c (- z)))%R).
    { rewrite fold_abs_nth by (rewrite Ld; fold m; lia). rewrite Ld. fold m. rewrite !Hcoef by lia.
      destruct (Z.abs_spec z) as [[Hs Es]|[Hs Es]].
      - replace (m - p)%nat with (Z.to_nat (- z + Z.of_nat m)) by lia. replace (m + p)%nat with (Z.to_nat (z + Z.of_nat m)) by lia. apply Rplus_comm.
      - replace (m - p)%nat with (Z.to_nat (z + Z.of_nat m)) by lia. replace (m + p)%nat with (Z.to_nat (- z + Z.of_nat m)) by lia. reflexivity. }
    rewrite <- Hfa. destruct (Nat.lt_ge_cases k (length (fold_abs d))) as [Hkl|Hkl].
    + eapply Rle_trans; [apply Rle_abs|]. apply (standardChop_tail _ _ k Ht Ek Hkl). exact Hkk.
    + rewrite nth_overflow by lia. left. apply exp_pos.
Qed.
(** the error made by dropping coefficients *)
Lemma truncation_error K r c x : (1 <= length c)%nat -> truncation K r c ->
  (Cmod (evalF r x - evalF c x)%C <= rsum (2 * (length c / 2) + 1) (fun k => if Z.leb (Z.of_nat K) (Z.abs (Z.of_nat k - Z.of_nat (length c / 2))) then Cmod (coef c (Z.of_nat k - Z.of_nat (length c / 2))) else 0))%R.
Proof.
  intros Hn [Lr [HK [HK2 [H1 H2]]]]. set (m := (length c / 2)%nat) in *.
  assert (Hr2 : (length r / 2 <= m)%nat).
  { assert (O : Nat.odd (length r) = true) by (rewrite Lr; apply Nat.odd_spec; exists (K - 1)%nat; lia). assert (A := odd_half _ O). rewrite Lr in *. lia. }
  rewrite (evalF_coef r m), (evalF_coef c m) by (fold m; lia).
  replace (csum (2 * m + 1) (fun k => term r m k x) - csum (2 * m + 1) (fun k => term c m k x))
    with (csum (2 * m + 1) (fun k => term r m k x + RtoC (-1) * term c m k x)).
  2:{ rewrite csum_plus, csum_scal. apply injective_projections; cbn; ring. }
  eapply Rle_trans; [apply csum_mod|]. apply rsum_le. intros k Hk. unfold term. set (z := (Z.of_nat k - Z.of_nat m)%Z).
  destruct (Z.leb_spec (Z.of_nat K) (Z.abs z)) as [Hz|Hz].
  - rewrite H2 by exact Hz. replace (0 * cis (PI * IZR z * x) + RtoC (-1) * (coef c z * cis (PI * IZR z * x))) with (- (coef c z * cis (PI * IZR z * x))) by (apply injective_projections; cbn; ring).
    rewrite Cmod_opp, Cmod_mult, cis_mod. lra.
  - rewrite H1 by exact Hz. replace (coef c z * cis (PI * IZR z * x) + RtoC (-1) * (coef c z * cis (PI * IZR z * x))) with (RtoC 0) by (apply injective_projections; cbn; ring).
    rewrite Cmod_0. lra.
Qed.

(** ** product *)
Lemma ceqb_refl a : ceqb a a = true. Proof. unfold ceqb. rewrite !(proj2 (TrigTrans.Reqb_true _ _)) by reflexivity. reflexivity. Qed.
Lemma leqb_refl l : leqb l l = true.
Proof. unfold leqb. rewrite Nat.eqb_refl. cbn [andb]. induction l as [|a t IH]; [reflexivity|]. cbn [combine forallb fst snd]. rewrite ceqb_refl. exact IH. Qed.
(** squaring any non-constant function raises *)
Lemma trig_square_raises f : (2 <= length (tco f))%nat -> tmul f f = None.
Proof.
  intros H. unfold tmul. destruct (Nat.eqb_spec (length (tco f)) 1); [lia|]. unfold teqb. rewrite !leqb_refl. reflexivity.
Qed.
Lemma trig_product_correct f g : trig_ok f -> trig_ok g -> Nat.odd (length (tco f)) = true -> Nat.odd (length (tco g)) = true ->
  (2 <= length (tco f))%nat -> (2 <= length (tco g))%nat -> teqb f g = false ->
  exists r h K, tmul f g = Some r /\ (forall x, evalF h x = evalF (tco f) x * evalF (tco g) x) /\ truncation K (tco r) h /\
    forall z, (Z.of_nat K <= Z.abs z)%Z -> (Cmod (coef h z) + Cmod (coef h (- z)) <= Rpower (/ 10 ^ 14) (2 / 5))%R.
Proof.
  intros Hf Hg Of Og Nf Ng Hne. unfold tmul. destruct (Nat.eqb_spec (length (tco f)) 1); [lia|]. destruct (Nat.eqb_spec (length (tco g)) 1); [lia|]. rewrite Hne.
  destruct (trig_mul_correct _ _ Of Og Nf Ng) as [h [Eh [Lh Hx]]]. rewrite Eh.
  destruct (trig_simplify_correct h (/ 10 ^ 14) ltac:(lia)) as [r [K [Er [Tr Hs]]]]. rewrite Er.
  eexists. exists h, K. split; [reflexivity|]. split; [exact Hx|]. split; [exact Tr|]. apply Hs.
  split; [apply Rinv_0_lt_compat; lra|]. rewrite <- Rinv_1. apply Rinv_lt_contravar; lra.
Qed.
Lemma trig_product_const f g : trig_ok f -> trig_ok g -> length (tco f) = 1%nat ->
  exists r, tmul f g = Some r /\ represents r (fun x => evalF (tco f) x * evalF (tco g) x) (tre f = true /\ tre g = true).
Proof.
  intros Hf Hg L. unfold tmul. rewrite L. cbn [Nat.eqb]. eexists. split; [reflexivity|].
  set (a := nth 0 (tco f) C0).
  assert (Ea : forall x, evalF (tco f) x = a).
  { intros x. unfold evalF. rewrite L. cbn [csum]. unfold mode, freq. cbn. rewrite Rmult_0_r, Rmult_0_l, cis_0. unfold a, C0. ring. }
  destruct (trig_mul_num_correct g a Hg) as [N [E [Kr Kn]]]. split; [exact N|]. split; [intros x; rewrite E, Ea; ring|]. split; [|exact Kn].
  intros [R1 R2]. apply Kr. split; [exact R2|]. rewrite <- (Ea 0%R). apply (proj2 (proj2 Hf) R1).
Qed.
(** an even length times an even length aliases: cos(pi x) cos(pi x - ...) *)
Lemma trig_mul_even_wrong : exists c d, length c = 2%nat /\ length d = 2%nat /\ exists h, tmul_col c d = Some h /\ evalF h (/ 4)%R <> evalF c (/ 4)%R * evalF d (/ 4)%R.
Proof.
  set (c := [RtoC 1; RtoC 0]). set (d := [RtoC 1; RtoC 1]).
  assert (E : forall t, evalF c t = RtoC (cos (PI * t))).
  { intros t. unfold evalF, mode. cbn. replace (PI * 1 * t)%R with (PI * t)%R by ring. ring. }
  assert (Ed : forall t, evalF d t = RtoC (cos (PI * t)) + RtoC 1).
  { intros t. unfold evalF, mode, freq. cbn. replace (PI * 1 * t)%R with (PI * t)%R by ring. rewrite Rmult_0_r, Rmult_0_l, cis_0. ring. }
  exists c, d. split; [reflexivity|]. split; [reflexivity|]. unfold tmul_col. cbn [length c d Nat.add Nat.sub].
  destruct (trig_prolong_fun_correct c 3 ltac:(cbn; lia)) as [c' [Ec [Lc Hc]]]. destruct (trig_prolong_fun_correct d 3 ltac:(cbn; lia)) as [d' [Edd [Ld Hd]]].
  fold c d. rewrite Ec, Edd. eexists. split; [reflexivity|].
  set (v := mk 3 _).
  assert (Hv : forall j, (j < 3)%nat -> nth j v C0 = RtoC (cos (PI * gridpt 3 j)) * (RtoC (cos (PI * gridpt 3 j)) + RtoC 1)).
  { intros j Hj. unfold v. rewrite nth_mk by exact Hj. rewrite !trig_values_correct by lia. rewrite Lc, Ld, Hc, Hd, E, Ed. reflexivity. }
  (* cos^2 = 1/2 + cos(2 pi x)/2 and cos(2 pi x_j) = cos(pi x_j) up to the grid's sign *)
  set (h := [RtoC (1 / 4); RtoC (1 / 2); RtoC (1 / 4)]).
  assert (Eh : forall x, evalF h x = RtoC (1 / 2 + 1 / 2 * cos (PI * x))).
  { intros x. unfold evalF, mode, freq. cbn. replace (PI * -1 * x)%R with (- (PI * x))%R by ring. replace (PI * 1 * x)%R with (PI * x)%R by ring.
    rewrite Rmult_0_r, Rmult_0_l, cis_0, cis_neg. unfold cis. apply injective_projections; cbn; field. }
  assert (HPI := PI_RGT_0).
  assert (C3 : cos (PI / 3) = (1 / 2)%R) by apply cos_PI3.
  assert (Cg0 : cos (PI * gridpt 3 0) = (-1)%R).
  { unfold gridpt. cbn. replace (PI * (-1 + 2 * 0 / (1 + 1 + 1)))%R with (- PI)%R by field. rewrite cos_neg. apply cos_PI. }
  assert (Cg1 : cos (PI * gridpt 3 1) = (1 / 2)%R).
  { unfold gridpt. cbn. replace (PI * (-1 + 2 * 1 / (1 + 1 + 1)))%R with (- (PI / 3))%R by field. rewrite cos_neg. exact C3. }
  assert (Cg2 : cos (PI * gridpt 3 2) = (1 / 2)%R).
  { unfold gridpt. cbn. replace (PI * (-1 + 2 * (1 + 1) / (1 + 1 + 1)))%R with (PI / 3)%R by field. exact C3. }
  set (g := [RtoC (1 / 2); RtoC 0; RtoC (1 / 2)]).
  (* values are 0, 3/4, 3/4 *)
  assert (Ev : vals2coeffs1 v = h).
  { apply interp_unique; [unfold v; rewrite mk_length; reflexivity|]. cbn [length h]. intros j Hj. rewrite Hv, Eh by exact Hj.
    destruct j as [|[|[|j]]]; [rewrite Cg0|rewrite Cg1|rewrite Cg2|lia]; apply injective_projections; cbn; field. }
  rewrite Ev, Eh, E, Ed. replace (PI * / 4)%R with (PI / 4)%R by field.
  assert (C4 : (cos (PI / 4) * cos (PI / 4) = 1 / 2)%R).
  { rewrite cos_PI4. assert (Hs := sqrt_sqrt 2 ltac:(lra)). assert (Hs0 : (sqrt 2 <> 0)%R) by (intros Q; rewrite Q in Hs; lra).
    replace (1 / sqrt 2 * (1 / sqrt 2))%R with (1 / (sqrt 2 * sqrt 2))%R by (field; exact Hs0). rewrite Hs. reflexivity. }
  intros H. apply (f_equal fst) in H. cbn in H. assert (P : (0 < cos (PI / 4))%R) by (apply cos_gt_0; lra).
  nra.
Qed.

(** ** anti-derivative: C33 is false *)
Lemma trig_cumsum_wrong : exists c, (forall x, evalF c x = RtoC (cos (PI * x))) /\
  forall thr, (0 <= thr)%R -> exists r f', tcumsum_col c thr 1 = Some (r, f') /\ f' <> c /\
   (forall x, Re (evalF r x) = 0%R) /\ evalF r (-1) <> RtoC 0.
Proof.
  exists [RtoC (1 / 2); RtoC 0; RtoC (1 / 2)]. split.
  { intros x. unfold evalF, mode, freq. cbn. replace (PI * -1 * x)%R with (- (PI * x))%R by ring. replace (PI * 1 * x)%R with (PI * x)%R by ring.
    rewrite Rmult_0_r, Rmult_0_l, cis_0, cis_neg. unfold cis. apply injective_projections; cbn; field. }
  intros thr Ht. unfold tcumsum_col. cbn [length Nat.even Nat.odd Nat.eqb Nat.leb nth].
  change ((3 + 1) / 2 - 1)%nat with 1%nat. change ((3 + 1) / 2)%nat with 2%nat. change ((3 - 1) / 2)%nat with 1%nat. cbn [nth Nat.leb].
  assert (Ef : TrigModel.Rltb thr (Cmod (RtoC 0)) = false).
  { unfold TrigModel.Rltb. rewrite Cmod_0. destruct (Rlt_dec thr 0); [lra|reflexivity]. }
  rewrite Ef. cbn [andb Nat.odd Nat.even negb]. cbn [TrigModel2.upd].
  assert (HP := PI_RGT_0).
  eexists _, _. split; [reflexivity|]. split.
  { intros H. injection H as H. cbn in H. lra. }
  set (e := mk (2 * 1 + 1) _).
  assert (Ee : e = [Ci * RtoC (/ (2 * PI)); RtoC 0; RtoC 0]).
  { unfold e. cbn. f_equal; [|f_equal; [|f_equal]]; unfold C0; [|ring|ring].
    apply injective_projections; cbn; field; repeat split; lra. }
  rewrite Ee. cbn [csum nth Nat.add Nat.mul TrigModel2.upd Z.of_nat Z.even]. cbn.
  assert (E1 : forall x, (PI * -1 * x = - (PI * 1 * x))%R) by (intros x; ring).
  split.
  - intros x. rewrite E1, cos_neg, sin_neg. field. lra.
  - replace (PI * -1 * -1)%R with PI by ring. replace (PI * 1 * -1)%R with (- PI)%R by ring. unfold cis. rewrite cos_neg, sin_neg, cos_PI, sin_PI.
    intros H. apply (f_equal snd) in H. cbn in H. assert (Q := Rinv_0_lt_compat (2 * PI) ltac:(lra)). lra.
Qed.
Lemma trig_cumsum_constant_raises a thr : tcumsum_col [a] thr 1 = None.
Proof. unfold tcumsum_col. cbn [length Nat.even Nat.eqb]. destruct (TrigModel.Rltb _ _); reflexivity. Qed.
Lemma nth_tupd {A} (l : list A) i a k d : nth k (TrigModel2.upd l i a) d = if Nat.eqb k i && Nat.ltb i (length l) then a else nth k l d.
Proof.
  revert i k. induction l as [|b t IH]; intros i k; [destruct i, k; cbn; rewrite ?andb_false_r; reflexivity|].
  destruct i, k; cbn [TrigModel2.upd nth length Nat.eqb andb]; try reflexivity. rewrite IH. reflexivity.
Qed.
Lemma tupd_length {A} (l : list A) i a : length (TrigModel2.upd l i a) = length l.
Proof. revert i. induction l as [|b t IH]; intros [|i]; cbn; auto. Qed.
Lemma tupd_same (l : list C) i a : nth i l C0 = a -> TrigModel2.upd l i a = l.
Proof.
  intros H. apply (list_ext _ _ C0); [apply tupd_length|]. intros k Hk. rewrite nth_tupd. destruct (Nat.eqb_spec k i) as [->|]; cbn [andb]; [|reflexivity].
  destruct (Nat.ltb _ _); congruence.
Qed.
(** C33 holds for odd lengths when the coefficients of frequency 0 and 1 are
    zero and the anti-derivative of zero mean already vanishes at -1 *)
Lemma trig_cumsum_special c thr : Nat.odd (length c) = true -> (3 <= length c)%nat -> (0 <= thr)%R ->
  nth (length c / 2) c (RtoC 0) = RtoC 0 -> nth (length c / 2 + 1) c (RtoC 0) = RtoC 0 ->
  csum (length c) (fun k => if Z.eqb (freq (length c) k) 0 then RtoC 0 else nth k c (RtoC 0) / (Ci * RtoC (PI * IZR (freq (length c) k))) * cis (PI * IZR (freq (length c) k) * -1)) = RtoC 0 ->
  exists r, tcumsum_col c thr 1 = Some (r, c) /\ length r = length c /\ evalF r (-1) = RtoC 0 /\
    forall x, cderive_n (evalF r) 1 x (evalF c x).
Proof.
  intros Ho Hn Ht Z0 Z1 Hs. assert (A := odd_half _ Ho). set (n := length c) in *. set (h := (n / 2)%nat) in *.
  unfold tcumsum_col. fold n. rewrite (not_even _ Ho). destruct (Nat.eqb_spec n 0); [lia|].
  assert (E1 : ((n + 1) / 2 = h + 1)%nat) by (rewrite A; replace (2 * h + 1 + 1)%nat with ((h + 1) * 2)%nat by lia; apply Nat.div_mul; lia).
  assert (E2 : ((n - 1) / 2 = h)%nat) by (apply odd_half'; exact Ho). rewrite E1, E2. replace (h + 1 - 1)%nat with h by lia.
  change (nth h c C0) with (nth h c (RtoC 0)). rewrite Z0.
  assert (Ef : TrigModel.Rltb thr (Cmod (RtoC 0)) = false).
  { unfold TrigModel.Rltb. rewrite Cmod_0. destruct (Rlt_dec thr 0); [lra|reflexivity]. }
  rewrite Ef. destruct (Nat.leb_spec n (h + 1)); [lia|]. rewrite andb_false_r. rewrite (tupd_same c (h + 1) C0 Z1).
  assert (HP := PI_RGT_0).
  set (e := mk (2 * h + 1) _).
  assert (Le : length e = n) by (unfold e; rewrite mk_length; lia).
  assert (He : forall k, (k < n)%nat -> nth k e C0 = if Z.eqb (freq n k) 0 then RtoC 0 else nth k c C0 / (Ci * RtoC (PI * IZR (freq n k)))).
  { intros k Hk. unfold e. rewrite nth_mk by lia. unfold freq. fold h. destruct (Nat.eqb_spec k h) as [->|Hk2].
    - rewrite Z.sub_diag. cbn [Z.eqb]. unfold C0. ring.
    - destruct (Z.eqb_spec (Z.of_nat k - Z.of_nat h) 0); [lia|]. cbn [cpow].
      assert (Hz : IZR (Z.of_nat k - Z.of_nat h) <> 0%R) by (intros Q; apply eq_IZR in Q; lia).
      set (z := IZR (Z.of_nat k - Z.of_nat h)) in *. destruct (nth k c C0) as [p q]. apply injective_projections; cbn; field; repeat split; lra. }
  assert (Es : csum (2 * h + 1) (fun k => nth k e C0 * (if Z.even (Z.of_nat k - Z.of_nat h) then RtoC 1 else RtoC (-1))) = RtoC 0).
  { rewrite <- A. rewrite <- Hs. apply csum_ext. intros k Hk. rewrite He by exact Hk. unfold freq. fold h. set (z := (Z.of_nat k - Z.of_nat h)%Z).
    assert (Ec : cis (PI * IZR z * -1) = if Z.even z then RtoC 1 else RtoC (-1)).
    { rewrite <- cis_PI_Z. apply (cis_cong _ _ (- z)). rewrite opp_IZR. ring. }
    rewrite Ec. unfold C0. destruct (Z.eqb z 0); [ring|reflexivity]. }
  rewrite Es.
  assert (Eu : TrigModel2.upd e (h + 1) (- RtoC 0) = e).
  { apply tupd_same. rewrite He by lia. destruct (Z.eqb _ 0); [ring|]. unfold C0. rewrite Z1. unfold Cdiv. ring. }
  rewrite Eu. exists e. split; [reflexivity|]. split; [exact Le|].
  assert (Oe : Nat.odd (length e) = true) by (rewrite Le; exact Ho).
  split.
  - rewrite evalF_odd by exact Oe. rewrite Le, <- Hs. apply csum_ext. intros k Hk. rewrite He by exact Hk. unfold C0. destruct (Z.eqb _ 0); [ring|reflexivity].
  - intros x. destruct (trig_diff_correct e 1 x ltac:(lia) ltac:(rewrite (not_even _ Oe); discriminate)) as [_ D].
    assert (Ed : evalF (tdiff_col e 1) x = evalF c x); [|rewrite <- Ed; exact D].
    unfold evalF. unfold tdiff_col at 1. rewrite mk_length, Le. fold n. apply csum_ext. intros k Hk. f_equal; [|f_equal; unfold tdiff_col; rewrite mk_length; exact Le].
    unfold tdiff_col. rewrite nth_mk by lia. rewrite Le, He by exact Hk. cbn [cpow]. unfold C0. destruct (Z.eqb_spec (freq n k) 0) as [Ez|Ez].
    + assert (k = h) by (unfold freq in Ez; fold h in Ez; lia). subst k. rewrite Z0. ring.
    + assert (Hz : IZR (freq n k) <> 0%R) by (intros Q; apply eq_IZR in Q; lia).
      set (z := IZR (freq n k)) in *. destruct (nth k c 0) as [p q]. apply injective_projections; cbn; field; repeat split; lra.
Qed.

(** ** sampling *)
Lemma gridpt_even n j : (1 <= n)%nat -> gridpt (2 * n) (2 * j) = gridpt n j.
Proof. intros H. unfold gridpt. rewrite !mult_INR. cbn [INR]. assert (HN := INR_pos n H). field. lra. Qed.
Lemma trig_refine_correct op v : (1 <= length v)%nat -> op (-1)%R = op 1%R ->
  (forall j, (j < length v)%nat -> nth j v C0 = op (gridpt (length v) j)) ->
  length (trig_nested op v) = (2 * length v)%nat /\
  forall j, (j < 2 * length v)%nat -> nth j (trig_nested op v) C0 = op (gridpt (2 * length v) j).
Proof.
  intros Hn Hp Hv. split; [apply mk_length|]. intros j Hj. unfold trig_nested. rewrite nth_mk by exact Hj.
  destruct (Nat.even j) eqn:E; [|reflexivity]. assert (H2 := even_half _ E). rewrite Hv by lia. rewrite H2 at 2. rewrite gridpt_even by exact Hn. reflexivity.
Qed.
Lemma trig_resample_correct op n j : op (-1)%R = op 1%R -> (j < n)%nat -> nth j (trig_resample op n) C0 = op (gridpt n j).
Proof.
  intros Hp Hj. unfold trig_resample. rewrite nth_mk by exact Hj. destruct (Nat.eqb_spec j 0) as [->|]; [|reflexivity].
  assert (E : gridpt n 0 = (-1)%R) by (unfold gridpt; cbn [INR]; unfold Rdiv; ring). rewrite E, Hp. apply injective_projections; cbn; field.
Qed.
Lemma trig_resample_general op n : length (trig_resample op n) = n /\
  ((1 <= n)%nat -> nth 0 (trig_resample op n) C0 = (op (-1)%R + op 1%R) / RtoC 2) /\
  (forall j, (1 <= j < n)%nat -> nth j (trig_resample op n) C0 = op (gridpt n j)).
Proof.
  unfold trig_resample. split; [apply mk_length|]. split.
  - intros Hn. rewrite nth_mk by lia. cbn [Nat.eqb]. assert (E : gridpt n 0 = (-1)%R) by (unfold gridpt; cbn [INR]; unfold Rdiv; ring). rewrite E.
    apply injective_projections; cbn; field.
  - intros j Hj. rewrite nth_mk by lia. destruct (Nat.eqb_spec j 0); [lia|reflexivity].
Qed.
(** objects: prolong *)
Lemma trig_obj_prolong t N : trig_ok t -> (length (tco t) <= N)%nat ->
  exists r, tprolong t N = Some r /\ trig_ok r /\ length (tco r) = N /\ tre r = tre t /\ forall x, evalF (tco r) x = evalF (tco t) x.
Proof.
  intros Hok HN. assert (Hn := proj1 Hok). unfold tprolong. destruct (Nat.eqb_spec N (length (tco t))) as [->|Hne]; [exists t; auto|].
  destruct (trig_prolong_correct (tco t) N ltac:(lia)) as [d [E [L Hx]]]. rewrite E. eexists. split; [reflexivity|]. cbn [tco tva tre].
  assert (Hh : tre t = true -> hermitian d) by (intros R1 x; rewrite Hx; apply (proj2 (proj2 Hok) R1)).
  split; [|auto]. split; [cbn [tco]; lia|]. cbn [tco tva tre]. split; [|exact Hh].
  apply realvals_id. intros R1 j. rewrite coeffs2vals1_length. intros Hj. rewrite trig_values_correct by exact Hj. apply Hh, R1.
Qed.

(** ** circular convolution of even lengths: cos * cos comes out doubled *)
Lemma trig_conv_even_wrong : exists c, length c = 2%nat /\ (forall t, evalF c t = RtoC (cos (PI * t))) /\
  ~ cint (fun t => evalF c (0 - t) * evalF c t) (-1) 1 (evalF (circconv_col c c) 0).
Proof.
  set (c := [RtoC 1; RtoC 0]).
  assert (E : forall t, evalF c t = RtoC (cos (PI * t))).
  { intros t. unfold evalF, mode. cbn. replace (PI * 1 * t)%R with (PI * t)%R by ring. ring. }
  set (g := [RtoC (/ 2); RtoC 0; RtoC (/ 2)]).
  assert (Eg : forall t, evalF g t = RtoC (cos (PI * t))).
  { intros x. unfold evalF, mode, freq. cbn. replace (PI * -1 * x)%R with (- (PI * x))%R by ring. replace (PI * 1 * x)%R with (PI * x)%R by ring.
    rewrite Rmult_0_r, Rmult_0_l, cis_0, cis_neg. unfold cis. apply injective_projections; cbn; field. }
  exists c. split; [reflexivity|]. split; [exact E|]. intros H.
  assert (G := trig_conv_correct g g 0 ltac:(reflexivity) ltac:(reflexivity)).
  assert (V1 : evalF (circconv_col c c) 0 = RtoC 2).
  { rewrite circconv_coeffs by (cbn; lia). unfold evalF, mode, freq. cbn. rewrite !Rmult_0_r, cos_0, cis_0. apply injective_projections; cbn; ring. }
  assert (V2 : evalF (circconv_col g g) 0 = RtoC 1).
  { rewrite circconv_coeffs by (cbn; lia). unfold evalF, mode, freq. cbn. rewrite !Rmult_0_r, cis_0. apply injective_projections; cbn; field. }
  rewrite V1 in H. rewrite V2 in G. destruct H as [H _], G as [G _].
  assert (Q : is_RInt (fun t => Re (evalF c (0 - t) * evalF c t)) (-1) 1 (Re (RtoC 1))).
  { eapply is_RInt_ext; [|exact G]. intros t _. cbv beta. rewrite !Eg, !E. reflexivity. }
  assert (B1 := is_RInt_unique _ _ _ _ H). assert (B2 := is_RInt_unique _ _ _ _ Q). rewrite B1 in B2. cbn in B2. lra.
Qed.
(** what [trig_ok] says *)
Lemma trig_ok_meaning t : trig_ok t <-> (1 <= length (tco t))%nat /\ length (tva t) = length (tco t) /\
  (forall j, (j < length (tco t))%nat -> nth j (tva t) (RtoC 0) = evalF (tco t) (gridpt (length (tco t)) j)) /\
  (tre t = true -> forall x, Im (evalF (tco t) x) = 0%R).
Proof.
  split.
  - intros [A [B D]]. split; [exact A|]. rewrite B, coeffs2vals1_length. split; [reflexivity|]. split; [intros j Hj; apply trig_values_correct; exact Hj|exact D].
  - intros [A [L [V D]]]. split; [exact A|]. split; [apply c2v_unique; assumption|exact D].
Qed.
