(** C191: what a state shows of itself: plot_values, mass, variation (model in PlotModel.v). *)
From Coq Require Import Reals ZArith List Arith Bool Lra Lia.
From Coquelicot Require Import Coquelicot.
From Verif Require Import Base ChebSpec ChebModel ChebModel2 ChebMath ChebEval ChebObj ChebCalc ChebChop ChebOps ChebArith ChebConstr FunModel FunProofs RootsSpec RootsModel RootsMin NormModel NormSpec NormProofs NormAlias NormSob RootsObj RootsEx PropRoots PlotModel.
Import ListNotations.
Open Scope R_scope.

Lemma int_rsum n (f : nat -> R -> R) a b (s : nat -> R) : (forall j, (j < n)%nat -> is_RInt (f j) a b (s j)) -> is_RInt (fun x => rsum n (fun j => f j x)) a b (rsum n s).
Proof.
  induction n as [|n IH]; intros H; cbn [rsum].
  - refine (eq_rect _ (fun w : R => is_RInt (V := R_NormedModule) (fun _ => 0) a b w) (is_RInt_const a b (0 : R_NormedModule)) _ _). change (scal (b - a) 0 = 0). unfold scal; cbn. unfold mult; cbn. ring.
  - apply (is_RInt_plus (V := R_NormedModule)); [apply IH; intros j Hj; apply H; lia|apply H; lia].
Qed.
Lemma total_integral F : fwf F -> is_RInt (fun x => rsum (fcols F) (fun j => fev F j x)) (dom0 F) (dom1 F) (lsum (fun_sum F)).
Proof. intros W. rewrite lsum_rsum, fun_sum_length. apply int_rsum. intros j Hj. apply fun_sum_correct; assumption. Qed.

(** C191: mass() gives the integral of every function of the state, summed over its columns. *)
Theorem C191_mass : forall funcs i F, nth_error funcs i = Some F -> fwf F ->
  length (st_mass funcs) = length funcs /\ exists m, nth_error (st_mass funcs) i = Some m /\
    is_RInt (fun x => rsum (fcols F) (fun j => fev F j x)) (dom0 F) (dom1 F) m.
Proof.
  intros funcs i F E W. split; [apply map_length|]. exists (lsum (fun_sum F)). split; [|apply total_integral; exact W].
  unfold st_mass. rewrite nth_error_map, E. reflexivity.
Qed.
Print Assumptions C191_mass.

(** the column j of u *)
Definition column (u : Fun) (j : nat) (v : Fun) : Prop := fwf v /\ fcols v = 1%nat /\ same_dom u v /\ forall x, fev v 0 x = fev u j x.
Lemma get_col u j : fwf u -> (j < fcols u)%nat -> exists v, fun_getitem u (Z.of_nat j) = Some v /\ column u j v.
Proof.
  intros [W D] Hj. destruct (getitem_correct (onefun u) j W) as [H _]. destruct (H (Z.of_nat j) ltac:(lia) ltac:(lia) Hj) as (r & E & Wr & Nr & _ & _ & Hv).
  unfold fun_getitem. rewrite E. eexists. split; [reflexivity|]. split; [split; [exact Wr|exact D]|]. split; [exact Nr|]. split; [split; reflexivity|]. intros x. apply Hv.
Qed.
Lemma sub_number u a : fwf u -> exists v, fun_sub_number u a = Some v /\ fwf v /\ fcols v = fcols u /\ same_dom u v /\ forall j x, (j < fcols u)%nat -> fev v j x = fev u j x - a.
Proof.
  intros [W D]. destruct (add_number_correct (onefun u) (- a) W) as (r & E & Wr & Nr & _ & _ & Hv). unfold fun_sub_number. rewrite dom_check_refl, E.
  eexists. split; [reflexivity|]. split; [split; [exact Wr|exact D]|]. split; [exact Nr|]. split; [split; reflexivity|]. intros j x Hj. unfold fev. cbn [onefun dom0 dom1]. rewrite Hv by exact Hj. ring.
Qed.

(** [signed s v y]: y is the norm v with the sign of s (0 for s = 0) *)
Definition signed (s v y : R) : Prop := (0 < s -> y = v) /\ (s < 0 -> y = - v) /\ (s = 0 -> y = 0).
Lemma signed_sign s v : signed s v (sign s * v).
Proof.
  split; [|split]; intros H.
  - rewrite sign_eq_1 by exact H. ring.
  - rewrite sign_eq_m1 by exact H. ring.
  - subst s. rewrite sign_0. ring.
Qed.

(** C191: 'Sturm' and 'SturmNeumann': when an answer is given it is the parameter and the p-norm of the column, with the sign of
    its derivative, resp. of its value, at the left end unless the derivative is negligible.  Any other name: the norm. *)
Theorem C191_plot_partial : forall a u j p k, fwf u -> (j < fcols u)%nat -> exists v, column u j v /\
  (forall r, plot_values a u (Z.of_nat j) Sturm p k = Some r -> exists D dn n y, r = (a, [y]) /\ fun_diff v 1 = Some D /\ fun_norm D p = Some dn /\ fun_norm v p = Some n /\
     (dn <= / 10 ^ 7 -> y = n) /\ (/ 10 ^ 7 < dn -> signed (fev D 0 (dom0 u)) n y)) /\
  (forall r, plot_values a u (Z.of_nat j) SturmNeumann p k = Some r -> exists D dn n y, r = (a, [y]) /\ fun_diff v 1 = Some D /\ fun_norm D p = Some dn /\ fun_norm v p = Some n /\
     (dn <= / 10 ^ 7 -> y = n) /\ (/ 10 ^ 7 < dn -> signed (fev u j (dom0 u)) n y)) /\
  plot_values a u (Z.of_nat j) OtherNorm p k = option_map (fun n => (a, [n])) (fun_norm v p).
Proof.
  intros a u j p k W Hj. destruct (get_col u j W Hj) as (v & Eg & Cv). exists v. split; [exact Cv|]. destruct Cv as (Wv & Nv & [S0 S1] & Hv).
  unfold plot_values, plot_y. rewrite Eg. cbn [bindo]. split; [|split].
  - intros r. destruct (fun_sturm_norm v p) as [l|] eqn:E; [|discriminate]. cbn [option_map]. intros Er. assert (r = (a, l)) as -> by congruence. clear Er.
    destruct (sturm_spec v p l Wv E) as (D & dn & n & ED & En & Ev & [[H1 H2]|(H1 & H2 & H3)]); exists D, dn, n.
    + exists n. subst l. split; [reflexivity|]. split; [exact ED|]. split; [exact En|]. split; [exact Ev|]. split; [intros _; reflexivity|intros Q; exfalso; lra].
    + rewrite Nv in H2. destruct l as [|y [|]]; [discriminate| |discriminate]. exists y. split; [reflexivity|]. split; [exact ED|]. split; [exact En|]. split; [exact Ev|]. split; [intros Q; exfalso; lra|]. intros _. specialize (H3 0%nat ltac:(lia)). cbn [nth] in H3. rewrite H3, <- S0. apply signed_sign.
  - intros r. destruct (fun_sturm_norm_alt v p) as [l|] eqn:E; [|discriminate]. cbn [option_map]. intros Er. assert (r = (a, l)) as -> by congruence. clear Er.
    unfold fun_sturm_norm_alt in E. destruct (fun_diff v 1) as [D|] eqn:ED; [|discriminate]. destruct (fun_norm D p) as [dn|] eqn:En; [|discriminate]. destruct (fun_norm v p) as [n|] eqn:Ev; [|discriminate].
    exists D, dn, n. destruct (Rltb (/ 10 ^ 7) dn) eqn:EL.
    + apply Rltb_true in EL. destruct (left_values_spec v Wv) as (lv & Elv & Llv & Hlv). rewrite Elv in E. cbn [option_map] in E. rewrite Nv in Llv. destruct lv as [|s [|]]; [discriminate| |discriminate].
      specialize (Hlv 0%nat ltac:(lia)). cbn [nth] in Hlv. cbn [map] in E. exists (sign s * n). split; [congruence|]. split; [reflexivity|]. split; [exact En|]. split; [reflexivity|]. split; [intros Q; exfalso; lra|]. intros _. rewrite <- S0, <- Hv, <- Hlv. apply signed_sign.
    + apply Rltb_false in EL. exists n. split; [congruence|]. split; [reflexivity|]. split; [exact En|]. split; [reflexivity|]. split; [intros _; reflexivity|intros Q; exfalso; lra].
  - destruct (fun_norm v p); reflexivity.
Qed.
Print Assumptions C191_plot_partial.

(** C191: 'SturmNeumann0' is 'SturmNeumann' of the column minus its mean value. *)
Theorem C191_mean_partial : forall a u j p k, fwf u -> (j < fcols u)%nat -> exists v m, fwf v /\ fcols v = 1%nat /\ same_dom u v /\
  (forall x, fev v 0 x = fev u j x - m) /\ is_RInt (fev v 0) (dom0 u) (dom1 u) 0 /\
  plot_values a u (Z.of_nat j) SturmNeumann0 p k = option_map (pair a) (fun_sturm_norm_alt v p).
Proof.
  intros a u j p k W Hj. destruct (get_col u j W Hj) as (c & Eg & (Wc & Nc & [S0 S1] & Hc)).
  set (m := 1 / (dom1 u - dom0 u) * lsum (fun_sum c)). destruct (sub_number c m Wc) as (v & Ev & Wv & Nv & [T0 T1] & Hv).
  exists v, m. split; [exact Wv|]. split; [lia|]. split; [split; lra|]. assert (F : forall x, fev v 0 x = fev u j x - m) by (intros x; rewrite Hv by lia; rewrite Hc; reflexivity).
  split; [exact F|]. split.
  - assert (I := total_integral c Wc). rewrite Nc, S0, S1 in I.
    assert (D : dom0 u < dom1 u) by apply W.
    apply (is_RInt_ext (V := R_NormedModule) (fun x => minus (rsum 1 (fun j => fev c j x)) m)).
    { intros x _. rewrite Hv by lia. cbn [rsum]. unfold minus, plus, opp; cbn. ring. }
    assert (Q := is_RInt_minus (V := R_NormedModule) _ _ _ _ _ _ I (is_RInt_const (dom0 u) (dom1 u) (m : R_NormedModule))).
    refine (eq_rect _ (fun w : R => is_RInt (V := R_NormedModule) (fun x => minus (rsum 1 (fun j => fev c j x)) m) (dom0 u) (dom1 u) w) Q _ _).
    clear Q. unfold minus, plus, opp, scal; cbn. unfold mult; cbn. unfold m. field. lra.
  - unfold plot_values, plot_y. rewrite Eg. cbn [bindo]. fold m. rewrite Ev. reflexivity.
Qed.
Print Assumptions C191_mean_partial.

(** C191: 'Sturm0' subtracts the total integral divided by the number of columns; *)
Theorem C191_sturm0_partial : forall a u j p k I, fwf u -> (j < fcols u)%nat ->
  is_RInt (fun x => rsum (fcols u) (fun i => fev u i x)) (dom0 u) (dom1 u) I -> exists v, fwf v /\ fcols v = 1%nat /\ same_dom u v /\
  (forall x, fev v 0 x = fev u j x - I / INR (fcols u)) /\
  plot_values a u (Z.of_nat j) Sturm0 p k = option_map (pair a) (fun_sturm_norm v p).
Proof.
  intros a u j p k I W Hj HI. assert (EI : I = lsum (fun_sum u)).
  { assert (Q := is_RInt_unique _ _ _ _ HI). assert (Q' := is_RInt_unique _ _ _ _ (total_integral u W)). congruence. }
  subst I. set (m := lsum (fun_sum u) / INR (fcols u)). destruct (sub_number u m W) as (u0 & E0 & W0 & N0 & [T0 T1] & H0).
  destruct (get_col u0 j W0 ltac:(lia)) as (v & Eg & (Wv & Nv & [S0 S1] & Hv)). exists v. split; [exact Wv|]. split; [exact Nv|]. split; [split; lra|].
  split; [intros x; rewrite Hv, H0 by exact Hj; reflexivity|]. unfold plot_values, plot_y. change (INR (length (coeffs (onefun u)))) with (INR (fcols u)). fold m. rewrite E0. cbn [bindo]. rewrite Eg. reflexivity.
Qed.
Print Assumptions C191_sturm0_partial.

(** constants *)
Lemma int_const (f : R -> R) v a b (I : R) : (forall x, f x = v) -> is_RInt f a b I -> I = (b - a) * v.
Proof.
  intros H HI. assert (E : is_RInt (V := R_NormedModule) (fun _ => v) a b I) by (apply is_RInt_ext with f; [intros x _; apply H|exact HI]).
  apply (is_RInt_unique (V := R_CompleteNormedModule)) in E. rewrite RInt_const in E. rewrite <- E. reflexivity.
Qed.
Lemma const_coef f v : wf f -> (1 <= ncols f)%nat -> (forall x, ev f 0 x = v) -> forall k, coef f 0 k = nth k [v] 0.
Proof. intros W N H k. unfold coef. apply coef_unique. intros x. change (evalT (nth 0 (coeffs f) []) x) with (ev f 0 x). rewrite H. unfold evalT. cbn [length rsum nth T]. ring. Qed.
Lemma const_evK f v K : wf f -> (1 <= ncols f)%nat -> (forall x, ev f 0 x = v) -> (1 <= K)%nat -> forall x, evK f 0 K x = v.
Proof.
  intros W N H HK x. unfold evK. destruct K as [|K]; [lia|]. rewrite rsum_S_l, rsum_zero; [rewrite (const_coef f v W N H); cbn [nth T]; ring|].
  intros k _. rewrite (const_coef f v W N H). destruct k; cbn [nth]; ring.
Qed.
Lemma divide_len f a r : wf f -> divide_number f a = Some r -> (len r <= len f + 1)%nat.
Proof.
  intros W. set (d := mkCheb (map (map (fun c => c / a)) (coeffs f)) (eps f) 1 maxLength_default (ishappy f)).
  assert (Rd : rect (len f) (coeffs d)) by (apply (rect_map (len f)); [apply wf_rect; exact W|apply len_pos; exact W|]; intros c Hc; rewrite map_length; exact Hc).
  unfold divide_number, cheb_init. change (map (map (fun c => c / a)) (coeffs f)) with (coeffs d).
  destruct (Nat.eqb (nrows (coeffs d) * length (coeffs d)) 0); [discriminate|].
  destruct (if ishappy f then _ else _) as [[|]|]; [| |discriminate]; cbn [andb].
  - destruct (simplify_coeffs_spec (len f) (coeffs d) (eps f) Rd) as (K & HK & Es & _). rewrite Es. cbn [option_map]. intros E. assert (Q' := f_equal (option_map len) E). unfold len in Q'. cbn [option_map coeffs] in Q'.
    assert (Q : len r = nrows (prolong (coeffs d) (Z.of_nat K))) by (unfold len; congruence). rewrite Q, (rect_nrows K); [lia|]. apply (rect_prolong (len f)); [exact Rd|lia].
  - intros E. assert (Q' := f_equal (option_map len) E). unfold len in Q' at 1 2. cbn [option_map coeffs] in Q'. assert (Q : len r = nrows (coeffs d)) by (unfold len; congruence). rewrite Q, (rect_nrows (len f)) by exact Rd. lia.
Qed.
Lemma const_diff F v : fwf F -> fcols F = 1%nat -> (forall x, ev (onefun F) 0 x = v) ->
  exists D, fun_diff F 1 = Some D /\ fwf D /\ same_dom F D /\ fcols D = 1%nat /\ (flen D <= flen F + 1)%nat /\ forall x, ev (onefun D) 0 x = 0.
Proof.
  intros [W Hd] N H. unfold fcols in N. destruct (diff_correct (onefun F) 1 W ltac:(lia)) as (g & K & E & Wg & Ng & _ & Lg & [HK _] & HD).
  assert (G : forall x, ev g 0 x = 0).
  { intros x. specialize (HD 0%nat x ltac:(lia)). cbn [is_derive_n Derive_n] in HD. apply is_derive_unique in HD. rewrite <- HD.
    rewrite (Derive_ext _ (fun _ => v)) by (intros t; apply const_evK; [exact W|lia|exact H|lia]). apply Derive_const. }
  unfold fun_diff. rewrite E. set (r := (/ 2 * (dom1 F - dom0 F)) ^ 1). assert (Hr : r <> 0) by (apply pow_nonzero; lra).
  destruct (divide_number_correct g r Wg Hr) as (d & K' & Ed & Wd & Nd & HK' & _ & Hv & _). rewrite Ed. eexists. split; [reflexivity|].
  split; [split; [exact Wd|exact Hd]|]. split; [split; reflexivity|]. split; [unfold fcols; cbn; lia|]. split; [assert (Q := divide_len g r d Wg Ed); unfold flen; cbn [onefun]; unfold len in *; lia|]. intros x. cbn [onefun]. rewrite Hv by lia. rewrite (const_evK g 0 K') by (try assumption; lia). field. exact Hr.
Qed.
Lemma initial_small ms : (ms <= 17)%Z -> (initial_n maxLength_default ms <= maxLength_default)%Z.
Proof.
  intros H. unfold initial_n. set (m := Z.max 9 (Z.min maxLength_default ms)). assert (M : (m <= 17)%Z) by (unfold m; lia).
  assert (L := Z.log2_up_le_mono (m - 1) 16 ltac:(lia)). change (Z.log2_up 16) with 4%Z in L. assert (P := Z.pow_le_mono_r 2 _ 4 ltac:(lia) L). change (2 ^ 4)%Z with 16%Z in P.
  assert (17 <= maxLength_default)%Z by (vm_compute; discriminate). lia.
Qed.
Lemma interp_cst v N : (1 <= N)%nat -> forall k, nth k (interp (fun _ => v) N) 0 = nth k [v] 0.
Proof.
  intros HN k. apply coef_unique. intros x. rewrite interp_span.
  - cbn. ring.
  - exact HN.
  - apply spanT_mono with 1%nat; [lia|]. exists [v]. split; [cbn; lia|]. intros y. cbn. ring.
Qed.
Lemma const_norm F v : fwf F -> fcols F = 1%nat -> (flen F <= 17)%nat -> (forall x, ev (onefun F) 0 x = v) -> fun_norm F 2 = nroot 2 (v ^ 2 * (dom1 F - dom0 F)).
Proof.
  intros [W Hd] N HL H. unfold fun_norm, norm_detail, norm2_detail, fun_power. cbn [Nat.eqb]. change (Nat.odd 2) with false. cbv iota. rewrite dom_check_refl.
  unfold cheb_power. cbn [Nat.eqb]. unfold fcols, ncols in N. assert (Q := len_pos _ W). assert (C := col_len (onefun F) 0 W ltac:(unfold ncols; lia)).
  unfold ev in H. unfold flen, len in HL. unfold len in Q, C. destruct (coeffs (onefun F)) as [|c [|]] eqn:Ec; [discriminate| |discriminate]. cbn [nth] in C, H. cbn [map].
  destruct (construct_spec [fun y => clenshaw_pt c y ^ 2] (eps (onefun F)) 1 maxLength_default (Z.of_nat (nrows [c])) ltac:(discriminate) (initial_small (Z.of_nat (nrows [c])) ltac:(lia))) as (r & M & K & E & Wr & Nr & _ & _ & HN & HK & HC & _).
  rewrite E. cbn [wrap option_map]. set (G := mkFun _ _ _). assert (WG : fwf G) by (split; [exact Wr|exact Hd]).
  assert (H9 := initial_n_ge maxLength_default (Z.of_nat (nrows [c]))).
  assert (EV : forall x, ev r 0 x = v ^ 2).
  { intros x. unfold ev. assert (E1 : evalT (nth 0 (coeffs r) []) x = evalT [v ^ 2] x).
    { set (L := S (length (nth 0 (coeffs r) []))). rewrite (evalT_ge _ x L) by (unfold L; lia). rewrite (evalT_ge [v ^ 2] x L) by (unfold L; cbn [length]; lia). apply rsum_ext. intros i Hi. f_equal.
      change (coef r 0 i = nth i [v ^ 2] 0). rewrite HC by (cbn; lia). cbn [nth].
      rewrite (interp_eq _ (fun _ => v ^ 2)) by (try lia; intros t _; rewrite clenshaw_pt_correct by lia; now rewrite H). rewrite interp_cst by lia. destruct (Nat.ltb_spec i K); [reflexivity|]. destruct i; [lia|]. destruct i; reflexivity. }
    rewrite E1. unfold evalT. cbn [length rsum nth T]. ring. }
  assert (I := total_integral G WG). assert (NG : fcols G = 1%nat) by (unfold fcols, G; cbn [onefun]; rewrite Nr; reflexivity). rewrite NG in I.
  assert (S : lsum (fun_sum G) = v ^ 2 * (dom1 F - dom0 F)).
  { rewrite (int_const _ (v ^ 2) _ _ _ (fun x => eq_trans (Rplus_0_l _) (EV _)) I). change (dom1 G - dom0 G) with (dom1 F - dom0 F). ring. }
  rewrite S, Rabs_pos_eq; [reflexivity|]. assert (0 <= v ^ 2) by apply pow2_ge_0. nra.
Qed.

Lemma fev_const_ev F v : fwf F -> (forall x, fev F 0 x = v) -> forall t, ev (onefun F) 0 t = v.
Proof.
  intros [W D] H t. specialize (H ((t * (dom1 F - dom0 F) + dom0 F + dom1 F) / 2)). unfold fev in H. rewrite <- H. f_equal. field. lra.
Qed.
Lemma const_sturm F v : fwf F -> fcols F = 1%nat -> (flen F <= 16)%nat -> (forall x, fev F 0 x = v) ->
  fun_sturm_norm F 2 = option_map (fun n => [n]) (nroot 2 (v ^ 2 * (dom1 F - dom0 F))).
Proof.
  intros W N L H. assert (H' := fev_const_ev F v W H). destruct (const_diff F v W N H') as (D & ED & WD & [S0 S1] & ND & LD & HD).
  unfold fun_sturm_norm. rewrite ED, (const_norm D 0 WD ND) by (try exact HD; lia). rewrite (const_norm F v W N) by (try exact H'; lia).
  replace (0 ^ 2 * (dom1 D - dom0 D)) with 0 by ring. unfold nroot at 1. replace (Rltb 0 0) with false by (symmetry; apply Rltb_false; lra). replace (Reqb 0 0) with true by (symmetry; unfold Reqb; destruct (Req_EM_T 0 0); congruence).
  destruct (nroot 2 (v ^ 2 * (dom1 F - dom0 F))) as [n|]; [|reflexivity]. replace (Rltb (/ 10 ^ 7) 0) with false; [reflexivity|]. symmetry. apply Rltb_false. left. apply Rinv_0_lt_compat. apply pow_lt. lra.
Qed.

(** C191 REFUTED: so 'Sturm0' does not measure the deviation from the mean on a domain whose length is not 1: for a constant, which
    is its own mean, it is positive. *)
Theorem C191_mean_refuted : forall a u v k, fwf u -> fcols u = 1%nat -> (flen u <= 16)%nat -> (forall x, fev u 0 x = v) -> v <> 0 -> dom1 u - dom0 u <> 1 ->
  exists y, plot_values a u 0 Sturm0 2 k = Some (a, [y]) /\ 0 < y.
Proof.
  intros a u v k W N L H Hv HL. assert (D : dom0 u < dom1 u) by apply W. set (m := lsum (fun_sum u) / INR (fcols u)).
  assert (Em : m = v * (dom1 u - dom0 u)).
  { assert (I := total_integral u W). rewrite N in I. unfold m. rewrite (int_const _ v _ _ _ (fun x => eq_trans (Rplus_0_l _) (H x)) I), N. cbn [INR].
    field. }
  destruct W as [W _]. destruct (add_number_correct (onefun u) (- m) W) as (r & E & Wr & Nr & Lr & _ & Hr).
  destruct (getitem_correct r 0 Wr) as [G _]. destruct (G 0%Z ltac:(lia) ltac:(lia) ltac:(unfold fcols in N; lia)) as (q & Eq & Wq & Nq & Lq & _ & Hq).
  unfold plot_values, plot_y. change (INR (length (coeffs (onefun u)))) with (INR (fcols u)). fold m. unfold fun_sub_number. rewrite dom_check_refl, E. cbn [wrap option_map bindo].
  unfold fun_getitem. cbn [onefun]. rewrite Eq. cbn [wrap option_map bindo]. set (F := mkFun _ _ _).
  assert (WF : fwf F) by (split; [exact Wq|exact D]).
  rewrite (const_sturm F (v - m)); [|exact WF|exact Nq|unfold flen, F in *; cbn [onefun]; lia|].
  2:{ intros x. unfold fev, F. cbn [onefun dom0 dom1]. rewrite Hq, Hr by (unfold fcols in N; lia). rewrite (fev_const_ev u v) by (try assumption; split; assumption). ring. }
  set (Z := (v - m) ^ 2 * (dom1 F - dom0 F)). assert (Zp : 0 < Z).
  { unfold Z. change (dom1 F - dom0 F) with (dom1 u - dom0 u). apply Rmult_lt_0_compat; [|lra]. apply pow2_gt_0. rewrite Em. replace (v - v * (dom1 u - dom0 u)) with (v * (1 - (dom1 u - dom0 u))) by ring. apply Rmult_integral_contrapositive. split; [exact Hv|lra]. }
  unfold nroot. replace (Rltb Z 0) with false by (symmetry; apply Rltb_false; lra). replace (Reqb Z 0) with false by (symmetry; unfold Reqb; destruct (Req_EM_T Z 0); [lra|reflexivity]).
  exists (Rpower Z (1 / INR 2)). split; [reflexivity|apply exp_pos].
Qed.
Print Assumptions C191_mean_refuted.

(** C191 REFUTED: the documented norm type 'Wkp' never gives an answer. *)
Theorem C191_wkp_refuted : forall a u cidx p k, plot_values a u cidx Wkp p k = None.
Proof. intros a u cidx p k. unfold plot_values, plot_y. destruct (fun_getitem u cidx); reflexivity. Qed.
Print Assumptions C191_wkp_refuted.

(** C191: there is no answer for a column the function does not have; negative indices do not count from the end. *)
Theorem C191_range : forall a u cidx t p k, fwf u -> (cidx < 0 \/ Z.of_nat (fcols u) <= cidx)%Z -> plot_values a u cidx t p k = None.
Proof.
  intros a u cidx t p k W H. assert (G : forall u', fwf u' -> fcols u' = fcols u -> fun_getitem u' cidx = None).
  { intros u' [W' _] N. destruct (getitem_correct (onefun u') 0 W') as [_ G]. unfold fun_getitem. rewrite G by (unfold fcols in *; lia). reflexivity. }
  unfold plot_values, plot_y. destruct t; try (rewrite (G u W eq_refl); reflexivity).
  destruct (sub_number u (lsum (fun_sum u) / INR (length (coeffs (onefun u)))) W) as (v & E & Wv & Nv & _). rewrite E. cbn [bindo]. rewrite (G v Wv Nv). reflexivity.
Qed.
Print Assumptions C191_range.

Lemma rsum_member n (f : nat -> R) j : (j < n)%nat -> (forall i, (i < n)%nat -> 0 <= f i) -> f j <= rsum n f.
Proof.
  induction n as [|n IH]; intros Hj H; [lia|]. cbn [rsum]. destruct (Nat.eq_dec j n) as [->|].
  - enough (0 <= rsum n f) by lra. apply rsum_nonneg. intros i Hi. apply H. lia.
  - assert (Q := IH ltac:(lia) ltac:(intros i Hi; apply H; lia)). assert (0 <= f n) by (apply H; lia). lra.
Qed.
(** C191: variation() is 0 for a function given by one coefficient; otherwise the sum over the columns of the difference of two
    values of the column, and it is at least |u(b) - u(a)| for every column. *)
Theorem C191_variation_partial : forall eigs fuel u V, fwf u -> st_variation eigs fuel u = Some V ->
  (flen u = 1%nat /\ V = 0) \/
  (exists p q : nat -> R, V = rsum (fcols u) (fun j => fev u j (q j) - fev u j (p j)) /\
     forall j, (j < fcols u)%nat -> fev u j (p j) <= fev u j (dom0 u) <= fev u j (q j) /\ fev u j (p j) <= fev u j (dom1 u) <= fev u j (q j) /\
       Rabs (fev u j (dom1 u) - fev u j (dom0 u)) <= V).
Proof.
  intros eigs fuel u V [W D] E. unfold st_variation in E. destruct (Nat.ltb_spec 1 (nrows (coeffs (onefun u)))) as [L|L].
  2:{ left. split; [|congruence]. assert (Q := len_pos _ W). unfold flen, len in *. lia. }
  right. destruct (cheb_minandmax eigs fuel (onefun u)) as [res|] eqn:EM; [|discriminate]. cbn [option_map] in E. assert (EV : V = lsum (map (fun r => fst (snd r) - fst (fst r)) res)) by congruence. clear E.
  assert (HC := fun j (Hj : (j < fcols u)%nat) => C126_values_consistent eigs fuel (onefun u) _ j res (wf_rect _ W) Hj EM).
  assert (Lr : length res = fcols u).
  { rewrite cheb_minandmax_eq in EM. destruct (cheb_diff (onefun u) 1) as [fp|]; [|discriminate]. apply all_opt_length in EM. rewrite EM, mk_length. reflexivity. }
  set (bk := fun t => (t * (dom1 u - dom0 u) + dom0 u + dom1 u) / 2). assert (B : forall j t, fev u j (bk t) = ev (onefun u) j t) by (intros j t; unfold fev, bk; f_equal; field; lra).
  assert (B0 : bk (-1) = dom0 u) by (unfold bk; field). assert (B1 : bk 1 = dom1 u) by (unfold bk; field).
  set (z := ((0, 0), (0, 0)) : (R * R) * (R * R)). fold z in HC.
  exists (fun j => bk (snd (fst (nth j res z)))), (fun j => bk (snd (snd (nth j res z)))).
  assert (EV' : V = rsum (fcols u) (fun j => fev u j (bk (snd (snd (nth j res z)))) - fev u j (bk (snd (fst (nth j res z)))))).
  { rewrite EV, lsum_rsum, map_length, Lr. apply rsum_ext. intros j Hj. rewrite (nth_indep _ 0 (fst (snd z) - fst (fst z))) by (rewrite map_length; lia). rewrite (map_nth (fun r => fst (snd r) - fst (fst r)) res z j), !B.
    specialize (HC j Hj). destruct (nth j res z) as [[m a] [M b]]. cbn [fst snd]. destruct HC as (-> & -> & _). reflexivity. }
  split; [exact EV'|].
  assert (T : forall j, (j < fcols u)%nat -> fev u j (bk (snd (fst (nth j res z)))) <= fev u j (dom0 u) <= fev u j (bk (snd (snd (nth j res z)))) /\ fev u j (bk (snd (fst (nth j res z)))) <= fev u j (dom1 u) <= fev u j (bk (snd (snd (nth j res z))))).
  { intros j Hj. rewrite <- B0, <- B1, !B. specialize (HC j Hj). destruct (nth j res z) as [[m a] [M b]]. cbn [fst snd]. destruct HC as (-> & -> & H1 & H2 & _). split; assumption. }
  intros j Hj. assert (Tj := T j Hj). split; [apply Tj|]. split; [apply Tj|].
  assert (U : fev u j (bk (snd (snd (nth j res z)))) - fev u j (bk (snd (fst (nth j res z)))) <= V).
  { rewrite EV'. apply (rsum_member (fcols u) (fun j => fev u j (bk (snd (snd (nth j res z)))) - fev u j (bk (snd (fst (nth j res z))))) j); [exact Hj|]. intros i Hi. specialize (T i Hi). lra. }
  apply Rabs_le. lra.
Qed.
Print Assumptions C191_variation_partial.

(** C191: when the extrema are found, variation() is the sum over the columns of maximum minus minimum (C126 says when). *)
Theorem C191_variation_range_partial : forall eigs fuel u V res (lo hi : nat -> R), fwf u -> (2 <= flen u)%nat -> st_variation eigs fuel u = Some V ->
  cheb_minandmax eigs fuel (onefun u) = Some res ->
  (forall j, (j < fcols u)%nat -> extrema (ev (onefun u) j) (nth j res ((0, 0), (0, 0)))) ->
  (forall j, (j < fcols u)%nat -> (exists x, dom0 u <= x <= dom1 u /\ fev u j x = lo j) /\ (exists x, dom0 u <= x <= dom1 u /\ fev u j x = hi j) /\
     forall x, dom0 u <= x <= dom1 u -> lo j <= fev u j x <= hi j) -> V = rsum (fcols u) (fun j => hi j - lo j).
Proof.
  intros eigs fuel u V res lo hi [W D] L E EM HX HB. unfold st_variation in E. unfold flen, len in L. destruct (Nat.ltb_spec 1 (nrows (coeffs (onefun u)))); [|lia].
  rewrite EM in E. cbn [option_map] in E. assert (EV : V = lsum (map (fun r => fst (snd r) - fst (fst r)) res)) by congruence. clear E.
  assert (Lr : length res = fcols u).
  { rewrite cheb_minandmax_eq in EM. destruct (cheb_diff (onefun u) 1) as [fp|]; [|discriminate]. apply all_opt_length in EM. rewrite EM, mk_length. reflexivity. }
  set (bk := fun t => (t * (dom1 u - dom0 u) + dom0 u + dom1 u) / 2). assert (B : forall j t, fev u j (bk t) = ev (onefun u) j t) by (intros j t; unfold fev, bk; f_equal; field; lra).
  assert (BI : forall t, -1 <= t <= 1 -> dom0 u <= bk t <= dom1 u) by (intros t Ht; unfold bk; nra).
  assert (FI : forall x, dom0 u <= x <= dom1 u -> exists t, -1 <= t <= 1 /\ bk t = x).
  { intros x Hx. exists ((2 * x - dom0 u - dom1 u) / (dom1 u - dom0 u)). split; [|unfold bk; field; lra]. split; [apply Rle_div_r|apply Rle_div_l]; lra. }
  set (z := ((0, 0), (0, 0)) : (R * R) * (R * R)). fold z in HX.
  rewrite EV, lsum_rsum, map_length, Lr. apply rsum_ext. intros j Hj. rewrite (nth_indep _ 0 (fst (snd z) - fst (fst z))) by (rewrite map_length; lia). rewrite (map_nth (fun r => fst (snd r) - fst (fst r)) res z j).
  specialize (HX j Hj). destruct (nth j res z) as [[m a] [M b]]. cbn [fst snd]. destruct HX as ((Ha & Em & Hm) & (Hb & EM' & HM)). destruct (HB j Hj) as ((xl & Hxl & El) & (xh & Hxh & Eh) & HLH).
  destruct (FI xl Hxl) as (tl & Htl & Tl). destruct (FI xh Hxh) as (th & Hth & Th). rewrite <- Tl, B in El. rewrite <- Th, B in Eh.
  assert (Q1 := Hm tl Htl). assert (Q2 := HM th Hth). assert (Q3 := HLH (bk a) (BI a Ha)). assert (Q4 := HLH (bk b) (BI b Hb)). rewrite B in Q3, Q4. lra.
Qed.
Print Assumptions C191_variation_range_partial.

(** C191 REFUTED: x^2/2 + 3x on [-1,1] varies by 6; variation() gives at least 8. *)
Theorem C191_variation_refuted : forall eigs fuel, let u := mkFun (mkCheb [[1 / 4; 3; 1 / 4]] eps_default 1 maxLength_default true) (-1) 1 in
  (exists V, st_variation eigs (S fuel) u = Some V /\ 8 <= V) /\ forall x y, -1 <= x <= 1 -> -1 <= y <= 1 -> fev u 0 x - fev u 0 y <= 6.
Proof.
  intros eigs fuel u. assert (EvE : forall t, evalT [1 / 4; 3; 1 / 4] t = t ^ 2 / 2 + 3 * t) by (intros t; unfold evalT; cbn; field).
  assert (RQ : rect 3 (coeffs (onefun u))) by (split; [lia|]; split; [discriminate|repeat constructor]).
  split.
  - destruct (C126_quadratic_refuted eigs fuel) as (M & E & _). assert (HC := C126_values_consistent eigs (S fuel) (onefun u) 3 0 _ RQ ltac:(cbn; lia) E).
    unfold st_variation. change (Nat.ltb 1 (nrows (coeffs (onefun u)))) with true. cbv iota. cbn [onefun u]. rewrite E. eexists. split; [reflexivity|].
    cbn [nth] in HC. destruct M as [M b]. destruct HC as (_ & _ & _ & [_ HC] & _). unfold ev in HC. cbn [onefun u coeffs nth] in HC. rewrite EvE in HC. unfold lsum. cbn [map fold_right fst snd]. lra.
  - intros x y Hx Hy. unfold fev, ev. cbn [onefun u coeffs nth dom0 dom1]. rewrite !EvE. replace ((2 * x - -1 - 1) / (1 - -1)) with x by field. replace ((2 * y - -1 - 1) / (1 - -1)) with y by field. nra.
Qed.
Print Assumptions C191_variation_refuted.

(** a constant on [0,2] and a function with two columns *)
Definition two : Fun := mkFun (mkCheb [[2]] eps_default 1 maxLength_default true) 0 2.
Definition pairF : Fun := mkFun (mkCheb [[1; 1]; [0; 3]] eps_default 1 maxLength_default true) 0 2.
Example ex_C191 : fwf two /\ fcols two = 1%nat /\ (flen two <= 16)%nat /\ (forall x, fev two 0 x = 2) /\ dom1 two - dom0 two <> 1 /\
  fwf pairF /\ fcols pairF = 2%nat /\ nth_error (st_mass [two; pairF]) 0 = Some (lsum (fun_sum two)).
Proof.
  split; [split; [exists 1%nat; split; [lia|]; split; [discriminate|repeat constructor]|cbn; lra]|]. split; [reflexivity|]. split; [cbn; lia|].
  split; [intros x; unfold fev, ev, evalT; cbn; ring|]. split; [cbn; lra|]. split; [split; [exists 2%nat; split; [lia|]; split; [discriminate|repeat constructor]|cbn; lra]|]. split; reflexivity.
Qed.
