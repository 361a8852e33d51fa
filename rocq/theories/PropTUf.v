(** C187, and the parts of C35 and C66 that go through numpy's ufuncs: functions of periodic functions. *)
From Coq Require Import Reals ZArith List Arith Bool Lra Lia FunctionalExtensionality.
From Coquelicot Require Import Coquelicot.
From Verif Require Import Base ChebModel TrigSpec TrigModel TrigModel2 TrigBase TrigTrans TrigEval TrigCalc TrigCalc2 TrigObj TrigObj2 TrigCons TrigConsProofs TrigConsEx PropTCons TrigUfunc.
Import ListNotations.
Open Scope R_scope.

(** a trigonometric polynomial of degree d loses at most the 2d coefficients other than the mean *)
Lemma trunc_deg K r c d B x : (1 <= length c)%nat -> truncation K r c -> (d <= length c / 2)%nat -> (0 <= B)%R ->
  (forall z, (Z.of_nat d < Z.abs z)%Z -> coef c z = RtoC 0) ->
  (forall z, (Z.of_nat K <= Z.abs z <= Z.of_nat d)%Z -> Cmod (coef c z) <= B) -> Cmod (evalF r x - evalF c x)%C <= INR (2 * d) * B.
Proof.
  intros Hn T Hd HB Hz H. assert (HK : (1 <= K)%nat) by apply T. set (m := (length c / 2)%nat) in *.
  eapply Rle_trans; [apply (truncation_error K r c x Hn T)|]. fold m.
  replace (2 * m + 1)%nat with ((m - d) + (d + (1 + (d + (m - d)))))%nat by lia. rewrite !rsum_app. 
  replace (INR (2 * d) * B) with (0 + (INR d * B + (0 + (INR d * B + 0)))) by (rewrite mult_INR; cbn; ring).
  assert (Out : forall k, (Z.of_nat d < Z.abs (Z.of_nat k - Z.of_nat m))%Z ->
    (if Z.leb (Z.of_nat K) (Z.abs (Z.of_nat k - Z.of_nat m)) then Cmod (coef c (Z.of_nat k - Z.of_nat m)) else 0) = 0).
  { intros k Hk. rewrite Hz by exact Hk. rewrite Cmod_0. destruct (Z.leb _ _); reflexivity. }
  assert (In_ : forall k, (Z.abs (Z.of_nat k - Z.of_nat m) <= Z.of_nat d)%Z ->
    (if Z.leb (Z.of_nat K) (Z.abs (Z.of_nat k - Z.of_nat m)) then Cmod (coef c (Z.of_nat k - Z.of_nat m)) else 0) <= B).
  { intros k Hk. destruct (Z.leb_spec (Z.of_nat K) (Z.abs (Z.of_nat k - Z.of_nat m))); [apply H; lia|exact HB]. }
  repeat apply Rplus_le_compat.
  - apply Req_le, rsum_zero. intros k Hk. apply Out. lia.
  - rewrite <- rsum_const. apply rsum_le. intros k Hk. apply In_. lia.
  - apply Req_le, rsum_zero. intros k Hk. destruct (Z.leb_spec (Z.of_nat K) (Z.abs (Z.of_nat (m - d + (d + k)) - Z.of_nat m))); [lia|reflexivity].
  - rewrite <- rsum_const. apply rsum_le. intros k Hk. apply In_. lia.
  - apply Req_le, rsum_zero. intros k Hk. apply Out. lia.
Qed.

(** the construction of a real trigonometric polynomial of degree at most 15 *)
Lemma low_degree (op : R -> C) e d : (d <= 15)%nat -> 0 < e < 1 -> trig_poly d op -> (forall x, -1 <= x <= 1 -> Im (op x) = 0) ->
  exists h f, tconstruct [op] e = Some (h, [f]) /\ (forall x, Cmod (fst (tcall f x) - op x)%C <= INR (2 * d) * Rpower e (2 / 5)) /\
    hermitian (tco f) /\ (1 <= length (tco f))%nat.
Proof.
  intros Hd He Hp Hre. destruct (C180_real_partial [op] e ltac:(discriminate) He) as [h' [fs' [N' [E' [_ [HN32 _]]]]]].
  destruct (tconstruct_spec [op] e ltac:(discriminate)) as [h [fs [N [K [E [L [HN [Hi H]]]]]]]].
  assert (H0 := H 0%nat ltac:(cbn; lia)). cbv zeta in H0. cbn [nth] in H0. destruct fs as [|f [|]]; [cbn in L; lia| |cbn in L; lia]. cbn [nth] in H0.
  exists h, f. split; [exact E|].
  assert (N32 : (32 <= N)%nat).
  { destruct h; [|unfold tmaxlen in H0; lia]. destruct H0 as [_ [Hc _]]. assert (Q := size_32 _ e _ N Hi (icf_length _ _) ltac:(lra) Hc). lia. }
  assert (Hev : Nat.even N = true) by (destruct Hi as [i ->]; apply Nat.even_spec; exists (4 * 2 ^ i)%nat; lia). assert (A := even_half _ Hev).
  destruct (icf_tpoly op d N Hp ltac:(lia)) as [H1 H2]. assert (Lc := icf_length op N).
  assert (Sy : symm (icf op N)) by (apply icf_symm; [lia|exact Hre]).
  assert (He2 : 0 < Rpower e (2 / 5)) by apply exp_pos.
  destruct h.
  - destruct H0 as [T [_ [_ Hs]]]. destruct (Hs He) as [_ S2].
    assert (L1 : (1 <= length (tco f))%nat) by (destruct T as [LT [P _]]; lia).
    assert (HH : hermitian (tco f)) by (apply symm_herm; [exact L1|exact (symm_trunc _ _ _ T Sy)]).
    split; [|split; assumption]. intros x. rewrite tcall_herm by assumption. rewrite <- (H1 x).
    apply trunc_deg with K; [lia|exact T|rewrite Lc; lia|lra|exact H2|]. intros z Hz. apply (S2 Sy). lia.
  - destruct H0 as [_ Ht]. assert (HH : hermitian (tco f)) by (rewrite Ht; apply symm_herm; [lia|exact Sy]).
    split; [|split; [assumption|rewrite Ht; lia]].
    intros x. rewrite tcall_herm; [|rewrite Ht; lia|assumption]. rewrite Ht, H1. replace (op x - op x)%C with (RtoC 0) by (apply injective_projections; cbn; ring).
    rewrite Cmod_0. apply Rmult_le_pos; [apply pos_INR|lra].
Qed.

(** evaluation of f does not change it *)
Definition steady (f : trig) : Prop := Nat.odd (length (tco f)) = true \/ tre f = false.

(** C187: u(f) and u(f, g), when the result is a real trigonometric polynomial of degree at most 15, are this polynomial up to
    2 d eps^(2/5) (eps = 1e-10), and the operands are unchanged by the evaluations. *)
Theorem C187_functions_partial : forall f g d, trig_ok f -> trig_ok g -> steady f -> steady g -> (d <= 15)%nat ->
  (forall u, trig_poly d (fun x => u (evalF (tco f) x)) -> (forall x, -1 <= x <= 1 -> Im (u (evalF (tco f) x)) = 0) ->
     exists h r, tufunc u f = Some (h, [r]) /\ forall x, Cmod (fst (tcall r x) - u (evalF (tco f) x))%C <= INR (2 * d) * Rpower (/ 10 ^ 10) (2 / 5)) /\
  (forall u, trig_poly d (fun x => u (evalF (tco f) x) (evalF (tco g) x)) -> (forall x, -1 <= x <= 1 -> Im (u (evalF (tco f) x) (evalF (tco g) x)) = 0) ->
     exists h r, tufunc2 u f (TFun g) = Some (h, [r]) /\ forall x, Cmod (fst (tcall r x) - u (evalF (tco f) x) (evalF (tco g) x))%C <= INR (2 * d) * Rpower (/ 10 ^ 10) (2 / 5)) /\
  (forall n, tcalls n f = f /\ tcalls n g = g).
Proof.
  intros f g d Hf Hg Sf Sg Hd.
  assert (He : 0 < teps < 1). { unfold teps. split; [apply Rinv_0_lt_compat; lra|]. rewrite <- Rinv_1. apply Rinv_lt_contravar; lra. }
  split; [|split].
  - intros u Hp Hr. destruct (low_degree (fun x => u (fst (tcall f x))) teps d Hd He) as [h [r [E [H _]]]].
    + destruct Hp as [c [Lc Hc]]. exists c. split; [exact Lc|]. intros x. rewrite (trig_call_correct f x Hf). apply Hc.
    + intros x Hx. rewrite (trig_call_correct f x Hf). apply Hr. exact Hx.
    + exists h, r. split; [exact E|]. intros x. specialize (H x). cbv beta in H. rewrite (trig_call_correct f x Hf) in H. exact H.
  - intros u Hp Hr. destruct (low_degree (fun x => u (fst (tcall f x)) (fst (tcall g x))) teps d Hd He) as [h [r [E [H _]]]].
    + destruct Hp as [c [Lc Hc]]. exists c. split; [exact Lc|]. intros x. rewrite (trig_call_correct f x Hf), (trig_call_correct g x Hg). apply Hc.
    + intros x Hx. rewrite (trig_call_correct f x Hf), (trig_call_correct g x Hg). apply Hr. exact Hx.
    + exists h, r. split; [exact E|]. intros x. specialize (H x). cbv beta in H. rewrite (trig_call_correct f x Hf), (trig_call_correct g x Hg) in H. exact H.
  - assert (Q : forall t n, steady t -> tcalls n t = t). { intros t n St. induction n as [|n IH]; [reflexivity|]. cbn [tcalls]. rewrite (trig_call_stable t 0 St). exact IH. }
    intros n. split; apply Q; assumption.
Qed.
Print Assumptions C187_functions_partial.

(** C187 is false: a number as second operand (np.maximum(f, 0)) is an error. *)
Theorem C187_number_refuted : forall u f a, tufunc2 u f (TNum a) = None.
Proof. reflexivity. Qed.
Print Assumptions C187_number_refuted.

(** C187 is false: every evaluation halves the highest coefficient of a real function of even length, so a function of it
    changes it. *)
Lemma tcalls_real n : forall f, tre f = true -> tre (tcalls n f) = true.
Proof. induction n as [|n IH]; intros f H; [exact H|]. cbn [tcalls]. apply IH. unfold tcall. now rewrite H. Qed.
Theorem C187_operand_refuted : forall f n, tre f = true -> (2 <= length (tco f))%nat -> Nat.even (length (tco f)) = true ->
  length (tco (tcalls (S n) f)) = length (tco f) /\ nth 0 (tco (tcalls (S n) f)) (RtoC 0) = RtoC (Re (nth 0 (tco f) (RtoC 0)) / 2 ^ S n) /\
  forall k, (1 <= k)%nat -> nth k (tco (tcalls (S n) f)) (RtoC 0) = nth k (tco f) (RtoC 0).
Proof.
  intros f n. revert f. induction n as [|n IH]; intros f Hr H2 He.
  - cbn [tcalls]. unfold tcall. rewrite Hr. cbn [snd tco]. destruct (tco f) as [|a t] eqn:E; [cbn in H2; lia|]. unfold touch. rewrite He. cbn [length nth].
    split; [reflexivity|]. split; [unfold RtoC; f_equal; cbn; field|]. intros [|k] Hk; [lia|reflexivity].
  - change (tcalls (S (S n)) f) with (tcalls (S n) (snd (tcall f 0))). unfold tcall. rewrite Hr. cbn [snd].
    destruct (tco f) as [|a t] eqn:E; [cbn in H2; lia|]. unfold touch. rewrite He.
    specialize (IH {| tco := ((Re a / 2)%R, 0%R) :: t; tva := tva f; tre := tre f |}). cbn [tco tre length] in IH. rewrite Hr in *. cbn [length] in H2, He.
    destruct (IH eq_refl H2 He) as [L [A B]]. split; [cbn [length]; exact L|]. split; [rewrite A; cbn [nth Re fst]; unfold RtoC; f_equal; cbn [pow]; field; apply pow_nonzero; lra|].
    intros k Hk. rewrite B by exact Hk. destruct k; [lia|reflexivity].
Qed.
Print Assumptions C187_operand_refuted.

(** e^(6 i pi x), with 16 coefficients, as the constructor makes it from its coefficients *)
Definition e6 : trig := trig_of_coeffs (delta 16 14 (RtoC 1)).
Lemma maxmod_le l B : 0 <= B -> (forall a, In a l -> Cmod a <= B) -> maxmod l <= B.
Proof. intros HB. induction l as [|a l IH]; intros H; [exact HB|]. cbn [maxmod fold_right]. apply Rmax_lub; [apply H; now left|]. apply IH. intros b Hb. apply H. now right. Qed.
Lemma mode_trig n k j : (k < n)%nat -> (j < n)%nat -> (forall i, Cmod (mode n k (gridpt n i)) <= 1) -> Rabs (Im (mode n k (gridpt n j))) = 1 ->
  let f := trig_of_coeffs (delta n k (RtoC 1)) in trig_ok f /\ tre f = false /\ tco f = delta n k (RtoC 1).
Proof.
  intros Hk Hj Hm Hi f. assert (Ln := delta_length n k (RtoC 1)).
  assert (V : forall i, (i < n)%nat -> nth i (coeffs2vals1 (delta n k (RtoC 1))) C0 = mode n k (gridpt n i)).
  { intros i Hi'. rewrite trig_values_correct by (rewrite Ln; lia). rewrite Ln, delta_eval by exact Hk. apply Cmult_1_l. }
  assert (LV : length (coeffs2vals1 (delta n k (RtoC 1))) = n) by (rewrite coeffs2vals1_length; exact Ln).
  assert (F : tre f = false).
  { unfold f, trig_of_coeffs, mk_trig. cbn [tre]. apply Bool.not_true_is_false. intros H. unfold isrealb in H. rewrite forallb_forall in H.
    assert (I : In (nth j (coeffs2vals1 (delta n k (RtoC 1))) C0) (coeffs2vals1 (delta n k (RtoC 1)))) by (apply nth_In; rewrite LV; exact Hj).
    specialize (H _ I). apply Rleb_true in H. rewrite V, Hi in H by exact Hj.
    assert (S1 : tvscale (delta n k (RtoC 1)) <= 1).
    { unfold tvscale. apply maxmod_le; [lra|]. intros a Ha. destruct (In_nth _ _ C0 Ha) as [i [Hi1 <-]]. rewrite LV in Hi1. rewrite V by exact Hi1. apply Hm. }
    assert (E : teps <= / 100). { unfold teps. apply Rinv_le_contravar; lra. } assert (P := teps_pos).
    assert (Rmax teps (tvscale (delta n k (RtoC 1))) <= 1) by (apply Rmax_lub; lra). nra. }
  split; [|split; [exact F|reflexivity]]. split; [cbn [f trig_of_coeffs mk_trig tco]; rewrite Ln; lia|]. split; [|rewrite F; discriminate].
  unfold f, trig_of_coeffs, mk_trig in *. cbn [tva tco tre] in *. now rewrite F.
Qed.
Lemma mode_trig_mod n k x : Cmod (mode n k x) <= 1.
Proof. apply mode_mod. Qed.
Lemma e6_ok : trig_ok e6 /\ tre e6 = false /\ forall x, evalF (tco e6) x = cis (6 * PI * x).
Proof.
  destruct (mode_trig 16 14 2 ltac:(lia) ltac:(lia) (fun i => mode_trig_mod _ _ _)) as [A [B E]].
  { unfold mode, gridpt. change (Nat.even 16 && Nat.eqb 14 0)%bool with false. cbv iota. change (freq 16 14) with 6%Z.
    replace (PI * 6 * (-1 + 2 * INR 2 / INR 16))%R with (- (PI / 2) - 2 * INR 2 * PI)%R by (cbn; field).
    unfold cis. cbn [Im snd]. replace (- (PI / 2) - 2 * INR 2 * PI)%R with (- (PI / 2 + 2 * INR 2 * PI))%R by ring. rewrite sin_neg, sin_period, sin_PI2. rewrite Rabs_Ropp, Rabs_R1. reflexivity. }
  split; [exact A|]. split; [exact B|]. intros x. unfold e6. rewrite E, delta_eval by lia. unfold mode. change (Nat.even 16 && Nat.eqb 14 0)%bool with false. cbv iota. change (freq 16 14) with 6%Z.
  rewrite Cmult_1_l. f_equal. ring.
Qed.

(** C35 is false (and C187, for np.conj): np.conj of e^(6 i pi x) is the zero function. *)
Theorem C35_conj_refuted : exists f g, trig_ok f /\ (forall x, evalF (tco f) x = cis (6 * PI * x)) /\ np_conj f = Some g /\ forall x, fst (tcall g x) = RtoC 0.
Proof.
  destruct e6_ok as [A [B E]]. exists e6.
  assert (He : 0 < teps < 1). { unfold teps. split; [apply Rinv_0_lt_compat; lra|]. rewrite <- Rinv_1. apply Rinv_lt_contravar; lra. }
  destruct (expm6_lost teps He) as [g [G H]]. exists g. split; [exact A|]. split; [exact E|]. split; [|exact H]. unfold np_conj, tufunc.
  replace (fun x => Cconj (fst (tcall e6 x))) with (fun x => cis (- (6 * PI * x))); [now rewrite G|].
  apply functional_extensionality. intros x. rewrite (trig_call_correct e6 x A), E. unfold cis, Cconj. cbn [fst snd]. now rewrite cos_neg, sin_neg.
Qed.
Print Assumptions C35_conj_refuted.

(** C35: np.conj of a real trigonometric polynomial of degree at most 15 is that polynomial, up to 2 d eps^(2/5). *)
Theorem C35_conj_partial : forall f d, trig_ok f -> Nat.odd (length (tco f)) = true -> tre f = true -> (length (tco f) <= 2 * d + 1)%nat -> (d <= 15)%nat ->
  exists g, np_conj f = Some g /\ forall x, Cmod (fst (tcall g x) - Cconj (evalF (tco f) x))%C <= INR (2 * d) * Rpower (/ 10 ^ 10) (2 / 5).
Proof.
  intros f d Hf Ho Hr Hl Hd. assert (HH : hermitian (tco f)) by (apply Hf; exact Hr).
  assert (HI : forall x, Im (evalF (tco f) x) = 0) by (intros x; apply HH).
  set (k := (length (tco f) / 2)%nat). assert (A := odd_half _ Ho). fold k in A.
  assert (HC : forall x, Cconj (evalF (tco f) x) = evalF (tco f) x) by (intros x; apply real_conj, HI).
  destruct (C187_functions_partial f f d Hf Hf (or_introl Ho) (or_introl Ho) Hd) as [H _]. destruct (H Cconj) as [h [r [E B]]].
  - assert (P := proj1 Hf). destruct (Nat.eq_dec (length (tco f)) (2 * d + 1)) as [Q|Q].
    + exists (tco f). split; [exact Q|]. intros x. apply HC.
    + destruct (trig_prolong_fun_correct (tco f) (2 * d + 1) ltac:(lia)) as [c [_ [Lc Hc]]]. exists c. split; [exact Lc|]. intros x. rewrite HC, Hc. reflexivity.
  - intros x _. rewrite HC. apply HI.
  - exists r. split; [unfold np_conj; now rewrite E|exact B].
Qed.
Print Assumptions C35_conj_partial.

Lemma herm_trunc K c h : (1 <= length h)%nat -> truncation K c h -> hermitian h -> hermitian c.
Proof.
  intros Hn T Hh. apply symm_herm; [destruct T as [L [P _]]; lia|]. apply (symm_trunc K _ _ T), herm_symm; [exact Hn|]. intros j _. apply Hh.
Qed.
Lemma prod_near b c : (1 <= length c)%nat -> (b = true -> hermitian c) ->
  near (mk_trig (realvals b (coeffs2vals1 c)) c) /\ (b = true -> trig_ok (mk_trig (realvals b (coeffs2vals1 c)) c) /\ tre (mk_trig (realvals b (coeffs2vals1 c)) c) = true).
Proof.
  intros Hn Hb. rewrite realvals_id; [split; [apply near_mk|]; intros B; apply mk_trig_ok; auto|].
  intros B j. rewrite coeffs2vals1_length. intros Hj. rewrite trig_values_correct by exact Hj. apply (Hb B).
Qed.

(** C66: f * g of odd lengths, not equal and not np.conj of each other, is the exact product h with high frequencies of small
    coefficients removed; its values agree with its coefficients, and it is real when f and g are. *)
Theorem C66_multiply_partial : forall f g,
  trig_ok f -> trig_ok g -> Nat.odd (length (tco f)) = true -> Nat.odd (length (tco g)) = true ->
  (2 <= length (tco f))%nat -> (2 <= length (tco g))%nat -> teqb f g = false -> conj_is f g = false ->
  exists r h K, tprod f g = Some r /\ (forall x, evalF h x = (evalF (tco f) x * evalF (tco g) x)%C) /\ truncation K (tco r) h /\
    (forall z, (Z.of_nat K <= Z.abs z)%Z -> Cmod (coef h z) + Cmod (coef h (- z)) <= Rpower (/ 10 ^ 14) (2 / 5)) /\
    near r /\ (tre f = true -> tre g = true -> trig_ok r /\ tre r = true).
Proof.
  intros f g Hf Hg Of Og Nf Ng Hne Hc. unfold tprod, tmul. destruct (Nat.eqb_spec (length (tco f)) 1); [lia|]. destruct (Nat.eqb_spec (length (tco g)) 1); [lia|]. rewrite Hne, Hc. cbn [orb].
  destruct (trig_mul_correct _ _ Of Og Nf Ng) as [h [Eh [Lh Hx]]]. rewrite Eh.
  destruct (trig_simplify_correct h (/ 10 ^ 14) ltac:(lia)) as [c [K [Er [Tr Hs]]]]. rewrite Er.
  assert (Hb : tre f && tre g = true -> hermitian c).
  { intros B. apply andb_prop in B. destruct B as [B1 B2]. apply (herm_trunc K c h); [lia|exact Tr|]. intros x. rewrite Hx.
    assert (X := proj2 (proj2 Hf) B1 x). assert (Y := proj2 (proj2 Hg) B2 x). unfold Im in *. cbn. rewrite X, Y. ring. }
  destruct (prod_near (tre f && tre g) c) as [N1 N2]; [destruct Tr as [L [P _]]; lia|exact Hb|].
  eexists. exists h, K. split; [reflexivity|]. split; [exact Hx|]. split; [exact Tr|]. split; [|split; [exact N1|intros B1 B2; apply N2; now rewrite B1, B2]].
  apply Hs. split; [apply Rinv_0_lt_compat; lra|]. rewrite <- Rinv_1. apply Rinv_lt_contravar; lra.
Qed.
Print Assumptions C66_multiply_partial.

(** C66: a constant factor, on either side. *)
Theorem C66_multiply_constant : forall f g, trig_ok f -> trig_ok g -> length (tco f) = 1%nat ->
  (exists r, tprod f g = Some r /\ represents r (fun x => (evalF (tco f) x * evalF (tco g) x)%C) (tre f = true /\ tre g = true)) /\
  (exists r, tprod g f = Some r /\ represents r (fun x => (evalF (tco g) x * evalF (tco f) x)%C) (tre g = true /\ tre f = true)).
Proof.
  assert (G : forall f g, trig_ok f -> trig_ok g -> length (tco f) = 1%nat ->
    exists r, tprod f g = Some r /\ represents r (fun x => (evalF (tco f) x * evalF (tco g) x)%C) (tre f = true /\ tre g = true)).
  { intros f g Hf Hg L. destruct (trig_product_const f g Hf Hg L) as [r H]. exists r. unfold tprod. rewrite L. exact H. }
  intros f g Hf Hg L. split; [apply G; assumption|]. destruct (Nat.eq_dec (length (tco g)) 1) as [M|M]; [apply G; assumption|].
  destruct (trig_product_const f g Hf Hg L) as [r [E [R1 [R2 [R3 R4]]]]]. exists r. split.
  - rewrite <- E. unfold tprod, tmul. rewrite L. destruct (Nat.eqb_spec (length (tco g)) 1); [lia|]. reflexivity.
  - split; [exact R1|]. split; [|split; [|exact R4]].
    + intros x. rewrite R2. apply Cmult_comm.
    + intros H. apply R3. tauto.
Qed.
Print Assumptions C66_multiply_constant.

(** C66 is false: f * f raises for every non-constant f. *)
Theorem C66_square_refuted : forall f, (2 <= length (tco f))%nat -> tprod f f = None.
Proof. intros f H. unfold tprod, teqb. rewrite !leqb_refl. rewrite !Bool.orb_true_r. apply trig_square_raises. exact H. Qed.
Print Assumptions C66_square_refuted.

(** C66 is false: the product with np.conj(f) raises, whenever neither is a constant; so the squared modulus of
    e^(-i pi x) cannot be computed this way. *)
Theorem C66_conjugate_refuted :
  (forall f g, (2 <= length (tco f))%nat -> (2 <= length (tco g))%nat -> np_conj f = Some g -> tprod f g = None) /\
  exists f g, trig_ok f /\ (forall x, evalF (tco f) x = cis (- (PI * x))) /\ np_conj f = Some g /\ (2 <= length (tco f))%nat /\ (2 <= length (tco g))%nat /\ tprod f g = None.
Proof.
  assert (G : forall f g, (2 <= length (tco f))%nat -> (2 <= length (tco g))%nat -> np_conj f = Some g -> tprod f g = None).
  { intros f g Nf Ng E. unfold tprod. destruct (Nat.eqb_spec (length (tco f)) 1); [lia|]. destruct (Nat.eqb_spec (length (tco g)) 1); [lia|].
    destruct (teqb f g) eqn:Q; cbn [orb].
    - unfold tmul. destruct (Nat.eqb_spec (length (tco f)) 1); [lia|]. destruct (Nat.eqb_spec (length (tco g)) 1); [lia|]. now rewrite Q.
    - unfold conj_is. rewrite E. unfold teqb. now rewrite !leqb_refl. }
  split; [exact G|].
  assert (He : 0 < teps < 1). { unfold teps. split; [apply Rinv_0_lt_compat; lra|]. rewrite <- Rinv_1. apply Rinv_lt_contravar; lra. }
  destruct (mode_trig 4 1 1 ltac:(lia) ltac:(lia) (fun i => mode_trig_mod _ _ _)) as [A [B E]].
  { unfold mode, gridpt. change (Nat.even 4 && Nat.eqb 1 0)%bool with false. cbv iota. change (freq 4 1) with (-1)%Z.
    replace (PI * -1 * (-1 + 2 * INR 1 / INR 4))%R with (PI / 2)%R by (cbn; field). unfold cis. cbn [Im snd]. now rewrite sin_PI2, Rabs_R1. }
  set (f := trig_of_coeffs (delta 4 1 (RtoC 1))) in *.
  assert (Ef : forall x, evalF (tco f) x = cis (- (PI * x))).
  { intros x. rewrite E, delta_eval by lia. unfold mode. change (Nat.even 4 && Nat.eqb 1 0)%bool with false. cbv iota. change (freq 4 1) with (-1)%Z. rewrite Cmult_1_l. f_equal. ring. }
  set (op := fun x => Cconj (fst (tcall f x))).
  assert (Eo : forall x, op x = cis (PI * x)). { intros x. unfold op. rewrite (trig_call_correct f x A), Ef. unfold cis, Cconj. cbn [fst snd]. rewrite cos_neg, sin_neg. f_equal. ring. }
  destruct (tconstruct_spec [op] teps ltac:(discriminate)) as [h [fs [N [K [Ec [L [HN [Hi H]]]]]]]].
  assert (H0 := H 0%nat ltac:(cbn; lia)). cbv zeta in H0. cbn [nth] in H0. destruct fs as [|g [|]]; [cbn in L; lia| |cbn in L; lia]. cbn [nth] in H0.
  assert (Q : np_conj f = Some g) by (unfold np_conj, tufunc; fold op; now rewrite Ec).
  assert (Lf : (2 <= length (tco f))%nat) by (rewrite E, delta_length; lia).
  assert (Lg : (2 <= length (tco g))%nat).
  { destruct h; [|destruct H0 as [H0 Ht]; rewrite Ht, icf_length; unfold tmaxlen in H0; lia].
    destruct H0 as [T [_ [_ Hs]]]. destruct (Hs He) as [S1 _]. destruct T as [LT [HK _]].
    destruct (Nat.eq_dec K 1) as [->|]; [exfalso|lia].
    assert (Hev : Nat.even N = true) by (destruct Hi as [i ->]; apply Nat.even_spec; exists (4 * 2 ^ i)%nat; lia). assert (AA := even_half _ Hev).
    assert (Ei : icf op N = delta N (N / 2 + 1) (RtoC 1)).
    { apply icf_mode; [lia|]. intros x. rewrite Eo, Cmult_1_l. unfold mode. destruct (Nat.eqb_spec (N / 2 + 1) 0); [lia|]. rewrite andb_false_r. unfold freq.
      replace (Z.of_nat (N / 2 + 1) - Z.of_nat (N / 2))%Z with 1%Z by lia. f_equal. ring. }
    specialize (S1 1%Z). rewrite icf_length in S1. specialize (S1 ltac:(lia)). rewrite Ei in S1.
    rewrite coef_even in S1 by (rewrite delta_length; lia). rewrite delta_length, delta_nth in S1.
    replace (Z.to_nat (1 + Z.of_nat (N / 2))) with (N / 2 + 1)%nat in S1 by lia. rewrite Nat.eqb_refl in S1. destruct (Nat.ltb_spec (N / 2 + 1) N); [|lia]. cbn [andb] in S1.
    rewrite Cmod_1 in S1. assert (Rpower teps (2 / 5) < 1); [|lra].
    unfold Rpower. rewrite <- exp_0. apply exp_increasing. assert (ln teps < 0) by (rewrite <- ln_1; apply ln_increasing; lra). nra. }
  exists f, g. repeat (split; [first [exact A|exact Ef|exact Q|exact Lf|exact Lg]|]). apply G; assumption.
Qed.
Print Assumptions C66_conjugate_refuted.

(** The hypotheses are met: f = cos(pi x), g = sin(pi x), u(v, w) = v w, degree 2; the sum of squares, and the exact product. *)
Definition c187_f : trig := {| tco := [RtoC (/ 2); RtoC 0; RtoC (/ 2)]; tva := coeffs2vals1 [RtoC (/ 2); RtoC 0; RtoC (/ 2)]; tre := true |}.
Example ex_C187 : trig_ok c187_f /\ steady c187_f /\ (forall x, evalF (tco c187_f) x = RtoC (cos (PI * x))) /\
  trig_poly 2 (fun x => (fun v => Cmult v v) (evalF (tco c187_f) x)) /\ forall x, Im (Cmult (evalF (tco c187_f) x) (evalF (tco c187_f) x)) = 0.
Proof.
  assert (E : forall x, evalF (tco c187_f) x = RtoC (cos (PI * x))).
  { intros x. unfold evalF, mode, freq, c187_f. cbn [tco length csum nth Nat.even andb]. change (3 / 2)%nat with 1%nat.
    change (Z.of_nat 0 - Z.of_nat 1)%Z with (-1)%Z. change (Z.of_nat 1 - Z.of_nat 1)%Z with 0%Z. change (Z.of_nat 2 - Z.of_nat 1)%Z with 1%Z.
    replace (PI * -1 * x)%R with (- (PI * x))%R by ring. replace (PI * 1 * x)%R with (PI * x)%R by ring. replace (PI * 0 * x)%R with 0%R by ring.
    unfold cis. rewrite cos_neg, sin_neg, cos_0, sin_0. apply injective_projections; cbn; field. }
  split; [split; [cbn; lia|]; split; [reflexivity|intros _ x; rewrite E; reflexivity]|]. split; [left; reflexivity|]. split; [exact E|]. split.
  - exists [RtoC (/ 4); RtoC 0; RtoC (/ 2); RtoC 0; RtoC (/ 4)]. split; [reflexivity|]. intros x. rewrite E. unfold evalF, mode, freq. cbn [length csum nth Nat.even andb]. change (5 / 2)%nat with 2%nat.
    change (Z.of_nat 0 - Z.of_nat 2)%Z with (-2)%Z. change (Z.of_nat 1 - Z.of_nat 2)%Z with (-1)%Z. change (Z.of_nat 2 - Z.of_nat 2)%Z with 0%Z. change (Z.of_nat 3 - Z.of_nat 2)%Z with 1%Z. change (Z.of_nat 4 - Z.of_nat 2)%Z with 2%Z.
    replace (PI * -2 * x)%R with (- (2 * (PI * x)))%R by ring. replace (PI * 2 * x)%R with (2 * (PI * x))%R by ring. replace (PI * 0 * x)%R with 0%R by ring.
    unfold cis. rewrite cos_neg, sin_neg, cos_0, sin_0, cos_2a_cos. apply injective_projections; cbn; field.
  - intros x. rewrite E. cbn. ring.
Qed.
