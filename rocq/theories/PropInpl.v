(** C193: in-place arithmetic of periodic functions on a domain [a,b]. *)
From Coq Require Import Reals ZArith List Arith Bool Lia Lra.
From Coquelicot Require Import Coquelicot.
From Verif Require Import Base ToolsProofs ChebModel TrigSpec TrigBase TrigModel TrigTrans TrigEval TrigCalc TrigCalc2 TrigModel2 TrigObj TrigObj2 TrigCons TrigConsProofs TrigConsEx PropTCons TrigUfunc PropTUf FunModel FunTrig FunTrigProofs PropPer InplModel.
Import ListNotations.
Open Scope R_scope.

Lemma pdom_same f g : pa f = pa g -> pb f = pb g -> pdom_check f g = true.
Proof.
  intros A B. unfold pdom_check. rewrite A, B. unfold Rltb, SMALL_EPS. assert (0 < / 10 ^ 8) by (apply Rinv_0_lt_compat; lra).
  destruct (Rlt_dec (pa g - pa g) (/ 10 ^ 8)); [|lra]. destruct (Rlt_dec (pb g - pb g) (/ 10 ^ 8)); [reflexivity|lra].
Qed.
(** what a well-formed object calls *)
Lemma pfn_calls f : pok f -> calls f (pfn f).
Proof.
  intros H. split; [|intros x; apply pfn_period, H]. intros x Hx. destruct (proj1 (pcall_correct f x H) Hx) as [f' [E _]]. exists f'. exact E.
Qed.
Lemma calls_ext f F G : (forall x, F x = G x) -> calls f F -> calls f G.
Proof. intros H [A B]. split; [intros x Hx; rewrite <- H; apply A, Hx|intros x; rewrite <- !H; apply B]. Qed.
Lemma new_calls f t F : pok f -> trig_ok t -> (forall x, evalF (tco t) (map_bwd (pa f) (pb f) x) = F x) -> pok (pset f t) /\ calls (pset f t) F.
Proof.
  intros [Hab Hok] Ht HF. assert (P : pok (pset f t)) by (split; [exact Hab|exact Ht]). split; [exact P|].
  apply (calls_ext _ (pfn (pset f t))); [exact HF|apply pfn_calls, P].
Qed.
Lemma tiadd_correct f g : trig_ok f -> trig_ok g -> exists f' g', tiadd f g = Some (f', g') /\ trig_ok f' /\ trig_ok g' /\
  tre f' = tre f && tre g /\ tre g' = tre g /\ length (tco f') = Nat.max (length (tco f)) (length (tco g)) /\
  (forall x, evalF (tco f') x = (evalF (tco f) x + evalF (tco g) x)%C) /\ (forall x, evalF (tco g') x = evalF (tco g) x).
Proof.
  intros Hf Hg. destruct (tmatch_correct f g Hf Hg) as [f1 [g1 [E [Of [Og [Lf [Lg [Tf [Tg [Vf Vg]]]]]]]]]].
  unfold tiadd. rewrite E. set (b := tre f && tre g).
  destruct (tadd_core (tco f1) (tco g1) b (proj1 Of) ltac:(lia)) as [h [Lh [Eh [Ev [Ec Hh]]]]].
  { unfold b. intros B. apply andb_prop in B. destruct B as [B1 B2]. split; [apply (proj2 (proj2 Of))|apply (proj2 (proj2 Og))]; congruence. }
  rewrite <- (proj1 (proj2 Of)), <- (proj1 (proj2 Og)) in Ev, Ec.
  exists {| tco := h; tva := coeffs2vals1 h; tre := b |}, g1. rewrite Ec, Ev. split; [reflexivity|].
  split; [split; [cbn [tco]; rewrite Lh; apply Of|split; [reflexivity|exact Hh]]|]. split; [exact Og|]. split; [reflexivity|]. split; [exact Tg|].
  split; [cbn [tco]; lia|]. split; [|exact Vg]. intros x. cbn [tco]. rewrite Eh, Vf, Vg. reflexivity.
Qed.

(** f += g: f is the sum, g the same function as before (it may have been prolonged) *)
Theorem C193_add_partial : forall f g F G, pok f -> pok g -> pa f = pa g -> pb f = pb g -> calls f F -> calls g G ->
  exists f' g', p_iadd f (PFun g) = {| praises := false; pleft := f'; pright := PFun g' |} /\
    pok f' /\ pa f' = pa f /\ pb f' = pb f /\ calls f' (fun x => (F x + G x)%C) /\ pok g' /\ calls g' G.
Proof.
  intros f g F G Of Og Ea Eb HF HG. destruct (tiadd_correct (pt f) (pt g) (proj2 Of) (proj2 Og)) as [f' [g' [E [Of' [Og' [_ [_ [_ [Vf Vg]]]]]]]]].
  exists (pset f f'), (pset g g'). unfold p_iadd. rewrite (pdom_same f g Ea Eb), E. split; [reflexivity|].
  destruct (new_calls f f' (fun x => (F x + G x)%C) Of Of') as [A B].
  { intros x. rewrite Vf, (calls_unique f F Of HF), (calls_unique g G Og HG). unfold pfn. rewrite Ea, Eb. reflexivity. }
  destruct (new_calls g g' G Og Og') as [D K]; [intros x; rewrite Vg, (calls_unique g G Og HG); reflexivity|].
  repeat (split; [solve [assumption|reflexivity]|]). exact K.
Qed.
Print Assumptions C193_add_partial.

Lemma tneg_ok g : trig_ok g -> tre g = isrealb (tva g) (tco g) -> trig_ok (tneg g) /\ forall x, evalF (tco (tneg g)) x = (- evalF (tco g) x)%C.
Proof.
  intros Hg Hflag. destruct (trig_neg_correct g Hg) as [N [E [K _]]]. split; [|exact E].
  destruct (tre g) eqn:Rg; [apply K; reflexivity|]. split; [exact N|]. unfold tneg, mk_trig. cbn [tre tva tco]. rewrite isrealb_neg, <- Hflag. cbn [realvals].
  split; [|discriminate]. rewrite neg_values. f_equal. apply Hg.
Qed.
(** f -= g, for a g whose flag is the one the constructor gives it: f is the difference, g is not touched *)
Theorem C193_subtract_partial : forall f g F G, pok f -> pok g -> tre (pt g) = isrealb (tva (pt g)) (tco (pt g)) ->
  pa f = pa g -> pb f = pb g -> calls f F -> calls g G ->
  exists f', p_isub f (PFun g) = {| praises := false; pleft := f'; pright := PFun g |} /\
    pok f' /\ pa f' = pa f /\ pb f' = pb f /\ calls f' (fun x => (F x - G x)%C).
Proof.
  intros f g F G Of Og Hfl Ea Eb HF HG. destruct (tneg_ok (pt g) (proj2 Og) Hfl) as [N V].
  destruct (tiadd_correct (pt f) (tneg (pt g)) (proj2 Of) N) as [f' [g' [E [Of' [Og' [_ [_ [_ [Vf Vg]]]]]]]]].
  exists (pset f f'). unfold p_isub, p_iadd. cbv zeta. rewrite (pdom_same f (pset g (tneg (pt g))) Ea Eb). cbn [pset pt]. rewrite E. split; [reflexivity|].
  destruct (new_calls f f' (fun x => (F x - G x)%C) Of Of') as [A B].
  { intros x. rewrite Vf, V, (calls_unique f F Of HF), (calls_unique g G Og HG). unfold pfn. rewrite Ea, Eb. reflexivity. }
  repeat (split; [solve [assumption|reflexivity]|]). exact B.
Qed.
Print Assumptions C193_subtract_partial.

(** objects of which values and coefficients have been changed alike *)
Lemma same_ok (f : trig) v c b : length v = length c -> (1 <= length c)%nat -> (forall j, (j < length c)%nat -> nth j v C0 = evalF c (gridpt (length c) j)) ->
  (b = true -> hermitian c) -> trig_ok {| tco := c; tva := v; tre := b |}.
Proof. intros L N V H. split; [exact N|]. split; [cbn [tva tco]; apply c2v_unique; assumption|exact H]. Qed.
Lemma timul_num_ok f a : trig_ok f -> (tre f = true -> Im a = 0) -> trig_ok (timul_num f a) /\ forall x, evalF (tco (timul_num f a)) x = (evalF (tco f) x * a)%C.
Proof.
  intros Hf Ha. split; [|intros x; apply evalF_map_scal]. unfold timul_num. apply same_ok; [exact f|rewrite !map_length; apply ok_len, Hf|rewrite map_length; apply Hf| |].
  - rewrite map_length. intros j Hj. rewrite evalF_map_scal. rewrite map_nth_C by (rewrite ok_len by exact Hf; exact Hj). rewrite ok_values by assumption. reflexivity.
  - intros Hr x. rewrite evalF_map_scal. assert (H := proj2 (proj2 Hf) Hr x). unfold Im in *. cbn. rewrite H, (Ha Hr). ring.
Qed.
Lemma tidiv_num_eq f a : tidiv_num f a = timul_num f (/ a)%C.
Proof. reflexivity. Qed.
Lemma tiadd_num_ok f a : trig_ok f -> (tre f = true -> Im a = 0 \/ / 10 ^ 14 <= Im a) -> trig_ok (tiadd_num f a) /\ forall x, evalF (tco (tiadd_num f a)) x = (evalF (tco f) x + a)%C.
Proof.
  intros Hf Ha. destruct (trig_add_num_correct f a Hf) as [N [E [K _]]]. split; [|exact E]. unfold tiadd_num.
  assert (L : length (tco (tadd_num f a)) = length (tco f)) by (unfold tadd_num; cbn [mk_trig tco]; apply mk_length).
  apply same_ok; [exact f|rewrite map_length, L; apply ok_len, Hf|exact N| |].
  - rewrite L. intros j Hj. rewrite E, map_nth_C by (rewrite ok_len by exact Hf; exact Hj). rewrite ok_values by assumption. reflexivity.
  - intros B x. apply andb_prop in B. destruct B as [B1 B2]. unfold Rltb in B2. destruct (Rlt_dec (Im a) (/ 10 ^ 14)) as [H|]; [|discriminate].
    destruct (Ha B1) as [Z|Z]; [|lra]. rewrite E. assert (H1 := proj2 (proj2 Hf) B1 x). unfold Im in *. cbn. rewrite H1, Z. ring.
Qed.
(** f += a, f *= a, f /= a for a number a that f may take: any number if f is not flagged real, a real one otherwise
    (+=: also one with imaginary part at least 1e-14); a divisor of modulus at least 1e-16 *)
Theorem C193_number_partial : forall f F a, pok f -> calls f F -> (tre (pt f) = true -> Im a = 0) ->
  (exists f', p_iadd f (PNum a) = {| praises := false; pleft := f'; pright := PNum a |} /\ pok f' /\ pa f' = pa f /\ pb f' = pb f /\ calls f' (fun x => (F x + a)%C)) /\
  (exists f', p_isub f (PNum a) = {| praises := false; pleft := f'; pright := PNum a |} /\ pok f' /\ pa f' = pa f /\ pb f' = pb f /\ calls f' (fun x => (F x - a)%C)) /\
  (exists f', p_imul f (PNum a) = {| praises := false; pleft := f'; pright := PNum a |} /\ pok f' /\ pa f' = pa f /\ pb f' = pb f /\ calls f' (fun x => (F x * a)%C)) /\
  (/ 10 ^ 16 <= Cmod a -> exists f', p_idiv f (PNum a) = {| praises := false; pleft := f'; pright := PNum a |} /\ pok f' /\ pa f' = pa f /\ pb f' = pb f /\ calls f' (fun x => (F x / a)%C)) /\
  (a <> RtoC 0 -> exists f', p_idiv f (PArr a) = {| praises := false; pleft := f'; pright := PArr a |} /\ pok f' /\ pa f' = pa f /\ pb f' = pb f /\ calls f' (fun x => (F x / a)%C)).
Proof.
  intros f F a Of HF Ha. assert (U := calls_unique f F Of HF).
  assert (G : forall t H, trig_ok t -> (forall x, evalF (tco t) (map_bwd (pa f) (pb f) x) = H x) -> pok (pset f t) /\ pa (pset f t) = pa f /\ pb (pset f t) = pb f /\ calls (pset f t) H).
  { intros t H Ht HH. destruct (new_calls f t H Of Ht HH) as [A B]. repeat (split; [solve [assumption|reflexivity]|]). exact B. }
  assert (Hi : tre (pt f) = true -> Im (/ a)%C = 0) by (intros R1; specialize (Ha R1); unfold Im in *; cbn; rewrite Ha; unfold Rdiv; ring).
  assert (D : trig_ok (tidiv_num (pt f) a) /\ forall x, evalF (tco (tidiv_num (pt f) a)) (map_bwd (pa f) (pb f) x) = (F x / a)%C).
  { destruct (timul_num_ok (pt f) (/ a)%C (proj2 Of) Hi) as [A B]. rewrite tidiv_num_eq. split; [exact A|]. intros x. rewrite B, U. reflexivity. }
  assert (P : forall b : C, (tre (pt f) = true -> Im b = 0) -> trig_ok (tiadd_num (pt f) b) /\ forall x, evalF (tco (tiadd_num (pt f) b)) (map_bwd (pa f) (pb f) x) = (F x + b)%C).
  { intros b Hb. destruct (tiadd_num_ok (pt f) b (proj2 Of) (fun R1 => or_introl (Hb R1))) as [A B]. split; [exact A|]. intros x. rewrite B, U. reflexivity. }
  split; [|split; [|split; [|split]]].
  - eexists. split; [reflexivity|]. destruct (P a Ha) as [A B]. apply G; assumption.
  - eexists. split; [reflexivity|]. destruct (P (- a)%C) as [A B]; [intros R1; specialize (Ha R1); unfold Im in *; cbn; rewrite Ha; ring|]. apply G; assumption.
  - eexists. split; [reflexivity|]. destruct (timul_num_ok (pt f) a (proj2 Of) Ha) as [A B]. apply G; [exact A|]. intros x. rewrite B, U. reflexivity.
  - intros Hd. unfold p_idiv. cbv zeta. destruct (Rltb (Cmod a) (/ 10 ^ 16)) eqn:E; [unfold Rltb in E; destruct (Rlt_dec (Cmod a) (/ 10 ^ 16)); [lra|discriminate]|].
    eexists. split; [reflexivity|]. apply G; apply D.
  - intros _. eexists. split; [reflexivity|]. apply G; apply D.
Qed.
Print Assumptions C193_number_partial.

(** f *= g for real functions, neither constant, g neither equal to f nor to what np.conj(f) returns: f is what f * g
    returns, the product with small high frequencies removed *)
Theorem C193_multiply_partial : forall f g F G, real_odd f -> real_odd g -> pa f = pa g -> pb f = pb g -> calls f F -> calls g G ->
  (2 <= length (tco (pt f)))%nat -> (2 <= length (tco (pt g)))%nat -> teqb (pt f) (pt g) = false -> conj_is (pt f) (pt g) = false ->
  exists f' h K, p_imul f (PFun g) = {| praises := false; pleft := f'; pright := PFun g |} /\ pok f' /\ pa f' = pa f /\ pb f' = pb f /\
    tprod (pt f) (pt g) = Some (pt f') /\
    (forall x, evalF h (map_bwd (pa f) (pb f) x) = (F x * G x)%C) /\ truncation K (tco (pt f')) h /\
    (forall z, (Z.of_nat K <= Z.abs z)%Z -> Cmod (coef h z) + Cmod (coef h (- z)) <= Rpower (/ 10 ^ 14) (2 / 5)).
Proof.
  intros f g F G [Of [Rf Lf]] [Og [Rg Lg]] Ea Eb HF HG Nf Ng Hne Hc.
  destruct (C66_multiply_partial (pt f) (pt g) (proj2 Of) (proj2 Og) Lf Lg Nf Ng Hne Hc) as [r [h [K [E [Hx [T [Hz [_ Hr]]]]]]]].
  destruct (Hr Rf Rg) as [Or Tr]. exists (pset f r), h, K.
  assert (Q : timul (pt f) (pt g) = Some r).
  { unfold tprod, tmul in E. unfold timul. destruct (Nat.eqb_spec (length (tco (pt f))) 1); [lia|]. destruct (Nat.eqb_spec (length (tco (pt g))) 1); [lia|].
    rewrite Hne, Hc in *. cbn [orb] in E. destruct (tmul_col (tco (pt f)) (tco (pt g))) as [h0|]; [|discriminate]. destruct (tsimplify_col h0 (/ 10 ^ 14)) as [c|]; [|discriminate].
    assert (E' : mk_trig (realvals (tre (pt f) && tre (pt g)) (coeffs2vals1 c)) c = r) by congruence. f_equal. rewrite <- E' in Or, Tr. rewrite <- E'.
    unfold mk_trig in *. cbn [tre tva tco] in *. rewrite Tr in *. cbn [realvals]. rewrite Rf, Rg in *. cbn [andb realvals] in *. f_equal.
    rewrite map_map. apply map_ext. intros z. reflexivity. }
  unfold p_imul. rewrite (pdom_same f g Ea Eb). destruct (Nat.eqb_spec (length (tco (pt f))) 1); [lia|]. destruct (Nat.eqb_spec (length (tco (pt g))) 1); [lia|]. cbn [orb]. rewrite Q.
  split; [reflexivity|]. split; [split; [apply Of|exact Or]|]. split; [reflexivity|]. split; [reflexivity|]. split; [exact E|]. split; [|split; [exact T|exact Hz]].
  intros x. rewrite Hx, (calls_unique f F Of HF), (calls_unique g G Og HG). unfold pfn. rewrite Ea, Eb. reflexivity.
Qed.
Print Assumptions C193_multiply_partial.

(** f /= g for real f and g whose quotient is a trigonometric polynomial of degree at most 15: f is the quotient up to the
    tolerance of the construction *)
Theorem C193_divide_partial : forall f g F G d, real_odd f -> real_odd g -> pa f = pa g -> pb f = pb g -> calls f F -> calls g G ->
  (d <= 15)%nat -> trig_poly d (fun z => (evalF (tco (pt f)) z / evalF (tco (pt g)) z)%C) ->
  exists f', p_idiv f (PFun g) = {| praises := false; pleft := f'; pright := PFun g |} /\ pa f' = pa f /\ pb f' = pb f /\
    forall x, pa f <= x <= pb f -> exists w f'', pcall f' x = Some (w, f'') /\ Cmod (w - F x / G x)%C <= INR (2 * d) * Rpower (/ 10 ^ 10) (2 / 5).
Proof.
  intros f g F G d [Of [Rf Lf]] [Og [Rg Lg]] Ea Eb HF HG Hd Hp.
  assert (He : 0 < teps < 1). { unfold teps. split; [apply Rinv_0_lt_compat; lra|]. rewrite <- Rinv_1. apply Rinv_lt_contravar; lra. }
  assert (V : forall x, (fst (tcall (pt f) x) / fst (tcall (pt g) x))%C = (evalF (tco (pt f)) x / evalF (tco (pt g)) x)%C) by (intros x; rewrite (trig_call_correct _ x (proj2 Of)), (trig_call_correct _ x (proj2 Og)); reflexivity).
  destruct (low_degree (fun x => (fst (tcall (pt f) x) / fst (tcall (pt g) x))%C) teps d Hd He) as [h [r [E [H [Hh L1]]]]].
  { destruct Hp as [c [Lc Hc]]. exists c. split; [exact Lc|]. intros x. rewrite V. apply Hc. }
  { intros x _. rewrite V. assert (A := proj2 (proj2 (proj2 Of)) Rf x). assert (B := proj2 (proj2 (proj2 Og)) Rg x). unfold Im in *. cbn. rewrite A, B. unfold Rdiv. ring. }
  set (t := {| tco := tco r; tva := tva r; tre := tre (pt f) |}). exists (pset f t). unfold p_idiv, tidiv, tufunc2. rewrite (pdom_same f g Ea Eb). rewrite E.
  split; [reflexivity|]. split; [reflexivity|]. split; [reflexivity|]. intros x Hx.
  assert (Bw := proj1 (bwd_in (pa f) (pb f) x (proj1 Of)) Hx). set (z := map_bwd (pa f) (pb f) x) in *.
  exists (evalF (tco r) z), (pset f (snd (tcall t z))). split.
  - unfold pcall. cbn [pset pa pb pt]. fold z. unfold Rleb. destruct (Rle_dec (-1) z); [|lra]. destruct (Rle_dec z 1); [|lra]. cbn [andb].
    unfold tcall, t. cbn [tre tco]. rewrite Rf. cbn [snd]. rewrite horner_real_correct by assumption. reflexivity.
  - specialize (H z). cbv beta in H. rewrite V in H. rewrite tcall_herm in H by assumption.
    rewrite (calls_unique f F Of HF), (calls_unique g G Og HG). unfold pfn. rewrite <- Ea, <- Eb. fold z. exact H.
Qed.
Print Assumptions C193_divide_partial.

(** ** cases *)
(** the constant a on [0,1] *)
Definition pconst (a : R) : pfun := {| pa := 0; pb := 1; pt := tconst a |}.
Lemma pconst_ok a : real_odd (pconst a) /\ calls (pconst a) (fun _ => RtoC a).
Proof.
  destruct (tconst_ok a) as [A [B D]]. assert (P : pok (pconst a)) by (split; [cbn; lra|exact A]). split; [split; [exact P|split; [exact B|reflexivity]]|].
  apply (calls_ext _ (pfn (pconst a))); [intros x; apply D|apply pfn_calls, P].
Qed.
(** cos(2 pi x) + 3, as the library computes it from the cosine in place, is a real function of three coefficients *)
Definition pcos3 : pfun := pleft (p_iadd (pcos 0 1) (PNum (RtoC 3))).
Lemma pcos3_ok : real_odd pcos3 /\ calls pcos3 (fun x => RtoC (3 - cos (2 * PI * x))).
Proof.
  destruct (pcos_real_odd 0 1 ltac:(lra)) as [Of [Rf Lf]].
  destruct (C193_number_partial (pcos 0 1) (pfn (pcos 0 1)) (RtoC 3) Of (pfn_calls _ Of) (fun _ => eq_refl)) as [[f' [E [P [A [B HF]]]]] _].
  assert (Ef : pcos3 = f') by (unfold pcos3; rewrite E; reflexivity). split.
  - split; [rewrite Ef; exact P|]. split; [|reflexivity]. unfold pcos3. cbn [p_iadd done pleft pset pt tiadd_num tre]. rewrite Rf. cbn [andb].
    unfold Rltb. cbn [Im RtoC snd]. destruct (Rlt_dec 0 (/ 10 ^ 14)) as [_|N]; [reflexivity|]. exfalso. apply N. apply Rinv_0_lt_compat. lra.
  - rewrite Ef. eapply calls_ext; [|exact HF]. intros x. cbv beta. rewrite pcos_fn.
    assert (Q : cos (PI * map_bwd 0 1 x) = - cos (2 * PI * x)).
    { unfold map_bwd. replace (PI * ((2 * x - 0 - 1) / (1 - 0))) with (2 * PI * x - PI) by field. rewrite cos_minus, cos_PI, sin_PI. ring. }
    rewrite Q. apply injective_projections; cbn; ring.
Qed.
Lemma leqb_nth u v : leqb u v = true -> length u = length v /\ forall j, nth j u C0 = nth j v C0.
Proof.
  unfold leqb. intros H. apply andb_prop in H. destruct H as [L H]. apply Nat.eqb_eq in L. split; [exact L|]. revert v L H.
  induction u as [|a u IH]; intros [|b v] L H j; try discriminate; [reflexivity|]. cbn [combine forallb fst snd] in H. apply andb_prop in H. destruct H as [E H].
  destruct j as [|j]; [|cbn [nth]; apply IH; [now injection L|exact H]]. cbn [nth]. unfold ceqb in E. apply andb_prop in E. destruct E as [E1 E2]. apply TrigTrans.Reqb_true in E1. apply TrigTrans.Reqb_true in E2.
  apply injective_projections; assumption.
Qed.
(** np.conj of the cosine is not the cosine plus 3 *)
Lemma pcos3_conj : conj_is (pt (pcos 0 1)) (pt pcos3) = false.
Proof.
  destruct (pcos_real_odd 0 1 ltac:(lra)) as [[Hab Ok] [R1 L1]].
  assert (He : 0 < teps < 1). { unfold teps. split; [apply Rinv_0_lt_compat; lra|]. rewrite <- Rinv_1. apply Rinv_lt_contravar; lra. }
  assert (V : forall x, Cconj (fst (tcall (pt (pcos 0 1)) x)) = RtoC (cos (PI * x))).
  { intros x. rewrite (trig_call_correct _ x Ok). cbn [pcos pt mk_trig tco]. rewrite ccos_eval. unfold Cconj, RtoC. cbn [fst snd]. f_equal. ring. }
  destruct (low_degree (fun x => Cconj (fst (tcall (pt (pcos 0 1)) x))) teps 1 ltac:(lia) He) as [h [r [E [H [Hh N1]]]]].
  { exists ccos. split; [reflexivity|]. intros x. rewrite V, ccos_eval. reflexivity. }
  { intros x _. rewrite V. reflexivity. }
  unfold conj_is, np_conj, tufunc. rewrite E. destruct (teqb r (pt pcos3)) eqn:Q; [exfalso|reflexivity]. unfold teqb in Q. apply andb_prop in Q. destruct Q as [Q _].
  destruct (leqb_nth _ _ Q) as [Lq Hq]. specialize (H (-1)). cbv beta in H. rewrite V, tcall_herm in H by assumption.
  assert (W : evalF (tco r) (-1) = evalF (tco (pt pcos3)) (-1)) by (unfold evalF; rewrite Lq; apply csum_ext; intros k _; fold C0; rewrite Hq; reflexivity).
  assert (W3 : evalF (tco (pt pcos3)) (-1) = RtoC 2).
  { assert (Z := calls_unique pcos3 _ (proj1 (proj1 pcos3_ok)) (proj2 pcos3_ok) 0). unfold pfn in Z. change (pa pcos3) with 0 in Z. change (pb pcos3) with 1 in Z.
    replace (map_bwd 0 1 0) with (-1) in Z by (unfold map_bwd; field). rewrite <- Z, Rmult_0_r, cos_0. f_equal. ring. }
  rewrite W, W3 in H. replace (PI * -1) with (- PI) in H by ring. rewrite cos_neg, cos_PI in H.
  replace (RtoC 2 - RtoC (-1))%C with (RtoC 3) in H by (apply injective_projections; cbn; ring). rewrite Cmod_R, Rabs_pos_eq in H by lra.
  assert (B : Rpower teps (2 / 5) <= 1).
  { unfold Rpower. rewrite <- exp_0. assert (L0 : ln teps < 0) by (rewrite <- ln_1; apply ln_increasing; apply He). destruct (Req_dec (2 / 5 * ln teps) 0) as [->|D]; [lra|]. left. apply exp_increasing. lra. }
  change (INR (2 * 1)) with 2 in H. lra.
Qed.
Theorem C193_case : real_odd (pcos 0 1) /\ real_odd pcos3 /\ pa (pcos 0 1) = pa pcos3 /\ pb (pcos 0 1) = pb pcos3 /\
  (2 <= length (tco (pt (pcos 0 1))))%nat /\ (2 <= length (tco (pt pcos3)))%nat /\
  teqb (pt (pcos 0 1)) (pt pcos3) = false /\ conj_is (pt (pcos 0 1)) (pt pcos3) = false /\
  tre (pt (pcos 0 1)) = isrealb (tva (pt (pcos 0 1))) (tco (pt (pcos 0 1))) /\
  trig_poly 1 (fun z => (evalF (tco (pt (pcos 0 1))) z / evalF (tco (pt (pconst 2))) z)%C).
Proof.
  split; [apply pcos_real_odd; lra|]. split; [apply pcos3_ok|]. split; [reflexivity|]. split; [reflexivity|]. split; [cbn; lia|]. split; [cbn; lia|].
  split; [|split; [apply pcos3_conj|split]].
  - unfold teqb. apply andb_false_iff. left. unfold leqb. apply andb_false_iff. right. unfold pcos3. cbn [p_iadd done pleft pset pt tiadd_num tco pcos mk_trig tadd_num ccos length].
    change (Nat.odd 3) with true. cbv iota. change ((3 + 1) / 2 - 1)%nat with 1%nat. unfold mk. cbn [seq map combine forallb nth Nat.eqb fst snd].
    apply andb_false_iff. right. apply andb_false_iff. left. unfold ceqb. apply andb_false_iff. left. unfold Reqb. destruct (Req_EM_T _ _) as [E|]; [|reflexivity].
    exfalso. unfold C0 in E. cbn in E. lra.
  - assert (R1 : tre (pt (pcos 0 1)) = true) by (apply pcos_real_odd; lra). rewrite R1. symmetry. apply isrealb_real.
    destruct (pcos_real_odd 0 1 ltac:(lra)) as [[_ Ok] _]. intros j Hj. rewrite ok_len in Hj by exact Ok. rewrite ok_values by assumption. apply (proj2 (proj2 Ok) R1).
  - exists [RtoC (/ 4); RtoC 0; RtoC (/ 4)]. split; [reflexivity|]. intros z. rewrite (proj2 (proj2 (tconst_ok 2))). cbn [pcos pt mk_trig tco]. rewrite ccos_eval.
    assert (E : [RtoC (/ 4); RtoC 0; RtoC (/ 4)] = map (fun v => (v * RtoC (/ 2))%C) ccos) by (unfold ccos; cbn [map]; repeat (f_equal; [apply injective_projections; cbn; field|]); f_equal; apply injective_projections; cbn; field).
    rewrite E, evalF_map_scal, ccos_eval. apply injective_projections; cbn; field.
Qed.
Print Assumptions C193_case.

(** ** C193 is false *)
(** f *= g with a constant function on either side leaves f as it was, without an error: cos(2 pi x) *= 2 *)
Theorem C193_constant_refuted :
  (forall f g, pa f = pa g -> pb f = pb g -> length (tco (pt f)) = 1%nat \/ length (tco (pt g)) = 1%nat -> p_imul f (PFun g) = {| praises := false; pleft := f; pright := PFun g |}) /\
  (forall f a, p_imul f (PArr a) = {| praises := false; pleft := f; pright := PArr a |}) /\
  exists f g F, real_odd f /\ real_odd g /\ calls f F /\ calls g (fun _ => RtoC 2) /\ pleft (p_imul f (PFun g)) = f /\ F 0 <> (F 0 * RtoC 2)%C.
Proof.
  assert (A : forall f g, pa f = pa g -> pb f = pb g -> length (tco (pt f)) = 1%nat \/ length (tco (pt g)) = 1%nat -> p_imul f (PFun g) = {| praises := false; pleft := f; pright := PFun g |}).
  { intros f g Ea Eb H. unfold p_imul. rewrite (pdom_same f g Ea Eb). destruct H as [-> | ->]; rewrite ?orb_true_r; reflexivity. }
  split; [exact A|]. split; [reflexivity|]. exists pcos3, (pconst 2). eexists.
  split; [apply pcos3_ok|]. split; [apply pconst_ok|]. split; [apply pcos3_ok|]. split; [apply pconst_ok|]. split; [rewrite A; [reflexivity|reflexivity|reflexivity|right; reflexivity]|].
  cbv beta. rewrite Rmult_0_r, cos_0. intros E. assert (Q := f_equal fst E). cbn in Q. lra.
Qed.
Print Assumptions C193_constant_refuted.

(** a real function stays flagged real when it is multiplied or divided in place by a complex number: after f *= i the
    constant 1 is 0; after f += -i it is still 1.  (f * i is right.) *)
Theorem C193_complex_refuted : exists f f1 f2 f3, real_odd f /\ calls f (fun _ => RtoC 1) /\
  p_imul f (PNum Ci) = {| praises := false; pleft := f1; pright := PNum Ci |} /\ calls f1 (fun _ => RtoC 0) /\
  p_idiv f (PNum Ci) = {| praises := false; pleft := f2; pright := PNum Ci |} /\ calls f2 (fun _ => RtoC 0) /\
  p_iadd f (PNum (- Ci)%C) = {| praises := false; pleft := f3; pright := PNum (- Ci)%C |} /\ calls f3 (fun _ => RtoC 1) /\
  forall x, fst (tcall (tmul_num (pt f) Ci) x) = Ci.
Proof.
  destruct (pconst_ok 1) as [Hr Hc]. assert (R1 := proj1 (proj2 Hr)).
  assert (K : forall t (w : R) (z : C), tre t = true -> tco t = [z] -> fst z = w -> calls (pset (pconst 1) t) (fun _ => RtoC w)).
  { intros t w z Ht Ec Hz. split; [|reflexivity]. intros x Hx. cbn [pset pconst pa pb] in *. eexists. unfold pcall. cbn [pset pconst pa pb pt].
    assert (Bw := proj1 (bwd_in 0 1 x ltac:(lra)) Hx). unfold Rleb. destruct (Rle_dec (-1) (map_bwd 0 1 x)); [|lra]. destruct (Rle_dec (map_bwd 0 1 x) 1); [|lra]. cbn [andb].
    unfold tcall. rewrite Ht, Ec. assert (E : horner_real [z] (map_bwd 0 1 x) = w) by (unfold horner_real; cbn; rewrite <- Hz; unfold Re; ring). rewrite E. reflexivity. }
  exists (pconst 1). eexists. eexists. eexists. split; [exact Hr|]. split; [exact Hc|].
  split; [reflexivity|]. split; [eapply K; [exact R1|reflexivity|cbn; ring]|].
  split; [unfold p_idiv; cbv zeta; destruct (Rltb (Cmod Ci) (/ 10 ^ 16)) eqn:E; [exfalso|reflexivity]|].
  { unfold Rltb in E. destruct (Rlt_dec (Cmod Ci) (/ 10 ^ 16)) as [L|]; [|discriminate]. assert (M : Cmod Ci = 1) by (unfold Cmod, Ci; cbn [fst snd]; replace (0 ^ 2 + 1 ^ 2) with 1 by ring; apply sqrt_1).
    rewrite M in L. assert (/ 10 ^ 16 < 1); [|lra]. rewrite <- Rinv_1. apply Rinv_lt_contravar; lra. }
  split; [eapply K; [exact R1|reflexivity|cbn; field]|].
  split; [reflexivity|]. split.
  - eapply K; [cbn [tiadd_num tre]; change (tre (tconst 1)) with (tre (pt (pconst 1))); rewrite R1; cbn [andb]; unfold Rltb; destruct (Rlt_dec _ _) as [|N]; [reflexivity|exfalso; apply N]|reflexivity|].
    + cbn. assert (0 < / (10 * (10 * (10 * (10 * (10 * (10 * (10 * (10 * (10 * (10 * (10 * (10 * (10 * (10 * 1))))))))))))))); [apply Rinv_0_lt_compat; lra|lra].
    + cbn. ring.
  - intros x. cbn [pconst pt]. unfold tmul_num, tconst. cbn [mk_trig tco tva map].
    assert (T1 : tva (tconst 1) = [RtoC 1]) by (assert (Z := proj1 (proj2 (proj2 (proj1 Hr)))); cbn [pconst pt] in Z; rewrite Z; reflexivity).
    unfold tconst in T1. cbn [mk_trig tva] in T1. rewrite T1. cbn [map].
    assert (M : isrealb [(RtoC 1 * Ci)%C] [(RtoC 1 * Ci)%C] = false).
    { unfold isrealb. cbn [forallb]. rewrite andb_true_r. unfold Rleb. destruct (Rle_dec _ _) as [L|]; [exfalso|reflexivity].
      assert (W : tvscale [(RtoC 1 * Ci)%C] = 1).
      { unfold tvscale. change (coeffs2vals1 [(RtoC 1 * Ci)%C]) with (coeffs2vals1 [(RtoC 1 * Ci)%C]). assert (Zc : coeffs2vals1 [(RtoC 1 * Ci)%C] = [(RtoC 1 * Ci)%C]).
        { symmetry. apply c2v_unique; [reflexivity|]. intros j Hj. cbn in Hj. assert (j = 0)%nat by lia. subst j. unfold evalF. cbn. unfold mode. cbn. rewrite Rmult_0_r, Rmult_0_l, cis_0. ring. }
        rewrite Zc. unfold maxmod. cbn [fold_right]. assert (Mc : Cmod (RtoC 1 * Ci)%C = 1) by (rewrite Cmult_1_l; unfold Cmod, Ci; cbn [fst snd]; replace (0 ^ 2 + 1 ^ 2) with 1 by ring; apply sqrt_1).
        rewrite Mc. apply Rmax_left. lra. }
      rewrite W in L. assert (T2 : teps <= / 10) by (unfold teps; apply Rinv_le_contravar; lra). assert (T3 := teps_pos). rewrite Rmax_right in L by lra.
      assert (I1 : Rabs (Im (RtoC 1 * Ci)%C) = 1) by (cbn; replace (1 * 1 + 0 * 0) with 1 by ring; apply Rabs_R1). rewrite I1 in L. lra. }
    unfold mk_trig. rewrite M. unfold tcall. cbn [tre tco fst]. rewrite horner_cmplx_correct by (cbn; lia). unfold evalF. cbn. unfold mode. cbn. rewrite Rmult_0_r, Rmult_0_l, cis_0. ring.
Qed.
Print Assumptions C193_complex_refuted.

(** not all or nothing: f /= a with 0 < |a| < 1e-16 raises after f has been divided, and f += array([a]) raises after the
    values of f, not its coefficients, have been changed *)
Theorem C193_failure_refuted :
  (forall f F a, pok f -> calls f F -> a <> RtoC 0 -> Cmod a < / 10 ^ 16 -> (tre (pt f) = true -> Im a = 0) ->
     exists f', p_idiv f (PNum a) = {| praises := true; pleft := f'; pright := PNum a |} /\ calls f' (fun x => (F x / a)%C)) /\
  (forall f a, pok f -> a <> RtoC 0 -> exists f', p_iadd f (PArr a) = {| praises := true; pleft := f'; pright := PArr a |} /\
     tco (pt f') = tco (pt f) /\ ~ trig_ok (pt f')) /\
  exists a : C, a <> RtoC 0 /\ Cmod a < / 10 ^ 16 /\ Im a = 0.
Proof.
  split; [|split].
  - intros f F a Of HF Hz Hs Ha. unfold p_idiv. cbv zeta. unfold Rltb. destruct (Rlt_dec (Cmod a) (/ 10 ^ 16)) as [_|]; [|lra]. eexists. split; [reflexivity|].
    destruct (proj2 (proj2 (proj2 (proj2 (C193_number_partial f F a Of HF Ha)))) Hz) as [f' [E [_ [_ [_ H]]]]]. cbn [p_idiv done] in E.
    assert (Q := f_equal pleft E). change (pset f (tidiv_num (pt f) a) = f') in Q. rewrite Q. exact H.
  - intros f a Of Hz. eexists. split; [reflexivity|]. split; [reflexivity|]. intros [N [V _]]. cbn [pset pt tco tva] in *.
    assert (V0 := proj1 (proj2 (proj2 Of))). rewrite <- V0 in V. assert (L := ok_len _ (proj2 Of)). destruct (tva (pt f)) as [|v l]; [cbn in L; lia|].
    cbn [map] in V. injection V as V _. apply Hz. replace a with (v + a - v)%C by ring. rewrite V. ring.
  - exists (RtoC (/ 10 ^ 17)). assert (P : 0 < / 10 ^ 17) by (apply Rinv_0_lt_compat; lra). split; [|split; [|reflexivity]].
    + intros E. assert (Q := f_equal fst E). cbn [fst RtoC] in Q. lra.
    + rewrite Cmod_R, Rabs_pos_eq by lra. apply Rinv_lt_contravar; [|lra]. apply Rmult_lt_0_compat; apply pow_lt; lra.
Qed.
Print Assumptions C193_failure_refuted.

(** f *= f: every function that is not constant is refused (x1.isreal() calls an array) *)
Theorem C193_square_refuted : forall f, length (tco (pt f)) <> 1%nat -> p_imul f (PFun f) = fails f (PFun f).
Proof.
  intros f H. cbn [p_imul]. rewrite pdom_same by reflexivity. apply Nat.eqb_neq in H. rewrite H. cbn [orb].
  unfold timul, teqb. rewrite !leqb_refl. reflexivity.
Qed.
Print Assumptions C193_square_refuted.
