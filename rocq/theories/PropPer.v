(** C181-C184: periodic functions on a domain [a,b]. *)
From Coq Require Import Reals ZArith List Arith Bool Lia Lra.
From Coquelicot Require Import Coquelicot.
From Verif Require Import Base ToolsProofs ChebModel TrigSpec TrigBase TrigModel TrigTrans TrigEval TrigCalc TrigCalc2 TrigModel2 TrigObj TrigObj2 FunModel FunTrig FunTrigProofs.
Import ListNotations.
Open Scope R_scope.

(** [is_fun f F]: calling f at a point of its domain returns F there (twice in a row, too), elsewhere the call raises;
    F is the periodic extension, with the length of the domain as period *)
Definition is_fun (f : pfun) (F : R -> C) : Prop :=
  (forall x, pa f <= x <= pb f -> pcall f x = Some (F x, f)) /\ (forall x, ~ (pa f <= x <= pb f) -> pcall f x = None) /\
  (forall x, F (x + (pb f - pa f)) = F x).
(** a real periodic function with an odd number of coefficients, as the library builds it (nonempty domain, values and coefficients of the same function) *)
Definition real_odd (f : pfun) : Prop := pok f /\ tre (pt f) = true /\ Nat.odd (length (tco (pt f))) = true.

Lemma is_fun_pfn f : pok f -> Nat.odd (length (tco (pt f))) = true \/ tre (pt f) = false -> is_fun f (pfn f).
Proof.
  intros Hok Hs. split; [|split].
  - intros x Hx. destruct (proj1 (pcall_correct f x Hok) Hx) as [f' [E H]]. rewrite E, (H Hs). reflexivity.
  - intros x Hx. exact (proj2 (pcall_correct f x Hok) Hx).
  - intros x. apply pfn_period, Hok.
Qed.
Lemma period_unique (F G : R -> C) a b : a < b -> (forall x, F (x + (b - a)) = F x) -> (forall x, G (x + (b - a)) = G x) -> (forall x, a <= x <= b -> F x = G x) -> forall x, F x = G x.
Proof.
  intros Hab HF HG H x. assert (Hl : 0 < b - a) by lra.
  assert (Pn : forall (P : R -> C), (forall x, P (x + (b - a)) = P x) -> forall n y, P (y + INR n * (b - a))%R = P y).
  { intros P HP. induction n as [|n IH]; intros y; [f_equal; cbn; ring|]. rewrite S_INR. replace (y + (INR n + 1) * (b - a)) with (y + INR n * (b - a) + (b - a)) by ring. rewrite HP. apply IH. }
  assert (Pz : forall (P : R -> C), (forall x, P (x + (b - a)) = P x) -> forall z y, P (y + IZR z * (b - a))%R = P y).
  { intros P HP z y. destruct (Z.le_gt_cases 0 z) as [Hz|Hz].
    - rewrite <- (Z2Nat.id z) by exact Hz. rewrite <- INR_IZR_INZ. apply Pn, HP.
    - rewrite <- (Pn P HP (Z.to_nat (- z)) (y + IZR z * (b - a))). f_equal. rewrite INR_IZR_INZ, Z2Nat.id by lia. rewrite opp_IZR. ring. }
  set (z := up ((x - b) / (b - a))). destruct (archimed ((x - b) / (b - a))) as [A1 A2]. fold z in A1, A2.
  assert (E : x = (x - IZR z * (b - a)) + IZR z * (b - a)) by ring. rewrite E, (Pz F HF), (Pz G HG). apply H.
  assert (Q : (x - b) / (b - a) * (b - a) = x - b) by (field; lra). set (w := (x - b) / (b - a)) in *.
  assert (B1 : w * (b - a) <= IZR z * (b - a)) by (apply Rmult_le_compat_r; lra).
  assert (B2 : IZR z * (b - a) <= (w + 1) * (b - a)) by (apply Rmult_le_compat_r; lra). lra.
Qed.
Lemma is_fun_unique f F : pok f -> Nat.odd (length (tco (pt f))) = true \/ tre (pt f) = false -> is_fun f F -> forall x, F x = pfn f x.
Proof.
  intros Hok Hs [H1 [_ H3]]. destruct (is_fun_pfn f Hok Hs) as [G1 [_ G3]]. apply (period_unique F (pfn f) (pa f) (pb f)); [apply Hok|exact H3|exact G3|].
  intros x Hx. assert (A := H1 x Hx). rewrite (G1 x Hx) in A. injection A as A. auto.
Qed.

(** ** examples *)
(** cos(2 pi (x - (a+b)/2) / (b-a)) on [a,b] *)
Definition ccos : list C := [RtoC (/ 2); RtoC 0; RtoC (/ 2)].
Definition pcos (a b : R) : pfun := {| pa := a; pb := b; pt := mk_trig (coeffs2vals1 ccos) ccos |}.
Lemma ccos_eval x : evalF ccos x = RtoC (cos (PI * x)).
Proof.
  unfold evalF, mode, freq, ccos. cbn [length csum nth Nat.even andb]. change (3 / 2)%nat with 1%nat.
  change (Z.of_nat 0 - Z.of_nat 1)%Z with (-1)%Z. change (Z.of_nat 1 - Z.of_nat 1)%Z with 0%Z. change (Z.of_nat 2 - Z.of_nat 1)%Z with 1%Z.
  replace (PI * -1 * x) with (- (PI * x)) by ring. replace (PI * 1 * x) with (PI * x) by ring.
  unfold cis. rewrite cos_neg, sin_neg. apply injective_projections; cbn; field.
Qed.
Lemma pcos_real_odd a b : a < b -> real_odd (pcos a b).
Proof.
  intros H. destruct (mk_trig_ok ccos ltac:(cbn; lia)) as [X Y]; [intros x; rewrite ccos_eval; reflexivity|].
  split; [split; assumption|]. split; [exact Y|reflexivity].
Qed.
Lemma pcos_fn a b x : pfn (pcos a b) x = RtoC (cos (PI * map_bwd a b x)).
Proof. unfold pfn. apply ccos_eval. Qed.

(** ** C181: translation *)
Lemma proll_odd f s : Nat.odd (length (tco (pt (proll f s)))) = Nat.odd (length (tco (pt f))).
Proof. unfold proll, tshift. cbn [pt]. destruct (Reqb s 0) eqn:E; [reflexivity|]. cbn [mk_trig tco]. unfold circshift_col. rewrite E, mk_length. reflexivity. Qed.
(** what np.roll(f, s) is, for every function and domain: f translated by s half-lengths of the domain *)
Theorem C181_roll_partial : forall f F s, real_odd f -> is_fun f F ->
  real_odd (proll f s) /\ is_fun (proll f s) (fun x => F (x - s * ((pb f - pa f) / 2))).
Proof.
  intros f F s [Hok [Hr Ho]] HF. assert (U := is_fun_unique f F Hok (or_introl Ho) HF).
  assert (He : Nat.even (length (tco (pt f))) = true -> nth 0 (tco (pt f)) (RtoC 0) = RtoC 0) by (intros X; rewrite <- Nat.negb_even, X in Ho; discriminate).
  assert (P := fun x => proll_correct f s x Hok He). destruct (proj1 (proj2 (P 0)) Hr) as [Q1 Q2].
  assert (Q3 : Nat.odd (length (tco (pt (proll f s)))) = true) by (rewrite proll_odd; exact Ho). split; [split; [exact Q1|split; [exact Q2|exact Q3]]|].
  destruct (is_fun_pfn _ Q1 (or_introl Q3)) as [G1 [G2 G3]]. split; [|split].
  - intros x Hx. rewrite (G1 x Hx), U. rewrite (proj1 (P x)). do 4 f_equal. field.
  - exact G2.
  - intros x. cbn [proll pa pb]. rewrite !U. replace (x + (pb f - pa f) - s * ((pb f - pa f) / 2)) with (x - s * ((pb f - pa f) / 2) + (pb f - pa f)) by ring. apply pfn_period, Hok.
Qed.
Print Assumptions C181_roll_partial.
(** on domains of length 2 it is the translation by s *)
Theorem C181_length_two_partial : forall f F s, real_odd f -> is_fun f F -> pb f - pa f = 2 -> is_fun (proll f s) (fun x => F (x - s)).
Proof.
  intros f F s H HF H2. destruct (proj2 (C181_roll_partial f F s H HF)) as [A [B D]]. rewrite H2 in *. split; [|split].
  - intros x Hx. rewrite (A x Hx). do 3 f_equal. lra.
  - exact B.
  - intros x. specialize (D x). cbn [proll pa pb] in *. rewrite H2 in *. transitivity (F (x + 2 - s * (2 / 2))); [f_equal; lra|]. rewrite D. f_equal. lra.
Qed.
Print Assumptions C181_length_two_partial.
Theorem C181_case : real_odd (pcos 3 5) /\ is_fun (pcos 3 5) (pfn (pcos 3 5)) /\ pb (pcos 3 5) - pa (pcos 3 5) = 2.
Proof. assert (H := pcos_real_odd 3 5 ltac:(lra)). split; [exact H|]. split; [apply is_fun_pfn; [apply H|left; apply H]|cbn; lra]. Qed.
(** on [0,1], moving -cos(2 pi x) by half a period should change its sign: at 0 the answer is 0 instead of 1 *)
Theorem C181_roll_refuted : exists f F, real_odd f /\ is_fun f F /\ (forall x, F x = RtoC (- cos (2 * PI * x))) /\
  F (0 - / 2)%R = RtoC 1 /\ exists f', pcall (proll f (/ 2)) 0 = Some (RtoC 0, f').
Proof.
  assert (H := pcos_real_odd 0 1 ltac:(lra)). exists (pcos 0 1), (pfn (pcos 0 1)).
  assert (HF : is_fun (pcos 0 1) (pfn (pcos 0 1))) by (apply is_fun_pfn; [apply H|left; apply H]).
  assert (V : forall x, pfn (pcos 0 1) x = RtoC (- cos (2 * PI * x))).
  { intros x. rewrite pcos_fn. f_equal. unfold map_bwd. replace (PI * ((2 * x - 0 - 1) / (1 - 0))) with (2 * PI * x - PI) by field.
    rewrite cos_minus, cos_PI, sin_PI. ring. }
  split; [exact H|]. split; [exact HF|]. split; [exact V|]. split.
  - rewrite V. f_equal. replace (2 * PI * (0 - / 2)) with (- PI) by field. rewrite cos_neg, cos_PI. ring.
  - destruct (proj2 (C181_roll_partial _ _ (/ 2) H HF)) as [A _]. exists (proll (pcos 0 1) (/ 2)). rewrite A by (cbn; lra). f_equal. f_equal. rewrite V. f_equal. cbn [pcos pa pb].
    replace (2 * PI * (0 - / 2 * ((1 - 0) / 2))) with (- (PI / 2)) by field. rewrite cos_neg, cos_PI2. ring.
Qed.
Print Assumptions C181_roll_refuted.

(** ** C182: circular convolution *)
(** what np.convolve(f, g) is, for every domain: the operands stay the same functions, and the result is the convolution
    translated by the midpoint of the domain *)
Theorem C182_convolve_partial : forall f g F G, real_odd f -> real_odd g -> pa f = pa g -> pb f = pb g -> is_fun f F -> is_fun g G ->
  exists r f' g' H, pconvolve f g = Some (r, f', g') /\ is_fun f' F /\ is_fun g' G /\
    pa r = pa f /\ pb r = pb f /\ real_odd r /\ is_fun r H /\
    forall x, cint (fun t => (F (x - t + (pa f + pb f) / 2)%R * G t)%C) (pa f) (pb f) (H x).
Proof.
  intros f g F G [Of [Rf Lf]] [Og [Rg Lg]] Ea Eb HF HG.
  assert (UF := is_fun_unique f F Of (or_introl Lf) HF). assert (UG := is_fun_unique g G Og (or_introl Lg) HG).
  assert (Lm : Nat.odd (Nat.max (length (tco (pt f))) (length (tco (pt g)))) = true) by (destruct (Nat.max_spec (length (tco (pt f))) (length (tco (pt g)))) as [[_ ->]|[_ ->]]; assumption).
  destruct (tmatch_correct (pt f) (pt g) (proj2 Of) (proj2 Og)) as [tf [tg [Em [_ [_ [Lf' [Lg' [Tf' [Tg' _]]]]]]]]].
  destruct (pconvolve_correct f g Of Og Ea Eb Rg Lm) as [r [f' [g' [E [Ra [Rb [[Of' [Og' [Vf Vg]]] [V R1]]]]]]]]. destruct (R1 Rf) as [Or Rr].
  assert (E' := E). unfold pconvolve, tconv in E'. rewrite (proj2 (pdom_eqb_true f g) (conj Ea Eb)), Em in E'. injection E' as Er Ef' Eg'.
  assert (Lr : length (tco (pt r)) = Nat.max (length (tco (pt f))) (length (tco (pt g)))).
  { destruct (tconv_correct _ _ (proj2 Of) (proj2 Og) Rg Lm) as [r0 [f0 [g0 [E0 _]]]]. unfold tconv in E0. rewrite Em in E0.
    rewrite <- Er. unfold pset, tmul_num. cbn [pt mk_trig tco]. rewrite map_length, vals2coeffs1_length. unfold circconv_vals. rewrite map_length.
    unfold ifft. rewrite ?map_length, ?mk_length. rewrite (ok_len tf); [exact Lf'|]. subst f'. exact (proj2 Of'). }
  assert (K : forall p q P, is_fun p P -> pok p -> Nat.odd (length (tco (pt p))) = true -> pok q -> Nat.odd (length (tco (pt q))) = true -> pa q = pa p -> pb q = pb p -> (forall x, pfn q x = P x) -> is_fun q P).
  { intros p q P HP Hp Lp Hq Lq E1 E2 Hv. destruct (is_fun_pfn q Hq (or_introl Lq)) as [A [B D]]. split; [|split].
    - intros x Hx. rewrite (A x Hx), Hv. reflexivity.
    - exact B.
    - intros x. rewrite <- !Hv. apply D. }
  exists r, f', g', (pfn r). split; [exact E|]. split; [|split; [|split; [exact Ra|split; [exact Rb|split; [|split; [|]]]]]].
  - apply (K f); auto; try (subst f'; first [reflexivity|cbn [pset pt]; rewrite Lf'; exact Lm]). intros x. rewrite Vf, UF. reflexivity.
  - apply (K g); auto; try (subst g'; first [reflexivity|cbn [pset pt]; rewrite Lg'; exact Lm]). intros x. rewrite Vg, UG. reflexivity.
  - split; [exact Or|]. split; [exact Rr|]. rewrite Lr. exact Lm.
  - apply is_fun_pfn; [exact Or|]. left. rewrite Lr. exact Lm.
  - intros x. eapply cint_ext; [|apply V]. intros t. cbn beta. rewrite UF, UG. reflexivity.
Qed.
Print Assumptions C182_convolve_partial.
(** on domains [-L, L] it is the convolution *)
Theorem C182_symmetric_partial : forall f g F G, real_odd f -> real_odd g -> pa f = pa g -> pb f = pb g -> pa f = - pb f -> is_fun f F -> is_fun g G ->
  exists r f' g' H, pconvolve f g = Some (r, f', g') /\ is_fun f' F /\ is_fun g' G /\ is_fun r H /\
    forall x, cint (fun t => (F (x - t)%R * G t)%C) (pa f) (pb f) (H x).
Proof.
  intros f g F G Hf Hg Ea Eb Es HF HG. destruct (C182_convolve_partial f g F G Hf Hg Ea Eb HF HG) as [r [f' [g' [H [E [A [B [_ [_ [_ [D V]]]]]]]]]]].
  exists r, f', g', H. split; [exact E|]. split; [exact A|]. split; [exact B|]. split; [exact D|].
  intros x. eapply cint_ext; [|apply V]. intros t. cbn beta. do 2 f_equal. rewrite Es. field.
Qed.
Print Assumptions C182_symmetric_partial.
Theorem C182_case : real_odd (pcos (-3) 3) /\ is_fun (pcos (-3) 3) (pfn (pcos (-3) 3)) /\ pa (pcos (-3) 3) = - pb (pcos (-3) 3).
Proof. assert (H := pcos_real_odd (-3) 3 ltac:(lra)). split; [exact H|]. split; [apply is_fun_pfn; [apply H|left; apply H]|cbn; lra]. Qed.
(** the domains must be the same numbers *)
Theorem C182_domains : forall f g, ~ (pa f = pa g /\ pb f = pb g) -> pconvolve f g = None.
Proof. intros f g H. unfold pconvolve. destruct (pdom_eqb f g) eqn:E; [apply pdom_eqb_true in E; contradiction|reflexivity]. Qed.
Print Assumptions C182_domains.
Lemma cos2_int : cint (fun t => RtoC (cos (PI * t) * cos (PI * t))) 0 2 (RtoC 1).
Proof.
  split; cbn.
  - assert (P := PI_RGT_0). replace 1%R with (minus (2 / 2 + sin (2 * PI * 2) / (4 * PI)) (0 / 2 + sin (2 * PI * 0) / (4 * PI)))%R.
    + apply (is_RInt_derive (V := R_CompleteNormedModule) (fun t => t / 2 + sin (2 * PI * t) / (4 * PI))%R (fun t => cos (PI * t) * cos (PI * t))%R).
      * intros t _. auto_derive; [exact I|]. replace (2 * PI * t)%R with (2 * (PI * t))%R by ring. rewrite cos_2a_cos. field. lra.
      * intros t _. apply (ex_derive_continuous (V := R_NormedModule)). auto_derive. exact I.
    + unfold minus, plus, opp. cbn. rewrite Rmult_0_r, sin_0. replace (2 * PI * 2)%R with (0 + 2 * INR 2 * PI)%R by (cbn; ring). rewrite sin_period, sin_0. field. lra.
  - apply (is_RInt_ext (V := R_NormedModule) (fun _ => 0%R)); [reflexivity|]. 
    assert (Q := is_RInt_const (V := R_NormedModule) 0 2 0%R). assert (E : @eq R (scal (2 - 0)%R 0%R) 0%R) by (unfold scal; cbn; unfold mult; cbn; ring).
    refine (eq_rect _ (fun w : R => is_RInt (V := R_NormedModule) (fun _ => 0%R) 0 2 w) Q _ E).
Qed.
(** on [0,2] the convolution of -cos(pi x) with itself has the wrong sign at 0: -1 instead of 1 *)
Theorem C182_convolve_refuted : exists f F r f' g' f'', real_odd f /\ is_fun f F /\ (forall x, F x = RtoC (- cos (PI * x))) /\
  pconvolve f f = Some (r, f', g') /\ pcall r 0 = Some (RtoC (-1), f'') /\ cint (fun t => (F (0 - t)%R * F t)%C) 0 2 (RtoC 1).
Proof.
  assert (H := pcos_real_odd 0 2 ltac:(lra)).
  assert (HF : is_fun (pcos 0 2) (pfn (pcos 0 2))) by (apply is_fun_pfn; [apply H|left; apply H]).
  assert (V : forall x, pfn (pcos 0 2) x = RtoC (- cos (PI * x))).
  { intros x. rewrite pcos_fn. f_equal. unfold map_bwd. replace (PI * ((2 * x - 0 - 2) / (2 - 0))) with (PI * x - PI) by field.
    rewrite cos_minus, cos_PI, sin_PI. ring. }
  destruct (C182_convolve_partial _ _ _ _ H H eq_refl eq_refl HF HF) as [r [f' [g' [Hr [E [_ [_ [Ra [Rb [_ [[D _] I1]]]]]]]]]]].
  exists (pcos 0 2), (pfn (pcos 0 2)), r, f', g', r. split; [exact H|]. split; [exact HF|]. split; [exact V|]. split; [exact E|].
  assert (T : cint (fun t => (pfn (pcos 0 2) (0 - t)%R * pfn (pcos 0 2) t)%C) 0 2 (RtoC 1)).
  { eapply cint_ext; [|exact cos2_int]. intros t. cbn beta. rewrite !V, <- RtoC_mult. f_equal. replace (PI * (0 - t)) with (- (PI * t)) by ring. rewrite cos_neg. ring. }
  split; [|exact T]. cbn [pcos pa pb] in Ra, Rb. rewrite (D 0) by (rewrite Ra, Rb; lra). do 2 f_equal.
  assert (I2 := I1 0). cbn [pcos pa pb] in I2.
  assert (T' : cint (fun t => (pfn (pcos 0 2) (0 - t + (0 + 2) / 2)%R * pfn (pcos 0 2) t)%C) 0 2 (RtoC (-1) * RtoC 1)%C).
  { eapply cint_ext; [|apply cint_scal, T]. intros t. cbn beta. rewrite !V, <- !RtoC_mult. f_equal. replace (PI * (0 - t + (0 + 2) / 2)) with (PI * (0 - t) + PI) by field. rewrite neg_cos. ring. }
  rewrite (cint_unique _ _ _ _ _ I2 T'). ring.
Qed.
Print Assumptions C182_convolve_refuted.

(** ** C183: the adhesion operator *)
(** adhesion(f, g), where g holds the Fourier coefficients of the kernel w, int w(r) exp(2 pi i k r / (b-a)) dr, is the
    integral of f(x + r) w(r), for every domain and every interval [p,q] of r *)
Theorem C183_adhesion : forall f g F w p q, real_odd f -> pok g -> Nat.odd (length (tco (pt g))) = true -> is_fun f F ->
  (forall k : Z, cint (fun r => (RtoC (w r) * cis (2 * PI * IZR k * r / (pb f - pa f)))%C) p q (coef (tco (pt g)) k) \/
                 (Z.of_nat (Nat.max (length (tco (pt f))) (length (tco (pt g)))) < 2 * Z.abs k)%Z) ->
  exists r f' g' H, padhesion f g = Some (r, f', g') /\ is_fun f' F /\ pa r = pa f /\ pb r = pb f /\ real_odd r /\ is_fun r H /\
    forall x, cint (fun s => (F (x + s)%R * RtoC (w s))%C) p q (H x).
Proof.
  intros f g F w p q [Of [Rf Lf]] Og Lg HF Hw. assert (UF := is_fun_unique f F Of (or_introl Lf) HF).
  assert (Lm : Nat.odd (Nat.max (length (tco (pt f))) (length (tco (pt g)))) = true) by (destruct (Nat.max_spec (length (tco (pt f))) (length (tco (pt g)))) as [[_ ->]|[_ ->]]; assumption).
  destruct (tmatch_correct (pt f) (pt g) (proj2 Of) (proj2 Og)) as [tf [tg [Em [_ [_ [Lf' [Lg' _]]]]]]].
  destruct (padhesion_correct f g w p q Of (proj2 Og) Lm) as [r [f' [g' [E [Ra [Rb [[Of' [Vf Vg]] [V R1]]]]]]]].
  { intros z Hz. destruct (Hw z) as [K|K]; [exact K|lia]. }
  destruct (R1 Rf) as [Or Rr]. assert (E' := E). unfold padhesion in E'. rewrite Em in E'. injection E' as Er Ef' Eg'.
  assert (Lr : Nat.odd (length (tco (pt r))) = true) by (rewrite <- Er; cbn [pset pt mk_trig tco]; rewrite mk_length, Lf'; exact Lm).
  exists r, f', g', (pfn r). split; [exact E|]. split.
  { destruct (is_fun_pfn f' Of') as [A [B D]]; [left; subst f'; cbn [pset pt]; rewrite Lf'; exact Lm|]. split; [|split].
    - intros x Hx. rewrite (A x Hx), Vf, UF. reflexivity.
    - exact B.
    - intros x. rewrite !UF, <- !Vf. apply D. }
  split; [exact Ra|]. split; [exact Rb|]. split; [split; [exact Or|split; [exact Rr|exact Lr]]|]. split; [apply is_fun_pfn; [exact Or|left; exact Lr]|].
  intros x. eapply cint_ext; [|apply V]. intros t. cbn beta. rewrite UF. reflexivity.
Qed.
Print Assumptions C183_adhesion.
Lemma cint_cis_gen o p q : o <> 0 -> cint (fun r => cis (o * r)) p q ((sin (o * q) - sin (o * p)) / o, - (cos (o * q) - cos (o * p)) / o).
Proof.
  intros Ho. split; cbn.
  - replace ((sin (o * q) - sin (o * p)) / o) with (minus (sin (o * q) / o) (sin (o * p) / o)) by (unfold minus, plus, opp; cbn; field; exact Ho).
    apply (is_RInt_derive (V := R_CompleteNormedModule) (fun t => sin (o * t) / o) (fun t => cos (o * t))).
    + intros t _. auto_derive; [exact I|]. field. exact Ho.
    + intros t _. apply (ex_derive_continuous (V := R_NormedModule)). auto_derive. exact I.
  - replace (- (cos (o * q) - cos (o * p)) / o) with (minus (- cos (o * q) / o) (- cos (o * p) / o)) by (unfold minus, plus, opp; cbn; field; exact Ho).
    apply (is_RInt_derive (V := R_CompleteNormedModule) (fun t => - cos (o * t) / o) (fun t => sin (o * t))).
    + intros t _. auto_derive; [exact I|]. field. exact Ho.
    + intros t _. apply (ex_derive_continuous (V := R_NormedModule)). auto_derive. exact I.
Qed.
(** the kernel 1 on [0, 1/2] for functions on [0,1] *)
Definition chalf : list C := [(0, - / PI); (/ 2, 0); (0, / PI)].
Lemma chalf_eval x : evalF chalf x = RtoC (/ 2 - 2 / PI * sin (PI * x)).
Proof.
  unfold evalF, mode, freq, chalf. cbn [length csum nth Nat.even andb]. change (3 / 2)%nat with 1%nat.
  change (Z.of_nat 0 - Z.of_nat 1)%Z with (-1)%Z. change (Z.of_nat 1 - Z.of_nat 1)%Z with 0%Z. change (Z.of_nat 2 - Z.of_nat 1)%Z with 1%Z.
  assert (P := PI_RGT_0). replace (PI * -1 * x) with (- (PI * x)) by ring. replace (PI * 1 * x) with (PI * x) by ring. replace (PI * 0 * x) with 0 by ring.
  unfold cis. rewrite cos_neg, sin_neg, cos_0, sin_0. apply injective_projections; cbn; field; lra.
Qed.
Definition phalfker : pfun := {| pa := 0; pb := 1; pt := mk_trig (coeffs2vals1 chalf) chalf |}.
Theorem C183_case : real_odd (pcos 0 1) /\ pok phalfker /\ Nat.odd (length (tco (pt phalfker))) = true /\ is_fun (pcos 0 1) (pfn (pcos 0 1)) /\
  (forall k : Z, cint (fun r => (RtoC 1 * cis (2 * PI * IZR k * r / (pb (pcos 0 1) - pa (pcos 0 1))))%C) 0 (/ 2) (coef (tco (pt phalfker)) k) \/
                 (Z.of_nat (Nat.max (length (tco (pt (pcos 0 1)))) (length (tco (pt phalfker)))) < 2 * Z.abs k)%Z).
Proof.
  assert (H := pcos_real_odd 0 1 ltac:(lra)). split; [exact H|]. split.
  { split; [cbn; lra|]. apply mk_trig_ok; [cbn; lia|]. intros x. rewrite chalf_eval. reflexivity. }
  split; [reflexivity|]. split; [apply is_fun_pfn; [apply H|left; apply H]|].
  intros k. cbn [pcos phalfker pa pb pt mk_trig tco ccos chalf length Nat.max]. assert (P := PI_RGT_0).
  destruct (Z.lt_ge_cases 3 (2 * Z.abs k)) as [Hk|Hk]; [right; lia|left].
  assert (G : forall o l, o <> 0 -> l = (sin (o * / 2) / o, - (cos (o * / 2) - 1) / o) -> (forall r, 2 * PI * IZR k * r / (1 - 0) = o * r) ->
     cint (fun r => (RtoC 1 * cis (2 * PI * IZR k * r / (1 - 0)))%C) 0 (/ 2) l).
  { intros o l Ho -> Hr. assert (Q := cint_cis_gen o 0 (/ 2) Ho). rewrite Rmult_0_r, sin_0, cos_0, Rminus_0_r in Q.
    eapply cint_ext; [|exact Q]. intros r. cbn beta. rewrite Hr. ring. }
  assert (Hc : (k = -1 \/ k = 0 \/ k = 1)%Z) by lia. destruct Hc as [Hc|[Hc|Hc]]; subst k.
  - change (coef chalf (-1)) with (0, - / PI). apply (G (- (2 * PI))); [lra| |intros r; field].
    replace (- (2 * PI) * / 2) with (- PI) by field. rewrite sin_neg, cos_neg, sin_PI, cos_PI. apply injective_projections; cbn [fst snd]. idtac.
    { field; lra. } { field; lra. }
  - change (coef chalf 0) with (/ 2, 0).
    apply (cint_ext (fun _ => RtoC 1)). { intros r. replace (2 * PI * 0 * r / (1 - 0)) with 0 by field. unfold cis. rewrite cos_0, sin_0. apply injective_projections; cbn; ring. }
    split; cbn.
    + assert (Q := is_RInt_const (V := R_NormedModule) 0 (/ 2) 1). assert (E : @eq R (scal (/ 2 - 0) 1) (/ 2)) by (unfold scal; cbn; unfold mult; cbn; ring).
      refine (eq_rect _ (fun w : R => is_RInt (V := R_NormedModule) (fun _ => 1) 0 (/ 2) w) Q _ E).
    + assert (Q := is_RInt_const (V := R_NormedModule) 0 (/ 2) 0). assert (E : @eq R (scal (/ 2 - 0) 0) 0) by (unfold scal; cbn; unfold mult; cbn; ring).
      refine (eq_rect _ (fun w : R => is_RInt (V := R_NormedModule) (fun _ => 0) 0 (/ 2) w) Q _ E).
  - change (coef chalf 1) with (0, / PI). apply (G (2 * PI)); [lra| |intros r; field].
    replace (2 * PI * / 2) with PI by field. rewrite sin_PI, cos_PI. apply injective_projections; cbn [fst snd]; field; lra.
Qed.
Print Assumptions C183_case.

(** ** C184: calculus on a domain *)
(** [calls f F]: calling f at a point of its domain returns F there; F has the length of the domain as period *)
Definition calls (f : pfun) (F : R -> C) : Prop :=
  (forall x, pa f <= x <= pb f -> exists f', pcall f x = Some (F x, f')) /\ (forall x, F (x + (pb f - pa f)) = F x).
Lemma calls_unique f F : pok f -> calls f F -> forall x, F x = pfn f x.
Proof.
  intros Hok [H1 H3]. apply (period_unique F (pfn f) (pa f) (pb f)); [apply Hok|exact H3|intros x; apply pfn_period, Hok|].
  intros x Hx. destruct (H1 x Hx) as [f1 E1]. destruct (proj1 (pcall_correct f x Hok) Hx) as [f2 [E2 _]]. rewrite E1 in E2. injection E2 as E2 _. exact E2.
Qed.
(** np.sum is the integral over the domain, for every length *)
Theorem C184_sum : forall f F, pok f -> calls f F -> cint F (pa f) (pb f) (psum f).
Proof. intros f F Hok HF. apply (cint_ext (pfn f)); [intros x; symmetry; apply calls_unique; assumption|]. apply psum_correct, Hok. Qed.
Print Assumptions C184_sum.
(** np.inner is the inner product over the domain, and raises for different domains *)
Theorem C184_inner : forall f g F G, pok f -> pok g -> calls f F -> calls g G ->
  (pa f = pa g /\ pb f = pb g -> exists r, pinner f g = Some r /\ cint (fun x => (F x * Cconj (G x))%C) (pa f) (pb f) r) /\
  (~ (pa f = pa g /\ pb f = pb g) -> pinner f g = None).
Proof.
  intros f g F G Hf Hg HF HG. destruct (pinner_correct f g Hf Hg) as [A B]. split; [|exact B]. intros Hd. destruct (A Hd) as [r [E H]]. exists r. split; [exact E|].
  eapply cint_ext; [|exact H]. intros x. cbn beta. rewrite (calls_unique f F Hf HF), (calls_unique g G Hg HG). reflexivity.
Qed.
Print Assumptions C184_inner.
(** np.diff is the derivative of every order *)
Theorem C184_diff : forall f F n, real_odd f -> is_fun f F ->
  exists D, real_odd (pdiff f n) /\ pa (pdiff f n) = pa f /\ pb (pdiff f n) = pb f /\ is_fun (pdiff f n) D /\ forall x, cderive_n F n x (D x).
Proof.
  intros f F n [Hok [Hr Ho]] HF. assert (U := is_fun_unique f F Hok (or_introl Ho) HF).
  assert (He : Nat.even (length (tco (pt f))) = true -> nth 0 (tco (pt f)) (RtoC 0) = RtoC 0 \/ Nat.even n = true) by (intros X; rewrite <- Nat.negb_even, X in Ho; discriminate).
  assert (P := fun x => pdiff_correct f n x Hok Hr He). destruct (P 0) as [_ [Q1 [Q2 [Q3 Q4]]]].
  assert (Q5 : Nat.odd (length (tco (pt (pdiff f n)))) = true) by (unfold pdiff; cbn [pset pt mk_trig tco]; rewrite map_length; unfold tdiff_col; rewrite mk_length; exact Ho).
  exists (pfn (pdiff f n)). split; [split; [exact Q1|split; [exact Q2|exact Q5]]|]. split; [exact Q3|]. split; [exact Q4|]. split; [apply is_fun_pfn; [exact Q1|left; exact Q5]|].
  intros x. destruct (P x) as [[A B] _]. split; (eapply is_derive_n_ext; [|eassumption]); intros t; cbn beta; rewrite U; reflexivity.
Qed.
Print Assumptions C184_diff.
(** the integral of a derivative over a period is zero *)
Theorem C184_derivative_mean : forall f n, real_odd f -> psum (pdiff f (S n)) = RtoC 0.
Proof.
  intros f n [Hok [Hr Ho]]. unfold psum, pdiff. cbn [pset pt mk_trig tco]. set (c := tco (pt f)) in *.
  assert (A := odd_half _ Ho). fold c in A.
  assert (Z : tsum_col (map (fun v => (v / RtoC (phalf f ^ S n))%C) (tdiff_col c (S n))) = RtoC 0).
  { unfold tsum_col. rewrite map_length. unfold tdiff_col at 1. rewrite mk_length. replace ((length c + 2) / 2 - 1)%nat with (length c / 2)%nat by (replace (length c + 2)%nat with (length c + 1 * 2)%nat by lia; rewrite Nat.div_add by lia; lia).
    rewrite map_nth_C by (unfold tdiff_col; rewrite mk_length; lia). unfold tdiff_col. rewrite nth_mk by lia. unfold freq. rewrite Z.sub_diag. cbn [cpow].
    assert (Hp : phalf f ^ S n <> 0) by (apply pow_nonzero; unfold phalf; destruct Hok; lra). unfold Cdiv. ring. }
  rewrite Z. change (Re (RtoC 0)) with 0. set (h := RtoC (phalf _)). match goal with |- context [tre ?t] => destruct (tre t) end; ring.
Qed.
Print Assumptions C184_derivative_mean.
Theorem C184_case : real_odd (pcos 2 7) /\ is_fun (pcos 2 7) (pfn (pcos 2 7)) /\ calls (pcos 2 7) (pfn (pcos 2 7)).
Proof.
  assert (H := pcos_real_odd 2 7 ltac:(lra)). assert (HF : is_fun (pcos 2 7) (pfn (pcos 2 7))) by (apply is_fun_pfn; [apply H|left; apply H]).
  split; [exact H|]. split; [exact HF|]. split; [|apply HF]. intros x Hx. eexists. apply (proj1 HF x Hx).
Qed.
