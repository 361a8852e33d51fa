(** Periodic functions on a domain: translation, convolution, adhesion, derivative, integral, inner product. *)
From Coq Require Import Reals ZArith List Arith Bool Lia Lra.
From Coquelicot Require Import Coquelicot.
From Verif Require Import Base ToolsProofs ChebModel TrigSpec TrigBase TrigModel TrigTrans TrigEval TrigCalc TrigCalc2 TrigModel2 TrigObj TrigObj2 FunModel FunTrig.
Import ListNotations.
Open Scope R_scope.
Open Scope C_scope.

(** the Fourier series on [a,b], a function of period b - a on the whole line *)
Definition pfn (f : pfun) (x : R) : C := evalF (tco (pt f)) (map_bwd (pa f) (pb f) x).
(** an object as the library's constructors return it: nonempty domain, values and coefficients belong together, functions flagged real are real *)
Definition pok (f : pfun) : Prop := (pa f < pb f)%R /\ trig_ok (pt f).

Lemma evalF_period2 c x : evalF c (x + 2) = evalF c x.
Proof.
  unfold evalF. apply csum_ext. intros k Hk. f_equal. unfold mode. destruct (andb _ _).
  - assert (Q : cis (PI * INR (length c / 2) * (x + 2)) = cis (PI * INR (length c / 2) * x)).
    { apply cis_cong with (Z.of_nat (length c / 2)). rewrite <- INR_IZR_INZ. ring. }
    apply (f_equal fst) in Q. unfold cis in Q. cbn [fst] in Q. rewrite Q. reflexivity.
  - apply cis_cong with (freq (length c) k). ring.
Qed.
Lemma bwd_shift a b x s : (a < b)%R -> map_bwd a b (x + s * (b - a) / 2) = (map_bwd a b x + s)%R.
Proof. intros H. unfold map_bwd. field. lra. Qed.
Lemma bwd_in a b x : (a < b)%R -> (a <= x <= b <-> -1 <= map_bwd a b x <= 1)%R.
Proof.
  intros H. unfold map_bwd. assert (H' : (0 < b - a)%R) by lra.
  assert (E : ((2 * x - a - b) / (b - a) = 2 * ((x - a) / (b - a)) - 1)%R) by (field; lra). rewrite E.
  assert (E2 : (x - a = (x - a) / (b - a) * (b - a))%R) by (field; lra). set (q := ((x - a) / (b - a))%R) in *.
  split; intros [H1 H2]; split.
  - enough (0 <= q)%R by lra. apply (Rmult_le_reg_r (b - a)); [exact H'|]. rewrite Rmult_0_l, <- E2. lra.
  - enough (q <= 1)%R by lra. apply (Rmult_le_reg_r (b - a)); [exact H'|]. rewrite Rmult_1_l, <- E2. lra.
  - enough (0 <= x - a)%R by lra. rewrite E2. apply Rmult_le_pos; lra.
  - enough (x - a <= 1 * (b - a))%R by lra. rewrite E2. apply Rmult_le_compat_r; lra.
Qed.
Lemma pfn_period f x : (pa f < pb f)%R -> pfn f (x + (pb f - pa f)) = pfn f x.
Proof. intros H. unfold pfn. replace (x + (pb f - pa f))%R with (x + 2 * (pb f - pa f) / 2)%R by field. rewrite bwd_shift by exact H. apply evalF_period2. Qed.

(** calls *)
Lemma pcall_correct f x : pok f ->
  ((pa f <= x <= pb f)%R -> exists f', pcall f x = Some (pfn f x, f') /\ (Nat.odd (length (tco (pt f))) = true \/ tre (pt f) = false -> f' = f)) /\
  (~ (pa f <= x <= pb f)%R -> pcall f x = None).
Proof.
  intros [Hab Hok]. assert (B := bwd_in (pa f) (pb f) x Hab). unfold pcall. set (z := map_bwd (pa f) (pb f) x) in *. split; intros Hx.
  - apply B in Hx. unfold Rleb. destruct (Rle_dec (-1) z) as [_|]; [|lra]. destruct (Rle_dec z 1) as [_|]; [|lra]. cbn [andb].
    assert (E := trig_call_correct (pt f) z Hok). destruct (tcall (pt f) z) as [v t] eqn:Et. cbn [fst] in E.
    exists {| pa := pa f; pb := pb f; pt := t |}. split; [rewrite E; reflexivity|].
    intros Hs. assert (S1 := trig_call_stable (pt f) z Hs). rewrite Et in S1. cbn [snd] in S1. rewrite S1. destruct f; reflexivity.
  - unfold Rleb. destruct (Rle_dec (-1) z) as [H1|]; [|reflexivity]. destruct (Rle_dec z 1) as [H2|]; [|reflexivity]. exfalso. apply Hx, B. lra.
Qed.

(** translation *)
Lemma tshift_rep t a : trig_ok t -> (Nat.even (length (tco t)) = true -> nth 0 (tco t) (RtoC 0) = RtoC 0) ->
  represents (tshift t a) (fun x => evalF (tco t) (x - a)) (tre t = true) /\ length (tco (tshift t a)) = length (tco t).
Proof.
  intros Hok He. unfold tshift. destruct (Reqb a 0) eqn:E.
  { apply TrigTrans.Reqb_true in E. subst a. split; [|reflexivity]. split; [apply (proj1 Hok)|]. split; [intros x; f_equal; ring|]. split; [|apply near_ok, Hok]. intros Hr. split; [exact Hok|exact Hr]. }
  assert (L := proj1 (trig_circshift_correct (tco t) a 0 He)). assert (V := fun x => proj2 (trig_circshift_correct (tco t) a x He)).
  set (c := circshift_col (tco t) a) in *. split; [|exact L].
  assert (Hh : tre t = true -> hermitian c) by (intros Hr x; rewrite V; apply (proj2 (proj2 Hok) Hr)).
  rewrite realvals_id.
  - apply represents_mk; [rewrite L; apply (proj1 Hok)|exact V|exact Hh].
  - intros Hr j. rewrite coeffs2vals1_length. intros Hj. rewrite trig_values_correct by exact Hj. apply Hh, Hr.
Qed.
Lemma proll_correct f s x : pok f -> (Nat.even (length (tco (pt f))) = true -> nth 0 (tco (pt f)) (RtoC 0) = RtoC 0) ->
  pfn (proll f s) x = pfn f (x - s * (pb f - pa f) / 2) /\ (tre (pt f) = true -> pok (proll f s) /\ tre (pt (proll f s)) = true) /\
  pa (proll f s) = pa f /\ pb (proll f s) = pb f.
Proof.
  intros [Hab Hok] He. destruct (tshift_rep (pt f) s Hok He) as [[_ [V [R1 _]]] _]. unfold pfn, proll, pok. cbn [pa pb pt]. split; [|split; [|split; reflexivity]].
  - rewrite V. replace (x - s * (pb f - pa f) / 2)%R with (x + (- s) * (pb f - pa f) / 2)%R by field. rewrite bwd_shift by exact Hab. f_equal.
  - intros Hr. destruct (R1 Hr) as [A B]. split; [split; assumption|exact B].
Qed.

(** matching lengths *)
Lemma tmatch_correct f g : trig_ok f -> trig_ok g -> exists f' g', tmatch f g = Some (f', g') /\ trig_ok f' /\ trig_ok g' /\
  length (tco f') = Nat.max (length (tco f)) (length (tco g)) /\ length (tco g') = Nat.max (length (tco f)) (length (tco g)) /\
  tre f' = tre f /\ tre g' = tre g /\ (forall x, evalF (tco f') x = evalF (tco f) x) /\ (forall x, evalF (tco g') x = evalF (tco g) x).
Proof.
  intros Hf Hg. unfold tmatch. destruct (Nat.ltb_spec (length (tco g)) (length (tco f))) as [H|H].
  - destruct (trig_obj_prolong g (length (tco f)) Hg ltac:(lia)) as [r [E [Hr [L [T V]]]]]. rewrite E. exists f, r. rewrite L, Nat.max_l by lia. repeat (split; [solve [auto]|]). auto.
  - destruct (Nat.ltb_spec (length (tco f)) (length (tco g))) as [H'|H'].
    + destruct (trig_obj_prolong f (length (tco g)) Hf ltac:(lia)) as [r [E [Hr [L [T V]]]]]. rewrite E. exists r, g. rewrite L, Nat.max_r by lia. repeat (split; [solve [auto]|]). auto.
    + exists f, g. rewrite Nat.max_l by lia. repeat (split; [solve [auto]|]). assert (length (tco g) = length (tco f)) by lia. repeat (split; [solve [auto]|]). auto.
Qed.

(** integrals: change of variables, conjugate symmetry *)
Lemma cint_dom F a b l : (a < b)%R -> cint F (-1) 1 l -> cint (fun x => F (map_bwd a b x)) a b (l * RtoC (/ 2 * (b - a))).
Proof.
  intros Hab [H1 H2]. set (u := (2 / (b - a))%R). set (v := (- (a + b) / (b - a))%R).
  assert (Hba : (b - a <> 0)%R) by lra.
  assert (Eu : forall x, (u * x + v = map_bwd a b x)%R) by (intros x; unfold u, v, map_bwd; field; exact Hba).
  assert (Ea : (u * a + v = -1)%R) by (rewrite Eu; unfold map_bwd; field; exact Hba).
  assert (Eb : (u * b + v = 1)%R) by (rewrite Eu; unfold map_bwd; field; exact Hba).
  assert (G : forall h (m : R), is_RInt h (-1) 1 m -> is_RInt (fun x => h (map_bwd a b x)) a b (m * (/ 2 * (b - a)))%R).
  { intros h m Hm. rewrite <- Ea, <- Eb in Hm. apply (is_RInt_comp_lin (V := R_NormedModule)) in Hm.
    apply (is_RInt_scal (V := R_NormedModule) _ _ _ (/ u)%R) in Hm.
    replace (m * (/ 2 * (b - a)))%R with (/ u * m)%R by (unfold u; field; exact Hba).
    eapply is_RInt_ext; [|exact Hm]. intros x _. cbn. unfold scal, mult. cbn. unfold mult. cbn. rewrite Eu. unfold u. field. exact Hba. }
  unfold cint, Re, Im in *. cbn. split.
  - replace (fst l * (/ 2 * (b - a)) - snd l * 0)%R with (fst l * (/ 2 * (b - a)))%R by ring. exact (G _ _ H1).
  - replace (fst l * 0 + snd l * (/ 2 * (b - a)))%R with (snd l * (/ 2 * (b - a)))%R by ring. exact (G _ _ H2).
Qed.
Lemma cint_unique F a b l l' : cint F a b l -> cint F a b l' -> l = l'.
Proof.
  intros [A1 A2] [B1 B2]. apply injective_projections.
  - assert (X := is_RInt_unique (V := R_CompleteNormedModule) _ _ _ _ A1). assert (Y := is_RInt_unique (V := R_CompleteNormedModule) _ _ _ _ B1). unfold Re in *. congruence.
  - assert (X := is_RInt_unique (V := R_CompleteNormedModule) _ _ _ _ A2). assert (Y := is_RInt_unique (V := R_CompleteNormedModule) _ _ _ _ B2). unfold Im in *. congruence.
Qed.
Lemma cint_real F a b l : cint F a b l -> (forall x, Im (F x) = 0%R) -> l = RtoC (Re l).
Proof.
  intros [_ H] Hr. destruct l as [p q]. unfold Re, Im in *. cbn in *. unfold RtoC. f_equal.
  assert (H0 : is_RInt (fun _ : R => 0%R) a b q) by (eapply is_RInt_ext; [|exact H]; intros; cbn; apply Hr).
  assert (X := is_RInt_unique (V := R_CompleteNormedModule) _ _ _ _ H0). assert (Y := is_RInt_unique (V := R_CompleteNormedModule) _ _ _ _ (is_RInt_const a b 0%R)).
  rewrite Y in X. rewrite <- X. cbn. unfold mult; cbn. ring.
Qed.

Lemma psum_correct f : pok f -> cint (pfn f) (pa f) (pb f) (psum f).
Proof.
  intros [Hab Hok]. unfold psum, pfn, phalf. assert (H := trig_sum_correct (tco (pt f)) (proj1 Hok)).
  destruct (tre (pt f)) eqn:Hr.
  - rewrite <- (cint_real _ _ _ _ H) by (intros x; apply (proj2 (proj2 Hok) Hr)). apply cint_dom; assumption.
  - apply cint_dom; assumption.
Qed.
Lemma pdom_eqb_true f g : pdom_eqb f g = true <-> pa f = pa g /\ pb f = pb g.
Proof. unfold pdom_eqb. rewrite andb_true_iff, !TrigTrans.Reqb_true. tauto. Qed.
Lemma pinner_correct f g : pok f -> pok g ->
  (pa f = pa g /\ pb f = pb g -> exists r, pinner f g = Some r /\ cint (fun x => pfn f x * Cconj (pfn g x)) (pa f) (pb f) r) /\
  (~ (pa f = pa g /\ pb f = pb g) -> pinner f g = None).
Proof.
  intros [Hab Hok] [_ Hog]. unfold pinner. split; intros Hd.
  - rewrite (proj2 (pdom_eqb_true f g) Hd). destruct (trig_inner_correct (tco (pt f)) (tco (pt g)) (proj1 Hok) (proj1 Hog)) as [r [E H]]. rewrite E.
    eexists. split; [reflexivity|]. destruct Hd as [E1 E2]. unfold pfn. rewrite <- E1, <- E2. unfold phalf.
    destruct (andb (tre (pt f)) (tre (pt g))) eqn:Hr; [|apply (cint_dom (fun x => evalF (tco (pt f)) x * Cconj (evalF (tco (pt g)) x))); assumption].
    apply andb_prop in Hr. destruct Hr as [R1 R2]. rewrite <- (cint_real _ _ _ _ H).
    + apply (cint_dom (fun x => evalF (tco (pt f)) x * Cconj (evalF (tco (pt g)) x))); assumption.
    + intros x. assert (A := proj2 (proj2 Hok) R1 x). assert (B := proj2 (proj2 Hog) R2 x). unfold Im in *. cbn. rewrite A, B. ring.
  - destruct (pdom_eqb f g) eqn:E; [apply pdom_eqb_true in E; contradiction|reflexivity].
Qed.

(** derivatives *)
Lemma cderive_dom F a b n x l : (a < b)%R -> (forall k y, exists m, cderive_n F k y m) -> cderive_n F n (map_bwd a b x) l ->
  cderive_n (fun t => F (map_bwd a b t)) n x (l / RtoC ((/ 2 * (b - a)) ^ n)).
Proof.
  intros Hab Hall [H1 H2]. set (u := (2 / (b - a))%R). set (v := (- (a + b) / 2)%R).
  assert (Hba : (b - a <> 0)%R) by lra.
  assert (Eu : forall y, (u * (y + v) = map_bwd a b y)%R) by (intros y; unfold u, v, map_bwd; field; exact Hba).
  assert (Hp : (((/ 2 * (b - a)) ^ n) <> 0)%R) by (apply pow_nonzero; lra).
  assert (Ep : (u ^ n = / (/ 2 * (b - a)) ^ n)%R).
  { rewrite <- pow_inv. f_equal. unfold u. field. exact Hba. }
  assert (G : forall h m, (forall k y, ex_derive_n h k y) -> is_derive_n h n (map_bwd a b x) m -> is_derive_n (fun t => h (map_bwd a b t)) n x (u ^ n * m)).
  { intros h m Hex Hm. apply (is_derive_n_ext (fun t => h (u * (t + v))%R)); [intros t; rewrite Eu; reflexivity|].
    apply (is_derive_n_comp_trans (fun t => h (u * t)%R) n x v). apply is_derive_n_comp_scal; [|rewrite Eu; exact Hm].
    exists (mkposreal 1 Rlt_0_1). intros y _ k _. apply Hex. }
  assert (El : l / RtoC ((/ 2 * (b - a)) ^ n) = RtoC (u ^ n) * l).
  { unfold Cdiv. rewrite <- RtoC_inv by exact Hp. rewrite Ep. ring. }
  rewrite El. unfold cderive_n, Re, Im in *. cbn. split.
  - replace (u ^ n * fst l - 0 * snd l)%R with (u ^ n * fst l)%R by ring. apply (G (fun t => fst (F t))); [|exact H1].
    intros k y. destruct (Hall k y) as [m [M _]]. destruct k as [|k]; [exact I|]. exists (Re m). exact M.
  - replace (u ^ n * snd l + 0 * fst l)%R with (u ^ n * snd l)%R by ring. apply (G (fun t => snd (F t))); [|exact H2].
    intros k y. destruct (Hall k y) as [m [_ M]]. destruct k as [|k]; [exact I|]. exists (Im m). exact M.
Qed.
Lemma derive_zero h n x l : (forall t, h t = 0%R) -> is_derive_n h n x l -> l = 0%R.
Proof.
  intros Hz H. destruct n as [|n]; [cbn in H; rewrite <- H; apply Hz|].
  apply is_derive_n_unique in H. rewrite (Derive_n_ext h (fun _ => 0%R)) in H by exact Hz. rewrite Derive_n_const in H. auto.
Qed.
Lemma pdiff_correct f n x : pok f -> tre (pt f) = true ->
  (Nat.even (length (tco (pt f))) = true -> nth 0 (tco (pt f)) (RtoC 0) = RtoC 0 \/ Nat.even n = true) ->
  cderive_n (pfn f) n x (pfn (pdiff f n) x) /\ pok (pdiff f n) /\ tre (pt (pdiff f n)) = true /\ pa (pdiff f n) = pa f /\ pb (pdiff f n) = pb f.
Proof.
  intros [Hab Hok] Hr He. set (c := tco (pt f)) in *. assert (Hn := proj1 Hok : (1 <= length c)%nat).
  assert (D := fun z => trig_diff_correct c n z Hn He). set (d := tdiff_col c n) in *.
  assert (Hh : hermitian d).
  { intros z. destruct (D z) as [_ [_ H]]. apply (derive_zero _ n z _ (fun t => proj2 (proj2 Hok) Hr t) H). }
  assert (Ld : (1 <= length d)%nat) by (rewrite (proj1 (D 0%R)); exact Hn).
  assert (Hphn : (phalf f ^ n <> 0)%R) by (apply pow_nonzero; unfold phalf; lra).
  set (r := RtoC (phalf f ^ n)).
  destruct (mk_trig_ok d Ld Hh) as [Ok1 _].
  assert (Q : represents (pt (pdiff f n)) (fun z => evalF d z / r) True).
  { unfold pdiff, pset. cbn [pt]. fold c d r. apply (map_rep (fun v => v / r)).
    - exact Ok1.
    - intros z. cbn [mk_trig tco]. unfold Cdiv. apply evalF_map_scal.
    - intros j _. reflexivity.
    - intros _ z. cbn [mk_trig tco]. unfold Cdiv. rewrite evalF_map_scal. unfold r. rewrite <- RtoC_inv by exact Hphn. assert (X := Hh z). unfold Im in *. cbn. rewrite X. ring. }
  destruct Q as [_ [V [Q _]]]. destruct (Q I) as [Q1 Q2]. split; [|split; [split; [exact Hab|exact Q1]|split; [exact Q2|split; reflexivity]]].
  unfold pfn at 2. rewrite V. unfold pdiff, pset. cbn [pa pb]. unfold r, phalf. apply cderive_dom; [exact Hab| |exact (proj2 (D _))].
  intros k y. eexists. apply evalF_derive_all.
Qed.

(** convolution *)
Lemma tconv_correct f g : trig_ok f -> trig_ok g -> tre g = true -> Nat.odd (Nat.max (length (tco f)) (length (tco g))) = true ->
  exists r f' g', tconv f g = Some (r, f', g') /\ trig_ok f' /\ trig_ok g' /\ tre f' = tre f /\ tre g' = tre g /\
    (forall x, evalF (tco f') x = evalF (tco f) x) /\ (forall x, evalF (tco g') x = evalF (tco g) x) /\
    (1 <= length (tco r))%nat /\
    (forall x, cint (fun t => evalF (tco f) (x - t) * evalF (tco g) t) (-1) 1 (evalF (tco r) x)) /\
    (tre f = true -> trig_ok r /\ tre r = true).
Proof.
  intros Hf Hg Rg Ho. destruct (tmatch_correct f g Hf Hg) as [f' [g' [E [Hf' [Hg' [Lf [Lg [Tf [Tg [Vf Vg]]]]]]]]]].
  unfold tconv. rewrite E. assert (Of : Nat.odd (length (tco f')) = true) by (rewrite Lf; exact Ho).
  assert (Og : Nat.even (length (tco g')) = true -> nth 0 (tco g') (RtoC 0) = RtoC 0).
  { intros X. exfalso. rewrite Lg in X. rewrite <- Nat.negb_even, X in Ho. discriminate. }
  destruct (tshift_rep g' (-1) Hg' Og) as [[_ [_ [R1 _]]] _]. destruct (R1 (eq_trans Tg Rg)) as [Hs Ts]. rewrite Ts, andb_true_r, Tf.
  assert (Cs : tco (tshift g' (-1)) = circshift_col (tco g') (-1)).
  { unfold tshift. unfold circshift_col. destruct (Reqb (-1) 0) eqn:Z; [reflexivity|reflexivity]. }
  rewrite (proj1 (proj2 Hf')), (proj1 (proj2 Hs)), Cs.
  set (v := circconv_vals _ _). assert (Ec : vals2coeffs1 v = circconv_col (tco f') (tco g')) by reflexivity.
  assert (V := fun x => trig_conv_correct (tco f') (tco g') x Of ltac:(lia)). rewrite <- Ec in V. set (c := vals2coeffs1 v) in *.
  assert (Lc : length c = length (tco f')).
  { rewrite Ec, circconv_coeffs; [apply mk_length| |lia]. apply (proj1 Hf'). }
  assert (Ev : v = coeffs2vals1 c) by (unfold c; symmetry; apply trig_v2c_c2v).
  assert (Hh : tre f = true -> hermitian c).
  { intros Hr x. assert (Q := cint_real _ _ _ _ (V x)). rewrite Q; [reflexivity|]. intros t. rewrite Vf, Vg.
    assert (A := proj2 (proj2 Hf) Hr (x - t)%R). assert (B := proj2 (proj2 Hg) Rg t). unfold Im in *. cbn. rewrite A, B. ring. }
  assert (Er : realvals (tre f) v = v).
  { apply realvals_id. intros Hr j Hj. rewrite Ev in *. rewrite coeffs2vals1_length in Hj. rewrite trig_values_correct by exact Hj. apply Hh, Hr. }
  rewrite Er. exists (mk_trig v c), f', g'. split; [reflexivity|]. repeat (split; [assumption|]).
  split; [cbn [mk_trig tco]; rewrite Lc; apply (proj1 Hf')|]. split.
  { intros x. cbn [mk_trig tco]. eapply cint_ext; [|exact (V x)]. intros t. cbn beta. rewrite Vf, Vg. reflexivity. }
  intros Hr. rewrite Ev. apply mk_trig_ok; [rewrite Lc; apply (proj1 Hf')|exact (Hh Hr)].
Qed.

Lemma pconvolve_correct f g : pok f -> pok g -> pa f = pa g -> pb f = pb g -> tre (pt g) = true ->
  Nat.odd (Nat.max (length (tco (pt f))) (length (tco (pt g)))) = true ->
  exists r f' g', pconvolve f g = Some (r, f', g') /\ pa r = pa f /\ pb r = pb f /\
    (pok f' /\ pok g' /\ (forall x, pfn f' x = pfn f x) /\ (forall x, pfn g' x = pfn g x)) /\
    (forall x, cint (fun t => pfn f (x - t + (pa f + pb f) / 2) * pfn g t) (pa f) (pb f) (pfn r x)) /\
    (tre (pt f) = true -> pok r /\ tre (pt r) = true).
Proof.
  intros [Hab Hf] [_ Hg] Ea Eb Rg Ho. unfold pconvolve. rewrite (proj2 (pdom_eqb_true f g) (conj Ea Eb)).
  destruct (tconv_correct _ _ Hf Hg Rg Ho) as [r [f' [g' [E [Hf' [Hg' [Tf [Tg [Vf [Vg [Lr [V R1]]]]]]]]]]]]. rewrite E.
  exists (pset f (tmul_num r (RtoC (phalf f)))), (pset f f'), (pset g g'). split; [reflexivity|]. split; [reflexivity|]. split; [reflexivity|].
  split. { split; [split; assumption|]. split; [split; [cbn; lra|assumption]|]. unfold pfn, pset. cbn [pa pb pt]. split; intros; [apply Vf|apply Vg]. }
  split.
  - intros x. unfold pfn at 3. unfold pset, tmul_num. cbn [pt pa pb mk_trig tco]. rewrite evalF_map_scal.
    assert (H := V (map_bwd (pa f) (pb f) x)). apply (cint_dom _ (pa f) (pb f)) in H; [|exact Hab].
    eapply cint_ext; [|exact H]. intros t. cbn beta. unfold pfn. rewrite <- Ea, <- Eb. f_equal. f_equal. unfold map_bwd. field. lra.
  - intros Hr. destruct (R1 Hr) as [A B]. destruct (trig_mul_num_correct r (RtoC (phalf f)) A) as [_ [_ [Q _]]]. destruct (Q (conj B eq_refl)) as [Q1 Q2].
    unfold pset, pok. cbn [pa pb pt]. auto.
Qed.

(** adhesion: the kernel's Fourier coefficients w_k = int w(r) e^(2 pi i k r / (b-a)) dr are handed over as a function *)
Lemma padhesion_correct f g w p q : pok f -> trig_ok (pt g) ->
  Nat.odd (Nat.max (length (tco (pt f))) (length (tco (pt g)))) = true ->
  (forall z, (2 * Z.abs z < Z.of_nat (Nat.max (length (tco (pt f))) (length (tco (pt g)))))%Z ->
     cint (fun r => RtoC (w r) * cis (2 * PI * IZR z * r / (pb f - pa f))) p q (coef (tco (pt g)) z)) ->
  exists r f' g', padhesion f g = Some (r, f', g') /\ pa r = pa f /\ pb r = pb f /\
    (pok f' /\ (forall x, pfn f' x = pfn f x) /\ (forall x, pfn g' x = pfn g x)) /\
    (forall x, cint (fun s => pfn f (x + s) * RtoC (w s)) p q (pfn r x)) /\
    (tre (pt f) = true -> pok r /\ tre (pt r) = true).
Proof.
  intros [Hab Hf] Hg Ho Hw. unfold padhesion.
  destruct (tmatch_correct _ _ Hf Hg) as [f' [g' [E [Hf' [Hg' [Lf [Lg [Tf [Tg [Vf Vg]]]]]]]]]]. rewrite E.
  set (n := Nat.max (length (tco (pt f))) (length (tco (pt g)))) in *. rewrite Lf. set (c := mk n _). assert (Lc : length c = n) by apply mk_length.
  assert (A := odd_half _ Ho).
  assert (Hcg : forall z, coef (tco g') z = coef (tco (pt g)) z).
  { intros z. unfold tmatch in E. destruct (Nat.ltb _ _) eqn:E1.
    - unfold tprolong in E. destruct (Nat.eqb _ _); [injection E as _ <-; reflexivity|].
      apply Nat.ltb_lt in E1. destruct (prolong_up_coef (tco (pt g)) (length (tco (pt f))) ltac:(split; [apply (proj1 Hg)|lia])) as [d [Ed [_ Hd]]]. rewrite Ed in E. injection E as _ <-. apply Hd.
    - destruct (Nat.ltb (length (tco (pt f))) _); [destruct (tprolong _ _); [|discriminate]|]; injection E as _ <-; reflexivity. }
  assert (V : forall y, cint (fun s => evalF (tco f') (y + 2 * s / (pb f - pa f)) * RtoC (w s)) p q (evalF c y)).
  { intros y. apply (cint_ext (fun s => csum n (fun k => nth k (tco f') C0 * cis (PI * IZR (freq n k) * y) * (RtoC (w s) * cis (2 * PI * IZR (freq n k) * s / (pb f - pa f)))))).
    { intros s. rewrite evalF_odd by (rewrite Lf; exact Ho). rewrite Lf, <- csum_scal_r. apply csum_ext. intros k _.
      replace (PI * IZR (freq n k) * (y + 2 * s / (pb f - pa f)))%R with (PI * IZR (freq n k) * y + 2 * PI * IZR (freq n k) * s / (pb f - pa f))%R by (field; lra). rewrite cis_plus. ring. }
    rewrite (evalF_odd c) by (rewrite Lc; exact Ho). rewrite Lc.
    assert (Es : csum n (fun k => nth k c C0 * cis (PI * IZR (freq n k) * y)) = csum n (fun k => nth k (tco f') C0 * cis (PI * IZR (freq n k) * y) * nth k (tco g') C0)).
    { apply csum_ext. intros k Hk. unfold c. rewrite nth_mk by exact Hk. ring. }
    rewrite Es. apply cint_csum. intros k Hk. apply cint_scal. assert (Hz := Hw (freq n k) ltac:(unfold freq; lia)). rewrite <- Hcg in Hz.
    rewrite coef_odd in Hz by (rewrite ?Lg; try exact Ho; unfold freq; lia). rewrite Lg in Hz. replace (Z.to_nat (freq n k + Z.of_nat (n / 2))) with k in Hz by (unfold freq; lia). exact Hz. }
  exists (pset f (mk_trig (realvals (tre f' && tre g') (coeffs2vals1 c)) c)), (pset f f'), (pset g g'). split; [reflexivity|]. split; [reflexivity|]. split; [reflexivity|].
  split. { split; [split; assumption|]. unfold pfn, pset. cbn [pa pb pt]. split; intros; [apply Vf|apply Vg]. }
  assert (Hh : tre (pt f) = true -> hermitian c).
  { intros Hr y. assert (Q := cint_real _ _ _ _ (V y)). rewrite Q; [reflexivity|]. intros s. rewrite Vf. assert (X := proj2 (proj2 Hf) Hr (y + 2 * s / (pb f - pa f))%R). unfold Im in *. cbn. rewrite X. ring. }
  split.
  - intros x. unfold pfn at 2. unfold pset. cbn [pt pa pb mk_trig tco]. eapply cint_ext; [|apply V]. intros s. cbn beta. unfold pfn. rewrite Vf. f_equal. f_equal. unfold map_bwd. field. lra.
  - intros Hr. unfold pset, pok. cbn [pa pb pt]. rewrite realvals_id.
    + destruct (mk_trig_ok c ltac:(rewrite Lc; assert (X := proj1 Hf); unfold n; lia) (Hh Hr)) as [X Y]. auto.
    + intros _ j. rewrite coeffs2vals1_length. intros Hj. rewrite trig_values_correct by exact Hj. apply (Hh Hr).
Qed.
