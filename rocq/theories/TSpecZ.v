(** Trigonometric polynomials as finitely supported coefficient functions Z -> C:
    products, derivatives, integrals, the non-local operator. *)
From Coq Require Import Reals ZArith List Arith Lia Lra Bool.
From Coquelicot Require Import Coquelicot.
From Verif Require Import Base ToolsProofs TrigSpec TrigBase TrigModel TrigTrans TrigEval TrigCalc TrigCalc2 TSpecSpec.
Import ListNotations.
Open Scope R_scope.
Open Scope C_scope.

Definition zsum (M : nat) (f : Z -> C) : C := csum (2 * M + 1) (fun k => f (Z.of_nat k - Z.of_nat M)%Z).
Lemma zsum_ext M f g : (forall z, (Z.abs z <= Z.of_nat M)%Z -> f z = g z) -> zsum M f = zsum M g.
Proof. intros H. apply csum_ext. intros k Hk. apply H. lia. Qed.
Lemma zsum_plus M f g : zsum M (fun z => f z + g z) = zsum M f + zsum M g.
Proof. apply csum_plus. Qed.
Lemma zsum_scal M a f : zsum M (fun z => a * f z) = a * zsum M f.
Proof. apply csum_scal. Qed.
Lemma zsum_scal_r M a f : zsum M (fun z => f z * a) = zsum M f * a.
Proof. apply csum_scal_r. Qed.
Lemma zsum_zero M f : (forall z, (Z.abs z <= Z.of_nat M)%Z -> f z = RtoC 0) -> zsum M f = RtoC 0.
Proof. intros H. apply csum_zero. intros k Hk. apply H. lia. Qed.
Lemma zsum_single M f z0 : (Z.abs z0 <= Z.of_nat M)%Z -> (forall z, (Z.abs z <= Z.of_nat M)%Z -> z <> z0 -> f z = RtoC 0) -> zsum M f = f z0.
Proof.
  intros H0 H. unfold zsum. rewrite (csum_single _ _ (Z.to_nat (z0 + Z.of_nat M))); [f_equal; lia|lia|]. intros j Hj Hn. apply H; lia.
Qed.
Lemma zsum_swap M K f : zsum M (fun z => zsum K (fun w => f z w)) = zsum K (fun w => zsum M (fun z => f z w)).
Proof. unfold zsum. apply csum_swap. Qed.
(** shifting the support *)
Lemma zsum_shift M K y h : (Z.abs y <= Z.of_nat K)%Z -> (forall w, (Z.of_nat M < Z.abs w)%Z -> h w = RtoC 0) ->
  zsum (M + K) (fun z => h (z - y)%Z) = zsum M h.
Proof.
  intros Hy Hh. unfold zsum. set (p := Z.to_nat (Z.of_nat K + y)). set (q := Z.to_nat (Z.of_nat K - y)).
  replace (2 * (M + K) + 1)%nat with (p + ((2 * M + 1) + q))%nat by (unfold p, q; lia).
  rewrite (csum_app p), (csum_app (2 * M + 1)).
  rewrite (csum_zero p) by (intros k Hk; apply Hh; unfold p in Hk; lia).
  rewrite (csum_zero q) by (intros k Hk; apply Hh; unfold p; lia).
  rewrite Cplus_0_l, Cplus_0_r. apply csum_ext. intros k Hk. f_equal. unfold p. lia.
Qed.
Lemma zsum_extend M K h : (forall w, (Z.of_nat M < Z.abs w)%Z -> h w = RtoC 0) -> zsum (M + K) h = zsum M h.
Proof.
  intros Hh. rewrite <- (zsum_shift M K 0 h) by (try exact Hh; lia). apply zsum_ext. intros z _. f_equal. lia.
Qed.

Definition supp (M : nat) (g : Z -> C) : Prop := forall z, (Z.of_nat M < Z.abs z)%Z -> g z = RtoC 0.
Definition ez (a b : R) (z : Z) (x : R) : C := cis (PI * IZR z * tphi a b x).
(** [hasZ a b u M g]: u has the coefficients g (supported in |z| <= M) on [a,b] *)
Definition hasZ (a b : R) (u : R -> C) (M : nat) (g : Z -> C) : Prop := supp M g /\ forall x, u x = zsum M (fun z => g z * ez a b z x).

Lemma ez_plus a b z w x : ez a b (z + w) x = ez a b z x * ez a b w x.
Proof. unfold ez. rewrite <- cis_plus, plus_IZR. f_equal. ring. Qed.
Lemma ez_0 a b x : ez a b 0 x = RtoC 1.
Proof. unfold ez. rewrite Rmult_0_r, Rmult_0_l. apply cis_0. Qed.

Lemma supp_coef c : supp (length c / 2) (coef c).
Proof. intros z Hz. apply coef_big. exact Hz. Qed.
Lemma hasZ_tfun a b c : (1 <= length c)%nat -> hasZ a b (tfun a b c) (length c / 2) (coef c).
Proof. intros Hc. split; [apply supp_coef|]. intros x. unfold tfun. rewrite (evalF_coef c (length c / 2)) by lia. reflexivity. Qed.
Lemma hasZ_weaken a b u M M' g : (M <= M')%nat -> hasZ a b u M g -> hasZ a b u M' g.
Proof.
  intros HM [S E]. split; [intros z Hz; apply S; lia|]. intros x. rewrite E. replace M' with (M + (M' - M))%nat by lia. symmetry. apply zsum_extend.
  intros w Hw. rewrite S by exact Hw. ring.
Qed.
Lemma hasZ_ext a b u v M g h : (forall x, u x = v x) -> (forall z, g z = h z) -> hasZ a b u M g -> hasZ a b v M h.
Proof. intros Hu Hg [S E]. split; [intros z Hz; rewrite <- Hg; apply S; exact Hz|]. intros x. rewrite <- Hu, E. apply zsum_ext. intros z _. rewrite Hg. reflexivity. Qed.
Lemma hasZ_plus a b u v M g h : hasZ a b u M g -> hasZ a b v M h -> hasZ a b (fun x => u x + v x) M (fun z => g z + h z).
Proof.
  intros [S E] [S' E']. split; [intros z Hz; rewrite S, S' by exact Hz; ring|]. intros x. rewrite E, E', <- zsum_plus. apply zsum_ext. intros z _. ring.
Qed.
Lemma hasZ_zero a b M : hasZ a b (fun _ => RtoC 0) M (fun _ => RtoC 0).
Proof. split; [intros z _; reflexivity|]. intros x. symmetry. apply zsum_zero. intros z _. ring. Qed.
Lemma hasZ_scal a b s u M g : hasZ a b u M g -> hasZ a b (fun x => s * u x) M (fun z => s * g z).
Proof. intros [S E]. split; [intros z Hz; rewrite S by exact Hz; ring|]. intros x. rewrite E, <- zsum_scal. apply zsum_ext. intros z _. ring. Qed.
(** coefficients of a product *)
Definition conv (K : nat) (f g : Z -> C) (z : Z) : C := zsum K (fun w => f (z - w)%Z * g w).
Lemma hasZ_mul a b u v M K f g : hasZ a b u M f -> hasZ a b v K g -> hasZ a b (fun x => u x * v x) (M + K) (conv K f g).
Proof.
  intros [S E] [S' E']. split.
  - intros z Hz. apply zsum_zero. intros w Hw. rewrite S by lia. ring.
  - intros x. rewrite E, E'. rewrite <- zsum_scal.
    transitivity (zsum K (fun w => zsum (M + K) (fun z => f (z - w)%Z * g w * ez a b z x))).
    + apply zsum_ext. intros w Hw. rewrite <- (zsum_shift M K w (fun z => f z * ez a b z x)).
      * rewrite <- zsum_scal_r. apply zsum_ext. intros z Hz. assert (Ez : ez a b z x = ez a b (z - w) x * ez a b w x) by (rewrite <- ez_plus; f_equal; lia). rewrite Ez. ring.
      * exact Hw.
      * intros y Hy. rewrite S by exact Hy. ring.
    + rewrite zsum_swap. apply zsum_ext. intros z _. unfold conv. rewrite <- zsum_scal_r. reflexivity.
Qed.
(** derivatives *)
Definition omega (a b : R) (z : Z) : R := (PI * IZR z * (2 / (b - a)))%R.
Lemma ez_form a b z x : a < b -> ez a b z x = cis (omega a b z * x - PI * IZR z * ((a + b) / (b - a))).
Proof. intros H. unfold ez, tphi, omega. f_equal. field. lra. Qed.
Lemma hasZ_der a b u M g j : a < b -> hasZ a b u M g -> hasZ a b (cder u j) M (fun z => cpow (Ci * RtoC (omega a b z)) j * g z).
Proof.
  intros Hab [S E]. split; [intros z Hz; rewrite S by exact Hz; ring|]. intros x.
  set (F := fun (i : nat) (t : R) => zsum M (fun z => cpow (Ci * RtoC (omega a b z)) i * g z * ez a b z t)).
  assert (D : forall n t, is_derive (fun t => Re (F n t)) t (Re (F (Datatypes.S n) t)) /\ is_derive (fun t => Im (F n t)) t (Im (F (Datatypes.S n) t))).
  { intros n t. unfold F, zsum. set (f := fun (i k : nat) (t : R) => cpow (Ci * RtoC (omega a b (Z.of_nat k - Z.of_nat M))) i * g (Z.of_nat k - Z.of_nat M)%Z * ez a b (Z.of_nat k - Z.of_nat M) t).
    apply (csum_derive _ (f n) (f (Datatypes.S n))). unfold f. clear f. intros k. set (z := (Z.of_nat k - Z.of_nat M)%Z). cbn [cpow].
    replace (Ci * RtoC (omega a b z) * cpow (Ci * RtoC (omega a b z)) n * g z * ez a b z t) with
            (cpow (Ci * RtoC (omega a b z)) n * g z * (Ci * RtoC (omega a b z) * ez a b z t)) by ring.
    apply cmul_derive. rewrite (ez_form a b z t Hab). set (w := omega a b z). set (c := (PI * IZR z * ((a + b) / (b - a)))%R).
    split.
    - apply (is_derive_ext (fun t : R => cos (w * t - c))); [intros s; rewrite ez_form by exact Hab; reflexivity|].
      unfold Re, cis. cbn. auto_derive; [exact I|]. fold w c. unfold Rminus. ring.
    - apply (is_derive_ext (fun t : R => sin (w * t - c))); [intros s; rewrite ez_form by exact Hab; reflexivity|].
      unfold Im, cis. cbn. auto_derive; [exact I|]. fold w c. unfold Rminus. ring. }
  destruct (cfamily_derive F D j x) as [D1 D2]. assert (F0 : forall t, u t = F 0%nat t).
  { intros t. rewrite E. unfold F. apply zsum_ext. intros z _. cbn [cpow]. ring. }
  unfold cder. rewrite (Derive_n_ext _ (fun t => Re (F 0%nat t))) by (intros; rewrite F0; reflexivity).
  rewrite (Derive_n_ext (fun t => Im (u t)) (fun t => Im (F 0%nat t))) by (intros; rewrite F0; reflexivity).
  rewrite (is_derive_n_unique _ _ _ _ D1), (is_derive_n_unique _ _ _ _ D2). unfold F, Re, Im. destruct (zsum M _); reflexivity.
Qed.

(** integral over the period *)
Lemma cint_unique f p q l : cint f p q l -> cRInt f p q = l.
Proof.
  intros [H1 H2]. unfold cRInt. rewrite (is_RInt_unique (V := R_CompleteNormedModule) _ _ _ _ H1), (is_RInt_unique (V := R_CompleteNormedModule) _ _ _ _ H2).
  destruct l; reflexivity.
Qed.
Lemma cint_exp (w c p q : R) : w <> 0%R -> cint (fun t => cis (w * t - c)) p q (RtoC (/ w) * (- Ci) * (cis (w * q - c) - cis (w * p - c))).
Proof.
  intros Hw. unfold cint, cis, Re, Im. cbn. split.
  - evar_last. 1: apply (is_RInt_derive (fun t => sin (w * t - c) / w)%R).
    + intros x _. auto_derive; [exact I|]. unfold Rminus. field. exact Hw.
    + intros x _. apply (ex_derive_continuous (K := R_AbsRing) (V := R_NormedModule)). auto_derive. exact I.
    + unfold minus, plus, opp. cbn. field. exact Hw.
  - evar_last. 1: apply (is_RInt_derive (fun t => - cos (w * t - c) / w)%R).
    + intros x _. auto_derive; [exact I|]. unfold Rminus. field. exact Hw.
    + intros x _. apply (ex_derive_continuous (K := R_AbsRing) (V := R_NormedModule)). auto_derive. exact I.
    + unfold minus, plus, opp. cbn. field. exact Hw.
Qed.
Lemma cint_const (c : C) p q : cint (fun _ => c) p q (RtoC (q - p) * c).
Proof. split; cbn; evar_last; try apply (is_RInt_const (V := R_NormedModule)); unfold scal; cbn; unfold mult; cbn; destruct c; cbn; ring. Qed.
Lemma omega_neq a b z : a < b -> z <> 0%Z -> omega a b z <> 0%R.
Proof.
  intros H Hz. assert (HP := PI_RGT_0). assert (Hz' : IZR z <> 0%R) by (intros E; apply Hz, eq_IZR, E). unfold omega.
  apply Rmult_integral_contrapositive. split; [apply Rmult_integral_contrapositive; split; [lra|exact Hz']|]. apply Rgt_not_eq. apply Rdiv_lt_0_compat; lra.
Qed.
Lemma cint_ez a b z : a < b -> cint (ez a b z) a b (if Z.eqb z 0 then RtoC (b - a) else RtoC 0).
Proof.
  intros H. destruct (Z.eqb_spec z 0) as [->|Hz].
  - apply (cint_ext (fun _ => RtoC 1)); [intros x; symmetry; apply ez_0|]. replace (RtoC (b - a)) with (RtoC (b - a) * RtoC 1) by ring. apply cint_const.
  - apply (cint_ext (fun t => cis (omega a b z * t - PI * IZR z * ((a + b) / (b - a))))); [intros x; symmetry; apply ez_form; exact H|].
    assert (E := cint_exp (omega a b z) (PI * IZR z * ((a + b) / (b - a))) a b (omega_neq a b z H Hz)).
    rewrite (cis_cong _ (omega a b z * a - PI * IZR z * ((a + b) / (b - a)))%R z) in E by (unfold omega; field; lra).
    replace (RtoC 0) with (RtoC (/ omega a b z) * - Ci * (cis (omega a b z * a - PI * IZR z * ((a + b) / (b - a))) - cis (omega a b z * a - PI * IZR z * ((a + b) / (b - a))))) by ring.
    exact E.
Qed.

Lemma hasZ_int a b u M g : a < b -> hasZ a b u M g -> cint u a b (RtoC (b - a) * g 0%Z).
Proof.
  intros H [S E]. apply (cint_ext (fun x => zsum M (fun z => g z * ez a b z x))); [intros x; symmetry; apply E|].
  replace (RtoC (b - a) * g 0%Z) with (zsum M (fun z => g z * (if Z.eqb z 0 then RtoC (b - a) else RtoC 0))).
  - unfold zsum. apply cint_csum. intros k _. apply cint_scal. apply cint_ez. exact H.
  - rewrite (zsum_single M _ 0); [cbn [Z.eqb]; ring|lia|]. intros z _ Hz. destruct (Z.eqb_spec z 0); [contradiction|ring].
Qed.
(** the non-local operator *)
Definition nlsym (a b : R) (z : Z) : C := if Z.eqb z 0 then RtoC 0 else Ci * RtoC ((1 - cos (omega a b z)) / omega a b z).
Lemma nonlocal_mode a b z x : a < b -> cint (fun r => ez a b z (x + r) - ez a b z (x - r)) 0 1 (RtoC 2 * nlsym a b z * ez a b z x).
Proof.
  intros H. unfold nlsym. destruct (Z.eqb_spec z 0) as [->|Hz].
  - apply (cint_ext (fun _ => RtoC 0)); [intros r; rewrite !ez_0; ring|]. replace (RtoC 2 * RtoC 0 * ez a b 0 x) with (RtoC (1 - 0) * RtoC 0) by ring. apply cint_const.
  - set (w := omega a b z). assert (Hw : w <> 0%R) by (apply omega_neq; assumption).
    set (e := ez a b z x).
    assert (E1 : forall r, ez a b z (x + r) - ez a b z (x - r) = e * (cis (w * r - 0) + (- RtoC 1) * cis ((- w) * r - 0))).
    { intros r. unfold e. rewrite !ez_form by exact H. fold w. set (c := (PI * IZR z * ((a + b) / (b - a)))%R).
      replace (w * (x + r) - c)%R with ((w * x - c) + (w * r - 0))%R by ring. replace (w * (x - r) - c)%R with ((w * x - c) + (- w * r - 0))%R by ring. rewrite !cis_plus. ring. }
    apply (cint_ext (fun r => e * (cis (w * r - 0) + (- RtoC 1) * cis ((- w) * r - 0)))); [intros r; symmetry; apply E1|].
    replace (RtoC 2 * (Ci * RtoC ((1 - cos w) / w)) * e) with (e * (RtoC (/ w) * - Ci * (cis (w * 1 - 0) - cis (w * 0 - 0)) + - RtoC 1 * (RtoC (/ - w) * - Ci * (cis (- w * 1 - 0) - cis (- w * 0 - 0))))).
    + apply cint_scal. set (f1 := fun r => cis (w * r - 0)). set (f2 := fun r => - RtoC 1 * cis (- w * r - 0)).
      assert (A := cint_exp w 0 0 1 Hw). assert (B := cint_scal (- RtoC 1) _ _ _ _ (cint_exp (- w) 0 0 1 (Ropp_neq_0_compat w Hw))).
      destruct A as [A1 A2]. destruct B as [B1 B2]. split.
      * apply (is_RInt_plus (V := R_NormedModule) (fun t => Re (f1 t)) (fun t => Re (f2 t))); assumption.
      * apply (is_RInt_plus (V := R_NormedModule) (fun t => Im (f1 t)) (fun t => Im (f2 t))); assumption.
    + replace (w * 1 - 0)%R with w by ring. replace (- w * 1 - 0)%R with (- w)%R by ring. replace (w * 0 - 0)%R with 0%R by ring. replace (- w * 0 - 0)%R with 0%R by ring.
      rewrite cis_0. unfold cis. rewrite cos_neg, sin_neg. clearbody e. destruct e as [e1 e2]. apply injective_projections; cbn; field; exact Hw.
Qed.
Lemma hasZ_nonlocal a b u M g : a < b -> hasZ a b u M g -> hasZ a b (nonlocal u) M (fun z => nlsym a b z * g z).
Proof.
  intros H [S E]. split; [intros z Hz; rewrite S by exact Hz; ring|]. intros x. unfold nonlocal.
  rewrite (cint_unique _ 0 1 (zsum M (fun z => g z * (RtoC 2 * nlsym a b z * ez a b z x)))).
  - rewrite <- zsum_scal. apply zsum_ext. intros z _. replace (RtoC (/ 2) * (g z * (RtoC 2 * nlsym a b z * ez a b z x))) with ((RtoC (/ 2) * RtoC 2) * (nlsym a b z * g z * ez a b z x)) by ring.
    replace (RtoC (/ 2) * RtoC 2) with (RtoC 1) by (rewrite <- RtoC_mult; f_equal; field). ring.
  - apply (cint_ext (fun r => zsum M (fun z => g z * (ez a b z (x + r) - ez a b z (x - r))))).
    + intros r. rewrite !E. replace (zsum M (fun z => g z * ez a b z (x + r)) - zsum M (fun z => g z * ez a b z (x - r)))
        with (zsum M (fun z => g z * ez a b z (x + r)) + (- RtoC 1) * zsum M (fun z => g z * ez a b z (x - r))) by ring.
      rewrite <- zsum_scal, <- zsum_plus. apply zsum_ext. intros z _. ring.
    + unfold zsum. apply cint_csum. intros k _. apply cint_scal. apply nonlocal_mode. exact H.
Qed.
(** a list with given coefficients *)
Definition of_coefs (M : nat) (g : Z -> C) : list C := mk (2 * M + 1) (fun k => g (Z.of_nat k - Z.of_nat M)%Z).
Lemma of_coefs_half M g : (length (of_coefs M g) / 2 = M)%nat.
Proof. unfold of_coefs. rewrite mk_length. replace (2 * M + 1)%nat with (1 + M * 2)%nat by lia. rewrite Nat.div_add by lia. reflexivity. Qed.
Lemma coef_of_coefs M g z : supp M g -> coef (of_coefs M g) z = g z.
Proof.
  intros S. destruct (Z_lt_le_dec (Z.of_nat M) (Z.abs z)) as [H|H].
  - rewrite S by exact H. apply coef_big. rewrite of_coefs_half. exact H.
  - rewrite coef_odd; rewrite ?of_coefs_half; [|unfold of_coefs; rewrite mk_length; rewrite Nat.odd_add, Nat.odd_mul; reflexivity|exact H].
    unfold of_coefs. rewrite nth_mk by lia. f_equal. lia.
Qed.
Lemma hasZ_list a b u M g : hasZ a b u M g -> forall x, u x = tfun a b (of_coefs M g) x.
Proof.
  intros [S E] x. rewrite E. unfold tfun. rewrite (evalF_coef _ M) by (rewrite ?of_coefs_half; unfold of_coefs; rewrite ?mk_length; lia).
  unfold zsum, term, ez. apply csum_ext. intros k _. rewrite coef_of_coefs by exact S. reflexivity.
Qed.
