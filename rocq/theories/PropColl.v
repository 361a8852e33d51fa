(** Collocation differentiation matrices and objects (C147-C149). *)
From Coq Require Import Reals ZArith List Arith Bool Lra Lia.
From Coquelicot Require Import Coquelicot.
From Verif Require Import Base ChebSpec ChebMath ChebModel ChebModel2 ChebModel3 ChebEval ChebCalc ChebDct ChebBary TrigSpec TrigBase TrigModel TrigTrans TrigCalc TrigCalc2 CollModel TcolProofs TcolClosed TcolMat.
Import ListNotations.
Open Scope R_scope.

(** matrix row j times the values of the trigonometric polynomial c at the n grid points *)
Definition applyF (D : mat) (c : list C) (j : nat) : C := csum (length c) (fun i => Cmult (RtoC (D j i)) (evalF c (gridpt (length c) i))).
Lemma applyF_eye c j : (j < length c)%nat -> applyF meye c j = evalF c (gridpt (length c) j).
Proof.
  intros H. unfold applyF, meye. rewrite (csum_single _ _ j H); [rewrite Nat.eqb_refl; ring|]. intros i _ Hi. destruct (Nat.eqb_spec j i); [congruence|ring].
Qed.
Lemma cderive_0 f x : cderive_n f 0 x (f x). Proof. split; reflexivity. Qed.
Lemma cderive_unique f n x l l' : cderive_n f n x l -> cderive_n f n x l' -> l = l'.
Proof.
  intros [A B] [A' B']. apply is_derive_n_unique in A, B, A', B'. apply injective_projections; unfold Re, Im in *; congruence.
Qed.
Definition unitC (n k : nat) : list C := mk n (fun i => if Nat.eqb i k then RtoC 1 else RtoC 0).
Lemma unitC_sum n k (g : nat -> C) : (k < n)%nat -> csum n (fun i => Cmult (nth i (unitC n k) C0) (g i)) = g k.
Proof.
  intros H. rewrite (csum_single _ _ k H); unfold unitC, C0.
  - rewrite nth_mk by exact H. rewrite Nat.eqb_refl. ring.
  - intros i Hi Hne. rewrite nth_mk by exact Hi. destruct (Nat.eqb_spec i k); [congruence|ring].
Qed.
Lemma unitC_length n k : length (unitC n k) = n. Proof. apply mk_length. Qed.
Lemma evalF_unit n k x : (k < n)%nat -> evalF (unitC n k) x = mode n k x.
Proof. intros H. unfold evalF. rewrite unitC_length. apply (unitC_sum n k (fun i => mode n i x) H). Qed.

(** ** C147 *)
(** C147: orders 0, 1, 2: the matrix maps the values of every trigonometric polynomial with n coefficients to the values of its derivative *)
Theorem C147_orders_partial : forall c m j, (2 <= length c)%nat -> (m <= 2)%nat -> (j < length c)%nat ->
  exists D, tc_diffmat (length c) m = DMat D /\
    cderive_n (evalF c) m (gridpt (length c) j) (csum (length c) (fun i => Cmult (RtoC (D j i)) (evalF c (gridpt (length c) i)))).
Proof.
  intros c m j Hn Hm Hj. set (n := length c) in *.
  assert (E : exists D, tc_diffmat n m = DMat D).
  { unfold tc_diffmat. destruct (Nat.eqb_spec n 0); [lia|]. destruct (Nat.eqb_spec n 1); [lia|]. destruct m as [|[|[|m]]]; [eexists; reflexivity..|lia]. }
  destruct E as [D E]. exists D. split; [exact E|]. destruct (Nat.eq_dec m 0) as [->|Hm0].
  - assert (ED : D = meye). { unfold tc_diffmat in E. destruct (Nat.eqb_spec n 0); [lia|]. destruct (Nat.eqb_spec n 1); [lia|]. congruence. }
    rewrite ED. change (csum n (fun i => Cmult (RtoC (meye j i)) (evalF c (gridpt n i)))) with (applyF meye c j). rewrite applyF_eye by exact Hj. apply cderive_0.
  - destruct (tc_entries n m D Hn ltac:(lia) E) as [_ H]. apply row_derive; fold n; [lia|]. intros i Hi. rewrite H by assumption. destruct (Nat.eqb_spec m 3); [lia|]. unfold th. ring.
Qed.
Print Assumptions C147_orders_partial.
(** order 3: the result is minus the third derivative, for every trigonometric polynomial; for n >= 3 it is wrong for cis(pi x) *)
Theorem C147_third_refuted : forall n, (2 <= n)%nat -> exists D, tc_diffmat n 3 = DMat D /\
  (forall c j, length c = n -> (j < n)%nat -> cderive_n (evalF c) 3 (gridpt n j) (Copp (csum n (fun i => Cmult (RtoC (D j i)) (evalF c (gridpt n i)))))) /\
  ((3 <= n)%nat -> exists c, length c = n /\ (forall x, evalF c x = cis (PI * x)) /\
     forall j, (j < n)%nat -> ~ cderive_n (evalF c) 3 (gridpt n j) (csum n (fun i => Cmult (RtoC (D j i)) (evalF c (gridpt n i))))).
Proof.
  intros n Hn. assert (E : exists D, tc_diffmat n 3 = DMat D).
  { unfold tc_diffmat. destruct (Nat.eqb_spec n 0); [lia|]. destruct (Nat.eqb_spec n 1); [lia|]. eexists; reflexivity. }
  destruct E as [D E]. exists D. split; [exact E|]. destruct (tc_entries n 3 D Hn ltac:(lia) E) as [_ H].
  assert (A : forall c j, length c = n -> (j < n)%nat -> cderive_n (evalF c) 3 (gridpt n j) (Copp (csum n (fun i => Cmult (RtoC (D j i)) (evalF c (gridpt n i)))))).
  { intros c j Lc Hj. subst n. replace (Copp (csum (length c) (fun i => Cmult (RtoC (D j i)) (evalF c (gridpt (length c) i))))) with (csum (length c) (fun i => Cmult (RtoC (- D j i)) (evalF c (gridpt (length c) i)))).
    2:{ replace (Copp (csum (length c) (fun i => Cmult (RtoC (D j i)) (evalF c (gridpt (length c) i))))) with (Cmult (RtoC (-1)) (csum (length c) (fun i => Cmult (RtoC (D j i)) (evalF c (gridpt (length c) i))))) by (apply injective_projections; unfold Cmult, Copp, RtoC; cbn [fst snd]; ring).
        rewrite <- csum_scal. apply csum_ext. intros i _. replace (- D j i) with (-1 * D j i) by ring. rewrite RtoC_mult. ring. }
    apply (row_derive c 3 j (fun i => - D j i)); [lia|]. intros i Hi. rewrite H by assumption. change (Nat.eqb 3 3) with true. cbv iota. unfold th. ring. }
  split; [exact A|]. intros H3. set (k := (n / 2 + 1)%nat). assert (Hk : (k < n)%nat) by (unfold k; assert (X := Nat.div_mod n 2 ltac:(lia)); assert (Y := Nat.mod_upper_bound n 2 ltac:(lia)); lia).
  exists (unitC n k). split; [apply unitC_length|]. assert (Fk : freq n k = 1%Z) by (unfold freq, k; lia). assert (NB : (Nat.even n && Nat.eqb k 0)%bool = false) by (destruct (Nat.eqb_spec k 0); [unfold k in *; lia|apply andb_false_r]).
  split; [intros x; rewrite evalF_unit by exact Hk; unfold mode; rewrite NB, Fk; f_equal; ring|].
  intros j Hj B. assert (A' := A (unitC n k) j (unitC_length n k) Hj). assert (Q := cderive_unique _ _ _ _ _ B A'). set (l := csum n _) in *.
  assert (L0 : l = RtoC 0). { apply injective_projections; [apply (f_equal fst) in Q|apply (f_equal snd) in Q]; unfold Copp, RtoC in *; cbn [fst snd] in *; lra. }
  assert (Z := evalF_derive_all (unitC n k) 3 (gridpt n j)). rewrite unitC_length, (unitC_sum n k (fun i => dmode n i 3 (gridpt n j)) Hk) in Z. assert (W := cderive_unique _ _ _ _ _ B Z). rewrite L0 in W.
  unfold dmode in W. rewrite NB, Fk, Ci_PI, cpow_polar in W. rewrite <- Cmult_assoc, <- cis_plus in W.
  assert (N1 := cis_neq_0 (INR 3 * (PI / 2) + PI * 1 * gridpt n j)). assert (N2 : RtoC ((PI * 1) ^ 3) <> RtoC 0) by (apply RtoC_neq, pow_nonzero; assert (X := PI_RGT_0); lra).
  symmetry in W. apply (Cmult_neq_0 _ _ N2 N1). exact W.
Qed.
Print Assumptions C147_third_refuted.
(** orders 4 and higher raise; for one point the answer is the number 0 for every order, also for order 0 *)
Theorem C147_rest_refuted : (forall n m, (2 <= n)%nat -> (4 <= m)%nat -> tc_diffmat n m = DRaise) /\ (forall m, tc_diffmat 1 m = DZero).
Proof.
  split; [|reflexivity]. intros n m Hn Hm. unfold tc_diffmat. destruct (Nat.eqb_spec n 0); [lia|]. destruct (Nat.eqb_spec n 1); [lia|]. destruct m as [|[|[|[|m]]]]; try lia. reflexivity.
Qed.
Print Assumptions C147_rest_refuted.
Example ex_C147 : (2 <= length [RtoC 1; RtoC 2; RtoC 3])%nat. Proof. cbn. lia. Qed.

(** ** C148 *)
(** C148: trigtech's diffmat(n, k), every order *)
Lemma tt_apply c k j : (1 <= length c)%nat -> (1 <= k)%nat -> (j < length c)%nat ->
  csum (length c) (fun i => Cmult (RtoC (tt_diffmat (length c) k j i)) (evalF c (gridpt (length c) i))) =
  csum (length c) (fun l => Cmult (nth l c C0) (dmodeb (Nat.leb 3 k) (length c) l k (gridpt (length c) j))).
Proof. intros Hn Hk Hj. apply row_correctb; [exact Hn|]. intros i Hi. rewrite tt_entries by assumption. reflexivity. Qed.
Lemma nyq_odd n k j : (1 <= n)%nat -> Nat.even n = true -> Nat.odd k = true -> dmode n 0 k (gridpt n j) = RtoC 0.
Proof.
  intros Hn E O. unfold dmode. rewrite E. cbn [andb Nat.eqb]. f_equal. apply Nat.odd_spec in O. destruct O as [q ->]. set (y := PI * INR (n / 2) * gridpt n j).
  replace (y + INR (2 * q + 1) * (PI / 2)) with (y + PI / 2 + INR q * PI) by (rewrite plus_INR, mult_INR; cbn [INR]; field). rewrite cos_mPI. rewrite cos_plus, cos_PI2, sin_PI2.
  unfold y. rewrite (nyq_grid n j Hn E). ring.
Qed.
Theorem C148_diffmat_partial : forall c k j, (1 <= length c)%nat -> (j < length c)%nat ->
  (Nat.even (length c) = true -> Nat.even k = true -> (4 <= k)%nat -> nth 0 c (RtoC 0) = RtoC 0) ->
  cderive_n (evalF c) k (gridpt (length c) j) (csum (length c) (fun i => Cmult (RtoC (tt_diffmat (length c) k j i)) (evalF c (gridpt (length c) i)))).
Proof.
  intros c k j Hn Hj H. destruct (Nat.eq_dec k 0) as [->|Hk].
  - change (tt_diffmat (length c) 0) with meye. fold (applyF meye c j). rewrite applyF_eye by exact Hj. apply cderive_0.
  - rewrite tt_apply by (try assumption; lia). replace (csum (length c) _) with (csum (length c) (fun l => Cmult (nth l c C0) (dmode (length c) l k (gridpt (length c) j)))); [apply evalF_derive_all|].
    apply csum_ext. intros l Hl. unfold dmodeb. destruct (Nat.leb_spec 3 k) as [H3|H3]; cbn [andb]; [|reflexivity]. destruct (Nat.even (length c)) eqn:E; cbn [andb]; [|reflexivity].
    destruct (Nat.eqb_spec l 0) as [->|]; [|reflexivity]. destruct (Nat.odd k) eqn:O.
    + rewrite nyq_odd by assumption. reflexivity.
    + unfold C0. assert (K := not_odd_even k O). rewrite (H eq_refl K); [ring|]. destruct (Nat.eq_dec k 3) as [->|]; [discriminate|lia].
Qed.
Print Assumptions C148_diffmat_partial.
(** even n, even order from 4 on: the highest mode cos(n/2 pi x) is mapped to 0 *)
Theorem C148_highest_mode_refuted : forall n k, (2 <= n)%nat -> Nat.even n = true -> Nat.even k = true -> (4 <= k)%nat ->
  exists c, length c = n /\ (forall x, evalF c x = RtoC (cos (PI * INR (n / 2) * x))) /\
    forall j, (j < n)%nat -> csum n (fun i => Cmult (RtoC (tt_diffmat n k j i)) (evalF c (gridpt n i))) = RtoC 0 /\
      exists l, cderive_n (evalF c) k (gridpt n j) l /\ Cmod l = (PI * INR (n / 2)) ^ k.
Proof.
  intros n k Hn E K Hk. exists (unitC n 0). split; [apply unitC_length|]. split; [intros x; rewrite evalF_unit by lia; unfold mode; rewrite E; reflexivity|].
  intros j Hj. assert (L := unitC_length n 0). split.
  - assert (A := tt_apply (unitC n 0) k j). rewrite L in A. rewrite A by lia. rewrite (unitC_sum n 0 (fun l => dmodeb (Nat.leb 3 k) n l k (gridpt n j))) by lia. unfold dmodeb. destruct (Nat.leb_spec 3 k); [|lia]. rewrite E. reflexivity.
  - assert (Z := evalF_derive_all (unitC n 0) k (gridpt n j)). rewrite L, (unitC_sum n 0 (fun i => dmode n i k (gridpt n j))) in Z by lia. eexists. split; [exact Z|]. unfold dmode. rewrite E. cbn [andb Nat.eqb].
    rewrite Cmod_R. apply Nat.even_spec in K. destruct K as [q ->]. set (w := PI * INR (n / 2)). replace (w * gridpt n j + INR (2 * q) * (PI / 2)) with (w * gridpt n j + INR q * PI) by (rewrite mult_INR; cbn [INR]; field).
    rewrite cos_mPI. assert (S := nyq_grid n j ltac:(lia) E). fold w in S. assert (SC := sin2_cos2 (w * gridpt n j)). unfold Rsqr in SC. rewrite S in SC.
    assert (W : 0 <= w) by (unfold w; assert (X := PI_RGT_0); assert (Y := pos_INR (n / 2)); nra).
    rewrite !Rabs_mult, <- !RPow_abs. rewrite (Rabs_pos_eq w) by exact W. replace (Rabs (-1)) with 1 by (rewrite Rabs_left; lra). rewrite pow1.
    replace (Rabs (cos (w * gridpt n j))) with 1; [ring|]. set (cc := cos (w * gridpt n j)) in *. assert (cc = 1 \/ cc = -1) as [->| ->] by (assert (Z' : (cc - 1) * (cc + 1) = 0) by lra; apply Rmult_integral in Z'; lra); [now rewrite Rabs_R1|rewrite Rabs_left; lra].
Qed.
Print Assumptions C148_highest_mode_refuted.
Example ex_C148 : (1 <= length [RtoC 1; RtoC 2; RtoC 3])%nat /\ (Nat.even (length [RtoC 1; RtoC 2; RtoC 3]) = true -> Nat.even 4 = true -> (4 <= 4)%nat -> nth 0 [RtoC 1; RtoC 2; RtoC 3] (RtoC 0) = RtoC 0).
Proof. split; [cbn; lia|]. intros H. discriminate. Qed.

(** ** C149 *)
(** the object holding the values of the functions ps at the N second-kind points of [a,b] *)
Definition colloc_of (N : nat) (a b : R) (ps : list (R -> R)) : colloc :=
  mkColloc (map (fun p => map p (scaleNodes (chebpts_type2_compute N) a b)) ps) (a, b).
Lemma scaled_length N a b : length (scaleNodes (chebpts_type2_compute N) a b) = N.
Proof. unfold scaleNodes. destruct (_ && _); rewrite ?map_length; apply chebpts_length. Qed.
Lemma colloc_of_rows N a b ps : ps <> [] -> crows_of (colloc_of N a b ps) = N.
Proof. destruct ps as [|p ps]; [congruence|]. intros _. unfold crows_of, colloc_of. cbn [cvals map hd]. rewrite map_length. apply scaled_length. Qed.
Lemma colloc_of_points N a b ps : (2 <= N)%nat -> ps <> [] -> cpoints (colloc_of N a b ps) = scaleNodes (chebpts_type2_compute N) a b.
Proof. intros HN H. unfold cpoints. rewrite colloc_of_rows by exact H. destruct (Nat.eqb_spec N 1); [lia|reflexivity]. Qed.
Lemma colloc_of_weights N a b ps : (2 <= N)%nat -> ps <> [] -> cweights (colloc_of N a b ps) = bary_weights N.
Proof. intros HN H. unfold cweights. rewrite colloc_of_rows by exact H. destruct (Nat.eqb_spec N 1); [lia|reflexivity]. Qed.
Lemma xdot_fin : forall row v, length row = length v -> xdot (map Fin row) v = Some (rsum (length v) (fun i => nth i row 0 * nth i v 0)).
Proof.
  intros row v. revert row. induction v as [|y v IH]; intros [|x row] L; try discriminate; [reflexivity|]. cbn [length] in L. injection L as L.
  unfold xdot in *. cbn [map combine fold_right fst snd]. rewrite (IH row L). cbn [length]. rewrite rsum_S_l. reflexivity.
Qed.
Lemma spanT_Derive_n N q k : (1 <= N)%nat -> spanT N q -> spanT N (Derive_n q k).
Proof.
  intros HN [c [Lc H]]. destruct (le_lt_dec (length c) k) as [K|K].
  - apply spanT_ext with (fun _ => 0); [|apply spanT_0]. intros x. symmetry. rewrite (Derive_n_ext q (evalT c) k x H). apply is_derive_n_unique. apply is_derive_n_evalT_zero; lia.
  - apply spanT_ext with (evalT (der_n k c)); [|apply spanT_evalT; rewrite der_n_length; lia]. intros x. rewrite (Derive_n_ext q (evalT c) k x H). symmetry. apply Derive_n_evalT. exact K.
Qed.
(** evaluation: for polynomials of degree below N the object gives their values everywhere in [a,b] (also at the points); outside it raises *)
Theorem C149_call_partial : forall N a b ps y, (2 <= N)%nat -> a < b -> ps <> [] -> List.Forall (spanT N) ps ->
  colloc_call (colloc_of N a b ps) y = if Rle_dec a y then if Rle_dec y b then Some (map (fun p => Some (p y)) ps) else None else None.
Proof.
  intros N a b ps y HN Hab Hp S. unfold colloc_call. cbn [colloc_of cdom fst snd]. fold (colloc_of N a b ps). destruct (Rle_dec a y); [|reflexivity]. destruct (Rle_dec y b); [|reflexivity].
  rewrite colloc_of_points, colloc_of_weights by assumption. f_equal. unfold colloc_of. cbn [cvals]. rewrite map_map. apply map_ext_in. intros p Ip.
  destruct (barymat_correct N a b y HN Hab) as [row [E [L H]]]. rewrite E. rewrite Forall_forall in S.
  rewrite xdot_fin by (rewrite map_length, scaled_length; exact L). rewrite map_length, scaled_length. f_equal. rewrite <- (H p (S p Ip)). apply rsum_ext. intros i Hi.
  rewrite (map_nth' p _ _ 0 0) by (rewrite scaled_length; exact Hi). reflexivity.
Qed.
Print Assumptions C149_call_partial.
(** np.diff(f, n=k) is the object of the k-th derivatives *)
Theorem C149_diff_partial : forall N a b ps k, (2 <= N)%nat -> a < b -> ps <> [] -> List.Forall (spanT N) ps ->
  colloc_diff (colloc_of N a b ps) k = Some (colloc_of N a b (map (fun p => Derive_n p k) ps)) /\ List.Forall (spanT N) (map (fun p => Derive_n p k) ps).
Proof.
  intros N a b ps k HN Hab Hp S. split.
  2:{ rewrite Forall_map. eapply Forall_impl; [|exact S]. intros p. apply spanT_Derive_n. lia. }
  rewrite Forall_forall in S. unfold colloc_diff. rewrite colloc_of_rows by exact Hp. rewrite colloc_of_points by assumption. destruct (Nat.eqb_spec N 0); [lia|]. destruct (Nat.eqb_spec N 1); [lia|].
  assert (P : forall D, (forall p i, In p ps -> (i < N)%nat -> rsum N (fun j => D i j * p (nth j (scaleNodes (chebpts_type2_compute N) a b) 0)) = Derive_n p k (nth i (scaleNodes (chebpts_type2_compute N) a b) 0)) ->
    Some (mkColloc (mat_cols N D (cvals (colloc_of N a b ps))) (cdom (colloc_of N a b ps))) = Some (colloc_of N a b (map (fun p => Derive_n p k) ps))).
  { intros D H. f_equal. unfold colloc_of. cbn [cvals cdom]. f_equal. unfold mat_cols. rewrite !map_map. apply map_ext_in. intros p Ip.
    apply (list_ext _ _ 0); rewrite mk_length, ?map_length, ?scaled_length; [reflexivity|]. intros i Hi. rewrite nth_mk by exact Hi.
    rewrite (map_nth' (Derive_n p k) _ _ 0 0) by (rewrite scaled_length; exact Hi). rewrite <- (H p i Ip Hi). apply rsum_ext. intros j Hj. rewrite (map_nth' p _ _ 0 0) by (rewrite scaled_length; exact Hj). reflexivity. }
  destruct (Nat.eqb_spec k 0) as [->|Hk]; apply P; intros p i Ip Hi.
  - rewrite (rsum_single N _ i Hi); [unfold meye; rewrite Nat.eqb_refl; cbn [Derive_n]; ring|]. intros j _ Hj. unfold meye. destruct (Nat.eqb_spec i j); [congruence|ring].
  - apply diffmat_correct; try assumption. apply S. exact Ip.
Qed.
Print Assumptions C149_diff_partial.
(** f[j] is the object of the j-th function *)
Theorem C149_getitem : forall N a b ps j, colloc_getitem (colloc_of N a b ps) j = option_map (fun p => colloc_of N a b [p]) (nth_error ps j).
Proof.
  intros N a b ps j. unfold colloc_getitem, colloc_of. cbn [cvals cdom]. rewrite map_length. destruct (Nat.ltb_spec j (length ps)) as [H|H].
  - destruct (nth_error ps j) as [p|] eqn:E; [|apply nth_error_None in E; lia]. cbn [option_map]. f_equal. f_equal. cbn [map]. f_equal.
    apply nth_error_nth with (d := fun _ => 0) in E. rewrite (map_nth' _ ps _ [] (fun _ => 0)) by exact H. rewrite E. reflexivity.
  - apply nth_error_None in H. rewrite H. reflexivity.
Qed.
Print Assumptions C149_getitem.
(** one point: the constant is evaluated, but its derivative, the constant 0, is not available: np.diff raises *)
Theorem C149_one_point_refuted : forall v a b y k, a <= y <= b -> colloc_call (mkColloc [[v]] (a, b)) y = Some [Some v] /\ ((1 <= k)%nat -> colloc_diff (mkColloc [[v]] (a, b)) k = None).
Proof.
  intros v a b y k [Ha Hb]. split.
  - unfold colloc_call. cbn [cdom fst snd cvals]. destruct (Rle_dec a y); [|lra]. destruct (Rle_dec y b); [|lra]. f_equal. cbn [map]. f_equal.
    unfold cpoints, cweights. change (crows_of (mkColloc [[v]] (a, b))) with 1%nat. cbn [Nat.eqb].
    assert (B : bary_row y [0] [1] = [Fin 1]).
    { unfold bary_row. cbn [combine map]. unfold xsum. cbn [fold_left]. unfold xdiv0. destruct (ChebModel.Reqb (y - 0) 0) eqn:E.
      - destruct (ChebModel.Reqb 1 0) eqn:E1; [apply ChebChop.Reqb_true in E1; lra|]. destruct (ChebModel.Rltb 0 1); reflexivity.
      - cbn [xadd xdiv]. unfold xdiv0. replace (0 + 1 / (y - 0)) with (1 / (y - 0)) by ring. assert (E' : y - 0 <> 0) by (intros E'; apply ChebChop.Reqb_true in E'; congruence). clear E; rename E' into E. destruct (ChebModel.Reqb (1 / (y - 0)) 0) eqn:F; [apply ChebChop.Reqb_true in F|].
        + exfalso. apply E. apply (Rmult_eq_reg_r (1 / (y - 0))); [rewrite F; ring|]. unfold Rdiv. rewrite Rmult_1_l. apply Rinv_neq_0_compat, E.
        + cbn [nan_to_one]. f_equal. f_equal. field. lra. }
    rewrite B. cbn. f_equal. ring.
  - intros K. unfold colloc_diff. change (crows_of (mkColloc [[v]] (a, b))) with 1%nat. cbn [Nat.eqb]. destruct (Nat.eqb_spec k 0); [lia|reflexivity].
Qed.
Print Assumptions C149_one_point_refuted.
Example ex_C149 : (2 <= 3)%nat /\ 0 < 2 /\ [T 2; T 1] <> [] /\ List.Forall (spanT 3) [T 2; T 1].
Proof. repeat match goal with |- _ /\ _ => split end; try lia; try lra; try discriminate. repeat constructor; apply spanT_T; lia. Qed.
