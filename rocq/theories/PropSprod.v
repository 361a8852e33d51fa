(** C205: the scalar product sprod of functions. *)
From Coq Require Import Reals ZArith List Arith Bool Lia Lra.
From Coquelicot Require Import Coquelicot.
From Verif Require Import Base ChebSpec ChebMath ChebModel ChebModel2 ChebEval ChebObj ChebOps ChebArith ChebRefute FunModel FunProofs NormSpec NormModel NormProofs PropFun SprodModel.
Import ListNotations.
Open Scope R_scope.

(** the sum over the columns of f(x) g(x) *)
Definition pointwise (F G : Fun) (x : R) : R := rsum (fcols F) (fun i => fev F i x * fev G i x).

Lemma dom_check_self F : dom_check F F = true.
Proof.
  unfold dom_check, ChebModel.Rltb, SMALL_EPS. assert (0 < / 10 ^ 8) by (apply Rinv_0_lt_compat; apply pow_lt; lra).
  destruct (Rlt_dec (dom0 F - dom0 F) (/ 10 ^ 8)); [|lra]. destruct (Rlt_dec (dom1 F - dom1 F) (/ 10 ^ 8)); [|lra]. reflexivity.
Qed.
Lemma is_RInt_null a b : is_RInt (fun _ : R => 0) a b 0.
Proof. assert (H : is_RInt (fun _ : R => 0) a b ((b - a) * 0)) by exact (is_RInt_const a b 0). rewrite Rmult_0_r in H. exact H. Qed.
Lemma int_unique (f : R -> R) a b (u v : R) : is_RInt f a b u -> is_RInt f a b v -> u = v.
Proof. intros H K. rewrite <- (is_RInt_unique f a b u H). apply (is_RInt_unique f a b v K). Qed.
Lemma is_RInt_rsum n (f : nat -> R -> R) (l : nat -> R) a b : (forall i, (i < n)%nat -> is_RInt (f i) a b (l i)) -> is_RInt (fun x => rsum n (fun i => f i x)) a b (rsum n l).
Proof.
  induction n as [|n IH]; intros H.
  - cbn. apply is_RInt_null.
  - cbn [rsum]. apply (is_RInt_plus (fun x => rsum n (fun i => f i x)) (f n)); [apply IH; intros i Hi; apply H; lia|apply H; lia].
Qed.
Lemma rsum_term n (f : nat -> R) i : (forall k, 0 <= f k) -> (i < n)%nat -> f i <= rsum n f.
Proof.
  intros P. induction n as [|n IH]; [lia|]. intros H. cbn [rsum]. pose proof (P n) as Pn. assert (Q : 0 <= rsum n f) by (apply rsum_nonneg; intros; apply P). destruct (Nat.eq_dec i n) as [->|Hne]; [lra|]. specialize (IH ltac:(lia)). lra.
Qed.
Lemma wf_cols_pos F : fwf F -> (1 <= fcols F)%nat.
Proof. intros [[n [_ [H _]]] _]. unfold fcols, ncols. destruct (coeffs (onefun F)); [congruence|cbn; lia]. Qed.

(** ** the integral *)
Lemma sprod_plain F G : fwf F -> fwf G -> dom0 F = dom0 G -> dom1 F = dom1 G -> fcols F = fcols G ->
  exists M, fun_inner F G = Some M /\ is_RInt (pointwise F G) (dom0 F) (dom1 F) (sprod_result M).
Proof.
  intros WF WG A B N. destruct (C19_inner F G WF WG A B) as [M [E [L H]]]. exists M. split; [exact E|].
  assert (P := wf_cols_pos F WF). assert (HD : length (hd [] M) = fcols F).
  { destruct (H 0%nat 0%nat ltac:(lia) ltac:(lia)) as [K _]. destruct M as [|r M]; [cbn in L; lia|]. cbn in K |- *. lia. }
  assert (R1 : is_RInt (pointwise F G) (dom0 F) (dom1 F) (rsum (fcols F) (fun i => nth i (nth i M []) 0))).
  { unfold pointwise. apply is_RInt_rsum. intros i Hi. apply H; lia. }
  unfold sprod_result, msize, mtrace. rewrite L, HD, Nat.min_id. destruct (Nat.ltb_spec 1 (fcols F * fcols F)) as [Q|Q]; [exact R1|].
  assert (fcols F = 1%nat) as K by nia. rewrite K in R1. cbn in R1. rewrite Rplus_0_l in R1. exact R1.
Qed.
Lemma times_number F s : fwf F -> exists F', fun_times_number F s = Some F' /\ fwf F' /\ dom0 F' = dom0 F /\ dom1 F' = dom1 F /\ fcols F' = fcols F /\
  forall j x, (j < fcols F)%nat -> fev F' j x = s * fev F j x.
Proof.
  intros [W D]. unfold fun_times_number. rewrite dom_check_self. destruct (multiply_number_correct (onefun F) s W) as [r [E [Wr [C [_ [_ H]]]]]].
  rewrite E. cbn [wrap option_map]. eexists. split; [reflexivity|]. cbn [dom0 dom1 onefun]. split; [split; [exact Wr|exact D]|]. split; [reflexivity|]. split; [reflexivity|]. split; [exact C|].
  intros j x Hj. unfold fev. cbn [dom0 dom1 onefun]. apply H. exact Hj.
Qed.
(** sprod(f, g) is the integral over the domain of the sum over the columns of f g; with scale=s it is s^2 times that *)
Theorem C205_integral : forall F G scale, fwf F -> fwf G -> dom0 F = dom0 G -> dom1 F = dom1 G -> fcols F = fcols G ->
  exists v w, sprod F G false None = Some v /\ is_RInt (fun x => rsum (fcols F) (fun i => fev F i x * fev G i x)) (dom0 F) (dom1 F) v /\
    sprod F G false (Some scale) = Some w /\ w = scale * scale * v.
Proof.
  intros F G s WF WG A B N. destruct (sprod_plain F G WF WG A B N) as [M [E H]]. unfold sprod. rewrite E. cbn [option_map].
  destruct (times_number F s WF) as [F' [EF [WF' [A1 [B1 [N1 H1]]]]]]. destruct (times_number G s WG) as [G' [EG [WG' [A2 [B2 [N2 H2]]]]]]. rewrite EF, EG.
  destruct (sprod_plain F' G' WF' WG' ltac:(congruence) ltac:(congruence) ltac:(congruence)) as [M' [E' H']]. rewrite E'. cbn [option_map].
  eexists. eexists. split; [reflexivity|]. split; [exact H|]. split; [reflexivity|].
  rewrite A1, B1 in H'.
  assert (H3 : is_RInt (fun x => s * s * pointwise F G x) (dom0 F) (dom1 F) (s * s * sprod_result M)) by exact (is_RInt_scal (pointwise F G) (dom0 F) (dom1 F) (s * s) (sprod_result M) H).
  apply (int_unique (fun x => s * s * pointwise F G x) (dom0 F) (dom1 F)); [|exact H3].
  eapply is_RInt_ext; [|exact H']. intros x _. unfold pointwise. rewrite N1, <- rsum_scal.
  apply rsum_ext. intros i Hi. rewrite H1 by exact Hi. rewrite H2 by (rewrite <- N; exact Hi). ring.
Qed.
Print Assumptions C205_integral.
Theorem C205_mismatch : forall F G w s, dom0 F <> dom0 G \/ dom1 F <> dom1 G -> sprod F G w s = None.
Proof.
  intros F G w s H. unfold sprod. destruct w; [reflexivity|]. destruct s as [s|].
  - unfold fun_times_number. rewrite !dom_check_self. destruct (multiply_number (onefun F) s) as [f|]; [|reflexivity]. destruct (multiply_number (onefun G) s) as [g|]; [|reflexivity].
    cbn [wrap option_map]. rewrite C19_inner_mismatch by exact H. reflexivity.
  - rewrite C19_inner_mismatch by exact H. reflexivity.
Qed.
Print Assumptions C205_mismatch.

(** ** an inner product *)
Lemma pointwise_sym F G x : fcols F = fcols G -> pointwise F G x = pointwise G F x.
Proof. intros N. unfold pointwise. rewrite N. apply rsum_ext. intros i _. ring. Qed.
Lemma continuous_rsum n (f : nat -> R -> R) x : (forall i, (i < n)%nat -> continuous (f i) x) -> continuous (fun x => rsum n (fun i => f i x)) x.
Proof.
  induction n as [|n IH]; intros H; [apply continuous_const|]. cbn [rsum]. apply (continuous_plus (fun x => rsum n (fun i => f i x)) (f n)); [apply IH; intros i Hi; apply H; lia|apply H; lia].
Qed.
Lemma continuous_pointwise F G x : continuous (pointwise F G) x.
Proof. unfold pointwise. apply continuous_rsum. intros i _. apply (continuous_mult (fev F i) (fev G i)); apply continuous_fev. Qed.
Lemma RInt_zero (g : R -> R) a b : a < b -> (forall x, continuous g x) -> (forall x, 0 <= g x) -> is_RInt g a b 0 -> forall x, a <= x <= b -> g x = 0.
Proof.
  intros Hab Hc Hp HI x Hx. destruct (Req_dec (g x) 0) as [|N]; [assumption|exfalso].
  assert (Px : 0 < g x) by (specialize (Hp x); lra).
  assert (I : forall u v, ex_RInt g u v) by (intros u v; apply (ex_RInt_continuous g); intros; apply Hc).
  assert (Pos : forall u v, u <= v -> 0 <= RInt g u v) by (intros u v Huv; apply RInt_ge_0; [exact Huv|apply I|intros; apply Hp]).
  destruct (proj1 (filterlim_locally g (g x)) (Hc x) (mkposreal _ Px)) as [d Hd].
  set (c := Rmax a (x - d / 2)). set (e := Rmin b (x + d / 2)). assert (Dp := cond_pos d).
  assert (Hce : c < e) by (unfold c, e; apply Rmax_lub_lt; apply Rmin_glb_lt; lra).
  assert (Hac : a <= c) by apply Rmax_l. assert (Heb : e <= b) by apply Rmin_l.
  assert (Hc1 : x - d / 2 <= c) by apply Rmax_r. assert (He1 : e <= x + d / 2) by apply Rmin_r.
  assert (G0 : 0 < RInt g c e).
  { apply RInt_gt_0; [exact Hce| |intros; apply Hc]. intros y Hy. specialize (Hd y). assert (Bd : ball x d y) by (unfold ball; cbn; unfold AbsRing_ball, abs, minus, plus, opp; cbn; apply Rabs_def1; lra).
    specialize (Hd Bd). unfold ball in Hd. cbn in Hd. unfold AbsRing_ball, abs, minus, plus, opp in Hd. cbn in Hd. apply Rabs_def2 in Hd. lra. }
  assert (P1 := Pos a c Hac). assert (P2 := Pos e b Heb). apply (is_RInt_unique g a b 0) in HI.
  rewrite <- (RInt_Chasles g a c b (I _ _) (I _ _)) in HI. rewrite <- (RInt_Chasles g c e b (I _ _) (I _ _)) in HI. change (RInt g a c + (RInt g c e + RInt g e b) = 0) in HI. lra.
Qed.
(** symmetric and positive definite *)
Theorem C205_symmetric : forall F G, fwf F -> fwf G -> dom0 F = dom0 G -> dom1 F = dom1 G -> fcols F = fcols G -> sprod F G false None = sprod G F false None.
Proof.
  intros F G WF WG A B N. unfold sprod. destruct (sprod_plain F G WF WG A B N) as [M [-> H]]. destruct (sprod_plain G F WG WF (eq_sym A) (eq_sym B) (eq_sym N)) as [M' [-> H']]. cbn [option_map]. f_equal.
  rewrite <- A, <- B in H'. assert (H2 : is_RInt (pointwise F G) (dom0 F) (dom1 F) (sprod_result M')).
  { eapply is_RInt_ext; [|exact H']. intros x _. apply pointwise_sym. symmetry. exact N. }
  exact (int_unique _ _ _ _ _ H H2).
Qed.
Print Assumptions C205_symmetric.
Theorem C205_positive : forall F, fwf F -> exists v, sprod F F false None = Some v /\ 0 <= v /\
  (v = 0 <-> forall j x, (j < fcols F)%nat -> dom0 F <= x <= dom1 F -> fev F j x = 0).
Proof.
  intros F WF. unfold sprod. destruct (sprod_plain F F WF WF eq_refl eq_refl eq_refl) as [M [-> H]]. cbn [option_map]. eexists. split; [reflexivity|].
  set (v := sprod_result M) in *. assert (D := proj2 WF).
  assert (NN : forall x, 0 <= pointwise F F x) by (intros x; unfold pointwise; apply rsum_nonneg; intros i _; nra).
  assert (Hv : 0 <= v). { eapply (is_RInt_le (fun _ => 0) (pointwise F F) (dom0 F) (dom1 F)); [lra| |exact H|intros x _; apply NN].
    apply is_RInt_null. }
  split; [exact Hv|]. split.
  - intros Z j x Hj Hx. rewrite Z in H. assert (Q := RInt_zero (pointwise F F) (dom0 F) (dom1 F) D (continuous_pointwise F F) NN H x Hx). unfold pointwise in Q.
    assert (T0 : fev F j x * fev F j x <= rsum (fcols F) (fun i => fev F i x * fev F i x)).
    { apply (rsum_term (fcols F) (fun i => fev F i x * fev F i x) j); [|exact Hj]. intros i. nra. }
    nra.
  - intros Z. assert (H0 : is_RInt (pointwise F F) (dom0 F) (dom1 F) 0).
    { eapply is_RInt_ext; [|apply is_RInt_null].
      intros x Hx. rewrite Rmin_left, Rmax_right in Hx by lra. symmetry. unfold pointwise. apply rsum_zero. intros i Hi. rewrite (Z i x Hi) by lra. ring. }
    exact (int_unique _ _ _ _ _ H H0).
Qed.
Print Assumptions C205_positive.
Theorem C205_cauchy_schwarz : forall F G, fwf F -> fwf G -> dom0 F = dom0 G -> dom1 F = dom1 G -> fcols F = fcols G ->
  exists u v w, sprod F F false None = Some u /\ sprod G G false None = Some w /\ sprod F G false None = Some v /\ v * v <= u * w.
Proof.
  intros F G WF WG A B N. unfold sprod. destruct (sprod_plain F F WF WF eq_refl eq_refl eq_refl) as [M1 [-> H1]].
  destruct (sprod_plain G G WG WG eq_refl eq_refl eq_refl) as [M2 [-> H2]]. destruct (sprod_plain F G WF WG A B N) as [M3 [-> H3]]. cbn [option_map].
  do 3 eexists. split; [reflexivity|]. split; [reflexivity|]. split; [reflexivity|].
  set (u := sprod_result M1) in *. set (w := sprod_result M2) in *. set (v := sprod_result M3) in *. rewrite <- A, <- B in H2. assert (D := proj2 WF).
  assert (Q : forall s t, 0 <= s * s * u + 2 * (s * t) * v + t * t * w).
  { intros s t. assert (I : is_RInt (fun x => plus (plus (scal (s * s) (pointwise F F x)) (scal (2 * (s * t)) (pointwise F G x))) (scal (t * t) (pointwise G G x))) (dom0 F) (dom1 F)
      (plus (plus (scal (s * s) u) (scal (2 * (s * t)) v)) (scal (t * t) w))).
    { apply @is_RInt_plus; [apply @is_RInt_plus; apply @is_RInt_scal; assumption|apply @is_RInt_scal; assumption]. }
    change (0 <= plus (plus (scal (s * s) u) (scal (2 * (s * t)) v)) (scal (t * t) w)).
    eapply (is_RInt_le (fun _ => 0)); [apply Rlt_le; exact D| |exact I|].
    - apply is_RInt_null.
    - intros x _. change (0 <= s * s * pointwise F F x + 2 * (s * t) * pointwise F G x + t * t * pointwise G G x). unfold pointwise. rewrite <- N, <- !rsum_scal, <- !rsum_plus.
      apply rsum_nonneg. intros i _. assert (K := pow2_ge_0 (s * fev F i x + t * fev G i x)). lra. }
  clearbody u v w.
  assert (U := Q 1 0). assert (W := Q 0 1). assert (Z := Q w (- v)). assert (Z2 := Q (- v) u). assert (P1 := Q 1 1). assert (P2 := Q 1 (-1)).
  destruct (Rle_lt_dec w 0) as [W0|W0].
  - assert (w = 0) by lra. subst w. assert (Y := Q (-v) u). destruct (Rle_lt_dec u 0) as [U0|U0]; [assert (u = 0) by lra; nra|].
    assert (T := Q (- v / u) 1). replace (- v / u * (- v / u) * u) with (v * v / u) in T by (field; lra). replace (2 * (- v / u * 1) * v) with (- 2 * (v * v / u)) in T by (field; lra).
    assert (0 <= v * v / u) by (apply Rmult_le_pos; [nra|left; apply Rinv_0_lt_compat; exact U0]).
    assert (v * v / u * u = v * v) by (field; lra). nra.
  - nra.
Qed.
Print Assumptions C205_cauchy_schwarz.

(** ** what fails *)
(** the weighted product raises for every pair of functions *)
Theorem C205_weighted_refuted : forall F G s, sprod F G true s = None.
Proof. reflexivity. Qed.
Print Assumptions C205_weighted_refuted.
(** functions with different numbers of columns are not refused: the surplus columns are ignored *)
Theorem C205_columns_refuted : exists F G v, fwf F /\ fwf G /\ dom0 F = dom0 G /\ dom1 F = dom1 G /\ fcols F = 1%nat /\ fcols G = 2%nat /\
  sprod F G false None = Some v /\ is_RInt (fun x => fev F 0 x * fev G 0 x) (dom0 F) (dom1 F) v.
Proof.
  set (F := mkFun (mkCheb [[1]] eps_default 1 maxLength_default true) (-1) 1). set (G := mkFun (mkCheb [[1]; [2]] eps_default 1 maxLength_default true) (-1) 1).
  assert (WF : fwf F) by (split; [exists 1%nat; repeat split; [lia|discriminate|repeat constructor]|cbn; lra]).
  assert (WG : fwf G) by (split; [exists 1%nat; repeat split; [lia|discriminate|repeat constructor]|cbn; lra]).
  destruct (C19_inner F G WF WG eq_refl eq_refl) as [M [E [L H]]]. destruct (H 0%nat 0%nat ltac:(cbn; lia) ltac:(cbn; lia)) as [K I].
  exists F, G, (nth 0 (nth 0 M []) 0). split; [exact WF|]. split; [exact WG|]. split; [reflexivity|]. split; [reflexivity|]. split; [reflexivity|]. split; [reflexivity|]. split; [|exact I].
  unfold sprod. rewrite E. cbn [option_map]. f_equal. unfold sprod_result, msize, mtrace. change (fcols F) with 1%nat in L. change (fcols G) with 2%nat in K.
  destruct M as [|r [|r' M]]; try discriminate. cbn [nth hd length] in *. rewrite K. cbn. ring.
Qed.
Print Assumptions C205_columns_refuted.

(** a concrete case: the square of x on [-1,1] *)
Example C205_case : sprod (mkFun f_x (-1) 1) (mkFun f_x (-1) 1) false None = Some (2 / 3).
Proof.
  assert (WF : fwf (mkFun f_x (-1) 1)) by (split; [exact f_x_wf|cbn; lra]).
  destruct (C205_integral _ _ 1 WF WF eq_refl eq_refl eq_refl) as [v [w [E [H _]]]]. rewrite E. f_equal.
  assert (I : is_RInt (fun x => x * x) (-1) 1 (2 / 3)).
  { replace (2 / 3) with (minus (1 ^ 3 / 3) ((-1) ^ 3 / 3)) by (unfold minus, plus, opp; cbn; field). apply (is_RInt_derive (fun x => x ^ 3 / 3) (fun x => x * x)).
    - intros x _. auto_derive; [exact I|]. field.
    - intros x _. apply (continuous_mult (K := R_AbsRing) (fun x : R => x) (fun x : R => x) x); apply continuous_id. }
  assert (H2 : is_RInt (fun x => x * x) (-1) 1 v).
  { eapply is_RInt_ext; [|exact H]. intros x _. unfold fcols, ncols, fev, ev, evalT. cbn [dom0 dom1 onefun coeffs f_x length nth rsum T].
    match goal with |- @eq _ ?p ?q => change (@eq R p q) end. field. }
  exact (int_unique _ _ _ _ _ H2 I).
Qed.
