(** Proofs about Fun: calculus and arithmetic on an arbitrary interval. *)
From Coq Require Import Reals ZArith List Arith Lia Lra Bool.
From Coquelicot Require Import Coquelicot.
From Verif Require Import Base ChebSpec ChebMath ChebModel ChebEval ChebDct ChebCalc ChebChop ChebObj ChebOps ChebOps2 ChebArith ChebMulObj ChebModel2 ChebConstr ChebBary ChebRefute FunModel.
Import ListNotations.
Open Scope R_scope.

(** the function a Fun represents: column j at the point x of [a,b] *)
Definition fev (F : Fun) (j : nat) (x : R) : R := ev (onefun F) j ((2 * x - dom0 F - dom1 F) / (dom1 F - dom0 F)).
Definition fwf (F : Fun) : Prop := wf (onefun F) /\ dom0 F < dom1 F.
Definition fcols (F : Fun) : nat := ncols (onefun F).
Definition flen (F : Fun) : nat := len (onefun F).
Definition same_dom (F G : Fun) : Prop := dom0 G = dom0 F /\ dom1 G = dom1 F.

(** ** the map *)
Lemma map_bijection a b : a < b ->
  map_fwd a b (-1) = a /\ map_fwd a b 1 = b /\
  (forall y, -1 <= y <= 1 -> a <= map_fwd a b y <= b) /\
  (forall x, a <= x <= b -> -1 <= map_bwd a b x <= 1) /\
  (forall y, map_bwd a b (map_fwd a b y) = y) /\ (forall x, map_fwd a b (map_bwd a b x) = x) /\
  (forall y, is_derive (map_fwd a b) y (map_der a b y)).
Proof.
  intros Hab. unfold map_fwd, map_bwd, map_der.
  split; [field|]. split; [field|]. split; [intros; split; nra|]. split; [|split; [|split]].
  - intros x Hx. split.
    + apply (Rmult_le_reg_r (b - a)); [lra|]. unfold Rdiv. rewrite Rmult_assoc, Rinv_l by lra. lra.
    + apply (Rmult_le_reg_r (b - a)); [lra|]. unfold Rdiv. rewrite Rmult_assoc, Rinv_l by lra. lra.
  - intros y. field. lra.
  - intros x. field. lra.
  - intros y. auto_derive; [exact I|]. field.
Qed.

Lemma bwd_lin a b x : a < b -> (2 * x - a - b) / (b - a) = 2 / (b - a) * x + - (a + b) / (b - a).
Proof. intros. field. lra. Qed.

(** ** evaluation *)
Lemma call_correct F xs : fwf F -> xs <> [] -> (forall x, In x xs -> dom0 F <= x <= dom1 F) ->
  exists V, fun_call F xs = Some V /\ length V = fcols F /\
    forall i j, (j < fcols F)%nat -> (i < length xs)%nat -> nth i (nth j V []) 0 = fev F j (nth i xs 0).
Proof.
  intros [Hw Hd] Hne Hx. unfold fun_call.
  destruct xs as [|x0 xs0] eqn:Ex; [congruence|]. rewrite <- Ex in *.
  destruct (map (map_bwd (dom0 F) (dom1 F)) xs) eqn:Em; [subst xs; discriminate|]. rewrite <- Em.
  assert (Q : forallb (fun t => Rleb (-1) t && Rleb t 1) (map (map_bwd (dom0 F) (dom1 F)) xs) = true).
  { apply forallb_forall. intros t Ht. apply in_map_iff in Ht. destruct Ht as [x [<- Hin]].
    destruct (map_bijection _ _ Hd) as [_ [_ [_ [B _]]]]. specialize (B x (Hx x Hin)).
    apply andb_true_iff. split; apply Rleb_true; lra. }
  rewrite Q. eexists. split; [reflexivity|]. split; [apply feval_shape|].
  intros i j Hj Hi. rewrite feval_correct by (try assumption; rewrite map_length; exact Hi).
  rewrite nth_map_R by exact Hi. reflexivity.
Qed.
Lemma call_outside F xs x : dom0 F < dom1 F -> In x xs -> x < dom0 F \/ dom1 F < x -> fun_call F xs = None.
Proof.
  intros Hd Hin Hx. unfold fun_call.
  destruct (map (map_bwd (dom0 F) (dom1 F)) xs) eqn:Em; [reflexivity|]. rewrite <- Em.
  destruct (forallb _ _) eqn:Ef; [|reflexivity]. exfalso.
  rewrite forallb_forall in Ef. specialize (Ef (map_bwd (dom0 F) (dom1 F) x) (in_map _ _ _ Hin)).
  apply andb_true_iff in Ef. destruct Ef as [E1 E2]. apply Rleb_true in E1, E2. unfold map_bwd in *.
  assert (P : 0 < dom1 F - dom0 F) by lra.
  assert (E1' := Rmult_le_compat_r _ _ _ (Rlt_le _ _ P) E1). assert (E2' := Rmult_le_compat_r _ _ _ (Rlt_le _ _ P) E2).
  unfold Rdiv in *. rewrite Rmult_assoc, Rinv_l in E1', E2' by lra. lra.
Qed.

(** ** derivative *)
Lemma Derive_n_affine n q k u v x : spanT n q ->
  Derive_n (fun t => q (u * t + v)) k x = u ^ k * Derive_n q k (u * x + v).
Proof.
  intros Sq. revert x. induction k as [|k IH]; intros x; [cbn; ring|].
  cbn [Derive_n]. rewrite (Derive_ext _ _ _ IH). apply is_derive_unique.
  assert (D : is_derive (Derive_n q k) (u * x + v) (Derive (Derive_n q k) (u * x + v))).
  { apply Derive_correct. apply (ex_derive_n_spanT n q (S k) _ Sq). }
  evar_last.
  - apply (is_derive_scal (fun t => Derive_n q k (u * t + v)) x (u ^ k)).
    apply (is_derive_comp (Derive_n q k) (fun t => u * t + v)); [exact D|].
    auto_derive; [exact I|reflexivity].
  - cbn. unfold scal; cbn. unfold mult; cbn. ring.
Qed.
Lemma evK_span f j K : spanT K (evK f j K).
Proof.
  exists (mk K (fun k => coef f j k)). split; [apply mk_length|]. intros x. unfold evK. rewrite evalT_mk. reflexivity.
Qed.
Lemma ev_span f j : wf f -> (j < ncols f)%nat -> spanT (len f) (ev f j).
Proof. intros Hw Hj. apply spanT_evalT. rewrite col_len by assumption. lia. Qed.

(** the truncated function on [a,b] *)
Definition fevK (F : Fun) (j K : nat) (x : R) : R :=
  evK (onefun F) j K ((2 * x - dom0 F - dom1 F) / (dom1 F - dom0 F)).

Lemma is_derive_n_bwd n q k a b x l : a < b -> spanT n q -> is_derive_n q k ((2 * x - a - b) / (b - a)) l ->
  is_derive_n (fun t => q ((2 * t - a - b) / (b - a))) k x (l / (/ 2 * (b - a)) ^ k).
Proof.
  intros Hab Sq Hl. rewrite (bwd_lin a b x Hab) in Hl.
  apply (is_derive_n_ext_eq (fun t => q (2 / (b - a) * t + - (a + b) / (b - a)))).
  { intros t. rewrite bwd_lin by exact Hab. reflexivity. }
  apply is_derive_n_unique in Hl.
  replace (l / (/ 2 * (b - a)) ^ k) with (Derive_n (fun t => q (2 / (b - a) * t + - (a + b) / (b - a))) k x).
  - apply Derive_n_correct. apply (ex_derive_n_spanT n). apply spanT_affine. exact Sq.
  - rewrite (Derive_n_affine n) by exact Sq. rewrite Hl. unfold Rdiv at 1. rewrite Rpow_mult_distr.
    unfold Rdiv. rewrite Rpow_mult_distr, Rinv_mult, !pow_inv, Rinv_inv. ring.
Qed.

Lemma fun_diff_correct F n : fwf F -> (1 <= n)%nat ->
  exists G K K2 (D : nat -> R -> R), fun_diff F n = Some G /\ fwf G /\ same_dom F G /\ fcols G = fcols F /\
    trunc_ok (onefun F) (eps (onefun F)) K /\
    (forall j x, (j < fcols F)%nat -> is_derive_n (fevK F j K) n x (D j x)) /\
    ((flen F <= K2)%nat -> forall j x, (j < fcols F)%nat -> fev G j x = D j x) /\
    (0 < eps (onefun F) < 1 -> forall j x, (j < fcols F)%nat -> dom0 F <= x <= dom1 F ->
       Rabs (D j x - fev G j x) <= INR (flen F - K2) * Rpower (eps (onefun F)) (2 / 5)).
Proof.
  intros [Hw Hd] Hn. destruct (diff_correct (onefun F) n Hw Hn) as [g [K [E [Wg [Cg [Pg [Lg [HK HD]]]]]]]].
  set (r := (/ 2 * (dom1 F - dom0 F)) ^ n).
  assert (Hr : r <> 0) by (apply pow_nonzero; lra).
  destruct (divide_number_correct g r Wg Hr) as [h [K2 [Eh [Wh [Ch [HK2 [Peh [Hev Htr]]]]]]]].
  exists (mkFun h (dom0 F) (dom1 F)), K, K2, (fun j x => ev g j ((2 * x - dom0 F - dom1 F) / (dom1 F - dom0 F)) / r).
  unfold fun_diff. rewrite E. fold r. rewrite Eh.
  split; [reflexivity|]. split; [split; [exact Wh|exact Hd]|]. split; [split; reflexivity|].
  split; [unfold fcols; cbn [onefun]; congruence|]. split; [exact HK|]. split; [|split].
  - intros j x Hj. apply (is_derive_n_bwd K (evK (onefun F) j K) n (dom0 F) (dom1 F) x); [exact Hd|apply evK_span|].
    apply HD. exact Hj.
  - intros HK2f j x Hj. unfold fev. cbn [onefun dom0 dom1]. unfold fcols in Hj. rewrite Hev by congruence.
    rewrite evK_full; [reflexivity|exact Wg|unfold flen in *; lia].
  - intros He j x Hj Hx. unfold fev. cbn [onefun dom0 dom1]. unfold fcols in Hj. rewrite Hev by congruence.
    set (z := (2 * x - dom0 F - dom1 F) / (dom1 F - dom0 F)).
    assert (Hz : -1 <= z <= 1) by (apply (map_bijection _ _ Hd); exact Hx).
    destruct Pg as [Peps _].
    assert (B := evalT_trunc_err (map (fun c => c / r) (nth j (coeffs g) [])) K2 z (Rpower (eps g) (2/5)) Hz
       (Rlt_le _ _ (exp_pos _))).
    assert (NR : forall k, nth k (map (fun c => c / r) (nth j (coeffs g) [])) 0 = coef g j k / r).
    { intros k. unfold coef. replace 0 with (0 / r) at 1 by (unfold Rdiv; ring). apply (map_nth (fun c => c / r)). }
    specialize (B ltac:(intros k Hk; rewrite NR; apply Htr; [rewrite Peps; exact He|exact Hk])).
    rewrite evalT_prolong_trunc in B. rewrite (evalT_map_scal (fun c => c / r) (/ r)) in B by (intros; unfold Rdiv; ring).
    rewrite (rsum_ext K2 _ (fun k => / r * (coef g j k * T k z))) in B.
    2:{ intros k _. rewrite NR. unfold Rdiv. ring. }
    rewrite rsum_scal in B. fold (evK g j K2 z) in B. fold (ev g j z) in B.
    replace (ev g j z / r - evK g j K2 z / r) with (/ r * ev g j z - / r * evK g j K2 z) by (unfold Rdiv; ring).
    eapply Rle_trans; [exact B|]. rewrite map_length, col_len by (try assumption; lia). rewrite Peps.
    apply Rmult_le_compat_r; [apply Rlt_le, exp_pos|]. apply le_INR. unfold flen. lia.
Qed.

(** ** integrals *)
Lemma is_RInt_bwd q a b u v l : a < b -> is_RInt q ((2 * u - a - b) / (b - a)) ((2 * v - a - b) / (b - a)) l ->
  is_RInt (fun t => q ((2 * t - a - b) / (b - a))) u v (l * (/ 2 * (b - a))).
Proof.
  intros Hab H. rewrite !bwd_lin in H by exact Hab.
  assert (Q := is_RInt_comp_lin q (2 / (b - a)) (- (a + b) / (b - a)) u v l H).
  apply (is_RInt_scal _ u v (/ 2 * (b - a))) in Q.
  evar_last; [eapply is_RInt_ext; [|exact Q]|].
  - intros t _. cbn. unfold scal; cbn. unfold mult; cbn. rewrite bwd_lin by exact Hab.
    rewrite <- Rmult_assoc. replace (/ 2 * (b - a) * (2 / (b - a))) with 1 by (field; lra). apply Rmult_1_l.
  - cbn. unfold scal; cbn. unfold mult; cbn. ring.
Qed.
Lemma bwd_ends a b : a < b -> (2 * a - a - b) / (b - a) = -1 /\ (2 * b - a - b) / (b - a) = 1.
Proof. intros. split; field; lra. Qed.

Lemma fun_sum_correct F j : fwf F -> (j < fcols F)%nat ->
  is_RInt (fev F j) (dom0 F) (dom1 F) (nth j (fun_sum F) 0).
Proof.
  intros [Hw Hd] Hj. unfold fun_sum.
  rewrite nth_map_R by (unfold cheb_sum; rewrite map_length; exact Hj).
  apply (is_RInt_bwd (ev (onefun F) j)); [exact Hd|].
  destruct (bwd_ends _ _ Hd) as [-> ->]. apply sum_correct. exact Hj.
Qed.

Lemma fun_cumsum_correct_len F : fwf F ->
  exists G, fun_cumsum F = Some G /\ fwf G /\ same_dom F G /\ fcols G = fcols F /\
   (1 <= flen G <= flen F + 2)%nat /\
   forall j, (j < fcols F)%nat ->
     fev G j (dom0 F) = 0 /\
     ((flen F < flen G)%nat -> forall x, is_RInt (fev F j) (dom0 F) x (fev G j x) /\ is_derive (fev G j) x (fev F j x)) /\
     (0 < eps (onefun F) < 1 -> forall x, dom0 F <= x <= dom1 F ->
        Rabs (RInt (fev F j) (dom0 F) x - fev G j x) <=
          (dom1 F - dom0 F) * (INR (flen F + 1 - flen G) * Rpower (eps (onefun F)) (2 / 5))) /\
     (0 < eps (onefun F) < 1 ->
      Rpower (eps (onefun F)) (2 / 5) < Rabs (coef (onefun F) j (flen F - 1)) / (2 * INR (flen F)) -> (flen F < flen G)%nat).
Proof.
  intros [Hw Hd]. destruct (cumsum_correct_len (onefun F) Hw) as [g [E [Wg [Cg [Pg [HK H]]]]]].
  set (r := / 2 * (dom1 F - dom0 F)).
  destruct (multiply_number_correct g r Wg) as [h [Eh [Wh [Ch [Lh [_ Hh]]]]]].
  exists (mkFun h (dom0 F) (dom1 F)). change (flen (mkFun h (dom0 F) (dom1 F))) with (len h). rewrite Lh. unfold fun_cumsum. rewrite E. fold r. rewrite Eh.
  split; [reflexivity|]. split; [split; [exact Wh|exact Hd]|]. split; [split; reflexivity|].
  split; [unfold fcols; cbn [onefun]; congruence|]. split; [exact HK|].
  intros j Hj. unfold fcols in Hj. destruct (H j Hj) as [H1 [H2 [H3 H4]]].
  assert (HG : forall x, fev (mkFun h (dom0 F) (dom1 F)) j x = r * ev g j ((2 * x - dom0 F - dom1 F) / (dom1 F - dom0 F))).
  { intros x. unfold fev. cbn [onefun dom0 dom1]. apply Hh. congruence. }
  destruct (bwd_ends _ _ Hd) as [B0 B1].
  split; [rewrite HG, B0, H1; ring|]. split; [|split; [|exact H4]].
  - intros Hlt x. destruct (H2 Hlt ((2 * x - dom0 F - dom1 F) / (dom1 F - dom0 F))) as [I1 I2]. split.
    + rewrite HG, Rmult_comm. apply (is_RInt_bwd (ev (onefun F) j)); [exact Hd|]. rewrite B0. exact I1.
    + apply (is_derive_ext (fun t => r * ev g j ((2 * t - dom0 F - dom1 F) / (dom1 F - dom0 F)))).
      { intros t. symmetry. apply HG. }
      evar_last.
      * apply (is_derive_scal (fun t => ev g j ((2 * t - dom0 F - dom1 F) / (dom1 F - dom0 F))) x r).
        apply (is_derive_comp (ev g j) (fun t => (2 * t - dom0 F - dom1 F) / (dom1 F - dom0 F))); [exact I2|].
        auto_derive; [lra|reflexivity].
      * cbn. unfold scal; cbn. unfold mult; cbn. unfold fev, r. field. lra.
  - intros He x Hx. set (z := (2 * x - dom0 F - dom1 F) / (dom1 F - dom0 F)).
    assert (Hz : -1 <= z <= 1) by (apply (map_bijection _ _ Hd); exact Hx).
    specialize (H3 He z Hz).
    assert (IR : is_RInt (ev (onefun F) j) (-1) z (RInt (ev (onefun F) j) (-1) z)).
    { apply (@RInt_correct R_CompleteNormedModule). apply ex_RInt_evalT. }
    assert (Q := is_RInt_bwd (ev (onefun F) j) (dom0 F) (dom1 F) (dom0 F) x _ Hd ltac:(rewrite B0; exact IR)).
    assert (Q' : RInt (fev F j) (dom0 F) x = RInt (ev (onefun F) j) (-1) z * (/ 2 * (dom1 F - dom0 F))).
    { apply is_RInt_unique. exact Q. }
    rewrite Q'. rewrite HG. fold z. fold r.
    replace (RInt (ev (onefun F) j) (-1) z * r - r * ev g j z) with (r * (RInt (ev (onefun F) j) (-1) z - ev g j z)) by ring.
    rewrite Rabs_mult, (Rabs_right r) by (unfold r; lra). unfold flen. unfold r. nra.
Qed.
Lemma fun_cumsum_correct F : fwf F ->
  exists G K, fun_cumsum F = Some G /\ fwf G /\ same_dom F G /\ fcols G = fcols F /\
   (1 <= K <= flen F + 2)%nat /\
   forall j, (j < fcols F)%nat ->
     fev G j (dom0 F) = 0 /\
     ((flen F < K)%nat -> forall x, is_RInt (fev F j) (dom0 F) x (fev G j x) /\ is_derive (fev G j) x (fev F j x)) /\
     (0 < eps (onefun F) < 1 -> forall x, dom0 F <= x <= dom1 F ->
        Rabs (RInt (fev F j) (dom0 F) x - fev G j x) <=
          (dom1 F - dom0 F) * (INR (flen F + 1 - K) * Rpower (eps (onefun F)) (2 / 5))) /\
     (0 < eps (onefun F) < 1 ->
      Rpower (eps (onefun F)) (2 / 5) < Rabs (coef (onefun F) j (flen F - 1)) / (2 * INR (flen F)) -> (flen F < K)%nat).
Proof. intros H. destruct (fun_cumsum_correct_len F H) as [G Q]. exists G, (flen G). exact Q. Qed.

Lemma dom_eqb_true F G : dom_eqb F G = true <-> dom0 F = dom0 G /\ dom1 F = dom1 G.
Proof. unfold dom_eqb. rewrite andb_true_iff, !Reqb_true. tauto. Qed.

Lemma fun_inner_correct F G : fwf F -> fwf G -> dom0 F = dom0 G -> dom1 F = dom1 G ->
  exists M, fun_inner F G = Some M /\ length M = fcols F /\
    forall i j, (i < fcols F)%nat -> (j < fcols G)%nat ->
      length (nth i M []) = fcols G /\
      is_RInt (fun x => fev F i x * fev G j x) (dom0 F) (dom1 F) (nth j (nth i M []) 0).
Proof.
  intros [Wf Hd] [Wg _] E0 E1. destruct (inner_correct _ _ Wf Wg) as [M [EM [LM HM]]].
  unfold fun_inner. replace (dom_eqb F G) with true by (symmetry; apply dom_eqb_true; auto).
  rewrite EM. cbn [option_map]. eexists. split; [reflexivity|]. split; [rewrite map_length; exact LM|].
  intros i j Hi Hj. destruct (HM i j Hi Hj) as [L I].
  rewrite (nth_map_col (map (fun s => s * (/ 2 * (dom1 F - dom0 F))))) by (rewrite LM; exact Hi).
  split; [rewrite map_length; exact L|]. rewrite nth_map_R by (rewrite L; exact Hj).
  destruct (bwd_ends _ _ Hd) as [B0 B1].
  eapply is_RInt_ext; [|apply (is_RInt_bwd (fun z => ev (onefun F) i z * ev (onefun G) j z) (dom0 F) (dom1 F)); [exact Hd|rewrite B0, B1; exact I]].
  intros x _. cbn beta. unfold fev. rewrite E0, E1. reflexivity.
Qed.
Lemma fun_inner_mismatch F G : (dom0 F <> dom0 G \/ dom1 F <> dom1 G) -> fun_inner F G = None.
Proof.
  intros H. unfold fun_inner. destruct (dom_eqb F G) eqn:E; [|reflexivity].
  apply dom_eqb_true in E. tauto.
Qed.

Lemma fun_dot_correct F G : fwf F -> fwf G -> dom0 F = dom0 G -> dom1 F = dom1 G -> fcols F = fcols G ->
  exists v, fun_dot F G = Some v /\
    is_RInt (fun x => rsum (fcols F) (fun i => fev F i x * fev G i x)) (dom0 F) (dom1 F) v.
Proof.
  intros [Wf Hd] [Wg _] E0 E1 Hc. destruct (dot_correct _ _ Wf Wg Hc) as [v [EM I]].
  unfold fun_dot. replace (dom_eqb F G) with true by (symmetry; apply dom_eqb_true; auto).
  rewrite EM. eexists. split; [reflexivity|].
  destruct (bwd_ends _ _ Hd) as [B0 B1].
  eapply is_RInt_ext; [|apply (is_RInt_bwd (fun z => rsum (ncols (onefun F)) (fun i => ev (onefun F) i z * ev (onefun G) i z)) (dom0 F) (dom1 F)); [exact Hd|rewrite B0, B1; exact I]].
  intros x _. cbn beta. unfold fev. rewrite E0, E1. reflexivity.
Qed.

Lemma fun_normh_correct F : fwf F -> exists v, fun_normh F = Some v /\ 0 <= v /\
    is_RInt (fun x => rsum (fcols F) (fun i => fev F i x ^ 2)) (dom0 F) (dom1 F) (v ^ 2).
Proof.
  intros HF. destruct (fun_dot_correct F F HF HF eq_refl eq_refl eq_refl) as [v [E I]].
  unfold fun_normh. rewrite E. exists (sqrt v). split; [reflexivity|]. split; [apply sqrt_pos|].
  assert (Hv : 0 <= v).
  { apply (is_RInt_ge_0 _ _ _ _ (Rlt_le _ _ (proj2 HF)) I). intros x _. apply rsum_nonneg. intros; apply Rle_0_sqr. }
  replace (sqrt v ^ 2) with v by (cbn; rewrite Rmult_1_r, sqrt_sqrt; [reflexivity|exact Hv]).
  eapply is_RInt_ext; [|exact I]. intros x _. cbn beta. apply rsum_ext. intros; ring.
Qed.

Lemma fun_innerw_correct F G j : fwf F -> fwf G -> dom0 F = dom0 G -> dom1 F = dom1 G ->
  (j < fcols F)%nat -> (j < fcols G)%nat ->
  exists V, fun_innerw F G = Some V /\
    is_RInt (fun t => fev F j (map_fwd (dom0 F) (dom1 F) (cos t)) * fev G j (map_fwd (dom0 F) (dom1 F) (cos t))
                      * ((dom1 F - dom0 F) / 2)) 0 PI (nth j V 0).
Proof.
  intros [Wf Hd] [Wg _] E0 E1 Hj Hj'. unfold fun_innerw.
  replace (dom_eqb F G) with true by (symmetry; apply dom_eqb_true; auto).
  eexists. split; [reflexivity|].
  rewrite nth_map_R by (unfold cheb_innerw; rewrite mk_length; exact Hj).
  assert (Q := innerw_correct _ _ j Wf Wg Hj Hj').
  apply (is_RInt_scal _ 0 PI (/ 2 * (dom1 F - dom0 F))) in Q.
  evar_last; [eapply is_RInt_ext; [|exact Q]|].
  - intros t _. cbn. unfold scal; cbn. unfold mult; cbn. unfold fev. rewrite <- E0, <- E1.
    assert (B : (2 * map_fwd (dom0 F) (dom1 F) (cos t) - dom0 F - dom1 F) / (dom1 F - dom0 F) = cos t).
    { apply (map_bijection _ _ Hd). }
    rewrite B. field.
  - cbn. unfold scal; cbn. unfold mult; cbn. ring.
Qed.

(** ** arithmetic and the domain test *)
Lemma dom_check_refl F : dom_check F F = true.
Proof.
  unfold dom_check. rewrite andb_true_iff, !Rltb_true. unfold SMALL_EPS.
  assert (0 < / 10 ^ 8) by (apply Rinv_0_lt_compat, pow_lt; lra). lra.
Qed.
Lemma dom_check_spec F G : dom_check F G = true <->
  dom0 G - dom0 F < / 10 ^ 8 /\ dom1 G - dom1 F < / 10 ^ 8.
Proof. unfold dom_check. rewrite andb_true_iff, !Rltb_true. reflexivity. Qed.

Lemma fun_binary_rejects op F G : (/ 10 ^ 8 <= dom0 G - dom0 F \/ / 10 ^ 8 <= dom1 G - dom1 F) -> fun_binary op F G = None.
Proof.
  intros H. unfold fun_binary. destruct (dom_check F G) eqn:E; [|rewrite andb_false_r; reflexivity].
  apply dom_check_spec in E. lra.
Qed.

(** what is guaranteed: if both orders are accepted the domains agree *)
Lemma fun_binary_both op F G H1 H2 : fun_binary op F G = Some H1 -> fun_binary op G F = Some H2 ->
  Rabs (dom0 F - dom0 G) < / 10 ^ 8 /\ Rabs (dom1 F - dom1 G) < / 10 ^ 8.
Proof.
  unfold fun_binary. rewrite !dom_check_refl. cbn [andb].
  destruct (dom_check F G) eqn:E1; [|discriminate]. destruct (dom_check G F) eqn:E2; [|discriminate].
  intros _ _. apply dom_check_spec in E1, E2. split; apply Rabs_def1; lra.
Qed.

(** the test is one-sided: a function on [0,1] plus one on [-5,-3] is accepted *)
Definition fx (a b : R) : Fun := mkFun f_x a b.
Lemma domain_check_refuted : exists F G H, fwf F /\ fwf G /\
  Rabs (dom0 F - dom0 G) > 1 /\ Rabs (dom1 F - dom1 G) > 1 /\ fun_add F G = Some H.
Proof.
  exists (fx 0 1), (fx (-5) (-3)).
  destruct (add_correct f_x f_x f_x_wf f_x_wf (or_introl eq_refl)) as [h [E _]].
  exists (mkFun h 0 1). split; [split; [exact f_x_wf|cbn; lra]|]. split; [split; [exact f_x_wf|cbn; lra]|].
  cbn [dom0 dom1 fx]. split; [|split].
  - rewrite Rabs_right; lra.
  - rewrite Rabs_right; lra.
  - unfold fun_add, fun_binary. rewrite dom_check_refl. cbn [andb].
    replace (dom_check (fx 0 1) (fx (-5) (-3))) with true.
    2:{ symmetry. apply dom_check_spec. cbn [dom0 dom1 fx].
        assert (0 < / 10 ^ 8) by (apply Rinv_0_lt_compat, pow_lt; lra). lra. }
    cbn [onefun fx]. rewrite E. reflexivity.
Qed.
(** hstack performs no test at all *)
Lemma hstack_domain_refuted : exists F G H, fwf F /\ fwf G /\ dom0 F <> dom0 G /\ fun_hstack [F; G] = Some H.
Proof.
  exists (fx 0 1), (fx (-5) 7).
  destruct (hstack_correct [f_x; f_x]) as [h [E _]]; [discriminate|repeat (constructor; [exact f_x_wf|]); constructor|].
  exists (mkFun h 0 1). split; [split; [exact f_x_wf|cbn; lra]|]. split; [split; [exact f_x_wf|cbn; lra]|].
  split; [cbn; lra|]. unfold fun_hstack. cbn [map onefun fx]. rewrite E. reflexivity.
Qed.

Definition fbc (G : Fun) (j : nat) : nat := bc (coeffs (onefun G)) j.

Lemma same_dom_check F G : dom0 F = dom0 G -> dom1 F = dom1 G -> dom_check F G = true.
Proof.
  intros E0 E1. apply dom_check_spec. rewrite E0, E1.
  assert (0 < / 10 ^ 8) by (apply Rinv_0_lt_compat, pow_lt; lra). lra.
Qed.

Lemma fun_add_correct F G : fwf F -> fwf G -> dom0 F = dom0 G -> dom1 F = dom1 G ->
  (fcols G = fcols F \/ fcols G = 1%nat) ->
  exists H, fun_add F G = Some H /\ fwf H /\ same_dom F H /\ fcols H = fcols F /\
   ((forall j x, (j < fcols F)%nat -> fev H j x = fev F j x + fev G (fbc G j) x)
    \/
    ((forall j k, (j < fcols F)%nat -> (k < Nat.max (flen F) (flen G))%nat ->
        Rabs (coef (onefun F) j k + coef (onefun G) (fbc G j) k)
          < 2/10 * (eps (onefun F) * Rmax (vscl (coeffs (onefun F))) (vscl (coeffs (onefun G))))) /\
     forall j x, (j < fcols F)%nat -> fev H j x = 0)).
Proof.
  intros [Wf Hd] [Wg _] E0 E1 Hc. destruct (add_correct _ _ Wf Wg Hc) as [h [E [Wh [Ch [_ Hh]]]]].
  exists (mkFun h (dom0 F) (dom1 F)). unfold fun_add, fun_binary. rewrite dom_check_refl, same_dom_check, E by assumption.
  split; [reflexivity|]. split; [split; [exact Wh|exact Hd]|]. split; [split; reflexivity|].
  split; [exact Ch|]. destruct Hh as [[_ Hh]|[Hs [_ Hh]]].
  - left. intros j x Hj. unfold fev. cbn [onefun dom0 dom1]. rewrite Hh by exact Hj. rewrite <- E0, <- E1. reflexivity.
  - right. split; [exact Hs|]. intros j x Hj. apply Hh. exact Hj.
Qed.

Lemma fun_subtract_correct F G : fwf F -> fwf G -> dom0 F = dom0 G -> dom1 F = dom1 G ->
  (fcols G = fcols F \/ fcols G = 1%nat) ->
  exists H, fun_subtract F G = Some H /\ fwf H /\ same_dom F H /\ fcols H = fcols F /\
   ((forall j x, (j < fcols F)%nat -> fev H j x = fev F j x - fev G (fbc G j) x)
    \/
    ((forall j k, (j < fcols F)%nat -> (k < Nat.max (flen F) (flen G))%nat ->
        Rabs (coef (onefun F) j k - coef (onefun G) (fbc G j) k)
          < 2/10 * (eps (onefun F) * Rmax (vscl (coeffs (onefun F))) (vscl (coeffs (onefun G))))) /\
     forall j x, (j < fcols F)%nat -> fev H j x = 0)).
Proof.
  intros [Wf Hd] [Wg _] E0 E1 Hc. destruct (subtract_correct _ _ Wf Wg Hc) as [h [E [Wh [Ch Hh]]]].
  exists (mkFun h (dom0 F) (dom1 F)). unfold fun_subtract, fun_binary. rewrite dom_check_refl, same_dom_check, E by assumption.
  split; [reflexivity|]. split; [split; [exact Wh|exact Hd]|]. split; [split; reflexivity|].
  split; [exact Ch|]. destruct Hh as [Hh|[Hs [_ Hh]]].
  - left. intros j x Hj. unfold fev. cbn [onefun dom0 dom1]. rewrite Hh by exact Hj. rewrite <- E0, <- E1. reflexivity.
  - right. split; [exact Hs|]. intros j x Hj. apply Hh. exact Hj.
Qed.

Lemma fun_negative_correct F : fwf F -> exists H, fun_negative F = Some H /\ fwf H /\ same_dom F H /\ fcols H = fcols F /\
   forall j x, (j < fcols F)%nat -> fev H j x = - fev F j x.
Proof.
  intros [Wf Hd]. destruct (negative_correct _ Wf) as [h [E [Wh [Ch [_ [_ Hh]]]]]].
  exists (mkFun h (dom0 F) (dom1 F)). unfold fun_negative. rewrite dom_check_refl, E.
  split; [reflexivity|]. split; [split; [exact Wh|exact Hd]|]. split; [split; reflexivity|].
  split; [exact Ch|]. intros j x Hj. apply Hh. exact Hj.
Qed.

Lemma fun_multiply_correct F G : fwf F -> fwf G -> dom0 F = dom0 G -> dom1 F = dom1 G ->
  (2 <= flen F)%nat -> (2 <= flen G)%nat ->
  (fcols F = fcols G \/ fcols F = 1%nat \/ fcols G = 1%nat) ->
  0 < eps (onefun F) < 1 -> 0 < eps (onefun G) < 1 ->
  exists H, fun_multiply F G = Some H /\ fcols H = Nat.max (fcols F) (fcols G) /\ same_dom F H /\
    forall j, (j < fcols H)%nat ->
      let P := fun x => fev F (fbc F j) x * fev G (fbc G j) x in
      let t := INR (flen F + flen G - 1 - flen H) * Rpower (Rmax (eps (onefun F)) (eps (onefun G))) (2 / 5) in
      ((flen F + flen G - 1 <= flen H)%nat -> forall x, fev H j x = P x) /\
      ((exists x, fev F (fbc F j) x <> fev G (fbc G j) x) -> forall x, dom0 F <= x <= dom1 F -> Rabs (P x - fev H j x) <= t).
Proof.
  intros [Wf Hd] [Wg _] E0 E1 HL1 HL2 Hc He1 He2.
  destruct (multiply_correct _ _ Wf Wg HL1 HL2 Hc) as [h0 [p [E [Wh [Ch [_ [_ Hh]]]]]]].
  destruct (multiply_error _ _ Wf Wg HL1 HL2 Hc He1 He2) as [h [E' [_ He]]].
  rewrite E in E'. injection E' as <-.
  exists (mkFun h0 (dom0 F) (dom1 F)). unfold fun_multiply, fun_binary. rewrite dom_check_refl, same_dom_check, E by assumption.
  split; [reflexivity|]. split; [exact Ch|]. split; [split; reflexivity|].
  intros j Hj. cbv zeta. unfold flen, fcols, fbc, fev in *. cbn [onefun dom0 dom1] in *. rewrite <- E0, <- E1.
  split.
  - intros HL x. destruct (Hh j Hj) as [_ [_ [_ [Hx _]]]]. apply Hx. exact HL.
  - intros [x0 Hne] x Hx. destruct (He j Hj) as [_ Q]. apply Q.
    + eexists. exact Hne.
    + apply (map_bijection _ _ Hd). exact Hx.
Qed.

(** ** construction on [a,b] *)
Lemma fun_construct_error ops e ml ms a b : a < b -> ops <> [] -> (initial_n ml ms <= ml)%Z -> 0 < e < 1 ->
  exists F N, fun_construct ops e ml ms a b = Some F /\ fwf F /\ dom0 F = a /\ dom1 F = b /\ fcols F = length ops /\
    (initial_n ml ms <= Z.of_nat N <= ml)%Z /\
    forall j, (j < length ops)%nat ->
      let op := nth j ops (fun _ => 0) in
      let tol := Rmax (Rmax (Rabs a) (Rabs b)) (vscale_col (interp (fun y => op (map_fwd a b y)) N)) * e in
      0 < tol < 1 ->
      let B := INR N * Rmax (Rpower tol (2 / 5)) (Rpower e (2 / 5)) in
      (forall i, (i < N)%nat -> let xi := map_fwd a b (nth i (chebpts_type2_compute N) 0) in Rabs (op xi - fev F j xi) <= B) /\
      (spanT N op -> forall x, a <= x <= b -> Rabs (op x - fev F j x) <= B).
Proof.
  intros Hab Ho Hml He.
  assert (Ho' : map (fun op y => op (map_fwd a b y)) ops <> []) by (destruct ops; [congruence|discriminate]).
  destruct (construct_error _ e (fun_hscale a b) ml ms Ho' Hml He) as [f [N [E [Wf [Cf [HN H]]]]]].
  rewrite map_length in Cf, H.
  exists (mkFun f a b), N. unfold fun_construct. rewrite E. split; [reflexivity|]. split; [split; [exact Wf|exact Hab]|].
  split; [reflexivity|]. split; [reflexivity|]. split; [exact Cf|]. split; [exact HN|].
  intros j Hj. cbv zeta. intros Ht. specialize (H j Hj).
  assert (Eop : nth j (map (fun op y => op (map_fwd a b y)) ops) (fun _ => 0) = (fun y => nth j ops (fun _ => 0) (map_fwd a b y))).
  { exact (map_nth (fun (op : R -> R) y => op (map_fwd a b y)) ops (fun _ => 0) j). }
  rewrite Eop in H. cbv zeta in H. destruct (H Ht) as [H1 H2].
  destruct (map_bijection a b Hab) as [_ [_ [_ [B1 [B2 [B3 _]]]]]].
  split.
  - intros i Hi. specialize (H1 i Hi). unfold fev. cbn [onefun dom0 dom1].
    assert (Hz : forall t, (2 * map_fwd a b t - a - b) / (b - a) = t) by (intros t; unfold map_fwd; field; lra).
    rewrite Hz. exact H1.
  - intros Sp x Hx. unfold fev. cbn [onefun dom0 dom1].
    assert (Hz : (2 * x - a - b) / (b - a) = map_bwd a b x) by (unfold map_bwd; field; lra). rewrite Hz.
    specialize (H2 ltac:(apply spanT_ext with (fun y => nth j ops (fun _ => 0) (/2 * (b - a) * y + / 2 * (a + b)));
       [intros y; f_equal; unfold map_fwd; field|apply spanT_affine; exact Sp]) (map_bwd a b x) (B1 x Hx)).
    cbn beta in H2. rewrite B3 in H2. exact H2.
Qed.

(** ** flatten / from_coeffs *)
Lemma reshapeF_concat m A : List.Forall (fun c => length c = m) A -> reshapeF m (length A) (concat A) = A.
Proof.
  induction A as [|c A IH]; intros H; [reflexivity|]. inversion H; subst. cbn.
  rewrite firstn_app, Nat.sub_diag, firstn_all, firstn_O, app_nil_r.
  rewrite skipn_app, Nat.sub_diag, skipn_all, skipn_O. cbn. rewrite IH by assumption. reflexivity.
Qed.
Lemma concat_reshapeF m k v : length v = (m * k)%nat -> concat (reshapeF m k v) = v.
Proof.
  revert v. induction k as [|k IH]; intros v H.
  - destruct v; [reflexivity|cbn in H; lia].
  - cbn. rewrite IH by (rewrite skipn_length; lia). apply firstn_skipn.
Qed.
Lemma reshapeF_rect m k v : length v = (m * k)%nat -> (1 <= m)%nat -> (1 <= k)%nat -> rect m (reshapeF m k v) /\ length (reshapeF m k v) = k.
Proof.
  intros H Hm Hk. assert (Q : List.Forall (fun c => length c = m) (reshapeF m k v) /\ length (reshapeF m k v) = k).
  { clear Hk. revert v H. induction k as [|k IH]; intros v H; [split; [constructor|reflexivity]|].
    cbn. destruct (IH (skipn m v)) as [I1 I2]; [rewrite skipn_length; lia|].
    split; [constructor; [rewrite firstn_length; lia|exact I1]|]. rewrite I2. reflexivity. }
  split; [|apply Q]. split; [exact Hm|]. split; [|apply Q]. destruct k; [lia|]. discriminate.
Qed.
Lemma concat_length_rect n (A : list (list R)) : List.Forall (fun c => length c = n) A -> length (concat A) = (n * length A)%nat.
Proof. induction A as [|c A IH]; intros H; [cbn; lia|]. inversion H; subst. cbn. rewrite app_length, IH by assumption. lia. Qed.

Lemma flatten_from_coeffs F : fwf F ->
  exists G, fun_from_coeffs (fun_flatten F) (fcols F) (dom0 F) (dom1 F) = Some G /\
    coeffs (onefun G) = coeffs (onefun F) /\ same_dom F G.
Proof.
  intros [Hw Hd]. assert (R := wf_rect _ Hw). destruct R as [R1 [R2 R3]].
  unfold fun_from_coeffs, fun_flatten, fcols, ncols. rewrite (concat_length_rect (len (onefun F))) by exact R3.
  assert (Hc : (1 <= length (coeffs (onefun F)))%nat) by (destruct (coeffs (onefun F)); [congruence|cbn; lia]).
  destruct (Nat.eqb_spec (length (coeffs (onefun F))) 0); [lia|].
  rewrite Nat.mod_mul, Nat.div_mul by lia. cbn [Nat.eqb].
  rewrite reshapeF_concat by exact R3.
  destruct (cheb_init_some _ _ eps_default (fun_hscale (dom0 F) (dom1 F)) maxLength_default false (wf_rect _ Hw)) as [hp [E _]].
  rewrite E. eexists. split; [reflexivity|]. split; [reflexivity|]. split; reflexivity.
Qed.
Lemma from_coeffs_flatten v k a b : (1 <= k)%nat -> (1 <= length v)%nat -> (length v mod k = 0)%nat ->
  exists G, fun_from_coeffs v k a b = Some G /\ fcols G = k /\ fun_flatten G = v /\ dom0 G = a /\ dom1 G = b.
Proof.
  intros Hk Hv Hm. unfold fun_from_coeffs. destruct (Nat.eqb_spec k 0); [lia|]. rewrite Hm. cbn [Nat.eqb].
  assert (E : length v = (length v / k * k)%nat) by (rewrite Nat.mul_comm; apply Nat.div_exact; lia).
  assert (Hq : (1 <= length v / k)%nat) by nia.
  destruct (reshapeF_rect (length v / k) k v E Hq Hk) as [R L].
  destruct (cheb_init_some _ _ eps_default (fun_hscale a b) maxLength_default false R) as [hp [Ei _]].
  rewrite Ei. eexists. split; [reflexivity|]. split; [exact L|]. split; [|split; reflexivity].
  unfold fun_flatten. cbn [onefun coeffs]. apply concat_reshapeF. exact E.
Qed.
Lemma from_coeffs_misfit v k a b : (k = 0 \/ length v mod k <> 0)%nat -> fun_from_coeffs v k a b = None.
Proof.
  intros H. unfold fun_from_coeffs. destruct (Nat.eqb_spec k 0); [reflexivity|].
  destruct (Nat.eqb_spec (length v mod k) 0); [tauto|reflexivity].
Qed.
