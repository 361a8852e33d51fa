(** Integral terms in the symbolic compiler (C156). *)
From Coq Require Import Reals List Arith Bool Lra Lia FunctionalExtensionality.
From Coquelicot Require Import Coquelicot.
From Verif Require Import Base ChebCalc SrcModel SrcSpec SrcProofs SrcLin SrcMain PropSrc SrcNlModel.
Import ListNotations.
Open Scope R_scope.

(** ** specification *)
Definition lsum {A} (f : A -> R) (l : list A) : R := fold_right (fun p acc => f p + acc) 0 l.
(** value at x of loc + sum m * Integral(f) on the domain [a,b] *)
Definition den_nl (E : env) (a b : R) (loc : sexp) (ts : list (sexp * sexp)) (x : R) : R := den E loc x + lsum (fun p => den E (fst p) x * RInt (den E (snd p)) a b) ts.
(** the linear operator of a compiled block (docstring of LinBlock): sum a_k v^(k) + sum c * integral of d v *)
Definition nl_apply (E : env) (a b : R) (blk : list sexp * list (sexp * sexp)) (v : R -> R) (x : R) : R :=
  rsum (length (fst blk)) (fun k => den E (nth k (fst blk) (SNum 0)) x * Derive_n v k x) + lsum (fun p => den E (fst p) x * RInt (fun y => den E (snd p) y * v y) a b) (snd blk).

(** ** proofs *)
Lemma cpt f x : ex_derive f x -> continuity_pt f x.
Proof. intros H. apply continuity_pt_filterlim. exact (ex_derive_continuous f x H). Qed.
Lemma cpt_n f k x : smooth f -> continuity_pt (Derive_n f k) x.
Proof. intros H. apply cpt. eexists. apply smooth_derive, H. Qed.
Lemma cont2d E v c t0 y0 : smoothE E -> (forall j, smooth (v j)) -> nosd c -> dat (move E v t0) y0 c -> continuity_2d_pt (fun t y => den (move E v t) c y) t0 y0.
Proof.
  intros [Sc [Sf Sp]] Sv. induction c; cbn [nosd dat den]; intros N D.
  - apply continuity_2d_pt_const.
  - apply continuity_2d_pt_id2.
  - apply (continuity_2d_pt_const t0 y0 (e_par E p)).
  - apply (continuity_1d_2d_pt_comp (Derive_n (e_cf E j) k) (fun _ y => y)); [apply cpt_n, Sc|apply continuity_2d_pt_id2].
  - apply (continuity_2d_pt_ext (fun t y => Derive_n (e_fun E j) k y + t * Derive_n (v j) k y)).
    + intros t y. cbn [move e_fun]. symmetry. apply Derive_n_move; [apply Sf|apply Sv].
    + apply (continuity_2d_pt_plus (fun _ y => Derive_n (e_fun E j) k y) (fun t y => t * Derive_n (v j) k y)).
      * apply (continuity_1d_2d_pt_comp (Derive_n (e_fun E j) k) (fun _ y => y)); [apply cpt_n, Sf|apply continuity_2d_pt_id2].
      * apply (continuity_2d_pt_mult (fun t _ => t) (fun _ y => Derive_n (v j) k y)); [apply continuity_2d_pt_id1|]. apply (continuity_1d_2d_pt_comp (Derive_n (v j) k) (fun _ y => y)); [apply cpt_n, Sv|apply continuity_2d_pt_id2].
  - apply (continuity_1d_2d_pt_comp (Derive_n (e_pert E l j) k) (fun _ y => y)); [apply cpt_n, Sp|apply continuity_2d_pt_id2].
  - apply (continuity_2d_pt_const t0 y0 (e_eps E)).
  - apply (continuity_2d_pt_plus (fun t y => den (move E v t) c1 y) (fun t y => den (move E v t) c2 y)); [apply IHc1|apply IHc2]; tauto.
  - apply (continuity_2d_pt_mult (fun t y => den (move E v t) c1 y) (fun t y => den (move E v t) c2 y)); [apply IHc1|apply IHc2]; tauto.
  - apply (continuity_1d_2d_pt_comp (fun z => z ^ n) (fun t y => den (move E v t) c y)); [|apply IHc; assumption]. apply cpt. auto_derive. exact I.
  - apply (continuity_2d_pt_inv (fun t y => den (move E v t) c y)); [apply IHc|]; tauto.
  - apply (continuity_1d_2d_pt_comp (den_fn1 f) (fun t y => den (move E v t) c y)); [|apply IHc; assumption]. apply cpt. destruct f; cbn; auto_derive; exact I.
  - contradiction.
Qed.
Lemma move_move E v t s : move (move E v t) v s = move E v (t + s).
Proof. unfold move. cbn. f_equal. apply functional_extensionality. intros j. apply functional_extensionality. intros y. ring. Qed.
Lemma is_derive_shift (f : R -> R) t l : is_derive (fun s => f (t + s)) 0 l -> is_derive f t l.
Proof.
  intros H. apply (is_derive_ext (fun y => f (t + (y - t)))); [intros y; f_equal; ring|].
  evar_last; [apply (is_derive_comp (fun s => f (t + s)) (fun y => y - t) t l 1)|].
  - replace (t - t) with 0 by ring. exact H.
  - auto_derive; [exact I|ring].
  - unfold scal; cbn; unfold mult; cbn. ring.
Qed.
Lemma defined_near_at E v a b s : defined_near E v a b s -> locally 0 (fun t => defined_near (move E v t) v a b s).
Proof.
  intros H. apply locally_locally in H. revert H. apply filter_imp. intros t Ht. unfold defined_near. destruct Ht as [d Hd]. exists d. intros s0 Hs. rewrite move_move. apply Hd. unfold ball in *. cbn in *. unfold AbsRing_ball, abs, minus, plus, opp in *. cbn in *. replace (t + s0 + - t) with (s0 + - 0) by ring. exact Hs.
Qed.
Lemma ex_RInt_den E a' b' a b s : smoothE E -> defined E a' b' s -> a' < a -> a <= b -> b < b' -> ex_RInt (den E s) a b.
Proof.
  intros SE D A B C. apply (ex_RInt_continuous (V := R_CompleteNormedModule)). intros z Hz. rewrite Rmin_left, Rmax_right in Hz by lra.
  assert (Hz' : a' < z < b') by lra. apply (continuous_ext_loc (den E s) (den E (norm s)) z).
  - apply (filter_imp (fun y => a' < y < b')); [|apply locally_interval, Hz']. intros y Hy. apply (norm_correct E a' b' s SE D y Hy).
  - apply (ex_derive_continuous (den E (norm s)) z). eexists. apply sdx_correct; [exact SE|apply norm_nosd|]. apply (norm_correct E a' b' s SE D z Hz').
Qed.

Lemma cont2d_rsum n (f : nat -> R -> R -> R) t y : (forall j, (j < n)%nat -> continuity_2d_pt (f j) t y) -> continuity_2d_pt (fun u w => rsum n (fun j => f j u w)) t y.
Proof.
  induction n as [|n IH]; intros H; cbn [rsum]; [apply continuity_2d_pt_const|]. apply (continuity_2d_pt_plus (fun u w => rsum n (fun j => f j u w)) (f n)); [apply IH; intros; apply H; lia|apply H; lia].
Qed.
Lemma locally_2d_prod (P : R -> Prop) a b t y : locally t P -> a < y < b -> locally_2d (fun u w => P u /\ a < w < b) t y.
Proof.
  intros [d Hd] Hy. destruct (locally_interval a b y Hy) as [e He]. assert (M : 0 < Rmin d e) by (apply Rmin_glb_lt; apply cond_pos). exists (mkposreal _ M). cbn. intros u w Hu Hw. split.
  - apply Hd. unfold ball; cbn; unfold AbsRing_ball, abs, minus, plus, opp; cbn. assert (X := Rmin_l d e). unfold Rminus in Hu. lra.
  - apply He. unfold ball; cbn; unfold AbsRing_ball, abs, minus, plus, opp; cbn. assert (X := Rmin_r d e). unfold Rminus in Hw. lra.
Qed.
(** the derivative of the integral of f along the perturbation *)
Lemma dir_at E nf f a' b' y t : smoothE E -> user nf f -> (forall j, (j < nf)%nat -> ode_order j f = 0%nat) -> defined_near (move E (e_pert E 1) t) (e_pert E 1) a' b' f -> a' < y < b' ->
  is_derive (fun s => den (move E (e_pert E 1) s) f y) t (rsum nf (fun j => den (move E (e_pert E 1) t) (nth 0 (lin_block 0 j f) (SNum 0)) y * e_pert E 1 j y)).
Proof.
  intros SE U O D Hy. apply is_derive_shift. apply (is_derive_ext (fun s => den (move (move E (e_pert E 1) t) (e_pert E 1) s) f y)); [intros s; now rewrite move_move|].
  evar_last; [apply (lin_action (move E (e_pert E 1) t) 0 nf f a' b' y)|].
  - apply smooth_move; [exact SE|]. intros j. apply SE.
  - exact U.
  - intros j Hj. rewrite O by exact Hj. lia.
  - exact D.
  - exact Hy.
  - rewrite (row_blocks _ y 1 0 nf) by (intros; apply coeffs_length). apply rsum_ext. intros j Hj. cbn [rsum Derive_n]. cbn [move e_pert]. ring.
Qed.
Lemma lb_nosd K i k s : nosd (nth k (lin_block K i s) (SNum 0)).
Proof. unfold lin_block. apply coeffs_P; [apply closed_nosd|apply fr_nosd, norm_nosd]. Qed.
Lemma lb_dat nf E x K i k s : user nf s -> dat E x (norm s) -> dat E x (nth k (lin_block K i s) (SNum 0)).
Proof. intros U D. unfold lin_block. apply coeffs_P; [apply closed_dat|]. apply fr_dat; [apply norm_nosd|apply (user_epsfree nf), user_norm, U|exact D]. Qed.
Lemma int_deriv E nf f a' b' a b : smoothE E -> user nf f -> (forall j, (j < nf)%nat -> ode_order j f = 0%nat) -> defined_near E (e_pert E 1) a' b' f -> a' < a -> a <= b -> b < b' ->
  is_derive (fun t => RInt (den (move E (e_pert E 1) t) f) a b) 0 (rsum nf (fun j => RInt (fun y => den E (nth 0 (lin_block 0 j f) (SNum 0)) y * e_pert E 1 j y) a b)).
Proof.
  intros SE U O D A B C. assert (Sv : forall j, smooth (e_pert E 1 j)) by (intros j; apply SE). assert (DN := defined_near_at _ _ _ _ _ D). assert (D0 := defined_near_0 _ _ _ _ _ D).
  assert (CJ : forall j, (j < nf)%nat -> forall y, a' < y < b' -> continuity_2d_pt (fun t y => den (move E (e_pert E 1) t) (nth 0 (lin_block 0 j f) (SNum 0)) y * e_pert E 1 j y) 0 y).
  { intros j Hj y Hy. apply (continuity_2d_pt_mult (fun t y => den (move E (e_pert E 1) t) (nth 0 (lin_block 0 j f) (SNum 0)) y) (fun _ y => e_pert E 1 j y)).
    - apply cont2d; [exact SE|exact Sv|apply lb_nosd|]. rewrite move_0. apply (lb_dat nf); [exact U|]. apply (norm_correct E a' b' f SE D0 y Hy).
    - apply (continuity_1d_2d_pt_comp (e_pert E 1 j) (fun _ y => y)); [apply (cpt_n _ 0), Sv|apply continuity_2d_pt_id2]. }
  evar_last; [apply (is_derive_RInt_param (fun t y => den (move E (e_pert E 1) t) f y) a b 0)|].
  - apply (filter_imp (fun t => defined_near (move E (e_pert E 1) t) (e_pert E 1) a' b' f)); [|exact DN]. intros t Ht y Hy. rewrite Rmin_left, Rmax_right in Hy by lra. eexists. apply (dir_at E nf f a' b'); try assumption. lra.
  - intros y Hy. rewrite Rmin_left, Rmax_right in Hy by lra. assert (Hy' : a' < y < b') by lra.
    apply (continuity_2d_pt_ext_loc (fun t y => rsum nf (fun j => den (move E (e_pert E 1) t) (nth 0 (lin_block 0 j f) (SNum 0)) y * e_pert E 1 j y))).
    + destruct (locally_2d_prod _ a' b' 0 y DN Hy') as [d Hd]. exists d. intros u w Hu Hw. destruct (Hd u w Hu Hw) as [P Q]. symmetry. apply is_derive_unique. apply (dir_at E nf f a' b'); assumption.
    + apply cont2d_rsum. intros j Hj. apply CJ; assumption.
  - apply (filter_imp (fun t => defined (move E (e_pert E 1) t) a' b' f)); [|exact D]. intros t Ht. apply (ex_RInt_den _ a' b' a b f); try assumption. apply smooth_move; assumption.
  - apply is_RInt_unique. apply (is_RInt_ext (fun y => rsum nf (fun j => den E (nth 0 (lin_block 0 j f) (SNum 0)) y * e_pert E 1 j y))).
    + intros y Hy. rewrite Rmin_left, Rmax_right in Hy by lra. symmetry. apply is_derive_unique. evar_last; [apply (dir_at E nf f a' b' y 0 SE U O); [rewrite move_0; exact D|lra]|]. apply rsum_ext. intros j Hj. rewrite move_0. reflexivity.
    + apply is_RInt_rsum. intros j Hj. apply (RInt_correct (V := R_CompleteNormedModule)). apply (ex_RInt_continuous (V := R_CompleteNormedModule)). intros z Hz. rewrite Rmin_left, Rmax_right in Hz by lra.
      apply (continuous_mult (den E (nth 0 (lin_block 0 j f) (SNum 0))) (e_pert E 1 j)); [apply (ex_derive_continuous (den E (nth 0 (lin_block 0 j f) (SNum 0))) z)|apply (ex_derive_continuous (e_pert E 1 j) z)].
      * eexists. apply sdx_correct; [exact SE|apply lb_nosd|]. apply (lb_dat nf); [exact U|]. apply (norm_correct E a' b' f SE D0). lra.
      * exact (Sv j 1%nat z).
Qed.
Lemma den_move_const E v t nf m : user nf m -> (forall j, (j < nf)%nat -> contains j m = false) -> forall x, den (move E v t) m x = den E m x.
Proof.
  induction m; cbn [user contains den]; intros U H x; try reflexivity; try contradiction.
  - specialize (H j U). rewrite Nat.eqb_refl in H. discriminate.
  - rewrite IHm1, IHm2; [reflexivity| | | |]; try tauto; intros j Hj; specialize (H j Hj); apply orb_false_iff in H; tauto.
  - rewrite IHm1, IHm2; [reflexivity| | | |]; try tauto; intros j Hj; specialize (H j Hj); apply orb_false_iff in H; tauto.
  - rewrite IHm by assumption. reflexivity.
  - rewrite IHm by assumption. reflexivity.
  - rewrite IHm by assumption. reflexivity.
  - apply Derive_ext. intros y. apply IHm; assumption.
Qed.
Lemma lsum_ext {A} (f g : A -> R) l : (forall p, In p l -> f p = g p) -> lsum f l = lsum g l.
Proof. induction l as [|p l IH]; intros H; [reflexivity|]. cbn [lsum fold_right]. fold (lsum f l). fold (lsum g l). rewrite IH by (intros; apply H; now right). rewrite H by now left. reflexivity. Qed.
Lemma lsum_map {A B} (f : B -> R) (h : A -> B) l : lsum f (map h l) = lsum (fun p => f (h p)) l.
Proof. induction l as [|p l IH]; [reflexivity|]. cbn [map lsum fold_right]. f_equal. exact IH. Qed.
Lemma lsum_rsum {A} n (f : nat -> A -> R) l : lsum (fun p => rsum n (fun j => f j p)) l = rsum n (fun j => lsum (f j) l).
Proof. induction l as [|p l IH]; cbn [lsum fold_right]; [symmetry; apply rsum_zero; reflexivity|]. fold (lsum (fun p => rsum n (fun j => f j p)) l). rewrite IH, <- rsum_plus. reflexivity. Qed.
Lemma is_derive_lsum {A} (f : A -> R -> R) (d : A -> R) t l : (forall p, In p l -> is_derive (f p) t (d p)) -> is_derive (fun s => lsum (fun p => f p s) l) t (lsum d l).
Proof.
  induction l as [|p l IH]; intros H; [exact (is_derive_K 0 t)|]. cbn [lsum fold_right]. apply (is_derive_plus (f p) (fun s => lsum (fun p => f p s) l)); [apply H; now left|apply IH; intros; apply H; now right].
Qed.
Lemma filter_single (gs : list (sexp * sexp)) p : NoDup (map snd gs) -> In p gs -> filter (fun q => if sexp_eq_dec (snd q) (snd p) then true else false) gs = [p].
Proof.
  induction gs as [|q gs IH]; intros N I; [destruct I|]. cbn [map] in N. inversion N as [|? ? N1 N2]; subst. cbn [filter]. destruct I as [->|I].
  - destruct (sexp_eq_dec (snd p) (snd p)) as [_|X]; [|congruence]. f_equal. clear - N1. induction gs as [|r gs IH]; [reflexivity|]. cbn [filter map] in *. destruct (sexp_eq_dec (snd r) (snd p)) as [X|X]; [exfalso; apply N1; left; exact X|]. apply IH. intros Y. apply N1. now right.
  - destruct (sexp_eq_dec (snd q) (snd p)) as [X|X]; [exfalso; apply N1; rewrite X; now apply in_map|]. apply IH; assumption.
Qed.
Lemma isz_SNum g : isz g = true -> g = SNum 0.
Proof. destruct g; cbn; try discriminate. destruct (Req_EM_T r 0); [congruence|discriminate]. Qed.
Lemma atoms s : tall (fun t => expand t = [[t]]) (expand s).
Proof.
  induction s; cbn [expand]; try (intros m [<-|[]] t [<-|[]]; reflexivity); [apply tall_app; assumption|apply tall_tmul; assumption|apply tall_tpow; assumption].
Qed.
Lemma expand_sprod m : (forall s, In s m -> expand s = [[s]]) -> expand (sprod m) = [m ++ [SNum 1]].
Proof.
  unfold sprod. induction m as [|s m IH]; intros H; [reflexivity|]. cbn [fold_right expand]. rewrite IH by (intros; apply H; now right). rewrite (H s) by now left. reflexivity.
Qed.
Lemma coeff_sprod E y j m : (forall s, In s m -> expand s = [[s]]) -> den E (of_terms (coeff 1 j 0 (expand (sprod m)))) y = dsum E y (coeff 1 j 0 [m]).
Proof.
  intros H. rewrite expand_sprod by exact H. rewrite of_terms_den. unfold coeff. cbn [flat_map]. rewrite !filter_app. cbn [filter is_pert negb]. rewrite !app_nil_r.
  destruct (Nat.eqb _ 1); [|reflexivity]. cbn [dsum fold_right]. rewrite dprod_app. cbn [dprod fold_right den]. ring.
Qed.
Lemma coeff_cons E y j m ts : dsum E y (coeff 1 j 0 (m :: ts)) = dsum E y (coeff 1 j 0 [m]) + dsum E y (coeff 1 j 0 ts).
Proof. unfold coeff. cbn [flat_map]. rewrite app_nil_r, dsum_app. reflexivity. Qed.
Lemma cont_terms E y ts : smoothE E -> tall nosd ts -> tall (dat E y) ts -> forall j, continuous (fun z => dsum E z (coeff 1 j 0 ts)) y.
Proof.
  intros SE N D j. apply (continuous_ext (den E (of_terms (coeff 1 j 0 ts)))); [intros z; apply of_terms_den|]. apply (ex_derive_continuous (den E (of_terms (coeff 1 j 0 ts)))). eexists. apply sdx_correct; [exact SE| |]; apply of_terms_P; try apply closed_nosd; try apply closed_dat; apply coeff_tall; assumption.
Qed.
Lemma tall_cons P m ts : tall P (m :: ts) -> tall P [m] /\ tall P ts.
Proof. intros H. split; [intros q [<-|[]] s Is; apply (H m (or_introl eq_refl) s Is)|intros q Iq; apply H; now right]. Qed.
Lemma split_terms E a b j (v : R -> R) ts : smoothE E -> smooth v -> a <= b -> tall nosd ts -> tall (fun t => expand t = [[t]]) ts -> (forall y, a <= y <= b -> tall (dat E y) ts) ->
  is_RInt (fun y => dsum E y (coeff 1 j 0 ts) * v y) a b (lsum (fun m => RInt (fun y => den E (of_terms (coeff 1 j 0 (expand (sprod m)))) y * v y) a b) ts).
Proof.
  intros SE Sv Hab. induction ts as [|m ts IH]; intros N A D.
  - cbn [lsum fold_right]. apply (is_RInt_ext (fun _ => 0)); [intros; symmetry; apply Rmult_0_l|]. evar_last; [apply (is_RInt_const (V := R_NormedModule) a b 0)|]. apply (Rmult_0_r (b - a)).
  - destruct (tall_cons _ _ _ N) as [N1 N2]. destruct (tall_cons _ _ _ A) as [A1 A2]. cbn [lsum fold_right]. fold (lsum (fun m => RInt (fun y => den E (of_terms (coeff 1 j 0 (expand (sprod m)))) y * v y) a b) ts).
    apply (is_RInt_ext (fun y => plus (dsum E y (coeff 1 j 0 [m]) * v y) (dsum E y (coeff 1 j 0 ts) * v y))); [intros y _; rewrite (coeff_cons E y j m ts); unfold plus; cbn [AbelianGroup.plus R_AbelianGroup]; symmetry; apply Rmult_plus_distr_r|].
    apply (is_RInt_plus (V := R_NormedModule)).
    + apply (is_RInt_ext (fun y => den E (of_terms (coeff 1 j 0 (expand (sprod m)))) y * v y)); [intros y _; f_equal; apply coeff_sprod, (A1 m (or_introl eq_refl))|].
      apply (RInt_correct (V := R_CompleteNormedModule)). apply (ex_RInt_ext (fun y => dsum E y (coeff 1 j 0 [m]) * v y)); [intros y _; f_equal; symmetry; apply coeff_sprod, (A1 m (or_introl eq_refl))|].
      apply (ex_RInt_continuous (V := R_CompleteNormedModule)). intros z Hz. rewrite Rmin_left, Rmax_right in Hz by lra.
      apply (continuous_mult (fun y => dsum E y (coeff 1 j 0 [m])) v); [apply cont_terms; [exact SE|exact N1|apply (tall_cons _ _ _ (D z Hz))]|apply (ex_derive_continuous v z); exact (Sv 1%nat z)].
    + apply IH; [exact N2|exact A2|]. intros y Hy. apply (tall_cons _ _ _ (D y Hy)).
Qed.
Lemma lsum_app {A} (f : A -> R) l r : lsum f (l ++ r) = lsum f l + lsum f r.
Proof. induction l as [|p l IH]; cbn [app lsum fold_right]; [symmetry; apply Rplus_0_l|]. fold (lsum f (l ++ r)). fold (lsum f l). rewrite IH. symmetry. apply Rplus_assoc. Qed.
Lemma lsum_scal {A} c (f : A -> R) l : lsum (fun p => c * f p) l = c * lsum f l.
Proof. induction l as [|p l IH]; cbn [lsum fold_right]; [symmetry; apply Rmult_0_r|]. fold (lsum (fun p => c * f p) l). fold (lsum f l). rewrite IH. symmetry. apply Rmult_plus_distr_l. Qed.
Lemma nl_ops_value E a b sp j ts (v : R -> R) x : smoothE E -> smooth v -> a <= b -> (forall m f, In (m, f) ts -> forall y, a <= y <= b -> dat E y (frechet 1 j f)) -> NoDup (map snd (nl_terms sp j ts)) ->
  lsum (fun p => den E (fst p) x * RInt (fun y => den E (snd p) y * v y) a b) (map (nl_op j (nl_terms sp j ts)) (nl_terms sp j ts)) = lsum (fun p => den E (fst p) x * RInt (fun y => den E (nth 0 (lin_block 0 j (snd p)) (SNum 0)) y * v y) a b) ts.
Proof.
  intros SE Sv Hab D N. rewrite lsum_map. transitivity (lsum (fun p => den E (fst p) x * RInt (fun y => den E (of_terms (coeff 1 j 0 (expand (snd p)))) y * v y) a b) (nl_terms sp j ts)).
  - apply lsum_ext. intros p Ip. unfold nl_op at 1 2. cbn [fst snd]. rewrite (filter_single _ p N Ip). f_equal. cbn. rewrite Rmult_1_r. apply Rplus_0_r.
  - clear N. induction ts as [|p ts IH]; [reflexivity|]. cbn [nl_terms flat_map]. fold (nl_terms sp j ts). rewrite lsum_app. cbn [lsum fold_right].
    rewrite IH by (intros m f If; apply (D m f); now right). fold (lsum (fun p => den E (fst p) x * RInt (fun y => den E (nth 0 (lin_block 0 j (snd p)) (SNum 0)) y * v y) a b) ts). f_equal. clear IH.
    assert (X : nth 0 (lin_block 0 j (snd p)) (SNum 0) = of_terms (coeff 1 j 0 (expand (frechet 1 j (snd p))))) by reflexivity. rewrite X.
    assert (Dp : forall y, a <= y <= b -> dat E y (frechet 1 j (snd p))) by (apply (D (fst p)); left; now destruct p).
    destruct (isz (frechet 1 j (snd p))) eqn:Z; [|destruct sp].
    + apply isz_SNum in Z. rewrite Z. cbn [fold_right]. rewrite (RInt_ext _ (fun _ => 0)) by (intros; cbn; ring). rewrite RInt_const. transitivity (den E (fst p) x * ((b - a) * 0)); [cbn [lsum fold_right]; rewrite !Rmult_0_r; reflexivity|reflexivity].
    + rewrite lsum_map. cbn [fst snd]. rewrite lsum_scal. f_equal. symmetry. apply is_RInt_unique. apply (is_RInt_ext (fun y => dsum E y (coeff 1 j 0 (expand (frechet 1 j (snd p)))) * v y)); [intros y _; f_equal; symmetry; apply of_terms_den|].
      apply split_terms; [exact SE|exact Sv|exact Hab| |apply atoms|].
      * apply expand_tall; try (cbn; tauto). apply fr_nosd, norm_nosd.
      * intros y Hy. apply expand_tall; try (cbn; tauto). apply Dp, Hy.
    + cbn [fold_right fst snd]. apply Rplus_0_r.
Qed.

(** ** C156 *)
Theorem C156_nonlocal_partial : forall E sp K nf loc ts a' b' a b x, smoothE E -> a' < a -> a <= b -> b < b' -> a' < x < b' ->
  user nf loc -> (forall j, (j < nf)%nat -> (ode_order j loc <= K)%nat) -> defined_near E (e_pert E 1) a' b' loc ->
  (forall m f, In (m, f) ts -> user nf m /\ (forall j, (j < nf)%nat -> contains j m = false) /\ user nf f /\ (forall j, (j < nf)%nat -> ode_order j f = 0%nat) /\ defined_near E (e_pert E 1) a' b' f) ->
  (forall j, (j < nf)%nat -> NoDup (map snd (nl_terms sp j ts))) ->
  exists B, (forall j, (j < nf)%nat -> nl_block sp K j loc ts = Some (B j)) /\
    is_derive (fun t => den_nl (move E (e_pert E 1) t) a b loc ts x) 0 (rsum nf (fun j => nl_apply E a b (B j) (e_pert E 1 j) x)).
Proof.
  intros E sp K nf loc ts a' b' a b x SE A Bb C Hx U O D T N. exists (fun j => (lin_block K j loc, map (nl_op j (nl_terms sp j ts)) (nl_terms sp j ts))). split.
  - intros j Hj. unfold nl_block. destruct (existsb _ ts) eqn:X; [|reflexivity]. apply existsb_exists in X. destruct X as [[m f] [I X]]. cbn [fst] in X. destruct (T m f I) as [_ [H _]]. rewrite H in X by exact Hj. discriminate.
  - unfold den_nl, nl_apply. cbn [fst snd]. rewrite rsum_plus.
    apply (is_derive_plus (fun t => den (move E (e_pert E 1) t) loc x) (fun t => lsum (fun p => den (move E (e_pert E 1) t) (fst p) x * RInt (den (move E (e_pert E 1) t) (snd p)) a b) ts)).
    + evar_last; [apply (lin_action E K nf loc a' b' x); assumption|]. rewrite (row_blocks E x 1 K nf) by (intros; apply coeffs_length). apply rsum_ext. intros j Hj. unfold lin_block at 2. rewrite coeffs_length. reflexivity.
    + evar_last; [apply (is_derive_lsum (fun p t => den (move E (e_pert E 1) t) (fst p) x * RInt (den (move E (e_pert E 1) t) (snd p)) a b) (fun p => rsum nf (fun j => den E (fst p) x * RInt (fun y => den E (nth 0 (lin_block 0 j (snd p)) (SNum 0)) y * e_pert E 1 j y) a b)))|].
      * intros [m f] I. cbn [fst snd]. destruct (T m f I) as [Um [Cm [Uf [Of Df]]]].
        apply (is_derive_ext (fun t => den E m x * RInt (den (move E (e_pert E 1) t) f) a b)); [intros t; rewrite (den_move_const E _ t nf m Um Cm); reflexivity|].
        evar_last; [apply (is_derive_scal (fun t => RInt (den (move E (e_pert E 1) t) f) a b) 0 (den E m x)); apply (int_deriv E nf f a' b' a b); assumption|]. cbv beta. rewrite rsum_scal. reflexivity.
      * rewrite lsum_rsum. apply rsum_ext. intros j Hj. symmetry. apply nl_ops_value; [exact SE|apply SE|exact Bb| |apply N, Hj]. intros m f I y Hy. destruct (T m f I) as [_ [_ [Uf [_ Df]]]]. apply fr_dat; [apply norm_nosd|apply (user_epsfree nf), user_norm, Uf|]. apply (norm_correct E a' b' f SE (defined_near_0 _ _ _ _ _ Df)). lra.
Qed.
Print Assumptions C156_nonlocal_partial.

(** ** failures *)
Lemma frechet_fun k : frechet 1 0 (SFun 0 k) = SMul (SNum 1) (SPert 1 0 k).
Proof. unfold frechet, diff_eps. cbn [norm repl Nat.eqb sdiff subs0]. unfold smul. rewrite isz0, isz1. cbn [isz]. unfold sadd. rewrite isz0. reflexivity. Qed.
Lemma eqd s : (if sexp_eq_dec s s then true else false) = true.
Proof. destruct (sexp_eq_dec s s); congruence. Qed.
Definition c156_env (n : nat) : env := mkEnv (fun _ => 1) (fun _ _ => 0) (fun _ x => x ^ 2) (fun _ _ x => x ^ n) 0.
Lemma c156_smooth n : smoothE (c156_env n).
Proof. split; [intros j; apply (smooth_K 0)|]. split; [intros j; apply (smooth_pow 2)|]. intros l j. apply (smooth_pow n). Qed.
Lemma frechet_num : frechet 1 0 (SNum 0) = SNum 0. Proof. reflexivity. Qed.
Lemma RInt_K (f : R -> R) c : (forall y, f y = c) -> RInt f (-1) 1 = 2 * c.
Proof. intros H. rewrite (RInt_ext f (fun _ => c)) by (intros; apply H). rewrite RInt_const. unfold scal; cbn; unfold mult; cbn. ring. Qed.
Lemma RInt_u t : RInt (fun y => y ^ 2 + t * y ^ 0) (-1) 1 = 2 / 3 + 2 * t.
Proof.
  apply is_RInt_unique. evar_last; [apply (is_RInt_derive (fun y => y ^ 3 / 3 + t * y))|].
  - intros y _. auto_derive; [exact I|]. cbn. field.
  - intros y _. apply (ex_derive_continuous (fun y => y ^ 2 + t * y ^ 0)). auto_derive. exact I.
  - unfold minus, plus, opp. cbn. field.
Qed.
(** (x + 1) * Integral(u): expand gives two terms with the same integral, and each of the two operators gets the sum as coefficient *)
Definition c156_sum : list (sexp * sexp) := [(SX, SFun 0 0); (SNum 1, SFun 0 0)].
Theorem C156_sum_coefficient_refuted : exists E ts x, smoothE E /\ -1 < x < 1 /\ (forall m f, In (m, f) ts -> user 1 m /\ contains 0 m = false /\ user 1 f /\ ode_order 0 f = 0%nat) /\
  is_derive (fun t => den_nl (move E (e_pert E 1) t) (-1) 1 (SNum 0) ts x) 0 2 /\
  forall sp, exists B, nl_block sp 0 0 (SNum 0) ts = Some B /\ nl_apply E (-1) 1 B (e_pert E 1 0) x = 4.
Proof.
  exists (c156_env 0), c156_sum, 0. split; [apply c156_smooth|]. split; [lra|]. split; [intros m f [X|[X|[]]]; injection X as <- <-; cbn; lia|]. split.
  - apply (is_derive_ext (fun t => 2 / 3 + 2 * t)).
    + intros t. unfold den_nl, c156_sum. cbn [lsum fold_right fst snd den move e_fun c156_env Derive_n e_pert]. rewrite RInt_u. lazymatch goal with |- @eq _ ?p ?q => enough (Z : @eq R p q) by exact Z end. ring.
    + auto_derive; [exact I|ring].
  - intros sp. unfold nl_block. cbn [existsb c156_sum contains fst orb]. eexists. split; [reflexivity|]. unfold nl_apply. cbn [fst snd].
    assert (L : rsum (length (lin_block 0 0 (SNum 0))) (fun k => den (c156_env 0) (nth k (lin_block 0 0 (SNum 0)) (SNum 0)) 0 * Derive_n (e_pert (c156_env 0) 1 0) k 0) = 0).
    { unfold lin_block. rewrite frechet_num. cbn. ring. }
    rewrite L. unfold nl_terms. cbn [flat_map fst snd c156_sum]. rewrite !frechet_fun. cbn [isz].
    destruct sp; cbn [map app expand tmul flat_map sprod fold_right]; unfold nl_op; cbn [filter snd fst]; rewrite !eqd; cbn [map of_terms fold_right lsum fst snd den].
    + rewrite !(RInt_K _ 1); [ring|]; intros y; cbn; ring.
    + rewrite !(RInt_K _ 1); [ring|]; intros y; cbn; ring.
Qed.
Print Assumptions C156_sum_coefficient_refuted.
(** Integral(u'): only the undifferentiated perturbation is looked for in the integrand *)
Theorem C156_derivative_refuted : exists E f x, smoothE E /\ -1 < x < 1 /\ user 1 f /\ (ode_order 0 f <= 1)%nat /\
  is_derive (fun t => den_nl (move E (e_pert E 1) t) (-1) 1 (SNum 0) [(SNum 1, f)] x) 0 2 /\
  forall sp, exists B, nl_block sp 1 0 (SNum 0) [(SNum 1, f)] = Some B /\ nl_apply E (-1) 1 B (e_pert E 1 0) x = 0.
Proof.
  exists (c156_env 1), (SFun 0 1), 0. split; [apply c156_smooth|]. split; [lra|]. split; [cbn; lia|]. split; [cbn; lia|]. split.
  - apply (is_derive_ext (fun t => 2 * t)).
    + intros t. unfold den_nl. cbn [lsum fold_right fst snd den]. rewrite (RInt_ext _ (fun y => 2 * y + t * 1)).
      * rewrite (is_RInt_unique _ _ _ (2 * t)); [lazymatch goal with |- @eq _ ?p ?q => enough (Z : @eq R p q) by exact Z end; ring|]. evar_last; [apply (is_RInt_derive (fun y => y ^ 2 + t * y))|].
        -- intros y _. auto_derive; [exact I|]. cbn. ring.
        -- intros y _. apply (ex_derive_continuous (fun y => 2 * y + t * 1)). auto_derive. exact I.
        -- unfold minus, plus, opp. cbn. ring.
      * intros y _. cbn [move e_fun c156_env e_pert Derive_n]. apply is_derive_unique. auto_derive; [exact I|]. cbn. ring.
    + auto_derive; [exact I|ring].
  - intros sp. unfold nl_block. cbn [existsb contains fst orb]. eexists. split; [reflexivity|]. unfold nl_apply. cbn [fst snd].
    assert (L : rsum (length (lin_block 1 0 (SNum 0))) (fun k => den (c156_env 1) (nth k (lin_block 1 0 (SNum 0)) (SNum 0)) 0 * Derive_n (e_pert (c156_env 1) 1 0) k 0) = 0).
    { unfold lin_block. rewrite frechet_num. cbn [coeffs_of map seq length rsum nth expand coeff flat_map filter is_pert Nat.eqb of_terms fold_right app den]. ring. }
    rewrite L. unfold nl_terms. cbn [flat_map fst snd]. rewrite !frechet_fun. cbn [isz].
    destruct sp; cbn [map app expand tmul flat_map sprod fold_right]; unfold nl_op; cbn [filter snd fst]; rewrite !eqd; cbn [map of_terms fold_right lsum fst snd den].
    + rewrite !(RInt_K _ 0); [ring|]; intros y; cbn; ring.
    + rewrite !(RInt_K _ 0); [ring|]; intros y; cbn; ring.
Qed.
Print Assumptions C156_derivative_refuted.
(** u * Integral(u): the compiled linearisation raises *)
Theorem C156_coefficient_refuted : exists m f, user 1 m /\ user 1 f /\ forall sp K, nl_block sp K 0 (SNum 0) [(m, f)] = None.
Proof. exists (SFun 0 0), (SFun 0 0). split; [cbn; lia|]. split; [cbn; lia|]. reflexivity. Qed.
Print Assumptions C156_coefficient_refuted.

(** a case: u'' + p * Integral(sin(u)) on [-1,1] at u = x^2, direction x *)
Lemma frechet_sin : frechet 1 0 (SApp FSin (SFun 0 0)) = SMul (SApp FCos (SFun 0 0)) (SMul (SNum 1) (SPert 1 0 0)).
Proof. unfold frechet, diff_eps. cbn [norm repl Nat.eqb sdiff subs0 dfn1]. unfold smul. rewrite isz0, isz1. cbn [isz]. unfold sadd. rewrite isz0. cbn [isz]. reflexivity. Qed.
Example C156_ex : forall sp, smoothE (c156_env 1) /\ (forall j, (j < 1)%nat -> (ode_order j (SFun 0 2) <= 2)%nat) /\ defined_near (c156_env 1) (e_pert (c156_env 1) 1) (-2) 2 (SFun 0 2) /\
  (forall m f, In (m, f) [(SPar 0, SApp FSin (SFun 0 0))] -> user 1 m /\ (forall j, (j < 1)%nat -> contains j m = false) /\ user 1 f /\ (forall j, (j < 1)%nat -> ode_order j f = 0%nat) /\ defined_near (c156_env 1) (e_pert (c156_env 1) 1) (-2) 2 f) /\
  (forall j, (j < 1)%nat -> NoDup (map snd (nl_terms sp j [(SPar 0, SApp FSin (SFun 0 0))]))).
Proof.
  intros sp. split; [apply c156_smooth|]. split; [intros j Hj; replace j with 0%nat by lia; cbn; lia|]. split; [unfold defined_near; apply filter_forall; intros; exact I|]. split.
  - intros m f [X|[]]. injection X as <- <-. split; [exact I|]. split; [reflexivity|]. split; [cbn; lia|]. split; [intros j Hj; replace j with 0%nat by lia; reflexivity|]. unfold defined_near; apply filter_forall; intros; exact I.
  - intros j Hj. replace j with 0%nat by lia. unfold nl_terms. cbn [flat_map snd fst]. rewrite frechet_sin. cbn [isz]. destruct sp; cbn [expand tmul flat_map map app snd]; constructor; try constructor; intros [].
Qed.
