(** The symbolic compiler (C150-C155). *)
From Coq Require Import Reals List Arith Bool Lra Lia FunctionalExtensionality.
From Coquelicot Require Import Coquelicot.
From Verif Require Import Base SrcModel SrcSpec SrcProofs SrcLin SrcMain.
Import ListNotations.
Open Scope R_scope.

Lemma smooth_move E v t : smoothE E -> (forall j, smooth (v j)) -> smoothE (move E v t).
Proof.
  intros [Sc [Sf Sp]] Sv. split; [exact Sc|]. split; [|exact Sp]. intros j k x. cbn [move e_fun]. apply ex_derive_n_plus; apply filter_forall; intros y i _; [apply Sf|apply ex_derive_n_scal_l, Sv].
Qed.
Lemma move_0 E v : move E v 0 = E.
Proof. destruct E. unfold move. cbn. f_equal. apply functional_extensionality. intros j. apply functional_extensionality. intros y. ring. Qed.
Lemma is_derive_rsum' n (f : nat -> R -> R) (l : nat -> R) t : (forall j, (j < n)%nat -> is_derive (f j) t (l j)) -> is_derive (fun y => rsum n (fun j => f j y)) t (rsum n l).
Proof.
  induction n as [|n IH]; intros H; cbn [rsum]; [apply is_derive_K|]. apply (is_derive_plus (fun y => rsum n (fun j => f j y)) (f n)); [apply IH; intros; apply H; lia|apply H; lia].
Qed.
Lemma linearize_row K nf srcs i s : nth_error srcs i = Some s -> nth i (linearize K nf srcs) [] = map (fun j => lin_block K j s) (seq 0 nf).
Proof.
  intros H. unfold linearize. assert (Hi : (i < length srcs)%nat) by (apply nth_error_Some; congruence). rewrite (nth_indep _ _ (map (fun j => lin_block K j (SNum 0)) (seq 0 nf))) by (rewrite map_length; exact Hi).
  rewrite (map_nth (fun s => map (fun j => lin_block K j s) (seq 0 nf))). now rewrite (nth_error_nth _ _ _ H).
Qed.
Lemma row_blocks E x l K nf (f : nat -> list sexp) : (forall j, length (f j) = S K) ->
  den E (row_action l (map f (seq 0 nf))) x = rsum nf (fun j => rsum (S K) (fun k => den E (nth k (f j) (SNum 0)) x * Derive_n (e_pert E l j) k x)).
Proof.
  intros H. rewrite row_den, map_length, seq_length. apply rsum_ext. intros j Hj. rewrite map_seq_nth by exact Hj. rewrite block_den, H. reflexivity.
Qed.
(** "F(u + t v) is defined on (a,b) for small t" *)
Definition defined_near (E : env) (v : nat -> R -> R) (a b : R) (s : sexp) : Prop := locally 0 (fun t => defined (move E v t) a b s).
Lemma defined_near_0 E v a b s : defined_near E v a b s -> defined E a b s.
Proof. intros H. apply locally_singleton in H. now rewrite move_0 in H. Qed.
Lemma lin_action E K nf s a b x : smoothE E -> user nf s -> (forall j, (j < nf)%nat -> (ode_order j s <= K)%nat) -> defined_near E (e_pert E 1) a b s -> a < x < b ->
  is_derive (fun t => den (move E (e_pert E 1) t) s x) 0 (den E (row_action 1 (map (fun j => lin_block K j s) (seq 0 nf))) x).
Proof.
  intros SE U O D Hx. assert (Sp : forall j, smooth (e_pert E 1 j)) by (intros j; apply SE).
  apply (is_derive_ext_loc (fun t => den (move E (e_pert E 1) t) (norm s) x)).
  { apply (filter_imp _ _ (fun t H => proj2 (norm_correct (move E (e_pert E 1) t) a b s (smooth_move E _ t SE Sp) H x Hx)) D). }
  rewrite (row_blocks E x 1 K nf) by (intros; apply coeffs_length). assert (UN := user_norm nf s U).
  apply (lin_main E 1 K nf (norm s) x SE (norm_nosd s) (user_epsfree _ _ UN) (user_pfree _ _ _ UN) (orders_norm nf K s U O)).
  apply (norm_correct E a b s SE (defined_near_0 _ _ _ _ _ D) x Hx).
Qed.

(** ** C150: the compiled linearisation *)
(** linearize(srcs, K): if K bounds the order of every unknown in equation i, the sum over all unknowns j and orders k of
    coefficient times k-th derivative of the perturbation is the derivative of the residual in the direction of the perturbation *)
Theorem C150_linearize_partial : forall E K nf srcs i s a b x, nth_error srcs i = Some s -> smoothE E -> user nf s ->
  (forall j, (j < nf)%nat -> (ode_order j s <= K)%nat) -> defined_near E (e_pert E 1) a b s -> a < x < b ->
  is_derive (fun t => den (move E (e_pert E 1) t) s x) 0
    (rsum nf (fun j => rsum (S K) (fun k => den E (nth k (nth j (nth i (linearize K nf srcs) []) []) (SNum 0)) x * Derive_n (e_pert E 1 j) k x))).
Proof.
  intros E K nf srcs i s a b x Hs SE U O D Hx. rewrite (linearize_row K nf srcs i s Hs). evar_last; [apply (lin_action E K nf s a b x); assumption|].
  rewrite (row_blocks E x 1 K nf) by (intros; apply coeffs_length). apply rsum_ext. intros j Hj. rewrite map_seq_nth by exact Hj. reflexivity.
Qed.
Print Assumptions C150_linearize_partial.
(** the coefficients only use what the generated functions get: unknowns, parameters, x and constant functions *)
Theorem C150_coefficients_closed : forall K nf srcs i s j k, nth_error srcs i = Some s -> user nf s -> (j < nf)%nat -> (forall j, (j < nf)%nat -> (ode_order j s <= K)%nat) ->
  user nf (nth k (nth j (nth i (linearize K nf srcs) []) []) (SNum 0)).
Proof.
  intros K nf srcs i s j k Hs U Hj O. rewrite (linearize_row K nf srcs i s Hs), map_seq_nth by exact Hj. unfold lin_block, frechet. change (subs0 (diff_eps (repl 1 j (norm s)))) with (fr 1 j (norm s)).
  assert (UN := user_norm nf s U). assert (A := orders_norm nf K s U O). assert (L : lin 1 j K (fr 1 j (norm s))).
  { apply lin_frechet; [apply norm_nosd|apply (user_pfree _ _ _ UN)|apply (user_epsfree _ _ UN)|]. eapply allf_imp; [|exact A]. cbn. tauto. }
  apply user_of.
  - apply (coeffs_P epsfree); [apply closed_epsfree|apply subs0_epsfree].
  - intros l. destruct (Nat.eq_dec l 1) as [->|Hl]; [apply coeffs_pfree, L|]. apply (coeffs_P (pfree l)); [apply closed_pfree|]. apply fr_pfree; [apply norm_nosd|congruence|apply (user_pfree _ _ _ UN)].
  - apply (coeffs_P (allf _)); [apply closed_allf|]. apply fr_allf; [apply norm_nosd|apply (user_allf _ _ UN)].
Qed.
Print Assumptions C150_coefficients_closed.

(** Source.compile: both kinds of sources, with the orders the compiler finds by itself (eqn: K1; cts: K2) *)
Theorem C150_compile_partial : forall E nf eqn cts a b x, smoothE E -> a < x < b ->
  (forall i s, nth_error eqn i = Some s -> user nf s -> (forall j, (j < nf)%nat -> (ode_order j s <= diff_order nf eqn)%nat) -> defined_near E (e_pert E 1) a b s ->
    is_derive (fun t => den (move E (e_pert E 1) t) s x) 0
      (rsum nf (fun j => rsum (S (diff_order nf eqn)) (fun k => den E (nth k (nth j (nth i (fst (fst (compile_lin nf eqn cts))) []) []) (SNum 0)) x * Derive_n (e_pert E 1 j) k x)))) /\
  (forall i s, nth_error cts i = Some s -> user nf s -> (forall j, (j < nf)%nat -> (ode_order j s <= snd (compile_lin nf eqn cts))%nat) -> defined_near E (e_pert E 1) a b s ->
    is_derive (fun t => den (move E (e_pert E 1) t) s x) 0
      (rsum nf (fun j => rsum (S (snd (compile_lin nf eqn cts))) (fun k => den E (nth k (nth j (nth i (snd (fst (compile_lin nf eqn cts))) []) []) (SNum 0)) x * Derive_n (e_pert E 1 j) k x)))).
Proof.
  intros E nf eqn cts a b x SE Hx. split; intros i s Hs U O D; cbn [compile_lin fst snd] in *.
  - apply (C150_linearize_partial E _ nf eqn i s a b x); assumption.
  - apply (C150_linearize_partial E _ nf cts i s a b x); assumption.
Qed.
Print Assumptions C150_compile_partial.
(** one unknown: the order found is always sufficient *)
Theorem C150_single : forall E s a b x, smoothE E -> user 1 s -> defined_near E (e_pert E 1) a b s -> a < x < b ->
  is_derive (fun t => den (move E (e_pert E 1) t) s x) 0
    (rsum (S (diff_order 1 [s])) (fun k => den E (nth k (nth 0 (nth 0 (fst (fst (compile_lin 1 [s] []))) []) []) (SNum 0)) x * Derive_n (e_pert E 1 0) k x)).
Proof.
  intros E s a b x SE U D Hx. evar_last; [apply (proj1 (C150_compile_partial E 1 [s] [] a b x SE Hx) 0%nat s eq_refl U); [|exact D]|].
  - intros j Hj. replace j with 0%nat by lia. cbn. lia.
  - cbn [rsum]. ring.
Qed.
Print Assumptions C150_single.
(** a system in which the highest derivative of an unknown is not in the equation with the same index: terms are lost *)
Definition c150_eqn : list sexp := [SAdd (SFun 1 2) (SFun 0 0); SAdd (SFun 0 2) (SFun 1 0)].
Definition c150_env : env := mkEnv (fun _ => 0) (fun _ _ => 0) (fun _ _ => 0) (fun _ j => if Nat.eqb j 1 then fun x => x ^ 2 else fun _ => 0) 0.
Lemma smooth_pow n : smooth (fun x => x ^ n). Proof. intros k x. apply ex_derive_n_pow. Qed.
Lemma smooth_K c : smooth (fun _ => c). Proof. intros k x. apply ex_derive_n_const. Qed.
Lemma c150_smooth : smoothE c150_env.
Proof. split; [intros j; apply (smooth_K 0)|]. split; [intros j; apply (smooth_K 0)|]. intros l j. cbn [c150_env e_pert]. destruct (Nat.eqb j 1); [apply smooth_pow|apply smooth_K]. Qed.
Lemma isz0 : isz (SNum 0) = true. Proof. cbn. destruct (Req_EM_T 0 0); congruence. Qed.
Lemma isz1 : isz (SNum 1) = false. Proof. cbn. destruct (Req_EM_T 1 0); [lra|reflexivity]. Qed.
Lemma Derive_n_K c k x : (0 < k)%nat -> Derive_n (fun _ => c) k x = 0.
Proof. intros H. destruct k; [lia|]. apply Derive_n_const. Qed.
Lemma frechet_c150 : frechet 1 1 (SAdd (SFun 1 2) (SFun 0 0)) = SMul (SNum 1) (SPert 1 1 2).
Proof.
  unfold frechet, diff_eps. cbn [norm repl Nat.eqb sdiff subs0]. unfold smul. rewrite isz0, isz1. cbn [isz]. unfold sadd. rewrite isz0. reflexivity.
Qed.
Theorem C150_system_refuted : exists E nf eqn i s a b x, nth_error eqn i = Some s /\ smoothE E /\ user nf s /\ defined_near E (e_pert E 1) a b s /\ a < x < b /\
  is_derive (fun t => den (move E (e_pert E 1) t) s x) 0 2 /\
  rsum nf (fun j => rsum (S (diff_order nf eqn)) (fun k => den E (nth k (nth j (nth i (fst (fst (compile_lin nf eqn []))) []) []) (SNum 0)) x * Derive_n (e_pert E 1 j) k x)) = 0.
Proof.
  exists c150_env, 2%nat, c150_eqn, 0%nat, (SAdd (SFun 1 2) (SFun 0 0)), (-1), 1, 0.
  split; [reflexivity|]. split; [apply c150_smooth|]. split; [cbn; split; lia|]. split; [unfold defined_near; apply filter_forall; intros; cbn; tauto|]. split; [lra|]. split.
  - apply (is_derive_ext (fun t => t * 2)).
    + intros t. cbn [den move e_fun]. rewrite (Derive_n_move (e_fun c150_env 1) (e_pert c150_env 1 1) t 2 0 (proj1 (proj2 c150_smooth) _) (proj2 (proj2 c150_smooth) _ _)). rewrite (Derive_n_move (e_fun c150_env 0) (e_pert c150_env 1 0) t 0 0 (proj1 (proj2 c150_smooth) _) (proj2 (proj2 c150_smooth) _ _)). cbn [c150_env e_fun e_pert Nat.eqb].
      rewrite (Derive_n_pow_smalli 2 2 0) by lia. rewrite (Derive_n_K 0 2 0) by lia. cbn. field.
    + evar_last; [apply (is_derive_scal_l (fun t => t) 0 1 2), (is_derive_id (K := R_AbsRing))|]. unfold scal; cbn; unfold mult; cbn. ring.
  - replace (diff_order 2 c150_eqn) with 0%nat by reflexivity. cbn [compile_lin fst]. replace (diff_order 2 c150_eqn) with 0%nat by reflexivity. rewrite (linearize_row 0 2 c150_eqn 0 (SAdd (SFun 1 2) (SFun 0 0)) eq_refl).
    cbn [rsum]. rewrite !map_seq_nth by lia. cbn [c150_env e_pert Nat.eqb Derive_n]. unfold lin_block at 2. rewrite frechet_c150. unfold coeffs_of. cbn. ring.
Qed.
Print Assumptions C150_system_refuted.

(** a case with a non-trivial equation: (p u_x)_x + sin(u)/(1+u^2) = 0 at u = x^2, directions x^3 and x *)
Definition src_ex : sexp := SAdd (SD (SMul (SPar 0) (SFun 0 1))) (SMul (SApp FSin (SFun 0 0)) (SInv (SAdd (SNum 1) (SPow (SFun 0 0) 2)))).
Definition src_ex_env : env := mkEnv (fun _ => 3) (fun _ x => x ^ 1) (fun _ x => x ^ 2) (fun l _ x => x ^ (2 * l + 1)) 0.
Lemma src_ex_defined E a b : defined E a b src_ex.
Proof. cbn. repeat split; try exact I. intros x _. assert (H := pow2_ge_0 (e_fun E 0%nat x)). cbn in H. lra. Qed.
Example src_ex_ok : smoothE src_ex_env /\ user 1 src_ex /\ diff_order 1 [src_ex] = 2%nat /\ (forall j, (j < 1)%nat -> (ode_order j src_ex <= 2)%nat) /\
  defined_near src_ex_env (e_pert src_ex_env 1) (-1) 1 src_ex /\ locally 0 (fun h => defined_near (move src_ex_env (e_pert src_ex_env 2) h) (e_pert src_ex_env 1) (-1) 1 src_ex) /\
  locally (e_par src_ex_env 0) (fun q => defined_near (set_par src_ex_env 0 q) (e_pert src_ex_env 1) (-1) 1 src_ex).
Proof.
  split; [split; [intros j; apply (smooth_pow 1)|split; [intros j; apply (smooth_pow 2)|intros l j; apply (smooth_pow (2 * l + 1))]]|]. split; [cbn; repeat split; lia|]. split; [reflexivity|]. split; [intros j Hj; replace j with 0%nat by lia; cbn; lia|].
  split; [unfold defined_near; apply filter_forall; intros; apply src_ex_defined|]. split; apply filter_forall; intros; unfold defined_near; apply filter_forall; intros; apply src_ex_defined.
Qed.

(** ** C151: the second derivative *)
Lemma fold_seq_den E x (f : nat -> sexp) o n : den E (fold_right (fun j acc => SAdd (f j) acc) (SNum 0) (seq o n)) x = rsum n (fun j => den E (f (o + j)%nat) x).
Proof. revert o. induction n as [|n IH]; intros o; [reflexivity|]. cbn [seq fold_right den]. rewrite IH, rsum_S_l, Nat.add_0_r. f_equal. apply rsum_ext. intros j _. do 2 f_equal. lia. Qed.
Lemma dat_move E w x s : dat E x s -> dat (move E w 0) x s. Proof. now rewrite move_0. Qed.
(** the expression of block (i,j) of the linearisation *)
Lemma blk_closed P K j s : closed P -> (forall k, P (SPert 1 j k)) -> P (fr 1 j (norm s)) -> P (block_expr 1 j (lin_block K j s)).
Proof. intros C HP H. apply block_P; [exact C|exact HP|]. intros k. unfold lin_block. apply coeffs_P; [exact C|exact H]. Qed.
Lemma blk_nosd K j s : nosd (block_expr 1 j (lin_block K j s)).
Proof. apply blk_closed; [apply closed_nosd|intros; exact I|]. apply fr_nosd, norm_nosd. Qed.
Lemma blk_epsfree K j s : epsfree (block_expr 1 j (lin_block K j s)).
Proof. apply blk_closed; [apply closed_epsfree|intros; exact I|]. apply subs0_epsfree. Qed.
Lemma blk_pfree2 nf K j s : user nf s -> pfree 2 (block_expr 1 j (lin_block K j s)).
Proof. intros U. apply blk_closed; [apply closed_pfree|intros; cbn; lia|]. apply fr_pfree; [apply norm_nosd|lia|apply (user_pfree nf), user_norm, U]. Qed.
Lemma blk_allf P K j s : allf P (norm s) -> allf P (block_expr 1 j (lin_block K j s)).
Proof. intros A. apply blk_closed; [apply closed_allf|intros; exact I|]. apply fr_allf; [apply norm_nosd|exact A]. Qed.
Lemma blk_dat nf E x K j s : user nf s -> dat E x (norm s) -> dat E x (block_expr 1 j (lin_block K j s)).
Proof. intros U D. apply blk_closed; [apply closed_dat|intros; exact I|]. apply fr_dat; [apply norm_nosd|apply (user_epsfree nf), user_norm, U|exact D]. Qed.
Theorem C151_second_derivative : forall E K1 K2 nf s a b x, smoothE E -> user nf s -> (K1 <= K2)%nat -> (forall j, (j < nf)%nat -> (ode_order j s <= K1)%nat) ->
  locally 0 (fun h => defined_near (move E (e_pert E 2) h) (e_pert E 1) a b s) -> a < x < b ->
  is_derive (fun h => Derive (fun t => den (move (move E (e_pert E 2) h) (e_pert E 1) t) s x) 0) 0 (den E (biaction K1 K2 nf s) x).
Proof.
  intros E K1 K2 nf s a b x SE U HK O D Hx. assert (Sp : forall l j, smooth (e_pert E l j)) by (intros l j; apply SE).
  assert (ON := orders_norm nf K1 s U O).
  assert (D0 : dat E x (norm s)). { apply locally_singleton in D. rewrite move_0 in D. apply (norm_correct E a b s SE (defined_near_0 _ _ _ _ _ D) x Hx). }
  apply (is_derive_ext_loc (fun h => rsum nf (fun j => den (move E (e_pert E 2) h) (block_expr 1 j (lin_block K1 j s)) x))).
  { apply (filter_imp (fun h => defined_near (move E (e_pert E 2) h) (e_pert E 1) a b s)); [|exact D]. intros h Hh. symmetry. apply is_derive_unique.
    evar_last; [apply (lin_action (move E (e_pert E 2) h) K1 nf s a b x); [apply smooth_move; [exact SE|apply Sp]|exact U|exact O|exact Hh|exact Hx]|].
    rewrite row_den, map_length, seq_length. apply rsum_ext. intros j Hj. rewrite map_seq_nth by exact Hj. reflexivity. }
  unfold biaction. rewrite fold_seq_den. apply is_derive_rsum'. intros j Hj. rewrite fold_seq_den. cbn [Nat.add].
  evar_last; [apply (lin_main E 2 K2 nf (block_expr 1 j (lin_block K1 j s)) x SE (blk_nosd K1 j s) (blk_epsfree K1 j s) (blk_pfree2 nf K1 j s U))|].
  - apply blk_allf. eapply allf_imp; [|exact ON]. cbn. intros i k [? ?]. split; [assumption|lia].
  - apply (blk_dat nf); assumption.
  - apply rsum_ext. intros k Hk. rewrite block_den. unfold bilin_block. rewrite coeffs_length, norm_id by apply blk_nosd. reflexivity.
Qed.
Print Assumptions C151_second_derivative.

(** ** C152: the derivative with respect to a parameter *)
Lemma set_par_id E p : set_par E p (e_par E p) = E.
Proof. destruct E. unfold set_par. cbn. f_equal. apply functional_extensionality. intros i. destruct (Nat.eqb_spec i p); congruence. Qed.
Lemma par_const E p q s : has_par p s = false -> forall x, den (set_par E p q) s x = den E s x.
Proof.
  induction s; cbn [has_par den]; intros H x; try reflexivity; try (apply orb_false_iff in H; rewrite IHs1, IHs2 by tauto; reflexivity); try (rewrite IHs by exact H; reflexivity).
  - cbn [set_par e_par]. rewrite Nat.eqb_sym in H. rewrite H. reflexivity.
  - apply Derive_ext. intros t. apply IHs, H.
Qed.
Lemma par_deriv E p s a b x : smoothE E -> locally (e_par E p) (fun q => defined (set_par E p q) a b s) -> a < x < b ->
  is_derive (fun q => den (set_par E p q) s x) (e_par E p) (den E (diff_par p (norm s)) x).
Proof.
  intros SE D Hx. assert (Sq : forall q, smoothE (set_par E p q)) by (intros q; exact SE). apply (is_derive_ext_loc (fun q => den (set_par E p q) (norm s) x)).
  { apply (filter_imp (fun q => defined (set_par E p q) a b s)); [|exact D]. intros q Hq. apply (norm_correct (set_par E p q) a b s (Sq q) Hq x Hx). }
  evar_last; [apply diff_par_correct; [apply norm_nosd|]|rewrite set_par_id; reflexivity].
  apply locally_singleton in D. apply (norm_correct _ a b s (Sq _) D x Hx).
Qed.
Lemma nth_map_dp p l i : nth i (map (fun s => diff_par p (norm s)) l) (SNum 0) = diff_par p (norm (nth i l (SNum 0))).
Proof. change (SNum 0) with (diff_par p (norm (SNum 0))) at 1. apply (map_nth (fun s => diff_par p (norm s))). Qed.
Lemma has_par_nth p l i : existsb (has_par p) l = false -> has_par p (nth i l (SNum 0)) = false.
Proof.
  intros H. destruct (nth_in_or_default i l (SNum 0)) as [I| ->]; [|reflexivity]. destruct (has_par p (nth i l (SNum 0))) eqn:X; [|reflexivity]. rewrite <- H. symmetry. apply existsb_exists. eauto.
Qed.
(** component i of the residual is equation i plus constraint i *)
Definition residual (E : env) (eqn cts : list sexp) (i : nat) (x : R) : R := den E (nth i eqn (SNum 0)) x + den E (nth i cts (SNum 0)) x.
Theorem C152_parameter_derivative_partial : forall E p eqn cts i a b x, smoothE E -> existsb (has_par p) eqn = false \/ existsb (has_par p) cts = false -> a < x < b ->
  locally (e_par E p) (fun q => defined (set_par E p q) a b (nth i eqn (SNum 0))) -> locally (e_par E p) (fun q => defined (set_par E p q) a b (nth i cts (SNum 0))) ->
  is_derive (fun q => residual (set_par E p q) eqn cts i x) (e_par E p) (den E (nth i (compile_dp p eqn cts) (SNum 0)) x).
Proof.
  intros E p eqn cts i a b x SE H Hx De Dc. unfold compile_dp, residual. rewrite nth_map_dp. destruct (existsb (has_par p) eqn) eqn:X.
  - destruct H as [H|H]; [discriminate|]. apply (is_derive_ext (fun q => den (set_par E p q) (nth i eqn (SNum 0)) x + den E (nth i cts (SNum 0)) x)).
    { intros q. f_equal. symmetry. apply par_const, has_par_nth, H. }
    evar_last; [apply (is_derive_plus (fun q => den (set_par E p q) (nth i eqn (SNum 0)) x) (fun _ => den E (nth i cts (SNum 0)) x)); [apply (par_deriv E p _ a b x SE De Hx)|apply is_derive_K]|]. apply Rplus_0_r.
  - apply (is_derive_ext (fun q => den E (nth i eqn (SNum 0)) x + den (set_par E p q) (nth i cts (SNum 0)) x)).
    { intros q. f_equal. symmetry. apply par_const, has_par_nth, X. }
    evar_last; [apply (is_derive_plus (fun _ => den E (nth i eqn (SNum 0)) x) (fun q => den (set_par E p q) (nth i cts (SNum 0)) x)); [apply is_derive_K|apply (par_deriv E p _ a b x SE Dc Hx)]|]. apply Rplus_0_l.
Qed.
Print Assumptions C152_parameter_derivative_partial.
(** a parameter in both: the constraint is forgotten *)
Theorem C152_both_refuted : exists E p eqn cts x, smoothE E /\ is_derive (fun q => residual (set_par E p q) eqn cts 0 x) (e_par E p) 1 /\ den E (nth 0 (compile_dp p eqn cts) (SNum 0)) x = 0.
Proof.
  exists c150_env, 0%nat, [SMul (SPar 0) (SFun 0 0)], [SPar 0], 0. split; [apply c150_smooth|]. split.
  - apply (is_derive_ext (fun q => q)); [|apply (is_derive_id (K := R_AbsRing))]. intros q. unfold residual. cbn. match goal with |- ?a = ?b => enough (X : forall z : R, z = z * 0 + z) by apply X end. intros z. ring.
  - unfold compile_dp, diff_par. cbn. ring.
Qed.
Print Assumptions C152_both_refuted.

(** ** C153: the parameter derivative of the linearisation *)
Lemma lin_diff_par p K j cs o : (forall c, In c cs -> nosd c /\ pfree 1 c) -> (o + length cs <= S K)%nat ->
  lin 1 j K (diff_par p (fold_right (fun q acc => SAdd (SMul (fst q) (SPert 1 j (snd q))) acc) (SNum 0) (combine cs (seq o (length cs))))).
Proof.
  unfold diff_par. revert o. induction cs as [|c cs IH]; intros o H L; cbn [length seq combine fold_right fst snd sdiff]; [now constructor|]. cbn [length] in L. constructor; [|apply IH; [intros; apply H; now right|lia]].
  destruct (H c (or_introl eq_refl)) as [N P]. constructor.
  - apply lin_mr; [|constructor; lia]. apply (sdiff_P (pfree 1)); [apply closed_pfree|cbn; tauto|cbn; tauto|cbn; tauto|cbn; tauto|exact N|exact P].
  - apply lin_mr; [exact P|]. now constructor.
Qed.
Definition compile_dxdp (nf p : nat) (eqn cts : list sexp) : list sexp := map (dxdp_action (diff_order nf eqn) (snd (compile_lin nf eqn cts)) p nf) eqn.
Theorem C153_dxdp_partial : forall E K1 K2 p nf s a b x, smoothE E -> user nf s -> (K1 <= K2)%nat -> (forall j, (j < nf)%nat -> (ode_order j s <= K1)%nat) ->
  locally (e_par E p) (fun q => defined_near (set_par E p q) (e_pert E 1) a b s) -> a < x < b ->
  is_derive (fun q => Derive (fun t => den (move (set_par E p q) (e_pert E 1) t) s x) 0) (e_par E p) (den E (dxdp_action K1 K2 p nf s) x).
Proof.
  intros E K1 K2 p nf s a b x SE U HK O D Hx. assert (Sq : forall q, smoothE (set_par E p q)) by (intros q; exact SE).
  assert (ON := orders_norm nf K1 s U O). assert (UN := user_norm nf s U).
  assert (D0 : dat E x (norm s)). { apply locally_singleton in D. rewrite set_par_id in D. apply (norm_correct E a b s SE (defined_near_0 _ _ _ _ _ D) x Hx). }
  apply (is_derive_ext_loc (fun q => rsum nf (fun j => den (set_par E p q) (block_expr 1 j (lin_block K1 j s)) x))).
  { apply (filter_imp (fun q => defined_near (set_par E p q) (e_pert E 1) a b s)); [|exact D]. intros q Hq. symmetry. apply is_derive_unique.
    evar_last; [apply (lin_action (set_par E p q) K1 nf s a b x); [apply Sq|exact U|exact O|exact Hq|exact Hx]|].
    rewrite row_den, map_length, seq_length. apply rsum_ext. intros j Hj. rewrite map_seq_nth by exact Hj. reflexivity. }
  unfold dxdp_action. rewrite (row_blocks E x 1 K2 nf) by (intros; apply coeffs_length). apply is_derive_rsum'. intros j Hj. unfold dxdp_block. rewrite coeffs_sum.
  - rewrite norm_id by apply blk_nosd. evar_last; [apply diff_par_correct; [apply blk_nosd|]|rewrite set_par_id; reflexivity]. rewrite set_par_id. apply (blk_dat nf); assumption.
  - rewrite norm_id by apply blk_nosd. unfold block_expr. apply lin_diff_par; [|unfold lin_block; rewrite coeffs_length; lia]. intros c Ic. apply (In_nth _ _ (SNum 0)) in Ic. destruct Ic as [k [_ <-]].
    split; [unfold lin_block; apply coeffs_P; [apply closed_nosd|apply fr_nosd, norm_nosd]|]. unfold lin_block, frechet. apply coeffs_pfree. apply lin_frechet; [apply norm_nosd|apply (user_pfree _ _ _ UN)|apply (user_epsfree _ _ UN)|]. eapply allf_imp; [|exact ON]. cbn. tauto.
Qed.
Print Assumptions C153_dxdp_partial.
Theorem C153_compiled_partial : forall E p nf eqn cts i s a b x, nth_error eqn i = Some s -> smoothE E -> user nf s -> (forall j, (j < nf)%nat -> (ode_order j s <= diff_order nf eqn)%nat) ->
  locally (e_par E p) (fun q => defined_near (set_par E p q) (e_pert E 1) a b s) -> a < x < b ->
  is_derive (fun q => Derive (fun t => den (move (set_par E p q) (e_pert E 1) t) s x) 0) (e_par E p) (den E (nth i (compile_dxdp nf p eqn cts) (SNum 0)) x).
Proof.
  intros E p nf eqn cts i s a b x Hs SE U O D Hx. unfold compile_dxdp. assert (Hi : (i < length eqn)%nat) by (apply nth_error_Some; congruence).
  rewrite (nth_indep _ _ (dxdp_action (diff_order nf eqn) (snd (compile_lin nf eqn cts)) p nf (SNum 0))) by (rewrite map_length; exact Hi). rewrite map_nth, (nth_error_nth _ _ _ Hs).
  apply (C153_dxdp_partial E _ _ p nf s a b x); try assumption. cbn [compile_lin snd]. lia.
Qed.
Print Assumptions C153_compiled_partial.
(** the constraints do not take part: with equation u and constraint p u the mixed derivative in direction v is v, the compiled one 0 *)
Theorem C153_constraints_refuted : exists E p eqn cts x, smoothE E /\
  is_derive (fun q => Derive (fun t => residual (move (set_par E p q) (e_pert E 1) t) eqn cts 0 x) 0) (e_par E p) 1 /\ den E (nth 0 (compile_dxdp 1 p eqn cts) (SNum 0)) x = 0.
Proof.
  pose (E := mkEnv (fun _ => 0) (fun _ _ => 0) (fun _ _ => 0) (fun _ _ _ => 1) 0). exists E, 0%nat, [SFun 0 0], [SMul (SPar 0) (SFun 0 0)], 0. split; [|split].
  - split; [intros j; apply (smooth_K 0)|]. split; [intros j; apply (smooth_K 0)|]. intros l j; apply (smooth_K 1).
  - apply (is_derive_ext (fun q => 1 + q)).
    + intros q. symmetry. apply is_derive_unique. unfold residual. cbn. auto_derive; [exact I|ring].
    + cbn. auto_derive; [exact I|ring].
  - unfold compile_dxdp, dxdp_action, dxdp_block, lin_block, frechet, diff_eps, diff_par. cbn. unfold smul, sadd. rewrite ?isz0, ?isz1. cbn. rewrite ?isz0, ?isz1. cbn. ring.
Qed.
Print Assumptions C153_constraints_refuted.
