(** The symbolic compiler, continued: choice of the parameter (C154) and the adjoint second derivative (C155). *)
From Coq Require Import Reals List Arith Bool Lra Lia FunctionalExtensionality.
From Coquelicot Require Import Coquelicot.
From Verif Require Import Base SrcModel SrcSpec SrcProofs SrcLin SrcMain PropSrc.
Import ListNotations.
Open Scope R_scope.

(** ** C154: parameter derivatives are looked up by name *)
Lemma lookup_table {A} (f : nat -> A) l p : lookup (table f l) p = if in_dec Nat.eq_dec p l then Some (f p) else None.
Proof.
  induction l as [|q l IH]; [reflexivity|]. cbn [table map lookup]. fold (table f l). rewrite IH. destruct (Nat.eqb_spec q p) as [->|N].
  - destruct (in_dec Nat.eq_dec p (p :: l)) as [_|H]; [reflexivity|]. exfalso. apply H. now left.
  - destruct (in_dec Nat.eq_dec p l) as [I|I], (in_dec Nat.eq_dec p (q :: l)) as [J|J]; try reflexivity; exfalso; [apply J; now right|]. destruct J; [congruence|contradiction].
Qed.
(** the residual's parameter derivative: the one asked for, of the current parameter if none is named, KeyError if it was not compiled *)
Theorem C154_residual : forall A (f : nat -> A) cpars cpar pname,
  dp_call (table f cpars) cpar pname = let p := match pname with None => cpar | Some p => p end in if in_dec Nat.eq_dec p cpars then Some (f p) else None.
Proof. intros. unfold dp_call. apply lookup_table. Qed.
Print Assumptions C154_residual.
(** the linearisation's parameter derivative: right if no name is given or the current parameter is named *)
Theorem C154_linearisation_partial : forall A (f : nat -> A) cpars cpar pname, pname = None \/ pname = Some cpar ->
  lf_call (table f cpars) cpar pname = let p := match pname with None => cpar | Some p => p end in if in_dec Nat.eq_dec p cpars then Some (f p) else None.
Proof. intros A f cpars cpar pname [->| ->]; unfold lf_call, lf_call_dict; apply lookup_table. Qed.
Print Assumptions C154_linearisation_partial.
(** another name is ignored: u_x-p with current parameter 0, asked for parameter 1, answers with parameter 0 *)
Theorem C154_linearisation_refuted : exists E nf eqn cpars cpar p a x r, lf_call (table (fun p => compile_dxdp nf p eqn []) cpars) cpar (Some p) = Some [a] /\ In p cpars /\ smoothE E /\
  is_derive (fun q => Derive (fun t => residual (move (set_par E p q) (e_pert E 1) t) eqn [] 0 x) 0) (e_par E p) r /\ den E a x <> r.
Proof.
  pose (E := mkEnv (fun _ => 0) (fun _ _ => 0) (fun _ _ => 0) (fun _ _ _ => 1) 0). pose (s := SMul (SPar 1) (SFun 0 0)).
  exists E, 1%nat, [s], [0%nat; 1%nat], 0%nat, 1%nat, (dxdp_action 0 0 0 1 s), 0, 1. split; [reflexivity|]. split; [cbn; tauto|]. split; [|split].
  - split; [intros j; apply (smooth_K 0)|]. split; [intros j; apply (smooth_K 0)|]. intros l j; apply (smooth_K 1).
  - apply (is_derive_ext (fun q => q)).
    + intros q. symmetry. apply is_derive_unique. unfold residual. cbn. auto_derive; [exact I|ring].
    + apply (is_derive_id (K := R_AbsRing)).
  - unfold dxdp_action, dxdp_block, lin_block, frechet, diff_eps, diff_par, s. cbn. unfold smul, sadd. rewrite ?isz0, ?isz1. cbn. rewrite ?isz0, ?isz1. cbn. lra.
Qed.
Print Assumptions C154_linearisation_refuted.

(** ** C155: the adjoint of the second derivative *)
Definition withp (E : env) (P : nat -> nat -> R -> R) : env := mkEnv (e_par E) (e_cf E) (e_fun E) P (e_eps E).
Lemma den_withp E P c : (forall l, ~ pfree l c -> P l = e_pert E l) -> forall x, den (withp E P) c x = den E c x.
Proof.
  induction c; cbn [pfree den]; intros H x; try reflexivity.
  - cbn [withp e_pert]. rewrite H; [reflexivity|]. tauto.
  - rewrite IHc1, IHc2; [reflexivity| |]; intros l Hl; apply H; tauto.
  - rewrite IHc1, IHc2; [reflexivity| |]; intros l Hl; apply H; tauto.
  - rewrite IHc; [reflexivity|exact H].
  - rewrite IHc; [reflexivity|exact H].
  - rewrite IHc; [reflexivity|exact H].
  - apply Derive_ext. intros t. apply IHc, H.
Qed.
Lemma smooth_withp E P : smoothE E -> (forall l j, smooth (P l j)) -> smoothE (withp E P).
Proof. intros [A [B _]] C. split; [exact A|]. split; [exact B|exact C]. Qed.
(** reflection about x changes the sign of the odd derivatives at x *)
Definition refl (x : R) (f : R -> R) : R -> R := fun y => f (- y + 2 * x).
Lemma smooth_refl x f : smooth f -> smooth (refl x f).
Proof.
  intros H k y. unfold refl. apply (ex_derive_n_comp_opp (fun z => f (z + 2 * x))). apply filter_forall. intros z i _. apply ex_derive_n_comp_trans, H.
Qed.
Lemma Derive_n_refl x f m : smooth f -> Derive_n (refl x f) m x = (-1) ^ m * Derive_n f m x.
Proof.
  intros H. unfold refl. rewrite (Derive_n_comp_opp (fun z => f (z + 2 * x))).
  - rewrite Derive_n_comp_trans. do 2 f_equal. ring.
  - apply filter_forall. intros z i _. apply ex_derive_n_comp_trans, H.
Qed.
Lemma isz_pert l j k : isz (SPert l j k) = false. Proof. reflexivity. Qed.
Lemma lin_adj K j k cs o : (forall c, In c cs -> nosd c /\ pfree 2 c) -> (o + length cs <= S K)%nat ->
  lin 2 j K (subs0 (diff_eps (repl 1 k (fold_right (fun q acc => SAdd (SMul (fst q) (SPert 2 j (snd q))) acc) (SNum 0) (combine cs (seq o (length cs))))))).
Proof.
  unfold diff_eps. revert o. induction cs as [|c cs IH]; intros o H L; cbn [length seq combine fold_right fst snd repl sdiff subs0]; [now constructor|]. cbn [length] in L.
  destruct (H c (or_introl eq_refl)) as [N P]. assert (P1 : pfree 2 (repl 1 k c)) by (apply repl_pfree; [lia|exact P]).
  apply lin_sadd; [|apply IH; [intros; apply H; now right|lia]]. apply lin_sadd.
  - apply lin_smul_r; [|constructor; lia]. apply subs0_pfree. apply (sdiff_P (pfree 2)); [apply closed_pfree|cbn; tauto|cbn; tauto|cbn; tauto|cbn; tauto|apply repl_nosd, N|exact P1].
  - apply lin_smul_r; [apply subs0_pfree, P1|]. now constructor.
Qed.
Lemma blk2_closed P l K j i s : closed P -> (forall k, P (SPert l j k)) -> P (fr 1 i (norm s)) -> P (block_expr l j (lin_block K i s)).
Proof. intros C HP H. apply block_P; [exact C|exact HP|]. intros k. unfold lin_block. apply coeffs_P; [exact C|exact H]. Qed.
Lemma lin_block_user nf K i k s : user nf s -> (i < nf)%nat -> (forall j, (j < nf)%nat -> (ode_order j s <= K)%nat) -> user nf (nth k (lin_block K i s) (SNum 0)).
Proof. intros U Hi O. assert (X := C150_coefficients_closed K nf [s] 0 s i k eq_refl U Hi O). rewrite (linearize_row K nf [s] 0 s eq_refl), map_seq_nth in X by exact Hi. exact X. Qed.
Lemma lin_block_nosd K i k s : nosd (nth k (lin_block K i s) (SNum 0)).
Proof. unfold lin_block. apply coeffs_P; [apply closed_nosd|apply fr_nosd, norm_nosd]. Qed.
Lemma lin_block_dat nf E x K i k s : user nf s -> dat E x (norm s) -> dat E x (nth k (lin_block K i s) (SNum 0)).
Proof. intros U D. unfold lin_block. apply coeffs_P; [apply closed_dat|]. apply fr_dat; [apply norm_nosd|apply (user_epsfree nf), user_norm, U|exact D]. Qed.
(** differentiability of an expression along the first perturbation *)
Lemma dir_deriv E l s x : smoothE E -> nosd s -> epsfree s -> dat E x s -> is_derive (fun h => den (move E (e_pert E l) h) s x) 0 (den (wE E 0) (diff_eps (repla l s)) x).
Proof.
  intros SE N F D. apply (is_derive_ext (fun e => den (wE E e) (repla l s) x)); [intros t; apply repla_den; assumption|]. apply diff_eps_correct; [apply repla_nosd, N|apply repla_dat; assumption].
Qed.
Lemma dat_withp E P x s : (forall l, ~ pfree l s -> P l = e_pert E l) -> dat E x s -> dat (withp E P) x s.
Proof.
  induction s; cbn [pfree dat]; intros H D; try tauto.
  - split; [apply IHs1|apply IHs2]; try tauto; intros l Hl; apply H; tauto.
  - split; [apply IHs1|apply IHs2]; try tauto; intros l Hl; apply H; tauto.
  - split; [apply IHs; tauto|]. rewrite den_withp by exact H. tauto.
Qed.
Lemma is_derive_mul_r (f : R -> R) c t : ex_derive f t -> is_derive (fun h => f h * c) t (Derive f t * c).
Proof. intros H. evar_last; [apply (is_derive_scal_l f t (Derive f t) c), Derive_correct, H|reflexivity]. Qed.
(** what the compiled adjoint computes *)
Lemma adj_formula E K1 K2 nf srcs i x : smoothE E -> (K1 <= K2)%nat -> (i < nf)%nat ->
  (forall j, (j < nf)%nat -> user nf (nth j srcs (SNum 0)) /\ dat E x (norm (nth j srcs (SNum 0))) /\ forall i, (i < nf)%nat -> (ode_order i (nth j srcs (SNum 0)) <= K1)%nat) ->
  den E (adj_action K1 K2 nf i srcs) x = rsum nf (fun j => rsum (S K1) (fun m => Derive (fun h => den (move E (e_pert E 1) h) (nth m (lin_block K1 i (nth j srcs (SNum 0))) (SNum 0)) x) 0 * ((-1) ^ m * Derive_n (e_pert E 2 j) m x))).
Proof.
  intros SE HK Hi H. unfold adj_action. rewrite fold_seq_den. apply rsum_ext. intros j Hj. cbn [Nat.add]. rewrite fold_seq_den. cbn [Nat.add]. destruct (H j Hj) as [U [D O]]. set (s := nth j srcs (SNum 0)) in *.
  set (P := fun l j => if Nat.eqb l 2 then refl x (e_pert E 2 j) else e_pert E l j). set (E' := withp E P). set (B := block_expr 2 j (lin_block K1 i s)).
  assert (SE' : smoothE E'). { apply smooth_withp; [exact SE|]. intros l j'. unfold P. destruct (Nat.eqb l 2); [apply smooth_refl|]; apply SE. }
  assert (NB : nosd B) by (apply blk2_closed; [apply closed_nosd|intros; exact I|apply fr_nosd, norm_nosd]).
  assert (FB : epsfree B) by (apply blk2_closed; [apply closed_epsfree|intros; exact I|apply subs0_epsfree]).
  assert (UC : forall m, user nf (nth m (lin_block K1 i s) (SNum 0))) by (intros m; apply lin_block_user; assumption).
  assert (EC : forall h m, den (move E' (e_pert E 1) h) (nth m (lin_block K1 i s) (SNum 0)) x = den (move E (e_pert E 1) h) (nth m (lin_block K1 i s) (SNum 0)) x).
  { intros h m. change (move E' (e_pert E 1) h) with (withp (move E (e_pert E 1) h) P). apply den_withp. intros l Hl. exfalso. apply Hl, (user_pfree nf), UC. }
  assert (P1 : e_pert E' 1 = e_pert E 1) by reflexivity.
  assert (DE : dat E' x (norm s)). { apply dat_withp; [|exact D]. intros l Hl. exfalso. apply Hl, (user_pfree nf), user_norm, U. }
  assert (DB : dat E' x B). { apply blk2_closed; [apply closed_dat|intros; exact I|]. apply fr_dat; [apply norm_nosd|apply (user_epsfree nf), user_norm, U|exact DE]. }
  assert (LT : forall k, lin 2 j K2 (subs0 (diff_eps (repl 1 k B)))).
  { intros k. apply lin_adj; [|unfold lin_block; rewrite coeffs_length; lia]. intros c Ic. apply (In_nth _ _ (SNum 0)) in Ic. destruct Ic as [m [_ <-]]. split; [apply lin_block_nosd|apply (user_pfree nf), UC]. }
  transitivity (den (wE E' 0) (diff_eps (repla 1 B)) x).
  - rewrite (repla_split E' 1 nf B x NB FB).
    2:{ apply blk2_closed; [apply closed_allf|intros; exact I|]. apply fr_allf; [apply norm_nosd|]. apply user_allf, user_norm, U. }
    apply rsum_ext. intros k Hk. rewrite <- subs0_den by (apply sdiff_nosd, repl_nosd, NB). rewrite <- (coeffs_sum 2 j K2 _ E' x (LT k)). rewrite block_den. unfold adj_block. rewrite map_length, seq_length. apply rsum_ext. intros m Hm.
    rewrite map_seq_nth by exact Hm. cbn [den]. fold B. rewrite norm_id by exact NB. change (e_pert E' 2 j) with (refl x (e_pert E 2 j)). rewrite Derive_n_refl by apply SE.
    unfold E'. rewrite den_withp; [ring|]. intros l Hl. unfold P. destruct (Nat.eqb_spec l 2) as [->|]; [|reflexivity]. exfalso. apply Hl, coeffs_pfree, LT.
  - rewrite <- (is_derive_unique _ _ _ (dir_deriv E' 1 B x SE' NB FB DB)). apply is_derive_unique.
    apply (is_derive_ext (fun h => rsum (S K1) (fun m => den (move E (e_pert E 1) h) (nth m (lin_block K1 i s) (SNum 0)) x * ((-1) ^ m * Derive_n (e_pert E 2 j) m x)))).
    + intros h. unfold B. rewrite block_den. unfold lin_block at 2. rewrite coeffs_length. apply rsum_ext. intros m Hm. rewrite P1, EC. f_equal. change (e_pert (move E' (e_pert E 1) h) 2 j) with (refl x (e_pert E 2 j)). symmetry. apply Derive_n_refl. apply SE.
    + apply is_derive_rsum'. intros m Hm. apply (is_derive_mul_r (fun h => den (move E (e_pert E 1) h) (nth m (lin_block K1 i s) (SNum 0)) x)). eexists. apply dir_deriv; [exact SE|apply lin_block_nosd|apply (user_epsfree nf), UC|apply (lin_block_dat nf); assumption].
Qed.
(** algebraic nonlinearities: the compiled expression is the transpose of the second derivative, point by point: for every direction w,
    (second derivative of F in directions p and w) . phi = (compiled adjoint of p, phi) . w  *)
Theorem C155_adjoint_algebraic_partial : forall E K2 nf srcs (w : nat -> R -> R) (D : nat -> R) a b x, smoothE E -> (forall j, smooth (w j)) -> a < x < b ->
  (forall j, (j < nf)%nat -> user nf (nth j srcs (SNum 0)) /\ (forall i, (i < nf)%nat -> ode_order i (nth j srcs (SNum 0)) = 0%nat) /\
    locally 0 (fun h => defined_near (move E (e_pert E 1) h) w a b (nth j srcs (SNum 0))) /\
    is_derive (fun h => Derive (fun t => den (move (move E (e_pert E 1) h) w t) (nth j srcs (SNum 0)) x) 0) 0 (D j)) ->
  rsum nf (fun i => den E (adj_action 0 K2 nf i srcs) x * w i x) = rsum nf (fun j => e_pert E 2 j x * D j).
Proof.
  intros E K2 nf srcs w D a b x SE Sw Hx H. assert (Sp : forall l j, smooth (e_pert E l j)) by (intros l j; apply SE).
  set (c := fun i j => nth 0 (lin_block 0 i (nth j srcs (SNum 0))) (SNum 0)). set (d := fun i j => Derive (fun h => den (move E (e_pert E 1) h) (c i j) x) 0).
  assert (DN : forall j, (j < nf)%nat -> dat E x (norm (nth j srcs (SNum 0)))).
  { intros j Hj. destruct (H j Hj) as [U [O [Df _]]]. apply locally_singleton in Df. rewrite move_0 in Df. apply (norm_correct E a b _ SE (defined_near_0 _ _ _ _ _ Df) x Hx). }
  assert (UC : forall i j, (i < nf)%nat -> (j < nf)%nat -> user nf (c i j)). { intros i j Hi Hj. destruct (H j Hj) as [U [O _]]. apply lin_block_user; [exact U|exact Hi|]. intros k Hk. rewrite O by exact Hk. lia. }
  assert (Dj : forall j, (j < nf)%nat -> D j = rsum nf (fun i => d i j * w i x)).
  { intros j Hj. destruct (H j Hj) as [U [O [Df Dd]]]. rewrite <- (is_derive_unique _ _ _ Dd). apply is_derive_unique.
    apply (is_derive_ext_loc (fun h => rsum nf (fun i => den (move E (e_pert E 1) h) (c i j) x * w i x))).
    - apply (filter_imp (fun h => defined_near (move E (e_pert E 1) h) w a b (nth j srcs (SNum 0)))); [|exact Df]. intros h Hh. symmetry. apply is_derive_unique.
      set (Ew := withp (move E (e_pert E 1) h) (fun _ => w)).
      assert (Q : forall t, den (move Ew w t) (nth j srcs (SNum 0)) x = den (move (move E (e_pert E 1) h) w t) (nth j srcs (SNum 0)) x).
      { intros t. apply (den_withp (move (move E (e_pert E 1) h) w t) (fun _ => w)). intros l Hl. exfalso. apply Hl, (user_pfree nf), U. }
      apply (is_derive_ext (fun t => den (move Ew (e_pert Ew 1) t) (nth j srcs (SNum 0)) x)); [exact Q|].
      evar_last; [apply (lin_action Ew 0 nf (nth j srcs (SNum 0)) a b x)|].
      + apply smooth_withp; [apply smooth_move; [exact SE|apply Sp]|intros _; exact Sw].
      + exact U.
      + intros i Hi. rewrite O by exact Hi. lia.
      + unfold defined_near. apply (filter_imp (fun t => defined (move (move E (e_pert E 1) h) w t) a b (nth j srcs (SNum 0)))); [|exact Hh]. intros t.
        change (move Ew (e_pert Ew 1) t) with (withp (move (move E (e_pert E 1) h) w t) (fun _ => w)). generalize (move (move E (e_pert E 1) h) w t). intros E1. clear - U. induction (nth j srcs (SNum 0)); cbn [defined user] in *; try tauto.
        intros [A B]. split; [tauto|]. intros y Hy. rewrite den_withp; [now apply B|]. intros l Hl. exfalso. apply Hl, (user_pfree nf), U.
      + exact Hx.
      + rewrite (row_blocks Ew x 1 0 nf) by (intros; apply coeffs_length). apply rsum_ext. intros i Hi. cbn [rsum Derive_n]. change (e_pert Ew 1 i) with (w i). fold (c i j). unfold Ew. rewrite den_withp; [ring|]. intros l Hl. exfalso. apply Hl, (user_pfree nf), UC; assumption.
    - apply is_derive_rsum'. intros i Hi. apply (is_derive_mul_r (fun h => den (move E (e_pert E 1) h) (c i j) x)). eexists. apply dir_deriv; [exact SE|apply lin_block_nosd|apply (user_epsfree nf), UC; assumption|apply (lin_block_dat nf); [exact U|apply DN, Hj]]. }
  transitivity (rsum nf (fun i => rsum nf (fun j => d i j * e_pert E 2 j x * w i x))).
  - apply rsum_ext. intros i Hi. rewrite (adj_formula E 0 K2 nf srcs i x SE (Nat.le_0_l _) Hi).
    + rewrite Rmult_comm, <- rsum_scal. apply rsum_ext. intros j Hj. cbn [rsum Derive_n pow]. fold (c i j). fold (d i j). ring.
    + intros j Hj. destruct (H j Hj) as [U [O _]]. split; [exact U|]. split; [apply DN, Hj|]. intros k Hk. rewrite O by exact Hk. lia.
  - rewrite rsum_swap. apply rsum_ext. intros j Hj. rewrite (Dj j Hj), <- rsum_scal. apply rsum_ext. intros i Hi. ring.
Qed.
Print Assumptions C155_adjoint_algebraic_partial.
(** with derivatives the sign alone is not the adjoint: for F(u) = u u_x on [-1,1] and a direction w vanishing at both ends, integration by parts fails *)
Definition c155_env : env := mkEnv (fun _ => 0) (fun _ _ => 0) (fun _ _ => 0) (fun l _ => if Nat.eqb l 1 then fun x => x ^ 1 else fun _ => 1) 0.
Definition c155_s : sexp := SMul (SFun 0 0) (SFun 0 1).
Lemma c155_smooth : smoothE c155_env.
Proof. split; [intros j; apply (smooth_K 0)|]. split; [intros j; apply (smooth_K 0)|]. intros l j. cbn [c155_env e_pert]. destruct (Nat.eqb l 1); [apply (smooth_pow 1)|apply (smooth_K 1)]. Qed.
Lemma c155_c0 E x : den E (nth 0 (lin_block 1 0 c155_s) (SNum 0)) x = den E (SFun 0 1) x.
Proof.
  unfold lin_block, frechet, diff_eps, c155_s. cbn [norm repl Nat.eqb sdiff subs0]. unfold smul. rewrite ?isz0, ?isz1. cbn [isz]. unfold sadd. rewrite ?isz0. cbn [isz]. cbn. ring.
Qed.
Lemma c155_adj x : den c155_env (adj_action 1 1 1 0 [c155_s]) x = 1.
Proof.
  rewrite (adj_formula c155_env 1 1 1 [c155_s] 0 x c155_smooth) by (try lia; intros j Hj; replace j with 0%nat by lia; cbn; repeat split; try lia; intros i Hi; destruct i; cbn; lia).
  cbn [rsum nth]. rewrite (Derive_ext _ (fun h => h)).
  - rewrite Derive_id. cbn [c155_env e_pert Nat.eqb]. rewrite (Derive_n_K 1 1 x) by lia. cbn [Derive_n pow]. lra.
  - intros h. rewrite c155_c0. cbn [den move e_fun]. rewrite (Derive_n_move (e_fun c155_env 0) (e_pert c155_env 1 0) h 1 x (proj1 (proj2 c155_smooth) _) (proj2 (proj2 c155_smooth) _ _)).
    cbn [c155_env e_fun e_pert Nat.eqb]. rewrite (Derive_n_K 0 1 x), (Derive_n_pow_smalli 1 1 x) by lia. cbn. field.
Qed.
Theorem C155_adjoint_refuted : exists E s (w D : R -> R), smoothE E /\ user 1 s /\ smooth w /\ w (-1) = 0 /\ w 1 = 0 /\
  (forall x, is_derive (fun h => Derive (fun t => den (move (move E (e_pert E 1) h) (fun _ => w) t) s x) 0) 0 (D x)) /\
  is_RInt (fun x => e_pert E 2 0 x * D x) (-1) 1 0 /\
  is_RInt (fun x => den E (adj_action (diff_order 1 [s]) (diff_order 1 [s]) 1 0 [s]) x * w x) (-1) 1 (4 / 3).
Proof.
  assert (DW : forall x, is_derive (fun x => 1 - x ^ 2) x (-2 * x)) by (intros x; auto_derive; [exact I|ring]).
  assert (SW : smooth (fun x => 1 - x ^ 2)). { intros k x. apply ex_derive_n_minus; apply filter_forall; intros y i _; [apply ex_derive_n_const|apply ex_derive_n_pow]. }
  exists c155_env, c155_s, (fun x => 1 - x ^ 2), (fun x => 1 - 3 * x ^ 2).
  split; [apply c155_smooth|]. split; [cbn; lia|]. split; [exact SW|]. split; [ring|]. split; [ring|]. split; [|split].
  - intros x. apply (is_derive_ext (fun h => h * (1 - 3 * x ^ 2))).
    + intros h. symmetry. apply is_derive_unique. apply (is_derive_ext (fun t => (0 + h * x ^ 1 + t * (1 - x ^ 2)) * (0 + h * 1 + t * (-2 * x)))).
      * intros t. cbn [den c155_s move e_fun].
        rewrite (Derive_n_move (fun y => e_fun c155_env 0 y + h * e_pert c155_env 1 0 y) (fun x => 1 - x ^ 2) t 1 x (proj1 (proj2 (smooth_move c155_env (e_pert c155_env 1) h c155_smooth (proj2 (proj2 c155_smooth) 1%nat))) 0%nat) SW).
        rewrite (Derive_n_move (e_fun c155_env 0) (e_pert c155_env 1 0) h 1 x (proj1 (proj2 c155_smooth) _) (proj2 (proj2 c155_smooth) _ _)).
        cbn [c155_env e_fun e_pert Nat.eqb]. rewrite (Derive_n_K 0 1 x), (Derive_n_pow_smalli 1 1 x) by lia. replace (Derive_n (fun x0 => 1 - x0 ^ 2) 1 x) with (-2 * x) by (symmetry; apply (is_derive_unique _ _ _ (DW x))).
        cbn [Derive_n fact Nat.sub INR Nat.mul Nat.add pow]. lazymatch goal with |- @eq _ ?p ?q => enough (Z : @eq R p q) by exact Z end. field.
      * auto_derive; [exact I|ring].
    + auto_derive; [exact I|ring].
  - evar_last; [apply (is_RInt_derive (fun x => x - x ^ 3) (fun x => e_pert c155_env 2 0 x * (1 - 3 * x ^ 2)))|].
    + intros x _. cbn. auto_derive; [exact I|ring].
    + intros x _. apply (continuous_ext (fun x => 1 - 3 * x ^ 2)); [intros y; cbn; lazymatch goal with |- @eq _ ?p ?q => enough (Z : @eq R p q) by exact Z end; ring|]. apply (ex_derive_continuous (fun x => 1 - 3 * x ^ 2)). auto_derive. exact I.
    + unfold minus, plus, opp. cbn. ring.
  - replace (diff_order 1 [c155_s]) with 1%nat by reflexivity. apply (is_RInt_ext (fun x => 1 - x ^ 2)); [intros x _; rewrite c155_adj; symmetry; apply Rmult_1_l|].
    evar_last; [apply (is_RInt_derive (fun x => x - x ^ 3 / 3) (fun x => 1 - x ^ 2))|].
    + intros x _. auto_derive; [exact I|field].
    + intros x _. apply (ex_derive_continuous (fun x => 1 - x ^ 2)). auto_derive. exact I.
    + unfold minus, plus, opp. cbn. field.
Qed.
Print Assumptions C155_adjoint_refuted.
