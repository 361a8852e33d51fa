(** What remains true of properties that are refuted in other files. *)
From Coq Require Import Reals List Arith Bool ZArith Lra Lia.
From Coquelicot Require Import Coquelicot.
From Verif Require Import Base ChebModel ChebSpec ChebMath ChebEval ChebArith ChebObj ChebMulObj TcolMat NewtonModel NewtonProofs NewtonEx.
Import ListNotations.
Open Scope R_scope.

(** ** C89: QNERR called on its own *)
Section QN.
Variables X V S : Type.
Variables (mksys : X -> S) (rhs : S -> X -> V) (solve : S -> V -> X * bool) (vneg : V -> V).
Variables (xadd xsub : X -> X -> X) (xscal : R -> X -> X) (xdiv : X -> R -> X) (ip : X -> X -> R).
Variable callback : S -> nat -> X -> R -> R -> bool.
Variables (tol theta_max lambda_min : R) (restricted use_qnerr : bool) (miter : nat).
Notation qn_loop := (qn_loop X V S rhs solve vneg xadd xscal xdiv ip callback tol theta_max).
Notation damp := (damp X V S rhs solve vneg xadd xsub xscal ip tol theta_max lambda_min restricted).
Notation nleq_loop := (nleq_loop X V S mksys rhs solve vneg xadd xsub xscal xdiv ip callback tol theta_max lambda_min
                         restricted use_qnerr miter).
Lemma qna_success : forall fuel qm itr sys x k dxs sigs nd d0 x' k' nd', 
  length dxs = Datatypes.S k -> length sigs = Datatypes.S k ->
  nd = sqrt (ip (nth k dxs d0) (nth k dxs d0)) ->
  nth k sigs 0 = (if Nat.eqb k 0 then nd else ip (nth k dxs d0) (nth k dxs d0)) ->
  qn_loop fuel qm itr sys x false k dxs sigs nd d0 = Some (x', true, k', nd') ->
  exists x0 d, x' = xadd x0 d /\ nd' = sqrt (ip d d) /\ (k < k')%nat /\
    ((k' = 1%nat /\ nd' <= tol * tol) \/ ((2 <= k')%nat /\ ip d d <= tol * tol)).
Proof.
  induction fuel; intros * D SG ND NS H; [discriminate|].
  cbn [NewtonModel.qn_loop negb andb] in H. destruct (Nat.leb k qm) eqn:L; [|discriminate].
  destruct (Rleb (nth k sigs 0) (tol * tol)) eqn:C.
  - apply Rleb_spec in C. inversion H; subst. exists x, (nth k dxs d0). split; [reflexivity|]. split; [reflexivity|]. split; [lia|].
    destruct (Nat.eqb_spec k 0) as [->|NE]; rewrite NS in C; [left; auto|right; split; [lia|exact C]].
  - destruct (solve sys _) as [v [|]]; [|discriminate]. cbv zeta in H.
    destruct (_ || _); [discriminate|].
    apply IHfuel in H.
    + destruct H as [x0 [d [A [B [K Q]]]]]. exists x0, d. split; [exact A|]. split; [exact B|]. split; [lia|exact Q].
    + rewrite app_length. simpl. lia.
    + rewrite app_length. simpl. lia.
    + rewrite app_nth2 by lia. now rewrite D, Nat.sub_diag.
    + cbn [Nat.eqb]. rewrite !app_nth2 by lia. now rewrite D, SG, Nat.sub_diag.
Qed.

(** ** C92: the flag that starts QNERR *)
Definition full_before (acc : list (R * R * R * bool)) : Prop :=
  exists nd nb q, In (1, nd, nb, q) acc /\ nb / nd < theta_max.
Lemma damp_flag : forall n sys x dx nd lam r xk db th qn f tr d,
  damp n sys x dx nd lam r xk db th qn f tr = Some d -> d_linok _ _ d = true -> d_limit _ _ d = false -> d_qn _ _ d = true ->
  qn = true \/ (d_lam _ _ d = 1 /\ nrm X ip (d_dxbar _ _ d) / nd < theta_max).
Proof.
  induction n; intros * H LO LI Q; [discriminate|].
  cbn [NewtonModel.damp] in H. destruct (Rleb lam lambda_min).
  { inversion H; subst d. cbn in LI. discriminate. }
  destruct (solve sys _) as [db' [|]]; [|inversion H; subst d; cbn in LO; discriminate].
  cbv zeta in H. destruct (_ || _).
  - eapply IHn; eassumption.
  - destruct (is_one lam && is_one _) eqn:O.
    + apply andb_true_iff in O. destruct O as [O _]. apply is_one_spec in O.
      destruct (Rleb _ tol); inversion H; subst d; cbn in *; [now left|]. right. split; [exact O|]. now apply Rltb_spec in Q.
    + destruct (_ && negb r).
      * eapply IHn; eassumption.
      * inversion H; subst d. cbn in *. now left.
Qed.
Definition qn_justified (acc : list (R * R * R * bool)) : Prop :=
  forall newer lam nd nb older, acc = newer ++ (lam, nd, nb, true) :: older -> full_before ((lam, nd, nb, true) :: older).
Lemma justified_cons a acc : qn_justified acc -> (snd a = true -> full_before (a :: acc)) -> qn_justified (a :: acc).
Proof.
  intros J A newer lam nd nb older E. destruct newer as [|b newer]; cbn in E; inversion E; subst.
  - apply A. reflexivity.
  - eapply J. reflexivity.
Qed.
Lemma full_cons a acc : full_before acc -> full_before (a :: acc).
Proof. intros [nd [nb [q [I Q]]]]. exists nd, nb, q. split; [now right|exact Q]. Qed.
Lemma nleq_flag dfuel : forall fuel x own arg k lam dx dxbar f nd qn ne tr acc r,
  qn_justified acc -> (qn = true -> full_before acc) ->
  nleq_loop fuel dfuel x own arg k lam dx dxbar f nd qn ne tr acc = Some r -> qn_justified (r_acc r).
Proof.
  induction fuel; intros * J Q H; [discriminate|].
  cbn [NewtonModel.nleq_loop] in H. destruct (Nat.leb miter k); [inversion H; subst; exact J|].
  cbv zeta in H. destruct (solve (mksys x) _) as [dx' [|]]; [|inversion H; subst; exact J].
  destruct (Rleb _ tol); [inversion H; subst; exact J|].
  match goal with H : context [damp ?df ?s ?x ?dx ?n ?l false ?x ?db 0 ?q ?ff ?t] |- _ =>
    destruct (damp df s x dx n l false x db 0 q ff t) as [d|] eqn:D; [|discriminate] end.
  destruct (d_linok _ _ d) eqn:LO; cbn [negb] in H; [|inversion H; subst; exact J].
  destruct (d_limit _ _ d) eqn:LI; [inversion H; subst; exact J|].
  assert (F : forall b, d_qn _ _ d = true -> full_before ((d_lam X V d, nrm X ip dx', nrm X ip (d_dxbar X V d), b) :: acc)).
  { intros b Qd. destruct (damp_flag _ _ _ _ _ _ _ _ _ _ _ _ _ _ D LO LI Qd) as [Z|[Z1 Z2]].
    - apply full_cons, Q, Z.
    - exists (nrm X ip dx'), (nrm X ip (d_dxbar X V d)), b. split; [left; now rewrite Z1|exact Z2]. }
  destruct (callback _ _ _ _ _); cbn [negb] in H; [|inversion H; subst; exact J].
  destruct (d_succ _ _ d).
  { inversion H; subst. cbn. apply justified_cons; [exact J|]. cbn. discriminate. }
  destruct (d_qn _ _ d && use_qnerr) eqn:DQ.
  - destruct (qnerr_nleq _ _ _ _ _ _ _ _ _ _ _ _ _ _ _ _ _ _) as [[[[x2 ok] kp] nq]|]; [|discriminate].
    apply andb_true_iff in DQ. destruct DQ as [DQ _].
    eapply IHfuel; [| |exact H].
    + apply justified_cons; [exact J|]. intros _. apply F. exact DQ.
    + intros _. apply F. exact DQ.
  - eapply IHfuel; [| |exact H].
    + apply justified_cons; [exact J|]. cbn. discriminate.
    + intros Z. apply F. exact Z.
Qed.

(** ** C91: the argument of NLEQ-ERR *)
Lemma nleq_arg_foreign dfuel : forall fuel x arg k lam dx dxbar f nd qn ne tr acc r,
  nleq_loop fuel dfuel x false arg k lam dx dxbar f nd qn ne tr acc = Some r -> r_arg r = arg.
Proof.
  induction fuel; intros * H; [discriminate|].
  cbn [NewtonModel.nleq_loop] in H. destruct (Nat.leb miter k); [inversion H; reflexivity|].
  cbv zeta in H. destruct (solve (mksys x) _) as [dx' [|]]; [|inversion H; reflexivity].
  destruct (Rleb _ tol); [inversion H; reflexivity|].
  destruct (damp _ _ _ _ _ _ _ _ _ _ _ _ _) as [d|]; [|discriminate].
  destruct (negb (d_linok _ _ d)); [inversion H; reflexivity|].
  destruct (d_limit _ _ d); [inversion H; reflexivity|].
  destruct (negb _); [inversion H; reflexivity|].
  destruct (d_succ _ _ d); [inversion H; reflexivity|].
  destruct (_ && _).
  - destruct (qnerr_nleq _ _ _ _ _ _ _ _ _ _ _ _ _ _ _ _ _ _) as [[[[x2 ok] kp] nq]|]; [|discriminate]. eapply IHfuel; exact H.
  - eapply IHfuel; exact H.
Qed.
Lemma nleq_arg dfuel fuel x k lam dx dxbar f nd qn ne tr acc r :
  nleq_loop fuel dfuel x true x k lam dx dxbar f nd qn ne tr acc = Some r ->
  r_arg r = x \/ (r_why r = Converged /\ r_k r = (k + 1)%nat /\ r_arg r = r_x r).
Proof.
  destruct fuel; intros H; [discriminate|].
  cbn [NewtonModel.nleq_loop] in H. destruct (Nat.leb miter k); [inversion H; auto|].
  cbv zeta in H. destruct (solve (mksys x) _) as [dx' [|]]; [|inversion H; auto].
  destruct (Rleb _ tol); [inversion H; auto|].
  destruct (damp _ _ _ _ _ _ _ _ _ _ _ _ _) as [d|]; [|discriminate].
  destruct (negb (d_linok _ _ d)); [inversion H; auto|].
  destruct (d_limit _ _ d); [inversion H; auto|].
  destruct (negb _); [inversion H; auto|].
  destruct (d_succ _ _ d); [inversion H; auto|]. left.
  destruct (_ && _).
  - destruct (qnerr_nleq _ _ _ _ _ _ _ _ _ _ _ _ _ _ _ _ _ _) as [[[[x2 ok] kp] nq]|]; [|discriminate]. eapply nleq_arg_foreign; exact H.
  - eapply nleq_arg_foreign; exact H.
Qed.
End QN.

(** C89: QNERR on its own ends, after at most miter + 1 iterations; on success
    the last step d has the norm reported, at most tol if it is not the first,
    at most tol^2 if it is: for tolerances up to 1 always at most tol. *)
Theorem C89_success_partial :
  forall (X V S : Type) (mksys : X -> S) (rhs : S -> X -> V) (solve : S -> V -> X * bool) (vneg : V -> V)
    (xadd : X -> X -> X) (xscal : R -> X -> X) (xdiv : X -> R -> X) (ip : X -> X -> R)
    (callback : S -> nat -> X -> R -> R -> bool) (tol theta_max : R) (qm : nat) (x : X), 0 <= tol ->
  exists r, qnerr_alone X V S mksys rhs solve vneg xadd xscal xdiv ip callback tol theta_max qm x = Some r /\
    match r with
    | inl (x', ok, _, _) => x' = x /\ ok = false
    | inr (x', ok, k', nd', _, s) => s = mksys x /\ (k' <= qm + 1)%nat /\
        (ok = true -> exists x0 d, x' = xadd x0 d /\ nd' = sqrt (ip d d) /\
           ((2 <= k')%nat -> nd' <= tol) /\ (k' = 1%nat -> nd' <= tol * tol) /\ (1 <= k')%nat /\ (tol <= 1 -> nd' <= tol))
    end.
Proof.
  intros. unfold qnerr_alone. destruct (solve _ _) as [dxk [|]].
  2:{ eexists. split; [reflexivity|]. cbn. auto. }
  destruct (callback _ _ _ _ _).
  2:{ eexists. split; [reflexivity|]. cbn. auto. }
  destruct (qn_terminates X V S rhs solve vneg xadd xscal xdiv ip callback tol theta_max (qm + 2) qm 0 (mksys x) x false 0 [dxk]
              [nrm X ip dxk] (nrm X ip dxk) dxk) as [x' [ok [k' [nd' [E K]]]]]; [lia|lia|].
  rewrite E. eexists. split; [reflexivity|]. split; [reflexivity|]. split; [exact K|]. intros ->.
  apply qna_success in E; try reflexivity.
  destruct E as [x0 [d [A [B [K0 Q]]]]]. exists x0, d. split; [exact A|]. split; [exact B|].
  assert (SQ : forall u, u <= tol * tol -> sqrt u <= tol).
  { intros u U. rewrite <- (sqrt_square tol) by exact H. apply sqrt_le_1_alt. exact U. }
  destruct Q as [[Q1 Q2]|[Q1 Q2]].
  - repeat split; try lia; try (intros; exact Q2). intros T. nra.
  - assert (nd' <= tol) by (rewrite B; auto). repeat split; try lia; auto.
Qed.
Print Assumptions C89_success_partial.

(** C91: NLEQ-ERR leaves the guess alone unless the very first correction is
    already below the tolerance; then the guess is overwritten by the result. *)
Theorem C91_nleq_partial :
  forall (X V S : Type) (mksys : X -> S) (rhs : S -> X -> V) (solve : S -> V -> X * bool) (vneg : V -> V)
    (xadd xsub : X -> X -> X) (xscal : R -> X -> X) (xdiv : X -> R -> X) (ip : X -> X -> R)
    (callback : S -> nat -> X -> R -> R -> bool) (tol theta_max lambda_min : R) (restricted use_qnerr : bool)
    (miter m : nat) (lam0 : R) (x : X) r,
  nleq_err X V S mksys rhs solve vneg xadd xsub xscal xdiv ip callback tol theta_max lambda_min restricted use_qnerr miter m lam0 x = Some r ->
  r_arg r = x \/ (r_why r = Converged /\ r_k r = 1%nat /\ r_arg r = r_x r).
Proof. intros *. apply nleq_arg. Qed.
Print Assumptions C91_nleq_partial.

(** C92: QNERR is started only if this or an earlier accepted step of the run
    (r_acc is in reverse order) was undamped and contracted by theta_max. *)
Theorem C92_some_full_step_partial :
  forall (X V S : Type) (mksys : X -> S) (rhs : S -> X -> V) (solve : S -> V -> X * bool) (vneg : V -> V)
    (xadd xsub : X -> X -> X) (xscal : R -> X -> X) (xdiv : X -> R -> X) (ip : X -> X -> R)
    (callback : S -> nat -> X -> R -> R -> bool) (tol theta_max lambda_min : R) (restricted use_qnerr : bool)
    (miter m : nat) (lam0 : R) (x : X) r,
  nleq_err X V S mksys rhs solve vneg xadd xsub xscal xdiv ip callback tol theta_max lambda_min restricted use_qnerr miter m lam0 x = Some r ->
  forall newer lam nd nb older, r_acc r = newer ++ (lam, nd, nb, true) :: older ->
    exists nd' nb' q, In (1, nd', nb', q) ((lam, nd, nb, true) :: older) /\ nb' / nd' < theta_max.
Proof.
  intros * H newer lam nd nb older E.
  eapply (nleq_flag X V S mksys rhs solve vneg xadd xsub xscal xdiv ip callback tol theta_max lambda_min restricted use_qnerr miter);
    [| |exact H|exact E].
  - intros n' l a b o Z. destruct n'; discriminate.
  - discriminate.
Qed.
Print Assumptions C92_some_full_step_partial.

(** ** C13: constants with several columns *)
(** C13: the product of two constants with the same number of columns is the
    pointwise product; so only the case of a non-constant factor is lost. *)
Theorem C13_both_constant_partial : forall f g,
  wf f -> wf g -> len f = 1%nat -> len g = 1%nat -> ncols f = ncols g ->
  exists h, multiply f g = Some h /\ ncols h = ncols f /\ len h = 1%nat /\
    forall j x, (j < ncols f)%nat -> ev h j x = ev f j x * ev g j x.
Proof.
  intros f g Hf Hg Lf Lg NC. destruct (Nat.eq_dec (ncols f) 1) as [N1|N1].
  { destruct (multiply_const_l f g Hf Hg Lf N1) as [h [E [_ [A [B C]]]]]. exists h. split; [exact E|]. split; [lia|]. split; [lia|].
    intros j x J. rewrite C by lia. f_equal. now replace j with 0%nat by lia. }
  assert (NZ : (1 <= ncols f)%nat).
  { destruct Hf as [n [_ [Z _]]]. unfold ncols. destruct (coeffs f); [congruence|cbn; lia]. }
  unfold multiply. fold (len f). rewrite Lf, Nat.eqb_refl.
  unfold multiply_array. fold (len f) (ncols f). rewrite Lf.
  destruct (Nat.eqb_spec (1 * ncols f) 1); [lia|].
  unfold same_shape. fold (len f) (len g) (ncols f) (ncols g). rewrite Lf, Lg, NC, !Nat.eqb_refl. cbn [andb].
  set (A := map _ _).
  assert (LA : length A = ncols g).
  { unfold A. rewrite map_length, combine_length. fold (ncols f) (ncols g). lia. }
  assert (NA : forall j, (j < ncols g)%nat -> nth j A [] = [nth 0 (nth j (coeffs g) []) 0 * nth 0 (nth j (coeffs f) []) 0]).
  { intros j J. unfold A.
    rewrite (map_nth' _ _ j [] ([], [])) by (rewrite combine_length; fold (ncols f) (ncols g); lia).
    rewrite combine_nth by (fold (ncols f) (ncols g); lia).
    assert (Z1 := col_len f j Hf ltac:(lia)). assert (Z2 := col_len g j Hg ltac:(lia)).
    destruct (nth j (coeffs f) []) as [|a [|]]; cbn in Z1; try lia.
    destruct (nth j (coeffs g) []) as [|b [|]]; cbn in Z2; try lia. reflexivity. }
  assert (RA : rect 1 A).
  { split; [lia|]. split; [intros Z; rewrite Z in LA; cbn in LA; lia|].
    apply Forall_forall. intros c I. apply (In_nth _ _ []) in I. destruct I as [j [J Z]]. rewrite LA in J. rewrite <- Z, NA by exact J. reflexivity. }
  destruct (cheb_init_some 1 A (eps g) 1 maxLength_default (ishappy g) RA) as [hp [E _]]. rewrite E.
  eexists. split; [reflexivity|]. cbn [ncols len coeffs]. unfold ncols at 1, len at 1. cbn [coeffs]. split; [lia|].
  split; [apply (rect_nrows 1 A RA)|].
  intros j x J. unfold ev at 1. cbn [coeffs]. rewrite NA by lia.
  assert (Z1 := col_len f j Hf ltac:(lia)). assert (Z2 := col_len g j Hg ltac:(lia)).
  unfold ev, evalT. rewrite Z1, Z2, Lf, Lg. cbn [length rsum T nth]. ring.
Qed.
Print Assumptions C13_both_constant_partial.

(** ** The hypotheses are met by concrete, non-trivial cases *)
(** C13: the constants (2, 3) and (5, 7). *)
Example ex_C13 : exists f g, wf f /\ wf g /\ len f = 1%nat /\ len g = 1%nat /\ ncols f = ncols g /\
  ev f 1 0 = 3 /\ ev g 1 0 = 7.
Proof.
  exists (mkCheb [[2]; [3]] (/ 2) 1 maxLength_default true), (mkCheb [[5]; [7]] (/ 2) 1 maxLength_default true).
  assert (R : forall a b, rect 1 [[a]; [b]]).
  { intros a b. split; [lia|]. split; [discriminate|]. repeat constructor. }
  split; [eexists; apply R|]. split; [eexists; apply R|]. repeat split; unfold ev, evalT; cbn; ring.
Qed.
(** C89, C91, C92: runs of the three kinds (NewtonEx.v). *)
Example ex_runs : (exists F J x m r, rqna F J true true (3 / 2) m x = Some (inr r)) /\
  (exists F J x m r, rnleq F J 1 (1 / 100) 3 m 1 x = Some r /\ r_arg r = x /\ r_succ r = true) /\
  (exists F J x m r lam nd nb, rnleq F J 1 (1 / 100) 5 m 1 x = Some r /\ In (lam, nd, nb, true) (r_acc r)).
Proof.
  split; [exists (fun x => x), (fun _ => 1); do 2 eexists; exists (0, true, 1%nat, 2, 1%nat, 2); apply (ex_qna_early 3)|].
  split.
  - exists (fun x => x), (fun _ => 1), 64, 1%nat. eexists. split; [apply (ex_success 0)|]. cbn. auto.
  - exists Fst, Jst, 4, 1%nat. do 4 eexists. split; [apply (ex_stale 0)|]. cbn. left. reflexivity.
Qed.
