(** Properties of funpy/newton (nleq_err.py, qnerr.py, newton_standard.py and
    the dispatch).  Vocabulary: NewtonSpec.v.  The model is NewtonModel.v; in it
    states X, raw vectors V, linear systems S, the residual, the solver, the
    arithmetic and the inner product are arbitrary. *)
From Coq Require Import Reals List Arith Bool Lra Lia.
From Coquelicot Require Import Coquelicot.
From Verif Require Import Base ChebModel NewtonModel NewtonSpec NewtonProofs NewtonBroyden NewtonEx.
Import ListNotations.
Open Scope R_scope.

(** ** C42: NLEQ-ERR *)
(** C42: the iteration ends (both loops: the result does not depend on the
    fuel m), with at most miter Jacobians and miter (3 a + 2) trial steps where
    lambda_min 4^a >= 1; without QNERR at most miter iterations are reported;
    every damping factor tried is in (lambda_min, 1]; every accepted step
    passes the monotonicity test; success is reported iff one of the two
    convergence tests fired, and then the returned state is y + dy, dy being of
    norm at most tol and the Newton correction at y, or the simplified Newton
    correction at y after a full step from y0. *)
Theorem C42_nleq_err_stops :
  forall (X V S : Type) (mksys : X -> S) (rhs : S -> X -> V) (solve : S -> V -> X * bool) (vneg : V -> V)
    (xadd xsub : X -> X -> X) (xscal : R -> X -> X) (xdiv : X -> R -> X) (ip : X -> X -> R)
    (callback : S -> nat -> X -> R -> R -> bool) (tol theta_max lambda_min : R) (restricted use_qnerr : bool)
    (miter a : nat) (lam0 : R) (x : X),
  0 <= tol -> 0 < lambda_min <= 1 -> 1 <= lambda_min * 4 ^ a -> lam0 <= 1 ->
  exists r, (forall m, nleq_err X V S mksys rhs solve vneg xadd xsub xscal xdiv ip callback tol theta_max lambda_min
                restricted use_qnerr miter (3 * a + 2 + m) lam0 x = Some r) /\
    (r_k r <= miter + 2)%nat /\ (use_qnerr = false -> (r_k r <= miter)%nat) /\ (r_neval r <= miter)%nat /\
    (length (r_trials r) <= miter * (3 * a + 2))%nat /\
    (forall l, In l (r_trials r) -> lambda_min < l <= 1) /\
    (forall lam nd nb q, In (lam, nd, nb, q) (r_acc r) -> lambda_min < lam <= 1 /\ tol < nd /\
       if restricted then nb <= (1 - lam / 4) * nd else nb < nd) /\
    (r_succ r = true <-> r_why r = Converged \/ r_why r = ConvergedBar) /\
    (r_why r = MaxIter -> (miter <= r_k r)%nat) /\
    (r_succ r = true ->
     exists y dy, r_x r = xadd y dy /\ sqrt (ip dy dy) <= tol /\
       ((exists s, solve (mksys y) (vneg (rhs s y)) = (dy, true)) \/
        (exists y0 dy0 f0, solve (mksys y0) (vneg f0) = (dy0, true) /\ y = xadd y0 (xscal 1 dy0) /\
           solve (mksys y0) (vneg (rhs (mksys y0) y)) = (dy, true)))).
Proof. intros. apply nleq_err_stops; assumption. Qed.
Print Assumptions C42_nleq_err_stops.

(** C42: with QNERR the number of iterations reported can exceed miter (here 3
    with miter = 1), although the state has reached the solution; success is
    not reported. *)
Theorem C42_iteration_limit_refuted :
  ~ (forall (F J : R -> R) (tol lmin : R) (miter m : nat) (x : R) r, 0 <= tol -> 0 < lmin <= 1 ->
       rnleq F J tol lmin miter m 1 x = Some r -> (r_k r <= miter)%nat).
Proof.
  intros H. specialize (H (fun x => x) (fun _ => 4 / 3) 1 (1 / 100) 1%nat 1%nat 64 _ ltac:(lra) ltac:(lra) (ex_over 0)).
  cbn in H. lia.
Qed.
Print Assumptions C42_iteration_limit_refuted.

(** ** C88: QNERR called from NLEQ-ERR *)
(** C88: it ends, with at most miter + 1 iterations, and reports success only
    if the last step is below the tolerance. *)
Theorem C88_qnerr_stops :
  forall (X V S : Type) (rhs : S -> X -> V) (solve : S -> V -> X * bool) (vneg : V -> V)
    (xadd : X -> X -> X) (xscal : R -> X -> X) (xdiv : X -> R -> X) (ip : X -> X -> R)
    (callback : S -> nat -> X -> R -> R -> bool) (tol theta_max : R) qm itr sys x dx0, 0 <= tol ->
  exists x' ok k' nd',
    qnerr_nleq X V S rhs solve vneg xadd xscal xdiv ip callback tol theta_max qm itr sys x dx0 = Some (x', ok, k', nd') /\
    (k' <= qm + 1)%nat /\
    (ok = true -> exists x0 d, x' = xadd x0 d /\ sqrt (ip d d) <= tol /\ nd' = sqrt (ip d d)).
Proof. intros. apply qnerr_nleq_stops; assumption. Qed.
Print Assumptions C88_qnerr_stops.

(** C88: its steps are those of Broyden's method: with B_0 = J and the "good"
    Broyden update (bro_B), each step d_i solves B_i d_i = -F(x_i). *)
Theorem C88_qnerr_broyden :
  forall (X V : ModuleSpace R_Ring) (J : X -> V) (H : V -> X) (F : X -> V) (ip : X -> X -> R),
  linmap J -> (forall v, J (H v) = v) -> inner ip ->
  forall (SysT : Type) (cb : SysT -> nat -> X -> R -> R -> bool) (tol th : R) x0 d0 qm itr sys x' ok k' nd',
  th < 1 -> 0 < ip d0 d0 -> J d0 = opp (F x0) ->
  qnerr_nleq X V SysT (fun _ => F) (fun _ v => (H v, true)) opp plus scal (fun v s => scal (/ s) v) ip cb tol th
    qm itr sys (plus x0 d0) d0 = Some (x', ok, k', nd') ->
  exists ds, ds 0%nat = d0 /\ (1 <= k')%nat /\ x' = bro_x x0 ds k' /\
    (forall i, (i < k')%nat -> bro_B J F ip x0 ds i (ds i) = opp (F (bro_x x0 ds i))) /\
    (ok = true -> ip (ds (k' - 1)%nat) (ds (k' - 1)%nat) <= tol * tol).
Proof. intros. eapply qnerr_broyden; eassumption. Qed.
Print Assumptions C88_qnerr_broyden.

(** C88: which is the update with the secant condition B_{i+1} (x_{i+1} - x_i) =
    F(x_{i+1}) - F(x_i) that agrees with B_i on the complement of the step. *)
Theorem C88_broyden_secant :
  forall (X V : ModuleSpace R_Ring) (J : X -> V) (F : X -> V) (ip : X -> X -> R) x0 ds i,
  ip (ds i) (ds i) <> 0 -> bro_B J F ip x0 ds i (ds i) = opp (F (bro_x x0 ds i)) ->
  bro_B J F ip x0 ds (S i) (ds i) = plus (F (bro_x x0 ds (S i))) (opp (F (bro_x x0 ds i))) /\
  (forall z, ip (ds i) z = 0 -> bro_B J F ip x0 ds (S i) z = bro_B J F ip x0 ds i z).
Proof. intros. split; [apply bro_secant; assumption|apply bro_orth]. Qed.
Print Assumptions C88_broyden_secant.

(** ** C89: Newton.solve with method 'qnerr' *)
(** C89: on its own QNERR compares the norm of the first correction, not its
    square, with tol^2: the correction 2 is accepted as below tol = 3/2. *)
Theorem C89_first_test_refuted :
  ~ (forall (F J : R -> R) (tol : R) (m : nat) (x x' nd s : R) (k ne : nat), 0 < tol ->
       rqna F J true true tol m x = Some (inr (x', true, k, nd, ne, s)) -> nd <= tol).
Proof. intros H. specialize (H (fun x => x) (fun _ => 1) (3 / 2) 3%nat _ _ _ _ _ _ ltac:(lra) (ex_qna_early 3)). lra. Qed.
Print Assumptions C89_first_test_refuted.
(** C89: for the same reason it gives up although the corrections contract by
    1/4; started from the same full step by NLEQ-ERR it finds the solution. *)
Theorem C89_contraction_refuted :
  exists (F J : R -> R) (x : R), (forall m, rqna F J true true 1 m x = Some (inr (16, false, 1%nat, 12 / 11, 1%nat, 64))) /\
    (- F x / J x = -48 /\ - F (x - 48) / J x = -12) /\
    (forall m, rqn F J (S (S (S m))) 2 1 x (x - 48) true 0 [-48] [-48 * -48] 48 (-48) = Some (0, true, 3%nat, 0)).
Proof.
  exists (fun x => x), (fun _ => 4 / 3), 64. split; [exact ex_qna_scale|]. split; [split; field; lra|].
  intros m. replace (64 - 48) with 16 by lra. apply ex_qn_scale.
Qed.
Print Assumptions C89_contraction_refuted.
(** C89: and when the linear system cannot be solved (or the callback stops)
    Newton.solve raises ValueError instead of reporting failure. *)
Theorem C89_failure_refuted :
  exists (F J : R -> R) (x : R), forall m,
    option_map (fun r => newton_solve_tuple (qnerr_tuple r)) (rqna F J false true 1 m x) = Some None /\
    exists r, option_map (fun r => newton_solve_tuple (qnerr_tuple r)) (rqna F J true true 1 m x) = Some (Some r).
Proof.
  exists (fun x => x), (fun _ => 4 / 3), 64. intros m. split; [reflexivity|].
  rewrite ex_qna_scale. eexists. reflexivity.
Qed.
Print Assumptions C89_failure_refuted.

(** ** C90: the standard Newton method *)
(** C90: at most miter steps; on success the last correction solves the Newton
    system at the previous iterate and is below the tolerance; failure is
    reported only after miter steps or when the callback stops; an exception
    comes only from an unsolvable linear system. *)
Theorem C90_newton_standard_partial :
  forall (X V S : Type) (mksys : X -> S) (rhs : S -> X -> V) (solve : S -> V -> X * bool) (vneg : V -> V)
    (xadd : X -> X -> X) (ip : X -> X -> R) (callback : S -> nat -> X -> R -> R -> bool) (tol : R) (miter : nat) (x : X),
  match newton_standard X V S mksys rhs solve vneg xadd ip callback tol miter x with
  | Raises => exists y, snd (solve (mksys y) (vneg (rhs (mksys y) y))) = false
  | Returns x' succ k' nd' arg =>
      (k' <= miter)%nat /\
      (succ = true -> exists y dy, solve (mksys y) (vneg (rhs (mksys y) y)) = (dy, true) /\ sqrt (ip dy dy) <= tol /\
         nd' = sqrt (ip dy dy) /\ x' = xadd y dy) /\
      (succ = false -> k' = miter \/ exists y dy, solve (mksys y) (vneg (rhs (mksys y) y)) = (dy, true) /\
         callback (mksys y) k' dy (sqrt (ip dy dy)) 0 = false)
  end.
Proof.
  intros. pose proof (std_ok X V S mksys rhs solve vneg xadd ip callback tol miter x 0 0) as H.
  unfold newton_standard. destruct (std_loop _ _ _ _ _ _ _ _ _ _ _ _ _ _ _); [exact H|].
  destruct H as [A [_ [B C]]]. split; [exact A|]. split; [exact B|exact C].
Qed.
Print Assumptions C90_newton_standard_partial.
(** C90: an unsolvable linear system is not reported as failure: NameError. *)
Theorem C90_linear_failure_refuted :
  exists (F J : R -> R) (x : R), rstd F J false 1 3 x = Raises.
Proof. exists (fun x => x), (fun _ => 1), 64. exact ex_std_raises. Qed.
Print Assumptions C90_linear_failure_refuted.

(** ** C91: the initial guess *)
(** C91: newton_standard overwrites the initial guess with the result ... *)
Theorem C91_standard_refuted :
  (forall (X V S : Type) (mksys : X -> S) (rhs : S -> X -> V) (solve : S -> V -> X * bool) (vneg : V -> V)
    (xadd : X -> X -> X) (ip : X -> X -> R) (callback : S -> nat -> X -> R -> R -> bool) (tol : R) (miter : nat) (x x' : X) succ k nd arg,
    newton_standard X V S mksys rhs solve vneg xadd ip callback tol miter x = Returns x' succ k nd arg -> arg = x') /\
  rstd (fun x => x) (fun _ => 1) true 1 3 64 = Returns 0 true 2 0 0.
Proof.
  split; [|exact ex_std]. intros *. pose proof (std_ok X V S mksys rhs solve vneg xadd ip callback tol miter x 0 0) as H.
  unfold newton_standard. intros E. rewrite E in H. apply H.
Qed.
Print Assumptions C91_standard_refuted.
(** C91: ... and NLEQ-ERR does when the first correction is small; otherwise
    (64 is the guess in ex_success) it does not. *)
Theorem C91_nleq_refuted :
  exists (F J : R -> R) (x : R) r, forall m, rnleq F J 1 (1 / 100) 3 m 1 x = Some r /\ r_succ r = true /\ r_arg r <> x.
Proof.
  exists (fun x => x), (fun _ => 1), (1 / 2). eexists. intros m. split; [apply ex_mutated|]. cbn. split; [reflexivity|lra].
Qed.
Print Assumptions C91_nleq_refuted.

(** ** C92: QNERR needs a full step *)
(** C92: the run starts QNERR after the second step, whose damping factor is
    1/5: the flag of the first, full step was kept. *)
Theorem C92_full_step_refuted :
  ~ (forall (F J : R -> R) (tol lmin : R) (miter m : nat) (x : R) r lam nd nb, 0 <= tol -> 0 < lmin <= 1 ->
       rnleq F J tol lmin miter m 1 x = Some r -> In (lam, nd, nb, true) (r_acc r) -> lam = 1).
Proof.
  intros H. specialize (H Fst Jst 1 (1 / 100) 5%nat 1%nat 4 _ (1 / 5) (25 / 4) 0 ltac:(lra) ltac:(lra) (ex_stale 0)).
  cbn in H. specialize (H (or_introl eq_refl)). lra.
Qed.
Print Assumptions C92_full_step_refuted.

(** ** C93: the results of NLEQ-ERR reach the caller *)
(** C93: through Newton.solve they do ... *)
Theorem C93_newton_solve : forall (X S : Type) (s : option S) (r : nres X),
  newton_solve_tuple (nleq_tuple s r) = Some (r_x r, r_succ r, r_k r).
Proof. reflexivity. Qed.
Print Assumptions C93_newton_solve.
(** C93: ... but NewtonSeeker.solve with method 'nleq' always raises. *)
Theorem C93_seeker_refuted : forall (X S : Type) (s : option S) (r : nres X), seeker_solve_tuple (nleq_tuple s r) = None.
Proof. reflexivity. Qed.
Print Assumptions C93_seeker_refuted.

(** ** The hypotheses are met by concrete, non-trivial cases *)
(** The default lambda_min = 1e-4: a = 7, at most 23 trials per iteration; and
    a run that converges. *)
Example ex_C42 : 1 <= 1 / 10000 * 4 ^ 7 /\
  (forall m, rnleq (fun x => x) (fun _ => 1) 1 (1 / 100) 3 (S m) 1 64 =
     Some (mkN 0 true 1 64 1 ConvergedBar [1] [(1, 64, 0, false)] 64)).
Proof. split; [lra|exact ex_success]. Qed.
(** R with the product is an inner product space; the run of QNERR below is one
    of Broyden's method with two steps. *)
Example ex_C88 : inner (fun a b : R_ModuleSpace => a * b) /\ linmap (fun x : R_ModuleSpace => (4 / 3 * x : R_ModuleSpace)) /\
  (forall v, 4 / 3 * (v / (4 / 3)) = v) /\
  (forall m, rqn (fun x : R => x) (fun _ : R => 4 / 3) (S (S (S m))) 2 1 64 16 true 0 [-48] [-48 * -48] 48 (-48) = Some (0, true, 3%nat, 0)).
Proof.
  split.
  { split; unfold plus, scal, zero; cbn; unfold mult; cbn; intros; try ring. nra. }
  split; [split; unfold plus, scal; cbn; unfold mult; cbn; intros; ring|].
  split; [intros; field|exact ex_qn_scale].
Qed.
