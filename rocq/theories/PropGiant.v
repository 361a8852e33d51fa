(** Properties of funpy/linalg/gbit.py and funpy/newton/giant.py.  Vocabulary:
    NewtonSpec.v and the definitions here; models: GbitModel.v. *)
From Coq Require Import Reals List Arith Bool Lra Lia.
From Coquelicot Require Import Coquelicot.
From Verif Require Import Base ChebModel NewtonModel NewtonSpec NewtonProofs NewtonBroyden GbitModel GbitProofs NewtonEx GiantProofs GiantEx.
Import ListNotations.
Open Scope R_scope.

(** ** C94: GBIT *)
(** C94: for arbitrary operators GBIT ends with 1 <= iter <= max_iter + 1, and
    reports success only if iter < max_iter. *)
Theorem C94_gbit_ends :
  forall (X V : Type) (A : X -> V) (P : V -> X) (vsub : V -> V -> V) (xadd xsub : X -> X -> X) (xscal : R -> X -> X)
    (ip : X -> X -> R) (max_iter i_max : nat) (rho tol tau_min tau_max epsilon_limit : R) (giant_simple : bool) b y,
  exists y' ok iter', gbit X V A P vsub xadd xsub xscal ip max_iter i_max rho tol tau_min tau_max epsilon_limit giant_simple b y
      = Some (y', ok, iter') /\
    (1 <= iter' <= max_iter + 1)%nat /\ (ok = true -> iter' < max_iter)%nat.
Proof. intros. apply gbit_ends. Qed.
Print Assumptions C94_gbit_ends.

(** C94: in a real inner product space, for linear A and preconditioner P:
    on success there is a "good Broyden" approximation H of the inverse of A
    (obtained from P by updates that satisfy the secant condition) whose
    correction at the result, H (b - A y'), is at most twice the tolerance -
    relative to y', or with giant_simple to y' - y - unless the recursion
    broke down (<d, H A d> = 0 for the correction d of some point). *)
Theorem C94_gbit_broyden :
  forall (X V : ModuleSpace R_Ring) (A : X -> V) (P : V -> X) (ip : X -> X -> R), linmap A -> linmap P -> inner ip ->
  forall (max_iter i_max : nat) (rho tol tau_min tau_max epsilon_limit : R) (simple : bool) b y y' iter',
  gbit X V A P minus plus minus scal ip max_iter i_max rho tol tau_min tau_max epsilon_limit simple b y = Some (y', true, iter') ->
  (exists H, broyden_inv A P ip H /\
     sqrt (ip (H (minus b (A y'))) (H (minus b (A y')))) <=
     2 * (rho * tol * (if simple then sqrt (ip (minus y' y) (minus y' y)) else sqrt (ip y' y')))) \/
  (exists H z, broyden_inv A P ip H /\ let d := H (minus b (A z)) in ip d (H (A d)) = 0).
Proof. intros * LA LP IP *. exact (gbit_broyden A P ip LA LP IP max_iter i_max rho tol tau_min tau_max epsilon_limit simple b y y' iter'). Qed.
Print Assumptions C94_gbit_broyden.
(** C94: the updates: linear, with the secant condition, injective if P is. *)
Theorem C94_broyden_inverse :
  forall (X V : ModuleSpace R_Ring) (A : X -> V) (P : V -> X) (ip : X -> X -> R), linmap P -> inner ip ->
  forall H, broyden_inv A P ip H ->
  linmap H /\ ((forall v, P v = zero -> v = zero) -> forall v, H v = zero -> v = zero) /\
  (forall d, ip d (H (A d)) <> 0 ->
     let H' := fun v => plus (H v) (scal (ip d (H v) / ip d (H (A d))) (minus d (H (A d)))) in
     broyden_inv A P ip H' /\ H' (A d) = d).
Proof.
  intros * LP IP H B. split; [exact (bi_lin A P ip LP IP H B)|]. split; [intros; eapply (bi_injective A P ip IP H B); eassumption|].
  intros d N. cbv zeta. split; [now constructor|now apply bi_secant].
Qed.
Print Assumptions C94_broyden_inverse.
(** C94: with tolerance zero success means that the system is solved. *)
Theorem C94_gbit_exact :
  forall (X V : ModuleSpace R_Ring) (A : X -> V) (P : V -> X) (ip : X -> X -> R), linmap A -> linmap P -> inner ip ->
  forall (max_iter i_max : nat) (rho tau_min tau_max epsilon_limit : R) (simple : bool) b y y' iter',
  (forall v, P v = zero -> v = zero) ->
  gbit X V A P minus plus minus scal ip max_iter i_max rho 0 tau_min tau_max epsilon_limit simple b y = Some (y', true, iter') ->
  A y' = b \/ (exists H z, broyden_inv A P ip H /\ let d := H (minus b (A z)) in ip d (H (A d)) = 0).
Proof.
  intros * LA LP IP * PI E.
  exact (gbit_exact A P ip LA LP IP max_iter i_max rho 0 tau_min tau_max epsilon_limit simple b y y' iter' eq_refl PI E).
Qed.
Print Assumptions C94_gbit_exact.
(** C94: an exact initial guess is accepted at once ... *)
Theorem C94_exact_guess :
  forall (X V : ModuleSpace R_Ring) (A : X -> V) (P : V -> X) (ip : X -> X -> R), linmap A -> linmap P -> inner ip ->
  forall (max_iter i_max : nat) (rho tol tau_min tau_max epsilon_limit : R) b y,
  tau_min <= 2 * tau_max -> 0 <= rho -> 0 <= tol -> (2 <= max_iter)%nat -> A y = b ->
  gbit X V A P minus plus minus scal ip max_iter i_max rho tol tau_min tau_max epsilon_limit false b y = Some (y, true, 1%nat).
Proof. intros. now apply gbit_exact_guess. Qed.
Print Assumptions C94_exact_guess.
(** C94: ... but never with giant_simple = True. *)
Theorem C94_exact_guess_refuted :
  forall (X V : ModuleSpace R_Ring) (A : X -> V) (P : V -> X) (ip : X -> X -> R), linmap A -> linmap P -> inner ip ->
  forall (max_iter i_max : nat) (rho tol tau_min tau_max epsilon_limit : R) b y,
  tau_min <= 2 * tau_max -> 0 <= epsilon_limit -> A y = b ->
  exists it, gbit X V A P minus plus minus scal ip max_iter i_max rho tol tau_min tau_max epsilon_limit true b y = Some (y, false, it).
Proof. intros. now apply gbit_exact_guess_simple. Qed.
Print Assumptions C94_exact_guess_refuted.
(** C94: an error estimate above epsilon_limit does not end the iteration: here
    every step exceeds the limit 0, and the iteration goes on to max_iter = 2. *)
Theorem C94_limit_refuted :
  forall im, gbit R R (fun x => x) (fun v => v / 2) Rminus Rplus Rminus Rmult Rmult 2 im 1 0 0 1 0 false 1 0 = Some (3 / 4, false, 2%nat).
Proof. exact ex_gbit_limit. Qed.
Print Assumptions C94_limit_refuted.

(** ** C95: GIANT-GBIT *)
(** C95: the iteration ends: with an exception (division by zero) or after at
    most max_iter + 1 steps; the damping factors are in [lambda_min, 1]; if the
    first convergence test fired, the result is y + dy with dy below the
    tolerance and computed by the linear solver at y; what is returned when the
    second test fired is described too: y + db although db is the correction at
    y + dx. *)
Theorem C95_giant_partial :
  forall (X V S : Type) (mksys : X -> S) (rhs : S -> X -> V) (vneg : V -> V)
    (lin : S -> V -> X -> R -> bool -> X * bool) (xadd xsub : X -> X -> X) (xscal : R -> X -> X) (ip : X -> X -> R) (x_zero : X)
    (xtol lambda_min rho precision delta_bar : R) (restricted quadratic : bool) (max_iter a : nat) (lam0 : R) (x : X),
  0 < lambda_min <= 1 -> 1 <= lambda_min * 4 ^ a -> lam0 <= 1 ->
  match giant_gbit X V S mksys rhs vneg lin xadd xsub xscal ip x_zero xtol lambda_min rho precision delta_bar
          restricted quadratic max_iter (3 * a + 3) lam0 x with
  | GFuel => False
  | GRaise => True
  | GRet x' succ k' njac by_dx trials arg =>
      (k' <= max_iter + 1)%nat /\ (njac <= max_iter + 1)%nat /\ (forall l, In l trials -> lambda_min <= l <= 1) /\
      (succ = true ->
       if by_dx then exists y dy f g tl, x' = xadd y dy /\ sqrt (ip dy dy) <= xtol /\ (exists s, f = rhs s y) /\
                       lin (mksys y) (vneg f) g tl false = (dy, true)
       else exists y dx db f, x' = xadd y db /\ sqrt (ip db db) <= xtol /\ xtol < sqrt (ip dx dx) /\
              (exists f0 g tl, lin (mksys y) (vneg f0) g tl false = (dx, true)) /\
              f = rhs (mksys y) (xadd y (xscal 1 dx)) /\
              lin (mksys y) (vneg f) (xscal (1 - 1) dx) (rhobar_max rho) true = (db, true))
  end.
Proof.
  intros *. intros L A L0.
  exact (giant_ok X V S mksys rhs vneg lin xadd xsub xscal ip x_zero xtol lambda_min rho precision delta_bar restricted quadratic max_iter a lam0 x L A L0).
Qed.
Print Assumptions C95_giant_partial.
(** C95: so success can be reported far from a solution: x = 0 solved with the
    Jacobian 4/3 from 64 gives 52 (tolerance 13), where the correction is 39. *)
Theorem C95_success_refuted : forall miter m,
  rgiant (fun x => x) (fun _ b _ _ _ => (b / (4 / 3), true)) 13 0 miter (S m) 1 64 = GRet 52 true 1 1 false [1] 52 /\
  - (52) / (4 / 3) = -39.
Proof. intros. split; [apply ex_giant_wrong|field]. Qed.
Print Assumptions C95_success_refuted.
(** C95: and failure when the first step gives the solution: x = 0 from any x0
    with GBIT as the linear solver (all defaults satisfy the hypotheses). *)
Theorem C95_failure_refuted : forall mi im tmin tmax el xtol prec miter m x0,
  (2 <= mi)%nat -> tmin <= 1 <= tmax -> 0 < tmax -> 0 <= el -> 0 <= xtol < Rabs x0 ->
  rgiant (fun x => x) (rgb mi im (1 / 10) tmin tmax el) xtol prec miter (S m) 1 x0 = GRet x0 false 0 1 false [1] x0.
Proof. exact ex_giant_exact. Qed.
Print Assumptions C95_failure_refuted.

(** ** The hypotheses are met by concrete, non-trivial cases *)
(** GBIT with A = P = 1 solves y = 5 from 0 (success with any tolerance, in
    particular 0), and the defaults of GIANT. *)
Example ex_C94 : inner (fun a b : R_ModuleSpace => a * b) /\ linmap (fun x : R_ModuleSpace => x) /\
  (forall s, rgb 2000 10 (1 / 10) (1 / 100000000) 100 1 s 5 0 0 false = (5, true)) /\ 1 <= 1 / 10000 * 4 ^ 7.
Proof. split; [exact R_inner|]. split; [exact R_id_lin|]. split; [|lra]. intros. apply rgb_first; try lra; try lia. Qed.
