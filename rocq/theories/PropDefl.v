(** Properties of deflation: funpy/newton/deflation.py, FrechetDeflated.py,
    FrechetDeflatedPrecond.py, deflated_residual.py, NewtonSystem.py.
    [inner ip] is a real inner product (NewtonSpec.v); models: DeflModel.v. *)
From Coq Require Import Reals Lra Lia List.
From Coquelicot Require Import Coquelicot.
From Verif Require Import NewtonSpec NewtonBroyden DeflModel DeflProofs DeflMore DeflEx.
Import ListNotations.
Open Scope R_scope.

(** ** C43: the deflated operator *)
(** C43: deflation_linearization returns eta(u) = deflation(u) and a functional
    whose generating function g satisfies <g, c> = d/dt eta(u + t c) at t = 0,
    for every direction, every list of known solutions, every shift >= 0 and
    every real power. *)
Theorem C43_deflation_derivative :
  forall (X : ModuleSpace R_Ring) (ip : X -> X -> R), inner ip ->
  forall (shift power : R) (u : X) (known : list X) (eta : R) (g : X),
  0 <= shift -> List.Forall (fun k => u <> k) known ->
  deflation_linearization ip CallFunctional u known shift power = (eta, Some (CallFunctional g)) ->
  eta = deflation ip u known shift power /\
  forall c, is_derive (fun t : R => deflation ip (plus u (scal t c)) known shift power) 0 (ip g c).
Proof.
  intros * IP * Hs D E. split.
  - apply (deflation_derive ip IP shift power u u known eta CallFunctional g Hs D); [congruence|exact E].
  - intros c. apply (deflation_derive ip IP shift power u c known eta CallFunctional g Hs D); [congruence|exact E].
Qed.
Print Assumptions C43_deflation_derivative.

(** C43, partial: the operator eta M + F(u) d of FrechetDeflated is the
    derivative of the deflated residual eta(u) F(u), for any F with derivative
    M at u - provided the functional it is given can be called. *)
Theorem C43_frechet_matvec_partial :
  forall (X : ModuleSpace R_Ring) (V : NormedModule R_AbsRing) (ip : X -> X -> R), inner ip ->
  forall (F M : X -> V) (shift power : R) (u : X) (known : list X),
  0 <= shift -> List.Forall (fun k => u <> k) known ->
  (forall c, is_derive (fun t : R => F (plus u (scal t c))) 0 (M c)) ->
  forall c, exists y,
    frechet_matvec ip M (fst (deflation_linearization ip CallFunctional u known shift power)) (F u)
      (snd (deflation_linearization ip CallFunctional u known shift power)) c = Some y /\
    is_derive (fun t : R => scal (deflation ip (plus u (scal t c)) known shift power) (F (plus u (scal t c)))) 0 y.
Proof. intros * IP *. apply frechet_derive, IP. Qed.
Print Assumptions C43_frechet_matvec_partial.

(** C43, refuted for NewtonSystem: the functional built there (the class
    exported by fun.py) is not callable, so applying the operator raises
    whenever there is a known solution; without any it is the plain matrix. *)
Theorem C43_newton_system_refuted :
  forall (X : ModuleSpace R_Ring) (V : NormedModule R_AbsRing) (ip : X -> X -> R) (M : X -> V) Fu u known x,
  (known <> [] -> newton_system_matvec ip M Fu u known x = None) /\
  newton_system_matvec ip M Fu u [] x = Some (M x).
Proof. intros. split; [apply newton_system_refuted|reflexivity]. Qed.
Print Assumptions C43_newton_system_refuted.

(** C43, refuted for DeflatedResidual: it raises when the package directory is
    not on sys.path, and otherwise uses eta F(u) in place of F(u): for F(u) = u
    at u = 2 with the known solution 1 the derivative of eta F is -2, the
    operator gives -6. *)
Theorem C43_deflated_residual_refuted :
  (forall (X : ModuleSpace R_Ring) (V : NormedModule R_AbsRing) (ip : X -> X -> R) (M : X -> V) Fu u known s p x,
     known <> [] -> deflated_residual_matvec ip false M Fu u known s p x = None) /\
  (deflated_residual_matvec rip true (fun c : R_ModuleSpace => c) (2 : R_ModuleSpace) (2 : R_ModuleSpace) [1] 1 2 1 = Some (-6) /\
   is_derive (fun t : R_AbsRing => @scal R_Ring R_ModuleSpace
       (deflation rip (@plus R_ModuleSpace 2 (@scal R_Ring R_ModuleSpace t 1)) [1] 1 2)
       (@plus R_ModuleSpace 2 (@scal R_Ring R_ModuleSpace t 1))) 0 (-2 : R_NormedModule)).
Proof.
  split; [|split; [exact ex_residual|exact ex_true_derivative]].
  intros * H. destruct known; [congruence|reflexivity].
Qed.
Print Assumptions C43_deflated_residual_refuted.

(** ** C96: roots of the deflated problem *)
(** C96: eta(u) = prod (shift + 1/|u - k|^power) over the known solutions. *)
Theorem C96_eta_formula :
  forall (X : ModuleSpace R_Ring) (ip : X -> X -> R) (known : list X) (shift power : R) (u : X),
  deflation ip u known shift power =
  fold_right (fun k acc => (shift + / Rpower (sqrt (ip (minus u k) (minus u k))) power) * acc) 1 known.
Proof.
  intros. rewrite deflation_right. induction known as [|k l IH]; cbn; [reflexivity|]. rewrite IH.
  unfold defl_factor, h1norm, Rdiv. rewrite Rmult_1_l. reflexivity.
Qed.
Print Assumptions C96_eta_formula.

(** C96: the deflated residual vanishes exactly where the residual does (away
    from the known solutions, where it is defined), and eta >= shift^#known. *)
Theorem C96_deflated_roots :
  forall (X : ModuleSpace R_Ring) (V : NormedModule R_AbsRing) (ip : X -> X -> R), inner ip ->
  forall (F : X -> V) (known : list X) (shift power : R) (u : X), 0 <= shift ->
  (deflated_residual_rhs ip F u known shift power = zero <-> F u = zero) /\
  0 < deflation ip u known shift power /\ shift ^ length known <= deflation ip u known shift power.
Proof.
  intros. repeat match goal with |- _ /\ _ => split end.
  - now apply deflated_roots. - now apply deflation_pos. - now apply deflation_lower.
Qed.
Print Assumptions C96_deflated_roots.

(** C96: the right hand side of the deflated Newton system is eta F(u) with shift 1 and
    power 2: F(u) prod (1 + 1/|u - k|^2), and F(u) without known solutions. *)
Theorem C96_newton_rhs :
  forall (X : ModuleSpace R_Ring) (V : NormedModule R_AbsRing) (ip : X -> X -> R), inner ip ->
  forall (F : X -> V) (known : list X) (u : X), List.Forall (fun k => u <> k) known ->
  newton_system_rhs ip F u known =
    scal (fold_right (fun k acc => (1 + / ip (minus u k) (minus u k)) * acc) 1 known) (F u).
Proof.
  intros X V ip IP F known u H. destruct known as [|k0 l0]; [cbn [newton_system_rhs fold_right]; symmetry; change 1 with (@one R_Ring); apply scal_one|]. unfold newton_system_rhs. rewrite C96_eta_formula. f_equal.
  induction H as [|k l Hk Hl IH]; [reflexivity|]. cbn [fold_right]. rewrite IH. f_equal. f_equal. f_equal.
  assert (N : minus u k <> zero). { intros E. apply Hk. apply (f_equal (fun z => plus z k)) in E. unfold minus in E. rewrite <- plus_assoc, plus_opp_l, plus_zero_r, plus_zero_l in E. exact E. }
  assert (P := in_pos ip IP _ N). replace 2 with (INR 2) by reflexivity. rewrite Rpower_pow by (apply sqrt_lt_R0; exact P). apply pow2_sqrt. lra.
Qed.
Print Assumptions C96_newton_rhs.

(** C96: a known solution r of order at most the power is removed: if
    |F(u)| >= m |u - r|^q with q <= power, the deflated residual stays above
    m shift^(#known - 1) on the unit ball around r (u <> r). *)
Theorem C96_known_root_removed :
  forall (X : ModuleSpace R_Ring) (V : NormedModule R_AbsRing) (ip : X -> X -> R), inner ip ->
  forall (F : X -> V) (known : list X) (shift power q m : R) (r u : X),
  0 <= shift -> In r known -> u <> r -> q <= power -> h1norm ip (minus u r) <= 1 -> 0 <= m ->
  m * Rpower (h1norm ip (minus u r)) q <= norm (F u) ->
  m * shift ^ (length known - 1) <= norm (deflated_residual_rhs ip F u known shift power).
Proof. intros * IP *. apply deflated_away, IP. Qed.
Print Assumptions C96_known_root_removed.

(** ** C97: the deflated preconditioner *)
(** C97, partial: with b = eta F(u) (DeflatedResidual) and the identity as
    preconditioner of the matrix, the formula inverts eta I + F(u) d. *)
Theorem C97_residual_precond_partial :
  forall (X : ModuleSpace R_Ring) (ip : X -> X -> R), inner ip ->
  forall (Fu g x y : X) (eta : R) (n : nat), eta <> 0 -> eta + ip g Fu <> 0 ->
  precond_matvec ip (fun v => v) (scal eta Fu) (S n) (Some (CallFunctional g)) eta x = Some y ->
  plus (scal eta y) (scal (ip g y) Fu) = x.
Proof. intros * IP *. apply residual_precond_id, IP. Qed.
Print Assumptions C97_residual_precond_partial.

(** C97, refuted for a preconditioner other than the identity: P = diag(1,2),
    F(u) = (1,1), u = 0, known solution (1,0): the operator eta P + F d applied
    to the preconditioned (2,0) gives (2,-1). *)
Theorem C97_residual_precond_refuted :
  exists (P Pinv : R2 -> R2) (Fu u x y : R2) (known : list R2) (eta : R) (g : R2),
    linmap P /\ linmap Pinv /\ (forall v, P (Pinv v) = v /\ Pinv (P v) = v) /\
    List.Forall (fun k => u <> k) known /\
    deflation_linearization ip2 CallFunctional u known 1 2 = (eta, Some (CallFunctional g)) /\
    eta + ip2 g (Pinv Fu) <> 0 /\
    precond_matvec ip2 Pinv (scal eta Fu) (length known) (Some (CallFunctional g)) eta x = Some y /\
    plus (scal eta (P y)) (scal (ip2 g y) Fu) <> x.
Proof.
  exists P2, P2inv, (1, 1), (0, 0), (2, 0), (1 / 2, -1 / 2), [((1, 0) : R2)], 2, ((2, 0) : R2).
  repeat match goal with |- _ /\ _ => split end.
  - apply P2inv_lin. - apply P2inv_lin. - apply P2_inv.
  - repeat constructor. intros E. assert (Q : fst ((0, 0) : R2) = fst ((1, 0) : R2)) by now rewrite E. cbn in Q. lra.
  - exact (ex_lin2 CallFunctional).
  - unfold ip2, P2inv; cbn. lra.
  - exact ex_precond.
  - rewrite ex_precond_applied. intros E. assert (Q : snd ((2, -1) : R2) = snd ((2, 0) : R2)) by now rewrite E. cbn in Q. lra.
Qed.
Print Assumptions C97_residual_precond_refuted.

(** C97, refuted for FrechetDeflatedPrecond (b = F(u)): its constructor raises
    with the functional NewtonSystem gives it, and with a callable one it is
    off by ((eta - 1) d(x) / (eta^2 + d(F))) F even for the identity. *)
Theorem C97_frechet_precond_refuted :
  (forall (X : ModuleSpace R_Ring) (ip : X -> X -> R) (Pinv : X -> X) (b g x : X) (n : nat) (eta : R),
     precond_matvec ip Pinv b (S n) (Some (RowFunctional g)) eta x = None) /\
  (forall (X : ModuleSpace R_Ring) (ip : X -> X -> R), inner ip ->
   forall (Fu g x y : X) (eta : R) (n : nat), eta <> 0 -> eta ^ 2 + ip g Fu <> 0 ->
   precond_matvec ip (fun v => v) Fu (S n) (Some (CallFunctional g)) eta x = Some y ->
   plus (scal eta y) (scal (ip g y) Fu) = plus x (scal ((eta - 1) * ip g x / (eta ^ 2 + ip g Fu)) Fu)).
Proof. split; [reflexivity|]. intros * IP *. apply frechet_precond_id, IP. Qed.
Print Assumptions C97_frechet_precond_refuted.

(** Examples: the hypotheses are met by u = 2, known = [1] in the real line. *)
Example C43_example : deflation_linearization rip CallFunctional (2 : R_ModuleSpace) [1] 1 2 = (2, Some (CallFunctional (-2))) /\
  List.Forall (fun k : R => 2 <> k) [1] /\ inner rip.
Proof. split; [apply ex_lin|]. split; [repeat constructor; lra|exact rip_inner]. Qed.
(** F(u) = u - 1 near its known root 1: |eta F| >= 1. *)
Example C96_example : In 1 [1] /\ (3 / 2 <> 1) /\ 1 <= 2 /\ h1norm rip (@minus R_ModuleSpace (3 / 2) 1) = 1 / 2 /\
  1 * Rpower (1 / 2) 1 <= Rabs (3 / 2 - 1).
Proof.
  repeat match goal with |- _ /\ _ => split end; try lra; try (left; reflexivity).
  - unfold h1norm, rip, minus, plus, opp; cbn. replace ((3 / 2 + - (1)) * (3 / 2 + - (1))) with ((1 / 2) * (1 / 2)) by field.
    apply sqrt_square. lra.
  - rewrite Rpower_1 by lra. rewrite Rabs_pos_eq; lra.
Qed.
Example C97_example : exists y, precond_matvec rip (fun v => v) (@scal R_Ring R_ModuleSpace 2 2) 1 (Some (CallFunctional (-2 : R_ModuleSpace))) 2 1 = Some y /\
  2 + rip (-2) 2 <> 0.
Proof. eexists. split; [reflexivity|]. unfold rip. lra. Qed.
