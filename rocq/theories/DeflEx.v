(** Concrete deflation computations. *)
From Coq Require Import Reals Lra Lia List.
From Coquelicot Require Import Coquelicot.
From Verif Require Import NewtonSpec NewtonBroyden DeflModel DeflProofs DeflMore GiantEx.
Import ListNotations.
Open Scope R_scope.

Definition rip (a b : R_ModuleSpace) : R := a * b.
Lemma rip_inner : inner rip.
Proof. exact R_inner. Qed.

Lemma Rpower_1_l p : Rpower 1 p = 1.
Proof. unfold Rpower. rewrite ln_1, Rmult_0_r. apply exp_0. Qed.

(** u = 2, known solution 1, shift 1, power 2: eta = 2, eta' = -2. *)
Lemma ex_lin mkf : deflation_linearization rip mkf (2 : R_ModuleSpace) [1] 1 2 = (2, Some (mkf (-2))).
Proof.
  unfold deflation_linearization, defl_step. cbn [fold_left fst snd].
  assert (E : h1norm rip (@minus R_ModuleSpace 2 1) = 1).
  { unfold h1norm, rip, minus, plus, opp; cbn. replace ((2 + - (1)) * (2 + - (1))) with 1 by ring. apply sqrt_1. }
  match goal with |- context [h1norm rip ?w] => change (h1norm rip w) with (h1norm rip (@minus R_ModuleSpace 2 1)) end.
  rewrite E, !Rpower_1_l. unfold minus, plus, opp, scal, zero; cbn. unfold mult; cbn.
  f_equal; [field|]. f_equal. f_equal. field.
Qed.

(** F(u) = u: (eta F)'(2) = -2, DeflatedResidual gives -6. *)
Lemma ex_residual : deflated_residual_matvec rip true (fun c : R_ModuleSpace => c) (2 : R_ModuleSpace) (2 : R_ModuleSpace) [1] 1 2 1 = Some (-6).
Proof.
  unfold deflated_residual_matvec. rewrite ex_lin. cbn [fst snd frechet_matvec call]. f_equal.
  unfold plus, scal, rip; cbn. unfold mult; cbn. ring.
Qed.
Lemma ex_true_derivative :
  is_derive (fun t : R_AbsRing => @scal R_Ring R_ModuleSpace (deflation rip (@plus R_ModuleSpace 2 (@scal R_Ring R_ModuleSpace t 1)) [1] 1 2) (@plus R_ModuleSpace 2 (@scal R_Ring R_ModuleSpace t 1))) 0 (-2 : R_NormedModule).
Proof.
  pose proof (@frechet_derive R_ModuleSpace R_NormedModule rip rip_inner (fun u => u) (fun c => c) 1 2 2 [1] ltac:(lra)) as H.
  destruct (H ltac:(repeat constructor; intros E; unfold R_ModuleSpace in E; cbn in E; lra)) with (c := 1) as [y [Y D]].
  - intros c. unfold plus, scal; cbn. unfold mult; cbn. auto_derive; [exact I|]. ring.
  - rewrite ex_lin in Y. cbn [fst snd frechet_matvec call] in Y.
    unfold plus, scal, rip in Y; cbn in Y; unfold mult in Y; cbn in Y.
    assert (Q : y = -2) by (assert (E : 2 * 1 + -2 * 1 * 2 = y) by congruence; lra).
    rewrite <- Q. exact D.
Qed.

Definition R2 : ModuleSpace R_Ring := prod_ModuleSpace R_Ring R_ModuleSpace R_ModuleSpace.
Definition ip2 (a b : R2) : R := fst a * fst b + snd a * snd b.
Lemma ip2_inner : inner ip2.
Proof.
  split; unfold ip2, plus, scal, zero; cbn; unfold prod_plus, prod_scal, prod_zero, scal, plus, zero; cbn; unfold mult; cbn; intros; try ring.
  destruct u as [a b]. cbn. assert (a <> 0 \/ b <> 0).
  { destruct (Req_dec a 0) as [->|]; [|tauto]. right. intros ->. apply H. reflexivity. }
  destruct H0; nra.
Qed.
(** diag(1,2) and its inverse. *)
Definition P2 (v : R2) : R2 := (fst v, 2 * snd v).
Definition P2inv (v : R2) : R2 := (fst v, snd v / 2).
Lemma P2_inv v : P2 (P2inv v) = v /\ P2inv (P2 v) = v.
Proof. destruct v. unfold P2, P2inv; cbn. split; f_equal; field. Qed.
Lemma P2inv_lin : linmap P2inv /\ linmap P2.
Proof.
  split; split; unfold P2inv, P2, plus, scal; cbn; unfold prod_plus, prod_scal, scal, plus; cbn; unfold mult; cbn;
    intros; f_equal; field.
Qed.
Lemma ex_lin2 mkf : deflation_linearization ip2 mkf ((0, 0) : R2) [(1, 0)] 1 2 = (2, Some (mkf (2, 0))).
Proof.
  unfold deflation_linearization, defl_step. cbn [fold_left fst snd].
  assert (E : h1norm ip2 (@minus R2 (0, 0) (1, 0)) = 1).
  { unfold h1norm, ip2, minus, plus, opp; cbn. unfold plus, opp; cbn.
    replace ((0 + - (1)) * (0 + - (1)) + (0 + - 0) * (0 + - 0)) with 1 by ring. apply sqrt_1. }
  rewrite E, !Rpower_1_l. unfold minus, plus, opp, scal, zero; cbn.
  unfold prod_plus, prod_scal, prod_opp, prod_zero, plus, opp, scal, zero; cbn. unfold mult; cbn.
  f_equal; [field|]. f_equal. f_equal. f_equal; field.
Qed.
(** F(u) = (1,1), x = (2,0): P_G applied to the preconditioned x is (2,-1). *)
Lemma ex_precond :
  precond_matvec ip2 P2inv (@scal R_Ring R2 2 (1, 1)) 1 (Some (CallFunctional ((2, 0) : R2))) 2 (2, 0) = Some (1 / 2, -1 / 2).
Proof.
  unfold precond_matvec, call, ip2, P2inv. f_equal.
  unfold minus, plus, opp, scal; cbn. unfold prod_plus, prod_scal, prod_opp, plus, opp, scal; cbn. unfold mult; cbn.
  f_equal; field.
Qed.
Lemma ex_precond_applied :
  @plus R2 (scal 2 (P2 (1 / 2, -1 / 2))) (scal (ip2 (2, 0) (1 / 2, -1 / 2)) ((1, 1) : R2)) = (2, -1).
Proof.
  unfold ip2, P2, plus, scal; cbn. unfold prod_plus, prod_scal, plus, scal; cbn. unfold mult; cbn. f_equal; field.
Qed.
