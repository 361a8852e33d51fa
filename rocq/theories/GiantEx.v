(** Concrete runs of GIANT-GBIT. *)
From Coq Require Import Reals List Arith Bool Lra Lia.
From Coquelicot Require Import Coquelicot.
From Verif Require Import Base ChebModel NewtonModel NewtonSpec NewtonProofs NewtonBroyden GbitModel GbitProofs NewtonEx GiantProofs.
Import ListNotations.
Open Scope R_scope.

(** GIANT for one equation with a linear solver [lin]; rho = 1/10 is the
    default safety factor, lambda_min = 1e-4 the one of 'mildly'. *)
Definition rgiant (F : R -> R) (lin : R -> R -> R -> R -> bool -> R * bool) (xtol prec : R) (max_iter : nat) :=
  giant_gbit R R R (fun x => x) (fun _ x => F x) Ropp lin Rplus Rminus Rmult Rmult 0 xtol (1 / 10000) (1 / 10) prec (1 / 1000)
    false true max_iter.
Ltac isz := match goal with
  | |- context [Reqb0 ?e] => first [rewrite (proj2 (Reqb0_false e)) by lra | rewrite (proj2 (Reqb0_spec e)) by lra] end.
(** x = 0 with the Jacobian 4/3: the correction at 64 is -48, the simplified
    correction at 16 is -12, below xtol = 13: 64 - 12 is returned. *)
Lemma ex_giant_wrong miter m : rgiant (fun x => x) (fun _ b _ _ _ => (b / (4 / 3), true)) 13 0 miter (Datatypes.S m) 1 64 =
  GRet 52 true 1 1 false [1] 52.
Proof.
  unfold rgiant, giant_gbit. rewrite (Nat.add_comm miter). cbn [Nat.add]. remember (Datatypes.S miter) as n1.
  cbn [giant_loop]. change (Nat.ltb miter 0) with false. cbv iota. cbn [Nat.eqb]. unfold gnrm.
  val (- (64) / (4 / 3)) (-48). sq 48. dec.
  cbn [adapt]. unfold gnrm. dec. val (64 + 1 * -48) 16. val (- (16) / (4 / 3)) (-12).
  sq 12. val (-12 - (1 - 1) * -48) (-12). sq 12. isz.
  val (2 * (1 - 0 * (1 / 10) * 12 / 12) * 12 / (1 * 1 * 48)) (1 / 2). isz. val (12 / 48) (1 / 4). dec.
  rewrite Rmin_left.
  2:{ val (1 / (1 / 2 * (1 + 1 / 10))) (20 / 11). lra. }
  unfold is_one. dec. val (64 + -12) 52. reflexivity.
Qed.

(** GBIT for one equation with A = P = 1. *)
Definition rgb (max_iter i_max : nat) (rho tau_min tau_max elim : R) (s b y tol : R) (simple : bool) : R * bool :=
  match gbit R R (fun x => x) (fun v => v) Rminus Rplus Rminus Rmult Rmult max_iter i_max rho tol tau_min tau_max elim simple b y with
  | Some (y', ok, _) => (y', ok)
  | None => (y, false)
  end.
Lemma R_inner : inner (fun a b : R_ModuleSpace => a * b).
Proof. split; unfold plus, scal, zero; cbn; unfold mult; cbn; intros; try ring. nra. Qed.
Lemma R_id_lin : linmap (fun x : R_ModuleSpace => x).
Proof. split; reflexivity. Qed.
Lemma rgb_exact mi im rho tmin tmax el s b tol : tmin <= 2 * tmax -> 0 <= el ->
  rgb mi im rho tmin tmax el s b b tol true = (b, false).
Proof.
  intros T E. unfold rgb.
  destruct (@gbit_exact_guess_simple R_ModuleSpace R_ModuleSpace (fun x => x) (fun v => v) (fun a b => a * b)
    R_id_lin R_id_lin R_inner mi im rho tol tmin tmax el b b T E eq_refl) as [it Q].
  change (gbit R R (fun x => x) (fun v => v) Rminus Rplus Rminus Rmult Rmult mi im rho tol tmin tmax el true b b = Some (b, false, it)) in Q.
  now rewrite Q.
Qed.
Lemma rgb_first mi im rho tmin tmax el s b tol : b <> 0 -> tmin <= 1 <= tmax -> 0 <= rho -> 0 <= tol -> (2 <= mi)%nat ->
  rgb mi im rho tmin tmax el s b 0 tol false = (b, true).
Proof.
  intros B T R0 T0 M. unfold rgb, gbit. rewrite Nat.add_comm. cbn [Nat.add gb_outer]. cbv zeta.
  rewrite (Nat.add_comm im). cbn [Nat.add gb_inner]. cbn [Nat.leb andb nth gz]. cbv zeta.
  val (b - 0) b. rewrite (proj2 (Reqb0_false (b * b))) by nra. val (b * b / (b * b)) 1.
  rewrite (proj2 (Rltb_false 1 tmin)) by lra. cbn [andb]. rewrite (proj2 (Rleb_spec 1 tmax)) by lra.
  val ((1 - 1 + 1) * b - 1 * b) 0. val (0 * 0) 0. rewrite Rabs_R0, sqrt_0. val (0 + 1 * b) b. unfold gnrm.
  rewrite (proj2 (Rleb_spec _ _)).
  - cbn [orb andb]. rewrite (proj2 (Nat.ltb_lt 1 mi)) by lia. reflexivity.
  - apply Rmult_le_pos; [apply Rmult_le_pos; [exact R0|apply sqrt_pos]|exact T0].
Qed.
(** x = 0 from any x0: the first step reaches the solution, but failure is
    reported, and the guess returned. *)
Lemma ex_giant_exact mi im tmin tmax el xtol prec miter m x0 : (2 <= mi)%nat -> tmin <= 1 <= tmax -> 0 < tmax -> 0 <= el ->
  0 <= xtol < Rabs x0 ->
  rgiant (fun x => x) (rgb mi im (1 / 10) tmin tmax el) xtol prec miter (Datatypes.S m) 1 x0 = GRet x0 false 0 1 false [1] x0.
Proof.
  intros M T TM E XT.
  assert (N : - x0 <> 0). { intros Q. replace x0 with 0 in XT by lra. rewrite Rabs_R0 in XT. lra. }
  unfold rgiant, giant_gbit. rewrite (Nat.add_comm miter). cbn [Nat.add]. remember (Datatypes.S miter) as n1.
  cbn [giant_loop].
  change (Nat.ltb miter 0) with false. cbv iota. cbn [Nat.eqb].
  rewrite rgb_first by (auto; lra). unfold gnrm.
  assert (Q : sqrt (- x0 * - x0) = Rabs x0).
  { replace (- x0 * - x0) with (Rsqr x0) by (unfold Rsqr; ring). apply sqrt_Rsqr_abs. }
  rewrite Q, (proj2 (Rleb_false (Rabs x0) xtol)) by lra.
  cbn [adapt]. dec. val (x0 + 1 * - x0) 0. val ((1 - 1) * - x0) 0. val (- 0) 0.
  rewrite rgb_exact by lra. reflexivity.
Qed.
(** A step with an error estimate above the limit does not end GBIT. *)
Lemma ex_gbit_limit im : gbit R R (fun x => x) (fun v => v / 2) Rminus Rplus Rminus Rmult Rmult 2 im 1 0 0 1 0 false 1 0 =
  Some (3 / 4, false, 2%nat).
Proof.
  unfold gbit. change (2 + 1)%nat with 3%nat. cbn [gb_outer]. cbv zeta.
  rewrite (Nat.add_comm im). cbn [Nat.add]. val ((1 - 0) / 2) (1 / 2).
  remember (Datatypes.S im) as n11. cbn [gb_inner Nat.leb andb nth gz]. cbv zeta.
  val (1 / 2 / 2) (1 / 4). isz. val (1 / 2 * (1 / 2) / (1 / 2 * (1 / 4))) 2. dec. cbn [Nat.ltb Nat.leb].
  val (0 + 1 * (1 / 2)) (1 / 2). val ((1 - 1 + 2) * (1 / 2) - 2 * (1 / 4)) (1 / 2).
  rewrite (Rabs_pos_eq (1 / 2 * (1 / 2))) by lra. sq (1 / 2). unfold gnrm. sq (1 / 2). dec.
  cbn [Nat.leb orb]. cbn [gb_inner Nat.leb andb nth gz]. cbv zeta.
  val ((1 - 1 / 2) / 2) (1 / 4). val (1 / 4 / 2) (1 / 8). isz. val (1 / 4 * (1 / 4) / (1 / 4 * (1 / 8))) 2. dec. cbn [Nat.ltb Nat.leb].
  val (1 / 2 + 1 * (1 / 4)) (3 / 4). val ((1 - 1 + 2) * (1 / 4) - 2 * (1 / 8)) (1 / 4).
  rewrite (Rabs_pos_eq (1 / 4 * (1 / 4))) by lra. sq (1 / 4). unfold gnrm. sq (3 / 4). dec. reflexivity.
Qed.
