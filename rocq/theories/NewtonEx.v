(** Concrete runs of the Newton iterations. *)
From Coq Require Import Reals List Arith Bool Lra Lia.
From Verif Require Import Base ChebModel NewtonModel NewtonProofs.
Import ListNotations.
Open Scope R_scope.

Lemma sqrt_val e c : 0 <= c -> e = c * c -> sqrt e = c.
Proof. intros H ->. now apply sqrt_square. Qed.
Ltac num := first [lra | field; lra | field_simplify; lra].
Ltac sq c := match goal with |- context [sqrt ?e] => rewrite (sqrt_val e c); [|lra|num] end.
Ltac val e c := replace e with c by num.
Ltac yes := match goal with
  | |- context [Rleb ?a ?b] => rewrite (proj2 (Rleb_spec a b)) by lra
  | |- context [Rltb ?a ?b] => rewrite (proj2 (Rltb_spec a b)) by lra end.
Ltac no := match goal with
  | |- context [Rleb ?a ?b] => rewrite (proj2 (Rleb_false a b)) by lra
  | |- context [Rltb ?a ?b] => rewrite (proj2 (Rltb_false a b)) by lra end.
Ltac dec := repeat first [yes | no]; cbn [andb orb negb].

(** One equation, F x = x, solved with the too large Jacobian 4/3. *)
Definition rnleq (F J : R -> R) (tol lmin : R) (miter : nat) :=
  nleq_err R R R (fun x => x) (fun _ x => F x) (fun s v => (v / J s, true)) Ropp Rplus Rminus Rmult Rdiv Rmult
    (fun _ _ _ _ _ => true) tol (1 / 2) lmin true true miter.

(** Unfold one pass at a time. *)
Lemma nleq_loop_S X V S mksys rhs solve vneg xadd xsub xscal xdiv ip cb tol th lm rs uq miter n dfuel x own arg k lam dx dxbar f nd qn ne tr acc dx' :
  (k < miter)%nat -> (let fk := if Nat.eqb k 0 then rhs (mksys x) x else f in solve (mksys x) (vneg fk)) = (dx', true) ->
  tol < nrm X ip dx' ->
  nleq_loop X V S mksys rhs solve vneg xadd xsub xscal xdiv ip cb tol th lm rs uq miter (Datatypes.S n) dfuel x own arg k lam dx dxbar f nd qn ne tr acc =
  let sys := mksys x in let fk := if Nat.eqb k 0 then rhs sys x else f in let nd := nrm X ip dx' in
              let lam' := if Nat.eqb k 0 then lam else
                let s := nrm X ip (xsub dxbar dx') in
                minf 1 (if Rltb 0 s then Some (nrm X ip dx * nrm X ip dxbar / (s * nd) * lam) else None) in
              match damp X V S rhs solve vneg xadd xsub xscal ip tol th lm rs dfuel sys x dx' nd lam' false x dxbar 0 qn fk tr with
              | None => None
              | Some d =>
                  let x1 := if d_succ X V d then xadd (d_xkp1 X V d) (d_dxbar X V d) else x in
                  let step (q : bool) := (d_lam X V d, nd, nrm X ip (d_dxbar X V d), q) in
                  if negb (d_linok X V d) then Some (mkN x1 false k nd (ne + 1) LinFail (d_trials X V d) acc arg)
                  else if d_limit X V d then Some (mkN x1 false k nd (ne + 1) LambdaMin (d_trials X V d) acc arg)
                  else if negb (cb sys (k + 1)%nat dx' (d_lam X V d * nd) (d_theta X V d)) then
                    Some (mkN x1 false (k + 1) nd (ne + 1) CallbackStop (d_trials X V d) acc arg)
                  else if d_succ X V d then Some (mkN x1 true (k + 1) nd (ne + 1) ConvergedBar (d_trials X V d) (step false :: acc) arg)
                  else if d_qn X V d && uq then
                    match qnerr_nleq X V S rhs solve vneg xadd xscal xdiv ip cb tol th (miter - (k + 1) + 1) (k + 1) sys (d_xkp1 X V d) dx' with
                    | None => None
                    | Some (x2, ok, kp, nq) =>
                        nleq_loop X V S mksys rhs solve vneg xadd xsub xscal xdiv ip cb tol th lm rs uq miter n dfuel x2 false arg (k + 1 + kp) (d_lam X V d) dx' (d_dxbar X V d) (rhs sys x2) nq
                          (d_qn X V d && ok) (ne + 1) (d_trials X V d) (step true :: acc)
                    end
                  else nleq_loop X V S mksys rhs solve vneg xadd xsub xscal xdiv ip cb tol th lm rs uq miter n dfuel (d_xkp1 X V d) false arg (k + 1) (d_lam X V d) dx' (d_dxbar X V d) (d_f X V d) nd
                         (d_qn X V d) (ne + 1) (d_trials X V d) (step false :: acc)
              end.
Proof.
  intros K SO T. cbn [nleq_loop]. rewrite (proj2 (Nat.leb_gt _ _) K). cbv zeta in SO |- *. rewrite SO.
  rewrite (proj2 (Rleb_false _ _) T). reflexivity.
Qed.
Lemma nleq_loop_end X V S mksys rhs solve vneg xadd xsub xscal xdiv ip cb tol th lm rs uq miter n dfuel x own arg k lam dx dxbar f nd qn ne tr acc :
  (miter <= k)%nat ->
  nleq_loop X V S mksys rhs solve vneg xadd xsub xscal xdiv ip cb tol th lm rs uq miter (Datatypes.S n) dfuel x own arg k lam dx dxbar f nd qn ne tr acc
  = Some (mkN x false k nd ne MaxIter tr acc arg).
Proof. intros K. cbn [nleq_loop]. now rewrite (proj2 (Nat.leb_le _ _) K). Qed.

Lemma ex_over m : rnleq (fun x => x) (fun _ => 4 / 3) 1 (1 / 100) 1 (Datatypes.S m) 1 64 =
  Some (mkN 0 false 3 0 1 MaxIter [1] [(1, 48, 12, true)] 64).
Proof.
  unfold rnleq, nleq_err. change (1 + 1)%nat with 2%nat.
  rewrite (nleq_loop_S) with (dx' := -48).
  2: lia. 2: cbn; f_equal; num. 2: unfold nrm; sq 48; lra.
  cbv zeta. cbn [Nat.eqb damp]. unfold nrm. dec. val (64 + 1 * -48) 16. val (- (16) / (4 / 3)) (-12).
  sq 48. sq 12. val (-12 - (1 - 1) * -48) (-12). sq 12. dec.
  val (/ 2 * 48 * 1 * 1 / 12) 2. val (12 / 48) (1 / 4). dec.
  unfold minf, is_one. rewrite Rmin_left by lra. dec.
  cbn [d_succ d_linok d_limit negb d_qn andb d_xkp1 d_dxbar d_lam d_f d_trials].
  unfold qnerr_nleq. cbn [minus plus qn_loop Nat.leb negb andb nth app]. unfold nrm.
  cbn [qn_update].
  val (- (16) / (4 / 3)) (-12). val (-12 * -12 / (-48 * -48)) (1 / 4 * (1 / 4)). sq (1 / 4).
  val (-12 * -48 / (-48 * -48)) (1 / 4). val (-12 / (1 - 1 / 4)) (-16).
  dec. val (16 + -16) 0. val (- 0 / (4 / 3)) 0. dec.
  cbn [qn_update].
  val (0 * -48 / (-48 * -48)) 0. val (0 + 0 * -16) 0. val (0 * -16 / (-16 * -16)) 0. val (0 * 0 / (-16 * -16)) (0 * 0).
  sq 0. dec. val (0 / (1 - 0)) 0. sq 0.
  rewrite nleq_loop_end by lia. sq 12. reflexivity.
Qed.

(** A run in which the flag for QNERR, set by a full step, survives and QNERR
    is started after a step with damping factor 1/5. *)
Definition Fst (x : R) : R :=
  if Rleb x 0 then 5 / 8 * x - 5 / 8 else if Rleb x (5 / 4) then x / 2 - 5 / 8 else 20 / 11 * (x - 5 / 4).
Definition Jst (x : R) : R := if Rleb x 1 then 1 / 10 else 1.
Notation rqn F J := (qn_loop R R R (fun _ x => F x) (fun s v => (v / J s, true)) Ropp Rplus Rmult Rdiv Rmult
    (fun _ _ _ _ _ => true) 1 (1 / 2)).
Lemma ex_stale m : rnleq Fst Jst 1 (1 / 100) 5 (Datatypes.S m) 1 4 =
  Some (mkN (5 / 4) false 6 0 2 MaxIter [1 / 5; 1] [(1 / 5, 25 / 4, 0, true); (1, 5, 5 / 4, true)] 4).
Proof.
  assert (F4 : Fst 4 = 5) by (unfold Fst; dec; num).
  assert (F1 : Fst (-1) = -5 / 4) by (unfold Fst; dec; num).
  assert (F0 : Fst 0 = -5 / 8) by (unfold Fst; dec; num).
  assert (F5 : Fst (5 / 4) = 0) by (unfold Fst; dec; num).
  assert (J4 : Jst 4 = 1) by (unfold Jst; dec; num).
  assert (J0 : Jst 0 = 1 / 10) by (unfold Jst; dec; num).
  unfold rnleq, nleq_err. change (5 + 1)%nat with 6%nat.
  rewrite (nleq_loop_S) with (dx' := -5).
  2: lia. 2: cbn; rewrite F4, J4; f_equal; num. 2: unfold nrm; sq 5; lra.
  cbv zeta. cbn [Nat.eqb damp]. unfold nrm. dec. val (4 + 1 * -5) (-1). rewrite F1, J4.
  val (- (-5 / 4) / 1) (5 / 4).
  sq 5. sq (5 / 4). val (5 / 4 - (1 - 1) * -5) (5 / 4). sq (5 / 4). dec.
  val (/ 2 * 5 * 1 * 1 / (5 / 4)) 2. val (5 / 4 / 5) (1 / 4). dec.
  unfold minf at 1 2 3. unfold is_one. rewrite Rmin_left by lra. dec.
  cbn [d_succ d_linok d_limit negb d_qn andb d_xkp1 d_dxbar d_lam d_f d_trials].
  assert (Q1 : forall n nd, rqn Fst Jst (Datatypes.S (Datatypes.S n)) 5 1 4 (-1) true 0 [-5] [-5 * -5] nd (-5) = Some (0, true, 2%nat, 1)).
  { intros n nd. cbn [qn_loop Nat.leb negb andb nth app qn_update].
    rewrite F1, J4. val (- (-5 / 4) / 1) (5 / 4).
    val (5 / 4 * (5 / 4) / (-5 * -5)) (1 / 4 * (1 / 4)). sq (1 / 4).
    val (5 / 4 * -5 / (-5 * -5)) (- 1 / 4). val (5 / 4 / (1 - - 1 / 4)) 1. dec.
    val (-1 + 1) 0. sq 1. reflexivity. }
  unfold qnerr_nleq. change (5 - (0 + 1) + 1 + 2)%nat with 7%nat.
  cbn [minus plus]. rewrite Q1. clear Q1. cbn [andb]. rewrite F0.
  rewrite (nleq_loop_S) with (dx' := 25 / 4).
  2: lia. 2: cbn; rewrite J0; f_equal; num. 2: unfold nrm; sq (25 / 4); lra.
  cbv zeta. cbn [Nat.eqb]. unfold nrm. sq 5. sq (25 / 4). sq (5 / 4).
  val (5 / 4 - 25 / 4) (-5). sq 5. dec. val (5 * (5 / 4) / (5 * (25 / 4)) * 1) (1 / 5).
  unfold minf at 1. rewrite (Rmin_right 1 (1 / 5)) by lra.
  cbn [damp]. dec. val (0 + 1 / 5 * (25 / 4)) (5 / 4). rewrite F5, J0. val (- 0 / (1 / 10)) 0. unfold nrm. sq 0.
  val (0 / (25 / 4)) 0. dec. val (0 - (1 - 1 / 5) * (25 / 4)) (-5). sq 5. dec.
  val (/ 2 * (25 / 4) * (1 / 5) * (1 / 5) / 5) (1 / 40). unfold minf. rewrite (Rmin_right 1 (1 / 40)) by lra.
  unfold is_one. dec.
  cbn [d_succ d_linok d_limit negb d_qn andb d_xkp1 d_dxbar d_lam d_f d_trials].
  assert (Q2 : forall n nd, rqn Fst Jst (Datatypes.S (Datatypes.S n)) 2 4 0 (5 / 4) true 0 [25 / 4] [25 / 4 * (25 / 4)] nd (25 / 4)
     = Some (5 / 4, true, 2%nat, 0)).
  { intros n nd. cbn [qn_loop Nat.leb negb andb nth app qn_update].
    rewrite F5, J0. val (- 0 / (1 / 10)) 0.
    val (0 * 0 / (25 / 4 * (25 / 4))) (0 * 0). sq 0.
    val (0 * (25 / 4) / (25 / 4 * (25 / 4))) 0. val (0 / (1 - 0)) 0. dec.
    val (5 / 4 + 0) (5 / 4). sq 0. reflexivity. }
  unfold qnerr_nleq. cbn [minus plus]. rewrite Q2. rewrite nleq_loop_end by lia. cbn [plus]. sq 0. reflexivity.
Qed.

(** Newton's method for x = 0 converges in one step; the initial guess, an
    object of the caller, is changed when the first correction is small. *)
Lemma ex_success m : rnleq (fun x => x) (fun _ => 1) 1 (1 / 100) 3 (Datatypes.S m) 1 64 =
  Some (mkN 0 true 1 64 1 ConvergedBar [1] [(1, 64, 0, false)] 64).
Proof.
  unfold rnleq, nleq_err. change (3 + 1)%nat with 4%nat.
  rewrite (nleq_loop_S) with (dx' := -64).
  2: lia. 2: cbn; f_equal; num. 2: unfold nrm; sq 64; lra.
  cbv zeta. cbn [Nat.eqb damp]. unfold nrm. dec. val (64 + 1 * -64) 0. val (- 0 / 1) 0.
  sq 64. sq 0. val (0 - (1 - 1) * -64) 0. sq 0. val (0 / 64) 0. dec. unfold minf, is_one. dec.
  cbn [d_succ d_linok d_limit negb d_qn andb d_xkp1 d_dxbar d_lam d_f d_trials]. sq 0.
  val (0 + 0) 0. reflexivity.
Qed.
Lemma ex_mutated m : rnleq (fun x => x) (fun _ => 1) 1 (1 / 100) 3 m 1 (1 / 2) =
  Some (mkN 0 true 1 (1 / 2) 1 Converged [] [] 0).
Proof.
  unfold rnleq, nleq_err. cbn [plus nleq_loop Nat.leb Nat.eqb]. unfold nrm.
  val (- (1 / 2) / 1) (- (1 / 2)). sq (1 / 2). dec. val (1 / 2 + - (1 / 2)) 0. reflexivity.
Qed.
(** newton_standard on x = 0: the guess 64 is overwritten by the solution. *)
Definition rstd (F J : R -> R) (lin : bool) (tol : R) (miter : nat) :=
  newton_standard R R R (fun x => x) (fun _ x => F x) (fun s v => (v / J s, lin)) Ropp Rplus Rmult
    (fun _ _ _ _ _ => true) tol miter.
Lemma ex_std : rstd (fun x => x) (fun _ => 1) true 1 3 64 = Returns 0 true 2 0 0.
Proof.
  unfold rstd, newton_standard. cbn [std_loop]. unfold nrm.
  val (- (64) / 1) (-64). sq 64. dec. val (64 + -64) 0. val (- 0 / 1) 0. sq 0. dec. val (0 + 0) 0. reflexivity.
Qed.
Lemma ex_std_raises : rstd (fun x => x) (fun _ => 1) false 1 3 64 = Raises.
Proof. reflexivity. Qed.

(** QNERR on its own: the first sigma is the norm and not its square, so that
    the correction 2 passes the test "sigma <= tol^2" with tol = 3/2 ... *)
Definition rqna (F J : R -> R) (lin cb : bool) (tol : R) (qmiter : nat) :=
  qnerr_alone R R R (fun x => x) (fun _ x => F x) (fun s v => (v / J s, lin)) Ropp Rplus Rmult Rdiv Rmult
    (fun _ _ _ _ _ => cb) tol (1 / 2) qmiter.
Lemma ex_qna_early m : rqna (fun x => x) (fun _ => 1) true true (3 / 2) m 2 = Some (inr (0, true, 1%nat, 2, 1%nat, 2)).
Proof.
  unfold rqna, qnerr_alone. rewrite Nat.add_comm. cbn [plus]. unfold nrm. val (- (2) / 1) (-2). sq 2.
  cbn [qn_loop Nat.leb negb andb nth]. dec. val (2 + -2) 0. reflexivity.
Qed.
(** ... and the early returns have four values. *)
Lemma ex_qna_lin m : rqna (fun x => x) (fun _ => 1) false true (3 / 2) m 2 = Some (inl (2, false, 0%nat, 2)).
Proof. unfold rqna, qnerr_alone. unfold nrm. val (- (2) / 1) (-2). sq 2. reflexivity. Qed.

(** A contraction by 1/4 in every step (and Broyden's method would end at the
    solution after one more step), but QNERR on its own gives up. *)
Lemma ex_qna_scale m : rqna (fun x => x) (fun _ => 4 / 3) true true 1 m 64 = Some (inr (16, false, 1%nat, 12 / 11, 1%nat, 64)).
Proof.
  unfold rqna, qnerr_alone. rewrite Nat.add_comm. cbn [plus]. unfold nrm. val (- (64) / (4 / 3)) (-48). sq 48.
  remember (Datatypes.S m) as f1. cbn [qn_loop Nat.leb negb andb nth qn_update]. dec.
  val (64 + -48) 16. val (- (16) / (4 / 3)) (-12). 
  assert (T : 1 / 2 < sqrt (-12 * -12 / 48)).
  { rewrite <- (sqrt_val (1 / 4) (1 / 2)) by lra. apply sqrt_lt_1_alt. lra. }
  rewrite (proj2 (Rltb_spec _ _) T). cbn [orb option_map].
  val (-12 / (1 - -12 * -48 / 48)) (12 / 11). sq (12 / 11). reflexivity.
Qed.
Lemma ex_qn_scale m : rqn (fun x : R => x) (fun _ : R => 4 / 3) (Datatypes.S (Datatypes.S (Datatypes.S m))) 2 1 64 16 true 0 [-48] [-48 * -48] 48 (-48) =
  Some (0, true, 3%nat, 0).
Proof.
  cbn [qn_loop Nat.leb negb andb nth app qn_update].
  val (- (16) / (4 / 3)) (-12). val (-12 * -12 / (-48 * -48)) (1 / 4 * (1 / 4)). sq (1 / 4).
  val (-12 * -48 / (-48 * -48)) (1 / 4). val (-12 / (1 - 1 / 4)) (-16).
  dec. val (16 + -16) 0. val (- 0 / (4 / 3)) 0. dec.
  val (0 * -48 / (-48 * -48)) 0. val (0 + 0 * -16) 0. val (0 * -16 / (-16 * -16)) 0. val (0 * 0 / (-16 * -16)) (0 * 0).
  sq 0. dec. val (0 / (1 - 0)) 0. dec. val (0 + 0) 0. sq 0. reflexivity.
Qed.
