(** C34, what number / f and number ** f are for Fourier functions. *)
From Coq Require Import Reals ZArith List Arith Lia Lra Bool.
From Coquelicot Require Import Coquelicot.
From Verif Require Import Base ChebModel TrigSpec TrigBase TrigModel TrigTrans TrigEval TrigCalc TrigModel2 TrigObj.
Import ListNotations.
Open Scope R_scope.
Open Scope C_scope.

(** C34: number / f is f / number at every point, for every function and every
    number of modulus at least 1e-16; so it is right exactly where
    f(x)^2 = number^2. *)
Theorem C34_division_partial : forall (a : C) (f : trig), trig_ok f -> (/ 10 ^ 16 <= Cmod a)%R ->
  exists r, tnum_div a f = Some r /\ (forall x, evalF (tco r) x = evalF (tco f) x / a) /\
    forall x, evalF (tco f) x <> C0 ->
      (evalF (tco r) x = a / evalF (tco f) x <-> evalF (tco f) x * evalF (tco f) x = a * a).
Proof.
  intros a f H A. destruct (trig_div_num_correct f a H A) as [r [E [_ [V _]]]].
  exists r. split; [exact E|]. split; [exact V|]. intros x NZ. rewrite V.
  assert (NA : a <> C0). { intros ->. unfold C0 in A. rewrite Cmod_0 in A. assert (0 < / 10 ^ 16)%R by (apply Rinv_0_lt_compat, pow_lt; lra). lra. }
  generalize dependent (evalF (tco f) x). intros w NW. split; intros Z.
  - replace (w * w) with (w / a * a * w) by (field; exact NA). rewrite Z. field. exact NW.
  - replace (w / a) with (w * w / (a * w)) by (field; split; assumption). rewrite Z. field. split; assumption.
Qed.
Print Assumptions C34_division_partial.

(** C34: number ** f samples f(x) ** number. *)
Theorem C34_power_partial : forall (k : nat) (f : trig), trig_ok f ->
  forall x, tnum_pow_samples k f x = cpow (evalF (tco f) x) k.
Proof. intros k f H x. unfold tnum_pow_samples, tpow_samples. now rewrite trig_call_correct by exact H. Qed.
Print Assumptions C34_power_partial.

(** The constant 1: 1 / f is right. *)
Example ex_C34 : exists f, trig_ok f /\ (/ 10 ^ 16 <= Cmod (RtoC 1))%R /\ forall x, evalF (tco f) x * evalF (tco f) x = RtoC 1 * RtoC 1.
Proof.
  destruct (tconst_ok 1) as [A [B E]]. exists (tconst 1). split; [exact A|]. split.
  - rewrite Cmod_1. apply (Rmult_le_reg_l (10 ^ 16)); [apply pow_lt; lra|]. rewrite Rinv_r by (apply pow_nonzero; lra).
    rewrite Rmult_1_r. apply pow_R1_Rle. lra.
  - intros x. rewrite E. reflexivity.
Qed.
