(** Real functions keep real derivatives (C112). *)
From Coq Require Import Reals ZArith List Arith Bool Lra Lia.
From Coquelicot Require Import Coquelicot.
From Verif Require Import Base TrigSpec TrigBase TrigModel TrigTrans TrigCalc TrigCalc2 TrigEval TrigObj TSpecSpec TSpecModel TSpecZ TSpecMat.
Import ListNotations.
Open Scope R_scope.
Open Scope C_scope.

Lemma Cconj_cpow a m : Cconj (cpow a m) = cpow (Cconj a) m.
Proof. induction m as [|m IH]; cbn [cpow]; [apply Cconj_R|]. rewrite Cconj_mult, IH. reflexivity. Qed.
Lemma diag_conj m (f g : Z) : (f = - g)%Z -> Cconj (cpow Ci m * cpow (RtoC (IZR g)) m) = cpow Ci m * cpow (RtoC (IZR f)) m.
Proof.
  intros ->. rewrite Cconj_mult, !Cconj_cpow, Cconj_R. rewrite <- !cpow_mul_C. f_equal.
  apply injective_projections; cbn; rewrite opp_IZR; ring.
Qed.
Lemma herm_fix c : (1 <= length c)%nat -> conjc c = c -> hermitian c.
Proof.
  intros Hn E x. assert (H := evalF_conjc c x Hn). rewrite E in H. apply (f_equal Im) in H. cbn in H. unfold Im in *. lra.
Qed.
Lemma herm_conjc c : (1 <= length c)%nat -> hermitian c -> forall k, (k < length c)%nat -> nth k (conjc c) C0 = nth k c C0.
Proof.
  intros Hn Hh k Hk. unfold conjc. rewrite nth_mk by exact Hk. destruct (even_or_odd (length c)) as [He|Ho].
  - rewrite He. cbn [andb]. assert (H2 := even_half _ He). destruct (Nat.eqb_spec k 0) as [->|Hk0].
    + assert (T := herm_top c Hh He Hn). unfold Im in T. apply injective_projections; cbn; lra.
    + symmetry. apply herm_sym; try assumption; unfold freq; lia.
  - rewrite (not_even _ Ho). cbn [andb]. assert (H2 := odd_half _ Ho). symmetry. apply herm_sym; try assumption; unfold freq; lia.
Qed.
Lemma diff_real n m len v : (1 <= n)%nat -> length v = n -> hermitian v -> hermitian (cmatvec n (ts_diff n m len) v).
Proof.
  intros Hn Lv Hh. set (w := cmatvec n (ts_diff n m len) v). assert (Lw : length w = n) by apply cmatvec_length.
  apply herm_fix; [lia|].
  assert (C := herm_conjc v ltac:(lia) Hh). rewrite Lv in C.
  set (d := fun k => if Nat.eqb m 0 then RtoC 1 else RtoC ((2 * PI / len) ^ m) * diff_diag n m k).
  assert (W : forall k, (k < n)%nat -> nth k w C0 = d k * nth k v C0).
  { intros k Hk. unfold w, ts_diff, d. destruct (Nat.eqb_spec m 0) as [E|E].
    - unfold ceye. rewrite nth_cmatvec_diag by exact Hk. reflexivity.
    - rewrite nth_cmatvec_scal by exact Hk. unfold tdiffmat. destruct (Nat.eqb_spec m 0); [contradiction|]. rewrite nth_cmatvec_diag by exact Hk. ring. }
  assert (D0 : Nat.even n = true -> Cconj (d 0%nat) = d 0%nat).
  { intros He. unfold d. destruct (Nat.eqb_spec m 0) as [E|E]; [apply Cconj_R|]. rewrite Cconj_mult, Cconj_R. f_equal. unfold diff_diag.
    rewrite <- Nat.negb_even, He. cbn [negb]. destruct (Nat.odd m) eqn:Om.
    - cbn [Nat.eqb]. destruct m as [|m]; [discriminate|]. cbn [cpow]. unfold C0. apply injective_projections; cbn; ring.
    - assert (Em : Nat.even m = true) by (rewrite <- Nat.negb_odd, Om; reflexivity). apply even_half in Em. rewrite Em, !cpow_sq.
      replace (Ci * Ci) with (RtoC (-1)) by (apply injective_projections; cbn; ring). rewrite <- RtoC_mult, !cpow_R, <- RtoC_mult. apply Cconj_R. }
  assert (DS : forall k l, (k < n)%nat -> (l < n)%nat -> (Nat.even n = true -> k <> 0%nat /\ l <> 0%nat) -> (freq n k = - freq n l)%Z -> Cconj (d l) = d k).
  { intros k l Hk Hl Hz Hf. unfold d. destruct (Nat.eqb_spec m 0) as [E|E]; [apply Cconj_R|]. rewrite Cconj_mult, Cconj_R. f_equal. unfold diff_diag.
    destruct (even_or_odd n) as [He|Ho].
    - rewrite <- Nat.negb_even, He. cbn [negb]. destruct (Hz He) as [K0 L0]. apply Nat.eqb_neq in K0, L0. rewrite K0, L0.
      destruct (Nat.odd m); apply diag_conj; exact Hf.
    - rewrite Ho. apply diag_conj; exact Hf. }
  apply list_ext with C0; [unfold conjc; apply mk_length|]. intros k Hk. unfold conjc in Hk. rewrite mk_length in Hk. rewrite Lw in Hk.
  unfold conjc. rewrite nth_mk by lia. rewrite Lw. rewrite (W k Hk). rewrite <- (C k Hk). unfold conjc. rewrite nth_mk by lia. rewrite Lv.
  destruct (even_or_odd n) as [He|Ho].
  - rewrite He. cbn [andb]. assert (H2 := even_half _ He). destruct (Nat.eqb_spec k 0) as [->|Hk0].
    + rewrite W by lia. rewrite Cconj_mult, (D0 He). reflexivity.
    + rewrite W by lia. rewrite Cconj_mult. f_equal. apply DS; try (unfold freq; lia).
  - rewrite (not_even _ Ho). cbn [andb]. assert (H2 := odd_half _ Ho). rewrite W by lia. rewrite Cconj_mult. f_equal. apply DS; try (unfold freq; lia).
    intros He. rewrite (not_even _ Ho) in He. discriminate.
Qed.
