(** Error analysis of fpolyfit and fpolyval. *)
From Coq Require Import Reals List Arith Lia Lra Bool ZArith.
From Verif Require Import Base ToolsProofs ChebSpec ChebMath ChebModel ChebDct FlModel FlProofs FlSum FlMap FlTrig FlMul FlDctModel.
Import ListNotations.
Open Scope R_scope.
Local Opaque uro eta.

Lemma rsum_ends m f : rsum (S (S m)) f = f 0%nat + rsum m (fun i => f (S i)) + f (S m).
Proof. change (rsum (S (S m)) f) with (rsum (S m) f + f (S m)). rewrite rsum_S_l. reflexivity. Qed.
Lemma dct1_diff v w k : length w = length v -> (2 <= length v)%nat -> (k < length v)%nat ->
  Rabs (nth k (dct1 w) 0 - nth k (dct1 v) 0) <= 2 * rsum (length v) (fun i => Rabs (nth i w 0 - nth i v 0)).
Proof.
  intros Lw H2 Hk. unfold dct1. rewrite Lw. set (N := length v) in *. rewrite !nth_mk by exact Hk.
  set (a := fun i => nth i w 0 - nth i v 0). set (cs := fun i => cos (PI * INR k * INR (S i) / INR (N - 1))).
  assert (EQ : nth 0 w 0 + sgn k * nth (N - 1) w 0 + 2 * rsum (N - 2) (fun i => nth (S i) w 0 * cs i) - (nth 0 v 0 + sgn k * nth (N - 1) v 0 + 2 * rsum (N - 2) (fun i => nth (S i) v 0 * cs i))
    = a 0%nat + sgn k * a (N - 1)%nat + 2 * rsum (N - 2) (fun i => a (S i) * cs i)).
  { unfold a. rewrite (rsum_ext (N - 2) (fun i => (nth (S i) w 0 - nth (S i) v 0) * cs i) (fun i => nth (S i) w 0 * cs i - nth (S i) v 0 * cs i)) by (intros; ring). rewrite rsum_minus. ring. }
  change (Rabs (nth 0 w 0 + sgn k * nth (N - 1) w 0 + 2 * rsum (N - 2) (fun i => nth (S i) w 0 * cs i) - (nth 0 v 0 + sgn k * nth (N - 1) v 0 + 2 * rsum (N - 2) (fun i => nth (S i) v 0 * cs i))) <= 2 * rsum N (fun i => Rabs (a i))). rewrite EQ.
  assert (S1 : Rabs (sgn k * a (N - 1)%nat) <= Rabs (a (N - 1)%nat)). { rewrite Rabs_mult. replace (Rabs (sgn k)) with 1; [lra|]. unfold sgn. destruct (Nat.even k); [rewrite Rabs_right|rewrite Rabs_left]; lra. }
  assert (S2 : Rabs (rsum (N - 2) (fun i => a (S i) * cs i)) <= rsum (N - 2) (fun i => Rabs (a (S i)))).
  { eapply Rle_trans; [apply rsum_Rabs|]. apply rsum_le. intros i _. rewrite Rabs_mult. assert (Rabs (cs i) <= 1) by (apply Rabs_le; apply COS_bound). rewrite <- (Rmult_1_r (Rabs (a (S i)))) at 2. apply Rmult_le_compat_l; [apply Rabs_pos|assumption]. }
  assert (ES : rsum N (fun i => Rabs (a i)) = Rabs (a 0%nat) + rsum (N - 2) (fun i => Rabs (a (S i))) + Rabs (a (N - 1)%nat)).
  { pose proof (rsum_ends (N - 2) (fun i => Rabs (a i))) as Q. replace (S (S (N - 2))) with N in Q by lia. replace (S (N - 2)) with (N - 1)%nat in Q by lia. exact Q. }
  rewrite ES.
  pose proof (Rabs_triang (a 0%nat + sgn k * a (N - 1)%nat) (2 * rsum (N - 2) (fun i => a (S i) * cs i))) as T1. pose proof (Rabs_triang (a 0%nat) (sgn k * a (N - 1)%nat)) as T2. rewrite (Rabs_mult 2), (Rabs_right 2) in T1 by lra.
  
  pose proof (Rabs_pos (a 0%nat)). pose proof (Rabs_pos (a (N - 1)%nat)). 
  lra.
Qed.
Lemma dct1_zero N k : (2 <= N)%nat -> (k < N)%nat -> nth k (dct1 (repeat 0 N)) 0 = 0.
Proof. intros H2 Hk. unfold dct1. rewrite repeat_length, nth_mk by exact Hk. rewrite !nth_repeat. rewrite rsum_zero by (intros i _; rewrite nth_repeat; ring). ring. Qed.
Lemma dct1_bound v k : (2 <= length v)%nat -> (k < length v)%nat -> Rabs (nth k (dct1 v) 0) <= 2 * lasum v.
Proof.
  intros H2 Hk. pose proof (dct1_diff (repeat 0 (length v)) v k) as D. rewrite repeat_length in D. specialize (D eq_refl H2 Hk). rewrite dct1_zero, Rminus_0_r in D by assumption. rewrite lasum_nth.
  rewrite (rsum_ext _ (fun i => Rabs (nth i v 0 - nth i (repeat 0 (length v)) 0)) (fun i => Rabs (nth i v 0))) in D by (intros i _; rewrite nth_repeat, Rminus_0_r; reflexivity). exact D.
Qed.

(** accuracy assumed of the transform *)
Definition dct_within (D : list R -> list R) (n : nat) (d e : R) : Prop :=
  forall v, length v = n -> (forall t, In t v -> is_double t) -> length (D v) = n /\ forall k, (k < n)%nat -> Rabs (nth k (D v) 0 - nth k (dct1 v) 0) <= d * lasum v + e.

Lemma lasum_near v w B : length w = length v -> (forall i, (i < length v)%nat -> Rabs (nth i w 0 - nth i v 0) <= B i) -> lasum w <= lasum v + rsum (length v) B.
Proof.
  intros L H. rewrite !lasum_nth, L, <- rsum_plus. apply rsum_le. intros i Hi. specialize (H i Hi). replace (nth i w 0) with (nth i v 0 + (nth i w 0 - nth i v 0)) by ring. eapply Rle_trans; [apply Rabs_triang|]. lra.
Qed.
Lemma lasum_mk n (f : nat -> R) : lasum (mk n f) = rsum n (fun i => Rabs (f i)).
Proof. rewrite lasum_nth, mk_length. apply rsum_ext. intros i Hi. rewrite nth_mk by exact Hi. reflexivity. Qed.

(** values -> coefficients *)
Lemma polyfit_err D d e v k : (2 <= length v)%nat -> dct_within D (length v) d e -> 0 <= d <= / 16 -> 0 <= e -> (k < length v)%nat ->
  length (fpolyfit D v) = length v /\
  Rabs (nth k (fpolyfit D v) 0 - nth k (polyfit1 v) 0) <= 5 * (d + uro) * (lasum v / INR (length v - 1)) + 2 * e + 4 * INR (length v) * eta.
Proof.
  intros H2 HD Hd He Hk. pose proof tiny_uro as U1. destruct uro_small as [U0 _]. pose proof eta_pos as E0. set (N := length v) in *.
  assert (M1 : 1 <= INR (N - 1)) by (change 1 with (INR 1); apply le_INR; lia). assert (N2 : 2 <= INR N) by (change 2 with (INR 2); apply le_INR; lia).
  set (c0 := mk N (fun i => nth (N - i - 1) v 0 / INR (N - 1))). set (c1 := mk N (fun i => fdiv (nth (N - i - 1) v 0) (INR (N - 1)))).
  set (S := lasum v / INR (N - 1)). assert (S0 : 0 <= S) by (apply Rmult_le_pos; [apply lasum_pos|apply Rlt_le, Rinv_0_lt_compat; lra]).
  assert (LS : lasum c0 = S).
  { unfold c0. rewrite lasum_mk. unfold S, Rdiv. rewrite lasum_nth. fold N. rewrite <- rsum_scal_r. rewrite <- (rsum_rev N (fun i => Rabs (nth i v 0) * / INR (N - 1))). apply rsum_ext. intros i Hi. unfold Rdiv. rewrite Rabs_mult. rewrite (Rabs_right (/ INR (N - 1))) by (apply Rle_ge, Rlt_le, Rinv_0_lt_compat; lra). replace (N - i - 1)%nat with (N - 1 - i)%nat by lia. reflexivity. }
  assert (L0 : length c0 = N) by apply mk_length. assert (L1 : length c1 = N) by apply mk_length.
  assert (DF : forall i, (i < N)%nat -> Rabs (nth i c1 0 - nth i c0 0) <= uro * Rabs (nth i c0 0) + eta). { intros i Hi. unfold c1, c0. rewrite !nth_mk by exact Hi. unfold fdiv. apply fl_err. }
  assert (SD : rsum N (fun i => Rabs (nth i c1 0 - nth i c0 0)) <= uro * S + INR N * eta).
  { eapply Rle_trans; [apply rsum_le; exact DF|]. rewrite rsum_plus, rsum_scal, rsum_const, <- LS, lasum_nth, L0. lra. }
  assert (LC : lasum c1 <= S + (uro * S + INR N * eta)). { pose proof (lasum_near c0 c1 (fun i => Rabs (nth i c1 0 - nth i c0 0)) ltac:(lia) ltac:(intros; lra)) as Q. rewrite L0, LS in Q. lra. }
  assert (DC1 : forall t, In t c1 -> is_double t) by (intros t I; apply in_map_iff in I; destruct I as (? & <- & _); apply fl_is_double).
  destruct (HD c1 L1 DC1) as [LD ED].
  set (te := 13 / 6 * (d + uro) * S + e + 17 / 8 * (INR N * eta)).
  assert (uS : 0 <= uro * S) by (apply Rmult_le_pos; lra). assert (dS : 0 <= d * S) by (apply Rmult_le_pos; lra). assert (Ne : 0 < INR N * eta) by (apply Rmult_lt_0_compat; lra).
  assert (TE : forall i, (i < N)%nat -> Rabs (nth i (D c1) 0 - nth i (dct1 c0) 0) <= te).
  { intros i Hi. specialize (ED i Hi). pose proof (dct1_diff c0 c1 i ltac:(lia) ltac:(lia) ltac:(lia)) as DD. rewrite L0 in DD.
    replace (nth i (D c1) 0 - nth i (dct1 c0) 0) with ((nth i (D c1) 0 - nth i (dct1 c1) 0) + (nth i (dct1 c1) 0 - nth i (dct1 c0) 0)) by ring. eapply Rle_trans; [apply Rabs_triang|].
    assert (D1 : d * lasum c1 <= d * (S + (uro * S + INR N * eta))) by (apply Rmult_le_compat_l; lra).
    assert (D2 : d * (uro * S + INR N * eta) <= / 16 * (uro * S + INR N * eta)) by (apply Rmult_le_compat_r; lra).
    unfold te. replace (13 / 6 * (d + uro) * S) with (13 / 6 * (d * S) + 13 / 6 * (uro * S)) by ring. lra. }
  assert (TEx : te = 13 / 6 * (d * S) + 13 / 6 * (uro * S) + e + 17 / 8 * (INR N * eta)) by (unfold te; ring).
  assert (CB : forall i, (i < N)%nat -> Rabs (nth i (dct1 c0) 0) <= 2 * S) by (intros i Hi; rewrite <- LS; apply dct1_bound; lia).
  assert (HALF : forall i, (i < N)%nat -> Rabs (fdiv (nth i (D c1) 0) 2 - nth i (dct1 c0) 0 / 2) <= te).
  { intros i Hi. specialize (TE i Hi). specialize (CB i Hi). unfold fdiv. eapply Rle_trans; [apply (fl_dist _ _ (/ 2 * te))|].
    - replace (nth i (D c1) 0 / 2 - nth i (dct1 c0) 0 / 2) with (/ 2 * (nth i (D c1) 0 - nth i (dct1 c0) 0)) by field. rewrite Rabs_mult, (Rabs_right (/ 2)) by lra. lra.
    - unfold Rdiv. rewrite Rabs_mult, (Rabs_right (/ 2)) by lra. assert (te0 : 0 <= te) by lra.
      assert (V1 : uro * (Rabs (nth i (dct1 c0) 0) * / 2 + / 2 * te) <= uro * (S + / 2 * te)) by (apply Rmult_le_compat_l; lra). assert (V2 : uro * te <= / 1000 * te) by (apply Rmult_le_compat_r; lra).
      assert (E2 : 2 * eta <= INR N * eta) by (apply Rmult_le_compat_r; lra). lra. }
  unfold fpolyfit, polyfit1. fold N. rewrite (proj2 (Nat.eqb_neq N 1)) by lia. fold c0 c1. split; [rewrite !upd_length; exact LD|].
  assert (LD0 : length (dct1 c0) = N) by (rewrite dct1_length; exact L0).
  assert (FIN : te <= 5 * (d + uro) * S + 2 * e + 4 * INR N * eta) by (replace (5 * (d + uro) * S) with (5 * (d * S) + 5 * (uro * S)) by ring; replace (4 * INR N * eta) with (4 * (INR N * eta)) by ring; lra).
  eapply Rle_trans; [|exact FIN].
  destruct (Nat.eq_dec k (N - 1)) as [->|K1].
  - rewrite !upd_same by (rewrite upd_length; lia). rewrite !upd_other by lia. apply HALF. lia.
  - rewrite !(upd_other _ (N - 1)) by exact K1. destruct (Nat.eq_dec k 0) as [->|K0].
    + rewrite !upd_same by lia. apply HALF. lia.
    + rewrite !upd_other by exact K0. apply TE, Hk.
Qed.

(** coefficients -> values *)
Lemma polyval_err D d e c j : (2 <= length c)%nat -> (forall t, In t c -> is_double t) -> dct_within D (length c) d e -> 0 <= d <= / 16 -> 0 <= e -> (j < length c)%nat ->
  length (fpolyval D c) = length c /\
  Rabs (nth j (fpolyval D c) 0 - nth j (polyval1 c) 0) <= 2 * (d + uro) * lasum c + e + 3 * INR (length c) * eta.
Proof.
  intros H2 Dc HD Hd He Hj. pose proof tiny_uro as U1. destruct uro_small as [U0 _]. pose proof eta_pos as E0. set (N := length c) in *. assert (N2 : 2 <= INR N) by (change 2 with (INR 2); apply le_INR; lia).
  set (v0 := mk N (fun i => if Nat.eqb i 0 || Nat.eqb i (N - 1) then nth i c 0 else nth i c 0 / 2)). set (v1 := mk N (fun i => if Nat.eqb i 0 || Nat.eqb i (N - 1) then nth i c 0 else fdiv (nth i c 0) 2)).
  assert (L0 : length v0 = N) by apply mk_length. assert (L1 : length v1 = N) by apply mk_length.
  assert (A0 : lasum v0 <= lasum c). { unfold v0. rewrite lasum_mk, (lasum_nth c). apply rsum_le. intros i _. destruct (_ || _)%bool; [lra|]. unfold Rdiv. rewrite Rabs_mult, (Rabs_right (/ 2)) by lra. pose proof (Rabs_pos (nth i c 0)). lra. }
  assert (DF : forall i, (i < N)%nat -> Rabs (nth i v1 0 - nth i v0 0) <= uro * (/ 2 * Rabs (nth i c 0)) + eta).
  { intros i Hi. unfold v1, v0. rewrite !nth_mk by exact Hi. destruct (_ || _)%bool.
    - rewrite Rminus_diag_eq, Rabs_R0 by reflexivity. assert (0 <= uro * (/ 2 * Rabs (nth i c 0))) by (apply Rmult_le_pos; [lra|]; pose proof (Rabs_pos (nth i c 0)); lra). lra.
    - unfold fdiv. pose proof (fl_err (nth i c 0 / 2)) as F. unfold Rdiv in *. rewrite (Rabs_mult _ (/ 2)), (Rabs_right (/ 2)) in F by lra. rewrite (Rmult_comm (/ 2)). exact F. }
  set (S := lasum c) in *. assert (S0 : 0 <= S) by apply lasum_pos.
  assert (SD : rsum N (fun i => Rabs (nth i v1 0 - nth i v0 0)) <= / 2 * (uro * S) + INR N * eta).
  { eapply Rle_trans; [apply rsum_le; exact DF|]. rewrite rsum_plus, rsum_scal, rsum_scal, rsum_const. unfold S. rewrite (lasum_nth c). fold N. lra. }
  assert (LC : lasum v1 <= S + (/ 2 * (uro * S) + INR N * eta)). { pose proof (lasum_near v0 v1 (fun i => Rabs (nth i v1 0 - nth i v0 0)) ltac:(lia) ltac:(intros; lra)) as Q. rewrite L0 in Q. lra. }
  assert (DV : forall t, In t v1 -> is_double t). { intros t I. apply in_map_iff in I. destruct I as (i & <- & I). apply in_seq in I. destruct (_ || _)%bool; [apply Dc, nth_In; fold N; lia|apply fl_is_double]. }
  destruct (HD v1 L1 DV) as [LD ED]. unfold fpolyval, polyval1. fold N. rewrite (proj2 (Nat.eqb_neq N 1)) by lia. fold v0 v1. split; [rewrite rev_length; exact LD|].
  assert (LD0 : length (dct1 v0) = N) by (rewrite dct1_length; exact L0). rewrite !rev_nth by lia. rewrite LD, LD0. set (i := (N - Datatypes.S j)%nat). assert (Hi : (i < N)%nat) by (unfold i; lia).
  specialize (ED i Hi). pose proof (dct1_diff v0 v1 i ltac:(lia) ltac:(lia) ltac:(lia)) as DD. rewrite L0 in DD.
  replace (nth i (D v1) 0 - nth i (dct1 v0) 0) with ((nth i (D v1) 0 - nth i (dct1 v1) 0) + (nth i (dct1 v1) 0 - nth i (dct1 v0) 0)) by ring. eapply Rle_trans; [apply Rabs_triang|].
  assert (uS : 0 <= uro * S) by (apply Rmult_le_pos; lra). assert (dS : 0 <= d * S) by (apply Rmult_le_pos; lra). assert (Ne : 0 < INR N * eta) by (apply Rmult_lt_0_compat; lra).
  assert (D1 : d * lasum v1 <= d * (S + (/ 2 * (uro * S) + INR N * eta))) by (apply Rmult_le_compat_l; lra).
  assert (D2 : d * (/ 2 * (uro * S) + INR N * eta) <= / 16 * (/ 2 * (uro * S) + INR N * eta)) by (apply Rmult_le_compat_r; lra).
  replace (2 * (d + uro) * S) with (2 * (d * S) + 2 * (uro * S)) by ring. replace (3 * INR N * eta) with (3 * (INR N * eta)) by ring. lra.
Qed.
