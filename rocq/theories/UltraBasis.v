(** The ultraspherical polynomials: recurrence, conversion, derivative. *)
From Coq Require Import Reals ZArith List Arith Lia Lra.
From Coquelicot Require Import Coquelicot.
From Verif Require Import Base ChebSpec ChebMath UltraSpec.
Import ListNotations.
Open Scope R_scope.

Lemma gegen_SS lam p x : gegen lam (S (S p)) x = (2 * (INR p + 1 + INR lam) * x * gegen lam (S p) x - (INR p + 2 * INR lam) * gegen lam p x) / (INR p + 2).
Proof. reflexivity. Qed.
Lemma INRp n : 0 <= INR n. Proof. apply pos_INR. Qed.
Lemma ubasis_0 lam x : ubasis lam 0 x = 1. Proof. destruct lam; reflexivity. Qed.

(** x C_n *)
Lemma gegen_x lam n x : (1 <= lam)%nat ->
  x * gegen lam n x = ((INR n + 1) * gegen lam (S n) x + (INR n + 2 * INR lam - 1) * match n with O => 0 | S m => gegen lam m x end) / (2 * (INR n + INR lam)).
Proof.
  intros Hl. assert (L : 1 <= INR lam) by (change 1 with (INR 1); apply le_INR; exact Hl).
  destruct n as [|p].
  - cbn [gegen INR]. field. lra.
  - rewrite gegen_SS, S_INR. assert (P := INRp p). field. lra.
Qed.
Lemma gegen_1_U n x : gegen 1 n x = U n x.
Proof.
  induction n as [| |n I1 I2] using nat_ind2; [reflexivity|cbn; ring|].
  rewrite gegen_SS, U_SS, I1, I2. cbn [INR]. assert (P := INRp n). field. lra.
Qed.
(** conversion of one basis function *)
Lemma gegen_conv lam n x : (1 <= lam)%nat ->
  (INR n + INR lam) * gegen lam n x = INR lam * (gegen (S lam) n x - match n with S (S p) => gegen (S lam) p x | _ => 0 end).
Proof.
  intros Hl. assert (L : 1 <= INR lam) by (change 1 with (INR 1); apply le_INR; exact Hl).
  assert (K : forall n, ((INR n + INR lam) * gegen lam n x = INR lam * (gegen (S lam) n x - match n with S (S p) => gegen (S lam) p x | _ => 0 end)) /\
    ((INR (S n) + INR lam) * gegen lam (S n) x = INR lam * (gegen (S lam) (S n) x - match S n with S (S p) => gegen (S lam) p x | _ => 0 end))); [|apply K].
  clear n. induction n as [|n [I1 I2]].
  - split; [cbn [gegen INR]; ring|]. cbn [gegen]. rewrite !S_INR. cbn [INR]. ring.
  - split; [exact I2|]. rewrite gegen_SS.
    assert (E1 : gegen lam n x = INR lam * (gegen (S lam) n x - match n with S (S p) => gegen (S lam) p x | _ => 0 end) / (INR n + INR lam)).
    { assert (P := INRp n). rewrite <- I1. field. lra. }
    assert (E2 : gegen lam (S n) x = INR lam * (gegen (S lam) (S n) x - match S n with S (S p) => gegen (S lam) p x | _ => 0 end) / (INR (S n) + INR lam)).
    { assert (P := INRp (S n)). rewrite <- I2. field. lra. }
    assert (X1 := gegen_x (S lam) (S n) x ltac:(lia)). rewrite ?S_INR in *. assert (P := INRp n).
    destruct n as [|p].
    + cbn [INR] in *. rewrite E1, E2. cbn [gegen]. change (INR 0) with 0. rewrite ?S_INR. change (INR 0) with 0. field. lra.
    + assert (X2 := gegen_x (S lam) p x ltac:(lia)). rewrite ?S_INR in *. assert (P' := INRp p).
      set (a := gegen (S lam) (S (S (S p))) x) in *. set (b := gegen (S lam) (S (S p)) x) in *. set (c := gegen (S lam) (S p) x) in *. set (d := gegen (S lam) p x) in *.
      set (e := match p with O => 0 | S m => gegen (S lam) m x end) in *.
      assert (Hm : match S p with S (S q) => gegen (S lam) q x | _ => 0 end = e) by (unfold e; destruct p; reflexivity).
      try rewrite Hm in E1. rewrite E2, E1.
      replace (2 * (INR p + 1 + 1 + INR lam) * x * (INR lam * (b - d) / (INR p + 1 + 1 + INR lam))) with (2 * INR lam * (x * b - x * d)) by (field; lra).
      rewrite X1, X2. field. lra.
Qed.
Lemma ubasis_conv lam n x :
  ubasis lam n x = match lam with
                   | O => match n with O => 1 | _ => / 2 end
                   | S _ => INR lam / (INR lam + INR n) end * (ubasis (S lam) n x - match n with S (S p) => ubasis (S lam) p x | _ => 0 end).
Proof.
  destruct lam as [|l].
  - cbn [ubasis]. destruct n as [|[|p]]; [cbn; ring|cbn; field|]. rewrite !gegen_1_U. assert (H := T_U p x). lra.
  - assert (H := gegen_conv (S l) n x ltac:(lia)). cbn [ubasis]. assert (P := INRp n). assert (L : 1 <= INR (S l)) by (change 1 with (INR 1); apply le_INR; lia).
    set (D := gegen (S (S l)) n x - _) in *. replace (INR (S l) / (INR (S l) + INR n) * D) with (INR (S l) * D / (INR (S l) + INR n)) by (field; lra).
    rewrite <- H. field. lra.
Qed.
(** derivative of one basis function *)
Lemma is_derive_gegen lam n x : (1 <= lam)%nat -> is_derive (gegen lam n) x (2 * INR lam * match n with O => 0 | S m => gegen (S lam) m x end).
Proof.
  intros Hl. assert (L : 1 <= INR lam) by (change 1 with (INR 1); apply le_INR; exact Hl).
  induction n as [| |n I1 I2] using nat_ind2.
  - rewrite Rmult_0_r. apply (is_derive_ext (fun _ => 1)); [reflexivity|]. apply @is_derive_const.
  - cbn [gegen]. evar_last; [apply is_derive_scal; apply @is_derive_id|]. cbn. unfold one; cbn. ring.
  - assert (P := INRp n).
    apply (is_derive_ext (fun t => 2 * (INR n + 1 + INR lam) / (INR n + 2) * (t * gegen lam (S n) t) + (- ((INR n + 2 * INR lam) / (INR n + 2))) * gegen lam n t)).
    { intros t. rewrite gegen_SS. cbn. field. lra. }
    evar_last.
    { apply @is_derive_plus; apply is_derive_scal; [|exact I1].
      apply (is_derive_mult (fun t => t) (gegen lam (S n))); [apply @is_derive_id|exact I2|intros; cbn; ring]. }
    unfold plus, mult, one. cbn -[gegen INR].
    assert (Cv := gegen_conv lam (S n) x Hl). assert (X := gegen_x (S lam) n x ltac:(lia)). rewrite ?S_INR in *.
    assert (E : gegen lam (S n) x = INR lam * (gegen (S lam) (S n) x - match S n with S (S p) => gegen (S lam) p x | _ => 0 end) / (INR n + 1 + INR lam)).
    { rewrite <- Cv. field. lra. }
    set (e := match n with O => 0 | S m => gegen (S lam) m x end) in *.
    assert (Hm : match S n with S (S p) => gegen (S lam) p x | _ => 0 end = e) by (unfold e; destruct n; reflexivity).
    try rewrite Hm in E. rewrite E.
    replace (x * (2 * INR lam * gegen (S lam) n x)) with (2 * INR lam * (x * gegen (S lam) n x)) by ring. rewrite X. field. lra.
Qed.
Lemma is_derive_ubasis lam n x : is_derive (ubasis lam n) x (match lam with O => INR n | S _ => 2 * INR lam end * match n with O => 0 | S m => ubasis (S lam) m x end).
Proof.
  destruct lam as [|l].
  - cbn [ubasis]. evar_last; [apply is_derive_T|]. destruct n; [ring|]. rewrite gegen_1_U. reflexivity.
  - cbn [ubasis]. apply is_derive_gegen. lia.
Qed.
