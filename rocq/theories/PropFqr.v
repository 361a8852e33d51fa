(** QR factorisation of functions (C127-C130). *)
From Coq Require Import Reals ZArith List Arith Bool Lra Lia.
From Coquelicot Require Import Coquelicot.
From Verif Require Import Base ChebSpec ChebMath ChebModel ChebModel2 ChebObj ChebRefute FunModel FunProofs FqrSpec FqrModel FqrMain FqrFun FqrEx.
Import ListNotations.
Open Scope R_scope.

(** ** C127: orthonormality *)
(** C127: Q has the domain and the number of columns of F, its columns are orthonormal in L2 of the
    domain, R is upper triangular with diagonal >= 0, and F still represents the same functions. *)
Theorem C127_orthonormal : forall F eps0, fwf F -> ishappy (onefun F) = true -> (2 <= fcols F)%nat -> 0 < eps0 ->
  (exists j x, (j < fcols F)%nat /\ fev F j x <> 0) ->
  exists Q fc Rm F', fun_qr eps0 F = Some (Q, fc, Rm, F') /\ fwf Q /\ same_dom F Q /\ fcols Q = fcols F /\
    orthonormal (dom0 F) (dom1 F) (fcols F) (fev Q) /\ upper_triangular (entry Rm) /\ (forall j, (j < fcols F)%nat -> 0 <= entry Rm j j) /\
    fwf F' /\ same_dom F F' /\ fcols F' = fcols F /\ (forall j x, (j < fcols F)%nat -> fev F' j x = fev F j x).
Proof.
  intros F eps0 [(n & HR) Hd] Hh Hm He HX.
  destruct (fun_qr_ok F n eps0 HR Hd Hh Hm HX He) as (G & Rm & F' & E & W1 & W2 & D1 & D2 & C1 & C2 & V & O & U & P & _).
  exists G, false, Rm, F'. repeat match goal with |- _ /\ _ => split end; try assumption; try (destruct D1; assumption); try (destruct D2; assumption); try (destruct W1; assumption); try (destruct W2; assumption).
Qed.
Print Assumptions C127_orthonormal.

(** ** C128: F = QR *)
(** C128: |F| <= B on the domain and eps0 B max(n, m) <= 9/10 (n coefficients, m columns).  Column j of QR
    is column j of F, except for columns whose distance R_jj to the earlier ones is below
    1.5 eps0 B sqrt(j + 1/2) sqrt((b-a)/2); there the L2 error is at most 2 R_jj. *)
Theorem C128_factorisation_partial : forall F eps0 B Q fc Rm F', fwf F -> 0 < eps0 ->
  (exists j x, (j < fcols F)%nat /\ fev F j x <> 0) ->
  (forall j x, (j < fcols F)%nat -> dom0 F <= x <= dom1 F -> Rabs (fev F j x) <= B) ->
  eps0 * B * INR (Nat.max (flen F) (fcols F)) <= 9 / 10 ->
  fun_qr eps0 F = Some (Q, fc, Rm, F') ->
  forall j, (j < fcols F)%nat ->
    let e := qr_residual (fcols F) (fev F) (fev Q) (entry Rm) j in
    (forall x, e x = 0) \/
    (entry Rm j j < 3 / 2 * (eps0 * B * sqrt ((2 * INR j + 1) / 2) * sqrt ((dom1 F - dom0 F) / 2)) /\ L2_le (dom0 F) (dom1 F) e (2 * entry Rm j j)).
Proof.
  intros F eps0 B Q fc Rm F' [(n & HR) Hd] He HX HB HT E.
  assert (Hh : ishappy (onefun F) = true) by (destruct (ishappy (onefun F)) eqn:Hh; [reflexivity|rewrite qr_unhappy in E by exact Hh; discriminate]).
  assert (Hm : (2 <= fcols F)%nat).
  { destruct (le_lt_dec 2 (fcols F)) as [|L]; [assumption|]. unfold fun_qr, cheb_qr, cheb_qr_cols in E. change (length (coeffs (onefun F))) with (fcols F) in E. destruct (Nat.leb_spec (fcols F) 1); [discriminate|lia]. }
  assert (FL : flen F = n) by (unfold flen, len; now apply rect_nrows). rewrite FL in HT.
  destruct (fun_qr_ok F n eps0 HR Hd Hh Hm HX He) as (G & Rm' & F2 & E' & _ & _ & _ & _ & _ & _ & _ & _ & _ & _ & RES).
  rewrite E in E'. assert (Q = G) as -> by congruence. assert (Rm = Rm') as -> by congruence. exact (RES B HB HT).
Qed.
Print Assumptions C128_factorisation_partial.
(** C128 REFUTED (no bound on F): the columns c, c x on [-1,1] with c >= 10^8 and the default
    eps.  Column 0 of F - QR is the constant 2c. *)
Theorem C128_large_refuted : forall c, 10 ^ 8 <= c ->
  let F := mkFun (mkCheb [[c; 0]; [0; c]] eps_default 1 maxLength_default true) (-1) 1 in
  exists Q fc Rm F', fun_qr (148 / 10 ^ 10) F = Some (Q, fc, Rm, F') /\ (forall x, fev F 0 x = c) /\
    forall x, qr_residual 2 (fev F) (fev Q) (entry Rm) 0 x = 2 * c.
Proof. intros c Hc F. destruct (bigF_qr c Hc) as (G & Rm & F' & E & V & Rs). exists G, false, Rm, F'. split; [exact E|]. split; [exact V|exact Rs]. Qed.
Print Assumptions C128_large_refuted.

(** ** C129: functions that have no factorisation *)
(** C129: the factorisation of happy functions with at least two columns, not all zero, is computed. *)
Theorem C129_defined_partial : forall F eps0, fwf F -> ishappy (onefun F) = true -> (2 <= fcols F)%nat -> 0 < eps0 ->
  (exists j x, (j < fcols F)%nat /\ fev F j x <> 0) -> fun_qr eps0 F <> None.
Proof. intros F eps0 HF Hh Hm He HX. destruct (C127_orthonormal F eps0 HF Hh Hm He HX) as (Q & fc & Rm & F' & E & _). congruence. Qed.
Print Assumptions C129_defined_partial.
(** C129 REFUTED: one column; unresolved functions; zero functions (NaN). *)
Theorem C129_one_column_refuted : forall F eps0, fcols F = 1%nat -> fun_qr eps0 F = None.
Proof. intros F eps0. apply qr_one_column. Qed.
Print Assumptions C129_one_column_refuted.
Theorem C129_unhappy_refuted : forall F eps0, ishappy (onefun F) = false -> fun_qr eps0 F = None.
Proof. intros F eps0. apply qr_unhappy. Qed.
Print Assumptions C129_unhappy_refuted.
Theorem C129_zero_refuted : forall F eps0, fwf F -> (forall j x, (j < fcols F)%nat -> fev F j x = 0) -> fun_qr eps0 F = None.
Proof. intros F eps0. apply qr_zero. Qed.
Print Assumptions C129_zero_refuted.
(** The constructor makes such an unhappy chebtech of two columns of 17 ones. *)
Example ex_C129 : cheb_init [ones 17; ones 17] eps_default 1 maxLength_default false false = Some (mkCheb [ones 17; ones 17] eps_default 1 maxLength_default false).
Proof. exact ones_unhappy. Qed.

(** ** C130: what can be done with Q *)
(** C130 REFUTED: whenever a factorisation is returned, differentiating Q raises. *)
Theorem C130_strided_refuted : forall F eps0 Q fc Rm F' k, fun_qr eps0 F = Some (Q, fc, Rm, F') -> strided_diff Q fc k = None.
Proof. intros F eps0 Q fc Rm F' k E. rewrite (qr_flag _ _ _ _ _ _ E). reflexivity. Qed.
Print Assumptions C130_strided_refuted.

(** 1 and t - 1 on [0,2]: happy, not zero, bounded by 1, within the bound of C128 *)
Example ex_C127 : let F := mkFun (mkCheb [[1; 0]; [0; 1]] eps_default 1 maxLength_default true) 0 2 in
  fwf F /\ ishappy (onefun F) = true /\ (2 <= fcols F)%nat /\ (exists j x, (j < fcols F)%nat /\ fev F j x <> 0) /\
  (forall j x, (j < fcols F)%nat -> dom0 F <= x <= dom1 F -> Rabs (fev F j x) <= 1) /\ 148 / 10 ^ 10 * 1 * INR (Nat.max (flen F) (fcols F)) <= 9 / 10.
Proof.
  intros F. split; [split; [exists 2%nat; split; [lia|split; [discriminate|repeat constructor]]|unfold F; cbn; lra]|]. split; [reflexivity|]. split; [cbn; lia|].
  split; [exists 0%nat, 0; split; [cbn; lia|unfold F, fev, ev, evalT; cbn; lra]|]. split; [|cbn; lra].
  intros j x Hj Hx. cbn in Hj. unfold F in Hx. cbn in Hx. unfold F, fev, ev, evalT. cbn [onefun dom0 dom1 coeffs].
  destruct j as [|[|j]]; [| |lia]; cbn [nth length rsum T]; apply Rabs_le; lra.
Qed.
