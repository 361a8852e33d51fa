(** Roots of the deflated problem, and the deflated preconditioners. *)
From Coq Require Import Reals Lra Lia List.
From Coquelicot Require Import Coquelicot.
From Verif Require Import NewtonSpec NewtonBroyden DeflModel DeflProofs.
Import ListNotations.
Open Scope R_scope.

Lemma fold_mult l : forall a, fold_left Rmult l a = a * fold_right Rmult 1 l.
Proof. induction l as [|b l IH]; intros a; cbn; [ring|]. rewrite IH. ring. Qed.

Section P.
Context {X : ModuleSpace R_Ring}.
Variables (ip : X -> X -> R) (IP : inner ip).

Lemma deflation_right u known s p :
  deflation ip u known s p = fold_right Rmult 1 (map (defl_factor ip s p u) known).
Proof. rewrite deflation_prod. unfold prodf. rewrite fold_mult. ring. Qed.

Lemma factor_lower s p u k : s < defl_factor ip s p u k.
Proof.
  unfold defl_factor. assert (0 < 1 / Rpower (h1norm ip (minus u k)) p); [|lra].
  apply Rdiv_lt_0_compat; [lra|]. apply exp_pos.
Qed.

Lemma deflation_lower u known s p : 0 <= s -> s ^ length known <= deflation ip u known s p.
Proof.
  intros Hs. rewrite deflation_right. induction known as [|k l IH]; cbn; [lra|].
  apply Rmult_le_compat; [exact Hs|apply pow_le, Hs| |exact IH].
  apply Rlt_le, factor_lower.
Qed.

Lemma deflation_pos u known s p : 0 <= s -> 0 < deflation ip u known s p.
Proof.
  intros Hs. rewrite deflation_right. induction known as [|k l IH]; cbn; [lra|].
  apply Rmult_lt_0_compat; [apply factor_pos, Hs|exact IH].
Qed.

Lemma deflation_near u known s p r : 0 <= s -> In r known ->
  s ^ (length known - 1) / Rpower (h1norm ip (minus u r)) p <= deflation ip u known s p.
Proof.
  intros Hs. rewrite deflation_right. set (q := / Rpower (h1norm ip (minus u r)) p).
  assert (Q : 0 < q) by (apply Rinv_0_lt_compat, exp_pos).
  unfold Rdiv. fold q.
  induction known as [|k l IH]; intros HI; [destruct HI|]. cbn [map fold_right length Nat.sub].
  destruct HI as [->|HI].
  - rewrite Nat.sub_0_r, Rmult_comm. apply Rmult_le_compat; [lra|apply pow_le, Hs| |].
    + unfold defl_factor, Rdiv. rewrite Rmult_1_l. fold q. lra.
    + pose proof (deflation_lower u l s p Hs) as L. rewrite deflation_right in L. exact L.
  - specialize (IH HI). destruct l as [|k' l]; [destruct HI|]. cbn [length Nat.sub] in *.
    rewrite Nat.sub_0_r in *. cbn [pow]. rewrite Rmult_assoc.
    apply Rmult_le_compat; [exact Hs| | |exact IH].
    + apply Rmult_le_pos; [apply pow_le, Hs|lra].
    + apply Rlt_le, factor_lower.
Qed.
End P.

Section Q.
Context {X : ModuleSpace R_Ring} {V : NormedModule R_AbsRing}.
Variables (ip : X -> X -> R) (IP : inner ip).

Lemma norm_scal_ge (e : R) (v : V) : 0 < e -> e * norm v <= norm (@scal R_Ring V e v).
Proof.
  intros He.
  assert (Q : norm (scal (/ e) (scal e v)) <= / e * norm (scal e v)).
  { eapply Rle_trans; [apply (@norm_scal R_AbsRing V)|]. apply Req_le. f_equal.
    change (Rabs (/ e) = / e). apply Rabs_pos_eq. left. apply Rinv_0_lt_compat, He. }
  rewrite scal_assoc in Q. replace (mult (/ e) e) with (@one R_AbsRing) in Q.
  - rewrite scal_one in Q. apply (Rmult_le_compat_l e) in Q; [|lra].
    rewrite <- Rmult_assoc, Rinv_r, Rmult_1_l in Q by lra. exact Q.
  - symmetry. change (/ e * e = 1). field. lra.
Qed.

Theorem deflated_roots (F : X -> V) known s p u : 0 <= s ->
  (deflated_residual_rhs ip F u known s p = zero <-> F u = zero).
Proof.
  intros Hs. pose proof (deflation_pos ip u known s p Hs) as P.
  destruct known as [|k l]; [cbn; tauto|]. unfold deflated_residual_rhs.
  set (e := deflation _ _ _ _ _) in *. split.
  - intros E. assert (Q : scal (/ e) (scal e (F u)) = zero) by (rewrite E; apply scal_zero_r).
    rewrite scal_assoc in Q. replace (mult (/ e) e) with (@one R_AbsRing) in Q.
    + rewrite scal_one in Q. exact Q.
    + symmetry. change (/ e * e = 1). field. lra.
  - intros ->. apply (@scal_zero_r R_Ring (NormedModule.ModuleSpace R_AbsRing V)).
Qed.

Theorem deflated_away (F : X -> V) known s p q m r u : 0 <= s -> In r known ->
  u <> r -> q <= p -> h1norm ip (minus u r) <= 1 -> 0 <= m ->
  m * Rpower (h1norm ip (minus u r)) q <= norm (F u) ->
  m * s ^ (length known - 1) <= norm (deflated_residual_rhs ip F u known s p).
Proof.
  intros Hs HI Hu Hq Hh Hm Hn. destruct known as [|k l]; [destruct HI|].
  unfold deflated_residual_rhs.
  pose proof (deflation_near ip u (k :: l) s p r Hs HI) as D.
  pose proof (deflation_pos ip u (k :: l) s p Hs) as P.
  pose proof (h1_pos ip IP u r Hu) as HP.
  set (h := h1norm _ _) in *. set (e := deflation _ _ _ _ _) in *. set (S := s ^ _) in *.
  eapply Rle_trans; [|apply norm_scal_ge, P].
  assert (S0 : 0 <= S) by (apply pow_le, Hs).
  assert (R1 : 1 <= Rpower h (q - p)).
  { unfold Rpower. rewrite <- exp_0.
    assert (L : ln h <= 0) by (rewrite <- ln_1; apply ln_le; lra).
    assert (0 <= (q - p) * ln h) by nra.
    destruct (Req_dec ((q - p) * ln h) 0) as [->|N]; [lra|]. left. apply exp_increasing. lra. }
  assert (PP : 0 < Rpower h p) by apply exp_pos.
  assert (PQ : 0 < Rpower h q) by apply exp_pos.
  apply Rle_trans with (S / Rpower h p * (m * Rpower h q)).
  - replace (S / Rpower h p * (m * Rpower h q)) with (m * S * Rpower h (q - p)).
    + rewrite <- (Rmult_1_r (m * S)) at 1. apply Rmult_le_compat_l; [apply Rmult_le_pos; lra|exact R1].
    + unfold Rminus. rewrite Rpower_plus, Rpower_Ropp. field. lra.
  - apply Rmult_le_compat; try lra.
    + apply Rdiv_le_0_compat; lra.
    + apply Rmult_le_pos; lra.
Qed.

Theorem newton_system_refuted (M : X -> V) Fu u known x :
  known <> [] -> newton_system_matvec ip M Fu u known x = None.
Proof. destruct known; [congruence|reflexivity]. Qed.
Theorem newton_system_plain (M : X -> V) Fu u x : newton_system_matvec ip M Fu u [] x = Some (M x).
Proof. reflexivity. Qed.
End Q.

(** Sherman-Morrison. *)
Section SM.
Context {X : ModuleSpace R_Ring}.
Variables (ip : X -> X -> R) (IP : inner ip).

Lemma sm_aux a b c (x F : X) : a + b = c -> plus (scal a F) (plus x (scal b F)) = plus x (scal c F).
Proof.
  intros <-. rewrite plus_assoc, (plus_comm _ x), <- plus_assoc. f_equal.
  symmetry. apply (scal_distr_r a b F).
Qed.

Theorem residual_precond_id (F g x y : X) eta n : eta <> 0 -> eta + ip g F <> 0 ->
  precond_matvec ip (fun v => v) (scal eta F) (S n) (Some (CallFunctional g)) eta x = Some y ->
  plus (scal eta y) (scal (ip g y) F) = x.
Proof.
  intros He Hd E. unfold precond_matvec, call in E.
  rewrite (ip_scal_r ip IP) in E.
  set (t := ip g x / (eta ^ 2 + eta * ip g F)) in E.
  assert (Y : y = scal (/ eta) (minus x (scal t (scal eta F)))) by congruence. clear E.
  rewrite Y. rewrite scal_assoc. change (mult eta (/ eta)) with (eta * / eta). rewrite Rinv_r by exact He.
  change (scal 1 (minus x (scal t (scal eta F)))) with (scal (one : R_Ring) (minus x (scal t (scal eta F)))).
  rewrite scal_one. unfold minus. rewrite (ip_scal_r ip IP), (ip_add_r ip IP), <- scal_opp_l, (scal_assoc _ eta F).
  change (mult (opp t) eta) with (- t * eta). rewrite (ip_scal_r ip IP).
  rewrite plus_comm.
  rewrite (sm_aux _ _ 0).
  - change (scal 0 F) with (scal (zero : R_Ring) F). rewrite scal_zero_l. apply plus_zero_r.
  - assert (Hdd : eta ^ 2 + eta * ip g F <> 0).
    2:{ unfold t. field. split; [exact Hdd|exact He]. }
    intros Q. apply Hd.
    assert (Z : eta * (eta + ip g F) = 0) by lra.
    apply Rmult_integral in Z. destruct Z; [contradiction|assumption].
Qed.

Theorem frechet_precond_id (F g x y : X) eta n : eta <> 0 -> eta ^ 2 + ip g F <> 0 ->
  precond_matvec ip (fun v => v) F (S n) (Some (CallFunctional g)) eta x = Some y ->
  plus (scal eta y) (scal (ip g y) F) = plus x (scal ((eta - 1) * ip g x / (eta ^ 2 + ip g F)) F).
Proof.
  intros He Hd E. unfold precond_matvec, call in E.
  set (t := ip g x / (eta ^ 2 + ip g F)) in E.
  assert (Y : y = scal (/ eta) (minus x (scal t F))) by congruence. clear E.
  rewrite Y. rewrite scal_assoc. change (mult eta (/ eta)) with (eta * / eta). rewrite Rinv_r by exact He.
  change (scal 1 (minus x (scal t F))) with (scal (one : R_Ring) (minus x (scal t F))).
  rewrite scal_one. unfold minus. rewrite (ip_scal_r ip IP), (ip_add_r ip IP), <- scal_opp_l.
  rewrite (ip_scal_r ip IP). change (opp t) with (- t).
  rewrite plus_comm. apply sm_aux.
  unfold t. field. split; [exact Hd|exact He].
Qed.
End SM.
