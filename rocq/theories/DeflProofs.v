(** Proofs about deflation. *)
From Coq Require Import Reals Lra List.
From Coquelicot Require Import Coquelicot.
From Verif Require Import NewtonSpec NewtonBroyden DeflModel.
Import ListNotations.
Open Scope R_scope.

Section P.
Context {X : ModuleSpace R_Ring}.
Variables (ip : X -> X -> R) (IP : inner ip).

Lemma h1_pos u k : u <> k -> 0 < h1norm ip (minus u k).
Proof.
  intros H. apply sqrt_lt_R0. apply (in_pos ip IP). intros E. apply H.
  assert (Q : plus (minus u k) k = plus zero k) by now rewrite E.
  unfold minus in Q. rewrite <- plus_assoc, plus_opp_l, plus_zero_r, plus_zero_l in Q. exact Q.
Qed.
Lemma h1_sq f : h1norm ip f * h1norm ip f = ip f f.
Proof. apply sqrt_sqrt. apply (ip_nonneg ip IP). Qed.

Lemma factor_pos s p u k : 0 <= s -> 0 < defl_factor ip s p u k.
Proof.
  intros Hs. unfold defl_factor. assert (0 < 1 / Rpower (h1norm ip (minus u k)) p); [|lra].
  apply Rdiv_lt_0_compat; [lra|]. apply exp_pos.
Qed.

Lemma quad_line u c k t :
  ip (minus (plus u (scal t c)) k) (minus (plus u (scal t c)) k)
  = ip (minus u k) (minus u k) + 2 * t * ip (minus u k) c + t * t * ip c c.
Proof.
  assert (E : minus (plus u (scal t c)) k = plus (minus u k) (scal t c)).
  { unfold minus. rewrite <- !plus_assoc. f_equal. apply plus_comm. }
  rewrite E. set (d := minus u k).
  rewrite (in_add ip IP), !(ip_add_r ip IP), !(in_scal ip IP), !(ip_scal_r ip IP), (in_sym ip IP c d). ring.
Qed.

Lemma factor_derive s p u c k : u <> k ->
  is_derive (fun t => defl_factor ip s p (plus u (scal t c)) k) 0
    (- p * ip (minus u k) c / Rpower (h1norm ip (minus u k)) (2 + p)).
Proof.
  intros H. pose proof (h1_pos u k H) as HP. set (d := minus u k) in *.
  assert (A : 0 < ip d d) by (rewrite <- h1_sq; apply Rmult_lt_0_compat; exact HP).
  apply is_derive_ext with (fun t => s + / exp (p * ln (sqrt (ip d d + 2 * t * ip d c + t * t * ip c c)))).
  { intros t. unfold defl_factor, h1norm, Rpower. rewrite quad_line. fold d. unfold Rdiv. rewrite Rmult_1_l. reflexivity. }
  auto_derive.
  - rewrite !Rmult_0_r, !Rmult_0_l, !Rplus_0_r. repeat split; try lra.
    + apply sqrt_lt_R0. lra.
    + pose proof (exp_pos (p * ln (sqrt (ip d d)))). lra.
  - rewrite !Rmult_0_r, !Rmult_0_l, !Rplus_0_r. fold (h1norm ip d). unfold Rpower.
    replace (sqrt (ip d d)) with (h1norm ip d) by reflexivity. set (n := h1norm ip d) in *.
    replace ((2 + p) * ln n) with (ln n + ln n + p * ln n) by ring. rewrite !exp_plus, exp_ln by exact HP.
    assert (NP : 0 < n) by exact HP. pose proof (exp_pos (p * ln n)). field. split; lra.
Qed.

Definition prodf s p u known := fold_left Rmult (map (defl_factor ip s p u) known) 1.
Lemma deflation_prod u known s p : deflation ip u known s p = prodf s p u known.
Proof. destruct known; reflexivity. Qed.

Lemma loop_derive s p u c known : 0 <= s -> List.Forall (fun k => u <> k) known ->
  forall (e : R -> R) (f : X),
  is_derive e 0 (- p * e 0 * ip f c) ->
  let st := fold_left (defl_step ip s p u) known (e 0, f) in
  fst st = fold_left Rmult (map (defl_factor ip s p u) known) (e 0) /\
  is_derive (fun t => fold_left Rmult (map (defl_factor ip s p (plus u (scal t c))) known) (e t)) 0
    (- p * fst st * ip (snd st) c).
Proof.
  intros Hs. induction known as [|k l IH]; intros D e f He.
  - cbn. split; [reflexivity|exact He].
  - inversion D as [|? ? Hk Hl]; subst.
    cbn [fold_left map].
    set (e1 := fun t => e t * defl_factor ip s p (plus u (scal t c)) k).
    set (f1 := plus f (scal (/ (defl_factor ip s p u k * Rpower (h1norm ip (minus u k)) (2 + p))) (minus u k))).
    assert (U0 : plus u (scal 0 c) = u).
    { change (scal 0 c) with (scal (zero : R_Ring) c). rewrite scal_zero_l. apply plus_zero_r. }
    assert (E0 : e1 0 = e 0 * defl_factor ip s p u k) by (unfold e1; rewrite U0; reflexivity).
    assert (De : is_derive e1 0 (- p * e1 0 * ip f1 c)).
    { evar_last. { unfold e1. apply (is_derive_mult e (fun t => defl_factor ip s p (plus u (scal t c)) k)).
        - exact He. - apply factor_derive, Hk. - intros; apply Rmult_comm. }
      rewrite E0. unfold f1. rewrite (in_add ip IP), (in_scal ip IP). cbn beta.
      match goal with |- context [defl_factor ip s p ?w k] => match w with u => fail 1 | _ => replace w with u by (symmetry; exact U0) end end.
      pose proof (factor_pos s p u k Hs). pose proof (exp_pos ((2 + p) * ln (h1norm ip (minus u k)))) as P1.
      fold (Rpower (h1norm ip (minus u k)) (2 + p)) in P1.
      change (- p * e 0 * ip f c * defl_factor ip s p u k + e 0 * (- p * ip (minus u k) c / Rpower (h1norm ip (minus u k)) (2 + p)) =
        - p * (e 0 * defl_factor ip s p u k) *
         (ip f c + / (defl_factor ip s p u k * Rpower (h1norm ip (minus u k)) (2 + p)) * ip (minus u k) c)).
      field. split; lra. }
    specialize (IH Hl e1 f1 De). cbn zeta in IH.
    change (defl_step ip s p u (e 0, f) k) with (e 0 * defl_factor ip s p u k, f1).
    rewrite E0 in IH. exact IH.
Qed.

Theorem deflation_derive s p u c known eta (mkf : X -> functional X) g :
  0 <= s -> List.Forall (fun k => u <> k) known ->
  (forall a b, mkf a = mkf b -> a = b) ->
  deflation_linearization ip mkf u known s p = (eta, Some (mkf g)) ->
  eta = deflation ip u known s p /\
  is_derive (fun t => deflation ip (plus u (scal t c)) known s p) 0 (ip g c).
Proof.
  intros Hs D I E.
  destruct (loop_derive s p u c known Hs D (fun _ => 1) zero) as [A B].
  { rewrite (ip_0_l ip IP), Rmult_0_r. apply (@is_derive_const R_AbsRing R_NormedModule). }
  cbn beta in A, B.
  destruct known as [|k l]; [discriminate E|].
  unfold deflation_linearization in E. set (st := fold_left _ _ _) in *.
  assert (E1 : eta = fst st) by congruence.
  assert (E2 : g = scal (- p * fst st) (snd st)) by (apply I; congruence).
  split.
  - rewrite E1, A, deflation_prod. reflexivity.
  - rewrite E2, (in_scal ip IP). exact B.
Qed.

Lemma linearization_form s p (mkf : X -> functional X) u known :
  known <> [] -> exists g, deflation_linearization ip mkf u known s p
    = (fst (deflation_linearization ip mkf u known s p), Some (mkf g)).
Proof. destruct known; [congruence|]. intros _. eexists. reflexivity. Qed.
End P.

Section Q.
Context {X : ModuleSpace R_Ring} {V : NormedModule R_AbsRing}.
Variables (ip : X -> X -> R) (IP : inner ip).

(** The operator eta M + F(u) d is the derivative of eta F. *)
Theorem frechet_derive (F : X -> V) (M : X -> V) s p u known :
  0 <= s -> List.Forall (fun k => u <> k) known ->
  (forall c, is_derive (fun t => F (plus u (scal t c))) 0 (M c)) ->
  forall c, exists y,
    frechet_matvec ip M (fst (deflation_linearization ip CallFunctional u known s p)) (F u)
      (snd (deflation_linearization ip CallFunctional u known s p)) c = Some y /\
    is_derive (fun t => scal (deflation ip (plus u (scal t c)) known s p) (F (plus u (scal t c)))) 0 y.
Proof.
  intros Hs D HM c.
  assert (U0 : plus u (scal 0 c) = u).
  { change (scal 0 c) with (scal (zero : R_Ring) c). rewrite scal_zero_l. apply plus_zero_r. }
  destruct known as [|k l].
  - cbn. eexists. split; [reflexivity|].
    apply is_derive_ext with (fun t => F (plus u (scal t c))); [|apply HM].
    intros t. symmetry. apply (scal_one (F (plus u (scal t c)))).
  - destruct (linearization_form ip s p CallFunctional u (k :: l)) as [g Eg]; [congruence|].
    set (dl := deflation_linearization _ _ _ _ _ _) in *.
    destruct (deflation_derive ip IP s p u c (k :: l) (fst dl) CallFunctional g Hs D) as [A B]; [congruence|exact Eg|].
    rewrite Eg. cbn [fst snd frechet_matvec call]. eexists. split; [reflexivity|].
    unfold is_derive. eapply filterdiff_ext_lin.
    { apply (filterdiff_scal_fct 0 (fun t => deflation ip (plus u (scal t c)) (k :: l) s p) (fun t => F (plus u (scal t c)))).
      - intros; apply Rmult_comm. - exact B. - apply HM. }
    intros y. cbn beta. rewrite U0, <- A, scal_distr_l, !scal_assoc, plus_comm. f_equal; f_equal.
    apply Rmult_comm.
Qed.
End Q.
