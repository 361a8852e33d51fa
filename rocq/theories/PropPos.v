(** C174: the equation is evaluated with the parameters' own values, whatever their sign. *)
From Coq Require Import String.
From Coq Require Import Reals List Lra.
From Verif Require Import PosModel.
Import ListNotations.
Open Scope R_scope.
Open Scope string_scope.

(** No parameter occurs. *)
Fixpoint par_free (e : ex) : Prop :=
  match e with
  | XNum _ | XVal _ => True | XPar _ => False
  | XAdd a b | XMul a b => par_free a /\ par_free b
  | XAbs a | XSgn a | XRoot2 a => par_free a
  end.
(** No parameter occurs inside abs, sign or the root of a square. *)
Fixpoint kinks_free (e : ex) : Prop :=
  match e with
  | XNum _ | XVal _ | XPar _ => True
  | XAdd a b | XMul a b => kinks_free a /\ kinks_free b
  | XAbs a | XSgn a | XRoot2 a => par_free a
  end.

Lemma sgn_pos r : 0 < r -> sgn r = 1.
Proof. intros. unfold sgn. destruct (Rlt_dec 0 r); [reflexivity|lra]. Qed.
Lemma sgn_neg r : r < 0 -> sgn r = -1.
Proof. intros. unfold sgn. destruct (Rlt_dec 0 r); [lra|]. destruct (Rlt_dec r 0); [reflexivity|lra]. Qed.
Lemma sgn_0 : sgn 0 = 0.
Proof. unfold sgn. destruct (Rlt_dec 0 0); [lra|]. destruct (Rlt_dec 0 0); [lra|reflexivity]. Qed.
Lemma sgn_mult a b : sgn (a * b) = sgn a * sgn b.
Proof.
  destruct (Rtotal_order a 0) as [A|[A|A]]; destruct (Rtotal_order b 0) as [B|[B|B]]; subst;
    rewrite ?Rmult_0_l, ?Rmult_0_r, ?sgn_0; try (rewrite ?Rmult_0_l, ?Rmult_0_r; reflexivity).
  - rewrite (sgn_neg a), (sgn_neg b) by assumption. rewrite sgn_pos; [lra|nra].
  - rewrite (sgn_neg a), (sgn_pos b) by assumption. rewrite sgn_neg; [lra|nra].
  - rewrite (sgn_pos a), (sgn_neg b) by assumption. rewrite sgn_neg; [lra|nra].
  - rewrite (sgn_pos a), (sgn_pos b) by assumption. rewrite sgn_pos; [lra|nra].
Qed.
Lemma root2 r : sqrt (r * r) = Rabs r.
Proof. apply sqrt_Rsqr_abs. Qed.

Section Known.
Variables (k : inference) (pars vals : string -> R).
(** What the inference says holds of these values. *)
Definition right_at (e : ex) : Prop :=
  match k e with Some true => 0 < meaning pars vals e | Some false => meaning pars vals e < 0 | None => True end.
Fixpoint all_sub (Q : ex -> Prop) (e : ex) : Prop :=
  Q e /\ match e with
  | XNum _ | XVal _ | XPar _ => True
  | XAdd a b | XMul a b => all_sub Q a /\ all_sub Q b
  | XAbs a | XSgn a | XRoot2 a => all_sub Q a
  end.
Lemma mk_abs_ok e : all_sub right_at e -> meaning pars vals (mk_abs k e) = Rabs (meaning pars vals e).
Proof.
  induction e; cbn [mk_abs all_sub]; intros [H H2]; unfold right_at in H; destruct (k _) as [[|]|]; cbn [meaning] in *;
    try (symmetry; apply Rabs_right; lra); try (match goal with |- -1 * ?t = Rabs ?t => rewrite (Rabs_left t) by lra; lra end); try reflexivity.
  destruct H2 as [Ha Hb]. rewrite IHe1, IHe2 by assumption. symmetry. apply Rabs_mult.
Qed.
Lemma mk_sgn_ok e : all_sub right_at e -> meaning pars vals (mk_sgn k e) = sgn (meaning pars vals e).
Proof.
  induction e; cbn [mk_sgn all_sub]; intros [H H2]; unfold right_at in H; destruct (k _) as [[|]|]; cbn [meaning] in *;
    try (rewrite sgn_pos by lra; reflexivity); try (rewrite sgn_neg by lra; reflexivity); try reflexivity.
  destruct H2 as [Ha Hb]. rewrite IHe1, IHe2 by assumption. symmetry. apply sgn_mult.
Qed.
End Known.
Lemma all_sub_all (Q : ex -> Prop) (D : ex -> Prop) :
  (forall e, D e -> Q e) ->
  (forall a b, D (XAdd a b) -> D a /\ D b) -> (forall a b, D (XMul a b) -> D a /\ D b) ->
  (forall a, D (XAbs a) -> D a) -> (forall a, D (XSgn a) -> D a) -> (forall a, D (XRoot2 a) -> D a) ->
  forall e, D e -> all_sub Q e.
Proof.
  intros HQ H1 H2 H3 H4 H5. induction e; cbn [all_sub]; intros H; (split; [apply HQ, H|]); try exact I; eauto.
  - destruct (H1 _ _ H). auto.
  - destruct (H2 _ _ H). auto.
Qed.
Lemma sound_sub k pars vals e : sound k -> (forall p, 0 < pars p) -> all_sub (right_at k pars vals) e.
Proof.
  intros S P. apply (all_sub_all _ (fun _ => True)); auto. intros e' _. exact (S e' pars vals P).
Qed.
Lemma par_free_meaning pars pars' vals e : par_free e -> meaning pars vals e = meaning pars' vals e.
Proof. induction e; cbn [par_free meaning]; intros H; try reflexivity; try contradiction; try (destruct H; rewrite IHe1, IHe2 by assumption; reflexivity); rewrite IHe by assumption; reflexivity. Qed.
Lemma free_sub k pars vals e : sound k -> par_free e -> all_sub (right_at k pars vals) e.
Proof.
  intros S. apply (all_sub_all _ par_free); cbn [par_free]; auto.
  intros e' F. unfold right_at. rewrite (par_free_meaning pars (fun _ => 1) vals e' F). apply S. intros; lra.
Qed.
Lemma mk_abs_free k e : par_free e -> par_free (mk_abs k e).
Proof. induction e; cbn [mk_abs par_free]; intros H; destruct (k _) as [[|]|]; cbn [par_free]; tauto. Qed.
Lemma mk_sgn_free k e : par_free e -> par_free (mk_sgn k e).
Proof. induction e; cbn [mk_sgn par_free]; intros H; destruct (k _) as [[|]|]; cbn [par_free]; tauto. Qed.
Lemma build_free k e : par_free e -> par_free (build k e).
Proof. induction e; cbn [build par_free]; intros H; try tauto; try (destruct H; split; auto); auto using mk_abs_free, mk_sgn_free. Qed.

(** With positive parameters the residual is the equation as written. *)
Theorem C174_positive k pars vals e :
  sound k -> (forall p, 0 < pars p) -> residual_value k pars vals e = meaning pars vals e.
Proof.
  intros S P. unfold residual_value. induction e; cbn [build meaning]; try reflexivity; try (rewrite IHe1, IHe2; reflexivity).
  - rewrite mk_abs_ok by (apply sound_sub; assumption). rewrite IHe. reflexivity.
  - rewrite mk_sgn_ok by (apply sound_sub; assumption). rewrite IHe. reflexivity.
  - rewrite mk_abs_ok by (apply sound_sub; assumption). rewrite IHe. symmetry. apply root2.
Qed.
Print Assumptions C174_positive.
(** With parameters of any sign, if none occurs inside abs, sign or a root. *)
Theorem C174_no_kinks k pars vals e :
  sound k -> kinks_free e -> residual_value k pars vals e = meaning pars vals e.
Proof.
  intros S. unfold residual_value. induction e; cbn [build meaning kinks_free]; intros F; try reflexivity; try (destruct F; rewrite IHe1, IHe2 by assumption; reflexivity).
  all: assert (V : meaning pars vals (build k e) = meaning pars vals e) by
    (rewrite (par_free_meaning pars (fun _ => 1) vals e F), (par_free_meaning pars (fun _ => 1) vals (build k e) (build_free k e F)); exact (C174_positive k (fun _ => 1) vals e S ltac:(intros; lra))).
  - rewrite mk_abs_ok by (apply free_sub; [exact S|apply build_free, F]). rewrite V. reflexivity.
  - rewrite mk_sgn_ok by (apply free_sub; [exact S|apply build_free, F]). rewrite V. reflexivity.
  - rewrite mk_abs_ok by (apply free_sub; [exact S|apply build_free, F]). rewrite V. symmetry. apply root2.
Qed.
Print Assumptions C174_no_kinks.
(** The full property fails: abs(p) u, sign(p) and the root of p squared have the
    wrong sign for every negative value of p, whatever else sympy infers. *)
Theorem C174_refuted k pars vals p u :
  declared k -> pars p < 0 ->
  residual_value k pars vals (XRoot2 (XPar p)) = - meaning pars vals (XRoot2 (XPar p))
  /\ residual_value k pars vals (XSgn (XPar p)) = - meaning pars vals (XSgn (XPar p))
  /\ residual_value k pars vals (XMul (XAbs (XPar p)) (XVal u)) = - meaning pars vals (XMul (XAbs (XPar p)) (XVal u)).
Proof.
  intros D N. unfold residual_value. cbn [build mk_abs mk_sgn]. rewrite D. cbn [meaning]. rewrite root2, sgn_neg, Rabs_left by exact N. lra.
Qed.
Print Assumptions C174_refuted.
(** The hypotheses are met: an inference that knows the signs of numbers,
    parameters and products. *)
Fixpoint simple (e : ex) : option bool :=
  match e with
  | XNum r => if Rlt_dec 0 r then Some true else if Rlt_dec r 0 then Some false else None
  | XPar _ => Some true
  | XMul a b => match simple a, simple b with Some s, Some t => Some (Bool.eqb s t) | _, _ => None end
  | XAdd a b => match simple a, simple b with Some s, Some t => if Bool.eqb s t then Some s else None | _, _ => None end
  | _ => None
  end.
Theorem C174_example :
  sound simple /\ declared simple /\
  let e := XAdd (XMul (XAbs (XMul (XMul (XNum (-2)) (XPar "p")) (XVal "u"))) (XSgn (XPar "p"))) (XVal "v") in
  ~ kinks_free e
  /\ build simple e = XAdd (XMul (XMul (XMul (XNum (-1)) (XMul (XNum (-2)) (XPar "p"))) (XAbs (XVal "u"))) (XNum 1)) (XVal "v")
  /\ residual_value simple (fun _ => 3) (fun _ => -1) e = 5
  /\ residual_value simple (fun _ => -3) (fun _ => -1) e = -7 /\ meaning (fun _ => -3) (fun _ => -1) e = -7
  /\ residual_value simple (fun _ => -3) (fun _ => -1) (XAbs (XMul (XPar "p") (XVal "u"))) = -3
  /\ meaning (fun _ => -3) (fun _ => -1) (XAbs (XMul (XPar "p") (XVal "u"))) = 3.
Proof.
  split.
  { intros e pars vals P. induction e; cbn [simple meaning]; auto.
    - destruct (Rlt_dec 0 r); [lra|]. destruct (Rlt_dec r 0); [lra|exact I].
    - destruct (simple e1) as [[|]|], (simple e2) as [[|]|]; cbn [Bool.eqb]; try exact I; lra.
    - destruct (simple e1) as [[|]|], (simple e2) as [[|]|]; cbn [Bool.eqb]; try exact I; nra. }
  split; [intros p; reflexivity|].
  assert (E : simple (XNum (-2)) = Some false). { cbn [simple]. destruct (Rlt_dec 0 (-2)); [lra|]. destruct (Rlt_dec (-2) 0); [reflexivity|lra]. }
  assert (A3 : Rabs (-1) = 1) by (rewrite Rabs_left; lra). assert (A6 : Rabs (-2 * -3 * -1) = 6) by (rewrite Rabs_left; lra).
  cbv zeta. split; [cbn; tauto|].
  assert (B : build simple (XAdd (XMul (XAbs (XMul (XMul (XNum (-2)) (XPar "p")) (XVal "u"))) (XSgn (XPar "p"))) (XVal "v")) = XAdd (XMul (XMul (XMul (XNum (-1)) (XMul (XNum (-2)) (XPar "p"))) (XAbs (XVal "u"))) (XNum 1)) (XVal "v")).
  { cbn [build]. f_equal. f_equal. cbn [mk_abs]. cbn [simple] in *. destruct (Rlt_dec 0 (-2)); [lra|]. destruct (Rlt_dec (-2) 0); [|lra]. cbn [Bool.eqb]. reflexivity. }
  split; [exact B|]. unfold residual_value. rewrite B. cbn [meaning]. rewrite A3, A6, sgn_neg by lra.
  repeat split; try lra.
  - cbn [build mk_abs simple meaning]. rewrite A3. lra.
  - rewrite Rabs_right; lra.
Qed.
Print Assumptions C174_example.
