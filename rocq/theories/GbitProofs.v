(** Proofs about GBIT (GbitModel.v). *)
From Coq Require Import Reals List Arith Bool Lra Lia Classical_Prop.
From Coquelicot Require Import Coquelicot.
From Verif Require Import Base ChebModel NewtonModel NewtonSpec NewtonProofs NewtonBroyden GbitModel.
Import ListNotations.
Open Scope R_scope.

Lemma Reqb0_spec r : Reqb0 r = true <-> r = 0.
Proof. unfold Reqb0. rewrite andb_true_iff, !Rleb_spec. lra. Qed.
Lemma Reqb0_false r : Reqb0 r = false <-> r <> 0.
Proof. pose proof (Reqb0_spec r). destruct (Reqb0 r); split; intros; try discriminate; try tauto; intuition. Qed.

Section T.
Variables X V : Type.
Variables (A : X -> V) (P : V -> X) (vsub : V -> V -> V).
Variables (xadd xsub : X -> X -> X) (xscal : R -> X -> X) (ip : X -> X -> R).
Variables (max_iter i_max : nat) (rho tol tau_min tau_max epsilon_limit : R) (giant_simple : bool).
Notation gb_inner := (gb_inner X V A P xadd xsub xscal ip max_iter i_max rho tol tau_min tau_max epsilon_limit giant_simple).
Notation gb_outer := (gb_outer X V A P vsub xadd xsub xscal ip max_iter i_max rho tol tau_min tau_max epsilon_limit giant_simple).
Notation gbit := (gbit X V A P vsub xadd xsub xscal ip max_iter i_max rho tol tau_min tau_max epsilon_limit giant_simple).

Lemma gb_inner_ends : forall fuel y0 y ds ss ts i iter d0, (i <= i_max + 1)%nat -> (i_max + 2 <= fuel + i)%nat ->
  (iter <= max_iter + 1)%nat ->
  exists y' stop iter', gb_inner fuel y0 y ds ss ts i iter d0 = Some (y', stop, iter') /\
    (iter <= iter' <= max_iter + 1)%nat /\ (i = 0 -> iter <= max_iter -> iter < iter')%nat.
Proof.
  induction fuel; intros * I F K; [lia|].
  cbn [GbitModel.gb_inner]. destruct (Nat.leb i i_max && Nat.leb iter max_iter) eqn:L.
  2:{ do 3 eexists. split; [reflexivity|]. split; [lia|]. intros -> LE.
      apply andb_false_iff in L. rewrite !Nat.leb_gt in L. lia. }
  apply andb_true_iff in L. rewrite !Nat.leb_le in L. cbv zeta.
  match goal with |- context [if ?c && Nat.ltb 0 i then _ else _] => destruct (c && Nat.ltb 0 i) eqn:T end.
  { do 3 eexists. split; [reflexivity|]. split; [lia|]. intros -> _. rewrite andb_false_r in T. discriminate. }
  match goal with |- context [if ?c then Some (_, true, _) else _] => destruct c end.
  { do 3 eexists. split; [reflexivity|]. lia. }
  match goal with |- context [if Rltb epsilon_limit ?c then _ else _] => destruct (Rltb epsilon_limit c) end.
  { do 3 eexists. split; [reflexivity|]. lia. }
  match goal with |- exists _ _ _, gb_inner fuel ?a ?b ?c ?d ?e ?f ?g ?h = _ /\ _ =>
    destruct (IHfuel a b c d e f g h) as [y' [st [it [E [Q1 Q2]]]]] end; try lia.
  rewrite E. do 3 eexists. split; [reflexivity|]. lia.
Qed.
Lemma gb_outer_ends : forall fuel b y0 y iter, (iter <= max_iter)%nat -> (max_iter + 1 <= fuel + iter)%nat -> (1 <= fuel)%nat ->
  exists y' ok iter', gb_outer fuel b y0 y iter = Some (y', ok, iter') /\ (1 <= iter' <= max_iter + 1)%nat /\
    (ok = true -> iter' < max_iter)%nat.
Proof.
  induction fuel; intros * I F F1; [lia|].
  cbn [GbitModel.gb_outer]. cbv zeta.
  match goal with |- context [gb_inner ?a ?b ?c ?d ?e ?f ?g ?h ?i] =>
    destruct (gb_inner_ends a b c d e f g h i) as [y' [st [it [E [Q1 Q2]]]]] end; try lia.
  rewrite E. destruct (st || Nat.leb max_iter it) eqn:C.
  - do 3 eexists. split; [reflexivity|]. split; [lia|]. rewrite andb_true_iff, Nat.ltb_lt. tauto.
  - apply orb_false_iff in C. rewrite Nat.leb_gt in C.
    destruct fuel; [lia|]. apply IHfuel; lia.
Qed.
Lemma gbit_ends b y : exists y' ok iter', gbit b y = Some (y', ok, iter') /\ (1 <= iter' <= max_iter + 1)%nat /\
    (ok = true -> iter' < max_iter)%nat.
Proof. apply gb_outer_ends; lia. Qed.
End T.

(** *** GBIT is Broyden's method *)
Section B.
Context {X V : ModuleSpace R_Ring}.
Variables (A : X -> V) (P : V -> X) (ip : X -> X -> R).
Hypotheses (LA : linmap A) (LP : linmap P) (IP : inner ip).

Lemma lm_opp {Y Z : ModuleSpace R_Ring} (f : Y -> Z) u : linmap f -> f (opp u) = opp (f u).
Proof. intros [_ S']. rewrite <- (scal_opp_one u), S'. apply scal_opp_one. Qed.
Lemma lm_minus {Y Z : ModuleSpace R_Ring} (f : Y -> Z) u v : linmap f -> f (minus u v) = minus (f u) (f v).
Proof. intros L. unfold minus. rewrite (lm_add f L), (lm_opp f v L). reflexivity. Qed.
Lemma lm_zero {Y Z : ModuleSpace R_Ring} (f : Y -> Z) : linmap f -> f zero = zero.
Proof. intros L. rewrite <- (scal_zero_l (zero : Y)), (lm_scal f L). apply scal_zero_l. Qed.

(** Broyden inverses. *)
Lemma upd_lin H d : linmap H -> linmap (fun v => plus (H v) (scal (ip d (H v) / ip d (H (A d))) (minus d (H (A d))))).
Proof.
  intros [H1 H2]. split; intros.
  - rewrite H1, (ip_add_r ip IP). unfold Rdiv. rewrite Rmult_plus_distr_r.
    set (a := ip d (H u) * _). set (b := ip d (H v) * _). set (e := minus d _).
    change (a + b) with (plus (a : R_Ring) b). rewrite (scal_distr_r (a : R_Ring) b e).
    rewrite <- !plus_assoc. f_equal. rewrite plus_comm, <- plus_assoc. f_equal. apply plus_comm.
  - rewrite H2, (ip_scal_r ip IP). rewrite scal_distr_l, scal_assoc. f_equal. f_equal.
    change mult with Rmult. unfold Rdiv. rewrite Rmult_assoc. reflexivity.
Qed.
Notation broyden_inv := (broyden_inv A P ip).
Lemma bi_lin H : broyden_inv H -> linmap H.
Proof. induction 1; [exact LP|now apply upd_lin]. Qed.
(** The secant condition. *)
Lemma bi_secant H d : ip d (H (A d)) <> 0 ->
  plus (H (A d)) (scal (ip d (H (A d)) / ip d (H (A d))) (minus d (H (A d)))) = d.
Proof.
  intros N. unfold Rdiv. rewrite Rinv_r by exact N. change 1 with (one : R_Ring). rewrite scal_one.
  unfold minus. rewrite (plus_comm d), plus_assoc, plus_opp_r. apply plus_zero_l.
Qed.
Lemma bi_injective H : broyden_inv H -> (forall v, P v = zero -> v = zero) -> forall v, H v = zero -> v = zero.
Proof.
  intros B PI. induction B as [|H d B IH N]; [exact PI|]. intros v E. apply IH.
  assert (Q : ip d (H v) * (ip d d / ip d (H (A d))) = 0).
  { transitivity (ip d (plus (H v) (scal (ip d (H v) / ip d (H (A d))) (minus d (H (A d)))))).
    - unfold minus. rewrite (ip_add_r ip IP), (ip_scal_r ip IP), (ip_add_r ip IP).
      rewrite (in_sym ip IP d (opp _)), (ip_opp_l ip IP), (in_sym ip IP (H (A d)) d). field. exact N.
    - rewrite E, (in_sym ip IP). apply (ip_0_l ip IP). }
  assert (D : ip d d <> 0).
  { intros Z. pose proof (cauchy_schwarz ip IP d (H (A d))) as C. rewrite Z in C. nra. }
  assert (HV : ip d (H v) = 0).
  { apply Rmult_integral in Q. destruct Q as [Q|Q]; [exact Q|]. exfalso.
    apply Rmult_integral in Q. destruct Q as [Q|Q]; [now apply D|]. now apply Rinv_neq_0_compat in N. }
  rewrite HV in E. unfold Rdiv in E. rewrite Rmult_0_l in E. change 0 with (zero : R_Ring) in E.
  rewrite scal_zero_l, plus_zero_r in E. exact E.
Qed.

Variables (max_iter i_max : nat) (rho tol tau_min tau_max epsilon_limit : R) (simple : bool).
Notation gz := (gz X plus minus scal ip).
Notation gb_inner := (gb_inner X V A P plus minus scal ip max_iter i_max rho tol tau_min tau_max epsilon_limit simple).
Notation gb_outer := (gb_outer X V A P minus plus minus scal ip max_iter i_max rho tol tau_min tau_max epsilon_limit simple).
Notation gbit := (gbit X V A P minus plus minus scal ip max_iter i_max rho tol tau_min tau_max epsilon_limit simple).

(** The Broyden inverse after the steps ds (all but the last entry used). *)
Fixpoint HB (H : V -> X) (ds : list X) : V -> X :=
  match ds with
  | d0 :: ((_ :: _) as dt) => HB (fun v => plus (H v) (scal (ip d0 (H v) / ip d0 (H (A d0))) (minus d0 (H (A d0))))) dt
  | _ => H
  end.
(** What the lists of the inner loop satisfy: at each position delta' =
    (1 - t + tau) delta - tau zeta with gamma = <delta, zeta> nonzero. *)
Inductive ok_run : (V -> X) -> list X -> list R -> list R -> Prop :=
| ok_last H d : ok_run H [d] [ip d d] []
| ok_more H d e dt t ss ts : ip d (H (A d)) <> 0 ->
    e = minus (scal (1 - t + ip d d / ip d (H (A d))) d) (scal (ip d d / ip d (H (A d))) (H (A d))) ->
    ok_run (fun v => plus (H v) (scal (ip d (H v) / ip d (H (A d))) (minus d (H (A d))))) (e :: dt) ss ts ->
    ok_run H (d :: e :: dt) (ip d d :: ss) (t :: ts).
Lemma ok_run_pos H d : ip d (H (A d)) <> 0 -> ip d d <> 0.
Proof. intros N Z. pose proof (cauchy_schwarz ip IP d (H (A d))) as C. rewrite Z in C. nra. Qed.
Lemma ab3 (a b c : X) : plus (plus (plus a b) c) (opp a) = plus b c.
Proof.
  rewrite (plus_comm _ (opp a)), !plus_assoc, plus_opp_l, plus_zero_l. reflexivity.
Qed.
(** delta' - (1 - t) delta = tau (delta - zeta). *)
Lemma delta_diff (tau t : R) (d z : X) :
  minus (minus (scal (1 - t + tau) d) (scal tau z)) (scal (1 - t) d) = scal tau (minus d z).
Proof.
  change (1 - t + tau) with (plus (1 - t : R_Ring) tau). rewrite (scal_distr_r (1 - t : R_Ring) tau d).
  unfold minus. rewrite (scal_distr_l tau d (opp z)), scal_opp_r.
  apply ab3.
Qed.
Lemma gz_HB : forall H ds ss ts, ok_run H ds ss ts -> forall v, gz (H v) ds ss ts = HB H ds v.
Proof.
  induction 1 as [H d|H d e dt t ss ts N E R0 IH]; intros v; [reflexivity|].
  transitivity (gz (plus (H v) (scal (ip d (H v) / ip d d) (minus e (scal (1 - t) d)))) (e :: dt) ss ts); [reflexivity|].
  cbn [HB]. rewrite <- IH. f_equal. f_equal. rewrite E, delta_diff, scal_assoc.
  assert (Q : (ip d (H v) / ip d d) * (ip d d / ip d (H (A d))) = ip d (H v) / ip d (H (A d))).
  { field. split; [exact N|]. now apply (ok_run_pos H). }
  f_equal. exact Q.
Qed.
Lemma HB_bi : forall H ds ss ts, ok_run H ds ss ts -> broyden_inv H -> broyden_inv (HB H ds).
Proof.
  induction 1 as [H d|H d e dt t ss ts N E R0 IH]; intros B; [exact B|]. apply IH. now constructor.
Qed.
(** One more step. *)
Lemma ok_run_snoc : forall H ds ss ts, ok_run H ds ss ts -> forall d t d0, nth (length ds - 1) ds d0 = d ->
  let Hc := HB H ds in ip d (Hc (A d)) <> 0 ->
  let tau := ip d d / ip d (Hc (A d)) in
  let e := minus (scal (1 - t + tau) d) (scal tau (Hc (A d))) in
  ok_run H (ds ++ [e]) (ss ++ [ip e e]) (ts ++ [t]) /\
  HB H (ds ++ [e]) = (fun v => plus (Hc v) (scal (ip d (Hc v) / ip d (Hc (A d))) (minus d (Hc (A d))))).
Proof.
  induction 1 as [H d1|H d1 e1 dt t1 ss ts N E R0 IH]; intros d t d0 L; cbv zeta; intros G.
  - cbn in L. subst d1. cbn [HB app] in *. split; [|reflexivity].
    apply ok_more; [exact G|reflexivity|constructor].
  - cbn [HB] in G |- *.
    assert (L' : nth (length (e1 :: dt) - 1) (e1 :: dt) d0 = d).
    { rewrite <- L. cbn [length]. replace (Datatypes.S (Datatypes.S (length dt)) - 1)%nat with (Datatypes.S (length dt)) by lia.
      replace (Datatypes.S (length dt) - 1)%nat with (length dt) by lia. reflexivity. }
    destruct (IH d t d0 L' G) as [Q1 Q2]. cbn [app] in Q1, Q2 |- *. split.
    + apply ok_more; [exact N|exact E|exact Q1].
    + exact Q2.
Qed.
(** delta_{i+1} = H_{i+1} r_{i+1}. *)
Lemma next_residual (H : V -> X) (r : V) t d : linmap H -> d = H r -> ip d (H (A d)) <> 0 ->
  let tau := ip d d / ip d (H (A d)) in
  let r' := minus r (scal t (A d)) in
  plus (H r') (scal (ip d (H r') / ip d (H (A d))) (minus d (H (A d)))) =
  minus (scal (1 - t + tau) d) (scal tau (H (A d))).
Proof.
  intros L E N. cbv zeta. rewrite (lm_minus H _ _ L), (lm_scal H L), <- E. set (z := H (A d)) in *.
  assert (Q : ip d (minus d (scal t z)) = ip d d - t * ip d z).
  { unfold minus. rewrite (ip_add_r ip IP), (in_sym ip IP d (opp _)), (ip_opp_l ip IP), (in_scal ip IP), (in_sym ip IP z d). ring. }
  rewrite Q. replace ((ip d d - t * ip d z) / ip d z) with (ip d d / ip d z - t) by (field; exact N).
  set (tau := ip d d / ip d z). clearbody tau z. clear.
  (* (d - t z) + (tau - t)(d - z) = (1 - t + tau) d - tau z *)
  unfold minus. rewrite (scal_distr_l (tau - t) d (opp z)).
  replace (plus (plus d (opp (scal t z))) (plus (scal (tau - t) d) (scal (tau - t) (opp z))))
    with (plus (plus d (scal (tau - t) d)) (plus (opp (scal t z)) (scal (tau - t) (opp z)))).
  2:{ rewrite <- !plus_assoc. f_equal. rewrite !plus_assoc. f_equal. apply plus_comm. }
  f_equal.
  - transitivity (plus (scal (one : R_Ring) d) (scal (tau - t) d)); [now rewrite scal_one|].
    rewrite <- (scal_distr_r (one : R_Ring) (tau - t) d). f_equal. change ((1 + (tau - t))%R = (1 - t + tau)%R). ring.
  - rewrite <- (scal_opp_r t z), <- (scal_opp_r tau z).
    rewrite <- (scal_distr_r (t : R_Ring) (tau - t) (opp z)). f_equal. change ((t + (tau - t))%R = tau). ring.
Qed.

Definition crit (y0 y : X) : R := rho * tol * (if simple then sqrt (ip (minus y y0) (minus y y0)) else sqrt (ip y y)).
Definition small_correction (b : V) (y0 y : X) : Prop :=
  exists H, broyden_inv H /\ sqrt (ip (H (minus b (A y))) (H (minus b (A y)))) <= 2 * crit y0 y.
Definition breakdown (b : V) : Prop :=
  exists H y, broyden_inv H /\ let d := H (minus b (A y)) in ip d (H (A d)) = 0.

Lemma minus_A_step (b : V) y t d : minus b (A (plus y (scal t d))) = minus (minus b (A y)) (scal t (A d)).
Proof.
  rewrite (lm_add A LA), (lm_scal A LA). unfold minus. rewrite opp_plus, plus_assoc. reflexivity.
Qed.
Lemma eps_bound_0 s1 : 0 <= s1 -> sqrt s1 <= 2 * sqrt (Rabs s1).
Proof. intros H. rewrite Rabs_pos_eq by exact H. pose proof (sqrt_pos s1). lra. Qed.
Lemma eps_bound_S a b s1 : 0 <= a -> 0 <= b -> 0 <= s1 -> sqrt s1 <= 2 * (/ 2 * sqrt (Rabs (a + 2 * b + s1))).
Proof.
  intros Ha Hb H. rewrite Rabs_pos_eq by lra. rewrite <- Rmult_assoc, Rinv_r, Rmult_1_l by lra.
  apply sqrt_le_1_alt. lra.
Qed.
Lemma ok_run_sigma : forall H ds ss ts, ok_run H ds ss ts -> length ss = length ds /\ length ds = Datatypes.S (length ts) /\
  forall i d0, (i < length ds)%nat -> nth i ss 0 = ip (nth i ds d0) (nth i ds d0).
Proof.
  induction 1 as [H d|H d e dt t ss ts N E R0 [IH1 [IH2 IH3]]].
  - cbn. split; [reflexivity|]. split; [reflexivity|]. intros i d0 L. now replace i with 0%nat by lia.
  - cbn [length] in *. split; [lia|]. split; [lia|]. intros [|i] d0 L; [reflexivity|]. apply IH3. lia.
Qed.

Lemma gb_inner_broyden b : forall fuel y0 y ds ss ts i iter d0 y' iter',
  ok_run P ds ss ts -> length ds = Datatypes.S i -> nth i ds d0 = HB P ds (minus b (A y)) ->
  gb_inner fuel y0 y ds ss ts i iter d0 = Some (y', true, iter') -> small_correction b y0 y' \/ breakdown b.
Proof.
  induction fuel; intros * OK LD RES E; [discriminate|].
  cbn [GbitModel.gb_inner] in E. destruct (Nat.leb i i_max && Nat.leb iter max_iter); [|discriminate].
  cbv zeta in E. rewrite (gz_HB P ds ss ts OK) in E. set (di := nth i ds d0) in *.
  pose proof (HB_bi P ds ss ts OK (bi_base A P ip)) as BI. set (Hc := HB P ds) in *.
  destruct (Reqb0 (ip di (Hc (A di)))) eqn:G.
  { right. apply Reqb0_spec in G. exists Hc, y. split; [exact BI|]. cbv zeta. rewrite <- RES. exact G. }
  apply Reqb0_false in G.
  destruct (ok_run_sigma P ds ss ts OK) as [LS [LT SG]].
  rewrite (SG i d0) in E by lia. fold di in E.
  set (tau := ip di di / ip di (Hc (A di))) in *.
  destruct (Rltb tau tau_min && Nat.ltb 0 i); [discriminate|].
  set (t := if Rltb tau tau_min then 1 else if Rleb tau tau_max then tau else 1) in *.
  set (y1 := plus y (scal t di)) in *.
  set (d1 := minus (scal (1 - t + tau) di) (scal tau (Hc (A di)))) in *.
  assert (LN : nth (length ds - 1) ds d0 = di) by (rewrite LD; replace (Datatypes.S i - 1)%nat with i by lia; reflexivity).
  destruct (ok_run_snoc P ds ss ts OK di t d0 LN G) as [OK1 HB1].
  assert (OK' : ok_run P (ds ++ [d1]) (ss ++ [ip d1 d1]) (ts ++ [t])) by exact OK1.
  assert (HB' : HB P (ds ++ [d1]) = (fun v => plus (Hc v) (scal (ip di (Hc v) / ip di (Hc (A di))) (minus di (Hc (A di)))))) by exact HB1.
  clear OK1 HB1.
  assert (RES' : d1 = HB P (ds ++ [d1]) (minus b (A y1))).
  { rewrite HB'. unfold y1. rewrite minus_A_step.
    symmetry. apply (next_residual Hc (minus b (A y)) t di (bi_lin Hc BI) RES G). }
  set (eps := match i with O => sqrt (Rabs (ip d1 d1)) | Datatypes.S j => / 2 * sqrt (Rabs (nth j ss 0 + 2 * ip di di + ip d1 d1)) end) in *.
  assert (EP : sqrt (ip d1 d1) <= 2 * eps).
  { unfold eps. destruct i as [|j]; [apply eps_bound_0, (ip_nonneg ip IP)|].
    apply eps_bound_S; try apply (ip_nonneg ip IP). rewrite (SG j d0) by lia. apply (ip_nonneg ip IP). }
  match type of E with (if ?c then _ else _) = _ => destruct c eqn:ST end.
  - left. assert (Y : y' = y1) by congruence. subst y'. exists (HB P (ds ++ [d1])). split; [exact (HB_bi _ _ _ _ OK' (bi_base A P ip))|].
    rewrite <- RES'. eapply Rle_trans; [exact EP|]. apply Rmult_le_compat_l; [lra|].
    unfold crit. destruct simple.
    + destruct (Reqb0 (gnrm X ip (minus y1 y0))) eqn:Z; [discriminate|]. apply Reqb0_false in Z.
      unfold gnrm in *. apply Rleb_spec in ST.
      assert (0 < sqrt (ip (minus y1 y0) (minus y1 y0))) by (pose proof (sqrt_pos (ip (minus y1 y0) (minus y1 y0))); lra).
      apply (Rmult_le_compat_r (sqrt (ip (minus y1 y0) (minus y1 y0)))) in ST; [|lra].
      unfold Rdiv in ST. rewrite Rmult_assoc, Rinv_l, Rmult_1_r in ST by lra. exact ST.
    + apply Rleb_spec in ST. unfold gnrm in ST. lra.
  - match type of E with (if ?c then _ else _) = _ => destruct c end; [discriminate|].
    apply IHfuel in E; auto.
    + rewrite app_length, LD. cbn. lia.
    + rewrite app_nth2 by lia. rewrite LD, Nat.sub_diag. exact RES'.
Qed.
Lemma gb_outer_broyden b y0 : forall fuel y iter y' iter',
  gb_outer fuel b y0 y iter = Some (y', true, iter') -> small_correction b y0 y' \/ breakdown b.
Proof.
  induction fuel; intros * E; [discriminate|]. cbn [GbitModel.gb_outer] in E. cbv zeta in E.
  set (d := P (minus b (A y))) in *.
  destruct (gb_inner (i_max + 2) y0 y [d] [ip d d] [] 0 iter d) as [[[y1 st] it]|] eqn:I; [|discriminate].
  destruct (st || Nat.leb max_iter it) eqn:C.
  - assert (S1 : st && Nat.ltb it max_iter = true) by congruence. apply andb_true_iff in S1. destruct S1 as [-> _].
    assert (Y : y' = y1) by congruence. subst y'.
    apply (gb_inner_broyden b) in I; auto. constructor.
  - eapply IHfuel, E.
Qed.
Lemma gbit_broyden b y y' iter' : gbit b y = Some (y', true, iter') -> small_correction b y y' \/ breakdown b.
Proof. apply gb_outer_broyden. Qed.
(** With tolerance zero. *)
Lemma gbit_exact b y y' iter' : tol = 0 -> (forall v, P v = zero -> v = zero) ->
  gbit b y = Some (y', true, iter') -> A y' = b \/ breakdown b.
Proof.
  intros T PI E. apply gbit_broyden in E. destruct E as [[H [B Q]]|E]; [|now right]. left.
  unfold crit in Q. rewrite T, Rmult_0_r, Rmult_0_l, Rmult_0_r in Q.
  assert (Z : H (minus b (A y')) = zero).
  { destruct (classic (H (minus b (A y')) = zero)) as [Z|Z]; [exact Z|]. exfalso.
    pose proof (in_pos ip IP _ Z) as P1. pose proof (sqrt_lt_R0 _ P1). lra. }
  apply (bi_injective H B PI) in Z.
  unfold minus in Z. apply (f_equal (fun v => plus v (A y'))) in Z.
  rewrite <- plus_assoc, plus_opp_l, plus_zero_r, plus_zero_l in Z. symmetry. exact Z.
Qed.
End B.
