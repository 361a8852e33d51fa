(** Proofs about the Newton iterations (NewtonModel.v). *)
From Coq Require Import Reals List Arith Bool Lra Lia.
From Verif Require Import Base ChebModel NewtonModel.
Import ListNotations.
Open Scope R_scope.

Lemma Rleb_spec a b : Rleb a b = true <-> a <= b.
Proof. unfold Rleb. destruct (Rle_dec a b); split; intros; auto; try discriminate; contradiction. Qed.
Lemma Rleb_false a b : Rleb a b = false <-> b < a.
Proof. unfold Rleb. destruct (Rle_dec a b); split; intros; auto; try discriminate; lra. Qed.
Lemma Rltb_spec a b : Rltb a b = true <-> a < b.
Proof. unfold Rltb. destruct (Rlt_dec a b); split; intros; auto; try discriminate; contradiction. Qed.
Lemma Rltb_false a b : Rltb a b = false <-> b <= a.
Proof. unfold Rltb. destruct (Rlt_dec a b); split; intros; auto; try discriminate; lra. Qed.
Lemma minf_le_l a m : minf a m <= a.
Proof. destruct m; simpl; [apply Rmin_l|lra]. Qed.
Lemma is_one_spec r : is_one r = true <-> r = 1.
Proof. unfold is_one. rewrite andb_true_iff, !Rleb_spec. lra. Qed.

Section P.
Variables X V S : Type.
Variables (mksys : X -> S) (rhs : S -> X -> V) (solve : S -> V -> X * bool) (vneg : V -> V).
Variables (xadd xsub : X -> X -> X) (xscal : R -> X -> X) (xdiv : X -> R -> X) (ip : X -> X -> R).
Variable callback : S -> nat -> X -> R -> R -> bool.
Variables (tol theta_max lambda_min : R) (restricted use_qnerr : bool) (miter : nat).

Notation damp := (damp X V S rhs solve vneg xadd xsub xscal ip tol theta_max lambda_min restricted).
Notation nrm := (nrm X ip).
Notation qn_loop := (qn_loop X V S rhs solve vneg xadd xscal xdiv ip callback tol theta_max).
Notation qnerr_nleq := (qnerr_nleq X V S rhs solve vneg xadd xscal xdiv ip callback tol theta_max).
Notation nleq_loop := (nleq_loop X V S mksys rhs solve vneg xadd xsub xscal xdiv ip callback tol theta_max lambda_min
                         restricted use_qnerr miter).
Notation nleq_err := (nleq_err X V S mksys rhs solve vneg xadd xsub xscal xdiv ip callback tol theta_max lambda_min
                         restricted use_qnerr miter).

(** *** The damping loop ends *)
Lemma damp_reducted : forall b sys x dx nd lam xk db th qn f tr, lam <= lambda_min * 2 ^ b ->
  damp (Datatypes.S b) sys x dx nd lam true xk db th qn f tr <> None.
Proof.
  induction b; intros * H.
  - cbn [NewtonModel.damp]. rewrite (proj2 (Rleb_spec lam lambda_min)) by (simpl in H; lra). discriminate.
  - remember (Datatypes.S b) as n. cbn [NewtonModel.damp]. subst n.
    destruct (Rleb lam lambda_min) eqn:L; [discriminate|].
    destruct (solve sys _) as [db' [|]]; [|discriminate]. cbv zeta.
    match goal with |- context [if ?c then _ else _] => destruct c end.
    + apply IHb. match goal with |- Rmax (minf ?a ?m) _ <= _ => pose proof (minf_le_l a m) as Q end.
      apply Rleb_false in L. simpl in H.
      assert (1 <= 2 ^ b) by (clear; induction b; simpl; lra).
      apply Rmax_lub; [lra|nra].
    + destruct (_ && _); [destruct (Rleb _ tol); discriminate|].
      rewrite andb_false_r. discriminate.
Qed.
Lemma damp_mono : forall n sys x dx nd lam r xk db th qn f tr d,
  damp n sys x dx nd lam r xk db th qn f tr = Some d ->
  forall m, damp (n + m) sys x dx nd lam r xk db th qn f tr = Some d.
Proof.
  induction n; intros * H m; [discriminate|].
  cbn [NewtonModel.damp plus] in *.
  destruct (Rleb lam lambda_min) eqn:L; [exact H|].
  destruct (solve sys _) as [db' [|]]; [|exact H]. cbv zeta in *.
  match goal with |- context [if ?c then _ else _] => destruct c end.
  - apply IHn, H.
  - destruct (_ && is_one _); [exact H|]. destruct (_ && negb r); [apply IHn, H|exact H].
Qed.
Lemma damp_some n sys x dx nd lam r xk db th qn f tr m : (n <= m)%nat ->
  damp n sys x dx nd lam r xk db th qn f tr <> None -> damp m sys x dx nd lam r xk db th qn f tr <> None.
Proof.
  intros L H. destruct (damp n sys x dx nd lam r xk db th qn f tr) as [d|] eqn:E; [|easy].
  pose proof (damp_mono _ _ _ _ _ _ _ _ _ _ _ _ _ _ E (m - n)) as Q. replace (n + (m - n))%nat with m in Q by lia.
  now rewrite Q.
Qed.
Lemma damp_terminates b : 1 <= lambda_min * 2 ^ b ->
  forall a sys x dx nd lam xk db th qn f tr, lam <= 1 -> 1 <= lam * 4 ^ a \/ lam <= lambda_min ->
  damp (a + b + 2) sys x dx nd lam false xk db th qn f tr <> None.
Proof.
  intros B. induction a; intros * L1 A.
  - cbn [NewtonModel.damp plus]. rewrite Nat.add_comm. cbn [plus].
    cbn [NewtonModel.damp].
    destruct (Rleb lam lambda_min) eqn:L; [discriminate|].
    destruct A as [A|A]; [|apply Rleb_false in L; lra].
    destruct (solve sys _) as [db' [|]]; [|discriminate]. cbv zeta.
    match goal with |- context [if ?c then _ else _] => destruct c end.
    + apply damp_reducted. match goal with |- Rmax (minf ?a ?m) _ <= _ => pose proof (minf_le_l a m) as Q end.
      apply Rleb_false in L. apply Rmax_lub; nra.
    + destruct (_ && is_one _); [destruct (Rleb _ tol); discriminate|].
      match goal with |- context [Rleb (4 * lam) ?q] => pose proof (minf_le_l 1 (if Rltb 0 (nrm (xsub db' (xscal (1 - lam) dx))) then
         Some (/ 2 * nd * lam * lam / nrm (xsub db' (xscal (1 - lam) dx))) else None)) end.
      rewrite (proj2 (Rleb_false _ _)) by (simpl in A; lra). discriminate.
  - cbn [NewtonModel.damp plus].
    destruct (Rleb lam lambda_min) eqn:L; [discriminate|].
    destruct A as [A|A]; [|apply Rleb_false in L; lra].
    destruct (solve sys _) as [db' [|]]; [|discriminate]. cbv zeta.
    match goal with |- context [if ?c then _ else _] => destruct c end.
    + apply (damp_some (Datatypes.S b)); [lia|].
      apply damp_reducted. match goal with |- Rmax (minf ?a ?m) _ <= _ => pose proof (minf_le_l a m) as Q end.
      apply Rleb_false in L. apply Rmax_lub; nra.
    + destruct (_ && is_one _); [destruct (Rleb _ tol); discriminate|].
      destruct (Rleb (4 * lam) _ && negb false) eqn:G; [|discriminate].
      apply andb_true_iff in G. destruct G as [G _]. apply Rleb_spec in G.
      apply IHa; [apply minf_le_l|]. left.
      assert (0 < 4 ^ a) by (apply pow_lt; lra). cbn [pow] in A. nra.
Qed.

(** *** What the damping loop returns *)
Definition damp_post (sys : S) (x dx : X) (nd : R) (d : dres X V) : Prop :=
  if d_limit _ _ d then d_linok _ _ d = true /\ d_succ _ _ d = false
  else
    lambda_min < d_lam _ _ d <= 1 /\
    d_xkp1 _ _ d = xadd x (xscal (d_lam _ _ d) dx) /\ d_f _ _ d = rhs sys (d_xkp1 _ _ d) /\
    solve sys (vneg (d_f _ _ d)) = (d_dxbar _ _ d, d_linok _ _ d) /\
    (d_linok _ _ d = true -> if restricted then nrm (d_dxbar _ _ d) / nd <= 1 - d_lam _ _ d / 4
                             else nrm (d_dxbar _ _ d) / nd < 1) /\
    (d_linok _ _ d = false -> d_succ _ _ d = false) /\
    (d_succ _ _ d = true -> d_lam _ _ d = 1 /\ nrm (d_dxbar _ _ d) <= tol).
Lemma damp_ok : forall n sys x dx nd lam r xk db th qn f tr d, lam <= 1 -> lambda_min <= 1 ->
  (forall l, In l tr -> lambda_min < l <= 1) ->
  damp n sys x dx nd lam r xk db th qn f tr = Some d ->
  damp_post sys x dx nd d /\ (forall l, In l (d_trials _ _ d) -> lambda_min < l <= 1) /\
  (length (d_trials _ _ d) <= length tr + n)%nat.
Proof.
  induction n; intros * L1 LM TR H; [discriminate|].
  cbn [NewtonModel.damp] in H.
  destruct (Rleb lam lambda_min) eqn:L.
  { inversion H. subst d. unfold damp_post. cbn. split; [auto|]. split; [exact TR|lia]. }
  apply Rleb_false in L.
  assert (TR' : forall l, In l (lam :: tr) -> lambda_min < l <= 1) by (intros l [<-|I]; auto).
  destruct (solve sys _) as [db' [|]] eqn:SO.
  2:{ inversion H. subst d. unfold damp_post. cbn. split; [|split; [exact TR'|lia]].
      repeat split; auto; try lra; discriminate. }
  cbv zeta in H.
  destruct (negb restricted && Rleb 1 (nrm db' / nd) || restricted && Rltb (1 - lam / 4) (nrm db' / nd)) eqn:T.
  - apply IHn in H; auto.
    + destruct H as [P [Q W]]. split; [exact P|]. split; [exact Q|]. simpl in W. lia.
    + match goal with |- Rmax (minf ?a ?m) _ <= _ => pose proof (minf_le_l a m) as Q end.
      apply Rmax_lub; lra.
  - assert (TT : if restricted then nrm db' / nd <= 1 - lam / 4 else nrm db' / nd < 1).
    { apply orb_false_iff in T. destruct T as [T1 T2]. destruct restricted; cbn in T1, T2.
      - now apply Rltb_false in T2. - now apply Rleb_false in T1. }
    destruct (is_one lam && is_one _) eqn:O.
    + apply andb_true_iff in O. destruct O as [O _]. apply is_one_spec in O.
      destruct (Rleb (nrm db') tol) eqn:C; inversion H; subst d; unfold damp_post; cbn;
        (split; [|split; [exact TR'|lia]]); repeat split; auto; try lra; try discriminate; now apply Rleb_spec in C.
    + destruct (Rleb (4 * lam) _ && negb r).
      * apply IHn in H; auto; [|apply minf_le_l].
        destruct H as [P [Q W]]. split; [exact P|]. split; [exact Q|]. simpl in W. lia.
      * inversion H; subst d; unfold damp_post; cbn;
        (split; [|split; [exact TR'|lia]]); repeat split; auto; try lra; discriminate.
Qed.

(** *** QNERR *)
Lemma qn_terminates : forall fuel qm itr sys x skip k dxs sigs nd d0, (k <= qm + 1)%nat -> (qm + 2 <= fuel + k)%nat ->
  exists x' ok k' nd', qn_loop fuel qm itr sys x skip k dxs sigs nd d0 = Some (x', ok, k', nd') /\ (k' <= qm + 1)%nat.
Proof.
  induction fuel; intros * K F; [lia|].
  cbn [NewtonModel.qn_loop]. destruct (Nat.leb k qm) eqn:L.
  2:{ apply Nat.leb_gt in L. repeat eexists; lia. }
  apply Nat.leb_le in L.
  destruct (negb skip && _); [repeat eexists; lia|].
  destruct (solve sys _) as [v [|]]; [|repeat eexists; lia]. cbv zeta.
  destruct (_ || _); [repeat eexists; lia|].
  apply IHfuel; lia.
Qed.
(** The last step of a successful run, when the entries agree. *)
Lemma qn_success : forall fuel qm itr sys x skip k dxs sigs nd d0 x' k' nd',
  length dxs = Datatypes.S k -> length sigs = Datatypes.S k ->
  (forall i, (i <= k)%nat -> nth i sigs 0 = ip (nth i dxs d0) (nth i dxs d0)) -> nd = sqrt (nth k sigs 0) ->
  qn_loop fuel qm itr sys x skip k dxs sigs nd d0 = Some (x', true, k', nd') ->
  exists x0 d, x' = xadd x0 d /\ ip d d <= tol * tol /\ nd' = sqrt (ip d d).
Proof.
  induction fuel; intros * D SG ALL ND H; [discriminate|].
  cbn [NewtonModel.qn_loop] in H. destruct (Nat.leb k qm) eqn:L; [|discriminate].
  destruct (negb skip && _) eqn:C.
  - apply andb_true_iff in C. destruct C as [C1 C2]. apply Rleb_spec in C2.
    destruct skip; [discriminate|]. inversion H; subst.
    exists x, (nth k dxs d0). rewrite <- ALL by lia. auto.
  - destruct (solve sys _) as [v [|]]; [|discriminate]. cbv zeta in H.
    destruct (_ || _); [discriminate|].
    apply IHfuel in H; auto.
    + rewrite app_length. simpl. lia.
    + rewrite app_length. simpl. lia.
    + intros i I. destruct (Nat.eq_dec i (Datatypes.S k)) as [->|NE].
      * rewrite !app_nth2 by lia. rewrite D, SG, Nat.sub_diag. reflexivity.
      * rewrite !app_nth1 by lia. apply ALL. lia.
    + rewrite app_nth2 by lia. rewrite SG, Nat.sub_diag. reflexivity.
Qed.
Lemma qnerr_nleq_ok qm itr sys x dx0 : exists x' ok k' nd', qnerr_nleq qm itr sys x dx0 = Some (x', ok, k', nd') /\
  (k' <= qm + 1)%nat /\ (ok = true -> exists x0 d, x' = xadd x0 d /\ nrm d <= Rabs tol /\ nd' = nrm d).
Proof.
  unfold NewtonModel.qnerr_nleq.
  destruct (qn_terminates (qm + 2) qm itr sys x true 0 [dx0] [ip dx0 dx0] (nrm dx0) dx0) as [x' [ok [k' [nd' [E K]]]]]; [lia|lia|].
  exists x', ok, k', nd'. split; [exact E|]. split; [exact K|]. intros ->.
  apply qn_success in E; auto.
  - destruct E as [x0 [d [A [B C]]]]. exists x0, d. split; [exact A|]. split; [|exact C].
    unfold NewtonModel.nrm. rewrite <- sqrt_Rsqr_abs. apply sqrt_le_1_alt. exact B.
  - intros i I. now replace i with 0%nat by lia.
Qed.

(** *** NLEQ-ERR *)
(** A step x -> x + dx with the correction of the linearisation at x0
    (x0 = x for the Newton correction, x0 the iterate before x for the
    simplified one). *)
Definition final_step (x' : X) : Prop :=
  exists x dx, x' = xadd x dx /\ nrm dx <= tol /\
    ((exists s, solve (mksys x) (vneg (rhs s x)) = (dx, true)) \/
     (exists x0 dx0 f0, solve (mksys x0) (vneg f0) = (dx0, true) /\ x = xadd x0 (xscal 1 dx0) /\
        solve (mksys x0) (vneg (rhs (mksys x0) x)) = (dx, true))).
Definition good_acc (a : R * R * R * bool) : Prop :=
  let '(lam, nd, nb, _) := a in lambda_min < lam <= 1 /\ tol < nd /\ (if restricted then nb / nd <= 1 - lam / 4 else nb / nd < 1).

Definition nleq_post (dfuel : nat) (r : nres X) : Prop :=
  (r_succ r = true -> final_step (r_x r)) /\ (r_succ r = true <-> r_why r = Converged \/ r_why r = ConvergedBar) /\
  (r_k r <= miter + 2)%nat /\ (use_qnerr = false -> (r_k r <= miter)%nat) /\
  (forall l, In l (r_trials r) -> lambda_min < l <= 1) /\ (forall a, In a (r_acc r) -> good_acc a) /\
  (r_why r = MaxIter -> (miter <= r_k r)%nat) /\
  (length (r_trials r) <= r_neval r * dfuel)%nat /\ (r_neval r <= miter)%nat.

Local Ltac fin := repeat match goal with |- _ /\ _ => split | |- _ <-> _ => split end; auto; try discriminate; try lia;
  try (intros [?|?]; discriminate).
Lemma nleq_loop_ok dfuel : lambda_min <= 1 ->
  (forall sys x dx nd lam xk db th qn f tr, lam <= 1 -> damp dfuel sys x dx nd lam false xk db th qn f tr <> None) ->
  forall fuel x own arg k lam dx dxbar f nd qn ne tr acc,
  (k <= miter + 2)%nat -> (use_qnerr = false -> (k <= miter)%nat) -> (miter + 1 <= fuel + k)%nat -> (ne <= k)%nat -> (1 <= fuel)%nat ->
  lam <= 1 -> (0 < k -> exists s, f = rhs s x)%nat -> (length tr <= ne * dfuel)%nat -> (ne <= miter)%nat ->
  (forall l, In l tr -> lambda_min < l <= 1) -> (forall a, In a acc -> good_acc a) ->
  exists r, nleq_loop fuel dfuel x own arg k lam dx dxbar f nd qn ne tr acc = Some r /\ nleq_post dfuel r.
Proof.
  intros LM DT. induction fuel; intros * K KQ F NE F1 L1 RF LT NM TR AC; [lia|].
  cbn [NewtonModel.nleq_loop]. destruct (Nat.leb miter k) eqn:LK.
  { apply Nat.leb_le in LK. eexists. split; [reflexivity|]. unfold nleq_post. cbn.
    fin. }
  apply Nat.leb_gt in LK.
  set (fk := if Nat.eqb k 0 then rhs (mksys x) x else f).
  assert (FK : exists s, fk = rhs s x).
  { unfold fk. destruct (Nat.eqb_spec k 0); [eauto|apply RF; lia]. }
  destruct (solve (mksys x) (vneg fk)) as [dx' [|]] eqn:SO.
  2:{ eexists. split; [reflexivity|]. unfold nleq_post. cbn.
      fin. }
  cbv zeta. destruct (Rleb (nrm dx') tol) eqn:CV.
  { apply Rleb_spec in CV. eexists. split; [reflexivity|]. unfold nleq_post. cbn.
    fin.
    intros _. exists x, dx'. split; [reflexivity|]. split; [exact CV|]. left.
    destruct FK as [s FS]. exists s. rewrite <- FS. exact SO. }
  match goal with |- context [damp dfuel (mksys x) x dx' (nrm dx') ?l false x dxbar 0 qn fk tr] => set (lam' := l) end.
  assert (L' : lam' <= 1). { unfold lam'. destruct (Nat.eqb k 0); [exact L1|apply minf_le_l]. }
  destruct (damp dfuel (mksys x) x dx' (nrm dx') lam' false x dxbar 0 qn fk tr) as [d|] eqn:D.
  2:{ exfalso. exact (DT _ _ _ _ _ _ _ _ _ _ _ L' D). }
  destruct (damp_ok _ _ _ _ _ _ _ _ _ _ _ _ _ _ L' LM TR D) as [P [TR' LT']].
  assert (LT2 : (length (d_trials _ _ d) <= (ne + 1) * dfuel)%nat) by nia.
  destruct (d_linok _ _ d) eqn:LO; cbn [negb].
  2:{ eexists. split; [reflexivity|]. unfold nleq_post. cbn.
      fin. }
  unfold damp_post in P. destruct (d_limit _ _ d).
  { eexists. split; [reflexivity|]. unfold nleq_post. cbn.
    fin. }
  destruct P as [P1 [P2 [P3 [P4 [P5 [P6 P7]]]]]].
  assert (GA : forall q, good_acc (d_lam _ _ d, nrm dx', nrm (d_dxbar _ _ d), q)).
  { intros q. unfold good_acc. split; [exact P1|]. split; [now apply Rleb_false|]. apply P5. exact LO. }
  destruct (callback _ _ _ _ _); cbn [negb].
  2:{ eexists. split; [reflexivity|]. unfold nleq_post. cbn.
      fin. }
  destruct (d_succ _ _ d) eqn:DS.
  { destruct (P7 eq_refl) as [Q1 Q2]. eexists. split; [reflexivity|]. unfold nleq_post. cbn.
    fin.
    - intros _. exists (d_xkp1 _ _ d), (d_dxbar _ _ d). split; [reflexivity|]. split; [exact Q2|]. right.
      exists x, dx', fk. split; [exact SO|]. split; [rewrite P2, Q1; reflexivity|]. rewrite <- P3, P4, LO. reflexivity.
    - intros a [<-|I]; auto. }
  destruct (d_qn _ _ d && use_qnerr) eqn:DQ.
  - destruct (qnerr_nleq_ok (miter - (k + 1) + 1) (k + 1) (mksys x) (d_xkp1 _ _ d) dx') as [x' [ok [k' [nd' [E [K' _]]]]]].
    rewrite E. apply andb_true_iff in DQ. destruct DQ as [_ DQ].
    apply IHfuel; try lia; auto; try lra; try congruence.
    + eauto.
    + intros a [<-|I]; auto.
  - apply IHfuel; try lia; auto; try lra.
    + eauto.
    + intros a [<-|I]; auto.
Qed.

(** Both loops end, for every behaviour of the solver. *)
Lemma damp_fuel a : 0 < lambda_min -> 1 <= lambda_min * 4 ^ a ->
  forall sys x dx nd lam xk db th qn f tr, lam <= 1 -> damp (3 * a + 2) sys x dx nd lam false xk db th qn f tr <> None.
Proof.
  intros P A * L. replace (3 * a + 2)%nat with (a + 2 * a + 2)%nat by lia.
  apply damp_terminates; [|exact L|].
  - rewrite pow_mult. replace (2 ^ 2) with 4 by ring. exact A.
  - destruct (Rle_or_lt lam lambda_min); [now right|left].
    assert (0 < 4 ^ a) by (apply pow_lt; lra). nra.
Qed.
Lemma nleq_err_ok a lam0 x : 0 < lambda_min <= 1 -> 1 <= lambda_min * 4 ^ a -> lam0 <= 1 ->
  exists r, nleq_err (3 * a + 2) lam0 x = Some r /\ nleq_post (3 * a + 2) r.
Proof.
  intros P A L. unfold NewtonModel.nleq_err.
  apply nleq_loop_ok; auto; try lra; try lia; cbn; try easy; try lia.
  apply damp_fuel; tauto.
Qed.
Lemma nleq_loop_mono dfuel m : forall fuel x own arg k lam dx dxbar f nd qn ne tr acc r,
  nleq_loop fuel dfuel x own arg k lam dx dxbar f nd qn ne tr acc = Some r ->
  nleq_loop fuel (dfuel + m) x own arg k lam dx dxbar f nd qn ne tr acc = Some r.
Proof.
  induction fuel; intros * H; [discriminate|].
  cbn [NewtonModel.nleq_loop] in *. destruct (Nat.leb miter k); [exact H|].
  destruct (solve (mksys x) _) as [dx' [|]]; [|exact H]. cbv zeta in *.
  destruct (Rleb (nrm dx') tol); [exact H|].
  match type of H with context [damp ?a ?b ?c ?d ?e ?g ?h ?i ?j ?kk ?l ?mm ?n] =>
    destruct (damp a b c d e g h i j kk l mm n) as [dd|] eqn:D end; [|discriminate].
  rewrite (damp_mono _ _ _ _ _ _ _ _ _ _ _ _ _ _ D).
  destruct (negb _); [exact H|]. destruct (d_limit _ _ dd); [exact H|].
  destruct (negb _); [exact H|]. destruct (d_succ _ _ dd); [exact H|].
  destruct (_ && use_qnerr); [|now apply IHfuel].
  destruct (qnerr_nleq _ _ _ _ _) as [[[[x2 ok] kp] nq]|]; [|discriminate]. now apply IHfuel.
Qed.
(** The main statement about NLEQ-ERR. *)
Lemma nleq_err_stops a lam0 x : 0 <= tol -> 0 < lambda_min <= 1 -> 1 <= lambda_min * 4 ^ a -> lam0 <= 1 ->
  exists r, (forall m, nleq_err (3 * a + 2 + m) lam0 x = Some r) /\
    (r_k r <= miter + 2)%nat /\ (use_qnerr = false -> (r_k r <= miter)%nat) /\ (r_neval r <= miter)%nat /\
    (length (r_trials r) <= miter * (3 * a + 2))%nat /\
    (forall l, In l (r_trials r) -> lambda_min < l <= 1) /\
    (forall lam nd nb q, In (lam, nd, nb, q) (r_acc r) -> lambda_min < lam <= 1 /\ tol < nd /\
       if restricted then nb <= (1 - lam / 4) * nd else nb < nd) /\
    (r_succ r = true <-> r_why r = Converged \/ r_why r = ConvergedBar) /\
    (r_why r = MaxIter -> (miter <= r_k r)%nat) /\
    (r_succ r = true ->
     exists y dy, r_x r = xadd y dy /\ sqrt (ip dy dy) <= tol /\
       ((exists s, solve (mksys y) (vneg (rhs s y)) = (dy, true)) \/
        (exists y0 dy0 f0, solve (mksys y0) (vneg f0) = (dy0, true) /\ y = xadd y0 (xscal 1 dy0) /\
           solve (mksys y0) (vneg (rhs (mksys y0) y)) = (dy, true)))).
Proof.
  intros T P A L. destruct (nleq_err_ok a lam0 x P A L) as [r [E Q]]. exists r.
  destruct Q as [Q1 [Q2 [Q3 [Q4 [Q5 [Q6 [Q7 [Q8 Q9]]]]]]]].
  split; [intros m; apply nleq_loop_mono; exact E|].
  split; [exact Q3|]. split; [exact Q4|]. split; [exact Q9|]. split; [nia|]. split; [exact Q5|].
  split; [|split; [exact Q2|split; [exact Q7|exact Q1]]].
  intros lam nd nb q I. destruct (Q6 _ I) as [A1 [A2 A3]]. split; [exact A1|]. split; [exact A2|].
  destruct restricted; cbn in A3.
  - apply (Rmult_le_compat_r nd) in A3; [|lra]. unfold Rdiv in A3 at 1. rewrite Rmult_assoc, Rinv_l in A3; lra.
  - apply (Rmult_lt_compat_r nd) in A3; [|lra]. unfold Rdiv in A3 at 1. rewrite Rmult_assoc, Rinv_l in A3; lra.
Qed.
(** *** QNERR on its own and under NLEQ-ERR *)
Lemma qnerr_nleq_stops qm itr sys x dx0 : 0 <= tol -> exists x' ok k' nd', qnerr_nleq qm itr sys x dx0 = Some (x', ok, k', nd') /\
  (k' <= qm + 1)%nat /\ (ok = true -> exists x0 d, x' = xadd x0 d /\ sqrt (ip d d) <= tol /\ nd' = sqrt (ip d d)).
Proof.
  intros T. destruct (qnerr_nleq_ok qm itr sys x dx0) as [x' [ok [k' [nd' [E [K S']]]]]].
  exists x', ok, k', nd'. split; [exact E|]. split; [exact K|]. rewrite (Rabs_pos_eq _ T) in S'. exact S'.
Qed.

(** *** newton_standard *)
Notation std_loop := (std_loop X V S mksys rhs solve vneg xadd ip callback tol).
Lemma std_ok : forall fuel x k nd,
  match std_loop fuel x k nd with
  | Raises => exists y, snd (solve (mksys y) (vneg (rhs (mksys y) y))) = false
  | Returns x' succ k' nd' arg =>
      (k' <= k + fuel)%nat /\ arg = x' /\
      (succ = true -> exists y dy, solve (mksys y) (vneg (rhs (mksys y) y)) = (dy, true) /\ nrm dy <= tol /\
         nd' = nrm dy /\ x' = xadd y dy) /\
      (succ = false -> k' = (k + fuel)%nat \/ exists y dy, solve (mksys y) (vneg (rhs (mksys y) y)) = (dy, true) /\
         callback (mksys y) k' dy (nrm dy) 0 = false)
  end.
Proof.
  induction fuel; intros x k nd; cbn [NewtonModel.std_loop].
  - split; [lia|]. split; [reflexivity|]. split; [discriminate|]. intros _. left. lia.
  - destruct (solve (mksys x) (vneg (rhs (mksys x) x))) as [dx [|]] eqn:E; [|exists x; now rewrite E].
    cbv zeta. destruct (Rleb (nrm dx) tol) eqn:C.
    + apply Rleb_spec in C. split; [lia|]. split; [reflexivity|]. split; [|discriminate]. intros _. exists x, dx. auto.
    + destruct (callback _ _ _ _ _) eqn:CB.
      * specialize (IHfuel (xadd x dx) (k + 1)%nat (nrm dx)).
        destruct (std_loop fuel _ _ _); [exact IHfuel|]. destruct IHfuel as [A [B [CC D]]].
        split; [lia|]. split; [exact B|]. split; [exact CC|]. intros F. destruct (D F); [left; lia|now right].
      * split; [lia|]. split; [reflexivity|]. split; [discriminate|]. intros _. right. exists x, dx. auto.
Qed.
End P.
