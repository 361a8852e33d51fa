(** GBIT with an exact guess; proofs about GIANT-GBIT. *)
From Coq Require Import Reals List Arith Bool Lra Lia.
From Coquelicot Require Import Coquelicot.
From Verif Require Import Base ChebModel NewtonModel NewtonSpec NewtonProofs NewtonBroyden GbitModel GbitProofs NewtonEx.
Import ListNotations.
Open Scope R_scope.

Section E.
Context {X V : ModuleSpace R_Ring}.
Variables (A : X -> V) (P : V -> X) (ip : X -> X -> R).
Hypotheses (LA : linmap A) (LP : linmap P) (IP : inner ip).
Variables (max_iter i_max : nat) (rho tol tau_min tau_max epsilon_limit : R).
Notation gz := (gz X plus minus scal ip).
Notation gb_inner := (gb_inner X V A P plus minus scal ip max_iter i_max rho tol tau_min tau_max epsilon_limit).
Notation gb_outer := (gb_outer X V A P minus plus minus scal ip max_iter i_max rho tol tau_min tau_max epsilon_limit).
Notation gbit := (gbit X V A P minus plus minus scal ip max_iter i_max rho tol tau_min tau_max epsilon_limit).

Lemma minus_self {Y : ModuleSpace R_Ring} (u : Y) : minus u u = zero.
Proof. apply plus_opp_r. Qed.
Lemma gz_zero : forall (ds : list X) ss ts, (forall d : X, In d ds -> d = zero) -> gz zero ds ss ts = zero.
Proof.
  induction ds as [|a [|b t] IH]; intros [|s st] [|t0 tt0] Z; try reflexivity.
  transitivity (gz (plus zero (scal (ip a zero / s) (minus b (scal (1 - t0) a)))) (b :: t) st tt0); [reflexivity|].
  assert (Q : plus zero (scal (ip a zero / s) (minus b (scal (1 - t0) a))) = zero).
  { rewrite (Z a), (Z b) by (cbn; auto). rewrite scal_zero_r, minus_self, scal_zero_r. apply plus_zero_l. }
  rewrite Q. apply IH. intros d I. apply Z. now right.
Qed.
Lemma nth_zero (ds : list X) i : (forall d : X, In d ds -> d = zero) -> @nth X i ds zero = zero.
Proof.
  intros Z. destruct (Nat.lt_ge_cases i (length ds)) as [L|L]; [apply Z, nth_In, L|now apply nth_overflow].
Qed.
Lemma nth_zero_r ss i : (forall d, In d ss -> d = 0) -> nth i ss 0 = 0.
Proof.
  intros Z. destruct (Nat.lt_ge_cases i (length ss)) as [L|L]; [apply Z, nth_In, L|now apply nth_overflow].
Qed.
Lemma ip00 : ip zero zero = 0.
Proof. apply (ip_0_l ip IP). Qed.

(** One inner step at an exact solution. *)
Lemma inner_exact_simple : tau_min <= 2 * tau_max -> 0 <= epsilon_limit ->
  forall fuel (y : X) (ds : list X) ss ts i iter y' st it, (forall d : X, In d ds -> d = zero) -> (forall s, In s ss -> s = 0) ->
  gb_inner true fuel y y ds ss ts i iter zero = Some (y', st, it) -> y' = y /\ st = false.
Proof.
  intros TT EL. induction fuel; intros * ZD ZS E; [discriminate|].
  cbn [GbitModel.gb_inner] in E. destruct (Nat.leb i i_max && Nat.leb iter max_iter); [|split; congruence].
  cbv zeta in E.
  rewrite (nth_zero ds i ZD) in E.
  rewrite (lm_zero A LA), (lm_zero P LP), (gz_zero ds ss ts ZD) in E. rewrite ip00 in E.
  rewrite (proj2 (Reqb0_spec 0) eq_refl) in E.
  rewrite (proj2 (Rltb_false _ _) TT) in E. cbn [andb] in E.
  set (t := if Rleb (2 * tau_max) tau_max then 2 * tau_max else 1) in *.
  rewrite (scal_zero_r t), plus_zero_r, !scal_zero_r, !minus_self, ip00 in E.
  unfold gnrm in E. rewrite ip00, sqrt_0, (proj2 (Reqb0_spec 0) eq_refl) in E.
  match type of E with (if Rltb _ ?e then _ else _) = _ => assert (Q : e = 0) end.
  { destruct i; [now rewrite Rabs_R0, sqrt_0|]. rewrite !(nth_zero_r ss) by exact ZS.
    replace (0 + 2 * 0 + 0) with 0 by ring. rewrite Rabs_R0, sqrt_0. ring. }
  rewrite Q, (proj2 (Rltb_false _ _) EL) in E.
  apply IHfuel in E; [exact E| |].
  - intros d I. apply in_app_or in I. destruct I as [I|[I|[]]]; auto.
  - intros d I. apply in_app_or in I. destruct I as [I|[I|[]]]; auto.
Qed.
Lemma outer_exact_simple b y : tau_min <= 2 * tau_max -> 0 <= epsilon_limit -> A y = b ->
  forall fuel iter y' ok it, gb_outer true fuel b y y iter = Some (y', ok, it) -> y' = y /\ ok = false.
Proof.
  intros TT EL AY. induction fuel; intros * E; [discriminate|]. cbn [GbitModel.gb_outer] in E. cbv zeta in E.
  rewrite AY, minus_self, (lm_zero P LP), ip00 in E.
  match type of E with match ?c with _ => _ end = _ => destruct c as [[[y1 st] it1]|] eqn:I end; [|discriminate].
  apply inner_exact_simple in I; auto.
  - destruct I as [-> ->]. cbn [orb andb] in E. destruct (Nat.leb max_iter it1); [split; congruence|].
    eapply IHfuel, E.
  - intros d [D|[]]; auto.
  - intros d [D|[]]; auto.
Qed.
Lemma gbit_exact_guess_simple b y : tau_min <= 2 * tau_max -> 0 <= epsilon_limit -> A y = b ->
  exists it, gbit true b y = Some (y, false, it).
Proof.
  intros TT EL AY.
  destruct (gbit_ends X V A P minus plus minus scal ip max_iter i_max rho tol tau_min tau_max epsilon_limit true b y)
    as [y' [ok [it [E _]]]].
  pose proof E as E'. unfold GbitModel.gbit in E'. apply outer_exact_simple in E'; auto. destruct E' as [-> ->]. now exists it.
Qed.
(** The other criterion accepts an exact guess at once. *)
Lemma gbit_exact_guess b y : tau_min <= 2 * tau_max -> 0 <= rho -> 0 <= tol -> (2 <= max_iter)%nat -> A y = b ->
  gbit false b y = Some (y, true, 1%nat).
Proof.
  intros TT R0 T0 M AY. unfold GbitModel.gbit. rewrite Nat.add_comm. cbn [Nat.add GbitModel.gb_outer]. cbv zeta.
  rewrite AY, minus_self, (lm_zero P LP), ip00. rewrite (Nat.add_comm i_max). cbn [Nat.add GbitModel.gb_inner].
  cbn [Nat.leb andb nth GbitModel.gz]. cbv zeta. rewrite (lm_zero A LA), (lm_zero P LP), ip00.
  rewrite (proj2 (Reqb0_spec 0) eq_refl). rewrite (proj2 (Rltb_false _ _) TT). cbn [andb].
  set (t := if Rleb (2 * tau_max) tau_max then 2 * tau_max else 1).
  rewrite (scal_zero_r t), plus_zero_r, !scal_zero_r, !minus_self, ip00, Rabs_R0, sqrt_0.
  rewrite (proj2 (Rleb_spec _ _)).
  - cbn [orb andb]. rewrite (proj2 (Nat.ltb_lt 1 max_iter)) by lia. reflexivity.
  - apply Rmult_le_pos; [apply Rmult_le_pos; [exact R0|apply sqrt_pos]|exact T0].
Qed.
End E.

(** *** GIANT *)
Section G.
Variables X V S : Type.
Variables (mksys : X -> S) (rhs : S -> X -> V) (vneg : V -> V).
Variable lin : S -> V -> X -> R -> bool -> X * bool.
Variables (xadd xsub : X -> X -> X) (xscal : R -> X -> X) (ip : X -> X -> R) (x_zero : X).
Variables (xtol lambda_min rho precision delta_bar : R) (restricted quadratic : bool) (max_iter : nat).
Notation adapt := (adapt X V S rhs vneg lin xadd xsub xscal ip xtol lambda_min rho precision restricted).
Notation giant_loop := (giant_loop X V S mksys rhs vneg lin xadd xsub xscal ip xtol lambda_min rho precision delta_bar
                          restricted quadratic max_iter).
Notation giant_gbit := (giant_gbit X V S mksys rhs vneg lin xadd xsub xscal ip x_zero xtol lambda_min rho precision delta_bar
                          restricted quadratic max_iter).
Notation gnrm := (gnrm X ip).

Lemma adapt_reducted : 0 < lambda_min -> forall b sys x dx nd lam tr, lam <= lambda_min * 2 ^ b ->
  adapt (b + 2) sys x dx nd lam true tr <> AFuel X V.
Proof.
  intros LP. induction b; intros * H.
  - cbn [Nat.add GbitModel.adapt]. destruct (Rltb lam lambda_min) eqn:L; [discriminate|].
    apply Rltb_false in L. destruct (lin _ _ _ _ _) as [db [|]]; [|discriminate]. cbv zeta.
    destruct (Reqb0 _); [discriminate|]. destruct (Reqb0 _); [discriminate|].
    destruct (_ || _).
    + rewrite (proj2 (Rleb_spec lam lambda_min)) by (cbn [pow] in H; lra).
      match goal with |- context [Rltb ?a lambda_min] => rewrite (proj2 (Rltb_spec a lambda_min)) end; [discriminate|].
      eapply Rle_lt_trans; [apply Rmin_r|]. cbn [pow] in H. lra.
    + destruct (_ && is_one _); [discriminate|]. rewrite andb_false_r. discriminate.
  - remember (b + 2)%nat as n. replace (Datatypes.S b + 2)%nat with (Datatypes.S n) by lia.
    cbn [GbitModel.adapt]. destruct (Rltb lam lambda_min) eqn:L; [discriminate|].
    apply Rltb_false in L. destruct (lin _ _ _ _ _) as [db [|]]; [|discriminate]. cbv zeta.
    destruct (Reqb0 _); [discriminate|]. destruct (Reqb0 _); [discriminate|].
    destruct (_ || _).
    + subst n. apply IHb. assert (1 <= 2 ^ b) by (clear; induction b; simpl; lra). cbn [pow] in H.
      match goal with |- (if _ then Rmin ?a ?c else _) <= _ => pose proof (Rmin_r a c) as Q end.
      destruct (Rleb lam lambda_min); [nra|]. apply Rmax_lub; nra.
    + destruct (_ && is_one _); [discriminate|]. rewrite andb_false_r. discriminate.
Qed.
Lemma adapt_terminates b : 0 < lambda_min -> 1 <= lambda_min * 2 ^ b ->
  forall a sys x dx nd lam tr, lam <= 1 -> 1 <= lam * 4 ^ a \/ lam < lambda_min ->
  adapt (a + b + 3) sys x dx nd lam false tr <> AFuel X V.
Proof.
  intros LP B. induction a; intros * L1 AA.
  - cbn [Nat.add]. rewrite Nat.add_comm. cbn [Nat.add].
    remember (Datatypes.S (Datatypes.S b)) as n. cbn [GbitModel.adapt].
    destruct (Rltb lam lambda_min) eqn:L; [discriminate|]. apply Rltb_false in L.
    destruct AA as [AA|AA]; [|lra].
    destruct (lin _ _ _ _ _) as [db [|]]; [|discriminate]. cbv zeta.
    destruct (Reqb0 _); [discriminate|]. destruct (Reqb0 _); [discriminate|].
    destruct (_ || _).
    + subst n. replace (Datatypes.S (Datatypes.S b)) with (b + 2)%nat by lia. apply adapt_reducted; [exact LP|].
      match goal with |- (if _ then Rmin ?a ?c else _) <= _ => pose proof (Rmin_r a c) as Q end.
      destruct (Rleb lam lambda_min); [nra|]. apply Rmax_lub; nra.
    + destruct (_ && is_one _); [discriminate|].
      match goal with |- context [Rleb (4 * lam) (Rmin 1 ?c)] => pose proof (Rmin_l 1 c) as Q end.
      rewrite (proj2 (Rleb_false (4 * lam) _)) by (cbn [pow] in AA; lra). discriminate.
  - replace (Datatypes.S a + b + 3)%nat with (Datatypes.S (a + b + 3)) by lia.
    remember (a + b + 3)%nat as n. cbn [GbitModel.adapt].
    destruct (Rltb lam lambda_min) eqn:L; [discriminate|]. apply Rltb_false in L.
    destruct AA as [AA|AA]; [|lra].
    destruct (lin _ _ _ _ _) as [db [|]]; [|discriminate]. cbv zeta.
    destruct (Reqb0 _); [discriminate|]. destruct (Reqb0 _); [discriminate|].
    destruct (_ || _).
    + subst n. replace (a + b + 3)%nat with ((b + (a + 1)) + 2)%nat by lia. apply adapt_reducted; [exact LP|].
      match goal with |- (if _ then Rmin ?a ?c else _) <= _ => pose proof (Rmin_r a c) as Q end.
      assert (1 <= lambda_min * 2 ^ (b + (a + 1))).
      { rewrite pow_add. assert (1 <= 2 ^ (a + 1)) by (clear; induction (a + 1)%nat; simpl; lra). nra. }
      destruct (Rleb lam lambda_min); [nra|]. apply Rmax_lub; nra.
    + destruct (_ && is_one _); [discriminate|].
      destruct (Rleb (4 * lam) _ && negb false) eqn:G; [|discriminate].
      apply andb_true_iff in G. destruct G as [G _]. apply Rleb_spec in G.
      subst n. apply IHa; [apply Rmin_l|]. left.
      assert (0 < 4 ^ a) by (apply pow_lt; lra). cbn [pow] in AA. nra.
Qed.

(** What the adaptation loop returns. *)
Definition adapt_post (sys : S) (x dx : X) (nd : R) (r : ares X V) : Prop :=
  match r with
  | ADone succ lam hk xk db f tr =>
      lambda_min <= lam <= 1 /\ xk = xadd x (xscal lam dx) /\ f = rhs sys xk /\
      lin sys (vneg f) (xscal (1 - lam) dx) (rhobar_max rho) true = (db, true) /\
      (if restricted then gnrm db / nd <= 1 - / 4 * lam else gnrm db / nd < 1) /\
      (succ = true -> lam = 1 /\ gnrm db <= xtol) /\ (forall l, In l tr -> lambda_min <= l <= 1)
  | AFail tr => forall l, In l tr -> lambda_min <= l <= 1
  | _ => True
  end.
Lemma adapt_ok : lambda_min <= 1 -> forall n sys x dx nd lam r tr, lam <= 1 -> (forall l, In l tr -> lambda_min <= l <= 1) ->
  adapt_post sys x dx nd (adapt n sys x dx nd lam r tr).
Proof.
  intros LM. induction n; intros * L1 TR; [exact I|].
  cbn [GbitModel.adapt]. destruct (Rltb lam lambda_min) eqn:L; [exact TR|]. apply Rltb_false in L.
  assert (TR' : forall l, In l (lam :: tr) -> lambda_min <= l <= 1) by (intros l [<-|I']; auto).
  destruct (lin sys (vneg (rhs sys (xadd x (xscal lam dx)))) (xscal (1 - lam) dx) (rhobar_max rho) true) as [db [|]] eqn:LI; [|exact TR'].
  cbv zeta. destruct (Reqb0 _); [exact I|]. destruct (Reqb0 _); [exact I|].
  destruct (negb restricted && Rleb 1 (gnrm db / nd) || restricted && Rltb (1 - / 4 * lam) (gnrm db / nd)) eqn:T.
  - apply IHn; [|exact TR'].
    match goal with |- (if _ then Rmin ?a ?c else _) <= _ => pose proof (Rmin_r a c) as Q end.
    destruct (Rleb lam lambda_min) eqn:LL; [|apply Rmax_lub; lra]. 
    destruct (Rle_or_lt 0 lam); [lra|]. apply Rleb_spec in LL. eapply Rle_trans; [exact Q|]. lra.
  - assert (TT : if restricted then gnrm db / nd <= 1 - / 4 * lam else gnrm db / nd < 1).
    { apply orb_false_iff in T. destruct T as [T1 T2]. destruct restricted; cbn in T1, T2.
      - now apply Rltb_false in T2. - now apply Rleb_false in T1. }
    destruct (is_one lam && is_one _) eqn:O.
    + apply andb_true_iff in O. destruct O as [O _]. apply is_one_spec in O.
      cbn [adapt_post]. split; [lra|]. split; [reflexivity|]. split; [reflexivity|]. split; [exact LI|]. split; [exact TT|].
      split; [|exact TR']. intros C. apply Rleb_spec in C. auto.
    + destruct (Rleb (4 * lam) _ && negb r).
      * apply IHn; [apply Rmin_l|exact TR'].
      * cbn [adapt_post]. split; [lra|]. split; [reflexivity|]. split; [reflexivity|]. split; [exact LI|]. split; [exact TT|].
        split; [discriminate|exact TR'].
Qed.

(** On success the returned state is y + dy where dy, of norm at most xtol, is
    the correction accepted by GBIT at y - or, when the second test fired, dy
    is the correction at the point y + dx, not at y. *)
Definition giant_final (by_dx : bool) (x' : X) : Prop :=
  if by_dx then exists y dy f g tl, x' = xadd y dy /\ gnrm dy <= xtol /\ (exists s, f = rhs s y) /\
                  lin (mksys y) (vneg f) g tl false = (dy, true)
  else exists y dx db f, x' = xadd y db /\ gnrm db <= xtol /\ xtol < gnrm dx /\
         (exists f0 g tl, lin (mksys y) (vneg f0) g tl false = (dx, true)) /\
         f = rhs (mksys y) (xadd y (xscal 1 dx)) /\
         lin (mksys y) (vneg f) (xscal (1 - 1) dx) (rhobar_max rho) true = (db, true).
Lemma giant_loop_ok dfuel : lambda_min <= 1 ->
  (forall sys x dx nd lam tr, lam <= 1 -> adapt dfuel sys x dx nd lam false tr <> AFuel X V) ->
  forall fuel x own arg k lam hk dx dxbar f njac tr,
  (k <= max_iter + 1)%nat -> (max_iter + 2 <= fuel + k)%nat -> (njac <= k)%nat -> lam <= 1 ->
  (0 < k -> exists s, f = rhs s x)%nat -> (forall l, In l tr -> lambda_min <= l <= 1) ->
  match giant_loop fuel dfuel x own arg k lam hk dx dxbar f njac tr with
  | GFuel => False
  | GRaise => True
  | GRet x' succ k' nj by_dx tr' arg' =>
      (k' <= max_iter + 1)%nat /\ (nj <= max_iter + 1)%nat /\ (forall l, In l tr' -> lambda_min <= l <= 1) /\
      (succ = true -> giant_final by_dx x')
  end.
Proof.
  intros LM AT. induction fuel; intros * K F NJ L1 RF TR; [lia|].
  cbn [GbitModel.giant_loop]. destruct (Nat.ltb max_iter k) eqn:LK.
  { split; [lia|]. apply Nat.ltb_lt in LK. split; [lia|]. split; [exact TR|discriminate]. }
  apply Nat.ltb_ge in LK.
  set (fk := if Nat.eqb k 0 then rhs (mksys x) x else f).
  assert (FK : exists s, fk = rhs s x).
  { unfold fk. destruct (Nat.eqb_spec k 0); [eauto|apply RF; lia]. }
  set (tol1 := if quadratic then / 4 else rho / (2 * (1 + rho))).
  assert (CONT : forall dx2 lam2 g tl, lam2 <= 1 -> lin (mksys x) (vneg fk) g tl false = (dx2, true) ->
    match (if Rleb (gnrm dx2) xtol
           then GRet (xadd x dx2) true (k + 1) (njac + 1) true tr (if own then xadd x dx2 else arg)
           else match adapt dfuel (mksys x) x dx2 (gnrm dx2) lam2 false tr with
                | AFuel => GFuel
                | ARaise => GRaise
                | AFail tr' => GRet x false k (njac + 1) false tr' arg
                | ADone true l h xk db f' tr' => GRet (xadd x db) true (k + 1) (njac + 1) false tr' (if own then xadd x db else arg)
                | ADone false l h xk db f' tr' => giant_loop fuel dfuel xk false arg (k + 1) l h dx2 db f' (njac + 1) tr'
                end) with
    | GFuel => False
    | GRaise => True
    | GRet x' succ k' nj by_dx tr' arg' =>
        (k' <= max_iter + 1)%nat /\ (nj <= max_iter + 1)%nat /\ (forall l, In l tr' -> lambda_min <= l <= 1) /\
        (succ = true -> giant_final by_dx x')
    end).
  { intros dx2 lam2 g tl L2 LI. destruct (Rleb (gnrm dx2) xtol) eqn:C.
    - apply Rleb_spec in C. split; [lia|]. split; [lia|]. split; [exact TR|]. intros _.
      exists x, dx2, fk, g, tl. auto.
    - apply Rleb_false in C. pose proof (adapt_ok LM dfuel (mksys x) x dx2 (gnrm dx2) lam2 false tr L2 TR) as Q.
      destruct (adapt dfuel (mksys x) x dx2 (gnrm dx2) lam2 false tr) as [| |tr'|[|] l h xk db f' tr'] eqn:D.
      + exact (AT _ _ _ _ _ _ L2 D).
      + exact I.
      + split; [lia|]. split; [lia|]. split; [exact Q|]. discriminate.
      + cbn [adapt_post] in Q. destruct Q as [Q1 [Q2 [Q3 [Q4 [Q5 [Q6 Q7]]]]]]. destruct (Q6 eq_refl) as [E1 E2]. subst l.
        split; [lia|]. split; [lia|]. split; [exact Q7|]. intros _.
        exists x, dx2, db, f'. split; [reflexivity|]. split; [exact E2|]. split; [exact C|].
        split; [eauto|]. split; [congruence|exact Q4].
      + cbn [adapt_post] in Q. destruct Q as [Q1 [Q2 [Q3 [Q4 [Q5 [Q6 Q7]]]]]].
        apply IHfuel; try lia; try lra; auto. intros _. eauto. }
  destruct (lin (mksys x) (vneg fk) dxbar tol1 false) as [dx1 [|]] eqn:LI.
  2:{ split; [lia|]. split; [lia|]. split; [exact TR|discriminate]. }
  cbv zeta. destruct (Nat.eqb k 0).
  { eapply CONT; [exact L1|exact LI]. }
  destruct (Reqb0 _ || Reqb0 _); [exact I|].
  destruct (is_one _).
  - match goal with |- context [lin (mksys x) (vneg fk) dx1 ?tt false] =>
      destruct (lin (mksys x) (vneg fk) dx1 tt false) as [dx2 [|]] eqn:LI2 end.
    2:{ split; [lia|]. split; [lia|]. split; [exact TR|discriminate]. }
    destruct (Reqb0 _); [exact I|]. eapply CONT; [apply Rmin_l|exact LI2].
  - eapply CONT; [apply Rmin_l|exact LI].
Qed.
Lemma giant_ok a lam0 x : 0 < lambda_min <= 1 -> 1 <= lambda_min * 4 ^ a -> lam0 <= 1 ->
  match giant_gbit (3 * a + 3) lam0 x with
  | GFuel => False
  | GRaise => True
  | GRet x' succ k' nj by_dx tr' arg' =>
      (k' <= max_iter + 1)%nat /\ (nj <= max_iter + 1)%nat /\ (forall l, In l tr' -> lambda_min <= l <= 1) /\
      (succ = true -> giant_final by_dx x')
  end.
Proof.
  intros P AA L. unfold GbitModel.giant_gbit.
  apply giant_loop_ok; auto; try lra; try lia.
  - intros sys y dx nd lam tr L1. replace (3 * a + 3)%nat with (a + 2 * a + 3)%nat by lia.
    apply adapt_terminates; [lra| |exact L1|].
    + rewrite pow_mult. replace (2 ^ 2) with 4 by ring. exact AA.
    + destruct (Rlt_or_le lam lambda_min); [now right|left].
      assert (0 < 4 ^ a) by (apply pow_lt; lra). nra.
  - cbn. easy.
Qed.
End G.
