(** C194: searching for several solutions with NewtonSeeker. *)
From Coq Require Import Reals List Arith Bool Lia Lra.
From Coquelicot Require Import Coquelicot.
From Verif Require Import Base ChebModel NewtonModel NewtonSpec NewtonProofs NewtonBroyden GbitModel GbitProofs NewtonEx GiantProofs GiantEx SeekerModel.
Import ListNotations.
Open Scope R_scope.

Section Spec.
Variable X : Type.
Variable dflt : X.
Variable run : nat -> list X -> X -> option (outcome X).
Notation step := (sk_step X dflt run).
Notation val := (obj X dflt).

(** ** specification: the solutions, as values, that the caller has reported or that solve has reported to be found *)
Definition learn_from (s : sk X) (e : event X) (L : list X) : list X :=
  match e, step s e with
  | EAppend l, _ => L ++ [val s l]
  | EAppendList ks, _ => L ++ map (fun k => val s (kloc k)) ks
  | ESolve _ _ _ true, (s', RSolved _ ret true _) => L ++ [val s' ret]
  | _, _ => L
  end.
(** every solve of the history works with the solutions learned before it *)
Fixpoint deflates_all (s : sk X) (L : list X) (es : list (event X)) : Prop :=
  match es with
  | [] => True
  | e :: t => (match snd (step s e) with RSolved given _ _ _ => given = L | _ => True end) /\
              deflates_all (fst (step s e)) (learn_from s e L) t
  end.
(** every solve with 'giant' and a solver that does not raise returns *)
Fixpoint never_raises (s : sk X) (es : list (event X)) : Prop :=
  match es with
  | [] => True
  | e :: t => (match e with
               | ESolve g MGiant _ _ => (forall ks x, run 50 ks x <> None) -> snd (step s e) <> RRaise
               | _ => True
               end) /\ never_raises (fst (step s e)) t
  end.
(** the events refer to existing objects *)
Definition exists_obj (s : sk X) (e : event X) : Prop :=
  match e with
  | ENew _ => True | EWrite l _ => (l < length (heap s))%nat | EAppend l => (l < length (heap s))%nat
  | EAppendList ks => List.Forall (fun k : kitem => (kloc k < length (heap s))%nat) ks
  | ESolve g _ _ _ => (g < length (heap s))%nat
  end.
(** a known solution is not changed in place nor used as initial guess, and lists contain functions *)
Definition gentle (s : sk X) (e : event X) : Prop :=
  match e with
  | EWrite l _ => ~ In l (map kloc (known s))
  | ESolve g _ _ _ => ~ In g (map kloc (known s))
  | EAppendList ks => forall k, In k ks -> is_state k = false
  | _ => True
  end.
Fixpoint all_events (P : sk X -> event X -> Prop) (s : sk X) (es : list (event X)) : Prop :=
  match es with [] => True | e :: t => P s e /\ all_events P (fst (step s e)) t end.

(** ** proofs *)
Lemma put_length (h : list X) l x : length (put X h l x) = length h.
Proof. revert l. induction h as [|y h IH]; intros [|l]; cbn; auto. Qed.
Lemma put_other (h : list X) l x j : j <> l -> nth j (put X h l x) dflt = nth j h dflt.
Proof. revert l j. induction h as [|y h IH]; intros [|l] [|j] H; cbn; auto; try lia. Qed.
Lemma put_same (h : list X) l x : (l < length h)%nat -> nth l (put X h l x) dflt = x.
Proof. revert l. induction h as [|y h IH]; intros [|l] H; cbn in *; try lia; auto. apply IH. lia. Qed.
Definition inv (s : sk X) (L : list X) : Prop :=
  (forall k, In k (known s) -> is_state k = false /\ (kloc k < length (heap s))%nat) /\ map (fun k => val s (kloc k)) (known s) = L.
Lemma no_state s L : inv s L -> existsb is_state (known s) = false.
Proof. intros [H _]. destruct (existsb is_state (known s)) eqn:E; [|reflexivity]. apply existsb_exists in E. destruct E as [k [I K]]. rewrite (proj1 (H k I)) in K. discriminate. Qed.
Lemma heap_grows s L (h : list X) (ks : list kitem) : inv s L -> (length (heap s) <= length h)%nat ->
  (forall k, In k (known s) -> nth (kloc k) h dflt = nth (kloc k) (heap s) dflt) ->
  (forall k, In k ks -> is_state k = false /\ (kloc k < length h)%nat) ->
  inv {| heap := h; known := known s ++ ks |} (L ++ map (fun k => nth (kloc k) h dflt) ks).
Proof.
  intros [H1 H2] Lh Hs Hk. split; cbn [heap known].
  - intros k I. apply in_app_or in I. destruct I as [I|I]; [|apply Hk, I]. destruct (H1 k I). split; [assumption|lia].
  - rewrite map_app. f_equal. rewrite <- H2. apply map_ext_in. intros k I. unfold obj. cbn [heap]. apply Hs, I.
Qed.
Lemma step_inv s L e : inv s L -> exists_obj s e -> gentle s e -> inv (fst (step s e)) (learn_from s e L) /\
  (match snd (step s e) with RSolved given _ _ _ => given = L | _ => True end) /\
  (match e with ESolve g MGiant _ _ => (forall ks x, run 50 ks x <> None) -> snd (step s e) <> RRaise | _ => True end).
Proof.
  intros Hi Hx Hc. assert (Nil : forall h, (length (heap s) <= length h)%nat -> (forall k, In k (known s) -> nth (kloc k) h dflt = nth (kloc k) (heap s) dflt) -> inv {| heap := h; known := known s |} L).
  { intros h H1 H2. assert (Q := heap_grows s L h [] Hi H1 H2 (fun k I => match I with end)). cbn [map] in Q. rewrite !app_nil_r in Q. exact Q. }
  destruct e as [x|l x|l|ks|g m miter learn]; cbn [exists_obj gentle] in *.
  - split; [|split; exact I]. cbn. apply Nil; [rewrite app_length; lia|]. intros k Ik. rewrite app_nth1; [reflexivity|apply (proj1 Hi), Ik].
  - split; [|split; exact I]. cbn. apply Nil; [rewrite put_length; lia|]. intros k Ik. apply put_other. intros E. apply Hc. rewrite <- E. apply in_map, Ik.
  - split; [|split; exact I]. cbn. refine (heap_grows s L (heap s) [KFun l] Hi (le_n _) (fun _ _ => eq_refl) _). intros k [<-|[]]. split; [reflexivity|exact Hx].
  - split; [|split; exact I]. cbn. refine (heap_grows s L (heap s) ks Hi (le_n _) (fun _ _ => eq_refl) _). intros k Ik. split; [apply Hc, Ik|].
    rewrite Forall_forall in Hx. apply Hx, Ik.
  - unfold learn_from. destruct m; cbn [sk_step sk_solve fst snd]; [|split; [destruct learn; exact Hi|split; [exact I|exact I]]|split; [destruct learn; exact Hi|split; [exact I|exact I]]].
    rewrite (no_state s L Hi). destruct (run 50 (map (fun k => val s (kloc k)) (known s)) (val s g)) as [o|] eqn:E; cbn [fst snd].
    + split; [|split; [apply (proj2 Hi)|intros _; discriminate]].
      set (ret := if o_same o then g else length (heap s)). set (h := if o_same o then put X (heap s) g (o_val o) else heap s ++ [o_val o]).
      assert (Lh : (length (heap s) <= length h)%nat) by (unfold h; destruct (o_same o); [rewrite put_length; lia|rewrite app_length; lia]).
      assert (Hs : forall k, In k (known s) -> nth (kloc k) h dflt = nth (kloc k) (heap s) dflt).
      { intros k Ik. unfold h. destruct (o_same o).
        - apply put_other. intros Q. apply Hc. rewrite <- Q. apply in_map, Ik.
        - apply app_nth1, (proj1 Hi), Ik. }
      assert (Lr : (ret < length h)%nat) by (unfold ret, h; destruct (o_same o); [rewrite put_length; exact Hx|rewrite app_length; cbn; lia]).
      destruct (o_succ o), learn; cbn [andb]; try (apply Nil; assumption).
      refine (heap_grows s L h [KFun ret] Hi Lh Hs _). intros k [<-|[]]. split; [reflexivity|exact Lr].
    + split; [destruct learn; exact Hi|]. split; [exact I|]. intros N. exfalso. exact (N _ _ E).
Qed.
Lemma start_inv : inv (sk_new X) [].
Proof. split; [intros k []|reflexivity]. Qed.
Lemma steps_inv es : forall s L, inv s L -> all_events exists_obj s es -> all_events gentle s es -> deflates_all s L es /\ never_raises s es.
Proof.
  induction es as [|e t IH]; intros s L Hi Hx Hc; [split; exact I|]. destruct Hx as [Hx Hxt]. destruct Hc as [Hc Hct].
  destruct (step_inv s L e Hi Hx Hc) as [A [B D]]. destruct (IH _ _ A Hxt Hct) as [P Q]. split; (split; [assumption|assumption]).
Qed.
Lemma step_grows s e : exists ks, known (fst (step s e)) = known s ++ ks.
Proof.
  destruct e as [x|l x|l|ks|g m miter learn]; cbn [sk_step fst known]; try (exists []; rewrite app_nil_r; reflexivity); try (eexists; reflexivity).
  unfold sk_solve. destruct m; cbn [fst]; try (exists []; rewrite app_nil_r; reflexivity). destruct (existsb _ _); cbn [fst]; try (exists []; rewrite app_nil_r; reflexivity).
  destruct (run _ _ _) as [o|]; cbn [fst known]; try (exists []; rewrite app_nil_r; reflexivity). destruct (o_succ o && learn); [eexists; reflexivity|exists []; rewrite app_nil_r; reflexivity].
Qed.
End Spec.

(** every history in which known solutions are left alone: each solve deflates exactly the solutions learned before it, in
    the order in which they were learned, and no solve with 'giant' raises on their account *)
Theorem C194_history_partial : forall (X : Type) (dflt : X) run (es : list (event X)),
  all_events X dflt run (exists_obj X) (sk_new X) es -> all_events X dflt run (gentle X) (sk_new X) es ->
  deflates_all X dflt run (sk_new X) [] es /\ never_raises X dflt run (sk_new X) es.
Proof. intros X dflt run es H1 H2. apply steps_inv; [apply start_inv|exact H1|exact H2]. Qed.
Print Assumptions C194_history_partial.

(** nothing is forgotten, whatever the history; and a solve that fails, raises or is told not to learn leaves the known
    solutions as they were *)
Theorem C194_monotone_partial : forall (X : Type) (dflt : X) run,
  (forall es s, exists ks, known (sk_steps X dflt run s es) = known s ++ ks) /\
  (forall s g m miter learn given ret succ iter s', sk_step X dflt run s (ESolve g m miter learn) = (s', RSolved given ret succ iter) ->
     known s' = if andb succ learn then known s ++ [KFun ret] else known s) /\
  (forall s g m miter learn s', sk_step X dflt run s (ESolve g m miter learn) = (s', RRaise) -> s' = s).
Proof.
  intros X dflt run. split; [|split].
  - induction es as [|e t IH]; intros s; cbn [sk_steps]; [exists []; now rewrite app_nil_r|]. destruct (IH (fst (sk_step X dflt run s e))) as [ks E].
    destruct (step_grows X dflt run s e) as [ks1 E1]. exists (ks1 ++ ks). rewrite E, E1, app_assoc. reflexivity.
  - intros s g m miter learn given ret succ iter s' E. cbn [sk_step] in E. unfold sk_solve in E. destruct m; try discriminate. destruct (existsb _ _); [discriminate|].
    destruct (run _ _ _) as [o|]; [|discriminate]. injection E as <- _ <- <- _. reflexivity.
  - intros s g m miter learn s' E. cbn [sk_step] in E. unfold sk_solve in E. destruct m; try (injection E as <-; reflexivity). destruct (existsb _ _); [injection E as <-; reflexivity|].
    destruct (run _ _ _) as [o|]; [discriminate|injection E as <-; reflexivity].
Qed.
Print Assumptions C194_monotone_partial.

(** a method that only fails *)
Theorem C194_nleq_refuted : forall (X : Type) (dflt : X) run s g miter learn, sk_step X dflt run s (ESolve g MNleq miter learn) = (s, RRaise).
Proof. reflexivity. Qed.
Print Assumptions C194_nleq_refuted.

(** append([state]): from then on every solve raises, whatever is done; append(state) is the same solution *)
Theorem C194_list_refuted : forall (X : Type) (dflt : X) run es s l ks g m miter learn,
  snd (sk_step X dflt run (sk_steps X dflt run (fst (sk_step X dflt run s (EAppendList (KState l :: ks)))) es) (ESolve g m miter learn)) = RRaise.
Proof.
  intros X dflt run es s l ks g m miter learn. set (s1 := fst (sk_step X dflt run s (EAppendList (KState l :: ks)))).
  destruct (proj1 (C194_monotone_partial X dflt run) es s1) as [ks' E]. cbn [sk_step]. unfold sk_solve. destruct m; [|reflexivity|reflexivity].
  assert (Q : existsb is_state (known (sk_steps X dflt run s1 es)) = true). { apply existsb_exists. exists (KState l). split; [|reflexivity]. rewrite E. apply in_or_app. left. unfold s1. cbn [sk_step fst known]. apply in_or_app. right. left. reflexivity. }
  rewrite Q. reflexivity.
Qed.
Print Assumptions C194_list_refuted.

(** ** GIANT-GBIT as the solver *)
(** the returned state is the initial guess itself exactly when the run ends in its first pass *)
Lemma loop_alias (X V S : Type) mksys rhs vneg lin xadd xsub xscal ip xtol lmin rho prec dbar restr quad mi fuel dfuel :
  forall (x : X) own arg k lam hk dx dxbar (f : V) njac tr x' succ k' nj bd tr' arg',
  (own = true -> arg = x) -> own = Nat.eqb k 0 ->
  giant_loop X V S mksys rhs vneg lin xadd xsub xscal ip xtol lmin rho prec dbar restr quad mi fuel dfuel x own arg k lam hk dx dxbar f njac tr =
    GRet x' succ k' nj bd tr' arg' ->
  (Nat.eqb k 0 = false -> (2 <= k' \/ (k' = 1 /\ succ = false))%nat /\ arg' = arg) /\
  (Nat.eqb k 0 = true -> arg' = if Nat.eqb k' 0 || (succ && Nat.eqb k' 1) then x' else arg).
Proof.
  induction fuel as [|n IH]; intros x own arg k lam hk dx dxbar f njac tr x' succ k' nj bd tr' arg' Ho Hk E; [discriminate|].
  cbn [giant_loop] in E.
  assert (Base : forall xx ss kk jj bb tt aa, GRet xx ss kk jj bb tt aa = GRet x' succ k' nj bd tr' arg' -> xx = x' /\ ss = succ /\ kk = k' /\ aa = arg').
  { intros xx ss kk jj bb tt aa Q. injection Q as -> -> -> _ _ _ ->. auto. }
  assert (Fail : x = x' -> false = succ -> k = k' -> arg = arg' ->
    (Nat.eqb k 0 = false -> (2 <= k' \/ (k' = 1 /\ succ = false))%nat /\ arg' = arg) /\
    (Nat.eqb k 0 = true -> arg' = if Nat.eqb k' 0 || (succ && Nat.eqb k' 1) then x' else arg)).
  { intros <- <- <- <-. split; intros K.
    - apply Nat.eqb_neq in K. split; [|reflexivity]. destruct k as [|[|k]]; [congruence|right; auto|left; lia].
    - rewrite K. cbn [orb]. apply Ho. rewrite Hk. exact K. }
  destruct (Nat.ltb mi k). { destruct (Base _ _ _ _ _ _ _ E) as [? [? [? ?]]]. apply Fail; assumption. }
  assert (Succ : forall y, y = x' -> true = succ -> (k + 1)%nat = k' -> (if own then y else arg) = arg' ->
    (Nat.eqb k 0 = false -> (2 <= k' \/ (k' = 1 /\ succ = false))%nat /\ arg' = arg) /\
    (Nat.eqb k 0 = true -> arg' = if Nat.eqb k' 0 || (succ && Nat.eqb k' 1) then x' else arg)).
  { intros y <- <- <- <-. rewrite Hk. split; intros K; rewrite K.
    - apply Nat.eqb_neq in K. split; [left; lia|reflexivity].
    - apply Nat.eqb_eq in K. subst k. reflexivity. }
  assert (Next : forall xk l h dx2 db f' nj' t', giant_loop X V S mksys rhs vneg lin xadd xsub xscal ip xtol lmin rho prec dbar restr quad mi n dfuel xk false arg (k + 1) l h dx2 db f' nj' t' = GRet x' succ k' nj bd tr' arg' ->
    (Nat.eqb k 0 = false -> (2 <= k' \/ (k' = 1 /\ succ = false))%nat /\ arg' = arg) /\
    (Nat.eqb k 0 = true -> arg' = if Nat.eqb k' 0 || (succ && Nat.eqb k' 1) then x' else arg)).
  { intros xk l h dx2 db f' nj' t' Q. assert (K1 : Nat.eqb (k + 1) 0 = false) by (apply Nat.eqb_neq; lia).
    destruct (proj1 (IH _ _ _ _ _ _ _ _ _ _ _ _ _ _ _ _ _ _ (fun H : false = true => False_ind _ (diff_false_true H)) (eq_sym K1) Q) K1) as [P1 P2].
    split; intros K; [auto|]. rewrite P2. destruct P1 as [P1|[-> ->]]; [|reflexivity]. destruct k' as [|[|k']]; [lia|lia|]. cbn. rewrite andb_false_r. reflexivity. }
  assert (Adapt : forall sys dx2 nd lam2, match adapt X V S rhs vneg lin xadd xsub xscal ip xtol lmin rho prec restr dfuel sys x dx2 nd lam2 false tr with
                | AFuel => GFuel
                | ARaise => GRaise
                | AFail tr' => GRet x false k (njac + 1) false tr' arg
                | ADone true l h xk db f' tr' => GRet (xadd x db) true (k + 1) (njac + 1) false tr' (if own then xadd x db else arg)
                | ADone false l h xk db f' tr' => giant_loop X V S mksys rhs vneg lin xadd xsub xscal ip xtol lmin rho prec dbar restr quad mi n dfuel xk false arg (k + 1) l h dx2 db f' (njac + 1) tr'
                end = GRet x' succ k' nj bd tr' arg' ->
    (Nat.eqb k 0 = false -> (2 <= k' \/ (k' = 1 /\ succ = false))%nat /\ arg' = arg) /\
    (Nat.eqb k 0 = true -> arg' = if Nat.eqb k' 0 || (succ && Nat.eqb k' 1) then x' else arg)).
  { clear E. intros sys dx2 nd lam2 Q. destruct (adapt _ _ _ _ _ _ _ _ _ _ _ _ _ _ _ _ _ _ _ _ _ _ _) as [| |t|[] l h xk db f' t]; try discriminate.
    - destruct (Base _ _ _ _ _ _ _ Q) as [? [? [? ?]]]. apply Fail; assumption.
    - destruct (Base _ _ _ _ _ _ _ Q) as [? [? [? ?]]]. eapply Succ; eassumption.
    - exact (Next _ _ _ _ _ _ _ _ Q). }
  destruct (lin (mksys x) _ dxbar _ false) as [dx1 []]; [|destruct (Base _ _ _ _ _ _ _ E) as [? [? [? ?]]]; apply Fail; assumption].
  assert (Cont : forall dx2 lam2, (if Rleb (gnrm X ip dx2) xtol then GRet (xadd x dx2) true (k + 1) (njac + 1) true tr (if own then xadd x dx2 else arg)
     else match adapt X V S rhs vneg lin xadd xsub xscal ip xtol lmin rho prec restr dfuel (mksys x) x dx2 (gnrm X ip dx2) lam2 false tr with
                | AFuel => GFuel
                | ARaise => GRaise
                | AFail tr' => GRet x false k (njac + 1) false tr' arg
                | ADone true l h xk db f' tr' => GRet (xadd x db) true (k + 1) (njac + 1) false tr' (if own then xadd x db else arg)
                | ADone false l h xk db f' tr' => giant_loop X V S mksys rhs vneg lin xadd xsub xscal ip xtol lmin rho prec dbar restr quad mi n dfuel xk false arg (k + 1) l h dx2 db f' (njac + 1) tr'
                end) = GRet x' succ k' nj bd tr' arg' ->
    (Nat.eqb k 0 = false -> (2 <= k' \/ (k' = 1 /\ succ = false))%nat /\ arg' = arg) /\
    (Nat.eqb k 0 = true -> arg' = if Nat.eqb k' 0 || (succ && Nat.eqb k' 1) then x' else arg)).
  { clear E. intros dx2 lam2 Q. destruct (Rleb (gnrm X ip dx2) xtol); [destruct (Base _ _ _ _ _ _ _ Q) as [? [? [? ?]]]; eapply Succ; eassumption|exact (Adapt _ _ _ _ Q)]. }
  destruct (Nat.eqb k 0) eqn:K.
  - exact (Cont _ _ E).
  - destruct (_ || _); [discriminate|]. destruct (is_one _).
    + destruct (lin (mksys x) _ dx1 _ false) as [dx2 []]; [|destruct (Base _ _ _ _ _ _ _ E) as [? [? [? ?]]]; apply Fail; assumption].
      destruct (Reqb0 _); [discriminate|]. exact (Cont _ _ E).
    + exact (Cont _ _ E).
Qed.

(** what a caller who keeps the initial guess finds in it after the run: the returned solution if the run ends in its first
    pass (the returned state and the guess are one object), what it was otherwise *)
Theorem C194_guess : forall (X V S : Type) mksys rhs vneg lin xadd xsub xscal ip x_zero xtol lmin rho prec dbar restr quad mi dfuel lam0 x x' succ k nj bd tr arg o,
  giant_gbit X V S mksys rhs vneg lin xadd xsub xscal ip x_zero xtol lmin rho prec dbar restr quad mi dfuel lam0 x = GRet x' succ k nj bd tr arg ->
  giant_outcome (GRet x' succ k nj bd tr arg) = Some o -> arg = if o_same o then o_val o else x.
Proof.
  intros X V S mksys rhs vneg lin xadd xsub xscal ip x_zero xtol lmin rho prec dbar restr quad mi dfuel lam0 x x' succ k nj bd tr arg o E O.
  injection O as <-. cbn [o_same o_val]. unfold giant_gbit in E.
  destruct (loop_alias _ _ _ _ _ _ _ _ _ _ _ _ _ _ _ _ _ _ _ _ _ x true x 0 lam0 0 x_zero x_zero (rhs (mksys x) x) 0 [] x' succ k nj bd tr arg (fun _ => eq_refl) eq_refl E) as [_ Q]. exact (Q eq_refl).
Qed.
Print Assumptions C194_guess.

(** ** two solves from one initial guess *)
Definition slow (_ : R) (b _ _ : R) (_ : bool) : R * bool := (b / (4 / 3), true).
Lemma giant52 miter m : rgiant (fun x => x) slow 13 0 miter (Datatypes.S m) 1 52 = GRet (169 / 4) true 1 1 false [1] (169 / 4).
Proof.
  unfold rgiant, giant_gbit, slow. rewrite (Nat.add_comm miter). cbn [Nat.add]. remember (Datatypes.S miter) as n1.
  cbn [giant_loop]. change (Nat.ltb miter 0) with false. cbv iota. cbn [Nat.eqb]. unfold gnrm.
  val (- (52) / (4 / 3)) (-39). sq 39. dec.
  cbn [adapt]. unfold gnrm. dec. val (52 + 1 * -39) 13. val (- (13) / (4 / 3)) (- (39 / 4)).
  sq (39 / 4). val (- (39 / 4) - (1 - 1) * -39) (- (39 / 4)). sq (39 / 4). isz.
  val (2 * (1 - 0 * (1 / 10) * (39 / 4) / (39 / 4)) * (39 / 4) / (1 * 1 * 39)) (1 / 2). isz. val ((39 / 4) / 39) (1 / 4). dec.
  rewrite Rmin_left.
  2:{ val (1 / (1 / 2 * (1 + 1 / 10))) (20 / 11). lra. }
  unfold is_one. dec. val (52 + - (39 / 4)) (169 / 4). reflexivity.
Qed.
(** miter = 1 asked for, two iterations made *)
Lemma giant_two m miter : (1 <= miter)%nat -> rgiant (fun x => x) slow 11 0 miter (Datatypes.S m) 1 64 = GRet 13 true 2 2 false [1; 1] 64.
Proof.
  intros M. unfold rgiant, giant_gbit, slow. rewrite (Nat.add_comm miter). cbn [Nat.add]. remember (Datatypes.S miter) as n1.
  cbn [giant_loop]. change (Nat.ltb miter 0) with false. cbv iota. cbn [Nat.eqb]. unfold gnrm.
  val (- (64) / (4 / 3)) (-48). sq 48. dec.
  cbn [adapt]. unfold gnrm. dec. val (64 + 1 * -48) 16. val (- (16) / (4 / 3)) (-12).
  sq 12. val (-12 - (1 - 1) * -48) (-12). sq 12. isz.
  val (2 * (1 - 0 * (1 / 10) * 12 / 12) * 12 / (1 * 1 * 48)) (1 / 2). isz. val (12 / 48) (1 / 4). dec.
  rewrite Rmin_left.
  2:{ val (1 / (1 / 2 * (1 + 1 / 10))) (20 / 11). lra. }
  unfold is_one. dec. rewrite Heqn1. cbn [giant_loop]. change (0 + 1)%nat with 1%nat.
  rewrite (proj2 (Nat.ltb_ge miter 1)) by exact M. cbn [Nat.eqb]. unfold gnrm.
  val (- (16) / (4 / 3)) (-12). sq 12. sq 48. val (12 / 48 * (1 / 2)) (1 / 8). isz. isz. cbn [orb].
  assert (L : Rmin 1 (1 / ((1 + 1 / 10) * (1 / 8))) = 1) by (apply Rmin_left; val (1 / ((1 + 1 / 10) * (1 / 8))) (80 / 11); lra).
  rewrite !L. unfold is_one. dec.
  cbn [adapt]. unfold gnrm. dec. val (16 + 1 * -12) 4. val (- (4) / (4 / 3)) (-3).
  sq 3. val (-3 - (1 - 1) * -12) (-3). sq 3. isz.
  val (2 * (1 - 0 * (1 / 10) * 3 / 3) * 3 / (1 * 1 * 12)) (1 / 2). isz. val (3 / 12) (1 / 4). dec.
  rewrite Rmin_left.
  2:{ val (1 / (1 / 2 * (1 + 1 / 10))) (20 / 11). lra. }
  unfold is_one. dec. val (16 + -3) 13. reflexivity.
Qed.

(** the solver of the examples: F x = x, the Jacobian taken as 4/3 *)
Definition srun (xtol : R) (mi : nat) (_ : list R) (x : R) : option (outcome R) := giant_outcome (rgiant (fun x => x) slow xtol 0 mi 1 1 x).
Lemma srun64 mi ks : srun 13 mi ks 64 = Some {| o_val := 52; o_succ := true; o_iter := 1; o_same := true |}.
Proof. unfold srun. assert (Q := ex_giant_wrong mi 0). fold slow in Q. change (fun _ b _ _ _ => (b / (4 / 3), true)) with slow in Q. rewrite Q. reflexivity. Qed.
Lemma srun52 mi ks : srun 13 mi ks 52 = Some {| o_val := 169 / 4; o_succ := true; o_iter := 1; o_same := true |}.
Proof. unfold srun. rewrite giant52. reflexivity. Qed.
Lemma srun11 mi ks : (1 <= mi)%nat -> srun 11 mi ks 64 = Some {| o_val := 13; o_succ := true; o_iter := 2; o_same := false |}.
Proof. intros M. unfold srun. rewrite (giant_two 0 mi M). reflexivity. Qed.

Lemma alias_gen (run : nat -> list R -> R -> option (outcome R)) :
  (forall ks, run 50%nat ks 64 = Some {| o_val := 52; o_succ := true; o_iter := 1; o_same := true |}) ->
  (forall ks, run 50%nat ks 52 = Some {| o_val := 169 / 4; o_succ := true; o_iter := 1; o_same := true |}) ->
  let e := ESolve 0 MGiant 50 true in let s1 := sk_steps R 0 run (sk_new R) [ENew 64; e] in
  snd (sk_step R 0 run (sk_steps R 0 run (sk_new R) [ENew 64]) e) = RSolved [] 0 true 1 /\ obj R 0 s1 0 = 52 /\
  snd (sk_step R 0 run s1 e) = RSolved [52] 0 true 1 /\
  sk_steps R 0 run s1 [e] = {| heap := [169 / 4]; known := [KFun 0; KFun 0] |} /\
  ~ deflates_all R 0 run (sk_new R) [] [ENew 64; e; e; ENew 64; ESolve 1 MGiant 50 true].
Proof.
  intros R64 R52 e s1.
  assert (E1 : sk_step R 0 run {| heap := [64]; known := [] |} e = ({| heap := [52]; known := [KFun 0] |}, RSolved [] 0 true 1)).
  { unfold e. cbn [sk_step]. unfold sk_solve, obj. cbn [heap known existsb map nth]. rewrite R64. reflexivity. }
  assert (E2 : sk_step R 0 run {| heap := [52]; known := [KFun 0] |} e = ({| heap := [169 / 4]; known := [KFun 0; KFun 0] |}, RSolved [52] 0 true 1)).
  { unfold e. cbn [sk_step]. unfold sk_solve, obj. cbn [heap known existsb map nth kloc is_state orb]. rewrite R52. reflexivity. }
  assert (S1 : s1 = {| heap := [52]; known := [KFun 0] |}).
  { unfold s1. cbn [sk_steps]. change (fst (sk_step R 0 run (sk_new R) (ENew 64))) with {| heap := [64]; known := [] |}. rewrite E1. reflexivity. }
  split; [|split; [rewrite S1; reflexivity|split; [rewrite S1, E2; reflexivity|split; [rewrite S1; cbn [sk_steps]; rewrite E2; reflexivity|]]]].
  - cbn [sk_steps]. change (fst (sk_step R 0 run (sk_new R) (ENew 64))) with {| heap := [64]; known := [] |}. rewrite E1. reflexivity.
  - intros D. cbn [deflates_all] in D. destruct D as [_ [_ [_ [_ [D _]]]]].
    change (fst (sk_step R 0 run (sk_new R) (ENew 64))) with {| heap := [64]; known := [] |} in D. unfold learn_from, e in D. fold e in D.
    rewrite E1 in D. cbn [fst] in D. rewrite E2 in D. cbn [fst] in D.
    change (fst (sk_step R 0 run {| heap := [169 / 4]; known := [KFun 0; KFun 0] |} (ENew 64))) with {| heap := [169 / 4; 64]; known := [KFun 0; KFun 0] |} in D.
    cbn [sk_step] in D. unfold sk_solve, obj in D. cbn [heap known existsb map nth kloc is_state orb] in D. rewrite R64 in D. cbn [fst snd o_same o_val o_succ o_iter] in D.
    cbn in D. injection D as D. lra.
Qed.

(** solve(u0) twice with one and the same u0, a solution being found each time: the second solve does not start from u0 (64)
    but from the first solution (52), and it overwrites it.  A third solve is given 169/4 twice; 52, found and reported, is
    forgotten *)
Theorem C194_alias_refuted : let e := ESolve 0 MGiant 50 true in let s1 := sk_steps R 0 (srun 13) (sk_new R) [ENew 64; e] in
  snd (sk_step R 0 (srun 13) (sk_steps R 0 (srun 13) (sk_new R) [ENew 64]) e) = RSolved [] 0 true 1 /\ obj R 0 s1 0 = 52 /\
  snd (sk_step R 0 (srun 13) s1 e) = RSolved [52] 0 true 1 /\
  sk_steps R 0 (srun 13) s1 [e] = {| heap := [169 / 4]; known := [KFun 0; KFun 0] |} /\
  ~ deflates_all R 0 (srun 13) (sk_new R) [] [ENew 64; e; e; ENew 64; ESolve 1 MGiant 50 true].
Proof. exact (alias_gen (srun 13) (srun64 50) (srun52 50)). Qed.
Print Assumptions C194_alias_refuted.

(** miter is not passed on: a solve limited to one iteration makes two *)
Theorem C194_miter_refuted : exists (s : sk R) (s' : sk R) given ret,
  sk_step R 0 (srun 11) s (ESolve 0 MGiant 1 true) = (s', RSolved given ret true 2).
Proof.
  exists {| heap := [64]; known := [] |}. eexists. eexists. eexists. cbn [sk_step]. unfold sk_solve, obj. cbn [heap known existsb map nth].
  rewrite srun11 by lia. reflexivity.
Qed.
Print Assumptions C194_miter_refuted.

(** the hypotheses of C194_history_partial: a solution is found and learned, another one is reported, a third solve works
    with both *)
Theorem C194_case : let es := [ENew 64; ESolve 0 MGiant 50 true; ENew 7; EAppend 1; ENew 64; ESolve 2 MGiant 50 false] in
  all_events R 0 (srun 13) (exists_obj R) (sk_new R) es /\ all_events R 0 (srun 13) (gentle R) (sk_new R) es /\
  snd (sk_step R 0 (srun 13) (sk_steps R 0 (srun 13) (sk_new R) (firstn 5 es)) (ESolve 2 MGiant 50 false)) = RSolved [52; 7] 2 true 1.
Proof.
  assert (E1 : sk_step R 0 (srun 13) {| heap := [64]; known := [] |} (ESolve 0 MGiant 50 true) = ({| heap := [52]; known := [KFun 0] |}, RSolved [] 0 true 1)).
  { cbn [sk_step]. unfold sk_solve, obj. cbn [heap known existsb map nth]. rewrite srun64. reflexivity. }
  intros es. unfold es. cbn [all_events firstn sk_steps].
  change (fst (sk_step R 0 (srun 13) (sk_new R) (ENew 64))) with {| heap := [64]; known := [] |}. rewrite E1. cbn [fst].
  change (fst (sk_step R 0 (srun 13) {| heap := [52]; known := [KFun 0] |} (ENew 7))) with {| heap := [52; 7]; known := [KFun 0] |}.
  change (fst (sk_step R 0 (srun 13) {| heap := [52; 7]; known := [KFun 0] |} (EAppend 1))) with {| heap := [52; 7]; known := [KFun 0; KFun 1] |}.
  change (fst (sk_step R 0 (srun 13) {| heap := [52; 7]; known := [KFun 0; KFun 1] |} (ENew 64))) with {| heap := [52; 7; 64]; known := [KFun 0; KFun 1] |}.
  cbn [exists_obj gentle heap known length map kloc In]. split; [repeat (split; [try exact I; lia|]); exact I|split; [repeat (split; [try exact I; lia|]); exact I|]].
  cbn [sk_step]. unfold sk_solve, obj. cbn [heap known existsb map nth kloc is_state orb]. rewrite srun64. reflexivity.
Qed.
Print Assumptions C194_case.
