(** ChebOp.solve (colloc/chebOp.py 319-392): model in SolveModel.v, vocabulary of runs of the adaptive solver in AdaptSpec.v. *)
From Coq Require Import Reals List Arith Bool Lia Lra.
From Verif Require Import Base AdaptModel AdaptSpec PropAdapt SolveModel.
Import ListNotations.
Open Scope nat_scope.

(** no run at all: a default for [last] *)
Definition nocall {S : Type} (n : nat) (s : S) : nat * S * S * S * bool := (n, s, s, s, false).

Lemma adapt_ext {S : Type} (prolong : nat -> S -> S) dist (nw nw' : nat -> nat -> S -> S * S * bool) : (forall k n s, nw' k n s = nw k n s) ->
  forall eps mf ns k s b lst tr, adapt_loop prolong dist nw' eps mf k ns s b lst tr = adapt_loop prolong dist nw eps mf k ns s b lst tr.
Proof.
  intros H eps mf ns. induction ns as [|n ns IH]; intros k s b lst tr; cbn [adapt_loop]; [reflexivity|]. rewrite H.
  destruct (nw k n (prolong n s)) as [[g x] ok]. rewrite !IH. reflexivity.
Qed.

Section C189.
  Context {U S : Type} (zero : U) (mk : U -> S) (fn : S -> U) (set_fn : S -> U -> S) (size : S -> nat)
    (prolong : nat -> S -> S) (dist : S -> S -> R) (newton : option R -> nat -> nat -> S -> S * S * bool)
    (residual : nat -> nat -> U -> R) (simp : U -> U).
  Notation solve := (op_solve zero mk fn set_fn size prolong dist newton residual simp).
  Notation st := (start zero mk).
  (** where the iteration starts: the zero function, a copy of the function given, or the state given *)
  Definition from (f : @guess U S) : S := match f with GNone => mk zero | GFun u => mk u | GState s => s end.

  (** C189: every solve with an integer p answers with a function (never None) and a flag.  The function is that of a state s
      found, simplified; the residual is the 2-norm at s, on the grid of the last run.  Adaptive: the runs of Newton's method start
      from f, with tolerance 1e-8, on growing sizes; success means that the last run converged and s is its result or
      within 100 eps of it; failure means that it did not, and s is what it left of its guess. *)
  Theorem C189_answer_partial : forall f p state eps n_op n_min, exists s ok n n',
    solve f (PInt p) state true eps n_op n_min = (Gives (if state then inr (set_fn s (simp (fn s))) else inl (simp (fn s))) ok (residual n 2 (fn s)), n') /\
    exists tr, let l := last tr (nocall n_op (from f)) in
      tr <> [] /\ run_from prolong (newton (Some (/ 10 ^ 8)%R)) 0 (from f) tr /\ (forall c, In c tr -> size (from f) <= c_size c) /\
      ok = c_ok l /\ n = c_size l /\ n' = Nat.max n n_min /\
      (ok = true -> s = c_best l \/ (2 <= length tr /\ s = c_guess_after l /\ (dist s (c_best l) < 100 * eps)%R)) /\
      (ok = false -> s = c_guess_after l).
  Proof.
    change from with st.
    intros f p state eps n_op n_min. unfold op_solve, core_solve.
    destruct (adapt_solve prolong dist (newton (Some adapt_tol)) n_min 14 12 3 (100 * eps)%R false (size (st f)) (st f)) as [[[s ok] tr]|] eqn:E.
    2:{ apply C109_returns in E. lia. }
    destruct (C109_run _ _ _ _ _ _ _ _ _ _ _ _ _ _ _ E) as [Hn [Hr [rest Hs]]].
    exists s, ok, (c_size (last tr (nocall n_op (st f)))), (Nat.max (c_size (last tr (nocall n_op (st f)))) n_min).
    assert (L : forall d d', last tr d = last tr d') by (intros d d'; destruct (exists_last Hn) as [q [a ->]]; now rewrite !last_last). split.
    - cbv zeta. rewrite (L _ (nocall n_op (st f))). unfold c_size. destruct (last tr (nocall n_op (st f))) as [[[[n g] g'] x] b]. reflexivity.
    - exists tr. cbv zeta. split; [exact Hn|]. split; [exact Hr|]. split.
      { intros c Hc. destruct (C109_sizes n_min 14 (size (st f)) (upper_bd (size (st f)) 12)) as [_ [B _]]. apply (B (c_size c)). rewrite Hs. apply in_or_app. left. now apply in_map. }
      destruct ok.
      + destruct (C109_success _ _ _ _ _ _ _ _ _ _ _ _ _ _ (nocall n_op (st f)) E) as [A B]. repeat (split; [auto|]). discriminate.
      + destruct (C109_failure _ _ _ _ _ _ _ _ _ _ _ _ _ _ (nocall n_op (st f)) E) as [A B]. repeat (split; [auto; discriminate|]). auto.
  Qed.

  (** C189, adaptive=False: one run at the size of the operator. *)
  Theorem C189_single_partial : forall f p state eps n_op n_min,
    let '(_, s, ok) := newton None 0 n_op (prolong n_op (from f)) in
    solve f (PInt p) state false eps n_op n_min = (Gives (if state then inr (set_fn s (simp (fn s))) else inl (simp (fn s))) ok (residual n_op 2 (fn s)), n_op).
  Proof. change from with st. intros. unfold op_solve, core_solve. destruct (newton None 0 n_op (prolong n_op (st f))) as [[g s] ok]. reflexivity. Qed.

  (** C189 is false: the tolerance eps does not reach Newton's method.  Two solvers that agree at tolerance 1e-8 give the same
      answer for every eps; without adaptivity the answer is the same for all eps. *)
  Theorem C189_tolerance_refuted : forall f p state eps eps' n_op n_min,
    solve f p state false eps n_op n_min = solve f p state false eps' n_op n_min /\
    forall newton', (forall k n s, newton' (Some (/ 10 ^ 8)%R) k n s = newton (Some (/ 10 ^ 8)%R) k n s) ->
      solve f p state true eps n_op n_min = op_solve zero mk fn set_fn size prolong dist newton' residual simp f p state true eps n_op n_min.
  Proof.
    intros f p state eps eps' n_op n_min. split; [reflexivity|]. intros newton' H. unfold op_solve, core_solve.
    unfold adapt_solve. rewrite (adapt_ext prolong dist (newton (Some adapt_tol)) (newton' (Some adapt_tol)) H). reflexivity.
  Qed.

  (** C189 is false: p has no effect on the residual reported; p = np.inf raises, after solving. *)
  Theorem C189_norm_refuted : forall f p q state adaptive eps n_op n_min,
    solve f (PInt p) state adaptive eps n_op n_min = solve f (PInt q) state adaptive eps n_op n_min /\
    fst (solve f PFloat state adaptive eps n_op n_min) = Raises.
  Proof.
    intros. unfold op_solve. destruct (core_solve _ _ _ _ _ _ _ _ _ _ _) as [[[[s ok] n] n']|]; split; reflexivity.
  Qed.

  (** C189: when the runs of Newton's method that succeed end at zeros of the operator ([defect s]: the size of Op[s.u], at most
      L times the distance to a zero), the state found has defect at most 100 L eps, wherever the iteration started. *)
  Theorem C189_zero_partial : forall (defect : S -> R) (L : R) f p state eps n_op n_min x r n', (0 <= L)%R -> (0 < eps)%R ->
    (forall k n g g' y, newton (Some (/ 10 ^ 8)%R) k n g = (g', y, true) -> defect y = 0%R) ->
    (forall y z, defect y = 0%R -> (defect z <= L * dist z y)%R) ->
    solve f (PInt p) state true eps n_op n_min = (Gives x true r, n') ->
    exists s, x = (if state then inr (set_fn s (simp (fn s))) else inl (simp (fn s))) /\ (defect s <= 100 * L * eps)%R.
  Proof.
    intros defect L f p state eps n_op n_min x r n' HL He H0 HLip E. destruct (C189_answer_partial f p state eps n_op n_min) as (s & ok & n & m & E' & tr & H).
    cbv zeta in H. destruct H as (Hn & Hr & _ & Hok & _ & _ & Ht & _). rewrite E in E'. assert (ok = true) as -> by congruence. exists s. split; [congruence|].
    assert (Hb : defect (c_best (last tr (nocall n_op (from f)))) = 0%R).
    { destruct (exists_last Hn) as [q [a ->]]. rewrite last_last in *. clear - Hr Hok H0. set (nw := newton (Some (/ 10 ^ 8)%R)) in *. clearbody nw. revert Hr. generalize (from f). generalize 0.
      induction q as [|[[[[m g] g'] y] b] q IH]; intros k s0; cbn [app run_from].
      - destruct a as [[[[m g] g'] y] b]. cbn in Hok. subst b. intros [_ [Q _]]. unfold c_best. exact (H0 _ _ _ _ _ Q).
      - intros [_ [_ Q]]. exact (IH _ _ Q). }
    destruct (Ht eq_refl) as [->|(_ & _ & Hd)].
    - rewrite Hb. apply Rmult_le_pos; [apply Rmult_le_pos; [lra|exact HL]|lra].
    - eapply Rle_trans; [apply HLip, Hb|]. replace (100 * L * eps)%R with (L * (100 * eps))%R by ring. apply Rmult_le_compat_l; [exact HL|lra].
  Qed.

  (** C189: the operator is left at the size of the last run (at least n_min), however large it was before: *)
  Theorem C189_size_refuted : forall f p state eps n_op n_op' n_min, snd (solve f p state true eps n_op n_min) = snd (solve f p state true eps n_op' n_min).
  Proof.
    intros. unfold op_solve, core_solve.
    destruct (adapt_solve prolong dist (newton (Some adapt_tol)) n_min 14 12 3 (100 * eps)%R false (size (st f)) (st f)) as [[[s ok] tr]|] eqn:E.
    2:{ apply C109_returns in E. lia. }
    destruct (C109_run _ _ _ _ _ _ _ _ _ _ _ _ _ _ _ E) as [Hn _]. destruct (exists_last Hn) as [q [a ->]]. rewrite !last_last.
    destruct a as [[[[n g] g'] y] b]. destruct p; reflexivity.
  Qed.
End C189.
Print Assumptions C189_answer_partial.
Print Assumptions C189_single_partial.
Print Assumptions C189_tolerance_refuted.
Print Assumptions C189_norm_refuted.
Print Assumptions C189_zero_partial.
Print Assumptions C189_size_refuted.

(** C189 is false: f is not the right-hand side.  The operator Op[u] = u on constants, with the Newton method that finds its zero in one
    step: op.solve(f) with f = 1 answers with a number u, success, and Op[u] = f does not hold. *)
Definition newton_id (tol : option R) (k n : nat) (s : R) : R * R * bool := (s, 0%R, true).
Definition solve_id := op_solve (U := R) (S := R) 0%R (fun u => u) (fun s => s) (fun _ u => u) (fun _ => 1) (fun _ s => s) (fun a b => Rabs (a - b)) newton_id (fun _ _ u => Rabs u) (fun u => u).
Theorem C189_rhs_refuted : forall eps n_op, (0 < eps <= / 1000)%R ->
  exists u r n', solve_id (GFun 1%R) (PInt 2) false true eps n_op 1 = (Gives (inl u) true r, n') /\ (Rabs u <= / 10)%R /\ u <> 1%R.
Proof.
  intros eps n_op He.
  destruct (C189_answer_partial 0%R (fun u => u) (fun s => s) (fun _ u => u) (fun _ => 1) (fun _ s => s) (fun a b => Rabs (a - b)) newton_id (fun _ _ u => Rabs u) (fun u => u) (GFun 1%R) 2 false eps n_op 1)
    as (s & ok & n & n' & E & tr & H). cbv zeta in H. destruct H as (Hn & Hr & _ & Hok & _).
  assert (ok = true) as ->.
  { rewrite Hok. destruct (exists_last Hn) as [q [a ->]]. rewrite last_last in *. clear - Hr. assert (Hw : forall k n s, snd (newton_id (Some (/ 10 ^ 8)%R) k n s) = true) by reflexivity. set (nw := newton_id (Some (/ 10 ^ 8)%R)) in *. clearbody nw. revert Hr. generalize (from 0%R (fun u : R => u) (GFun 1%R)). generalize 0.
    induction q as [|[[[[m g] g'] y] b] q IH]; intros k s0; cbn [app run_from].
    - destruct a as [[[[m g] g'] y] b]. intros [_ [Q _]]. cbn. rewrite <- (Hw k m g), Q. reflexivity.
    - intros [_ [_ Q]]. exact (IH _ _ Q). }
  cbv iota in E. exists s, (Rabs s), n'. split; [exact E|].
  destruct (C189_zero_partial 0%R (fun u => u) (fun s => s) (fun _ u => u) (fun _ => 1) (fun _ s => s) (fun a b => Rabs (a - b)) newton_id (fun _ _ u => Rabs u) (fun u => u)
    Rabs 1 (GFun 1%R) 2 false eps n_op 1 (inl s) (Rabs s) n' ltac:(lra) ltac:(lra)) as [s' [Es Hs]].
  - intros k m g g' y Q. unfold newton_id in Q. assert (y = 0%R) as -> by congruence. apply Rabs_R0.
  - intros y z Hy. assert (y = 0%R) as -> by (destruct (Req_dec y 0) as [Q|Q]; [exact Q|destruct (Rabs_no_R0 _ Q Hy)]). rewrite Rminus_0_r. lra.
  - exact E.
  - assert (s' = s) as -> by congruence. split; [lra|]. intros ->. rewrite Rabs_R1 in Hs. lra.
Qed.
Print Assumptions C189_rhs_refuted.
