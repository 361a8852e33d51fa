(** Properties of the adaptive solver (colloc/adapt.py).  Vocabulary in AdaptSpec.v;
    the Newton solver, prolongation and distance are arbitrary. *)
From Coq Require Import Reals List Arith ZArith Bool Lia Lra Sorted.
From Verif Require Import Base ToolsModel ToolsProofs ChebModel ChebDct AdaptModel AdaptSpec AdaptProofs.
Import ListNotations.
Open Scope nat_scope.

(** ** C109: result of the adaptive solver *)
(** C109: the discretisation sizes are strictly increasing, not below the size of the
    guess, and are exactly the numbers 1 + 2^k clipped to [lower, upper]. *)
Theorem C109_sizes : forall n_min n_max lower upper,
  StronglySorted lt (n_disc n_min n_max lower upper false) /\
  (forall n, In n (n_disc n_min n_max lower upper false) -> lower <= n <= Nat.max lower upper) /\
  (forall n, In n (n_disc n_min n_max lower upper false) <->
     exists k, Nat.min 7 n_min <= k <= n_max /\ n = Nat.max lower (Nat.min upper (1 + 2 ^ k))).
Proof.
  intros a b l u. split; [apply n_disc_sorted|]. split; [|intros n; apply n_disc_in].
  intros n Hn. apply n_disc_in in Hn. destruct Hn as (k & _ & ->). lia.
Qed.
Print Assumptions C109_sizes.
(** C109: the upper bound computed by solve is never below the size of the guess. *)
Theorem C109_upper : forall size up_steps, size <= upper_bd size up_steps.
Proof. exact upper_bd_ge. Qed.
Print Assumptions C109_upper.
(** C109: solve returns (for any Newton solver, converging or not), except when there
    is no size at all: n_max < min(7, n_min). *)
Theorem C109_returns : forall (S : Type) (prolong : nat -> S -> S) dist newton n_min n_max up mf eps c size st,
  adapt_solve prolong dist newton n_min n_max up mf eps c size st = None <-> c = false /\ n_max < Nat.min 7 n_min.
Proof.
  intros. unfold adapt_solve. rewrite loop_none. rewrite n_disc_nil. tauto.
Qed.
Print Assumptions C109_returns.
(** C109: the Newton calls form a run: one call per size, in order, each guess being the prolonged
    result of the previous successful call (or the previous guess if it failed). *)
Theorem C109_run : forall (S : Type) (prolong : nat -> S -> S) dist newton n_min n_max up mf eps c size st r b tr,
  adapt_solve prolong dist newton n_min n_max up mf eps c size st = Some (r, b, tr) ->
  tr <> [] /\ run_from prolong newton 0 st tr /\
  exists rest, n_disc n_min n_max size (upper_bd size up) c = map c_size tr ++ rest.
Proof.
  intros S prolong dist newton n_min n_max up mf eps c size st r b tr E.
  destruct (loop_run prolong dist newton eps mf _ 0 st false None [] r b tr E) as (t & rest & H1 & H2 & H3 & H4 & _). cbn [app] in H1. subst t.
  split; [|split; [exact H3|exists rest; exact H2]]. intros ->. destruct (H4 eq_refl) as (_ & F & _). discriminate.
Qed.
Print Assumptions C109_run.
(** C109: success means that the last Newton call converged, and the returned state is its
    result, or differs from it by less than eps (and then at least two sizes were tried). *)
Theorem C109_success : forall (S : Type) (prolong : nat -> S -> S) dist newton n_min n_max up mf eps c size st r tr d,
  adapt_solve prolong dist newton n_min n_max up mf eps c size st = Some (r, true, tr) ->
  let l := last tr d in c_ok l = true /\
  (r = c_best l \/ (2 <= length tr /\ r = c_guess_after l /\ (dist r (c_best l) < eps)%R)).
Proof.
  intros S prolong dist newton n_min n_max up mf eps c size st r tr d E l.
  destruct (C109_run _ _ _ _ _ _ _ _ _ _ _ _ _ _ _ E) as (Nt & _).
  destruct (loop_run prolong dist newton eps mf _ 0 st false None [] r true tr E) as (t & rest & H1 & H2 & H3 & H4 & H5 & _). cbn [app] in H1. subst t.
  destruct (H5 d Nt) as (A & _ & B). fold l in A, B. split; [symmetry; exact A|]. destruct B as [B|(B1 & B2 & B3)]; [left; exact B|right].
  split; [lia|]. split; [exact B3|]. destruct l as [[[[n g] g'] x] ok]. unfold c_small, c_guess_after, c_best, c_ok in *. destruct B1 as [-> B1]. subst r. exact B1.
Qed.
Print Assumptions C109_success.
(** C109: failure means that the last Newton call failed; the returned state is the guess
    object of that call, i.e. (if a failing solver leaves it alone) the prolonged last accepted state. *)
Theorem C109_failure : forall (S : Type) (prolong : nat -> S -> S) dist newton n_min n_max up mf eps c size st r tr d,
  adapt_solve prolong dist newton n_min n_max up mf eps c size st = Some (r, false, tr) ->
  c_ok (last tr d) = false /\ r = c_guess_after (last tr d).
Proof.
  intros S prolong dist newton n_min n_max up mf eps c size st r tr d E.
  destruct (C109_run _ _ _ _ _ _ _ _ _ _ _ _ _ _ _ E) as (Nt & _).
  destruct (loop_run prolong dist newton eps mf _ 0 st false None [] r false tr E) as (t & rest & H1 & H2 & H3 & H4 & H5 & _). cbn [app] in H1. subst t.
  destruct (H5 d Nt) as (A & _ & B). split; [symmetry; exact A|]. destruct (last tr d) as [[[[n g] g'] x] ok]. unfold c_small, c_guess_after, c_best, c_ok in *.
  subst ok. destruct B as [B|(B1 & B2 & B3)]; [exact B|exact B3].
Qed.
Print Assumptions C109_failure.
(** C109: when the sizes are not exhausted, the solver stopped because a call after the first
    succeeded with a change below eps, or because the first max_fail_steps calls all failed;
    and it goes on as long as neither happened. *)
Theorem C109_stops : forall (S : Type) (prolong : nat -> S -> S) dist newton n_min n_max up mf eps c size st r b tr d,
  adapt_solve prolong dist newton n_min n_max up mf eps c size st = Some (r, b, tr) ->
  (length tr = length (n_disc n_min n_max size (upper_bd size up) c) \/
   (b = true /\ 2 <= length tr /\ c_small dist eps (last tr d)) \/
   (b = false /\ mf <= length tr /\ forall l, In l tr -> c_ok l = false)) /\
  (forall i, i < length tr - 1 -> ~ (1 <= i /\ c_small dist eps (nth i tr d)) /\
     ~ (mf <= i + 1 /\ forall j, j <= i -> c_ok (nth j tr d) = false)).
Proof.
  intros S prolong dist newton n_min n_max up mf eps c size st r b tr d E.
  destruct (loop_run prolong dist newton eps mf _ 0 st false None [] r b tr E) as (t & rest & H1 & H2 & H3 & H4 & H5 & H6 & H7). cbn [app] in H1. subst t. split.
  - destruct rest as [|a rest]; [left; rewrite H2, app_nil_r, map_length; reflexivity|right].
    destruct (H6 ltac:(discriminate)) as [(A & B & C)|(A & _ & B & _ & C)]; [left|right]; auto.
  - intros i Hi. destruct (H7 i d Hi) as [A B]. split; [exact A|]. intros [X Y]. apply B. auto.
Qed.
Print Assumptions C109_stops.
(** C109: if no call converges, exactly min(max_fail_steps, number of sizes) calls are made (max_fail_steps >= 1) and the
    result is reported as a failure. *)
Theorem C109_all_fail : forall (S : Type) (prolong : nat -> S -> S) dist newton n_min n_max up mf eps c size st r b tr,
  (forall k n s, snd (newton k n s) = false) -> 1 <= mf ->
  adapt_solve prolong dist newton n_min n_max up mf eps c size st = Some (r, b, tr) ->
  b = false /\ length tr = Nat.min mf (length (n_disc n_min n_max size (upper_bd size up) c)).
Proof.
  intros S prolong dist newton n_min n_max up mf eps c size st r b tr Nf Hm E.
  destruct (C109_run _ _ _ _ _ _ _ _ _ _ _ _ _ _ _ E) as (Nt & Rn & rest & Er).
  assert (F : forall t k s, run_from prolong newton k s t -> forall l, In l t -> c_ok l = false).
  { induction t as [|[[[[n g] g'] x] ok] t IH]; intros k s H l Hl; [destruct Hl|]. cbn [run_from] in H. destruct H as (_ & H1 & H2).
    destruct Hl as [<-|Hl]; [|apply (IH _ _ H2 _ Hl)]. unfold c_ok. specialize (Nf k n g). rewrite H1 in Nf. exact Nf. }
  specialize (F _ _ _ Rn). destruct tr as [|l0 tr0]; [exfalso; apply Nt; reflexivity|]. set (tr := l0 :: tr0) in *.
  destruct (C109_stops _ _ _ _ _ _ _ _ _ _ _ _ _ _ _ l0 E) as (A & B).
  assert (Lt : length tr <= length (n_disc n_min n_max size (upper_bd size up) c)) by (rewrite Er, app_length, map_length; apply Nat.le_add_r).
  assert (Lm : length tr <= mf).
  { destruct (Nat.le_gt_cases (length tr) mf) as [H|H]; [exact H|exfalso]. destruct (B (mf - 1) ltac:(lia)) as [_ X]. apply X. split; [lia|].
    intros j Hj. apply F. apply nth_In. lia. }
  assert (Lo : c_ok (last tr l0) = false). { apply F. destruct (@exists_last _ tr Nt) as (u & v & Ev). rewrite Ev, last_last. apply in_or_app. right. left. reflexivity. }
  assert (b = false).
  { destruct b; [|reflexivity]. destruct (C109_success _ _ _ _ _ _ _ _ _ _ _ _ _ _ l0 E) as (X & _). rewrite Lo in X. discriminate. }
  split; [assumption|]. unfold tr in *. clear tr. set (N := length (n_disc _ _ _ _ _)) in *. destruct A as [A|[(A & _)|(_ & A & _)]]; [lia|congruence|lia].
Qed.
Print Assumptions C109_all_fail.
(** a run: states are numbers, "Newton" halves the error to the root 1 when the size is at least 33;
    the first call (17) fails, the later ones converge *)
Definition ex_newton (k n : nat) (s : R) : R * R * bool := (s, ((1 + s) / 2)%R, Nat.leb 33 n).
Example ex_C109 :
  exists r tr, adapt_solve (fun _ s => s) (fun s t => Rabs (s - t)) ex_newton 4 6 12 3 (/ 4)%R false 17 0%R = Some (r, true, tr) /\
    map c_size tr = [17; 33; 65] /\ map c_ok tr = [false; true; true].
Proof.
  unfold adapt_solve. assert (D : n_disc 4 6 17 (upper_bd 17 12) false = [17; 33; 65]).
  { assert (U : upper_bd 17 12 = 2 ^ 16) by reflexivity. rewrite U. unfold n_disc, arange, np_unique. cbn [map seq Nat.min Nat.sub Nat.add].
    assert (P : 65 <= 2 ^ 16) by (change 65 with (2 ^ 6 + 1); assert (2 ^ 6 < 2 ^ 16) by (apply Nat.pow_lt_mono_r; lia); lia).
    rewrite !(Nat.min_r (2 ^ 16)) by (cbn [Nat.pow]; cbn [Nat.pow] in P; lia). reflexivity. }
  rewrite D. unfold ex_newton. cbn [adapt_loop Nat.leb Nat.ltb andb negb app Nat.add].
  assert (Z : Rltb (Rabs (0 - (1 + 0) / 2)) (/ 4) = false). { unfold Rltb. destruct (Rlt_dec _ _) as [H|H]; [exfalso|reflexivity]. replace (0 - (1 + 0) / 2)%R with (- / 2)%R in H by lra. rewrite Rabs_Ropp, Rabs_pos_eq in H; lra. }
  rewrite Z. cbn [andb]. match goal with |- context [Rltb ?u ?v] => destruct (Rltb u v) end; cbn [andb]; eexists; eexists; (split; [reflexivity|split; reflexivity]).
Qed.

(** ** C110: the grids are nested *)
(** C110 (partial): if the guess has 2^j + 1 points and n_max < j + up_steps, the Chebyshev points of every
    smaller grid are among those of every larger one. *)
Theorem C110_nested_partial : forall n_min n_max j up n n', 1 <= up -> n_max < j + up ->
  In n (n_disc n_min n_max (1 + 2 ^ j) (upper_bd (1 + 2 ^ j) up) false) ->
  In n' (n_disc n_min n_max (1 + 2 ^ j) (upper_bd (1 + 2 ^ j) up) false) -> n <= n' ->
  forall i, i < n -> exists i', i' < n' /\ nth i' (chebpts_type2_compute n') 0%R = nth i (chebpts_type2_compute n) 0%R.
Proof.
  intros n_min n_max j up n n' Hu Hn H H' Hle i Hi.
  assert (U : forall k, k <= n_max -> Nat.min (upper_bd (1 + 2 ^ j) up) (1 + 2 ^ k) = 1 + 2 ^ k).
  { intros k Hk. apply Nat.min_r. assert (P : 2 ^ (j + up) <= upper_bd (1 + 2 ^ j) up).
    { unfold upper_bd. assert (J := Nat.pow_nonzero 2 j ltac:(lia)). destruct (next_pow2_correct (Z.of_nat (1 + 2 ^ j)) ltac:(lia)) as (p & E & Hp & (e & He & Ee) & _). rewrite E. subst p.
      assert (Y : Z.to_nat (2 ^ e) = 2 ^ Z.to_nat e). { rewrite <- (Z2Nat.id e) at 1 by lia. rewrite <- Nat2Z.inj_pow with (n := 2). apply Nat2Z.id. }
      rewrite Y, Nat.log2_pow2 by lia. apply Nat.pow_le_mono_r; [lia|]. assert (X : j < Z.to_nat e); [|lia]. apply (Nat.pow_lt_mono_r_iff 2); [lia|]. rewrite <- Y. lia. }
    assert (2 ^ k < 2 ^ (j + up)) by (apply Nat.pow_lt_mono_r; lia). lia. }
  assert (N : forall n, In n (n_disc n_min n_max (1 + 2 ^ j) (upper_bd (1 + 2 ^ j) up) false) -> exists k, n = 1 + 2 ^ k).
  { intros m Hm. apply n_disc_in in Hm. destruct Hm as (k & Hk & ->). rewrite U by lia. exists (Nat.max j k).
    destruct (Nat.le_ge_cases j k) as [Q|Q]; [rewrite (Nat.max_r j k) by exact Q|rewrite (Nat.max_l j k) by exact Q].
    - apply Nat.max_r. apply (Nat.pow_le_mono_r 2) in Q; lia.
    - apply Nat.max_l. apply (Nat.pow_le_mono_r 2) in Q; lia. }
  destruct (N n H) as (k & ->). destruct (N n' H') as (k' & ->).
  assert (Hk : k <= k') by (apply (Nat.pow_le_mono_r_iff 2); lia).
  assert (K0 := Nat.pow_nonzero 2 k ltac:(lia)). assert (K1 := Nat.pow_nonzero 2 k' ltac:(lia)). assert (Kd := Nat.pow_nonzero 2 (k' - k) ltac:(lia)).
  assert (Ek : 2 ^ k' = 2 ^ (k' - k) * 2 ^ k) by (rewrite <- Nat.pow_add_r; f_equal; lia).
  exists (i * 2 ^ (k' - k)). assert (Hi' : i * 2 ^ (k' - k) <= 2 ^ k') by nia. split; [lia|].
  rewrite !chebpts_nth by lia. f_equal. replace (1 + 2 ^ k' - 1) with (2 ^ k') by lia. replace (1 + 2 ^ k - 1) with (2 ^ k) by lia.
  replace (2 ^ k' - i * 2 ^ (k' - k)) with ((2 ^ k - i) * 2 ^ (k' - k)) by nia. rewrite Ek, !mult_INR. field. split; apply not_0_INR; lia.
Qed.
Print Assumptions C110_nested_partial.
(** C110 is false in general: a guess with 20 points is refined to 33, and the second point of the
    small grid is not a point of the large one. *)
Theorem C110_nested_refuted : In 20 (n_disc 2 14 20 (upper_bd 20 12) false) /\ In 33 (n_disc 2 14 20 (upper_bd 20 12) false) /\
  forall i', i' < 33 -> nth i' (chebpts_type2_compute 33) 0%R <> nth 1 (chebpts_type2_compute 20) 0%R.
Proof.
  assert (U : upper_bd 20 12 = 2 ^ 16) by reflexivity. rewrite U.
  assert (P : 33 <= 2 ^ 16) by (change 33 with (2 ^ 5 + 1); assert (2 ^ 5 < 2 ^ 16) by (apply Nat.pow_lt_mono_r; lia); lia).
  set (big := 2 ^ 16) in *. clearbody big. split; [|split].
  - apply n_disc_in. exists 2. split; [cbn; lia|]. change (1 + 2 ^ 2) with 5. lia.
  - apply n_disc_in. exists 5. split; [cbn; lia|]. change (1 + 2 ^ 5) with 33. lia.
  - intros i Hi E. rewrite !chebpts_nth in E by lia. change (33 - 1) with 32 in E. change (20 - 1 - 1) with 18 in E. change (20 - 1) with 19 in E.
    set (a := 32 - i) in E. assert (Ha : a <= 32) by (unfold a; lia). assert (PI0 := PI_RGT_0).
    assert (Q : forall m q, 0 < q -> m <= q -> (0 <= PI * INR m / INR q <= PI)%R).
    { intros m q Hq Hm. apply le_INR in Hm. assert (0 < INR q)%R by (apply lt_0_INR; lia). assert (0 <= INR m)%R by apply pos_INR. split.
      - apply Rmult_le_pos; [nra|]. apply Rlt_le, Rinv_0_lt_compat. assumption.
      - apply (Rmult_le_reg_r (INR q)); [assumption|]. unfold Rdiv. rewrite Rmult_assoc, Rinv_l by lra. nra. }
    assert (Q1 := Q a 32 ltac:(lia) Ha). assert (Q2 := Q 18 19 ltac:(lia) ltac:(lia)).
    assert (E2 : (PI * INR a / INR 32 = PI * INR 18 / INR 19)%R).
    { destruct (Rtotal_order (PI * INR a / INR 32) (PI * INR 18 / INR 19)) as [H|[H|H]]; [exfalso|exact H|exfalso].
      - assert (X := cos_decreasing_1 _ _ (proj1 Q1) (proj2 Q1) (proj1 Q2) (proj2 Q2) H). lra.
      - assert (X := cos_decreasing_1 _ _ (proj1 Q2) (proj2 Q2) (proj1 Q1) (proj2 Q1) H). lra. }
    assert (E3 : (INR a * INR 19 = INR 18 * INR 32)%R).
    { apply (Rmult_eq_reg_l (PI / (INR 32 * INR 19))%R).
      - replace (PI / (INR 32 * INR 19) * (INR a * INR 19))%R with (PI * INR a / INR 32)%R by (field; split; apply not_0_INR; lia).
        rewrite E2. field. split; apply not_0_INR; lia.
      - apply Rgt_not_eq. apply Rdiv_lt_0_compat; [exact PI0|]. apply Rmult_lt_0_compat; apply lt_0_INR; lia. }
    rewrite <- !mult_INR in E3. apply INR_eq in E3. lia.
Qed.
Print Assumptions C110_nested_refuted.
Example ex_C110 : In 17 (n_disc 2 14 (1 + 2 ^ 4) (upper_bd (1 + 2 ^ 4) 12) false) /\ 14 < 4 + 12.
Proof. split; [|lia]. apply n_disc_in. exists 2. split; [cbn; lia|]. cbn [Nat.pow Nat.mul Nat.add]. lia. Qed.

(** ** C111: refinement ends only when two successive approximations agree *)
(** C111 (partial): for a solver that leaves the guess alone, if the solver succeeds before the sizes are
    exhausted, the last two approximations (prolonged guess and solution) differ by less than eps. *)
Theorem C111_agree_partial : forall (S : Type) (prolong : nat -> S -> S) dist newton n_min n_max up mf eps c size st r tr d,
  (forall k n s, fst (fst (newton k n s)) = s) ->
  adapt_solve prolong dist newton n_min n_max up mf eps c size st = Some (r, true, tr) ->
  length tr < length (n_disc n_min n_max size (upper_bd size up) c) ->
  let '(n, g, _, x, ok) := last tr d in (dist g x < eps)%R /\ exists k, newton k n g = (g, x, true).
Proof.
  intros S prolong dist newton n_min n_max up mf eps c size st r tr d Hp E Hl.
  destruct (C109_run _ _ _ _ _ _ _ _ _ _ _ _ _ _ _ E) as (Nt & Rn & _).
  destruct (C109_stops _ _ _ _ _ _ _ _ _ _ _ _ _ _ _ d E) as (A & _). destruct A as [A|[(_ & _ & A)|(A & _)]]; [lia| |discriminate].
  assert (X : forall (t : list (@call S)) k s, t <> [] -> run_from prolong newton k s t -> let '(n, g, g', x, ok) := last t d in exists k, newton k n g = (g', x, ok)).
  { induction t as [|[[[[n g] g'] x] ok] t IH]; intros k s H Hr; [exfalso; apply H; reflexivity|]. destruct t as [|c0 t].
    - cbn [last]. cbn [run_from] in Hr. exists k. tauto.
    - change (last ((n, g, g', x, ok) :: c0 :: t) d) with (last (c0 :: t) d). cbn [run_from] in Hr. apply (IH (k + 1) (if ok then x else g')); [discriminate|tauto]. }
  assert (Y := X tr 0 st Nt Rn). clear X. destruct (last tr d) as [[[[n g] g'] x] ok]. unfold c_small in A. destruct A as (-> & A).
  destruct Y as (k & X).
  specialize (Hp k n g). rewrite X in Hp. cbn [fst] in Hp. subst g'. split; [exact A|]. exists k. exact X.
Qed.
Print Assumptions C111_agree_partial.
(** C111 is false for solvers updating the guess in place (as NewtonStandard does, C91): guess and solution are
    then the same object, the distance is 0, and the second size is the last, whatever the approximations. *)
Theorem C111_agree_refuted : forall (S : Type) (prolong : nat -> S -> S) dist (f : nat -> S -> S) n_min n_max up mf eps size st n1 n2 ns,
  (forall s, dist s s = 0%R) -> (0 < eps)%R ->
  n_disc n_min n_max size (upper_bd size up) false = n1 :: n2 :: ns ->
  exists tr, adapt_solve prolong dist (fun _ n s => (f n s, f n s, true)) n_min n_max up mf eps false size st =
    Some (f n2 (prolong n2 (f n1 (prolong n1 st))), true, tr).
Proof.
  intros S prolong dist f n_min n_max up mf eps size st n1 n2 ns H0 He Hn. unfold adapt_solve. rewrite Hn. cbn [adapt_loop Nat.ltb Nat.leb].
  rewrite !H0. assert (Z : Rltb 0 eps = true) by (unfold Rltb; destruct (Rlt_dec 0 eps); [reflexivity|contradiction]). rewrite Z. cbn [andb]. eexists. reflexivity.
Qed.
Print Assumptions C111_agree_refuted.
