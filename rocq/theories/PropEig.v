(** Properties of eigs (funpy/colloc/eig.py).  EigModel.v: [qz_ok] is the
    contract of scipy's ordqz, [eigs N tol r] the function's result. *)
From Coq Require Import Reals List Arith Bool Lra Lia.
From Coquelicot Require Import Coquelicot.
From Verif Require Import Base ToolsProofs ChebModel NewtonProofs TrigSpec TrigBase FnlModel OpModel OpSys EigModel EigProofs PropOp.
Import ListNotations.
Open Scope R_scope.

(** ** C185 *)
Lemma filter_split (f : nat -> bool) p N : exists M1 M2, filter f (seq 0 N) = M1 ++ M2 /\
  (forall k, In k M1 -> (k < p)%nat /\ (k < N)%nat /\ f k = true) /\ (forall k, In k M2 -> (p <= k < N)%nat /\ f k = true).
Proof.
  exists (filter f (seq 0 (Nat.min p N))), (filter f (seq (Nat.min p N) (N - Nat.min p N))). split.
  - rewrite <- filter_app. f_equal. replace N with (Nat.min p N + (N - Nat.min p N))%nat at 1 by lia. apply seq_app.
  - split; intros k H; apply filter_In in H; destruct H as [H F]; apply in_seq in H; (split; [lia|]); try exact F. split; [lia|exact F].
Qed.
Lemma in_eigs N tol d lam : In lam (snd (eigs N tol (Some d))) <->
  exists k, (k < N)%nat /\ tol < Cmod (beta d k) /\ lam = Cdiv (alpha d k) (beta d k).
Proof.
  cbn [eigs snd]. rewrite in_map_iff. split.
  - intros [k [E I]]. apply filter_In in I. destruct I as [I F]. apply in_seq in I. apply Rltb_spec in F. exists k. split; [lia|]. auto.
  - intros [k [K [F E]]]. exists k. split; [auto|]. apply filter_In. split; [apply in_seq; lia|]. now apply Rltb_spec.
Qed.
(** C185: every number returned is an eigenvalue of the pencil (A, B); of a
    regular pencil every eigenvalue is returned, unless its QZ denominator is at
    most tol (never zero); those with negative real part come first. *)
Theorem C185_eigenvalues : forall N A B d tol, 0 <= tol -> qz_ok N A B d ->
  exists L, eigs N tol (Some d) = (true, L) /\
  (forall lam, In lam L -> eigenvalue N A B lam) /\
  (regular N A B -> forall lam, eigenvalue N A B lam ->
     exists k, (k < N)%nat /\ beta d k <> RtoC 0 /\ lam = Cdiv (alpha d k) (beta d k) /\ (tol < Cmod (beta d k) -> In lam L)) /\
  (exists L1 L2, L = L1 ++ L2 /\ (forall z, In z L1 -> Re z < 0) /\ (forall z, In z L2 -> 0 <= Re z)) /\ (length L <= N)%nat.
Proof.
  intros N A B d tol T OK. eexists. split; [reflexivity|].
  assert (BN : forall k, tol < Cmod (beta d k) -> beta d k <> RtoC 0).
  { intros k H Z. rewrite Z, Cmod_0 in H. lra. }
  split; [|split; [|split]].
  - intros lam I. apply (in_eigs N tol d) in I. destruct I as [k [K [F E]]]. apply (eigenvalue_iff N A B d OK).
    exists k. split; [exact K|]. subst lam. field. now apply BN.
  - intros [mu R] lam E. apply (eigenvalue_iff N A B d OK) in E. destruct E as [k [K E]]. exists k. split; [exact K|].
    assert (NB : beta d k <> RtoC 0).
    { intros Z. apply R. apply (eigenvalue_iff N A B d OK). exists k. split; [exact K|]. rewrite E, Z. ring. }
    assert (EL : lam = Cdiv (alpha d k) (beta d k)) by (rewrite E; field; exact NB).
    split; [exact NB|]. split; [exact EL|]. intros F. apply (in_eigs N tol d). eauto.
  - destruct OK as [_ [_ [_ [_ [_ [p P]]]]]].
    destruct (filter_split (fun k => Rltb tol (Cmod (beta d k))) p N) as [M1 [M2 [E [H1 H2]]]].
    exists (map (fun k => Cdiv (alpha d k) (beta d k)) M1), (map (fun k => Cdiv (alpha d k) (beta d k)) M2).
    rewrite E, map_app. split; [reflexivity|]. split; intros z I; apply in_map_iff in I; destruct I as [k [<- I]].
    + destruct (H1 k I) as [Hp [HN _]]. now apply P.
    + destruct (H2 k I) as [Hp HF]. destruct (Rlt_le_dec (Re (Cdiv (alpha d k) (beta d k))) 0) as [L|G]; [|exact G].
      exfalso. assert (Z : (k < p)%nat) by (apply P; [lia|]; split; [apply BN; now apply Rltb_spec in HF|exact L]). lia.
  - rewrite map_length. clear. assert (Q : forall l, (length (filter (fun k => Rltb tol (Cmod (beta d k))) l) <= length l)%nat).
    { induction l as [|a l IH]; [cbn; lia|]. cbn. destruct (Rltb _ _); cbn; lia. }
    specialize (Q (seq 0 N)). rewrite seq_length in Q. exact Q.
Qed.
Print Assumptions C185_eigenvalues.

(** C185: a failed decomposition is reported. *)
Theorem C185_failure : forall N tol, fst (eigs N tol None) = false /\ forall d, fst (eigs N tol (Some d)) = true.
Proof. intros. split; reflexivity. Qed.
Print Assumptions C185_failure.

(** *** The pencil of the ultraspherical discretisation *)
Lemma dotl_N r x N : length x = N -> dotl r x = rsum N (fun j => nth j r 0 * nth j x 0).
Proof.
  intros L. unfold dotl. destruct (Nat.le_gt_cases (length r) N) as [H|H].
  - replace N with (length r + (N - length r))%nat by lia. rewrite rsum_app, (rsum_zero (N - length r)); [ring|].
    intros k Hk. rewrite (nth_overflow r) by lia. ring.
  - replace (length r) with (N + (length r - N))%nat by lia. rewrite rsum_app, (rsum_zero (length r - N)); [ring|].
    intros k Hk. rewrite (nth_overflow x) by lia. ring.
Qed.
Lemma unit_nth N j i : (i < N)%nat -> nth i (unit_vec N j) 0 = if Nat.eqb i j then 1 else 0.
Proof. intros H. unfold unit_vec. now rewrite nth_mk. Qed.
Lemma dotl_unit r N j : (j < N)%nat -> dotl r (unit_vec N j) = nth j r 0.
Proof.
  intros H. rewrite (dotl_N r _ N) by apply mk_length. rewrite (rsum_single N _ j); [|exact H|].
  - rewrite unit_nth, Nat.eqb_refl by exact H. ring.
  - intros k K NE. rewrite unit_nth by exact K. destruct (Nat.eqb_spec k j); [congruence|ring].
Qed.
Lemma nth_rows M x i : nth i (rows_apply M x) 0 = dotl (nth i M []) x.
Proof. unfold rows_apply. change 0 with (dotl [] x). apply (map_nth (fun r => dotl r x)). Qed.
Lemma conv_rows n m K : (K <= n)%nat -> (length (assemble n m K (fun e q => us_conv_block false n K (Nat.eqb e q))) = m * (n - K))%nat.
Proof.
  intros HK. rewrite assemble_rows by exact HK.
  assert (E : forall (l : list nat) k (f : nat -> list (list R)), (forall e, length (f e) = k) -> length (concat (map f l)) = (length l * k)%nat).
  { intros l k f H. induction l as [|a l IH]; [reflexivity|]. cbn [map concat length]. rewrite app_length, H, IH. lia. }
  unfold mk at 1. rewrite (E _ (n - K)%nat) by (intros; apply mk_length). now rewrite seq_length.
Qed.
Lemma eig_rhs_linear n m K x i : length x = (n * m)%nat ->
  nth i (eig_rhs n m K x) 0 = rsum (n * m) (fun j => nth i (eig_rhs n m K (unit_vec (n * m) j)) 0 * nth j x 0).
Proof.
  intros L. unfold eig_rhs. cbv zeta. set (P := assemble _ _ _ _). set (nc := (n * m - length P)%nat).
  destruct (Nat.lt_ge_cases i nc) as [H|H].
  - rewrite app_nth1 by (rewrite repeat_length; exact H). rewrite nth_repeat. symmetry. apply rsum_zero. intros k _.
    rewrite app_nth1 by (rewrite repeat_length; exact H). rewrite nth_repeat. ring.
  - rewrite app_nth2 by (rewrite repeat_length; exact H). rewrite repeat_length, nth_rows, (dotl_N _ x (n * m)) by exact L.
    apply rsum_ext. intros k Hk. rewrite app_nth2 by (rewrite repeat_length; exact H). rewrite repeat_length, nth_rows, dotl_unit by exact Hk. reflexivity.
Qed.
Lemma Re_RtoC_mult a z : Re (Cmult (RtoC a) z) = a * Re z.
Proof. unfold Re. cbn. ring. Qed.
Lemma Im_RtoC_mult a z : Im (Cmult (RtoC a) z) = a * Im z.
Proof. unfold Im. cbn. ring. Qed.
(** C185: a real number returned for the pencil of an operator with its
    constraints (us_matrix, eig_rhs: C104, C108) has a real eigenvector, that is
    a coefficient vector to which C108_eigenpair applies. *)
Theorem C185_real : forall n m K len eps Q fs d tol lam, (K <= n)%nat -> length fs = (K * m)%nat -> 0 <= tol ->
  let M := us_matrix n m K len eps Q fs in
  qz_ok (n * m) (dense M) (eig_B n m K) d -> In (RtoC lam) (snd (eigs (n * m) tol (Some d))) ->
  exists x, length x = (n * m)%nat /\ (exists j, nth j x 0 <> 0) /\ rows_apply M x = map (Rmult lam) (eig_rhs n m K x).
Proof.
  intros n m K len eps Q fs d tol lam HK Lf T M OK I.
  destruct (C185_eigenvalues _ _ _ _ tol T OK) as [L [E [H _]]]. rewrite E in I. cbn [snd] in I.
  destruct (H _ I) as [z [NZ EV]]. clear H I E L.
  assert (LM : length M = (n * m)%nat) by (apply C104_square; assumption).
  assert (KEY : forall part : C -> R, (part = Re \/ part = Im) ->
    rows_apply M (mk (n * m) (fun j => part (z j))) = map (Rmult lam) (eig_rhs n m K (mk (n * m) (fun j => part (z j))))).
  { intros part HP. set (x := mk (n * m) (fun j => part (z j))).
    assert (LX : length x = (n * m)%nat) by apply mk_length.
    assert (XN : forall j, (j < n * m)%nat -> nth j x 0 = part (z j)) by (intros j Hj; unfold x; now rewrite nth_mk).
    apply (list_ext _ _ 0).
    - unfold rows_apply. rewrite !map_length. unfold eig_rhs. rewrite app_length, repeat_length. unfold rows_apply. rewrite map_length.
      assert (Z := conv_rows n m K HK). rewrite LM, Z. nia.
    - unfold rows_apply at 1. rewrite map_length. intros i Hi. rewrite LM in Hi.
      rewrite nth_rows, (dotl_N _ x (n * m)) by exact LX.
      replace (nth i (map (Rmult lam) (eig_rhs n m K x)) 0) with (lam * nth i (eig_rhs n m K x) 0)
        by (rewrite <- (Rmult_0_r lam) at 2; symmetry; apply (map_nth (Rmult lam))).
      rewrite eig_rhs_linear by exact LX.
      assert (Z := EV i Hi). unfold cmv in Z. apply (f_equal part) in Z.
      destruct HP; subst part.
      + rewrite Re_RtoC_mult, !csum_Re in Z.
        rewrite (rsum_ext (n * m) _ (fun j => Re (Cmult (dense M i j) (z j)))).
        * rewrite Z. f_equal. apply rsum_ext. intros j Hj. unfold eig_B. rewrite Re_RtoC_mult, XN by exact Hj. reflexivity.
        * intros j Hj. unfold dense. rewrite Re_RtoC_mult, XN by exact Hj. reflexivity.
      + rewrite Im_RtoC_mult, !csum_Im in Z.
        rewrite (rsum_ext (n * m) _ (fun j => Im (Cmult (dense M i j) (z j)))).
        * rewrite Z. f_equal. apply rsum_ext. intros j Hj. unfold eig_B. rewrite Im_RtoC_mult, XN by exact Hj. reflexivity.
        * intros j Hj. unfold dense. rewrite Im_RtoC_mult, XN by exact Hj. reflexivity. }
  destruct NZ as [j [Hj NZ]].
  destruct (Req_dec (Re (z j)) 0) as [Zr|NR].
  - exists (mk (n * m) (fun j => Im (z j))). split; [apply mk_length|]. split; [|apply KEY; now right].
    exists j. rewrite nth_mk by exact Hj. intros Zi. apply NZ. apply injective_projections; [exact Zr|exact Zi].
  - exists (mk (n * m) (fun j => Re (z j))). split; [apply mk_length|]. split; [|apply KEY; now left].
    exists j. rewrite nth_mk by exact Hj. exact NR.
Qed.
Print Assumptions C185_real.

(** *** A case *)
(** The pencil of -x0 + x1 = lam x0, 2 x1 = 0 (one constraint): a QZ
    decomposition with Q = Z = I; -1 is returned, the infinite eigenvalue not. *)
Definition c185_A (i j : nat) : C := match i, j with 0%nat, 0%nat => RtoC (-1) | 0%nat, 1%nat => RtoC 1 | 1%nat, 1%nat => RtoC 2 | _, _ => RtoC 0 end.
Definition c185_B (i j : nat) : C := match i, j with 0%nat, 0%nat => RtoC 1 | _, _ => RtoC 0 end.
Definition c185_d : qz := mkQZ c185_A c185_B delta delta.
Lemma delta_conj i j : Cconj (delta i j) = delta i j.
Proof. unfold delta. destruct (Nat.eqb i j); apply injective_projections; cbn; ring. Qed.
Lemma c185_case : qz_ok 2 c185_A c185_B c185_d /\ regular 2 c185_A c185_B /\ eigs 2 0 (Some c185_d) = (true, [Cdiv (RtoC (-1)) (RtoC 1)]).
Proof.
  assert (UN : unitary 2 delta).
  { split; intros i j Hi Hj; cbn [csum]; rewrite !delta_conj; destruct i as [|[|]]; destruct j as [|[|]]; try lia; unfold delta; cbn; ring. }
  assert (OK : qz_ok 2 c185_A c185_B c185_d).
  { split; [exact UN|]. split; [exact UN|].
    split; [intros i j L I; destruct i as [|[|]]; destruct j; try lia; reflexivity|].
    split; [intros i j L I; destruct i as [|[|]]; destruct j; try lia; reflexivity|].
    split.
    - intros i j Hi Hj. cbn [csum c185_d qz_Q qz_Z qz_AA qz_BB]. rewrite !delta_conj.
      destruct i as [|[|]]; destruct j as [|[|]]; try lia; unfold delta, c185_A, c185_B; cbn [Nat.eqb]; split; ring.
    - exists 1%nat. intros k Hk. unfold lhp, alpha, beta. cbn [c185_d qz_AA qz_BB]. destruct k as [|[|]]; try lia; cbn [c185_A c185_B].
      + split; [intros _|lia]. split; [intros Z; apply RtoC_inj in Z; lra|]. unfold Cdiv, Cinv, Re. cbn. lra.
      + split; [lia|]. intros [Z _]. congruence. }
  split; [exact OK|]. split.
  - exists (RtoC 0). intros E. apply (eigenvalue_iff _ _ _ _ OK) in E. destruct E as [k [K E]]. unfold alpha, beta in E. cbn [c185_d qz_AA qz_BB] in E.
    rewrite Cmult_0_l in E. destruct k as [|[|]]; try lia; cbn [c185_A] in E; apply RtoC_inj in E; lra.
  - assert (B0 : beta c185_d 0 = RtoC 1) by reflexivity. assert (B1 : beta c185_d 1 = RtoC 0) by reflexivity.
    unfold eigs. cbn [seq filter]. rewrite B0, B1, Cmod_0, Cmod_1. unfold Rltb.
    destruct (Rlt_dec 0 1); [|lra]. destruct (Rlt_dec 0 0); [lra|]. reflexivity.
Qed.
Example ex_C185 : exists N A B d, qz_ok N A B d /\ regular N A B /\ length (snd (eigs N 0 (Some d))) = 1%nat.
Proof. exists 2%nat, c185_A, c185_B, c185_d. destruct c185_case as [A [B C]]. split; [exact A|]. split; [exact B|]. now rewrite C. Qed.
