(** Proofs about eigs (EigModel.v). *)
From Coq Require Import Reals List Arith Bool Lra Lia.
From Coquelicot Require Import Coquelicot.
From Verif Require Import Base ToolsProofs ChebModel NewtonProofs TrigSpec TrigBase OpModel EigModel.
Import ListNotations.
Open Scope R_scope.
Open Scope C_scope.

Lemma csum_0 n : csum n (fun _ => RtoC 0) = RtoC 0.
Proof. apply csum_zero. reflexivity. Qed.
(** back substitution *)
Lemma upper_solve N U : upper N U -> forall k, (k <= N)%nat -> (forall i, (i < k)%nat -> U i i <> RtoC 0) ->
  forall b, exists y, forall i, (i < k)%nat -> csum k (fun j => U i j * y j) = b i.
Proof.
  intros UP k. induction k as [|k IH]; intros KN D b; [exists (fun _ => RtoC 0); lia|].
  set (yk := b k / U k k).
  destruct (IH ltac:(lia) ltac:(auto) (fun i => b i - U i k * yk)) as [y Y].
  exists (fun j => if Nat.eqb j k then yk else y j). intros i Hi. cbn [csum]. rewrite Nat.eqb_refl.
  destruct (Nat.eq_dec i k) as [->|NE].
  - rewrite csum_zero; [|intros j Hj; rewrite UP by lia; ring]. unfold yk. field. apply D. lia.
  - rewrite (csum_ext k _ (fun j => U i j * y j)).
    + rewrite Y by lia. ring.
    + intros j Hj. destruct (Nat.eqb_spec j k); [lia|reflexivity].
Qed.
Lemma dec_diag (P : nat -> C) N : (forall i, (i < N)%nat -> P i <> RtoC 0) \/ exists k, (k < N)%nat /\ P k = RtoC 0 /\ forall i, (i < k)%nat -> P i <> RtoC 0.
Proof.
  induction N as [|N IH]; [left; lia|]. destruct IH as [A|[k [K [E M]]]]; [|right; exists k; split; [lia|auto]].
  destruct (Ceq_dec (P N) (RtoC 0)) as [E|NE].
  - right. exists N. auto.
  - left. intros i Hi. destruct (Nat.eq_dec i N) as [->|]; [exact NE|apply A; lia].
Qed.
Lemma some_nonzero N (x : nat -> C) : (forall j, (j < N)%nat -> x j = RtoC 0) \/ exists j, (j < N)%nat /\ x j <> RtoC 0.
Proof.
  induction N as [|N IH]; [left; lia|]. destruct IH as [A|[j [J E]]]; [|right; exists j; split; [lia|exact E]].
  destruct (Ceq_dec (x N) (RtoC 0)) as [E|NE].
  - left. intros j J. destruct (Nat.eq_dec j N) as [->|]; [exact E|apply A; lia].
  - right. exists N. auto.
Qed.
(** a triangular matrix with a zero on the diagonal has a null vector ... *)
Lemma upper_null N U k : upper N U -> (k < N)%nat -> U k k = RtoC 0 ->
  exists y, (exists j, (j < N)%nat /\ y j <> RtoC 0) /\ forall i, (i < N)%nat -> csum N (fun j => U i j * y j) = RtoC 0.
Proof.
  intros UP K0 E0. destruct (dec_diag (fun i => U i i) N) as [A|[k' [K [E M]]]]; [now apply A in E0|]. clear k K0 E0. rename k' into k.
  destruct (upper_solve N U UP k ltac:(lia) M (fun i => - U i k)) as [y Y].
  exists (fun j => if Nat.ltb j k then y j else if Nat.eqb j k then RtoC 1 else RtoC 0).
  split; [exists k; split; [exact K|]; rewrite Nat.ltb_irrefl, Nat.eqb_refl; intros Z; apply RtoC_inj in Z; lra|].
  intros i Hi. replace N with (k + (1 + (N - k - 1)))%nat by lia. rewrite !csum_app.
  rewrite (csum_ext k _ (fun j => U i j * y j)) by (intros j Hj; destruct (Nat.ltb_spec j k); [reflexivity|lia]).
  rewrite (csum_zero (N - k - 1)).
  2:{ intros j Hj. destruct (Nat.ltb_spec (k + (1 + j)) k); [lia|]. destruct (Nat.eqb_spec (k + (1 + j)) k); [lia|ring]. }
  cbn [csum]. replace (k + 0)%nat with k by lia. rewrite Nat.ltb_irrefl, Nat.eqb_refl.
  destruct (Nat.lt_ge_cases i k) as [L|G].
  - rewrite Y by exact L. ring.
  - rewrite csum_zero by (intros j Hj; rewrite UP by lia; ring).
    destruct (Nat.eq_dec i k) as [->|NE]; [rewrite E; ring|rewrite UP by lia; ring].
Qed.
(** ... and without one it has none. *)
Lemma upper_inj N U : upper N U -> (forall i, (i < N)%nat -> U i i <> RtoC 0) ->
  forall y, (forall i, (i < N)%nat -> csum N (fun j => U i j * y j) = RtoC 0) -> forall d j, (j < N)%nat -> (N - j <= d)%nat -> y j = RtoC 0.
Proof.
  intros UP D y Y. induction d; intros j Hj L; [lia|].
  assert (Z := Y j Hj). rewrite (csum_single N _ j) in Z; [|exact Hj|].
  - destruct (Ceq_dec (y j) (RtoC 0)) as [E|NE]; [exact E|]. exfalso. apply (Cmult_neq_0 (U j j) (y j)); auto.
  - intros i Hi NE. destruct (Nat.lt_ge_cases i j); [rewrite UP by lia; ring|]. rewrite (IHd i) by lia. ring.
Qed.

Section QZ.
Variables (N : nat) (A B : nat -> nat -> C) (d : qz).
Hypothesis OK : qz_ok N A B d.
Let zh (x : nat -> C) (l : nat) : C := csum N (fun j => Cconj (qz_Z d j l) * x j).
Lemma apply_form (W M : nat -> nat -> C) x i : (i < N)%nat ->
  (forall j, (j < N)%nat -> W i j = csum N (fun k => csum N (fun l => (qz_Q d i k * M k l) * Cconj (qz_Z d j l)))) ->
  cmv N W x i = csum N (fun k => qz_Q d i k * csum N (fun l => M k l * zh x l)).
Proof.
  intros Hi H. unfold cmv.
  rewrite (csum_ext N _ (fun j => csum N (fun k => csum N (fun l => qz_Q d i k * (M k l * (Cconj (qz_Z d j l) * x j)))))).
  2:{ intros j Hj. rewrite H by exact Hj. rewrite <- csum_scal_r. apply csum_ext. intros k _. rewrite <- csum_scal_r. apply csum_ext. intros l _. ring. }
  rewrite csum_swap. apply csum_ext. intros k _. rewrite csum_swap, <- csum_scal. apply csum_ext. intros l _.
  unfold zh. rewrite <- !csum_scal. reflexivity.
Qed.
Lemma zh_zero x : (forall l, (l < N)%nat -> zh x l = RtoC 0) -> forall j, (j < N)%nat -> x j = RtoC 0.
Proof.
  intros H j Hj. destruct OK as [_ [[_ UZ] _]].
  assert (E : csum N (fun l => qz_Z d j l * zh x l) = x j).
  { unfold zh. rewrite (csum_ext N _ (fun l => csum N (fun i => (qz_Z d j l * Cconj (qz_Z d i l)) * x i))).
    2:{ intros l _. rewrite <- csum_scal. apply csum_ext. intros i _. ring. }
    rewrite csum_swap. rewrite (csum_ext N _ (fun i => delta j i * x i)).
    2:{ intros i Hi. rewrite csum_scal_r, UZ by assumption. reflexivity. }
    rewrite (csum_single N _ j); [|exact Hj|intros i Hi NE; unfold delta; destruct (Nat.eqb_spec j i); [congruence|ring]].
    unfold delta. rewrite Nat.eqb_refl. ring. }
  rewrite <- E. apply csum_zero. intros l Hl. rewrite H by exact Hl. ring.
Qed.
Lemma zh_onto y : exists x, forall l, (l < N)%nat -> zh x l = y l.
Proof.
  destruct OK as [_ [[UZ _] _]]. exists (fun j => csum N (fun k => qz_Z d j k * y k)). intros l Hl. unfold zh.
  rewrite (csum_ext N _ (fun j => csum N (fun k => (Cconj (qz_Z d j l) * qz_Z d j k) * y k))).
  2:{ intros j _. rewrite <- csum_scal. apply csum_ext. intros i _. ring. }
  rewrite csum_swap. rewrite (csum_ext N _ (fun i => delta l i * y i)).
  2:{ intros i Hi. rewrite csum_scal_r, UZ by assumption. reflexivity. }
  rewrite (csum_single N _ l); [|exact Hl|intros i Hi NE; unfold delta; destruct (Nat.eqb_spec l i); [congruence|ring]].
  unfold delta. rewrite Nat.eqb_refl. ring.
Qed.
Lemma q_inj w : (forall i, (i < N)%nat -> csum N (fun k => qz_Q d i k * w k) = RtoC 0) -> forall k, (k < N)%nat -> w k = RtoC 0.
Proof.
  intros H k Hk. destruct OK as [[UQ _] _].
  assert (E : csum N (fun i => Cconj (qz_Q d i k) * csum N (fun l => qz_Q d i l * w l)) = w k).
  { rewrite (csum_ext N _ (fun i => csum N (fun l => (Cconj (qz_Q d i k) * qz_Q d i l) * w l))).
    2:{ intros i _. rewrite <- csum_scal. apply csum_ext. intros l _. ring. }
    rewrite csum_swap. rewrite (csum_ext N _ (fun l => delta k l * w l)).
    2:{ intros l Hl. rewrite csum_scal_r, UQ by assumption. reflexivity. }
    rewrite (csum_single N _ k); [|exact Hk|intros i Hi NE; unfold delta; destruct (Nat.eqb_spec k i); [congruence|ring]].
    unfold delta. rewrite Nat.eqb_refl. ring. }
  rewrite <- E. apply csum_zero. intros i Hi. rewrite H by exact Hi. ring.
Qed.
Let U lam i j := qz_AA d i j - lam * qz_BB d i j.
Lemma U_upper lam : upper N (U lam).
Proof. destruct OK as [_ [_ [UA [UB _]]]]. intros i j L I. unfold U. rewrite UA, UB by assumption. ring. Qed.
(** (A - lam B) x = Q (AA - lam BB) Z^H x *)
Lemma pencil lam x i : (i < N)%nat -> cmv N A x i - lam * cmv N B x i = csum N (fun k => qz_Q d i k * csum N (fun l => U lam k l * zh x l)).
Proof.
  intros Hi. destruct OK as [_ [_ [_ [_ [AB _]]]]].
  rewrite (apply_form A (qz_AA d)), (apply_form B (qz_BB d)); try exact Hi; try (intros j Hj; apply (AB i j Hi Hj)).
  unfold Cminus at 1.
  replace (- (lam * csum N (fun k => qz_Q d i k * csum N (fun l => qz_BB d k l * zh x l)))) with
     (csum N (fun k => (- lam) * (qz_Q d i k * csum N (fun l => qz_BB d k l * zh x l)))) by (rewrite csum_scal; ring).
  rewrite <- csum_plus. apply csum_ext. intros k _.
  replace (csum N (fun l => U lam k l * zh x l)) with (csum N (fun l => qz_AA d k l * zh x l) + (- lam) * csum N (fun l => qz_BB d k l * zh x l)).
  - ring.
  - rewrite <- csum_scal, <- csum_plus. apply csum_ext. intros l _. unfold U. ring.
Qed.
Lemma eigenvalue_iff lam : eigenvalue N A B lam <-> exists k, (k < N)%nat /\ alpha d k = lam * beta d k.
Proof.
  split.
  - intros [x [NZ E]].
    destruct (dec_diag (fun i => U lam i i) N) as [D|[k [K [Z _]]]].
    + exfalso. destruct NZ as [j [Hj NZ]]. apply NZ. revert j Hj NZ.
      assert (Y : forall l, (l < N)%nat -> zh x l = RtoC 0).
      { intros l Hl. apply (upper_inj N (U lam) (U_upper lam) D (zh x)) with (d := N); [|exact Hl|lia].
        apply q_inj. intros i Hi. rewrite <- pencil by exact Hi. rewrite E by exact Hi. ring. }
      intros j Hj _. now apply zh_zero.
    + exists k. split; [exact K|]. unfold alpha, beta. unfold U in Z.
      replace (qz_AA d k k) with ((qz_AA d k k - lam * qz_BB d k k) + lam * qz_BB d k k) by ring. rewrite Z. ring.
  - intros [k [K E]]. destruct (upper_null N (U lam) k (U_upper lam) K) as [y [[j [Hj NZ]] Y]].
    { unfold U. unfold alpha, beta in E. rewrite E. ring. }
    destruct (zh_onto y) as [x X]. exists x. split.
    + destruct (some_nonzero N x) as [AZ|NAZ]; [|exact NAZ].
        exfalso. apply NZ. rewrite <- X by exact Hj. unfold zh. apply csum_zero. intros q Hq. rewrite AZ by exact Hq. ring.
    + intros i Hi. assert (P := pencil lam x i Hi). rewrite csum_zero in P.
      * replace (cmv N A x i) with ((cmv N A x i - lam * cmv N B x i) + lam * cmv N B x i) by ring. rewrite P. ring.
      * intros q Hq. rewrite (csum_ext N _ (fun l => U lam q l * y l)) by (intros l Hl; now rewrite X). rewrite Y by exact Hq. ring.
Qed.
End QZ.
