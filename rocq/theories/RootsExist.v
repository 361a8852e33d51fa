(** An exact eigenvalue routine exists: a Chebyshev series with non-zero last coefficient has
    finitely many complex zeros.  Used only to show that hypotheses can be met. *)
From Coq Require Import Reals List Arith Lia Lra ClassicalEpsilon.
From Coquelicot Require Import Coquelicot.
From Verif Require Import Base ChebSpec TrigSpec TrigBase RootsSpec RootsModel RootsColl RootsProofs.
Import ListNotations.
Open Scope C_scope.

Fixpoint polyd (n : nat) (f : C -> C) : Prop :=
  match n with
  | O => exists a, a <> RtoC 0 /\ forall z, f z = a
  | S n => exists a g, polyd n g /\ forall z, f z = a + z * g z
  end.
Fixpoint polyl (n : nat) (f : C -> C) : Prop :=
  match n with
  | O => forall z, f z = RtoC 0
  | S n => exists a g, polyl n g /\ forall z, f z = a + z * g z
  end.
Lemma polyd_ext n f g : (forall z, f z = g z) -> polyd n f -> polyd n g.
Proof.
  intros E. destruct n; cbn.
  - intros (a & H1 & H2). exists a. split; [exact H1|]. intros z. rewrite <- E. apply H2.
  - intros (a & h & H1 & H2). exists a, h. split; [exact H1|]. intros z. rewrite <- E. apply H2.
Qed.
Lemma polyl_ext n f g : (forall z, f z = g z) -> polyl n f -> polyl n g.
Proof.
  intros E. destruct n; cbn.
  - intros H2 z. rewrite <- E. apply H2.
  - intros (a & h & H1 & H2). exists a, h. split; [exact H1|]. intros z. rewrite <- E. apply H2.
Qed.
Lemma polyl_0 n : polyl n (fun _ => RtoC 0).
Proof. induction n; cbn; [reflexivity|]. exists (RtoC 0), (fun _ => RtoC 0). split; [exact IHn|]. intros z. ring. Qed.
Lemma polyd_l n f : polyd n f -> polyl (S n) f.
Proof.
  revert f. induction n as [|n IH]; intros f H.
  - destruct H as (a & _ & H). exists a, (fun _ => RtoC 0). split; [exact (polyl_0 0)|]. intros z. rewrite H. ring.
  - destruct H as (a & g & H1 & H2). exists a, g. split; [apply IH; exact H1|exact H2].
Qed.
Lemma polyl_S n f : polyl n f -> polyl (S n) f.
Proof.
  revert f. induction n as [|n IH]; intros f H.
  - exists (RtoC 0), (fun _ => RtoC 0). split; [exact (polyl_0 0)|]. intros z. rewrite H. ring.
  - destruct H as (a & g & H1 & H2). exists a, g. split; [apply IH; exact H1|exact H2].
Qed.
Lemma polyl_scal n a f : polyl n f -> polyl n (fun z => a * f z).
Proof.
  revert f. induction n as [|n IH]; intros f H.
  - intros z. rewrite H. ring.
  - destruct H as (b & g & H1 & H2). exists (a * b), (fun z => a * g z). split; [apply IH; exact H1|]. intros z. rewrite H2. ring.
Qed.
Lemma polyl_plus n f g : polyl n f -> polyl n g -> polyl n (fun z => f z + g z).
Proof.
  revert f g. induction n as [|n IH]; intros f g H K.
  - intros z. rewrite H, K. ring.
  - destruct H as (a & f' & H1 & H2). destruct K as (b & g' & K1 & K2). exists (a + b), (fun z => f' z + g' z). split; [apply IH; assumption|]. intros z. rewrite H2, K2. ring.
Qed.
Lemma polyd_scal n a f : a <> RtoC 0 -> polyd n f -> polyd n (fun z => a * f z).
Proof.
  intros Ha. revert f. induction n as [|n IH]; intros f H.
  - destruct H as (b & H1 & H2). exists (a * b). split; [apply Cmult_neq_0; assumption|]. intros z. rewrite H2. reflexivity.
  - destruct H as (b & g & H1 & H2). exists (a * b), (fun z => a * g z). split; [apply IH; exact H1|]. intros z. rewrite H2. ring.
Qed.
Lemma polyd_plus n f g : polyd n f -> polyl n g -> polyd n (fun z => f z + g z).
Proof.
  revert f g. induction n as [|n IH]; intros f g H K.
  - destruct H as (a & H1 & H2). exists a. split; [exact H1|]. intros z. rewrite H2, K. ring.
  - destruct H as (a & f' & H1 & H2). destruct K as (b & g' & K1 & K2). exists (a + b), (fun z => f' z + g' z). split; [apply IH; assumption|]. intros z. rewrite H2, K2. ring.
Qed.
Lemma RtoC_nz (a : R) : a <> 0%R -> RtoC a <> RtoC 0.
Proof. intros H E. apply H. apply RtoC_inj. exact E. Qed.
Lemma TC_polyd n : polyd n (TC n) /\ polyd (S n) (TC (S n)).
Proof.
  assert (P0 : polyd 0 (TC 0)). { exists (RtoC 1). split; [apply RtoC_nz; lra|reflexivity]. }
  induction n as [|n [I1 I2]].
  - split; [exact P0|]. exists (RtoC 0), (fun _ => RtoC 1). split; [exists (RtoC 1); split; [apply RtoC_nz; lra|reflexivity]|]. intros z. cbn. ring.
  - split; [exact I2|]. apply polyd_ext with (fun z => z * (RtoC 2 * TC (S n) z) + RtoC (-1) * TC n z).
    + intros z. change (TC (S (S n)) z) with (RtoC 2 * z * TC (S n) z - TC n z). replace (RtoC (-1)) with (- RtoC 1) by (rewrite <- RtoC_opp; reflexivity). ring.
    + apply polyd_plus.
      * exists (RtoC 0), (fun z => RtoC 2 * TC (S n) z). split; [apply polyd_scal; [apply RtoC_nz; lra|exact I2]|]. intros z. ring.
      * apply polyl_S. apply polyl_scal. apply polyd_l. exact I1.
Qed.
Lemma csum_polyl n (F : nat -> C -> C) : (forall k, (k < n)%nat -> polyl n (F k)) -> forall m, (m <= n)%nat -> polyl n (fun z => csum m (fun k => F k z)).
Proof.
  intros H. induction m as [|m IH]; intros Hm.
  - apply polyl_0.
  - apply polyl_ext with (fun z => csum m (fun k => F k z) + F m z); [intros z; reflexivity|]. apply polyl_plus; [apply IH; lia|apply H; lia].
Qed.
Lemma polyl_le n m f : (n <= m)%nat -> polyl n f -> polyl m f.
Proof. induction 1; intros H1; [exact H1|]. apply polyl_S. auto. Qed.
Lemma evalTC_polyd c : (1 <= length c)%nat -> nth (length c - 1) c 0%R <> 0%R -> polyd (length c - 1) (evalTC c).
Proof.
  intros L H. set (n := (length c - 1)%nat) in *.
  apply polyd_ext with (fun z => RtoC (nth n c 0%R) * TC n z + csum n (fun k => RtoC (nth k c 0%R) * TC k z)).
  - intros z. unfold evalTC. replace (length c) with (S n) by (unfold n; lia). cbn [csum]. ring.
  - apply polyd_plus; [apply polyd_scal; [apply RtoC_nz; exact H|apply TC_polyd]|].
    apply csum_polyl; [|lia]. intros k Hk. apply polyl_scal. apply polyl_le with (S k); [lia|]. apply polyd_l. apply TC_polyd.
Qed.
Lemma polyd_div n f r : polyd (S n) f -> exists g, polyd n g /\ forall z, f z = f r + (z - r) * g z.
Proof.
  revert f. induction n as [|n IH]; intros f (a & h & H1 & H2).
  - destruct H1 as (b & B1 & B2). exists (fun _ => b). split; [exists b; split; [exact B1|reflexivity]|]. intros z. rewrite (H2 z), (H2 r), !B2. ring.
  - destruct (IH h H1) as (k & K1 & K2). exists (fun z => h r + z * k z). split; [exists (h r), k; split; [exact K1|reflexivity]|].
    intros z. rewrite (H2 z), (H2 r), (K2 z). ring.
Qed.
Lemma polyd_roots n f : polyd n f -> exists l : list C, forall z, In z l <-> f z = RtoC 0.
Proof.
  revert f. induction n as [|n IH]; intros f H.
  - destruct H as (a & H1 & H2). exists []. intros z. rewrite H2. split; [intros []|contradiction].
  - destruct (classic (exists r, f r = RtoC 0)) as [[r Hr]|N].
    + destruct (polyd_div n f r H) as (g & G1 & G2). destruct (IH g G1) as [l Hl]. exists (r :: l). intros z. rewrite (G2 z), Hr. cbn [In]. rewrite Hl. split.
      * intros [->|E]; [|rewrite E]; ring.
      * intros E. destruct (classic (r = z)) as [->|Ne]; [left; reflexivity|]. right.
        destruct (classic (g z = RtoC 0)) as [E2|N2]; [exact E2|]. exfalso.
        assert (D : z - r <> RtoC 0). { intros D. apply Ne. replace z with (z - r + r) by ring. rewrite D. ring. }
        apply (Cmult_neq_0 _ _ D N2). replace ((z - r) * g z) with (RtoC 0 + (z - r) * g z) by ring. exact E.
    + exists []. intros z. split; [intros []|]. intros E. exfalso. apply N. exists z. exact E.
Qed.
Definition exact_eigs (N : nat) (A B : nat -> nat -> R) : list C := epsilon (inhabits []) (fun l => forall z, In z l <-> gen_eig N A B z).
Lemma exact_eigs_ok c : (3 <= length c)%nat -> nth (length c - 1) c 0%R <> 0%R -> eig_ok exact_eigs c.
Proof.
  intros L H. unfold eig_ok, exact_eigs. apply epsilon_spec.
  destruct (polyd_roots _ _ (evalTC_polyd c ltac:(lia) H)) as [l Hl]. exists l. intros z. rewrite Hl. symmetry. apply colleague; assumption.
Qed.
