(** The colleague pencil: its eigenvalues are the roots of the Chebyshev series. *)
From Coq Require Import Reals ZArith List Arith Bool Lra Lia.
From Coquelicot Require Import Coquelicot.
From Verif Require Import Base ChebSpec ChebModel TrigSpec TrigBase RootsSpec RootsModel.
Import ListNotations.
Open Scope R_scope.
Open Scope C_scope.

Lemma TC_SS k z : TC (S (S k)) z = RtoC 2 * z * TC (S k) z - TC k z. Proof. reflexivity. Qed.
Lemma csum_delta n j (c : C) f : csum n (fun i => (if Nat.eqb i j then c else RtoC 0) * f i) = if Nat.ltb j n then c * f j else RtoC 0.
Proof.
  destruct (Nat.ltb_spec j n) as [H|H].
  - rewrite (csum_single _ _ j H); [rewrite Nat.eqb_refl; reflexivity|]. intros i Hi Hne. apply Nat.eqb_neq in Hne. rewrite Hne. ring.
  - apply csum_zero. intros i Hi. destruct (Nat.eqb_spec i j); [lia|ring].
Qed.

Lemma cmul_reg (c x y : C) : c <> RtoC 0 -> c * x = c * y -> x = y.
Proof. intros H E. transitivity (/ c * (c * x)); [field; exact H|]. rewrite E. field. exact H. Qed.

Section pencil.
  Context (n : nat) (a : nat -> C) (cl : C) (Hn : (3 <= n)%nat).
  Let N := (n - 1)%nat.
  (** superdiagonal and diagonal of B *)
  Let s (i : nat) : C := if Nat.eqb i (N - 2) then RtoC 1 else RtoC (/ 2).
  Let b (i : nat) : C := if Nat.eqb i 0 then cl else RtoC 1.
  Definition pA (i j : nat) : C :=
    (if Nat.eqb j 0 then a (N - 1 - i) else RtoC 0) + (if Nat.eqb j (S i) then s i else RtoC 0) + (if Nat.eqb i (S j) && negb (Nat.eqb j 0) then RtoC (/ 2) else RtoC 0).
  Definition pB (i j : nat) : C := if Nat.eqb i j then b i else RtoC 0.
  Definition res (z : C) (v : nat -> C) (i : nat) : C := csum N (fun j => pA i j * v j) - z * csum N (fun j => pB i j * v j).
  Lemma rowB v i : (i < N)%nat -> csum N (fun j => pB i j * v j) = b i * v i.
  Proof.
    intros Hi. rewrite (csum_ext _ _ (fun j => (if Nat.eqb j i then b i else RtoC 0) * v j)).
    - rewrite csum_delta. destruct (Nat.ltb_spec i N); [reflexivity|lia].
    - intros j _. unfold pB. rewrite Nat.eqb_sym. reflexivity.
  Qed.
  Lemma rowA v i : (i < N)%nat -> csum N (fun j => pA i j * v j) =
    a (N - 1 - i)%nat * v 0%nat + (if Nat.ltb (S i) N then s i * v (S i) else RtoC 0) + (if Nat.leb 2 i then RtoC (/ 2) * v (i - 1)%nat else RtoC 0).
  Proof.
    intros Hi. rewrite (csum_ext _ _ (fun j => ((if Nat.eqb j 0 then a (N - 1 - i)%nat else RtoC 0) * v j + (if Nat.eqb j (S i) then s i else RtoC 0) * v j)
      + (if Nat.eqb j (i - 1) then (if Nat.leb 2 i then RtoC (/ 2) else RtoC 0) else RtoC 0) * v j)).
    - rewrite !csum_plus, !csum_delta. destruct (Nat.ltb_spec 0 N); [|unfold N in *; lia]. destruct (Nat.ltb_spec (i - 1) N); [|lia].
      destruct (Nat.leb_spec 2 i); destruct (Nat.ltb_spec (S i) N); ring.
    - intros j Hj. unfold pA. destruct (Nat.eqb_spec i (S j)), (Nat.eqb_spec j (i - 1)), (Nat.leb_spec 2 i), (Nat.eqb_spec j 0); cbn [andb negb]; try lia; ring.
  Qed.
  Definition wsum (z : C) (v : nat -> C) : C := csum N (fun i => TC (N - 1 - i) z * res z v i).
  Lemma colA z j : (j < N)%nat -> j <> 0%nat -> csum N (fun i => TC (N - 1 - i) z * (pA i j - z * pB i j)) = RtoC 0.
  Proof.
    intros Hj H0. rewrite (csum_ext _ _ (fun i => ((if Nat.eqb i (j - 1) then s i else RtoC 0) * TC (N - 1 - i) z + (if Nat.eqb i (S j) then RtoC (/ 2) else RtoC 0) * TC (N - 1 - i) z)
       + (if Nat.eqb i j then - z else RtoC 0) * TC (N - 1 - i) z)).
    - rewrite !csum_plus. rewrite (csum_ext _ _ (fun i => (if Nat.eqb i (j - 1) then s (j - 1)%nat else RtoC 0) * TC (N - 1 - i) z)).
      2: { intros i _. destruct (Nat.eqb_spec i (j - 1)) as [->|]; reflexivity. }
      rewrite !csum_delta. destruct (Nat.ltb_spec (j - 1) N); [|lia]. destruct (Nat.ltb_spec j N); [|lia].
      unfold s. destruct (Nat.ltb_spec (S j) N) as [H4|H4].
      + destruct (Nat.eqb_spec (j - 1) (N - 2)); [lia|]. replace (N - 1 - (j - 1))%nat with (S (S (N - 1 - S j))) by lia.
        replace (N - 1 - j)%nat with (S (N - 1 - S j)) by lia. rewrite TC_SS. set (p := TC (S (N - 1 - S j)) z). set (q := TC (N - 1 - S j) z).
        replace (RtoC 2) with (RtoC 1 + RtoC 1) by (rewrite <- RtoC_plus; f_equal; lra).
        replace (RtoC 1) with (RtoC (/ 2) + RtoC (/ 2)) by (rewrite <- RtoC_plus; f_equal; lra).
        assert (E : RtoC (/ 2) + RtoC (/ 2) = RtoC 1) by (rewrite <- RtoC_plus; f_equal; lra).
        transitivity ((RtoC (/ 2) + RtoC (/ 2)) * ((RtoC (/ 2) + RtoC (/ 2)) * (z * p)) - z * p); [ring|]. rewrite E. ring.
      + destruct (Nat.eqb_spec (j - 1) (N - 2)); [|lia]. replace (N - 1 - (j - 1))%nat with 1%nat by lia. replace (N - 1 - j)%nat with 0%nat by lia. cbn [TC]. ring.
    - intros i Hi. unfold pA, pB. apply Nat.eqb_neq in H0. rewrite H0. unfold b. cbn [negb]. rewrite Bool.andb_true_r.
      destruct (Nat.eqb_spec j (S i)), (Nat.eqb_spec i (j - 1)), (Nat.eqb_spec i (S j)), (Nat.eqb_spec i j), (Nat.eqb_spec i 0); apply Nat.eqb_neq in H0; try lia; ring.
  Qed.
  Lemma col0 z : csum N (fun i => TC (N - 1 - i) z * (pA i 0 - z * pB i 0)) = csum N (fun k => a k * TC k z) - z * cl * TC (N - 1) z.
  Proof.
    rewrite (csum_ext _ _ (fun i => a (N - 1 - i)%nat * TC (N - 1 - i) z + (if Nat.eqb i 0 then - z * cl else RtoC 0) * TC (N - 1 - i) z)).
    - rewrite csum_plus, csum_delta. rewrite (csum_rev N (fun k => a k * TC k z)). destruct (Nat.ltb_spec 0 N); [|unfold N in *; lia].
      rewrite Nat.sub_0_r. ring.
    - intros i _. unfold pA, pB, b. cbn [Nat.eqb negb]. rewrite Bool.andb_false_r. destruct (Nat.eqb_spec i 0); ring.
  Qed.
  Lemma wsum_val z v : wsum z v = (csum N (fun k => a k * TC k z) - z * cl * TC (N - 1) z) * v 0%nat.
  Proof.
    unfold wsum, res. rewrite (csum_ext _ _ (fun i => csum N (fun j => TC (N - 1 - i) z * (pA i j - z * pB i j) * v j))).
    - rewrite csum_swap. rewrite (csum_single _ _ 0%nat).
      + rewrite csum_scal_r, col0. reflexivity.
      + unfold N; lia.
      + intros j Hj H0. rewrite csum_scal_r, (colA z j Hj H0). ring.
    - intros i _. rewrite <- csum_scal. rewrite (csum_ext N (fun j => _ * (pA i j - z * pB i j) * v j) (fun j => TC (N - 1 - i) z * (pA i j * v j) + TC (N - 1 - i) z * (- z * (pB i j * v j)))).
      2: { intros j _. ring. }
      rewrite csum_plus, !csum_scal. ring.
  Qed.
  Lemma s_ne i : s i <> RtoC 0.
  Proof. unfold s. destruct (Nat.eqb i (N - 2)); intros E; apply (f_equal Re) in E; cbn in E; lra. Qed.
  Lemma eig_root z v : (exists i, (i < N)%nat /\ v i <> RtoC 0) -> (forall i, (i < N)%nat -> res z v i = RtoC 0) ->
    csum N (fun k => a k * TC k z) - z * cl * TC (N - 1) z = RtoC 0.
  Proof.
    intros [i0 [Hi0 Hv]] H. assert (W : wsum z v = RtoC 0) by (apply csum_zero; intros i Hi; rewrite H by exact Hi; ring).
    rewrite wsum_val in W. destruct (Ceq_dec (v 0%nat) (RtoC 0)) as [Z|NZ].
    - exfalso. assert (A : forall i, (i < N)%nat -> forall j, (j <= i)%nat -> v j = RtoC 0).
      { induction i as [|i IH]; intros Hi j Hj; [replace j with 0%nat by lia; exact Z|]. destruct (Nat.eq_dec j (S i)) as [->|]; [|apply IH; lia].
        assert (Hr := H i ltac:(lia)). unfold res in Hr. rewrite rowA, rowB in Hr by lia. rewrite Z in Hr. rewrite (IH ltac:(lia) i ltac:(lia)) in Hr.
        destruct (Nat.ltb_spec (S i) N); [|lia]. assert (V : (if Nat.leb 2 i then RtoC (/ 2) * v (i - 1)%nat else RtoC 0) = RtoC 0).
        { destruct (Nat.leb 2 i); [rewrite (IH ltac:(lia) (i - 1)%nat ltac:(lia)); ring|reflexivity]. }
        rewrite V in Hr. apply (cmul_reg (s i)). apply s_ne. transitivity (RtoC 0); [|ring]. rewrite <- Hr. ring. }
      apply Hv. apply (A i0 Hi0). lia.
    - apply (cmul_reg (v 0%nat)); [exact NZ|]. transitivity (RtoC 0); [rewrite <- W; ring|ring].
  Qed.
  (** the eigenvector, by forward substitution *)
  Fixpoint fwd (z : C) (i : nat) : C * C :=   (* v_i, v_(i-1) *)
    match i with
    | O => (RtoC 1, RtoC 0)
    | S i => let '(v, u) := fwd z i in ((z * b i * v - a (N - 1 - i)%nat - (if Nat.leb 2 i then RtoC (/ 2) * u else RtoC 0)) / s i, v)
    end.
  Lemma fwd_snd z i : snd (fwd z (S i)) = fst (fwd z i).
  Proof. cbn [fwd]. destruct (fwd z i). reflexivity. Qed.
  Lemma root_eig z : csum N (fun k => a k * TC k z) - z * cl * TC (N - 1) z = RtoC 0 ->
    exists v, (exists i, (i < N)%nat /\ v i <> RtoC 0) /\ forall i, (i < N)%nat -> res z v i = RtoC 0.
  Proof.
    intros P. exists (fun i => fst (fwd z i)). split.
    - exists 0%nat. split; [unfold N; lia|]. cbn. intros E. apply (f_equal Re) in E. cbn in E. lra.
    - set (v := fun i => fst (fwd z i)).
      assert (R1 : forall i, (S i < N)%nat -> res z v i = RtoC 0).
      { intros i Hi. unfold res. rewrite rowA, rowB by lia. destruct (Nat.ltb_spec (S i) N); [|lia].
        assert (E : v (S i) = (z * b i * v i - a (N - 1 - i)%nat - (if Nat.leb 2 i then RtoC (/ 2) * v (i - 1)%nat else RtoC 0)) / s i).
        { unfold v at 1. cbn [fwd]. destruct (fwd z i) as [x y] eqn:F. cbn [fst]. replace (v i) with x by (unfold v; rewrite F; reflexivity).
          destruct (Nat.leb_spec 2 i); [|reflexivity]. replace y with (v (i - 1)%nat); [reflexivity|].
          unfold v. rewrite <- fwd_snd. replace (S (i - 1)) with i by lia. rewrite F. reflexivity. }
        rewrite E. assert (S0 := s_ne i). replace (v 0%nat) with (RtoC 1) by reflexivity. field. exact S0. }
      assert (W : wsum z v = RtoC 0) by (rewrite wsum_val, P; ring).
      assert (L : res z v (N - 1)%nat = RtoC 0).
      { unfold wsum in W. rewrite (csum_single _ _ (N - 1)%nat) in W.
        - rewrite <- W. replace (N - 1 - (N - 1))%nat with 0%nat by lia. cbn [TC]. ring.
        - unfold N; lia.
        - intros i Hi Hne. rewrite R1 by lia. ring. }
      intros i Hi. destruct (Nat.eq_dec (S i) N) as [E|E]; [replace i with (N - 1)%nat by lia; exact L|apply R1; lia].
  Qed.
End pencil.
