(** Specification: determinants by Laplace expansion along the last row, and
    the facts about them used in the proofs. *)
From Coq Require Import Reals List Arith Lia Lra.
From Verif Require Import Base.
Open Scope R_scope.

Definition fmat := nat -> nat -> R.
(** drop column j (and, by restricting the order, the last row) *)
Definition dropcol (A : fmat) (j : nat) : fmat := fun i l => A i (if Nat.ltb l j then l else S l).
Fixpoint det (n : nat) (A : fmat) : R :=
  match n with
  | O => 1
  | S m => rsum (S m) (fun j => (-1) ^ (m + j) * A m j * det m (dropcol A j))
  end.

(** upper Hessenberg: zero below the first subdiagonal *)
Definition hessenberg (n : nat) (M : nat -> nat -> R) : Prop := forall i j, (i < n)%nat -> (S j < i)%nat -> M i j = 0.
(** p is a permutation of 0..n-1 *)
Definition bij (n : nat) (p : nat -> nat) : Prop :=
  (forall i, (i < n)%nat -> (p i < n)%nat) /\ (forall i j, (i < n)%nat -> (j < n)%nat -> p i = p j -> i = j).

Lemma det_ext n : forall A B, (forall i j, (i < n)%nat -> (j < n)%nat -> A i j = B i j) -> det n A = det n B.
Proof.
  induction n as [|n IH]; intros A B H; [reflexivity|]. cbn [det]. apply rsum_ext. intros j Hj.
  rewrite (H n j) by lia. f_equal. apply IH. intros i l Hi Hl. unfold dropcol. apply H; [lia|]. destruct (Nat.ltb_spec l j); lia.
Qed.

(** replace column c by v *)
Definition setcol (A : fmat) (c : nat) (v : nat -> R) : fmat := fun i j => if Nat.eqb j c then v i else A i j.

Lemma dropcol_setcol_eq A c v i l : dropcol (setcol A c v) c i l = dropcol A c i l.
Proof. unfold dropcol, setcol. destruct (Nat.ltb_spec l c); [destruct (Nat.eqb_spec l c)|destruct (Nat.eqb_spec (S l) c)]; try lia; reflexivity. Qed.
Lemma dropcol_setcol_neq A c v j i l : j <> c ->
  dropcol (setcol A c v) j i l = setcol (dropcol A j) (if Nat.ltb j c then (c - 1)%nat else c) v i l.
Proof.
  intros H. unfold dropcol, setcol. destruct (Nat.ltb_spec l j), (Nat.ltb_spec j c);
  repeat match goal with |- context [Nat.eqb ?a ?b] => destruct (Nat.eqb_spec a b) end; try lia; reflexivity.
Qed.

Lemma rsum_single n f k : (k < n)%nat -> (forall j, (j < n)%nat -> j <> k -> f j = 0) -> rsum n f = f k.
Proof.
  induction n as [|n IH]; intros Hk H; [lia|]. cbn [rsum]. destruct (Nat.eq_dec k n) as [->|Hne].
  - rewrite rsum_zero by (intros; apply H; lia). ring.
  - rewrite (H n) by lia. rewrite IH by (try lia; intros; apply H; lia). ring.
Qed.

Lemma det_lin n : forall A c u v a b, (c < n)%nat ->
  det n (setcol A c (fun i => a * u i + b * v i)) = a * det n (setcol A c u) + b * det n (setcol A c v).
Proof.
  induction n as [|n IH]; intros A c u v a b Hc; [lia|]. cbn [det]. rewrite <- !rsum_scal, <- rsum_plus.
  apply rsum_ext. intros j Hj. destruct (Nat.eq_dec j c) as [->|Hne].
  - rewrite !(det_ext n (dropcol (setcol A c _) c) (dropcol A c)) by (intros; apply dropcol_setcol_eq).
    unfold setcol. rewrite Nat.eqb_refl. ring.
  - rewrite !(det_ext n (dropcol (setcol A c _) j) (setcol (dropcol A j) (if Nat.ltb j c then (c - 1)%nat else c) _)) by (intros; apply dropcol_setcol_neq; exact Hne).
    rewrite IH by (destruct (Nat.ltb_spec j c); lia).
    assert (E : forall w, setcol A c w n j = A n j) by (intros; unfold setcol; destruct (Nat.eqb_spec j c); [contradiction|reflexivity]).
    rewrite !E. ring.
Qed.

(** equal adjacent columns *)
Lemma det_alt n : forall A c, (S c < n)%nat -> (forall i, (i < n)%nat -> A i c = A i (S c)) -> det n A = 0.
Proof.
  induction n as [|n IH]; intros A c Hc H; [lia|]. cbn [det].
  assert (Z : forall j, (j < S n)%nat -> j <> c -> j <> S c -> det n (dropcol A j) = 0).
  { intros j Hj H1 H2. apply IH with (c := if Nat.ltb j c then (c - 1)%nat else c).
    - destruct (Nat.ltb_spec j c); lia.
    - intros i Hi. unfold dropcol. destruct (Nat.ltb_spec j c).
      + destruct (Nat.ltb_spec (c - 1) j), (Nat.ltb_spec (S (c - 1)) j); try lia.
        replace (S (c - 1)) with c by lia. apply H. lia.
      + destruct (Nat.ltb_spec c j), (Nat.ltb_spec (S c) j); try lia. apply H. lia. }
  assert (E : det n (dropcol A (S c)) = det n (dropcol A c)).
  { apply det_ext. intros i j Hi Hj. unfold dropcol. destruct (Nat.ltb_spec j (S c)), (Nat.ltb_spec j c); try lia; try reflexivity.
    assert (j = c) by lia. subst. apply H. lia. }
  set (F := fun j => (-1) ^ (n + j) * A n j * det n (dropcol A j)) in *.
  assert (Es : rsum (S n) F = F c + F (S c)).
  { replace (S n) with (c + (2 + (S n - c - 2)))%nat by lia. rewrite rsum_app, (rsum_app 2).
    rewrite (rsum_zero c). 2:{ intros k Hk. unfold F. rewrite Z by lia. ring. }
    rewrite (rsum_zero (S n - c - 2)). 2:{ intros k Hk. unfold F. rewrite Z by lia. ring. }
    cbn [rsum]. rewrite Nat.add_0_r. replace (c + 1)%nat with (S c) by lia. ring. }
  rewrite Es. unfold F. rewrite E, (H n) by lia. replace (n + S c)%nat with (S (n + c)) by lia. cbn [pow]. ring.
Qed.

(** two adjacent columns *)
Definition setcol2 (A : fmat) (c : nat) (u v : nat -> R) : fmat := setcol (setcol A c u) (S c) v.
Lemma det_2_alt n A c u : (S c < n)%nat -> det n (setcol2 A c u u) = 0.
Proof.
  intros H. apply det_alt with c; [exact H|]. intros i _. unfold setcol2, setcol. rewrite !Nat.eqb_refl.
  destruct (Nat.eqb_spec c (S c)); [lia|]. rewrite ?Nat.eqb_refl. reflexivity.
Qed.
Lemma setcol2_comm n A c u v : det n (setcol2 A c u v) = det n (setcol (setcol A (S c) v) c u).
Proof.
  apply det_ext. intros i j _ _. unfold setcol2, setcol.
  destruct (Nat.eqb_spec j (S c)), (Nat.eqb_spec j c); try lia; reflexivity.
Qed.
Lemma det_2_lin_l n A c u1 u2 a b v : (S c < n)%nat ->
  det n (setcol2 A c (fun i => a * u1 i + b * u2 i) v) = a * det n (setcol2 A c u1 v) + b * det n (setcol2 A c u2 v).
Proof. intros H. rewrite !setcol2_comm. apply det_lin. lia. Qed.
Lemma det_2_lin_r n A c u v1 v2 a b : (S c < n)%nat ->
  det n (setcol2 A c u (fun i => a * v1 i + b * v2 i)) = a * det n (setcol2 A c u v1) + b * det n (setcol2 A c u v2).
Proof. intros H. apply det_lin. exact H. Qed.
Lemma det_2_swap n A c u v : (S c < n)%nat -> det n (setcol2 A c v u) = - det n (setcol2 A c u v).
Proof.
  intros H. assert (Q := det_2_alt n A c (fun i => 1 * u i + 1 * v i) H).
  rewrite det_2_lin_l, !det_2_lin_r, !det_2_alt in Q by exact H. lra.
Qed.
(** a rotation of two adjacent columns keeps the determinant *)
Lemma det_rotate n A c u v p q r s : (S c < n)%nat ->
  det n (setcol2 A c (fun i => p * u i + q * v i) (fun i => r * u i + s * v i)) = (p * s - q * r) * det n (setcol2 A c u v).
Proof.
  intros H. rewrite det_2_lin_l, !det_2_lin_r, !det_2_alt by exact H. rewrite (det_2_swap n A c u v H). ring.
Qed.
(** last row zero except on the diagonal *)
Lemma det_last n A : (forall j, (j < n)%nat -> A n j = 0) -> det (S n) A = A n n * det n A.
Proof.
  intros H. cbn [det]. rewrite (rsum_single (S n) _ n) by (try lia; intros; rewrite H by lia; ring).
  replace ((-1) ^ (n + n)) with 1. 2:{ replace (n + n)%nat with (2 * n)%nat by lia. rewrite pow_mult. replace ((-1) ^ 2) with 1 by ring. symmetry. apply pow1. }
  rewrite Rmult_1_l. f_equal. apply det_ext. intros i j Hi Hj. unfold dropcol. destruct (Nat.ltb_spec j n); [reflexivity|lia].
Qed.
