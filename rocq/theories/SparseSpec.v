(** Specification: the dense matrix a compressed sparse matrix stands for. *)
From Coq Require Import Reals ZArith List Arith.
From Verif Require Import Base SparseModel.
Import ListNotations.
Open Scope R_scope.

(** the scipy format invariant *)
Definition csm_ok (M : csm) : Prop :=
  length (indptr M) = S (nmaj M) /\ nth 0 (indptr M) 0%nat = 0%nat /\
  (forall i, (i < nmaj M)%nat -> (nth i (indptr M) 0 <= nth (S i) (indptr M) 0)%nat) /\
  nth (nmaj M) (indptr M) 0%nat = length (data M) /\
  length (indices M) = length (data M) /\
  List.Forall (fun c => (c < nmin M)%nat) (indices M).

(** entry (i, j) (major index first): the sum of the values stored in line i
    with index j *)
Definition entry (M : csm) (i j : nat) : R :=
  let p := nth i (indptr M) 0%nat in
  rsum (nth (S i) (indptr M) 0%nat - p)
    (fun t => if Nat.eqb (nth (p + t) (indices M) 0%nat) j then nth (p + t) (data M) 0 else 0).

(** no index is stored twice in a line *)
Definition no_dup (M : csm) : Prop :=
  forall i p q, (i < nmaj M)%nat ->
    (nth i (indptr M) 0 <= p)%nat -> (p < q)%nat -> (q < nth (S i) (indptr M) 0)%nat ->
    nth p (indices M) 0%nat <> nth q (indices M) 0%nat.

(** the lines that stay when those listed in idx are removed, in order
    (negative indices count from the end, as in Python) *)
Definition kept (n : nat) (idx : list Z) : list nat :=
  filter (fun k => negb (existsb (fun i => Z.eqb (if Z.ltb i 0 then (i + Z.of_nat n)%Z else i) (Z.of_nat k)) idx)) (seq 0 n).
Definition kept_nat (n : nat) (l : list nat) : list nat := filter (fun k => negb (existsb (Nat.eqb k) l)) (seq 0 n).
