(** Shared, code-independent mathematics: finite sums over reals and arrays
    written as lists. *)
From Coq Require Import Reals List Lia Lra Arith.
Import ListNotations.
Open Scope R_scope.

(** [rsum n f] = f 0 + ... + f (n-1). *)
Fixpoint rsum (n : nat) (f : nat -> R) : R :=
  match n with
  | O => 0
  | S k => rsum k f + f k
  end.

(** [mk n f] = the array [f 0; ...; f (n-1)]. *)
Definition mk {A} (n : nat) (f : nat -> A) : list A := map f (seq 0 n).

Lemma mk_length {A} n (f : nat -> A) : length (mk n f) = n.
Proof. unfold mk. rewrite map_length, seq_length. reflexivity. Qed.

Lemma nth_mk {A} n (f : nat -> A) d k : (k < n)%nat -> nth k (mk n f) d = f k.
Proof.
  intros Hk. unfold mk.
  rewrite (nth_indep _ d (f 0%nat)) by (rewrite map_length, seq_length; lia).
  rewrite map_nth. rewrite seq_nth by lia. reflexivity.
Qed.

Lemma nth_mk_out {A} n (f : nat -> A) d k : (n <= k)%nat -> nth k (mk n f) d = d.
Proof. intros Hk. apply nth_overflow. rewrite mk_length. lia. Qed.

Lemma mk_ext {A} n (f g : nat -> A) : (forall k, (k < n)%nat -> f k = g k) -> mk n f = mk n g.
Proof.
  intros H. unfold mk. apply map_ext_in. intros k Hk. apply in_seq in Hk. apply H. lia.
Qed.

Lemma mk_nth {A} (l : list A) d : mk (length l) (fun k => nth k l d) = l.
Proof.
  apply nth_ext with (d := d) (d' := d).
  - apply mk_length.
  - intros k Hk. rewrite mk_length in Hk. now rewrite nth_mk.
Qed.

Lemma list_ext {A} (l1 l2 : list A) d :
  length l1 = length l2 -> (forall k, (k < length l1)%nat -> nth k l1 d = nth k l2 d) -> l1 = l2.
Proof. intros. apply nth_ext with (d := d) (d' := d); auto. Qed.

Lemma rsum_ext n f g : (forall k, (k < n)%nat -> f k = g k) -> rsum n f = rsum n g.
Proof.
  induction n as [|n IH]; intros H; cbn [rsum]; [reflexivity|].
  rewrite IH by (intros; apply H; lia). rewrite H by lia. reflexivity.
Qed.

Lemma rsum_0 n : rsum n (fun _ => 0) = 0.
Proof. induction n as [|n IH]; cbn [rsum]; [|rewrite IH]; lra. Qed.

Lemma rsum_zero n f : (forall k, (k < n)%nat -> f k = 0) -> rsum n f = 0.
Proof. intros H. rewrite (rsum_ext n f (fun _ => 0)); [apply rsum_0 | exact H]. Qed.

Lemma rsum_plus n f g : rsum n (fun k => f k + g k) = rsum n f + rsum n g.
Proof. induction n as [|n IH]; cbn [rsum]; [|rewrite IH]; lra. Qed.

Lemma rsum_minus n f g : rsum n (fun k => f k - g k) = rsum n f - rsum n g.
Proof. induction n as [|n IH]; cbn [rsum]; [|rewrite IH]; lra. Qed.

Lemma rsum_opp n f : rsum n (fun k => - f k) = - rsum n f.
Proof. induction n as [|n IH]; cbn [rsum]; [|rewrite IH]; lra. Qed.

Lemma rsum_scal n a f : rsum n (fun k => a * f k) = a * rsum n f.
Proof. induction n as [|n IH]; cbn [rsum]; [|rewrite IH]; lra. Qed.

Lemma rsum_scal_r n a f : rsum n (fun k => f k * a) = rsum n f * a.
Proof. induction n as [|n IH]; cbn [rsum]; [|rewrite IH]; lra. Qed.

Lemma rsum_const n a : rsum n (fun _ => a) = INR n * a.
Proof. induction n as [|n IH]; cbn [rsum]; [simpl; lra|]. rewrite IH, S_INR. lra. Qed.

Lemma rsum_app a b f : rsum (a + b) f = rsum a f + rsum b (fun k => f (a + k)%nat).
Proof.
  induction b as [|b IH].
  - rewrite Nat.add_0_r. cbn [rsum]. lra.
  - rewrite Nat.add_succ_r. cbn [rsum]. rewrite IH. lra.
Qed.

Lemma rsum_S_l n f : rsum (S n) f = f 0%nat + rsum n (fun k => f (S k)).
Proof.
  change (S n) with (1 + n)%nat. rewrite rsum_app. cbn [rsum]. simpl. lra.
Qed.

Lemma rsum_swap n m (f : nat -> nat -> R) :
  rsum n (fun i => rsum m (fun j => f i j)) = rsum m (fun j => rsum n (fun i => f i j)).
Proof.
  induction n as [|n IH]; cbn [rsum].
  - rewrite rsum_0. reflexivity.
  - rewrite IH. rewrite <- rsum_plus. reflexivity.
Qed.

Lemma rsum_rev n f : rsum n (fun k => f (n - 1 - k)%nat) = rsum n f.
Proof.
  induction n as [|n IH]; [reflexivity|].
  rewrite rsum_S_l. cbn [rsum].
  replace (S n - 1 - 0)%nat with n by lia.
  rewrite <- IH. rewrite Rplus_comm. f_equal.
  apply rsum_ext. intros k Hk. f_equal. lia.
Qed.

Lemma rsum_single n f i : (i < n)%nat -> (forall k, (k < n)%nat -> k <> i -> f k = 0) -> rsum n f = f i.
Proof.
  induction n as [|n IH]; intros Hi H; [lia|]. cbn [rsum].
  destruct (Nat.eq_dec i n) as [->|Hne].
  - rewrite rsum_zero; [lra|]. intros k Hk. apply H; lia.
  - rewrite IH; [|lia|intros; apply H; lia]. rewrite (H n) by lia. lra.
Qed.

Lemma rsum_extend n m f : (n <= m)%nat -> (forall k, (n <= k < m)%nat -> f k = 0) -> rsum m f = rsum n f.
Proof.
  intros Hnm H. replace m with (n + (m - n))%nat by lia. rewrite rsum_app.
  rewrite (rsum_zero (m - n)); [lra|]. intros k Hk. apply H. lia.
Qed.

Lemma rsum_nonneg n f : (forall k, (k < n)%nat -> 0 <= f k) -> 0 <= rsum n f.
Proof.
  induction n as [|n IH]; intros H; cbn [rsum]; [lra|].
  pose proof (H n ltac:(lia)). assert (0 <= rsum n f) by (apply IH; intros; apply H; lia). lra.
Qed.

Lemma rsum_le n f g : (forall k, (k < n)%nat -> f k <= g k) -> rsum n f <= rsum n g.
Proof.
  induction n as [|n IH]; intros H; cbn [rsum]; [lra|].
  pose proof (H n ltac:(lia)). assert (rsum n f <= rsum n g) by (apply IH; intros; apply H; lia). lra.
Qed.

Lemma rsum_Rabs n f : Rabs (rsum n f) <= rsum n (fun k => Rabs (f k)).
Proof.
  induction n as [|n IH]; cbn [rsum]; [rewrite Rabs_R0; lra|].
  eapply Rle_trans; [apply Rabs_triang|]. lra.
Qed.

(** Sum of a list. *)
Definition lsum (l : list R) : R := fold_right Rplus 0 l.

Lemma lsum_rsum l : lsum l = rsum (length l) (fun k => nth k l 0).
Proof.
  induction l as [|a l IH]; [reflexivity|].
  cbn [length lsum fold_right]. rewrite rsum_S_l. cbn [nth]. fold (lsum l). rewrite IH. reflexivity.
Qed.

Lemma lsum_mk n f : lsum (mk n f) = rsum n f.
Proof.
  rewrite lsum_rsum, mk_length. apply rsum_ext. intros k Hk. now rewrite nth_mk.
Qed.

(** signs *)
Definition sgn (k : nat) : R := if Nat.even k then 1 else -1.

Lemma sgn_0 : sgn 0 = 1. Proof. reflexivity. Qed.
Lemma sgn_S k : sgn (S k) = - sgn k.
Proof.
  unfold sgn. rewrite Nat.even_succ, <- Nat.negb_even. destruct (Nat.even k); simpl; lra.
Qed.
Lemma sgn_add a b : sgn (a + b) = sgn a * sgn b.
Proof.
  induction a as [|a IH]; [rewrite sgn_0; simpl; lra|].
  cbn [plus]. rewrite !sgn_S, IH. lra.
Qed.
Lemma sgn_sq k : sgn k * sgn k = 1.
Proof. unfold sgn; destruct (Nat.even k); lra. Qed.
Lemma sgn_double k : sgn (2 * k) = 1.
Proof. unfold sgn. rewrite Nat.even_mul. reflexivity. Qed.
Lemma sgn_abs k : Rabs (sgn k) = 1.
Proof. unfold sgn; destruct (Nat.even k); [apply Rabs_R1|rewrite Rabs_left; lra]. Qed.
Lemma sgn_pow k : sgn k = (-1) ^ k.
Proof. induction k as [|k IH]; [reflexivity|]. rewrite sgn_S, IH. simpl. lra. Qed.
