(** Proofs: evaluation, prolongation, reflection, end points. *)
From Coq Require Import Reals ZArith List Lia Lra Arith Bool.
From Coquelicot Require Import Coquelicot.
From Verif Require Import Base ChebSpec ChebMath ChebModel.
Import ListNotations.
Open Scope R_scope.

(** Clenshaw's backward recurrence on a suffix of the coefficients. *)
Fixpoint bl (x : R) (l : list R) : R :=
  match l with
  | [] => 0
  | a :: t => match t with [] => a | _ :: u => a + 2 * x * bl x t - bl x u end
  end.

Lemma bl_cons x a t : bl x (a :: t) = a + 2 * x * bl x t - bl x (tl t).
Proof. destruct t as [|b u]; simpl; lra. Qed.

Lemma bl_shift x l j :
  rsum (length l) (fun k => nth k l 0 * T (k + S j) x) = bl x l * T (S j) x - bl x (tl l) * T j x.
Proof.
  revert j. induction l as [|a l IH]; intros j.
  - simpl. lra.
  - cbn [length]. rewrite rsum_S_l.
    rewrite (rsum_ext _ _ (fun k => nth k l 0 * T (k + S (S j)) x)).
    2:{ intros k _. cbn [nth]. do 2 f_equal. lia. }
    rewrite IH. rewrite bl_cons. cbn [nth tl]. change (0 + S j)%nat with (S j). rewrite (T_SS j). ring.
Qed.

Lemma evalT_bl c x : evalT c x = nth 0 c 0 + x * bl x (tl c) - bl x (tl (tl c)).
Proof.
  destruct c as [|a l]; [unfold evalT; simpl; lra|].
  unfold evalT. cbn [length]. rewrite rsum_S_l. cbn [nth tl].
  rewrite (rsum_ext _ _ (fun k => nth k l 0 * T (k + 1) x)).
  2:{ intros k _. do 2 f_equal. lia. }
  rewrite bl_shift. simpl. lra.
Qed.

Lemma skipn_cons_nth (c : list R) k : (k < length c)%nat -> skipn k c = nth k c 0 :: skipn (S k) c.
Proof.
  revert k. induction c as [|a c IH]; intros k Hk; [simpl in Hk; lia|].
  destruct k as [|k]; [reflexivity|]. cbn [skipn nth]. apply IH. simpl in Hk. lia.
Qed.

Lemma tl_skipn (c : list R) k : tl (skipn k c) = skipn (S k) c.
Proof.
  revert c. induction k as [|k IH]; intros c; [destruct c; reflexivity|].
  destruct c as [|a c]; [reflexivity|]. cbn [skipn]. rewrite IH. reflexivity.
Qed.

Lemma bl_skipn x c k : (k < length c)%nat ->
  bl x (skipn k c) = nth k c 0 + 2 * x * bl x (skipn (S k) c) - bl x (skipn (S (S k)) c).
Proof. intros Hk. rewrite skipn_cons_nth by exact Hk. rewrite bl_cons, tl_skipn. reflexivity. Qed.

Lemma clenshaw_loop c x t : (2 * t <= length c - 1)%nat ->
  fold_left (fun '(bk1, bk2) t =>
      let i := (length c - 1 - 2 * t)%nat in
      let bk2 := nth i c 0 + 2 * x * bk1 - bk2 in
      let bk1 := nth (i - 1) c 0 + 2 * x * bk2 - bk1 in
      (bk1, bk2)) (seq 0 t) (0, 0)
  = (bl x (skipn (length c - 2 * t) c), bl x (skipn (S (length c - 2 * t)) c)).
Proof.
  induction t as [|t IH]; intros Ht.
  - cbn [seq fold_left]. rewrite !skipn_all2 by lia. reflexivity.
  - rewrite seq_S, fold_left_app, IH by lia. cbn [fold_left plus].
    cbv zeta. f_equal.
    + replace (length c - 2 * S t)%nat with (length c - 1 - 2 * t - 1)%nat by lia.
      rewrite (bl_skipn x c (length c - 1 - 2 * t - 1)) by lia.
      replace (S (length c - 1 - 2 * t - 1)) with (length c - 1 - 2 * t)%nat by lia.
      rewrite (bl_skipn x c (length c - 1 - 2 * t)) by lia.
      replace (S (length c - 1 - 2 * t)) with (length c - 2 * t)%nat by lia.
      reflexivity.
    + replace (S (length c - 2 * S t)) with (length c - 1 - 2 * t)%nat by lia.
      rewrite (bl_skipn x c (length c - 1 - 2 * t)) by lia.
      replace (S (length c - 1 - 2 * t)) with (length c - 2 * t)%nat by lia.
      reflexivity.
Qed.

Lemma clenshaw_pt_correct c x : (1 <= length c)%nat -> clenshaw_pt c x = evalT c x.
Proof.
  intros Hc. unfold clenshaw_pt.
  set (n := (length c - 1)%nat).
  assert (Hn := Nat.div_mod n 2 ltac:(lia)). assert (Hm := Nat.mod_upper_bound n 2 ltac:(lia)).
  pose proof (clenshaw_loop c x (n / 2) ltac:(unfold n in *; lia)) as L.
  fold n in L. cbv zeta in L |- *. rewrite L. clear L.
  rewrite evalT_bl.
  destruct (Nat.odd n) eqn:E.
  - assert (n mod 2 = 1)%nat by (rewrite <- Nat.bit0_mod, Nat.bit0_odd, E; reflexivity).
    replace (length c - 2 * (n / 2))%nat with 2%nat by (unfold n in *; lia).
    assert (H1 := bl_skipn x c 1 ltac:(unfold n in *; lia)).
    replace (tl c) with (skipn 1 c) by (destruct c; reflexivity).
    rewrite (tl_skipn c 1). rewrite H1. lra.
  - assert (n mod 2 = 0)%nat by (rewrite <- Nat.bit0_mod, Nat.bit0_odd, E; reflexivity).
    replace (length c - 2 * (n / 2))%nat with 1%nat by (unfold n in *; lia).
    replace (tl c) with (skipn 1 c) by (destruct c; reflexivity).
    rewrite (tl_skipn c 1). lra.
Qed.

(** ** prolong *)
Lemma prolong1_length c N : length (prolong1 c N) = Z.to_nat N.
Proof.
  unfold prolong1. destruct (Z.eqb_spec (N - Z.of_nat (length c)) 0); [lia|].
  destruct (Z.ltb_spec 0 (N - Z.of_nat (length c))).
  - apply mk_length.
  - rewrite firstn_length. lia.
Qed.

Lemma nth_firstn_lt (l : list R) n k d : (k < n)%nat -> nth k (firstn n l) d = nth k l d.
Proof.
  revert n k. induction l as [|a l IH]; intros n k H; destruct n, k; simpl; try lia; try reflexivity.
  apply IH; lia.
Qed.

Lemma prolong1_nth c N k : (k < Z.to_nat N)%nat -> nth k (prolong1 c N) 0 = nth k c 0.
Proof.
  intros Hk. unfold prolong1. destruct (Z.eqb_spec (N - Z.of_nat (length c)) 0); [reflexivity|].
  destruct (Z.ltb_spec 0 (N - Z.of_nat (length c))).
  - rewrite nth_mk by lia. destruct (Nat.ltb_spec k (length c)); [reflexivity|].
    rewrite nth_overflow by lia. reflexivity.
  - apply nth_firstn_lt. lia.
Qed.

Lemma prolong1_mk c N : prolong1 c N = mk (Z.to_nat N) (fun k => nth k c 0).
Proof.
  apply list_ext with 0.
  - rewrite prolong1_length, mk_length. reflexivity.
  - intros k Hk. rewrite prolong1_length in Hk. rewrite prolong1_nth, nth_mk by lia. reflexivity.
Qed.

Lemma prolong1_eval c N x : (Z.of_nat (length c) <= N)%Z -> evalT (prolong1 c N) x = evalT c x.
Proof.
  intros H. rewrite prolong1_mk, evalT_mk. symmetry. apply evalT_ge. lia.
Qed.

Lemma prolong1_trunc c N : (N <= Z.of_nat (length c))%Z -> prolong1 c N = firstn (Z.to_nat N) c.
Proof.
  intros H. apply list_ext with 0.
  - rewrite prolong1_length, firstn_length. lia.
  - intros k Hk. rewrite prolong1_length in Hk. rewrite prolong1_nth by lia.
    rewrite nth_firstn_lt by lia. reflexivity.
Qed.

(** ** flips and end points *)
Lemma flip_signs_nth c k : nth k (flip_signs c) 0 = sgn k * nth k c 0.
Proof.
  unfold flip_signs. destruct (lt_dec k (length c)) as [H|H].
  - rewrite nth_mk by lia. unfold sgn. rewrite <- Nat.negb_even.
    destruct (Nat.even k); simpl; lra.
  - rewrite nth_mk_out by lia. rewrite nth_overflow by lia. lra.
Qed.

Lemma flip_signs_length c : length (flip_signs c) = length c.
Proof. apply mk_length. Qed.

Lemma flip_signs_eval c x : evalT (flip_signs c) x = evalT c (- x).
Proof.
  unfold evalT. rewrite flip_signs_length. apply rsum_ext. intros k _.
  rewrite flip_signs_nth, T_opp. ring.
Qed.

Lemma rval1_eval c : rval1 c = evalT c 1.
Proof.
  unfold rval1, evalT. rewrite lsum_rsum. apply rsum_ext. intros. rewrite T_1. ring.
Qed.

Lemma lval1_eval c : lval1 c = evalT c (-1).
Proof.
  unfold lval1. rewrite lsum_rsum, flip_signs_length. unfold evalT. apply rsum_ext. intros.
  rewrite T_m1, flip_signs_nth. ring.
Qed.
