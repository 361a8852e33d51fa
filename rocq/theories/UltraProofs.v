(** Differentiation and conversion matrices of the ultraspherical method. *)
From Coq Require Import Reals ZArith List Arith Lia Lra Bool.
From Coquelicot Require Import Coquelicot.
From Verif Require Import Base ChebSpec ChebMath ChebModel ChebCalc UltraSpec UltraModel UltraBasis.
Import ListNotations.
Open Scope R_scope.

Lemma evalU_mk lam n f x : evalU lam (mk n f) x = rsum n (fun j => f j * ubasis lam j x).
Proof. unfold evalU. rewrite mk_length. apply rsum_ext. intros k Hk. rewrite nth_mk by exact Hk. reflexivity. Qed.
Lemma evalU_0 c x : evalU 0 c x = evalT c x. Proof. reflexivity. Qed.
Lemma matvec_length n A c : length (matvec n A c) = n. Proof. apply mk_length. Qed.
Lemma matvec_nth n A c i d : (i < n)%nat -> nth i (matvec n A c) d = rsum n (fun j => A i j * nth j c 0).
Proof. intros H. unfold matvec. rewrite nth_mk by exact H. reflexivity. Qed.
Lemma matvec_matmul n A B c : matvec n (matmul n A B) c = matvec n A (matvec n B c).
Proof.
  unfold matvec at 1 2. apply mk_ext. intros i Hi. unfold matmul.
  rewrite (rsum_ext n _ (fun j => rsum n (fun l => A i l * B l j * nth j c 0))) by (intros; symmetry; apply rsum_scal_r).
  rewrite rsum_swap. apply rsum_ext. intros l Hl. rewrite matvec_nth by exact Hl. rewrite <- rsum_scal. apply rsum_ext. intros; ring.
Qed.
Lemma matvec_eye n c : length c = n -> matvec n eye c = c.
Proof.
  intros L. apply (list_ext _ _ 0); [rewrite matvec_length; auto|]. rewrite matvec_length. intros i Hi. rewrite matvec_nth by exact Hi.
  rewrite (rsum_single n _ i Hi); [unfold eye; rewrite Nat.eqb_refl; ring|]. intros k _ Hk. unfold eye. destruct (Nat.eqb_spec i k); [lia|ring].
Qed.
Lemma matvec_ext n A B c : (forall i j, (i < n)%nat -> (j < n)%nat -> A i j = B i j) -> matvec n A c = matvec n B c.
Proof. intros H. apply mk_ext. intros i Hi. apply rsum_ext. intros j Hj. rewrite H by assumption. reflexivity. Qed.

Lemma spdiags1 d f i j : spdiags [(d, f)] i j = if Z.eqb (Z.of_nat j - Z.of_nat i) d then f j else 0.
Proof. unfold spdiags. cbn. ring. Qed.
Lemma spdiags2 d f d' f' i j : spdiags [(d, f); (d', f')] i j = (if Z.eqb (Z.of_nat j - Z.of_nat i) d then f j else 0) + (if Z.eqb (Z.of_nat j - Z.of_nat i) d' then f' j else 0).
Proof. unfold spdiags. cbn. ring. Qed.

(** derivative of a series *)
Definition dw (lam j : nat) : R := match lam with O => INR j | S _ => 2 * INR lam end.
Lemma is_derive_evalU lam c x : is_derive (evalU lam c) x (rsum (length c) (fun j => nth j c 0 * (dw lam j * match j with O => 0 | S m => ubasis (S lam) m x end))).
Proof.
  unfold evalU. apply (is_derive_rsum (length c) (fun j t => nth j c 0 * ubasis lam j t)). intros k _.
  apply is_derive_scal. apply is_derive_ubasis.
Qed.
Lemma diff_step lam n c x : length c = n ->
  evalU (S lam) (matvec n (spdiags [(1%Z, dw lam)]) c) x = rsum (length c) (fun j => nth j c 0 * (dw lam j * match j with O => 0 | S m => ubasis (S lam) m x end)).
Proof.
  intros L. rewrite L. unfold matvec. rewrite evalU_mk.
  rewrite (rsum_ext n _ (fun i => if Nat.ltb (S i) n then dw lam (S i) * nth (S i) c 0 * ubasis (S lam) i x else 0)).
  2:{ intros i Hi. destruct (Nat.ltb_spec (S i) n) as [H|H].
      - f_equal. rewrite (rsum_single n _ (S i) H).
        + rewrite spdiags1. destruct (Z.eqb_spec (Z.of_nat (S i) - Z.of_nat i) 1); [reflexivity|lia].
        + intros k _ Hk. rewrite spdiags1. destruct (Z.eqb_spec (Z.of_nat k - Z.of_nat i) 1); [lia|ring].
      - rewrite rsum_zero; [ring|]. intros k Hk. rewrite spdiags1. destruct (Z.eqb_spec (Z.of_nat k - Z.of_nat i) 1); [lia|ring]. }
  destruct n as [|p]; [reflexivity|]. rewrite (rsum_S_l p (fun j => nth j c 0 * _)). cbn [rsum].
  destruct (Nat.ltb_spec (S p) (S p)); [lia|]. rewrite Rplus_0_r.
  replace (nth 0 c 0 * (dw lam 0 * 0)) with 0 by ring. rewrite Rplus_0_l. apply rsum_ext. intros k Hk.
  destruct (Nat.ltb_spec (S k) (S p)); [|lia]. ring.
Qed.
Definition diffstep (n lam : nat) : mat := spdiags [(1%Z, dw lam)].
Lemma diffmat_S n m c : length c = n -> matvec n (diffmat n (S m)) c = matvec n (diffstep n m) (matvec n (diffmat n m) c).
Proof.
  intros L. destruct m as [|q].
  - unfold diffmat. cbn [seq fold_left]. rewrite (matvec_eye n c L). reflexivity.
  - unfold diffmat. rewrite seq_S, fold_left_app. cbn [fold_left]. rewrite matvec_matmul. f_equal.
Qed.
(** C23 *)
Lemma diffmat_correct n m c x : length c = n ->
  length (matvec n (diffmat n m) c) = n /\ is_derive_n (evalT c) m x (evalU m (matvec n (diffmat n m) c) x).
Proof.
  intros L. split; [apply matvec_length|]. revert x. induction m as [|m IH]; intros x.
  - cbn [is_derive_n]. unfold diffmat. rewrite (matvec_eye n c L). reflexivity.
  - cbn [is_derive_n]. apply (is_derive_ext (evalU m (matvec n (diffmat n m) c))).
    { intros t. symmetry. apply is_derive_n_unique, IH. }
    rewrite diffmat_S by exact L. unfold diffstep. rewrite diff_step by apply matvec_length. apply is_derive_evalU.
Qed.

(** ** conversion *)
Definition cw (lam j : nat) : R := match lam with O => match j with O => 1 | _ => / 2 end | S _ => INR lam / (INR lam + INR j) end.
Lemma cw_pos lam j : 0 < cw lam j.
Proof.
  unfold cw. destruct lam as [|l]; [destruct j; lra|]. assert (1 <= INR (S l)) by (change 1 with (INR 1); apply le_INR; lia). assert (P := INRp j).
  apply Rdiv_lt_0_compat; lra.
Qed.
Lemma cw_0 lam : cw lam 0 = 1.
Proof. unfold cw. destruct lam as [|l]; [reflexivity|]. assert (1 <= INR (S l)) by (change 1 with (INR 1); apply le_INR; lia). cbn [INR]. field. cbn [INR] in H. change (match l with O => 1 | S _ => INR l + 1 end) with (INR (S l)) in *. lra. Qed.
Lemma nth_repeat_lt {A} (a d : A) m n : (n < m)%nat -> nth n (repeat a m) d = a.
Proof. revert n. induction m as [|m IH]; intros n H; [lia|]. destruct n; [reflexivity|]. cbn. apply IH. lia. Qed.
Lemma nth_map_seq {A} (f : nat -> A) a m j d : (j < m)%nat -> nth j (map f (seq a m)) d = f (a + j)%nat.
Proof. intros H. rewrite (nth_indep _ d (f 0%nat)) by (rewrite map_length, seq_length; exact H). rewrite map_nth, seq_nth by exact H. reflexivity. Qed.
Lemma spconvert_entry n lam i j : (2 <= n)%nat -> (i < n)%nat -> (j < n)%nat ->
  spconvert n lam i j = if Nat.eqb j i then cw lam j else if Nat.eqb j (i + 2) then - cw lam j else 0.
Proof.
  intros Hn Hi Hj.
  assert (E : forall f g, spdiags [(0%Z, f); (2%Z, g)] i j = if Nat.eqb j i then f j else if Nat.eqb j (i + 2) then g j else 0).
  { intros f g. rewrite spdiags2. destruct (Nat.eqb_spec j i), (Nat.eqb_spec j (i + 2)), (Z.eqb_spec (Z.of_nat j - Z.of_nat i) 0), (Z.eqb_spec (Z.of_nat j - Z.of_nat i) 2); try lia; ring. }
  unfold spconvert. destruct lam as [|l].
  - rewrite E. destruct (Nat.eqb_spec j i) as [|]; [|destruct (Nat.eqb_spec j (i + 2)) as [|]; [|reflexivity]].
    + destruct j as [|[|j]]; cbn [nth cw]; [reflexivity|reflexivity|]. apply nth_repeat_lt. lia.
    + destruct j as [|[|j]]; [lia|lia|]. cbn [nth cw]. apply nth_repeat_lt. lia.
  - rewrite E. destruct (Nat.eqb_spec j i) as [|]; [|destruct (Nat.eqb_spec j (i + 2)) as [|]; [|reflexivity]].
    + destruct j as [|[|j]]; cbn [nth]; [symmetry; apply cw_0|reflexivity|].
      rewrite nth_map_seq by lia. reflexivity.
    + destruct j as [|[|j]]; [lia|lia|]. cbn [nth].
      rewrite nth_map_seq by lia. reflexivity.
Qed.
(** entry i of the converted vector *)
Lemma spconvert_row n lam c i : (2 <= n)%nat -> length c = n -> (i < n)%nat ->
  nth i (matvec n (spconvert n lam) c) 0 = cw lam i * nth i c 0 - cw lam (i + 2) * nth (i + 2) c 0.
Proof.
  intros Hn L Hi. rewrite matvec_nth by exact Hi.
  rewrite (rsum_ext n _ (fun j => (if Nat.eqb j i then cw lam i * nth i c 0 else 0) + (if Nat.eqb j (i + 2) then - (cw lam (i + 2) * nth (i + 2) c 0) else 0))).
  2:{ intros j Hj. rewrite spconvert_entry by assumption. destruct (Nat.eqb_spec j i), (Nat.eqb_spec j (i + 2)); try lia; subst; ring. }
  rewrite rsum_plus. rewrite (rsum_single n _ i Hi); [rewrite Nat.eqb_refl|intros k _ Hk; destruct (Nat.eqb_spec k i); [lia|reflexivity]].
  destruct (Nat.lt_ge_cases (i + 2) n) as [H|H].
  - rewrite (rsum_single n _ (i + 2) H); [rewrite Nat.eqb_refl; ring|]. intros k _ Hk. destruct (Nat.eqb_spec k (i + 2)); [lia|reflexivity].
  - rewrite rsum_zero; [rewrite (@nth_overflow R c (i + 2)) by lia; ring|]. intros k Hk. destruct (Nat.eqb_spec k (i + 2)); [lia|reflexivity].
Qed.
Lemma spconvert_eval n lam c x : (2 <= n)%nat -> length c = n -> evalU (S lam) (matvec n (spconvert n lam) c) x = evalU lam c x.
Proof.
  intros Hn L. unfold evalU. rewrite matvec_length, L.
  rewrite (rsum_ext n _ (fun i => cw lam i * nth i c 0 * ubasis (S lam) i x - cw lam (i + 2) * nth (i + 2) c 0 * ubasis (S lam) i x)).
  2:{ intros i Hi. rewrite spconvert_row by assumption. ring. }
  rewrite rsum_minus.
  rewrite (rsum_ext n (fun j => nth j c 0 * ubasis lam j x) (fun j => cw lam j * nth j c 0 * ubasis (S lam) j x - cw lam j * nth j c 0 * match j with S (S p) => ubasis (S lam) p x | _ => 0 end)).
  2:{ intros j Hj. rewrite (ubasis_conv lam j x). fold (cw lam j). ring. }
  rewrite rsum_minus. f_equal.
  set (g := fun i => cw lam (i + 2) * nth (i + 2) c 0 * ubasis (S lam) i x).
  replace n with (S (S (n - 2))) at 2 by lia. rewrite !rsum_S_l. cbv beta iota.
  rewrite (rsum_ext (n - 2) _ g). 2:{ intros k Hk. unfold g. replace (k + 2)%nat with (S (S k)) by lia. reflexivity. }
  rewrite (rsum_extend (n - 2) n g); [ring|lia|]. intros k Hk. unfold g. rewrite (nth_overflow c) by lia. ring.
Qed.
Lemma convertmat_S n K1 d c : matvec n (convertmat n K1 (K1 + d)) c = matvec n (spconvert n (K1 + d)) (matvec n (match d with O => eye | S e => convertmat n K1 (K1 + e) end) c).
Proof.
  unfold convertmat. replace (K1 + d + 1 - K1)%nat with (S d) by lia. rewrite seq_S, fold_left_app. cbn [fold_left]. rewrite matvec_matmul. f_equal.
  destruct d as [|e]; [reflexivity|]. replace (K1 + e + 1 - K1)%nat with (S e) by lia. reflexivity.
Qed.
(** C24 *)
Lemma convertmat_correct n K1 K2 c x : (2 <= n)%nat -> length c = n ->
  length (matvec n (convertmat n K1 K2) c) = n /\
  evalU (Nat.max K1 (K2 + 1)) (matvec n (convertmat n K1 K2) c) x = evalU K1 c x.
Proof.
  intros Hn L. split; [apply matvec_length|].
  destruct (Nat.le_gt_cases K1 K2) as [H|H].
  - replace (Nat.max K1 (K2 + 1)) with (S K2) by lia. replace K2 with (K1 + (K2 - K1))%nat by lia. generalize (K2 - K1)%nat. intros d. induction d as [|d IH].
    + rewrite convertmat_S, (matvec_eye n c L), Nat.add_0_r. apply spconvert_eval; assumption.
    + rewrite convertmat_S. rewrite spconvert_eval; [|exact Hn|apply matvec_length]. replace (K1 + S d)%nat with (S (K1 + d)) by lia. exact IH.
  - replace (Nat.max K1 (K2 + 1)) with K1 by lia. unfold convertmat. replace (K2 + 1 - K1)%nat with 0%nat by lia. cbn [seq fold_left].
    rewrite (matvec_eye n c L). reflexivity.
Qed.

(** ** inverse conversion *)
Lemma fold_right_seq (g : nat -> R) a m : fold_right (fun k s => g k + s) 0 (seq a m) = rsum m (fun k => g (a + k)%nat).
Proof.
  revert a. induction m as [|m IH]; intros a; [reflexivity|]. cbn [seq fold_right]. rewrite IH, rsum_S_l, Nat.add_0_r. f_equal. apply rsum_ext. intros k _. f_equal. lia.
Qed.
Lemma fold_right_map {A B} (h : A -> B) (g : B -> R) l : fold_right (fun p s => g p + s) 0 (map h l) = fold_right (fun p s => g (h p) + s) 0 l.
Proof. induction l as [|a t IH]; [reflexivity|]. cbn. rewrite IH. reflexivity. Qed.
Definition nhalf (n : nat) : nat := if Nat.odd n then (1 + n / 2)%nat else (n / 2)%nat.
Lemma nhalf_bound n : (n <= 2 * nhalf n <= S n)%nat.
Proof.
  unfold nhalf. assert (A := Nat.div_mod n 2 ltac:(lia)). destruct (Nat.odd n) eqn:E.
  - apply Nat.odd_spec in E as [m ->]. replace (2 * m + 1)%nat with (1 + m * 2)%nat in * by lia. rewrite Nat.div_add in * by lia. cbn [Nat.div Nat.divmod fst] in *. cbn in *. lia.
  - assert (E' : Nat.even n = true) by (rewrite <- Nat.negb_odd, E; reflexivity). apply Nat.even_spec in E' as [m ->]. replace (2 * m)%nat with (m * 2)%nat in * by lia. rewrite Nat.div_mul in * by lia. lia.
Qed.
Lemma spconvert_inv_entry n lam i j : (i < n)%nat -> spconvert_inv n lam i j = rsum (nhalf n) (fun k => if Nat.eqb j (i + 2 * k) then / cw lam i else 0).
Proof.
  intros Hi. unfold spconvert_inv, spdiags_row, conv_offsets. fold (nhalf n).
  set (dg := match lam with O => _ | S _ => _ end).
  assert (Hd : nth i dg 0 = / cw lam i).
  { unfold dg. destruct lam as [|l].
    - destruct i as [|i]; cbn [nth cw]; [field|]. rewrite nth_repeat_lt by lia. field.
    - destruct i as [|i]; cbn [nth]; [rewrite cw_0; field|]. rewrite nth_map_seq by lia. unfold cw. cbn [Nat.add].
      assert (1 <= INR (S l)) by (change 1 with (INR 1); apply le_INR; lia). assert (P := INRp (S i)). field. lra. }
  rewrite (fold_right_map (fun k : nat => (k, fun i : nat => nth i dg 0)) (fun p => if Nat.eqb j (i + fst p) then snd p i else 0)). cbn [fst snd].
  rewrite (fold_right_map (fun k => (2 * k)%nat) (fun p => if Nat.eqb j (i + p) then nth i dg 0 else 0)).
  rewrite (fold_right_seq (fun k => if Nat.eqb j (i + 2 * k) then nth i dg 0 else 0)). apply rsum_ext. intros k _. cbn [Nat.add]. rewrite Hd. reflexivity.
Qed.
Lemma spconvert_inv_row n lam c i : length c = n -> (i < n)%nat ->
  nth i (matvec n (spconvert_inv n lam) c) 0 = / cw lam i * rsum (nhalf n) (fun k => nth (i + 2 * k) c 0).
Proof.
  intros L Hi. rewrite matvec_nth by exact Hi.
  rewrite (rsum_ext n _ (fun j => rsum (nhalf n) (fun k => (if Nat.eqb j (i + 2 * k) then / cw lam i else 0) * nth j c 0))).
  2:{ intros j _. rewrite spconvert_inv_entry by exact Hi. symmetry. apply rsum_scal_r. }
  rewrite rsum_swap, <- rsum_scal. apply rsum_ext. intros k Hk.
  destruct (Nat.lt_ge_cases (i + 2 * k) n) as [H|H].
  - rewrite (rsum_single n _ (i + 2 * k) H); [rewrite Nat.eqb_refl; reflexivity|]. intros j _ Hj. destruct (Nat.eqb_spec j (i + 2 * k)); [lia|ring].
  - rewrite rsum_zero; [rewrite nth_overflow by lia; ring|]. intros j Hj. destruct (Nat.eqb_spec j (i + 2 * k)); [lia|ring].
Qed.
Lemma rsum_tele m (g : nat -> R) : rsum m (fun k => g k - g (S k)) = g 0%nat - g m.
Proof. induction m as [|m IH]; cbn [rsum]; [ring|rewrite IH; ring]. Qed.
Lemma spconvert_inv_l n lam c : (2 <= n)%nat -> length c = n -> matvec n (spconvert_inv n lam) (matvec n (spconvert n lam) c) = c.
Proof.
  intros Hn L. apply (list_ext _ _ 0); [rewrite matvec_length; auto|]. rewrite matvec_length. intros i Hi.
  rewrite spconvert_inv_row by (try apply matvec_length; exact Hi).
  rewrite (rsum_ext (nhalf n) _ (fun k => cw lam (i + 2 * k) * nth (i + 2 * k) c 0 - cw lam (i + 2 * S k) * nth (i + 2 * S k) c 0)).
  2:{ intros k _. destruct (Nat.lt_ge_cases (i + 2 * k) n) as [H|H].
      - rewrite spconvert_row by assumption. replace (i + 2 * k + 2)%nat with (i + 2 * S k)%nat by lia. reflexivity.
      - rewrite !nth_overflow by (rewrite ?matvec_length; lia). ring. }
  rewrite (rsum_tele _ (fun k => cw lam (i + 2 * k) * nth (i + 2 * k) c 0)). assert (B := nhalf_bound n). rewrite (@nth_overflow R c (i + 2 * nhalf n)) by lia.
  rewrite Nat.mul_0_r, Nat.add_0_r. assert (Q := cw_pos lam i). field. lra.
Qed.
Lemma spconvert_inv_r n lam c : (2 <= n)%nat -> length c = n -> matvec n (spconvert n lam) (matvec n (spconvert_inv n lam) c) = c.
Proof.
  intros Hn L. apply (list_ext _ _ 0); [rewrite matvec_length; auto|]. rewrite matvec_length. intros i Hi.
  rewrite spconvert_row by (try apply matvec_length; assumption). rewrite spconvert_inv_row by assumption.
  assert (B := nhalf_bound n). assert (Q := cw_pos lam i).
  assert (E : cw lam (i + 2) * nth (i + 2) (matvec n (spconvert_inv n lam) c) 0 = rsum (nhalf n) (fun k => nth (i + 2 * S k) c 0)).
  { destruct (Nat.lt_ge_cases (i + 2) n) as [H|H].
    - rewrite spconvert_inv_row by assumption. assert (Q2 := cw_pos lam (i + 2)). rewrite <- Rmult_assoc, Rinv_r, Rmult_1_l by lra.
      apply rsum_ext. intros k _. f_equal. lia.
    - rewrite nth_overflow by (rewrite matvec_length; lia). rewrite rsum_zero; [ring|]. intros k _. apply nth_overflow. lia. }
  rewrite E. rewrite <- Rmult_assoc, Rinv_r, Rmult_1_l by lra.
  rewrite <- rsum_minus, (rsum_tele _ (fun k => nth (i + 2 * k) c 0)). rewrite (@nth_overflow R c (i + 2 * nhalf n)) by lia. rewrite Nat.mul_0_r, Nat.add_0_r. ring.
Qed.
Lemma convertmat_inv_S n K1 d c : matvec n (convertmat_inv n K1 (K1 + d)) c = matvec n (match d with O => eye | S e => convertmat_inv n K1 (K1 + e) end) (matvec n (spconvert_inv n (K1 + d)) c).
Proof.
  assert (G : forall l M (v : list R), matvec n (fold_left (fun M s => matmul n (spconvert_inv n s) M) l M) v = matvec n (fold_left (fun M s => matmul n (spconvert_inv n s) M) l eye) (matvec n M v)).
  { induction l as [|a t IH]; intros M v; cbn [fold_left].
    - rewrite matvec_eye by apply matvec_length. reflexivity.
    - rewrite IH. rewrite (IH (matmul n (spconvert_inv n a) eye)). f_equal. rewrite !matvec_matmul. f_equal. rewrite matvec_eye by apply matvec_length. reflexivity. }
  unfold convertmat_inv. replace (K1 + d + 1 - K1)%nat with (S d) by lia. rewrite seq_S, rev_app_distr. cbn [rev app fold_left]. rewrite G.
  assert (E1 : matvec n (matmul n (spconvert_inv n (K1 + d)) eye) c = matvec n (spconvert_inv n (K1 + d)) c).
  { rewrite matvec_matmul. apply (list_ext _ _ 0); [rewrite !matvec_length; reflexivity|]. rewrite matvec_length. intros i Hi. rewrite !matvec_nth by exact Hi.
    apply rsum_ext. intros j Hj. rewrite matvec_nth by exact Hj. f_equal.
    rewrite (rsum_single n _ j Hj); [unfold eye; rewrite Nat.eqb_refl; ring|]. intros k _ Hk. unfold eye. destruct (Nat.eqb_spec j k); [lia|ring]. }
  rewrite E1. destruct d as [|e]; [reflexivity|]. replace (K1 + e + 1 - K1)%nat with (S e) by lia. reflexivity.
Qed.
Lemma convertmat_inv_l n K1 K2 c : (2 <= n)%nat -> length c = n -> matvec n (convertmat_inv n K1 K2) (matvec n (convertmat n K1 K2) c) = c.
Proof.
  intros Hn L. destruct (Nat.le_gt_cases K1 K2) as [H|H].
  - replace K2 with (K1 + (K2 - K1))%nat by lia. generalize (K2 - K1)%nat. intros d. induction d as [|d IH].
    + rewrite convertmat_inv_S, convertmat_S, spconvert_inv_l; [|exact Hn|apply matvec_length]. rewrite !matvec_eye by (rewrite ?matvec_length; auto). reflexivity.
    + rewrite convertmat_inv_S, convertmat_S, spconvert_inv_l; [|exact Hn|apply matvec_length]. exact IH.
  - unfold convertmat, convertmat_inv. replace (K2 + 1 - K1)%nat with 0%nat by lia. cbn [seq rev fold_left]. rewrite !matvec_eye by (rewrite ?matvec_length; auto). reflexivity.
Qed.
Lemma convertmat_inv_r n K1 K2 c : (2 <= n)%nat -> length c = n -> matvec n (convertmat n K1 K2) (matvec n (convertmat_inv n K1 K2) c) = c.
Proof.
  intros Hn L. destruct (Nat.le_gt_cases K1 K2) as [H|H].
  - replace K2 with (K1 + (K2 - K1))%nat by lia. generalize (K2 - K1)%nat. intros d. revert c L. induction d as [|d IH]; intros c L.
    + rewrite convertmat_inv_S, convertmat_S. rewrite !matvec_eye by apply matvec_length. apply spconvert_inv_r; assumption.
    + rewrite convertmat_inv_S, convertmat_S. rewrite IH by apply matvec_length. apply spconvert_inv_r; assumption.
  - unfold convertmat, convertmat_inv. replace (K2 + 1 - K1)%nat with 0%nat by lia. cbn [seq rev fold_left]. rewrite !matvec_eye by (rewrite ?matvec_length; auto). reflexivity.
Qed.
(** integration row *)
Lemma intmat_correct k c : (2 <= k)%nat -> length c = k ->
  is_RInt (evalT c) (-1) 1 (nth 0 (matvec k (intmat k) c) 0) /\ forall i, (1 <= i)%nat -> nth i (matvec k (intmat k) c) 0 = 0.
Proof.
  intros Hk L. split.
  - rewrite matvec_nth by lia. evar_last; [apply is_RInt_evalT|]. rewrite L. apply rsum_ext. intros j _. unfold intmat. cbn [Nat.eqb]. rewrite Rmult_comm. f_equal.
    unfold moment. rewrite <- Nat.negb_even. destruct (Nat.even j); cbn [negb]; [|reflexivity]. destruct j; [cbn; field|reflexivity].
  - intros i Hi. destruct (Nat.lt_ge_cases i k) as [H|H]; [|apply nth_overflow; rewrite matvec_length; exact H].
    rewrite matvec_nth by exact H. apply rsum_zero. intros j _. unfold intmat. destruct (Nat.eqb_spec i 0); [lia|ring].
Qed.
