(** Multiplication matrices of the ultraspherical method. *)
From Coq Require Import Reals ZArith List Arith Lia Lra Bool.
From Coquelicot Require Import Coquelicot.
From Verif Require Import Base ChebSpec ChebMath ChebModel UltraSpec UltraModel UltraBasis UltraProofs.
Import ListNotations.
Open Scope R_scope.

(** ** Toeplitz and Hankel matrices *)
Lemma Reqb_spec a b : Reqb a b = true <-> a = b.
Proof. unfold Reqb. destruct (Req_EM_T a b); split; congruence. Qed.
Lemma nzidx_in v a : In a (nzidx v) <-> (a < length v)%nat /\ nth a v 0 <> 0.
Proof.
  unfold nzidx. rewrite filter_In, in_seq. split.
  - intros [H1 H2]. split; [lia|]. intros E. apply Reqb_spec in E. rewrite E in H2. discriminate.
  - intros [H1 H2]. split; [lia|]. destruct (Reqb (nth a v 0) 0) eqn:E; [apply Reqb_spec in E; contradiction|reflexivity].
Qed.
Lemma nzidx_nodup v : NoDup (nzidx v). Proof. apply NoDup_filter, seq_NoDup. Qed.
Lemma fold_pick (w : nat -> R) l d : NoDup l ->
  fold_right (fun a s => (if Nat.eqb a d then w a else 0) + s) 0 l = if in_dec Nat.eq_dec d l then w d else 0.
Proof.
  induction l as [|a t IH]; intros H; [reflexivity|]. inversion H as [|? ? Hn Ht]; subst. cbn [fold_right]. rewrite (IH Ht).
  destruct (Nat.eqb_spec a d) as [->|Ha].
  - destruct (in_dec Nat.eq_dec d t); [contradiction|]. destruct (in_dec Nat.eq_dec d (d :: t)) as [|N]; [ring|]. exfalso. apply N. left. reflexivity.
  - destruct (in_dec Nat.eq_dec d t) as [I|N]; destruct (in_dec Nat.eq_dec d (a :: t)) as [I'|N']; try ring.
    + exfalso. apply N'. right. exact I.
    + destruct I'; [congruence|contradiction].
Qed.
Lemma spdiags_app l l' i j : spdiags (l ++ l') i j = spdiags l i j + spdiags l' i j.
Proof. unfold spdiags. induction l as [|a t IH]; cbn [app fold_right]; [ring|rewrite IH; ring]. Qed.
Lemma fold_right_ext {A} (f g : A -> R -> R) l : (forall a s, f a s = g a s) -> fold_right f 0 l = fold_right g 0 l.
Proof. intros H. induction l as [|a t IH]; [reflexivity|]. cbn. rewrite IH. apply H. Qed.
Lemma spdiags_up w l i j : NoDup l -> spdiags (map (fun a => (Z.of_nat a, fun _ : nat => w a)) l) i j =
  if Nat.leb i j then (if in_dec Nat.eq_dec (j - i)%nat l then w (j - i)%nat else 0) else 0.
Proof.
  intros H. unfold spdiags. rewrite (fold_right_map (fun a => (Z.of_nat a, fun _ : nat => w a)) (fun p => if Z.eqb (Z.of_nat j - Z.of_nat i) (fst p) then snd p j else 0)). cbn [fst snd].
  destruct (Nat.leb_spec i j) as [L|L].
  - rewrite <- (fold_pick w l (j - i) H). apply fold_right_ext. intros a s. destruct (Nat.eqb_spec a (j - i)), (Z.eqb_spec (Z.of_nat j - Z.of_nat i) (Z.of_nat a)); try lia; reflexivity.
  - clear H. induction l as [|a t IH]; [reflexivity|]. cbn [fold_right]. rewrite IH. destruct (Z.eqb_spec (Z.of_nat j - Z.of_nat i) (Z.of_nat a)); [lia|ring].
Qed.
Lemma spdiags_down w l i j : NoDup l -> spdiags (map (fun a => ((- Z.of_nat a)%Z, fun _ : nat => w a)) l) i j =
  if Nat.leb j i then (if in_dec Nat.eq_dec (i - j)%nat l then w (i - j)%nat else 0) else 0.
Proof.
  intros H. unfold spdiags. rewrite (fold_right_map (fun a => ((- Z.of_nat a)%Z, fun _ : nat => w a)) (fun p => if Z.eqb (Z.of_nat j - Z.of_nat i) (fst p) then snd p j else 0)). cbn [fst snd].
  destruct (Nat.leb_spec j i) as [L|L].
  - rewrite <- (fold_pick w l (i - j) H). apply fold_right_ext. intros a s. destruct (Nat.eqb_spec a (i - j)), (Z.eqb_spec (Z.of_nat j - Z.of_nat i) (- Z.of_nat a)); try lia; reflexivity.
  - clear H. induction l as [|a t IH]; [reflexivity|]. cbn [fold_right]. rewrite IH. destruct (Z.eqb_spec (Z.of_nat j - Z.of_nat i) (- Z.of_nat a)); [lia|ring].
Qed.
Lemma nz_pick v a : (if in_dec Nat.eq_dec a (nzidx v) then nth a v 0 else 0) = nth a v 0.
Proof.
  destruct (in_dec Nat.eq_dec a (nzidx v)) as [|N]; [reflexivity|].
  destruct (Nat.lt_ge_cases a (length v)) as [H|H]; [|rewrite nth_overflow by lia; reflexivity].
  destruct (Req_EM_T (nth a v 0) 0) as [E|E]; [congruence|]. exfalso. apply N. apply nzidx_in. auto.
Qed.
(** the situations in which sptoeplitz_fast builds the Toeplitz matrix *)
Definition toep_good (v : list R) : Prop := (length v < 100)%nat \/ nth 0 v 0 <> 0 \/ (forall a, nth a v 0 = 0).
Lemma sptoeplitz_entry v i j : toep_good v -> sptoeplitz_fast v i j = nth (i - j + (j - i)) v 0.
Proof.
  intros G. unfold sptoeplitz_fast. destruct (Nat.ltb_spec (length v) 100) as [H|H].
  - destruct (nzidx v) as [|a [|b t]] eqn:E; [reflexivity| |reflexivity].
    assert (Z : forall d, d <> a -> nth d v 0 = 0).
    { intros d Hd. rewrite <- nz_pick. destruct (in_dec Nat.eq_dec d (nzidx v)) as [I|]; [|reflexivity]. rewrite E in I. destruct I as [->|[]]. contradiction. }
    destruct (Nat.eqb_spec a 0) as [->|Ha].
    + rewrite spdiags1. destruct (Z.eqb_spec (Z.of_nat j - Z.of_nat i) 0).
      * replace (i - j + (j - i))%nat with 0%nat by lia. reflexivity.
      * symmetry. apply Z. lia.
    + rewrite spdiags2. destruct (Z.eqb_spec (Z.of_nat j - Z.of_nat i) (- Z.of_nat a)), (Z.eqb_spec (Z.of_nat j - Z.of_nat i) (Z.of_nat a)); try lia.
      * replace (i - j + (j - i))%nat with a by lia. ring.
      * replace (i - j + (j - i))%nat with a by lia. ring.
      * rewrite Z by lia. ring.
  - destruct G as [G|G]; [lia|]. rewrite spdiags_app.
    rewrite (spdiags_down (fun a => nth a v 0)) by apply nzidx_nodup. rewrite nz_pick.
    rewrite (spdiags_up (fun a => nth a v 0)).
    2:{ assert (N := nzidx_nodup v). destruct (nzidx v) as [|a t]; [exact N|]. inversion N; assumption. }
    destruct G as [G|G].
    + assert (E : nzidx v = 0%nat :: filter (fun i => negb (Reqb (nth i v 0) 0)) (seq 1 (length v - 1))).
      { unfold nzidx. replace (length v) with (S (length v - 1)) at 1 by lia. cbn [seq filter]. destruct (Reqb (nth 0 v 0) 0) eqn:Q; [apply Reqb_spec in Q; contradiction|]. reflexivity. }
      assert (P : (if in_dec Nat.eq_dec (j - i)%nat (tl (nzidx v)) then nth (j - i) v 0 else 0) = if Nat.eqb (j - i) 0 then 0 else nth (j - i) v 0).
      { destruct (Nat.eqb_spec (j - i) 0) as [E0|E0].
        - rewrite E0. destruct (in_dec Nat.eq_dec 0%nat (tl (nzidx v))) as [I|]; [|reflexivity]. rewrite E in I. cbn [tl] in I. apply filter_In in I as [I _]. apply in_seq in I. lia.
        - assert (NP := nz_pick v (j - i)). destruct (in_dec Nat.eq_dec (j - i)%nat (tl (nzidx v))) as [I|N], (in_dec Nat.eq_dec (j - i)%nat (nzidx v)) as [I'|N']; try reflexivity; try exact NP.
          exfalso. apply N. rewrite E in *. destruct I' as [I'|I']; [lia|exact I']. }
      rewrite P. destruct (Nat.leb_spec i j), (Nat.leb_spec j i), (Nat.eqb_spec (j - i) 0); try lia.
      * replace (i - j + (j - i))%nat with (i - j)%nat by lia. ring.
      * replace (i - j + (j - i))%nat with (j - i)%nat by lia. ring.
      * replace (i - j + (j - i))%nat with (i - j)%nat by lia. ring.
    + rewrite !G. destruct (Nat.leb i j), (Nat.leb j i), (in_dec Nat.eq_dec (j - i)%nat (tl (nzidx v))); ring.
Qed.
(** 100 rows or more and v_0 = 0: the first superdiagonal is missing *)
Lemma sptoeplitz_bad v i a : (100 <= length v)%nat -> (1 <= a)%nat -> (forall b, (b < a)%nat -> nth b v 0 = 0) -> sptoeplitz_fast v i (i + a)%nat = 0.
Proof.
  intros H Ha Z. unfold sptoeplitz_fast. destruct (Nat.ltb_spec (length v) 100); [lia|]. rewrite spdiags_app.
  rewrite (spdiags_down (fun a => nth a v 0)) by apply nzidx_nodup.
  rewrite (spdiags_up (fun a => nth a v 0)).
  2:{ assert (N := nzidx_nodup v). destruct (nzidx v) as [|b t]; [exact N|]. inversion N; assumption. }
  destruct (Nat.leb_spec (i + a) i); [lia|]. destruct (Nat.leb_spec i (i + a)); [|lia]. replace (i + a - i)%nat with a by lia.
  destruct (in_dec Nat.eq_dec a (tl (nzidx v))) as [I|]; [|ring].
  (* a is the second or later non-zero index although it is the smallest *)
  assert (S : forall p l s, In a (tl (filter p (seq s l))) -> (forall b, (s <= b < a)%nat -> p b = false) -> False).
  { intros p l. induction l as [|l IH]; intros s I' Hb; [exact I'|]. cbn [seq filter] in I'. destruct (p s) eqn:Q.
    - cbn [tl] in I'. apply filter_In in I' as [I' _]. apply in_seq in I'. rewrite Hb in Q by lia. discriminate.
    - apply (IH (S s) I'). intros b Hb'. apply Hb. lia. }
  exfalso. apply (S _ _ _ I). intros b Hb. rewrite Z by lia. assert (E : Reqb 0 0 = true) by (apply Reqb_spec; reflexivity). rewrite E. reflexivity.
Qed.
Lemma sphankel_entry r i j : (j < length r)%nat -> sphankel r i j = nth (i + j) r 0.
Proof.
  intros Hj. unfold sphankel. rewrite (spdiags_up (fun a => nth a (rev r) 0)) by apply nzidx_nodup. rewrite nz_pick.
  destruct (Nat.leb_spec i (length r - 1 - j)) as [H|H].
  - rewrite rev_nth by lia. f_equal. lia.
  - rewrite nth_overflow by lia. reflexivity.
Qed.

(** ** the generic product argument *)
Lemma leading_product_intro lam k N c (Q : nat -> R -> R) (E : nat -> mat) (M : mat) g f :
  (k <= N)%nat -> length g = k ->
  (forall m j x, (m < k)%nat -> (j < k)%nat -> rsum N (fun i => E m i j * ubasis lam i x) = Q m x * ubasis lam j x) ->
  (forall i j, (i < k)%nat -> (j < k)%nat -> M i j = rsum k (fun m => nth m c 0 * E m i j)) ->
  (forall x, f x = rsum k (fun m => nth m c 0 * Q m x)) ->
  leading_product lam f g (matvec k M g).
Proof.
  intros HN L HE HM Hf. exists (mk N (fun i => rsum k (fun j => rsum k (fun m => nth m c 0 * E m i j) * nth j g 0))). split.
  - rewrite matvec_length. apply (list_ext _ _ 0); [rewrite firstn_length, mk_length, matvec_length; lia|].
    rewrite firstn_length, mk_length. intros i Hi. rewrite matvec_nth by lia. assert (Hik : (i < k)%nat) by lia.
    assert (F : forall (l : list R) n p, (p < n)%nat -> nth p (firstn n l) 0 = nth p l 0).
    { induction l as [|a t IH]; intros [|n] [|p] Hp; try lia; try reflexivity. cbn. apply IH. lia. }
    rewrite F by exact Hik. rewrite nth_mk by lia. apply rsum_ext. intros j Hj. rewrite HM by assumption. reflexivity.
  - intros x. rewrite evalU_mk. unfold evalU. rewrite L, Hf.
    rewrite (rsum_ext N _ (fun i => rsum k (fun j => rsum k (fun m => nth m c 0 * nth j g 0 * (E m i j * ubasis lam i x))))).
    2:{ intros i _. rewrite <- rsum_scal_r. apply rsum_ext. intros j _. rewrite <- !rsum_scal_r. apply rsum_ext. intros; ring. }
    rewrite rsum_swap.
    rewrite (rsum_ext k _ (fun j => rsum k (fun m => nth m c 0 * Q m x) * (nth j g 0 * ubasis lam j x))).
    2:{ intros j Hj. rewrite rsum_swap, <- rsum_scal_r. apply rsum_ext. intros m Hm. rewrite rsum_scal, HE by assumption. ring. }
    apply rsum_scal.
Qed.
Lemma rsum_pick N a (w : nat -> R) : rsum N (fun i => (if Nat.eqb i a then 1 else 0) * w i) = if Nat.ltb a N then w a else 0.
Proof.
  destruct (Nat.ltb_spec a N) as [H|H].
  - rewrite (rsum_single N _ a H); [rewrite Nat.eqb_refl; ring|]. intros k _ Hk. destruct (Nat.eqb_spec k a); [lia|ring].
  - apply rsum_zero. intros k Hk. destruct (Nat.eqb_spec k a); [lia|ring].
Qed.
Definition ind (b : bool) : R := if b then 1 else 0.

(** ** lam = 0: T_m T_j *)
Definition E0 (m i j : nat) : R := / 2 * ((if Nat.eqb i (j + m) then 1 else 0) + (if Nat.eqb i (j - m + (m - j)) then 1 else 0)).
Lemma E0_sum m j N x : (j + m < N)%nat -> rsum N (fun i => E0 m i j * T i x) = T m x * T j x.
Proof.
  intros H. rewrite (rsum_ext N _ (fun i => / 2 * ((if Nat.eqb i (j + m) then 1 else 0) * T i x + (if Nat.eqb i (j - m + (m - j)) then 1 else 0) * T i x))) by (intros; unfold E0; ring).
  rewrite rsum_scal, rsum_plus, !rsum_pick. destruct (Nat.ltb_spec (j + m) N); [|lia]. destruct (Nat.ltb_spec (j - m + (m - j)) N); [|lia].
  destruct (Nat.le_ge_cases j m) as [L|L].
  - assert (Q := T_mul m j x L). replace (m + j)%nat with (j + m)%nat in Q by lia. replace (j - m + (m - j))%nat with (m - j)%nat by lia. lra.
  - assert (Q := T_mul j m x L). replace (j - m + (m - j))%nat with (j - m)%nat by lia. lra.
Qed.
Lemma E0_m m i j : E0 m i j = / 2 * (ind (Nat.leb j i) * (if Nat.eqb m (i - j) then 1 else 0) + ((if Nat.eqb m (i + j) then 1 else 0) + ind (Nat.leb 1 i && Nat.leb i j) * (if Nat.eqb m (j - i) then 1 else 0))).
Proof.
  unfold E0, ind. f_equal.
  destruct (Nat.eqb_spec i (j + m)), (Nat.eqb_spec i (j - m + (m - j))), (Nat.leb_spec j i), (Nat.eqb_spec m (i - j)), (Nat.eqb_spec m (i + j)), (Nat.leb_spec 1 i), (Nat.leb_spec i j), (Nat.eqb_spec m (j - i)); cbn [andb]; try lia; ring.
Qed.
Lemma rsum_pick_l k (c : list R) a : length c = k -> rsum k (fun m => nth m c 0 * (if Nat.eqb m a then 1 else 0)) = nth a c 0.
Proof.
  intros L. rewrite (rsum_ext k _ (fun m => (if Nat.eqb m a then 1 else 0) * nth m c 0)) by (intros; ring). rewrite rsum_pick.
  destruct (Nat.ltb_spec a k); [reflexivity|]. symmetry. apply nth_overflow. lia.
Qed.
Lemma E0_c k c i j : length c = k -> rsum k (fun m => nth m c 0 * E0 m i j) =
  / 2 * (ind (Nat.leb j i) * nth (i - j) c 0 + (nth (i + j) c 0 + ind (Nat.leb 1 i && Nat.leb i j) * nth (j - i) c 0)).
Proof.
  intros L. rewrite (rsum_ext k _ (fun m => / 2 * (ind (Nat.leb j i) * (nth m c 0 * (if Nat.eqb m (i - j) then 1 else 0)) + (nth m c 0 * (if Nat.eqb m (i + j) then 1 else 0) + ind (Nat.leb 1 i && Nat.leb i j) * (nth m c 0 * (if Nat.eqb m (j - i) then 1 else 0)))))).
  2:{ intros m _. rewrite E0_m. ring. }
  rewrite rsum_scal, !rsum_plus, !rsum_scal, !(rsum_pick_l k c _ L). reflexivity.
Qed.
Lemma fitk_length k c : length (fitk k c) = k. Proof. apply mk_length. Qed.
Lemma fitk_nth k c i : (length c <= k)%nat -> nth i (fitk k c) 0 = nth i c 0.
Proof. intros H. unfold fitk. destruct (Nat.lt_ge_cases i k); [rewrite nth_mk by assumption; reflexivity|rewrite nth_mk_out, nth_overflow by lia; reflexivity]. Qed.
Lemma evalT_fitk k c x : (length c <= k)%nat -> evalT c x = rsum k (fun m => nth m (fitk k c) 0 * T m x).
Proof. intros H. rewrite (evalT_ge c x k H). apply rsum_ext. intros m _. rewrite fitk_nth by exact H. reflexivity. Qed.
Lemma nth_tl {A} (l : list A) i d : nth i (tl l) d = nth (S i) l d. Proof. destruct l; [destruct i; reflexivity|reflexivity]. Qed.
Lemma nth_map0 (h : R -> R) l i : h 0 = 0 -> nth i (map h l) 0 = h (nth i l 0).
Proof. intros H. rewrite <- H at 1. apply map_nth. Qed.
Lemma multmat0_entry k c i j : (2 <= k)%nat -> (i < k)%nat -> (j < k)%nat ->
  ((k < 100)%nat \/ nth 0 (fitk k c) 0 <> 0 \/ (forall a, nth a (fitk k c) 0 = 0)) ->
  multmat0 k c i j = rsum k (fun m => nth m (fitk k c) 0 * E0 m i j).
Proof.
  intros Hk Hi Hj G. unfold multmat0, madd. set (b := fitk k c) in *. assert (Lb : length b = k) by apply fitk_length.
  set (h := map (fun a => a / 2) b). assert (Lh : length h = k) by (unfold h; rewrite map_length; exact Lb).
  assert (Hh : forall a, nth a h 0 = nth a b 0 / 2) by (intros a; unfold h; apply (nth_map0 (fun a => a / 2)); lra).
  set (v := 2 * nth 0 h 0 :: tl h). assert (Lv : length v = k) by (unfold v; cbn [length]; destruct h; cbn in *; lia).
  assert (Hv : forall a, nth a v 0 = if Nat.eqb a 0 then nth 0 b 0 else nth a b 0 / 2).
  { intros [|a]; unfold v; cbn [nth Nat.eqb]; [rewrite Hh; field|]. rewrite nth_tl. apply Hh. }
  rewrite sptoeplitz_entry.
  2:{ unfold toep_good. rewrite Lv. destruct G as [G|[G|G]]; [left; exact G|right; left; rewrite Hv; exact G|right; right]. intros a. rewrite Hv, !G. destruct (Nat.eqb a 0); lra. }
  rewrite (E0_c k b i j Lb), Hv.
  assert (Hp : (if Nat.leb 1 i && Nat.ltb j (k - 1) then sphankel (tl h) (i - 1)%nat j else 0) = if Nat.leb 1 i then nth (i + j) b 0 / 2 else 0).
  { destruct (Nat.leb_spec 1 i) as [H1|H1]; [|reflexivity]. destruct (Nat.ltb_spec j (k - 1)) as [H2|H2]; cbn [andb].
    - rewrite sphankel_entry by (destruct h; cbn in *; lia). rewrite nth_tl, Hh. do 2 f_equal. lia.
    - rewrite nth_overflow by lia. lra. }
  rewrite Hp. unfold ind.
  destruct (lt_eq_lt_dec i j) as [[H|H]|H].
  - replace (i - j + (j - i))%nat with (j - i)%nat by lia. destruct (Nat.leb_spec j i); [lia|]. destruct (Nat.leb_spec i j); [|lia]. destruct (Nat.eqb_spec (j - i) 0); [lia|].
    destruct (Nat.leb_spec 1 i); cbn [andb]; [lra|]. replace i with 0%nat by lia. rewrite Nat.sub_0_r. cbn [Nat.add]. lra.
  - subst j. rewrite Nat.sub_diag. cbn [Nat.add Nat.eqb]. rewrite Nat.leb_refl, andb_true_r. destruct (Nat.leb_spec 1 i); [lra|]. replace i with 0%nat by lia. cbn [Nat.add]. lra.
  - replace (i - j + (j - i))%nat with (i - j)%nat by lia. destruct (Nat.leb_spec j i); [|lia]. destruct (Nat.leb_spec i j); [lia|]. destruct (Nat.eqb_spec (i - j) 0); [lia|].
    destruct (Nat.leb_spec 1 i); cbn [andb]; [lra|lia].
Qed.
Lemma multmat0_product k c g : (2 <= k)%nat -> (length c <= k)%nat -> length g = k -> ((k < 100)%nat \/ nth 0 c 0 <> 0) ->
  leading_product 0 (evalT c) g (matvec k (multmat0 k c) g).
Proof.
  intros Hk Lc Lg G. apply (leading_product_intro 0 k (2 * k) (fitk k c) T E0); [lia|exact Lg| | |].
  - intros m j x Hm Hj. apply E0_sum. lia.
  - intros i j Hi Hj. apply multmat0_entry; try assumption. rewrite fitk_nth by exact Lc. tauto.
  - intros x. apply evalT_fitk, Lc.
Qed.

(** ** lam = 1: T_m U_j *)
Definition Us (j m : nat) (x : R) : R := if Nat.leb m j then U (j - m) x else if Nat.eqb m (S j) then 0 else - U (m - j - 2) x.
Lemma Us_rec j m x : Us j (S (S m)) x = 2 * x * Us j (S m) x - Us j m x.
Proof.
  unfold Us. destruct (Nat.leb_spec (S (S m)) j), (Nat.leb_spec (S m) j), (Nat.leb_spec m j); try lia.
  - replace (j - m)%nat with (S (S (j - S (S m)))) by lia. replace (j - S m)%nat with (S (j - S (S m))) by lia. rewrite U_SS. ring.
  - destruct (Nat.eqb_spec (S (S m)) (S j)); [|lia]. replace (j - S m)%nat with 0%nat by lia. replace (j - m)%nat with 1%nat by lia. cbn. ring.
  - destruct (Nat.eqb_spec (S (S m)) (S j)); [lia|]. destruct (Nat.eqb_spec (S m) (S j)); [|lia]. replace (j - m)%nat with 0%nat by lia. replace (S (S m) - j - 2)%nat with 0%nat by lia. cbn. ring.
  - destruct (Nat.eqb_spec (S (S m)) (S j)); [lia|]. destruct (Nat.eqb_spec (S m) (S j)); [lia|]. destruct (Nat.eqb_spec m (S j)) as [->|].
    + replace (S (S (S j)) - j - 2)%nat with 1%nat by lia. replace (S (S j) - j - 2)%nat with 0%nat by lia. cbn. ring.
    + replace (S (S m) - j - 2)%nat with (S (S (m - j - 2))) by lia. replace (S m - j - 2)%nat with (S (m - j - 2)) by lia. rewrite U_SS. ring.
Qed.
Lemma TU_mul m j x : 2 * (T m x * U j x) = U (j + m) x + Us j m x.
Proof.
  induction m as [| |m I1 I2] using nat_ind2.
  - unfold Us. cbn [Nat.leb T]. rewrite Nat.add_0_r, Nat.sub_0_r. ring.
  - cbn [T]. unfold Us. replace (j + 1)%nat with (S j) by lia. destruct j as [|p]; [cbn; ring|]. cbn [Nat.leb]. rewrite U_SS. replace (S p - 1)%nat with p by lia. ring.
  - rewrite T_SS, Us_rec. replace (j + S (S m))%nat with (S (S (j + m))) by lia. rewrite U_SS. replace (S (j + m)) with (j + S m)%nat by lia.
    replace (2 * ((2 * x * T (S m) x - T m x) * U j x)) with (2 * x * (2 * (T (S m) x * U j x)) - 2 * (T m x * U j x)) by ring. rewrite I1, I2. ring.
Qed.
Definition E1 (m i j : nat) : R := / 2 * ((if Nat.eqb i (j + m) then 1 else 0) + (if Nat.leb m j then (if Nat.eqb i (j - m) then 1 else 0) else if Nat.eqb m (S j) then 0 else - (if Nat.eqb i (m - j - 2) then 1 else 0))).
Lemma E1_sum m j N x : (j + m < N)%nat -> rsum N (fun i => E1 m i j * U i x) = T m x * U j x.
Proof.
  intros H. replace (T m x * U j x) with (/ 2 * (U (j + m) x + Us j m x)) by (rewrite <- TU_mul; field). unfold Us.
  destruct (Nat.leb_spec m j) as [L|L]; [|destruct (Nat.eqb_spec m (S j)) as [->|Hne]].
  - rewrite (rsum_ext N _ (fun i => / 2 * ((if Nat.eqb i (j + m) then 1 else 0) * U i x + (if Nat.eqb i (j - m) then 1 else 0) * U i x))).
    2:{ intros i _. unfold E1. destruct (Nat.leb_spec m j); [ring|lia]. }
    rewrite rsum_scal, rsum_plus, !rsum_pick. destruct (Nat.ltb_spec (j + m) N), (Nat.ltb_spec (j - m) N); try lia. reflexivity.
  - rewrite (rsum_ext N _ (fun i => / 2 * ((if Nat.eqb i (j + S j) then 1 else 0) * U i x))).
    2:{ intros i _. unfold E1. destruct (Nat.leb_spec (S j) j); [lia|]. rewrite Nat.eqb_refl. ring. }
    rewrite rsum_scal, !rsum_pick. destruct (Nat.ltb_spec (j + S j) N); [ring|lia].
  - rewrite (rsum_ext N _ (fun i => / 2 * ((if Nat.eqb i (j + m) then 1 else 0) * U i x - (if Nat.eqb i (m - j - 2) then 1 else 0) * U i x))).
    2:{ intros i _. unfold E1. destruct (Nat.leb_spec m j); [lia|]. destruct (Nat.eqb_spec m (S j)); [lia|ring]. }
    rewrite rsum_scal, rsum_minus, !rsum_pick. destruct (Nat.ltb_spec (j + m) N), (Nat.ltb_spec (m - j - 2) N); try lia. ring.
Qed.
Lemma E1_m m i j : E1 m i j = / 2 * (ind (Nat.leb j i) * (if Nat.eqb m (i - j) then 1 else 0) + (ind (Nat.leb i j) * (if Nat.eqb m (j - i) then 1 else 0) - (if Nat.eqb m (i + j + 2) then 1 else 0))).
Proof.
  unfold E1, ind. f_equal.
  destruct (Nat.eqb_spec i (j + m)), (Nat.leb_spec m j), (Nat.eqb_spec i (j - m)), (Nat.leb_spec j i), (Nat.eqb_spec m (i - j)), (Nat.eqb_spec m (i + j + 2)), (Nat.leb_spec i j), (Nat.eqb_spec m (j - i)), (Nat.eqb_spec m (S j)), (Nat.eqb_spec i (m - j - 2)); try lia; ring.
Qed.
Lemma E1_c k c i j : length c = k -> rsum k (fun m => nth m c 0 * E1 m i j) =
  / 2 * (ind (Nat.leb j i) * nth (i - j) c 0 + (ind (Nat.leb i j) * nth (j - i) c 0 - nth (i + j + 2) c 0)).
Proof.
  intros L. rewrite (rsum_ext k _ (fun m => / 2 * (ind (Nat.leb j i) * (nth m c 0 * (if Nat.eqb m (i - j) then 1 else 0)) + (ind (Nat.leb i j) * (nth m c 0 * (if Nat.eqb m (j - i) then 1 else 0)) - nth m c 0 * (if Nat.eqb m (i + j + 2) then 1 else 0))))).
  2:{ intros m _. rewrite E1_m. ring. }
  rewrite rsum_scal, rsum_plus, rsum_minus, !rsum_scal, !(rsum_pick_l k c _ L). reflexivity.
Qed.
Lemma nth_skipn_R (l : list R) p i : nth i (skipn p l) 0 = nth (p + i) l 0.
Proof. revert p. induction l as [|a t IH]; intros [|p]; try reflexivity; [destruct i; reflexivity|]. cbn [skipn Nat.add nth]. apply IH. Qed.
Lemma multmat1_entry k c i j : (3 <= k)%nat -> (i < k)%nat -> (j < k)%nat -> ((k < 100)%nat \/ nth 0 (fitk k c) 0 <> 0) ->
  multmat1 k c i j = rsum k (fun m => nth m (fitk k c) 0 * E1 m i j).
Proof.
  intros Hk Hi Hj G. unfold multmat1. set (b := fitk k c) in *. assert (Lb : length b = k) by apply fitk_length.
  set (v := 2 * nth 0 b 0 :: tl b). assert (Lv : length v = k) by (unfold v; cbn [length]; destruct b; cbn in *; lia).
  assert (Hv : forall a, nth a v 0 = if Nat.eqb a 0 then 2 * nth 0 b 0 else nth a b 0).
  { intros [|a]; unfold v; cbn [nth Nat.eqb]; [reflexivity|]. apply nth_tl. }
  rewrite sptoeplitz_entry by (unfold toep_good; rewrite Lv; destruct G as [G|G]; [left; exact G|right; left; rewrite Hv; cbn [Nat.eqb]; lra]).
  rewrite (E1_c k b i j Lb), Hv.
  assert (Hp : (if Nat.ltb i (k - 2) && Nat.ltb j (k - 2) then sphankel (map (fun a => a / 2) (skipn 2 b)) i j else 0) = nth (i + j + 2) b 0 / 2).
  { destruct (Nat.ltb_spec i (k - 2)) as [H1|H1], (Nat.ltb_spec j (k - 2)) as [H2|H2]; cbn [andb]; try (rewrite nth_overflow by lia; lra).
    rewrite sphankel_entry by (rewrite map_length, skipn_length; lia). rewrite (nth_map0 (fun a => a / 2)) by lra. rewrite nth_skipn_R. do 2 f_equal. lia. }
  rewrite Hp. unfold ind.
  destruct (lt_eq_lt_dec i j) as [[H|H]|H].
  - replace (i - j + (j - i))%nat with (j - i)%nat by lia. destruct (Nat.leb_spec j i); [lia|]. destruct (Nat.leb_spec i j); [|lia]. destruct (Nat.eqb_spec (j - i) 0); [lia|]. lra.
  - subst j. rewrite Nat.sub_diag. cbn [Nat.add Nat.eqb]. rewrite Nat.leb_refl. lra.
  - replace (i - j + (j - i))%nat with (i - j)%nat by lia. destruct (Nat.leb_spec j i); [|lia]. destruct (Nat.leb_spec i j); [lia|]. destruct (Nat.eqb_spec (i - j) 0); [lia|]. lra.
Qed.
Lemma multmat1_product k c g : (3 <= k)%nat -> (length c <= k)%nat -> length g = k -> ((k < 100)%nat \/ nth 0 c 0 <> 0) ->
  leading_product 1 (evalT c) g (matvec k (multmat1 k c) g).
Proof.
  intros Hk Lc Lg G. apply (leading_product_intro 1 k (2 * k) (fitk k c) T E1); [lia|exact Lg| | |].
  - intros m j x Hm Hj. cbn [ubasis]. rewrite gegen_1_U, <- (E1_sum m j (2 * k)) by lia. apply rsum_ext. intros i _. rewrite gegen_1_U. reflexivity.
  - intros i j Hi Hj. apply multmat1_entry; try assumption. rewrite fitk_nth by exact Lc. exact G.
  - intros x. apply evalT_fitk, Lc.
Qed.

(** ** lam >= 2: three-term recurrence *)
Definition xlo (lam j : nat) : R := (1 + INR j) / (2 * (INR lam + INR j)).
Definition xup (lam j : nat) : R := (2 * INR lam + INR j - 1) / (2 * (INR lam + INR j)).
Lemma multx_entry lam N i j : multx lam N i j = (if Nat.eqb i (S j) then xlo lam j else 0) + (if Nat.eqb j (S i) then xup lam j else 0).
Proof.
  unfold multx, madd. rewrite !spdiags1.
  destruct (Nat.eqb_spec i (S j)), (Z.eqb_spec (Z.of_nat j - Z.of_nat i) (-1)), (Nat.eqb_spec j (S i)), (Z.eqb_spec (Z.of_nat j - Z.of_nat i) 1); try lia; try reflexivity.
  subst j. reflexivity.
Qed.
(** multiplication by x without truncation *)
Definition xmul (lam : nat) (A : mat) : mat := fun i j => (match i with O => 0 | S p => xlo lam p * A p j end) + xup lam (S i) * A (S i) j.
Lemma matmul_multx lam N A i j : (i < N)%nat ->
  matmul N (multx lam N) A i j = (match i with O => 0 | S p => xlo lam p * A p j end) + (if Nat.ltb (S i) N then xup lam (S i) * A (S i) j else 0).
Proof.
  intros Hi. unfold matmul.
  rewrite (rsum_ext N _ (fun l => (if Nat.eqb i (S l) then xlo lam l * A l j else 0) + (if Nat.eqb l (S i) then xup lam l * A l j else 0))).
  2:{ intros l _. rewrite multx_entry. destruct (Nat.eqb i (S l)), (Nat.eqb l (S i)); ring. }
  rewrite rsum_plus. f_equal.
  - destruct i as [|p]; [apply rsum_zero; reflexivity|]. rewrite (rsum_single N _ p); [rewrite Nat.eqb_refl; reflexivity|lia|].
    intros q _ Hq; destruct (Nat.eqb_spec (S p) (S q)); [lia|reflexivity].
  - destruct (Nat.ltb_spec (S i) N) as [H|H].
    + rewrite (rsum_single N _ (S i) H) by (intros q _ Hq; destruct (Nat.eqb_spec q (S i)); [lia|reflexivity]). rewrite Nat.eqb_refl. reflexivity.
    + apply rsum_zero. intros q Hq. destruct (Nat.eqb_spec q (S i)); [lia|reflexivity].
Qed.
Definition al (lam n : nat) : R := 2 * (1 + INR n + INR lam) / (INR n + 2).
Definition be (lam n : nat) : R := (INR n + 2 * INR lam) / (INR n + 2).
(** the exact matrices, and the truncated ones of the code *)
Fixpoint EG (lam m : nat) : mat :=
  match m with
  | O => eye
  | S p => match p with O => fun i j => 2 * INR lam * xmul lam eye i j | S q => fun i j => al lam q * xmul lam (EG lam p) i j - be lam q * EG lam q i j end
  end.
Fixpoint AG (lam N m : nat) : mat :=
  match m with
  | O => eye
  | S p => match p with O => mscal (2 * INR lam) (multx lam N)
                      | S q => madd (mscal (al lam q) (matmul N (multx lam N) (AG lam N p))) (mscal (- be lam q) (AG lam N q)) end
  end.
Lemma EG_SS lam q i j : EG lam (S (S q)) i j = al lam q * xmul lam (EG lam (S q)) i j - be lam q * EG lam q i j. Proof. reflexivity. Qed.
Lemma AG_SS lam N q i j : AG lam N (S (S q)) i j = al lam q * matmul N (multx lam N) (AG lam N (S q)) i j + - be lam q * AG lam N q i j. Proof. reflexivity. Qed.
Lemma multx_eye lam N i j : multx lam N i j = xmul lam eye i j.
Proof.
  rewrite multx_entry. unfold xmul, eye. f_equal.
  - destruct i as [|p]; [destruct (Nat.eqb_spec 0 (S j)); [lia|reflexivity]|]. destruct (Nat.eqb_spec (S p) (S j)), (Nat.eqb_spec p j); try lia; subst; ring.
  - destruct (Nat.eqb_spec j (S i)), (Nat.eqb_spec (S i) j); try lia; subst; ring.
Qed.
Lemma AG_EG lam N m i j : (i + m < N)%nat -> AG lam N m i j = EG lam m i j.
Proof.
  revert i. induction m as [| |m I1 I2] using nat_ind2; intros i H; [reflexivity| |].
  - cbn [AG EG]. unfold mscal. rewrite multx_eye. reflexivity.
  - rewrite AG_SS, EG_SS, matmul_multx by lia. unfold xmul. destruct (Nat.ltb_spec (S i) N); [|lia]. rewrite (I1 i), (I2 (S i)) by lia.
    destruct i as [|p]; [ring|]. rewrite (I2 p) by lia. ring.
Qed.
Lemma EG_supp lam m i j : (j + m < i)%nat -> EG lam m i j = 0.
Proof.
  revert i. induction m as [| |m I1 I2] using nat_ind2; intros i H.
  - cbn [EG]. unfold eye. destruct (Nat.eqb_spec i j); [lia|reflexivity].
  - cbn [EG]. unfold xmul, eye. destruct i as [|p]; [lia|]. destruct (Nat.eqb_spec p j), (Nat.eqb_spec (S (S p)) j); try lia. ring.
  - rewrite EG_SS. unfold xmul. destruct i as [|p]; [lia|]. rewrite I1, (I2 p), (I2 (S (S p))) by lia. ring.
Qed.
Lemma xmul_sum lam A j N x : (1 <= lam)%nat -> (forall i, (N <= i)%nat -> A i j = 0) ->
  rsum (S N) (fun i => xmul lam A i j * gegen lam i x) = x * rsum N (fun i => A i j * gegen lam i x).
Proof.
  intros Hl Hz. unfold xmul.
  rewrite (rsum_ext (S N) _ (fun i => (match i with O => 0 | S p => xlo lam p * A p j * gegen lam (S p) x end) + xup lam (S i) * A (S i) j * gegen lam i x)).
  2:{ intros i _. destruct i; ring. }
  rewrite rsum_plus. rewrite (rsum_S_l N). rewrite Rplus_0_l.
  rewrite <- rsum_scal.
  rewrite (rsum_ext N (fun k => x * (A k j * gegen lam k x)) (fun l => xlo lam l * A l j * gegen lam (S l) x + xup lam l * A l j * match l with O => 0 | S m => gegen lam m x end)).
  2:{ intros l _. replace (x * (A l j * gegen lam l x)) with (A l j * (x * gegen lam l x)) by ring. rewrite gegen_x by exact Hl. unfold xlo, xup.
      assert (1 <= INR lam) by (change 1 with (INR 1); apply le_INR; exact Hl). assert (P := INRp l). destruct l; [cbn [INR]; field; lra|]. field. rewrite S_INR in *. assert (Q := INRp l). lra. }
  rewrite rsum_plus. f_equal.
  set (G := fun l => xup lam l * A l j * match l with O => 0 | S m => gegen lam m x end).
  rewrite (rsum_ext (S N) _ (fun i => G (S i))) by reflexivity.
  assert (E : rsum (S (S N)) G = rsum N G).
  { apply rsum_extend; [lia|]. intros k Hk. unfold G. rewrite Hz by lia. ring. }
  rewrite <- E. rewrite (rsum_S_l (S N)). unfold G at 2. ring.
Qed.
Lemma EG_sum lam m j N x : (1 <= lam)%nat -> (j + m < N)%nat -> rsum N (fun i => EG lam m i j * gegen lam i x) = gegen lam m x * gegen lam j x.
Proof.
  intros Hl. revert N.
  assert (X : forall m N, (j + m < N)%nat -> rsum (S N) (fun i => xmul lam (EG lam m) i j * gegen lam i x) = x * rsum N (fun i => EG lam m i j * gegen lam i x)).
  { intros p N Hp. apply xmul_sum; [exact Hl|]. intros i Hi. apply EG_supp. lia. }
  assert (I0 : forall N, (j < N)%nat -> rsum N (fun i => EG lam 0 i j * gegen lam i x) = gegen lam j x).
  { intros N H. rewrite (rsum_single N _ j H); [cbn [EG]; unfold eye; rewrite Nat.eqb_refl; ring|]. intros k _ Hk. cbn [EG]. unfold eye. destruct (Nat.eqb_spec k j); [lia|ring]. }
  induction m as [| |m I1 I2] using nat_ind2; intros N H.
  - rewrite I0 by lia. cbn [gegen]. ring.
  - destruct N as [|N]; [lia|]. cbn [EG gegen].
    rewrite (rsum_ext (S N) _ (fun i => 2 * INR lam * (xmul lam (EG lam 0) i j * gegen lam i x))) by (intros; cbn [EG]; ring).
    rewrite rsum_scal, X, I0 by lia. ring.
  - destruct N as [|N]; [lia|].
    rewrite (rsum_ext (S N) _ (fun i => al lam m * (xmul lam (EG lam (S m)) i j * gegen lam i x) - be lam m * (EG lam m i j * gegen lam i x))) by (intros; rewrite EG_SS; ring).
    rewrite rsum_minus, !rsum_scal, X, I1, I2 by lia. rewrite gegen_SS. unfold al, be. assert (P := INRp m). field. lra.
Qed.
Lemma mult_loop_spec lam N eps c fuel : forall nn M M0 M1,
  (forall i j, (i < N)%nat -> M i j = rsum (nn + 2) (fun m => nth m c 0 * AG lam N m i j)) ->
  (forall i j, (i < N)%nat -> M0 i j = AG lam N nn i j) -> (forall i j, (i < N)%nat -> M1 i j = AG lam N (S nn) i j) ->
  (nn + 2 + fuel)%nat = length c ->
  exists K, (K <= length c)%nat /\ (forall p, (K <= p < length c)%nat -> Rabs (nth p c 0) < eps) /\
    forall i j, (i < N)%nat -> mult_loop lam N eps c nn fuel M M0 M1 i j = rsum K (fun m => nth m c 0 * AG lam N m i j).
Proof.
  induction fuel as [|fu IH]; intros nn M M0 M1 HM H0 H1 L.
  - exists (nn + 2)%nat. split; [lia|]. split; [intros p Hp; lia|]. exact HM.
  - cbn [mult_loop]. set (M2 := madd (mscal (2 * (1 + INR nn + INR lam) / (INR nn + 2)) _) _). set (M' := madd M _).
    assert (H2 : forall i j, (i < N)%nat -> M2 i j = AG lam N (S (S nn)) i j).
    { intros i j Hi. unfold M2, madd, mscal. rewrite AG_SS. fold (al lam nn) (be lam nn). rewrite !matmul_multx by exact Hi. rewrite H0 by exact Hi. f_equal. f_equal.
      f_equal; [destruct i as [|p]; [reflexivity|rewrite H1 by lia; reflexivity]|]. destruct (Nat.ltb_spec (S i) N); [rewrite H1 by assumption; reflexivity|reflexivity]. }
    assert (HM' : forall i j, (i < N)%nat -> M' i j = rsum (S nn + 2) (fun m => nth m c 0 * AG lam N m i j)).
    { intros i j Hi. unfold M', madd, mscal. rewrite HM, H2 by exact Hi. cbn [Nat.add rsum]. replace (nn + 2)%nat with (S (S nn)) by lia. reflexivity. }
    destruct (forallb _ _) eqn:F.
    + exists (S nn + 2)%nat. split; [lia|]. split; [|exact HM'].
      intros p Hp. rewrite forallb_forall in F. specialize (F (nth p c 0)). assert (Q : Rltb (Rabs (nth p c 0)) eps = true).
      { apply F. replace p with ((nn + 3) + (p - (nn + 3)))%nat by lia. rewrite <- nth_skipn_R. apply nth_In. rewrite skipn_length. lia. }
      unfold Rltb in Q. destruct (Rlt_dec (Rabs (nth p c 0)) eps); [assumption|discriminate].
    + apply IH; try assumption. lia.
Qed.
(** C25 for lam >= 2: the matrix multiplies by f, up to coefficients of f in
    the basis lam that are below eps *)
Lemma multmatL_product k lam eps c g : (2 <= k)%nat -> (2 <= lam)%nat -> (length c <= k)%nat -> length g = k ->
  exists b K, length b = k /\ (forall x, evalU lam b x = evalT c x) /\ (K <= k)%nat /\ (forall p, (K <= p < k)%nat -> Rabs (nth p b 0) < eps) /\
    leading_product lam (evalU lam (firstn K b)) g (matvec k (multmatL k lam eps c) g).
Proof.
  intros Hk Hl Lc Lg. set (b := matvec k (convertmat k 0 (lam - 1)) (fitk k c)). assert (Lb : length b = k) by apply matvec_length.
  assert (Eb : forall x, evalU lam b x = evalT c x).
  { intros x. destruct (convertmat_correct k 0 (lam - 1) (fitk k c) x Hk (fitk_length k c)) as [_ E]. replace (Nat.max 0 (lam - 1 + 1)) with lam in E by lia. unfold b. rewrite E.
    unfold evalU. rewrite fitk_length. symmetry. apply evalT_fitk, Lc. }
  set (N := (2 * k)%nat).
  destruct (mult_loop_spec lam N eps b (k - 2) 0 (madd (mscal (nth 0 b 0) eye) (mscal (nth 1 b 0) (mscal (2 * INR lam) (multx lam N)))) eye (mscal (2 * INR lam) (multx lam N))) as [K [HK [Hs HM]]].
  - intros i j _. cbn [Nat.add rsum AG]. unfold madd, mscal. ring.
  - reflexivity.
  - reflexivity.
  - lia.
  - exists b, K. rewrite Lb in HK, Hs. split; [exact Lb|]. split; [exact Eb|]. split; [exact HK|]. split; [exact Hs|].
    assert (F : forall (l : list R) n p, nth p (firstn n l) 0 = if Nat.ltb p n then nth p l 0 else 0).
    { induction l as [|a t IH]; intros [|n] [|p]; try reflexivity; [destruct (Nat.ltb _ _); reflexivity|]. cbn [firstn nth]. rewrite IH. reflexivity. }
    apply (leading_product_intro lam k N (firstn K b) (gegen lam) (EG lam)); [unfold N; lia|exact Lg| | |].
    + intros m j x Hm Hj. destruct lam as [|l]; [lia|]. cbn [ubasis]. apply EG_sum; [lia|unfold N; lia].
    + intros i j Hi Hj. unfold multmatL. fold b. fold N. rewrite HM by (unfold N; lia).
      rewrite (rsum_extend K k); [|exact HK|intros m Hm; rewrite F; destruct (Nat.ltb_spec m K); [lia|ring]].
      apply rsum_ext. intros m Hm. rewrite F. destruct (Nat.ltb_spec m K); [|lia]. rewrite AG_EG by (unfold N; lia). reflexivity.
    + intros x. unfold evalU. rewrite firstn_length, Lb. replace (Nat.min K k) with K by lia.
      rewrite (rsum_extend K k); [|exact HK|intros m Hm; rewrite F; destruct (Nat.ltb_spec m K); [lia|ring]].
      apply rsum_ext. intros m _. destruct lam as [|l]; [lia|]. reflexivity.
Qed.
Lemma leading_product_const lam a g : leading_product lam (evalT [a]) g (matvec (length g) (mscal a eye) g).
Proof.
  assert (E : matvec (length g) (mscal a eye) g = map (fun y => a * y) g).
  { apply (list_ext _ _ 0); [rewrite matvec_length, map_length; reflexivity|]. rewrite matvec_length. intros i Hi. rewrite matvec_nth by exact Hi.
    rewrite (nth_map0 (fun y => a * y)) by ring. rewrite (rsum_single _ _ i Hi); [unfold mscal, eye; rewrite Nat.eqb_refl; ring|].
    intros k _ Hk. unfold mscal, eye. destruct (Nat.eqb_spec i k); [lia|ring]. }
  rewrite E. exists (map (fun y => a * y) g). split; [apply firstn_all|]. intros x. unfold evalU. rewrite map_length. unfold evalT. cbn [length rsum nth T].
  rewrite <- rsum_scal. apply rsum_ext. intros i _. rewrite (nth_map0 (fun y => a * y)) by ring. ring.
Qed.
(** C25 *)
Lemma multmat_product k c lam eps g : (3 <= k)%nat -> (1 <= length c <= k)%nat -> length g = k -> (lam <= 1)%nat -> ((k < 100)%nat \/ nth 0 c 0 <> 0) ->
  leading_product lam (evalT c) g (matvec k (multmat k c lam eps) g).
Proof.
  intros Hk Lc Lg Hl G. unfold multmat. destruct (Nat.eqb_spec (length c) 1) as [E|E].
  - destruct c as [|a [|]]; cbn in E; try lia. cbn [nth]. rewrite <- Lg. apply leading_product_const.
  - destruct lam as [|[|l]]; [apply multmat0_product; try assumption; lia|apply multmat1_product; try assumption; lia|lia].
Qed.
Lemma multmat_product_high k c lam eps g : (2 <= k)%nat -> (2 <= length c <= k)%nat -> length g = k -> (2 <= lam)%nat ->
  exists b K, length b = k /\ (forall x, evalU lam b x = evalT c x) /\ (K <= k)%nat /\ (forall p, (K <= p < k)%nat -> Rabs (nth p b 0) < eps) /\
    leading_product lam (evalU lam (firstn K b)) g (matvec k (multmat k c lam eps) g).
Proof.
  intros Hk Lc Lg Hl. unfold multmat. destruct (Nat.eqb_spec (length c) 1); [lia|]. destruct lam as [|[|l]]; [lia|lia|]. apply multmatL_product; try assumption; lia.
Qed.
(** C25 is false from 100 coefficients on when f has coefficient 0 equal to 0:
    for f = x and g = x the leading coefficient of x^2 = 1/2 + T_2/2 is 0 *)
Lemma multmat_large_wrong k eps : (100 <= k)%nat ->
  let g := 0 :: 1 :: repeat 0 (k - 2) in
  length g = k /\ (forall x, evalT [0; 1] x * evalT g x = evalT [1 / 2; 0; 1 / 2] x) /\
  nth 0 (matvec k (multmat k [0; 1] 0 eps) g) 0 = 0.
Proof.
  intros Hk g. assert (Lg : length g = k) by (unfold g; cbn [length]; rewrite repeat_length; lia). split; [exact Lg|].
  assert (Z : forall p, (2 <= p)%nat -> nth p g 0 = 0).
  { intros p Hp. destruct p as [|[|p]]; [lia|lia|]. unfold g. cbn [nth]. destruct (Nat.lt_ge_cases p (k - 2)); [apply nth_repeat_lt; assumption|apply nth_overflow; rewrite repeat_length; lia]. }
  split.
  - intros x. rewrite (evalT_ge g x k) by lia. rewrite (rsum_extend 2 k); [|lia|intros p Hp; rewrite Z by lia; ring].
    unfold evalT, g. cbn. field.
  - rewrite matvec_nth by lia. rewrite (rsum_single k _ 1); [|lia|intros p Hp Hne; destruct p as [|p]; [unfold g; cbn [nth]; ring|rewrite Z by lia; ring]].
    unfold multmat. cbn [length Nat.eqb]. unfold multmat0, madd. cbn [Nat.leb andb].
    set (v := 2 * _ :: _). assert (Lf : length (map (fun a => a / 2) (fitk k [0; 1])) = k) by (rewrite map_length, fitk_length; reflexivity).
    assert (E : sptoeplitz_fast v 0%nat (0 + 1)%nat = 0).
    { apply sptoeplitz_bad; [unfold v; cbn [length]; destruct (map _ _); cbn in *; lia|lia|]. intros b Hb. assert (b = 0)%nat as -> by lia. unfold v. cbn [nth].
      rewrite (nth_map0 (fun a => a / 2)) by lra. rewrite fitk_nth by (cbn; lia). cbn [nth]. lra. }
    cbn [Nat.add] in E. rewrite E. ring.
Qed.
(** C25 is false when f has more than k coefficients: T_2 T_1 = T_1/2 + T_3/2 *)
Lemma multmat_long_wrong eps : (forall x, evalT [0; 0; 1] x * evalT [0; 1] x = evalT [0; 1 / 2; 0; 1 / 2] x) /\ matvec 2 (multmat 2 [0; 0; 1] 0 eps) [0; 1] = [0; 0].
Proof.
  split; [intros x; unfold evalT; cbn; field|].
  assert (Hz : fitk 2 [0; 0; 1] = [0; 0]) by reflexivity.
  assert (M : forall i j, (i < 2)%nat -> (j < 2)%nat -> multmat 2 [0; 0; 1] 0 eps i j = 0).
  { intros i j Hi Hj. unfold multmat. cbn [length Nat.eqb]. rewrite multmat0_entry by (try lia; left; lia). rewrite Hz. apply rsum_zero. intros m _. destruct m as [|[|m]]; cbn [nth]; try ring. destruct m; ring. }
  unfold matvec. cbn [mk seq map rsum nth]. rewrite !M by lia. repeat f_equal; ring.
Qed.
