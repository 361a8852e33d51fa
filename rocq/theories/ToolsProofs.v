(** Proofs about colloc/tools.py and support/tools.py. *)
From Coq Require Import Reals ZArith List Arith Lia Lra Bool.
From Verif Require Import Base ToolsModel.
Import ListNotations.

(** ** next power of two *)
Open Scope Z_scope.
Lemma land_step n : 0 < n -> n <> 2 ^ Z.log2 n ->
  2 ^ Z.log2 n <= Z.land n (n - 1) < n /\ Z.log2 (Z.land n (n - 1)) = Z.log2 n.
Proof.
  intros Hn Hp. assert (L := Z.log2_spec n Hn). assert (K := Z.log2_nonneg n). set (k := Z.log2 n) in *.
  assert (L1 : Z.log2 (n - 1) = k).
  { apply Z.log2_unique; [exact K|]. lia. }
  assert (B1 : Z.testbit n k = true) by (apply Z.bit_log2; lia).
  assert (B2 : Z.testbit (n - 1) k = true).
  { rewrite <- L1. apply Z.bit_log2. assert (0 < 2 ^ k) by (apply Z.pow_pos_nonneg; lia). lia. }
  assert (P0 : 0 <= Z.land n (n - 1)) by (apply Z.land_nonneg; lia).
  assert (Q : 2 ^ k <= Z.land n (n - 1)).
  { assert (B : Z.testbit (Z.land n (n - 1)) k = true) by (rewrite Z.land_spec, B1, B2; reflexivity).
    apply Z.testbit_true in B; [|exact K].
    destruct (Z_lt_le_dec (Z.land n (n - 1)) (2 ^ k)) as [Hlt|]; [|assumption].
    rewrite Z.div_small in B by lia. discriminate. }
  assert (U : Z.land n (n - 1) <= n - 1).
  { assert (E : n - 1 = Z.land (n - 1) n + Z.ldiff (n - 1) n).
    { rewrite Z.add_nocarry_lxor.
      - symmetry. apply Z.bits_inj'. intros m Hm. rewrite Z.lxor_spec, Z.land_spec, Z.ldiff_spec.
        destruct (Z.testbit (n - 1) m), (Z.testbit n m); reflexivity.
      - apply Z.bits_inj'. intros m Hm. rewrite !Z.land_spec, Z.ldiff_spec, Z.bits_0.
        destruct (Z.testbit (n - 1) m), (Z.testbit n m); reflexivity. }
    rewrite (Z.land_comm (n - 1) n) in E.
    assert (0 <= Z.ldiff (n - 1) n) by (apply Z.ldiff_nonneg; lia). lia. }
  split; [lia|]. apply Z.log2_unique; [exact K|]. rewrite Z.pow_succ_r in * by exact K. lia.
Qed.
Lemma land_pow2 k : 0 <= k -> Z.land (2 ^ k) (2 ^ k - 1) = 0.
Proof.
  intros Hk. rewrite Z.sub_1_r, <- Z.ones_equiv.
  rewrite Z.land_ones by exact Hk. apply Z_mod_same_full.
Qed.
Lemma strip_bits_correct fuel n : 0 < n -> (Z.to_nat n <= fuel + 1)%nat -> strip_bits fuel n = Some (2 ^ Z.log2 n).
Proof.
  revert n. induction fuel as [|fu IH]; intros n Hn Hf.
  - assert (n = 1) by lia. subst. reflexivity.
  - cbn [strip_bits]. destruct (Z.eq_dec n (2 ^ Z.log2 n)) as [E|E].
    + assert (Z0 : Z.land n (n - 1) = 0) by (rewrite E; apply land_pow2, Z.log2_nonneg).
      rewrite Z0. cbn [Z.eqb]. rewrite <- E. reflexivity.
    + destruct (land_step n Hn E) as [H1 H2].
      assert (0 < 2 ^ Z.log2 n) by (apply Z.pow_pos_nonneg; [lia|apply Z.log2_nonneg]).
      destruct (Z.eqb_spec (Z.land n (n - 1)) 0); [lia|].
      rewrite IH by lia. rewrite H2. reflexivity.
Qed.
Lemma next_pow2_correct (n : Z) : (2 <= n)%Z ->
  exists p, findNextPowerOf2 n = Some p /\ (n <= p)%Z /\
    (exists k, (0 <= k)%Z /\ p = (2 ^ k)%Z) /\ (forall k, (0 <= k)%Z -> (n <= 2 ^ k)%Z -> (p <= 2 ^ k)%Z).
Proof.
  intros Hn. unfold findNextPowerOf2. destruct (Z.leb_spec n 1); [lia|].
  rewrite strip_bits_correct by lia. cbn [option_map]. eexists. split; [reflexivity|].
  rewrite Z.shiftl_mul_pow2 by lia. change (2 ^ 1) with 2.
  assert (L := Z.log2_spec (n - 1) ltac:(lia)). assert (K := Z.log2_nonneg (n - 1)).
  rewrite Z.pow_succ_r in L by exact K. split; [lia|]. split.
  - exists (Z.log2 (n - 1) + 1). split; [lia|]. rewrite Z.pow_add_r by lia. reflexivity.
  - intros k Hk H2. assert (Z.log2 (n - 1) < k).
    { apply Z.log2_lt_pow2; lia. }
    replace (2 ^ Z.log2 (n - 1) * 2) with (2 ^ (Z.log2 (n - 1) + 1)) by (rewrite Z.pow_add_r by lia; reflexivity).
    apply Z.pow_le_mono_r; lia.
Qed.
Lemma next_pow2_small (n : Z) : (n <= 1)%Z -> findNextPowerOf2 n = Some 2%Z.
Proof. intros H. unfold findNextPowerOf2. destruct (Z.leb_spec n 1); [reflexivity|lia]. Qed.
Lemma next_pow2_fix (k : Z) : (1 <= k)%Z -> findNextPowerOf2 (2 ^ k) = Some (2 ^ k)%Z.
Proof.
  intros Hk. assert (2 <= 2 ^ k). { change 2 with (2 ^ 1) at 1. apply Z.pow_le_mono_r; lia. }
  destruct (next_pow2_correct (2 ^ k) H) as [p [E [H1 [_ H3]]]]. rewrite E. f_equal.
  specialize (H3 k ltac:(lia) ltac:(lia)). lia.
Qed.
Open Scope R_scope.

Lemma skipn_skipn {A} (l : list A) : forall x y, skipn x (skipn y l) = skipn (y + x) l.
Proof. induction l; intros x [|y]; cbn; auto; destruct x; reflexivity. Qed.
(** ** writing blocks *)
Lemma for_range_block {A} (get : nat -> option A) (v : nat -> A) base cnt : forall start (o : list A),
  (forall j, (start <= j < start + cnt)%nat -> get j = Some (v j)) ->
  (base + start + cnt <= length o)%nat ->
  for_range (fun j o' => match get j with None => None | Some x => np_set o' (base + j) x end) start cnt o
    = Some (firstn (base + start) o ++ map v (seq start cnt) ++ skipn (base + start + cnt) o).
Proof.
  induction cnt as [|cnt IH]; intros start o Hg Hl; cbn [for_range seq map].
  - rewrite Nat.add_0_r. cbn. rewrite firstn_skipn. reflexivity.
  - rewrite Hg by lia. unfold np_set at 1. destruct (Nat.ltb_spec (base + start) (length o)); [|lia].
    rewrite IH.
    + f_equal. assert (Lf : length (firstn (base + start) o) = (base + start)%nat) by (rewrite firstn_length; lia).
      rewrite firstn_app, Lf. replace (base + S start - (base + start))%nat with 1%nat by lia.
      rewrite firstn_all2 by (rewrite Lf; lia). cbn [firstn]. rewrite <- app_assoc. cbn [app].
      f_equal. f_equal. f_equal. rewrite skipn_app, Lf. rewrite (skipn_all2 (firstn _ _)) by (rewrite Lf; lia). cbn [app].
      replace (base + S start + cnt - (base + start))%nat with (S cnt) by lia. rewrite skipn_cons, skipn_skipn. f_equal. lia.
    + intros j Hj. apply Hg. lia.
    + rewrite app_length, firstn_length. cbn [length]. rewrite skipn_length. lia.
Qed.

(** one round per equation, stride s, block of w <= s entries *)
Lemma for_range_blocks (body : nat -> list R -> option (list R)) (blk : nat -> list R) s w cnt : forall start pre tail,
  (w <= s)%nat -> (forall i, (i < start + cnt)%nat -> length (blk i) = w) ->
  (forall i o, (i < start + cnt)%nat -> (i * s + w <= length o)%nat ->
     body i o = Some (firstn (i * s) o ++ blk i ++ skipn (i * s + w) o)) ->
  length pre = (start * s)%nat -> (cnt * s <= length tail)%nat ->
  for_range body start cnt (pre ++ tail) =
    Some (pre ++ concat (map (fun i => blk i ++ firstn (s - w) (skipn w (skipn ((i - start) * s) tail))) (seq start cnt))
          ++ skipn (cnt * s) tail).
Proof.
  induction cnt as [|cnt IH]; intros start pre tail Hw Hb Hbody Hp Ht; cbn [for_range seq map concat].
  - reflexivity.
  - cbn [Nat.mul] in Ht.
    rewrite Hbody by (try lia; rewrite app_length; lia).
    assert (F : firstn (start * s) (pre ++ tail) = pre).
    { rewrite firstn_app, Hp, Nat.sub_diag. rewrite firstn_O, app_nil_r. apply firstn_all2. lia. }
    rewrite F.
    assert (Sk : skipn (start * s + w) (pre ++ tail) = firstn (s - w) (skipn w tail) ++ skipn s tail).
    { rewrite skipn_app, Hp. rewrite skipn_all2 by lia. cbn [app].
      replace (start * s + w - start * s)%nat with w by lia.
      rewrite <- (firstn_skipn (s - w) (skipn w tail)) at 1. f_equal. rewrite skipn_skipn. f_equal. lia. }
    rewrite Sk. set (fill := firstn (s - w) (skipn w tail)).
    assert (Lfill : length fill = (s - w)%nat) by (unfold fill; rewrite firstn_length, skipn_length; lia).
    assert (Lb : length (blk start) = w) by (apply Hb; lia).
    replace (pre ++ blk start ++ fill ++ skipn s tail) with ((pre ++ blk start ++ fill) ++ skipn s tail) by (rewrite <- !app_assoc; reflexivity).
    rewrite IH.
    + rewrite Nat.sub_diag. cbn [Nat.mul skipn]. fold fill.
      assert (E1 : map (fun i => blk i ++ firstn (s - w) (skipn w (skipn ((i - S start) * s) (skipn s tail)))) (seq (S start) cnt)
                 = map (fun i => blk i ++ firstn (s - w) (skipn w (skipn ((i - start) * s) tail))) (seq (S start) cnt)).
      { apply map_ext_in. intros i Hi. apply in_seq in Hi. f_equal. f_equal. f_equal. rewrite skipn_skipn. f_equal.
        replace (i - start)%nat with (S (i - S start)) by lia. cbn [Nat.mul]. lia. }
      rewrite E1, skipn_skipn. rewrite <- !app_assoc. reflexivity.
    + exact Hw.
    + intros i Hi. apply Hb. lia.
    + intros i o Hi. apply Hbody. lia.
    + rewrite !app_length. cbn [Nat.mul]. lia.
    + rewrite skipn_length. lia.
Qed.

Lemma concat_length_cols {A} n (cols : list (list A)) : List.Forall (fun c => length c = n) cols -> length (concat cols) = (length cols * n)%nat.
Proof. induction 1 as [|c cols Hc _ IH]; [reflexivity|]. cbn. rewrite app_length, IH. lia. Qed.
Lemma nth_error_concat {A} n (cols : list (list A)) (d : A) i j : List.Forall (fun c => length c = n) cols -> (i < length cols)%nat -> (j < n)%nat ->
  nth_error (concat cols) (i * n + j) = Some (nth j (nth i cols []) d).
Proof.
  intros H. revert i. induction H as [|c cols Hc _ IH]; intros i Hi Hj; [cbn in Hi; lia|].
  cbn [concat]. destruct i as [|i].
  - cbn. rewrite nth_error_app1 by lia. apply nth_error_nth'. lia.
  - rewrite nth_error_app2 by (cbn; lia). cbn [nth].
    replace (S i * n + j - length c)%nat with (i * n + j)%nat by (cbn; lia). apply IH; [cbn in Hi; lia|exact Hj].
Qed.
Lemma map_seq_nth {A} (d : A) l a w : (a + w <= length l)%nat -> map (fun j => nth (a + j) l d) (seq 0 w) = firstn w (skipn a l).
Proof.
  intros H. apply nth_ext with (d := d) (d' := d).
  - rewrite map_length, seq_length, firstn_length, skipn_length. lia.
  - intros k Hk. rewrite map_length, seq_length in Hk.
    rewrite (nth_indep _ d (nth (a + 0) l d)) by (rewrite map_length, seq_length; exact Hk).
    rewrite (map_nth (fun j => nth (a + j) l d)), seq_nth by exact Hk.
    rewrite <- (firstn_skipn a l) at 1. rewrite app_nth2; rewrite firstn_length; [|lia].
    replace (a + (0 + k) - Nat.min a (length l))%nat with k by lia.
    rewrite <- (firstn_skipn w (skipn a l)) at 1. rewrite app_nth1; [reflexivity|rewrite firstn_length, skipn_length; lia].
Qed.
Lemma map_seq_cols {A B} (F : list A -> B) (cols : list (list A)) : map (fun i => F (nth i cols [])) (seq 0 (length cols)) = map F cols.
Proof.
  induction cols as [|c cols IH]; [reflexivity|]. cbn [length seq map nth]. f_equal.
  rewrite <- seq_shift, map_map. exact IH.
Qed.
Lemma reshape_concat {A} m (cols : list (list A)) : List.Forall (fun c => length c = m) cols -> reshape_F m (length cols) (concat cols) = cols.
Proof.
  induction 1 as [|c cols Hc _ IH]; [reflexivity|]. cbn. subst m.
  rewrite firstn_app, Nat.sub_diag, firstn_all, firstn_O, app_nil_r.
  rewrite skipn_app, Nat.sub_diag, skipn_all, skipn_O. cbn. rewrite IH. reflexivity.
Qed.
Lemma repeat_split (a b : nat) : repeat 0 (a + b) = repeat 0 a ++ repeat 0 b.
Proof. apply repeat_app. Qed.
Lemma skipn_repeat a b : skipn a (repeat 0 b) = repeat 0 (b - a).
Proof. revert b; induction a; intros [|b]; cbn; auto. Qed.
Lemma firstn_repeat a b : firstn a (repeat 0 b) = repeat 0 (Nat.min a b).
Proof. revert b; induction a; intros [|b]; cbn; auto. f_equal. auto. Qed.

Lemma div_cols {A} n (cols : list (list A)) : (1 <= length cols)%nat -> List.Forall (fun c => length c = n) cols -> (length (concat cols) / length cols = n)%nat.
Proof. intros H1 H. rewrite (concat_length_cols n) by exact H. rewrite Nat.mul_comm. apply Nat.div_mul. lia. Qed.

Lemma remove_bc_correct cols n bw : (1 <= length cols)%nat -> List.Forall (fun c => length c = n) cols -> (bw <= n)%nat ->
  remove_bc (concat cols) (length cols) bw = Some (map (skipn bw) cols).
Proof.
  intros H1 H Hbw. unfold remove_bc. destruct (Nat.eqb_spec (length cols) 0); [lia|].
  rewrite (div_cols n) by assumption. destruct (Nat.ltb_spec n bw); [lia|].
  assert (Hsk : List.Forall (fun c => length c = (n - bw)%nat) (map (skipn bw) cols)).
  { rewrite Forall_map. eapply Forall_impl; [|exact H]. intros c Hc; cbn beta in *. rewrite skipn_length. lia. }
  pose proof (for_range_blocks
    (fun i o => for_range (fun j o' => match np_get (concat cols) (i * n + j + bw) with None => None | Some v => np_set o' (i * (n - bw) + j) v end) 0 (n - bw) o)
    (fun i => skipn bw (nth i cols [])) (n - bw) (n - bw) (length cols) 0 [] (repeat 0 (length cols * (n - bw)))) as Q.
  cbn [app] in Q. rewrite Q; clear Q.
  - rewrite (skipn_all2 (repeat 0 _)) by (rewrite repeat_length; lia). rewrite app_nil_r.
    rewrite (map_ext _ (fun i => skipn bw (nth i cols []))).
    2:{ intros i. rewrite Nat.sub_diag, firstn_O, app_nil_r. reflexivity. }
    rewrite (map_seq_cols (skipn bw)). rewrite <- (map_length (skipn bw) cols) at 1. rewrite reshape_concat by exact Hsk. reflexivity.
  - lia.
  - intros i Hi. rewrite Forall_forall in H. rewrite skipn_length. rewrite (H (nth i cols [])); [reflexivity|apply nth_In; lia].
  - intros i o Hi Ho. rewrite Forall_forall in H. assert (Li : length (nth i cols []) = n) by (apply H, nth_In; lia).
    rewrite (for_range_block (fun j => np_get (concat cols) (i * n + j + bw)) (fun j => nth (bw + j) (nth i cols []) 0)).
    + rewrite Nat.add_0_r. rewrite (map_seq_nth 0) by lia. rewrite (firstn_all2 (skipn bw _)) by (rewrite skipn_length; lia). reflexivity.
    + intros j Hj. unfold np_get. replace (i * n + j + bw)%nat with (i * n + (bw + j))%nat by lia.
      apply nth_error_concat; [apply Forall_forall; exact H|lia|lia].
    + lia.
  - reflexivity.
  - rewrite repeat_length. lia.
Qed.

Lemma get_bc_correct cols n bw : (1 <= length cols)%nat -> List.Forall (fun c => length c = n) cols -> (bw <= n)%nat ->
  get_bc (concat cols) (length cols) bw = Some (concat (map (firstn bw) cols)).
Proof.
  intros H1 H Hbw. unfold get_bc. destruct (Nat.eqb_spec (length cols) 0); [lia|].
  rewrite (div_cols n) by assumption.
  pose proof (for_range_blocks
    (fun i o => for_range (fun j o' => match np_get (concat cols) (i * n + j) with None => None | Some v => np_set o' (i * bw + j) v end) 0 bw o)
    (fun i => firstn bw (nth i cols [])) bw bw (length cols) 0 [] (repeat 0 (length cols * bw))) as Q.
  cbn [app] in Q. rewrite Q; clear Q.
  - rewrite (skipn_all2 (repeat 0 _)) by (rewrite repeat_length; lia). rewrite app_nil_r.
    rewrite (map_ext _ (fun i => firstn bw (nth i cols []))).
    2:{ intros i. rewrite Nat.sub_diag, firstn_O, app_nil_r. reflexivity. }
    rewrite (map_seq_cols (firstn bw)). reflexivity.
  - lia.
  - intros i Hi. rewrite Forall_forall in H. rewrite firstn_length. rewrite (H (nth i cols [])); [lia|apply nth_In; lia].
  - intros i o Hi Ho. rewrite Forall_forall in H. assert (Li : length (nth i cols []) = n) by (apply H, nth_In; lia).
    rewrite (for_range_block (fun j => np_get (concat cols) (i * n + j)) (fun j => nth (0 + j) (nth i cols []) 0)).
    + rewrite Nat.add_0_r. rewrite (map_seq_nth 0) by lia. reflexivity.
    + intros j Hj. unfold np_get. apply nth_error_concat; [apply Forall_forall; exact H|lia|lia].
    + lia.
  - reflexivity.
  - rewrite repeat_length. lia.
Qed.

Lemma replace_bc_correct cols n bw : (1 <= length cols)%nat -> List.Forall (fun c => length c = n) cols -> (bw <= n)%nat ->
  replace_bc (concat cols) (length cols) bw = Some (concat (map (fun c => skipn bw c ++ repeat 0 bw) cols)).
Proof.
  intros H1 H Hbw. unfold replace_bc. destruct (Nat.eqb_spec (length cols) 0); [lia|].
  rewrite (div_cols n) by assumption. rewrite (concat_length_cols n) by assumption.
  pose proof (for_range_blocks
    (fun i o => for_range (fun j o' => match np_get (concat cols) (i * n + j + bw) with None => None | Some v => np_set o' (i * n + j) v end) 0 (n - bw) o)
    (fun i => skipn bw (nth i cols [])) n (n - bw) (length cols) 0 [] (repeat 0 (length cols * n))) as Q.
  cbn [app] in Q. rewrite Q; clear Q.
  - rewrite (skipn_all2 (repeat 0 _)) by (rewrite repeat_length; lia). rewrite app_nil_r. f_equal. f_equal.
    rewrite <- (map_seq_cols (fun c => skipn bw c ++ repeat 0 bw)). apply map_ext_in. intros i Hi. apply in_seq in Hi. f_equal.
    rewrite !skipn_repeat, firstn_repeat. f_equal.
    replace (length cols * n)%nat with ((length cols - i) * n + i * n)%nat by nia.
    assert (1 * n <= (length cols - i) * n)%nat by (apply Nat.mul_le_mono_r; lia). nia.
  - lia.
  - intros i Hi. rewrite Forall_forall in H. rewrite skipn_length. rewrite (H (nth i cols [])); [reflexivity|apply nth_In; lia].
  - intros i o Hi Ho. rewrite Forall_forall in H. assert (Li : length (nth i cols []) = n) by (apply H, nth_In; lia).
    rewrite (for_range_block (fun j => np_get (concat cols) (i * n + j + bw)) (fun j => nth (bw + j) (nth i cols []) 0)).
    + rewrite Nat.add_0_r. rewrite (map_seq_nth 0) by lia. rewrite (firstn_all2 (skipn bw _)) by (rewrite skipn_length; lia). reflexivity.
    + intros j Hj. unfold np_get. replace (i * n + j + bw)%nat with (i * n + (bw + j))%nat by lia.
      apply nth_error_concat; [apply Forall_forall; exact H|lia|lia].
    + lia.
  - reflexivity.
  - rewrite repeat_length. lia.
Qed.

(** ** round_up, secant *)
Lemma round_up_correct num divisor : 0 < divisor ->
  exists r k, round_up num divisor = Some r /\ r = IZR k * divisor /\ num <= r < num + divisor.
Proof.
  intros Hd. unfold round_up. destruct (Req_EM_T divisor 0); [lra|]. eexists _, _. split; [reflexivity|].
  split; [reflexivity|]. rewrite opp_IZR. destruct (base_Int_part (- (num / divisor))) as [B1 B2].
  set (z := IZR (Int_part (- (num / divisor)))) in *.
  assert (E : num = num / divisor * divisor) by (field; lra). set (q := num / divisor) in *. nra.
Qed.
Lemma secant_correct s1 d1 s2 d2 : d1 <> d2 ->
  exists s, secant s1 d1 s2 d2 = Some s /\
    (forall q : R -> R, (exists a b, forall t, q t = a * t + b) -> q s1 = d1 -> q s2 = d2 -> q s = 0).
Proof.
  intros H. unfold secant. destruct (Req_EM_T (d2 - d1) 0); [lra|]. eexists. split; [reflexivity|].
  intros q [a [b Hq]] H1 H2. rewrite Hq in *. subst d1 d2. field. lra.
Qed.

(** ** moving average *)
Lemma cumsum_from_length acc l : length (cumsum_from acc l) = length l.
Proof. revert acc; induction l; intros; cbn; auto. Qed.
Lemma cumsum_from_nth l : forall acc k, (k < length l)%nat -> nth k (cumsum_from acc l) 0 = acc + rsum (S k) (fun i => nth i l 0).
Proof.
  induction l as [|x l IH]; intros acc k Hk; [cbn in Hk; lia|]. destruct k as [|k]; cbn [cumsum_from nth].
  - cbn. ring.
  - rewrite IH by (cbn in Hk; lia). rewrite (rsum_app 1 (S k)). cbn [rsum nth Nat.add]. ring_simplify. reflexivity.
Qed.
Lemma nth_skipn' {A} (l : list A) d : forall k i, nth i (skipn k l) d = nth (k + i) l d.
Proof. induction l; intros [|k] i; cbn; try reflexivity. - destruct i; reflexivity. - apply IHl. Qed.
Lemma nth_firstn' {A} (l : list A) d : forall k i, (i < k)%nat -> nth i (firstn k l) d = nth i l d.
Proof. induction l; intros [|k] [|i] H; cbn; try reflexivity; try lia. apply IHl. lia. Qed.
Lemma moving_average_correct a n : (1 <= n <= length a)%nat ->
  length (moving_average a n) = (length a + 1 - n)%nat /\
  forall i, (i + n <= length a)%nat -> nth i (moving_average a n) 0 = rsum n (fun k => nth (i + k) a 0) / INR n.
Proof.
  intros Hn. unfold moving_average. set (ret := cumsum_from 0 a).
  assert (Lr : length ret = length a) by apply cumsum_from_length.
  set (tail := map (fun p => fst p - snd p) _).
  assert (Lt : length tail = (length a - n)%nat).
  { unfold tail. rewrite map_length, combine_length, skipn_length, firstn_length. lia. }
  assert (Lall : length (firstn n ret ++ tail) = length a) by (rewrite app_length, firstn_length; lia).
  split. { rewrite map_length, skipn_length, Lall. lia. }
  intros i Hi.
  rewrite (nth_indep _ 0 (0 / INR n)) by (rewrite map_length, skipn_length, Lall; lia).
  rewrite (map_nth (fun v => v / INR n)). f_equal. rewrite nth_skipn'.
  destruct i as [|i].
  - rewrite app_nth1 by (rewrite firstn_length; lia).
    assert (E : nth (n - 1 + 0) (firstn n ret) 0 = nth (n - 1) ret 0).
    { rewrite Nat.add_0_r. apply nth_firstn'. lia. }
    rewrite E. unfold ret. rewrite cumsum_from_nth by lia. replace (S (n - 1)) with n by lia. cbn [Nat.add]. ring.
  - rewrite app_nth2; rewrite firstn_length; [|lia].
    replace (n - 1 + S i - Nat.min n (length ret))%nat with i by lia.
    unfold tail. rewrite (nth_indep _ 0 ((fun p => fst p - snd p) (0, 0))) by (fold tail; lia).
    rewrite (map_nth (fun p => fst p - snd p)).
    rewrite combine_nth by (rewrite skipn_length, firstn_length; lia). cbn [fst snd].
    rewrite nth_skipn'.
    assert (E : nth i (firstn (length ret - n) ret) 0 = nth i ret 0).
    { apply nth_firstn'. lia. }
    rewrite E. unfold ret. rewrite !cumsum_from_nth by lia.
    replace (S (n + i)) with (S i + n)%nat by lia. rewrite (rsum_app (S i) n). ring.
Qed.

(** ** nearest entry *)
Lemma argmin_from_spec l : forall best bi i, exists m,
  let r := argmin_from best bi i l in
  (r = bi /\ m = best \/ (i <= r < i + length l)%nat /\ nth (r - i) l 0 = m) /\ m <= best /\ (forall x, In x l -> m <= x).
Proof.
  induction l as [|x l IH]; intros best bi i; cbn [argmin_from].
  - exists best. cbv zeta. split; [left; auto|]. split; [lra|intros y []].
  - destruct (Rlt_dec x best) as [Hlt|Hge].
    + destruct (IH x i (S i)) as [m [H1 [H2 H3]]]. exists m. cbv zeta in *. split; [right|].
      * destruct H1 as [[E1 E2]|[E1 E2]].
        -- rewrite E1, Nat.sub_diag. cbn. split; [lia|congruence].
        -- split; [cbn; lia|]. replace (argmin_from x i (S i) l - i)%nat with (S (argmin_from x i (S i) l - S i)) by lia. exact E2.
      * split; [lra|]. intros y [<-|Hy]; [exact H2|auto].
    + destruct (IH best bi (S i)) as [m [H1 [H2 H3]]]. exists m. cbv zeta in *. split.
      * destruct H1 as [E|[E1 E2]]; [left; exact E|right]. split; [cbn; lia|].
        replace (argmin_from best bi (S i) l - i)%nat with (S (argmin_from best bi (S i) l - S i)) by lia. exact E2.
      * split; [exact H2|]. intros y [<-|Hy]; [lra|auto].
Qed.
Lemma find_nearest_correct l v : l <> [] ->
  exists i x, find_nearest_idx l v = Some i /\ (i < length l)%nat /\ nth i l 0 = x /\ find_nearest l v = Some x /\
    forall y, In y l -> Rabs (x - v) <= Rabs (y - v).
Proof.
  intros Hl. unfold find_nearest, find_nearest_idx. destruct l as [|x0 l]; [congruence|]. cbn [map].
  set (D := map (fun x => Rabs (x - v)) l).
  destruct (argmin_from_spec D (Rabs (x0 - v)) 0 1) as [m [H1 [H2 H3]]]. cbv zeta in H1.
  set (r := argmin_from _ _ _ _) in *.
  assert (LD : length D = length l) by (unfold D; apply map_length).
  assert (Hr : (r < length (x0 :: l))%nat) by (cbn; destruct H1 as [[E _]|[E _]]; lia).
  exists r, (nth r (x0 :: l) 0). split; [reflexivity|]. split; [exact Hr|]. split; [reflexivity|].
  split; [apply nth_error_nth'; exact Hr|].
  assert (Em : Rabs (nth r (x0 :: l) 0 - v) = m).
  { destruct H1 as [[E1 E2]|[E1 E2]].
    - rewrite E1. cbn. symmetry. exact E2.
    - destruct r as [|r']; [lia|]. cbn [nth]. cbn [Nat.sub] in E2. rewrite Nat.sub_0_r in E2. rewrite <- E2.
      rewrite (nth_indep D 0 (Rabs (0 - v))) by lia. unfold D.
      rewrite (map_nth (fun x => Rabs (x - v))). reflexivity. }
  rewrite Em. intros y [<-|Hy]; [exact H2|]. apply H3. unfold D. apply in_map_iff. exists y. auto.
Qed.
Lemma find_nearest_empty v : find_nearest [] v = None. Proof. reflexivity. Qed.
