(** Proofs about the sparse edits. *)
From Coq Require Import Reals ZArith List Arith Lia Lra Bool Permutation Sorted.
From Verif Require Import Base ToolsModel ToolsProofs SparseModel SparseSpec.
Import ListNotations.
Open Scope R_scope.

Lemma set_slice_exact {A} (l : list A) lo hi src : (lo <= hi)%nat -> (hi <= length l)%nat -> (hi - lo = length src)%nat ->
  set_slice l lo hi src = Some (firstn lo l ++ src ++ skipn hi l).
Proof.
  intros H1 H2 H3. unfold set_slice. rewrite (Nat.min_l hi), (Nat.min_l lo) by lia.
  destruct (Nat.eqb_spec (hi - lo) (length src)); [|lia]. rewrite Nat.max_r by lia. reflexivity.
Qed.

(** removing the n entries from p on *)
Lemma cut_list {A} (l : list A) p n : (p + n <= length l)%nat -> (0 < n)%nat ->
  match set_slice l p (length l - n) (skipn (p + n) l) with None => None | Some d => Some (firstn (length d - n) d) end
  = Some (firstn p l ++ skipn (p + n) l).
Proof.
  intros H Hn. rewrite set_slice_exact by (rewrite ?skipn_length; lia). f_equal.
  rewrite app_assoc. rewrite app_length. rewrite (skipn_length (length l - n)).
  replace (length (firstn p l ++ skipn (p + n) l) + (length l - (length l - n)) - n)%nat with (length (firstn p l ++ skipn (p + n) l)) by lia.
  rewrite firstn_app, Nat.sub_diag, firstn_all, firstn_O, app_nil_r. reflexivity.
Qed.
Lemma cut_nth {A} (l : list A) p n k d : (p + n <= length l)%nat ->
  nth k (firstn p l ++ skipn (p + n) l) d = if Nat.ltb k p then nth k l d else nth (k + n) l d.
Proof.
  intros H. destruct (Nat.ltb_spec k p) as [Hk|Hk].
  - rewrite app_nth1 by (rewrite firstn_length; lia). apply nth_firstn'. exact Hk.
  - rewrite app_nth2; rewrite firstn_length; [|lia]. rewrite nth_skipn'. f_equal. lia.
Qed.
Lemma cut_length {A} (l : list A) p n : (p + n <= length l)%nat -> length (firstn p l ++ skipn (p + n) l) = (length l - n)%nat.
Proof. intros. rewrite app_length, firstn_length, skipn_length. lia. Qed.

Lemma drop_indptr_ok ip i n : (i + 2 <= length ip)%nat ->
  exists ip', drop_indptr ip i n = Some ip' /\ length ip' = (length ip - 1)%nat /\
    forall k, (k < length ip - 1)%nat -> nth k ip' 0%nat = if Nat.ltb k i then nth k ip 0%nat else (nth (k + 1) ip 0 - n)%nat.
Proof.
  intros H. unfold drop_indptr. rewrite set_slice_exact by (rewrite ?skipn_length; lia).
  set (ip1 := firstn i ip ++ skipn (i + 1) ip ++ skipn (length ip - 1) ip).
  assert (L1 : length ip1 = length ip) by (unfold ip1; rewrite !app_length, firstn_length, !skipn_length; lia).
  set (ip2 := firstn i ip1 ++ map (fun v => (v - n)%nat) (skipn i ip1)).
  assert (L2 : length ip2 = length ip) by (unfold ip2; rewrite app_length, firstn_length, map_length, skipn_length; lia).
  eexists. split; [reflexivity|]. split; [rewrite firstn_length; lia|].
  intros k Hk. rewrite nth_firstn' by lia. unfold ip2. destruct (Nat.ltb_spec k i) as [Hi|Hi].
  - rewrite app_nth1 by (rewrite firstn_length; lia). rewrite nth_firstn' by lia. unfold ip1.
    rewrite app_nth1 by (rewrite firstn_length; lia). apply nth_firstn'. lia.
  - rewrite app_nth2; rewrite firstn_length; [|lia].
    rewrite (nth_indep _ 0%nat ((fun v => (v - n)%nat) 0%nat)) by (rewrite map_length, skipn_length; lia).
    rewrite (map_nth (fun v => (v - n)%nat)). rewrite nth_skipn'. f_equal.
    rewrite L1. unfold ip1. rewrite app_nth2; rewrite firstn_length; [|lia]. rewrite app_nth1 by (rewrite skipn_length; lia).
    rewrite nth_skipn'. f_equal. lia.
Qed.

Lemma ip_mono M : csm_ok M -> forall i j, (i <= j)%nat -> (j <= nmaj M)%nat -> (nth i (indptr M) 0 <= nth j (indptr M) 0)%nat.
Proof.
  intros (_ & _ & Hm & _) i j Hij. induction Hij as [|j Hij IH]; intros Hj; [lia|].
  specialize (Hm j ltac:(lia)). specialize (IH ltac:(lia)). lia.
Qed.

Lemma Forall_cut (P : nat -> Prop) l p n : List.Forall P l -> List.Forall P (firstn p l ++ skipn (p + n) l).
Proof.
  intros H. rewrite Forall_forall in *. intros x Hx. apply H. rewrite in_app_iff in Hx.
  destruct Hx as [Hx|Hx]; [rewrite <- (firstn_skipn p l)|rewrite <- (firstn_skipn (p + n) l)]; apply in_or_app; auto.
Qed.

(** an edit of the three arrays that removes line i *)
Lemma remove_line M i ip' : csm_ok M -> (i < nmaj M)%nat ->
  let p := nth i (indptr M) 0%nat in let n := (nth (S i) (indptr M) 0 - p)%nat in
  length ip' = nmaj M ->
  (forall k, (k < nmaj M)%nat -> nth k ip' 0%nat = if Nat.ltb k i then nth k (indptr M) 0%nat else (nth (k + 1) (indptr M) 0 - n)%nat) ->
  let M' := mkCsm (firstn p (data M) ++ skipn (p + n) (data M)) (firstn p (indices M) ++ skipn (p + n) (indices M)) ip' (nmaj M - 1) (nmin M) in
  csm_ok M' /\ forall k j, (k < nmaj M - 1)%nat -> entry M' k j = entry M (if Nat.ltb k i then k else S k) j.
Proof.
  intros Hok Hi p n Hl Hip M'. assert (Mono := ip_mono M Hok).
  destruct Hok as (H1 & H2 & H3 & H4 & H5 & H6).
  assert (Hpn : (p + n = nth (S i) (indptr M) 0)%nat) by (unfold n, p; specialize (H3 i Hi); lia).
  assert (Hle : (p + n <= length (data M))%nat) by (rewrite Hpn, <- H4; apply Mono; lia).
  assert (Ge : forall k, (i < k)%nat -> (k <= nmaj M)%nat -> (p + n <= nth k (indptr M) 0)%nat).
  { intros k A B. rewrite Hpn. apply Mono; lia. }
  assert (Le : forall k, (k <= i)%nat -> (nth k (indptr M) 0 <= p)%nat) by (intros; apply Mono; lia).
  split.
  - unfold csm_ok, M'. cbn [indptr nmaj data indices nmin]. split; [lia|]. split; [|split; [|split; [|split]]].
    + rewrite Hip by lia. destruct (Nat.ltb_spec 0 i); [exact H2|]. assert (i = 0)%nat by lia. subst i.
      cbn [Nat.add]. unfold n, p. rewrite H2. lia.
    + intros k Hk. rewrite !Hip by lia. replace (S k + 1)%nat with (S (k + 1)) by lia.
      destruct (Nat.ltb_spec k i), (Nat.ltb_spec (S k) i); try lia.
      * apply H3. lia.
      * assert (k + 1 = i)%nat by lia. specialize (Le k ltac:(lia)). replace (S (k + 1)) with (S i) by lia.
        unfold n. fold p. lia.
      * specialize (H3 (k + 1)%nat ltac:(lia)). lia.
    + destruct (Nat.ltb_spec (nmaj M - 1) i); [lia|]. rewrite Hip by lia.
      destruct (Nat.ltb_spec (nmaj M - 1) i); [lia|]. replace (nmaj M - 1 + 1)%nat with (nmaj M) by lia.
      rewrite H4, cut_length by lia. reflexivity.
    + rewrite !cut_length by lia. lia.
    + apply Forall_cut. exact H6.
  - intros k j Hk. unfold entry, M'. cbn [indptr data indices]. rewrite !Hip by lia.
    replace (S k + 1)%nat with (S (S k)) by lia. replace (k + 1)%nat with (S k) by lia.
    destruct (Nat.ltb_spec k i) as [Hki|Hki].
    + assert (E : (if Nat.ltb (S k) i then nth (S k) (indptr M) 0%nat else (nth (S (S k)) (indptr M) 0 - n)%nat) = nth (S k) (indptr M) 0%nat).
      { destruct (Nat.ltb_spec (S k) i); [reflexivity|]. assert (S k = i) by lia. subst i. unfold n. fold p.
        specialize (H3 (S k) Hi). fold p in H3. unfold p in *. lia. }
      rewrite E. apply rsum_ext. intros t Ht. specialize (Le (S k) ltac:(lia)).
      rewrite !cut_nth by lia. destruct (Nat.ltb_spec (nth k (indptr M) 0 + t)%nat p); [reflexivity|lia].
    + destruct (Nat.ltb_spec (S k) i); [lia|].
      assert (G1 := Ge (S k) ltac:(lia) ltac:(lia)). assert (G2 := Ge (S (S k)) ltac:(lia) ltac:(lia)).
      replace (nth (S (S k)) (indptr M) 0 - n - (nth (S k) (indptr M) 0 - n))%nat
        with (nth (S (S k)) (indptr M) 0 - nth (S k) (indptr M) 0)%nat by lia.
      apply rsum_ext. intros t Ht. rewrite !cut_nth by lia.
      destruct (Nat.ltb_spec (nth (S k) (indptr M) 0 - n + t)%nat p); [lia|].
      replace (nth (S k) (indptr M) 0 - n + t + n)%nat with (nth (S k) (indptr M) 0 + t)%nat by lia. reflexivity.
Qed.

Lemma cut_zero {A} (l : list A) p : l = firstn p l ++ skipn (p + 0) l.
Proof. rewrite Nat.add_0_r. symmetry. apply firstn_skipn. Qed.

Lemma delete_col_correct M i : csm_ok M -> (i < nmaj M)%nat ->
  exists M', delete_col_csc M i = Some M' /\ csm_ok M' /\ nmaj M' = (nmaj M - 1)%nat /\ nmin M' = nmin M /\
    forall k j, (k < nmaj M')%nat -> entry M' k j = entry M (if Nat.ltb k i then k else S k) j.
Proof.
  intros Hok Hi. assert (Mono := ip_mono M Hok). assert (Hok' := Hok). destruct Hok' as (H1 & H2 & H3 & H4 & H5 & H6).
  unfold delete_col_csc.
  rewrite (nth_error_nth' _ 0%nat) by lia. rewrite (nth_error_nth' _ 0%nat) by lia.
  replace (i + 1)%nat with (S i) by lia.
  set (p := nth i (indptr M) 0%nat). set (q := nth (S i) (indptr M) 0%nat).
  assert (Hpq : (p <= q)%nat) by (apply H3; exact Hi).
  assert (Hq : (q <= length (data M))%nat) by (rewrite <- H4; apply Mono; lia).
  assert (Eq : q = (p + (q - p))%nat) by lia.
  destruct (drop_indptr_ok (indptr M) i (q - p) ltac:(lia)) as [ip' [E [L Hip]]].
  assert (Q := remove_line M i ip' Hok Hi). cbv zeta in Q. fold p in Q. fold q in Q.
  specialize (Q ltac:(lia) ltac:(intros; apply Hip; lia)). destruct Q as [Q1 Q2].
  rewrite E. destruct (Nat.ltb_spec 0 (q - p)) as [Hn|Hn].
  - assert (Cd := cut_list (data M) p (q - p) ltac:(lia) Hn). assert (Ci := cut_list (indices M) p (q - p) ltac:(lia) Hn).
    rewrite <- Eq in Cd, Ci, Q1, Q2. rewrite Cd, Ci. eexists. split; [reflexivity|]. split; [exact Q1|].
    split; [reflexivity|]. split; [reflexivity|]. exact Q2.
  - assert (E0 : (q - p = 0)%nat) by lia. rewrite E0 in Q1, Q2. rewrite <- !cut_zero in Q1, Q2.
    eexists. split; [reflexivity|]. split; [exact Q1|]. split; [reflexivity|]. split; [reflexivity|]. exact Q2.
Qed.
Lemma delete_col_out M i : csm_ok M -> (nmaj M <= i)%nat -> delete_col_csc M i = None.
Proof.
  intros (H1 & _) Hi. unfold delete_col_csc. rewrite (proj2 (nth_error_None _ _)) by lia. reflexivity.
Qed.

(** delete_row_csr: right when the row is empty ... *)
Lemma delete_row_empty M i : csm_ok M -> (i < nmaj M)%nat -> nth (S i) (indptr M) 0%nat = nth i (indptr M) 0%nat ->
  exists M', delete_row_csr M i = Some M' /\ csm_ok M' /\ nmaj M' = (nmaj M - 1)%nat /\ nmin M' = nmin M /\
    forall k j, (k < nmaj M')%nat -> entry M' k j = entry M (if Nat.ltb k i then k else S k) j.
Proof.
  intros Hok Hi He. destruct (delete_col_correct M i Hok Hi) as [M' [E H]]. exists M'. split; [|exact H].
  rewrite <- E. unfold delete_row_csr, delete_col_csc. destruct Hok as (H1 & _).
  rewrite (nth_error_nth' _ 0%nat) by lia. rewrite (nth_error_nth' _ 0%nat) by lia.
  replace (i + 1)%nat with (S i) by lia. rewrite He, Nat.sub_diag. reflexivity.
Qed.
(** ... and wrong otherwise: the identity matrix without its first row *)
Definition eye3 : csm := mkCsm [1; 1; 1] [0; 1; 2]%nat [0; 1; 2; 3]%nat 3 3.
Lemma eye3_ok : csm_ok eye3.
Proof.
  unfold csm_ok, eye3. cbn. repeat split; try lia; [|repeat constructor].
  intros [|[|[|i]]] Hi; cbn; lia.
Qed.
Lemma delete_row_refuted : csm_ok eye3 /\ exists M', delete_row_csr eye3 1 = Some M' /\ entry M' 0 0 <> entry eye3 0 0 /\ ~ csm_ok M'.
Proof.
  split; [exact eye3_ok|]. eexists. split; [reflexivity|]. split; [unfold entry; cbn; lra|].
  intros (_ & _ & _ & _ & H & _). cbn in H. discriminate.
Qed.
(** in general the result is malformed unless the row happens to have i+1 entries *)
Lemma delete_row_malformed M i : csm_ok M -> (i < nmaj M)%nat ->
  let n := (nth (S i) (indptr M) 0 - nth i (indptr M) 0)%nat in
  (0 < n)%nat -> Nat.min (i + 1) (length (data M)) <> n ->
  exists M', delete_row_csr M i = Some M' /\ length (indices M') <> length (data M') /\ ~ csm_ok M'.
Proof.
  intros Hok Hi n Hn Hne. assert (Mono := ip_mono M Hok). assert (Hok' := Hok). destruct Hok' as (H1 & H2 & H3 & H4 & H5 & H6).
  unfold delete_row_csr.
  rewrite (nth_error_nth' _ 0%nat) by lia. rewrite (nth_error_nth' _ 0%nat) by lia.
  replace (i + 1)%nat with (S i) by lia. fold n.
  set (p := nth i (indptr M) 0%nat) in *. set (q := nth (S i) (indptr M) 0%nat) in *.
  assert (Hq : (q <= length (data M))%nat) by (rewrite <- H4; apply Mono; lia).
  assert (Eq : q = (p + n)%nat) by lia.
  destruct (drop_indptr_ok (indptr M) i n ltac:(lia)) as [ip' [E [L Hip]]]. rewrite E.
  destruct (Nat.ltb_spec 0 n) as [_|]; [|lia].
  assert (Cd := cut_list (data M) p n ltac:(lia) Hn). rewrite <- Eq in Cd. rewrite Cd.
  rewrite set_slice_exact by (rewrite ?skipn_length; lia).
  eexists. split; [reflexivity|]. cbn [indices data].
  match goal with |- ?A /\ _ => assert (X : A) end.
  { rewrite skipn_length. rewrite !app_length, !firstn_length, !skipn_length. lia. }
  split; [exact X|]. intros (_ & _ & _ & _ & H & _). exact (X H).
Qed.

(** ** append *)
Lemma vappend_correct a b : csm_ok a -> csm_ok b -> nmin a = nmin b ->
  let M := csr_vappend a b in
  csm_ok M /\ nmaj M = (nmaj a + nmaj b)%nat /\ nmin M = nmin a /\
  forall k j, (k < nmaj M)%nat -> entry M k j = if Nat.ltb k (nmaj a) then entry a k j else entry b (k - nmaj a) j.
Proof.
  intros Ha Hb Hm M. assert (Ma := ip_mono a Ha). assert (Mb := ip_mono b Hb).
  destruct Ha as (A1 & A2 & A3 & A4 & A5 & A6). destruct Hb as (B1 & B2 & B3 & B4 & B5 & B6).
  set (N := length (data a)).
  assert (Hlast : last (indptr a) 0%nat = N).
  { rewrite <- A4 in *. destruct (exists_last (l := indptr a)) as [l [x Ex]]; [intros C; rewrite C in A1; discriminate|].
    rewrite Ex in *. rewrite last_last. rewrite app_length in A1. cbn in A1. unfold N. rewrite <- A4.
    rewrite app_nth2 by lia. replace (nmaj a - length l)%nat with 0%nat by lia. reflexivity. }
  assert (Hip : forall k, (k <= nmaj a + nmaj b)%nat -> nth k (indptr M) 0%nat =
     if Nat.leb k (nmaj a) then nth k (indptr a) 0%nat else (nth (k - nmaj a) (indptr b) 0 + N)%nat).
  { intros k Hk. unfold M, csr_vappend. cbn [indptr]. rewrite Hlast. destruct (Nat.leb_spec k (nmaj a)).
    - rewrite app_nth1 by lia. reflexivity.
    - rewrite app_nth2 by lia. rewrite A1. destruct (indptr b) as [|b0 rb] eqn:Eb; [discriminate|]. cbn [map tl].
      rewrite (nth_indep _ 0%nat ((fun v => (v + N)%nat) 0%nat)) by (rewrite map_length; cbn in B1; lia).
      rewrite (map_nth (fun v => (v + N)%nat)). replace (k - nmaj a)%nat with (S (k - S (nmaj a))) by lia. reflexivity. }
  split; [|split; [reflexivity|split; [symmetry; exact Hm|]]].
  - unfold csm_ok. change (nmaj M) with (nmaj a + nmaj b)%nat. change (nmin M) with (nmin b).
    split; [|split; [|split; [|split; [|split]]]].
    + unfold M, csr_vappend. cbn [indptr]. rewrite app_length. destruct (indptr b) eqn:Eb; [discriminate|].
      cbn [map tl]. rewrite map_length. cbn in B1. lia.
    + rewrite Hip by lia. destruct (Nat.leb_spec 0 (nmaj a)); [exact A2|lia].
    + intros i Hi. rewrite !Hip by lia. destruct (Nat.leb_spec i (nmaj a)), (Nat.leb_spec (S i) (nmaj a)); try lia.
      * apply A3. lia.
      * assert (i = nmaj a) by lia. subst i. rewrite A4. fold N. lia.
      * replace (S i - nmaj a)%nat with (S (i - nmaj a)) by lia. specialize (B3 (i - nmaj a)%nat ltac:(lia)). lia.
    + rewrite Hip by lia. unfold M, csr_vappend. cbn [data]. rewrite app_length. fold N.
      destruct (Nat.leb_spec (nmaj a + nmaj b) (nmaj a)).
      * assert (nmaj b = 0)%nat by lia. rewrite H0, Nat.add_0_r. rewrite A4. fold N. rewrite <- B4, H0, B2. lia.
      * replace (nmaj a + nmaj b - nmaj a)%nat with (nmaj b) by lia. rewrite B4. lia.
    + unfold M, csr_vappend. cbn [data indices]. rewrite !app_length. lia.
    + unfold M, csr_vappend. cbn [indices]. apply Forall_app. split; [rewrite <- Hm; exact A6|exact B6].
  - intros k j Hk. change (nmaj M) with (nmaj a + nmaj b)%nat in Hk. unfold entry. rewrite !Hip by lia.
    destruct (Nat.ltb_spec k (nmaj a)) as [Hka|Hka].
    + destruct (Nat.leb_spec k (nmaj a)), (Nat.leb_spec (S k) (nmaj a)); try lia.
      apply rsum_ext. intros t Ht. assert (Q := Ma (S k) (nmaj a) ltac:(lia) ltac:(lia)). rewrite A4 in Q.
      unfold M, csr_vappend. cbn [data indices]. rewrite !app_nth1 by lia. reflexivity.
    + destruct (Nat.leb_spec (S k) (nmaj a)); [lia|].
      assert (Ep : (if Nat.leb k (nmaj a) then nth k (indptr a) 0%nat else (nth (k - nmaj a) (indptr b) 0 + N)%nat) = (nth (k - nmaj a) (indptr b) 0 + N)%nat).
      { destruct (Nat.leb_spec k (nmaj a)); [|reflexivity]. assert (k = nmaj a) by lia. subst k. rewrite Nat.sub_diag, B2, A4. reflexivity. }
      rewrite Ep. replace (S k - nmaj a)%nat with (S (k - nmaj a)) by lia.
      replace (nth (S (k - nmaj a)) (indptr b) 0 + N - (nth (k - nmaj a) (indptr b) 0 + N))%nat
         with (nth (S (k - nmaj a)) (indptr b) 0 - nth (k - nmaj a) (indptr b) 0)%nat by lia.
      apply rsum_ext. intros t Ht. unfold M, csr_vappend. cbn [data indices].
      rewrite !app_nth2 by lia. rewrite A5. fold N.
      replace (nth (k - nmaj a) (indptr b) 0 + N + t - N)%nat with (nth (k - nmaj a) (indptr b) 0 + t)%nat by lia. reflexivity.
Qed.

(** ** lines *)
Fixpoint lineval (l : list (nat * R)) (j : nat) : R :=
  match l with [] => 0 | (c, v) :: r => (if Nat.eqb c j then v else 0) + lineval r j end.
Lemma lineval_combine xs ds j : length xs = length ds ->
  lineval (combine xs ds) j = rsum (length xs) (fun t => if Nat.eqb (nth t xs 0%nat) j then nth t ds 0 else 0).
Proof.
  revert ds. induction xs as [|x xs IH]; intros [|d ds] H; try discriminate; [reflexivity|].
  cbn [combine lineval]. rewrite IH by (cbn in H; lia). cbn [length].
  rewrite (rsum_app 1 (length xs)). cbn [rsum nth Nat.add]. ring.
Qed.
Lemma seg_length {A} (l : list A) p q : (q <= length l)%nat -> length (seg l p q) = (q - p)%nat.
Proof. intros. unfold seg. rewrite firstn_length, skipn_length. lia. Qed.
Lemma seg_nth {A} (l : list A) p q t d : (t < q - p)%nat -> nth t (seg l p q) d = nth (p + t) l d.
Proof. intros. unfold seg. rewrite nth_firstn' by lia. apply nth_skipn'. Qed.
Lemma entry_line M i j : csm_ok M -> (i < nmaj M)%nat -> entry M i j = lineval (line M i) j.
Proof.
  intros Hok Hi. assert (Mono := ip_mono M Hok). destruct Hok as (H1 & H2 & H3 & H4 & H5 & H6).
  unfold entry, line. replace (i + 1)%nat with (S i) by lia.
  assert (Q := Mono (S i) (nmaj M) ltac:(lia) ltac:(lia)). rewrite H4 in Q.
  rewrite lineval_combine by (rewrite !seg_length by lia; reflexivity). rewrite seg_length by lia.
  apply rsum_ext. intros t Ht. rewrite !seg_nth by lia. reflexivity.
Qed.
Lemma line_cols M i : csm_ok M -> List.Forall (fun p => (fst p < nmin M)%nat) (line M i).
Proof.
  intros (_ & _ & _ & _ & _ & H6). rewrite Forall_forall in *. intros [c v] Hin. cbn. apply H6.
  unfold line in Hin. apply in_combine_l in Hin. unfold seg in Hin.
  rewrite <- (firstn_skipn (nth i (indptr M) 0%nat) (indices M)). apply in_or_app. right.
  rewrite <- (firstn_skipn (nth (i + 1) (indptr M) 0 - nth i (indptr M) 0)%nat). apply in_or_app. left. exact Hin.
Qed.

Lemma offsets_length a ls : length (offsets a ls) = S (length ls).
Proof. revert a; induction ls; intros; cbn; auto. Qed.
Lemma offsets_nth ls : forall a k, (k <= length ls)%nat -> nth k (offsets a ls) 0%nat = (a + length (concat (firstn k ls)))%nat.
Proof.
  induction ls as [|l ls IH]; intros a [|k] Hk; cbn [offsets nth firstn concat length]; try lia; try (cbn in Hk; lia).
  - cbn in Hk. rewrite IH by lia. rewrite app_length. lia.
Qed.
Lemma concat_firstn_S {A} (ls : list (list A)) k : (k < length ls)%nat -> concat (firstn (S k) ls) = concat (firstn k ls) ++ nth k ls [].
Proof.
  revert k. induction ls as [|l ls IH]; intros [|k] Hk; cbn in Hk; try lia.
  - cbn. rewrite app_nil_r. reflexivity.
  - change (l ++ concat (firstn (S k) ls) = (l ++ concat (firstn k ls)) ++ nth k ls []). rewrite IH by lia. apply app_assoc.
Qed.
Lemma of_lines_ok ls m : List.Forall (List.Forall (fun p => (fst p < m)%nat)) ls -> csm_ok (of_lines ls m).
Proof.
  intros H. unfold csm_ok, of_lines. cbn [indptr data indices nmaj nmin]. split; [apply offsets_length|].
  split; [destruct ls; reflexivity|]. split; [|split; [|split]].
  - intros i Hi. rewrite !offsets_nth by lia. rewrite concat_firstn_S by lia. rewrite app_length. lia.
  - rewrite offsets_nth by lia. rewrite firstn_all, map_length. reflexivity.
  - rewrite !map_length. reflexivity.
  - rewrite Forall_map. apply Forall_concat. exact H.
Qed.
Lemma combine_split_map {A B} (l : list (A * B)) : combine (map fst l) (map snd l) = l.
Proof. induction l as [|[a b] l IH]; cbn; congruence. Qed.
Lemma seg_map {A B} (f : A -> B) l p q : seg (map f l) p q = map f (seg l p q).
Proof. unfold seg. rewrite skipn_map, firstn_map. reflexivity. Qed.
Lemma line_of_lines ls m k : (k < length ls)%nat -> line (of_lines ls m) k = nth k ls [].
Proof.
  intros Hk. unfold line, of_lines. cbn [indptr data indices]. replace (k + 1)%nat with (S k) by lia.
  rewrite !offsets_nth by lia. rewrite !seg_map, combine_split_map. cbn [Nat.add].
  unfold seg. rewrite concat_firstn_S by lia. rewrite app_length.
  assert (Ec : concat ls = concat (firstn k ls) ++ nth k ls [] ++ concat (skipn (S k) ls)).
  { rewrite app_assoc, <- concat_firstn_S by lia. rewrite <- concat_app, firstn_skipn. reflexivity. }
  rewrite Ec. rewrite skipn_app, skipn_all, Nat.sub_diag. cbn [skipn app].
  replace (length (concat (firstn k ls)) + length (nth k ls []) - length (concat (firstn k ls)))%nat with (length (nth k ls [])) by lia.
  rewrite firstn_app, firstn_all, Nat.sub_diag, firstn_O, app_nil_r. reflexivity.
Qed.

(** ** deleting rows by mask *)
Definition py_norm (n : nat) (i : Z) : Z := if Z.ltb i 0 then (i + Z.of_nat n)%Z else i.
Lemma py_index_some n i : (- Z.of_nat n <= i < Z.of_nat n)%Z -> py_index n i = Some (Z.to_nat (py_norm n i)) /\ (Z.to_nat (py_norm n i) < n)%nat.
Proof.
  intros H. unfold py_index, py_norm. destruct (Z.leb_spec 0 i), (Z.ltb_spec i (Z.of_nat n)), (Z.ltb_spec i 0), (Z.leb_spec (- Z.of_nat n) i);
    cbn; try lia; split; try reflexivity; lia.
Qed.
Lemma py_index_none n i : (i < - Z.of_nat n \/ Z.of_nat n <= i)%Z -> py_index n i = None.
Proof.
  intros H. unfold py_index. destruct (Z.leb_spec 0 i), (Z.ltb_spec i (Z.of_nat n)), (Z.ltb_spec i 0), (Z.leb_spec (- Z.of_nat n) i);
    cbn; try lia; reflexivity.
Qed.
Lemma np_set_ok {A} (l : list A) i v d : (i < length l)%nat -> exists l', np_set l i v = Some l' /\ length l' = length l /\
  forall k, nth k l' d = if Nat.eqb k i then v else nth k l d.
Proof.
  intros H. unfold np_set. destruct (Nat.ltb_spec i (length l)); [|lia]. eexists. split; [reflexivity|]. split.
  - rewrite app_length, firstn_length. cbn [length]. rewrite skipn_length. lia.
  - intros k. destruct (Nat.eqb_spec k i) as [->|Hk].
    + rewrite app_nth2; rewrite firstn_length; [|lia]. replace (i - Nat.min i (length l))%nat with 0%nat by lia. reflexivity.
    + destruct (lt_dec k i) as [Hl|Hl].
      * rewrite app_nth1 by (rewrite firstn_length; lia). apply nth_firstn'. exact Hl.
      * rewrite app_nth2; rewrite firstn_length; [|lia]. replace (k - Nat.min i (length l))%nat with (S (k - S i)) by lia.
        cbn [nth]. rewrite nth_skipn'. f_equal. lia.
Qed.
Lemma set_false_ok idx : forall mask n, length mask = n ->
  (forall i, In i idx -> (- Z.of_nat n <= i < Z.of_nat n)%Z) ->
  exists m, set_false mask idx = Some m /\ length m = n /\
    forall k, nth k m false = nth k mask false && negb (existsb (fun i => Z.eqb (py_norm n i) (Z.of_nat k)) idx).
Proof.
  induction idx as [|i idx IH]; intros mask n Hm H; cbn [set_false existsb].
  - exists mask. split; [reflexivity|]. split; [exact Hm|]. intros k. rewrite andb_true_r. reflexivity.
  - destruct (py_index_some n i (H i (or_introl eq_refl))) as [E L]. rewrite Hm, E.
    destruct (np_set_ok mask _ false false ltac:(rewrite Hm; exact L)) as [m1 [E1 [L1 N1]]]. rewrite E1.
    destruct (IH m1 n ltac:(lia) ltac:(intros; apply H; right; assumption)) as [m [E2 [L2 N2]]].
    exists m. split; [exact E2|]. split; [exact L2|]. intros k. rewrite N2, N1.
    assert (P0 : (0 <= py_norm n i)%Z).
    { specialize (H i (or_introl eq_refl)). unfold py_norm. destruct (Z.ltb_spec i 0); lia. }
    destruct (Z.eqb_spec (py_norm n i) (Z.of_nat k)), (Nat.eqb_spec k (Z.to_nat (py_norm n i))); try lia; cbn;
      rewrite ?andb_false_r; reflexivity.
Qed.
Lemma set_false_bad idx : forall mask, (exists i, In i idx /\ (i < - Z.of_nat (length mask) \/ Z.of_nat (length mask) <= i)%Z) -> set_false mask idx = None.
Proof.
  induction idx as [|i idx IH]; intros mask [x [Hin Hx]]; [destruct Hin|]. cbn [set_false].
  destruct (py_index (length mask) i) as [k|] eqn:E; [|reflexivity].
  destruct (np_set mask k false) as [m|] eqn:E1; [|reflexivity].
  destruct Hin as [->|Hin]; [rewrite py_index_none in E by exact Hx; discriminate|].
  apply IH. exists x. split; [exact Hin|].
  assert (Hk : (k < length mask)%nat) by (unfold np_set in E1; destruct (Nat.ltb_spec k (length mask)); [assumption|discriminate]).
  destruct (np_set_ok mask k false false Hk) as [m' [E2 [Lm' _]]].
  assert (Lm : length m = length mask) by congruence.
  rewrite Lm. exact Hx.
Qed.


Lemma of_lines_entry ls m k j : List.Forall (List.Forall (fun p => (fst p < m)%nat)) ls -> (k < length ls)%nat ->
  entry (of_lines ls m) k j = lineval (nth k ls []) j.
Proof.
  intros H Hk. rewrite entry_line; [|apply of_lines_ok; exact H|exact Hk]. rewrite line_of_lines by exact Hk. reflexivity.
Qed.

Lemma delete_rows_correct M idx : csm_ok M -> (forall i, In i idx -> (- Z.of_nat (nmaj M) <= i < Z.of_nat (nmaj M))%Z) ->
  exists M', delete_rows_csr M idx = Some M' /\ csm_ok M' /\ nmin M' = nmin M /\ nmaj M' = length (kept (nmaj M) idx) /\
    forall k j, (k < nmaj M')%nat -> entry M' k j = entry M (nth k (kept (nmaj M) idx) 0%nat) j.
Proof.
  intros Hok H. unfold delete_rows_csr.
  destruct (set_false_ok idx (repeat true (nmaj M)) (nmaj M) (repeat_length _ _) H) as [m [E [L N]]]. rewrite E.
  assert (Ek : filter (fun i => nth i m false) (seq 0 (nmaj M)) = kept (nmaj M) idx).
  { unfold kept. apply filter_ext_in. intros k Hk. apply in_seq in Hk. rewrite N.
    assert (R : nth k (repeat true (nmaj M)) false = true).
    { rewrite (nth_indep _ false true) by (rewrite repeat_length; lia). apply nth_repeat. }
    rewrite R. reflexivity. }
  rewrite Ek. set (K := kept (nmaj M) idx).
  assert (HF : List.Forall (List.Forall (fun p => (fst p < nmin M)%nat)) (map (line M) K)).
  { rewrite Forall_map. apply Forall_forall. intros x _. apply line_cols. exact Hok. }
  eexists. split; [reflexivity|]. split; [apply of_lines_ok; exact HF|]. split; [reflexivity|].
  split; [cbn; apply map_length|]. cbn [nmaj of_lines]. rewrite map_length. intros k j Hk.
  rewrite of_lines_entry by (try rewrite map_length; assumption).
  rewrite (nth_indep _ [] (line M 0)) by (rewrite map_length; exact Hk). rewrite map_nth. symmetry. apply entry_line; [exact Hok|].
  assert (Hin : In (nth k K 0%nat) K) by (apply nth_In; exact Hk). unfold K, kept in Hin. apply filter_In in Hin.
  destruct Hin as [Hin _]. apply in_seq in Hin. fold K in Hin. unfold K, kept. lia.
Qed.
Lemma delete_rows_bad M idx i : In i idx -> (i < - Z.of_nat (nmaj M) \/ Z.of_nat (nmaj M) <= i)%Z -> delete_rows_csr M idx = None.
Proof.
  intros Hin Hi. unfold delete_rows_csr. rewrite set_false_bad; [reflexivity|]. exists i. rewrite repeat_length. auto.
Qed.

(** ** deleting several columns *)
Lemma insert_desc_perm x l : Permutation (x :: l) (insert_desc x l).
Proof.
  induction l as [|y l IH]; cbn; [reflexivity|]. destruct (Nat.leb y x); [reflexivity|].
  rewrite perm_swap. constructor. exact IH.
Qed.
Lemma sort_desc_perm l : Permutation l (sort_desc l).
Proof. induction l as [|x l IH]; cbn; [reflexivity|]. rewrite IH at 1. apply insert_desc_perm. Qed.
Lemma insert_desc_sorted x l : StronglySorted ge l -> StronglySorted ge (insert_desc x l).
Proof.
  induction 1 as [|y l Hl IH Hy]; cbn; [repeat constructor|]. destruct (Nat.leb_spec y x).
  - constructor; [constructor; assumption|]. constructor; [lia|]. eapply Forall_impl; [|exact Hy]. intros; lia.
  - constructor; [exact IH|]. eapply Permutation_Forall; [apply insert_desc_perm|]. constructor; [lia|exact Hy].
Qed.
Lemma sort_desc_sorted l : StronglySorted ge (sort_desc l).
Proof. induction l; cbn; [constructor|]. apply insert_desc_sorted. assumption. Qed.

Lemma filter_all {A} (f : A -> bool) l : (forall x, In x l -> f x = true) -> filter f l = l.
Proof. induction l as [|x l IH]; intros H; cbn; [reflexivity|]. rewrite (H x (or_introl eq_refl)). f_equal. apply IH. intros; apply H; right; assumption. Qed.

Lemma delete_all_correct l : forall M0 M b rest, csm_ok M -> (b <= nmaj M)%nat ->
  let K := seq 0 b ++ rest in
  (forall x, In x rest -> (b <= x < nmaj M0)%nat) -> (b <= nmaj M0)%nat -> nmaj M = length K -> nmin M = nmin M0 ->
  (forall k j, (k < nmaj M)%nat -> entry M k j = entry M0 (nth k K 0%nat) j) ->
  StronglySorted gt l -> (forall i, In i l -> (i < b)%nat) ->
  exists M', delete_all M l = Some M' /\ csm_ok M' /\ nmin M' = nmin M0 /\
    nmaj M' = length (filter (fun x => negb (existsb (Nat.eqb x) l)) K) /\
    forall k j, (k < nmaj M')%nat -> entry M' k j = entry M0 (nth k (filter (fun x => negb (existsb (Nat.eqb x) l)) K) 0%nat) j.
Proof.
  induction l as [|i l IH]; intros M0 M b rest Hok Hb K Hrest Hb0 HnK Hmin He Hs Hl; cbn [delete_all].
  - exists M. split; [reflexivity|]. split; [exact Hok|]. split; [exact Hmin|]. cbn [existsb negb].
    rewrite filter_all by reflexivity. split; [exact HnK|exact He].
  - assert (Hi : (i < b)%nat) by (apply Hl; left; reflexivity).
    destruct (delete_col_correct M i Hok ltac:(lia)) as [M1 [E1 [Ok1 [N1 [Mi1 En1]]]]]. rewrite E1.
    set (rest1 := seq (S i) (b - S i) ++ rest).
    assert (EK : K = seq 0 i ++ i :: rest1).
    { unfold K, rest1. replace b with (i + S (b - S i))%nat at 1 by lia. rewrite seq_app. cbn [seq Nat.add]. rewrite <- app_assoc. reflexivity. }
    inversion Hs as [|? ? Hs' Hgt]; subst. rewrite Forall_forall in Hgt.
    destruct (IH M0 M1 i rest1) as [M' [E' [Ok' [Mi' [N' En']]]]].
    + exact Ok1.
    + lia.
    + intros x Hx. unfold rest1 in Hx. apply in_app_or in Hx. destruct Hx as [Hx|Hx]; [apply in_seq in Hx; lia|].
      specialize (Hrest x Hx). lia.
    + lia.
    + rewrite N1, HnK, EK, !app_length. cbn. lia.
    + congruence.
    + intros k j Hk. rewrite En1 by exact Hk. rewrite He by (destruct (Nat.ltb k i); lia). f_equal. rewrite EK.
      destruct (Nat.ltb_spec k i).
      * rewrite !app_nth1 by (rewrite seq_length; lia). reflexivity.
      * rewrite !app_nth2 by (rewrite seq_length; lia). rewrite seq_length. replace (S k - i)%nat with (S (k - i)) by lia. reflexivity.
    + exact Hs'.
    + intros y Hy. specialize (Hgt y Hy). lia.
    + assert (EF : filter (fun x => negb (existsb (Nat.eqb x) (i :: l))) K = filter (fun x => negb (existsb (Nat.eqb x) l)) (seq 0 i ++ rest1)).
      { rewrite EK, !filter_app. f_equal.
        - apply filter_ext_in. intros x Hx. apply in_seq in Hx. cbn [existsb]. destruct (Nat.eqb_spec x i); [lia|reflexivity].
        - cbn [filter existsb]. rewrite Nat.eqb_refl. cbn [orb negb]. apply filter_ext_in. intros x Hx. cbn [existsb].
          assert (x <> i). { unfold rest1 in Hx. apply in_app_or in Hx. destruct Hx as [Hx|Hx]; [apply in_seq in Hx; lia|]. specialize (Hrest x Hx). lia. }
          destruct (Nat.eqb_spec x i); [contradiction|reflexivity]. }
      rewrite EF. exists M'. split; [exact E'|]. split; [exact Ok'|]. split; [exact Mi'|]. split; [exact N'|exact En'].
Qed.

(** the columns that stay, in order *)

Lemma delete_cols_correct M l : csm_ok M -> NoDup l -> (forall i, In i l -> (i < nmaj M)%nat) ->
  exists M', delete_cols_csc M l = Some M' /\ csm_ok M' /\ nmin M' = nmin M /\ nmaj M' = length (kept_nat (nmaj M) l) /\
    forall k j, (k < nmaj M')%nat -> entry M' k j = entry M (nth k (kept_nat (nmaj M) l) 0%nat) j.
Proof.
  intros Hok Hnd Hl. unfold delete_cols_csc.
  assert (P := sort_desc_perm l). assert (S0 := sort_desc_sorted l).
  assert (S1 : StronglySorted gt (sort_desc l)).
  { assert (Nd : NoDup (sort_desc l)) by (eapply Permutation_NoDup; eauto).
    revert S0 Nd. generalize (sort_desc l). clear. induction 1 as [|x s Hs IH Hx]; intros Nd; [constructor|].
    inversion Nd; subst. constructor; [auto|]. rewrite Forall_forall in *. intros y Hy. specialize (Hx y Hy).
    assert (y <> x) by (intros ->; contradiction). lia. }
  destruct (delete_all_correct (sort_desc l) M M (nmaj M) [] Hok) as [M' [E [Ok [Mi [N En]]]]].
  - lia.
  - intros x [].
  - lia.
  - rewrite app_nil_r, seq_length. reflexivity.
  - reflexivity.
  - intros k j Hk. rewrite app_nil_r, seq_nth by exact Hk. reflexivity.
  - exact S1.
  - intros i Hi. apply Hl. eapply Permutation_in; [symmetry; exact P|exact Hi].
  - rewrite app_nil_r in N, En.
    assert (EF : filter (fun x => negb (existsb (Nat.eqb x) (sort_desc l))) (seq 0 (nmaj M)) = kept_nat (nmaj M) l).
    { unfold kept_nat. apply filter_ext. intros x. f_equal.
      destruct (existsb (Nat.eqb x) l) eqn:Ex.
      - apply existsb_exists in Ex. destruct Ex as [y [Hy Hxy]]. apply existsb_exists. exists y. split; [eapply Permutation_in; eauto|exact Hxy].
      - destruct (existsb (Nat.eqb x) (sort_desc l)) eqn:Ey; [|reflexivity]. apply existsb_exists in Ey. destruct Ey as [y [Hy Hxy]].
        assert (existsb (Nat.eqb x) l = true); [|congruence]. apply existsb_exists. exists y. split; [eapply Permutation_in; [symmetry; exact P|exact Hy]|exact Hxy]. }
    rewrite EF in *. exists M'. auto.
Qed.

(** ** eliminating small entries *)
Lemma lineval_notin l j : ~ In j (map fst l) -> lineval l j = 0.
Proof.
  induction l as [|[c v] l IH]; intros H; cbn; [reflexivity|]. cbn in H.
  destruct (Nat.eqb_spec c j); [exfalso; apply H; left; assumption|]. rewrite IH by tauto. ring.
Qed.
Lemma elim_line l e j : NoDup (map fst l) ->
  let z := fun v => if Rlt_dec (Rabs v) e then 0 else v in
  lineval (filter (fun p => if Req_EM_T (snd p) 0 then false else true) (map (fun p => (fst p, z (snd p))) l)) j = z (lineval l j).
Proof.
  intros H z. assert (Z0 : z 0 = 0) by (unfold z; destruct (Rlt_dec (Rabs 0) e); reflexivity).
  induction l as [|[c v] l IH]; cbn [map filter lineval fst snd]; [symmetry; exact Z0|].
  inversion H as [|? ? Hc Hn]; subst. cbn [fst snd] in *. specialize (IH Hn).
  set (rest := filter _ _) in *.
  assert (G : lineval (if (if Req_EM_T (z v) 0 then false else true) then (c, z v) :: rest else rest) j
              = (if Nat.eqb c j then z v else 0) + lineval rest j).
  { destruct (Req_EM_T (z v) 0) as [E|E]; [rewrite E; destruct (Nat.eqb c j); ring|reflexivity]. }
  rewrite G, IH. destruct (Nat.eqb_spec c j) as [->|Hne].
  - rewrite lineval_notin by exact Hc. rewrite Z0. rewrite !Rplus_0_r. reflexivity.
  - rewrite !Rplus_0_l. reflexivity.
Qed.
Lemma no_dup_line M i : csm_ok M -> no_dup M -> (i < nmaj M)%nat -> NoDup (map fst (line M i)).
Proof.
  intros Hok Hnd Hi. assert (Mono := ip_mono M Hok). destruct Hok as (H1 & H2 & H3 & H4 & H5 & H6).
  assert (Q := Mono (S i) (nmaj M) ltac:(lia) ltac:(lia)). rewrite H4 in Q.
  unfold line. replace (i + 1)%nat with (S i) by lia.
  set (p := nth i (indptr M) 0%nat) in *. set (q := nth (S i) (indptr M) 0%nat) in *.
  assert (E : map fst (combine (seg (indices M) p q) (seg (data M) p q)) = seg (indices M) p q).
  { assert (L : length (seg (indices M) p q) = length (seg (data M) p q)) by (rewrite !seg_length by lia; reflexivity).
    revert L. generalize (seg (data M) p q). generalize (seg (indices M) p q). clear.
    induction l as [|x l IH]; intros [|d ds] L; try discriminate; [reflexivity|]. cbn. f_equal. apply IH. cbn in L. lia. }
  rewrite E. apply (NoDup_nth _ 0%nat). rewrite seg_length by lia. intros a b Ha Hb Hab. rewrite !seg_nth in Hab by lia.
  destruct (Nat.lt_trichotomy a b) as [C|[C|C]]; [exfalso|exact C|exfalso].
  - apply (Hnd i (p + a)%nat (p + b)%nat Hi); [fold p; lia|lia|fold q; lia|exact Hab].
  - apply (Hnd i (p + b)%nat (p + a)%nat Hi); [fold p; lia|lia|fold q; lia|symmetry; exact Hab].
Qed.
Lemma combine_map_r {A B C} (f : B -> C) (l : list A) (m : list B) : combine l (map f m) = map (fun p => (fst p, f (snd p))) (combine l m).
Proof. revert m; induction l; intros [|b m]; cbn; try reflexivity. f_equal. auto. Qed.
Lemma Forall_filter {A} (P : A -> Prop) f l : List.Forall P l -> List.Forall P (filter f l).
Proof. rewrite !Forall_forall. intros H x Hx. apply filter_In in Hx. apply H, Hx. Qed.
Lemma eliminate_zeros_correct M e : csm_ok M -> no_dup M ->
  let M' := eliminate_zeros M e in
  csm_ok M' /\ nmaj M' = nmaj M /\ nmin M' = nmin M /\ List.Forall (fun v => v <> 0) (data M') /\
  forall i j, (i < nmaj M)%nat -> entry M' i j = if Rlt_dec (Rabs (entry M i j)) e then 0 else entry M i j.
Proof.
  intros Hok Hnd M'. unfold M', eliminate_zeros.
  set (z := fun v => if Rlt_dec (Rabs v) e then 0 else v).
  set (M1 := mkCsm (map z (data M)) (indices M) (indptr M) (nmaj M) (nmin M)).
  set (ls := map _ (seq 0 (nmaj M))).
  assert (Ll : forall i, line M1 i = map (fun p => (fst p, z (snd p))) (line M i)).
  { intros i. unfold line, M1. cbn [indices data indptr]. rewrite seg_map. apply combine_map_r. }
  assert (HF : List.Forall (List.Forall (fun p => (fst p < nmin M)%nat)) ls).
  { unfold ls. rewrite Forall_map. apply Forall_forall. intros i _. apply Forall_filter. rewrite Ll, Forall_map. cbn [fst]. apply line_cols. exact Hok. }
  split; [apply of_lines_ok; exact HF|]. cbn [nmaj nmin of_lines]. split; [unfold ls; rewrite map_length; apply seq_length|]. split; [reflexivity|].
  split.
  - cbn [data of_lines]. rewrite Forall_map. apply Forall_concat. unfold ls. rewrite Forall_map. apply Forall_forall. intros i _.
    apply Forall_forall. intros x Hx. apply filter_In in Hx. destruct Hx as [_ Hx]. destruct (Req_EM_T (snd x) 0); [discriminate|assumption].
  - intros i j Hi. rewrite of_lines_entry by (try exact HF; unfold ls; rewrite map_length, seq_length; exact Hi).
    unfold ls. rewrite (nth_indep _ [] ((fun i => filter (fun p => if Req_EM_T (snd p) 0 then false else true) (line M1 i)) 0%nat)) by (rewrite map_length, seq_length; exact Hi).
    rewrite (map_nth (fun i => filter (fun p => if Req_EM_T (snd p) 0 then false else true) (line M1 i))). rewrite seq_nth by exact Hi. cbn [Nat.add].
    rewrite Ll. assert (Q := elim_line (line M i) e j (no_dup_line M i Hok Hnd Hi)). cbv zeta in Q. fold z in Q.
    etransitivity; [exact Q|]. rewrite <- entry_line by assumption. reflexivity.
Qed.

(** ** permuting rows *)
Lemma insert_key_perm key x l : Permutation (x :: l) (insert_key key x l).
Proof.
  induction l as [|y l IH]; cbn; [reflexivity|]. destruct (Nat.leb (key x) (key y)); [reflexivity|].
  rewrite perm_swap. constructor. exact IH.
Qed.
Lemma argsort_perm l : Permutation (seq 0 (length l)) (argsort l).
Proof.
  unfold argsort. generalize (seq 0 (length l)). induction l0 as [|x s IH]; cbn; [reflexivity|].
  rewrite IH at 1. apply insert_key_perm.
Qed.
Lemma insert_key_sorted key x l : StronglySorted (fun a b => (key a <= key b)%nat) l -> StronglySorted (fun a b => (key a <= key b)%nat) (insert_key key x l).
Proof.
  induction 1 as [|y l Hl IH Hy]; cbn; [repeat constructor|]. destruct (Nat.leb_spec (key x) (key y)).
  - constructor; [constructor; assumption|]. constructor; [lia|]. eapply Forall_impl; [|exact Hy]. cbn. intros; lia.
  - constructor; [exact IH|]. eapply Permutation_Forall; [apply insert_key_perm|]. constructor; [lia|exact Hy].
Qed.
Lemma argsort_sorted l : StronglySorted (fun a b => (nth a l 0 <= nth b l 0)%nat) (argsort l).
Proof. unfold argsort. induction (seq 0 (length l)); cbn [fold_right]; [constructor|]. apply (insert_key_sorted (fun k => nth k l 0%nat)). assumption. Qed.
Lemma sorted_perm_eq l1 : forall l2, StronglySorted le l1 -> StronglySorted le l2 -> Permutation l1 l2 -> l1 = l2.
Proof.
  induction l1 as [|x l1 IH]; intros [|y l2] H1 H2 P; try reflexivity.
  - apply Permutation_nil in P. discriminate.
  - symmetry in P. apply Permutation_nil in P. discriminate.
  - inversion H1 as [|? ? S1 F1]; subst. inversion H2 as [|? ? S2 F2]; subst. rewrite Forall_forall in *.
    assert (x = y).
    { assert (A : In x (y :: l2)) by (eapply Permutation_in; [exact P|left; reflexivity]).
      assert (B : In y (x :: l1)) by (eapply Permutation_in; [symmetry; exact P|left; reflexivity]).
      destruct A as [A|A]; [auto|]. destruct B as [B|B]; [auto|]. specialize (F1 y B). specialize (F2 x A). lia. }
    subst y. f_equal. apply IH; [assumption..|]. eapply Permutation_cons_inv; exact P.
Qed.
Lemma seq_sorted n : forall a, StronglySorted le (seq a n).
Proof.
  induction n as [|n IH]; intros a; cbn; [constructor|]. constructor; [apply IH|].
  apply Forall_forall. intros x Hx. apply in_seq in Hx. lia.
Qed.
Lemma argsort_inverse l : Permutation (seq 0 (length l)) l ->
  forall k, (k < length l)%nat -> (nth k (argsort l) 0 < length l)%nat /\ nth (nth k (argsort l) 0%nat) l 0%nat = k /\ nth (nth k l 0%nat) (argsort l) 0%nat = k.
Proof.
  intros P. assert (Ps := argsort_perm l). assert (Ls : length (argsort l) = length l).
  { rewrite <- (Permutation_length Ps). apply seq_length. }
  assert (Hlt : forall k, (k < length l)%nat -> (nth k (argsort l) 0 < length l)%nat).
  { intros k Hk. assert (I : In (nth k (argsort l) 0%nat) (argsort l)) by (apply nth_In; lia).
    apply (Permutation_in _ (Permutation_sym Ps)) in I. apply in_seq in I. lia. }
  assert (Hltl : forall k, (k < length l)%nat -> (nth k l 0 < length l)%nat).
  { intros k Hk. assert (I : In (nth k l 0%nat) l) by (apply nth_In; lia).
    apply (Permutation_in _ (Permutation_sym P)) in I. apply in_seq in I. lia. }
  assert (E : map (fun a => nth a l 0%nat) (argsort l) = seq 0 (length l)).
  { apply sorted_perm_eq.
    - assert (S := argsort_sorted l). revert S. generalize (argsort l). clear. induction 1 as [|x s Hs IH Hx]; cbn; constructor; [exact IH|].
      rewrite Forall_map. exact Hx.
    - apply seq_sorted.
    - assert (El : map (fun a => nth a l 0%nat) (seq 0 (length l)) = l) by apply (mk_nth l 0%nat).
      transitivity (map (fun a => nth a l 0%nat) (seq 0 (length l))); [apply Permutation_map; symmetry; exact Ps|].
      rewrite El. symmetry. exact P. }
  assert (Inv1 : forall k, (k < length l)%nat -> nth (nth k (argsort l) 0%nat) l 0%nat = k).
  { intros k Hk. transitivity (nth k (map (fun a => nth a l 0%nat) (argsort l)) 0%nat).
    - rewrite (nth_indep (map _ _) 0%nat ((fun a => nth a l 0%nat) 0%nat)) by (rewrite map_length; lia).
      rewrite (map_nth (fun a => nth a l 0%nat)). reflexivity.
    - rewrite E. apply seq_nth. exact Hk. }
  intros k Hk. split; [apply Hlt; exact Hk|]. split; [apply Inv1; exact Hk|].
  assert (Nd : NoDup l) by (eapply Permutation_NoDup; [exact P|apply seq_NoDup]).
  apply (proj1 (NoDup_nth l 0%nat) Nd); [apply Hlt, Hltl; exact Hk|exact Hk|].
  apply Inv1. apply Hltl. exact Hk.
Qed.
Lemma remap_ok s t : List.Forall (fun x => (fst x < length s)%nat) t ->
  remap s t = Some (map (fun x => (nth (fst x) s 0%nat, snd x)) t).
Proof.
  induction 1 as [|[r p] t H _ IH]; [reflexivity|]. cbn [remap map fst snd] in *.
  rewrite (nth_error_nth' _ 0%nat) by exact H. rewrite IH. reflexivity.
Qed.
Lemma coo_rows_filter M : forall start cnt r, 
  map snd (filter (fun x : nat * (nat * R) => Nat.eqb (fst x) r) (concat (map (fun i => map (fun p => (i, p)) (line M i)) (seq start cnt))))
  = if andb (Nat.leb start r) (Nat.ltb r (start + cnt)) then line M r else [].
Proof.
  assert (F : forall i r (l : list (nat * R)), filter (fun x : nat * (nat * R) => Nat.eqb (fst x) r) (map (fun p => (i, p)) l) = if Nat.eqb i r then map (fun p => (i, p)) l else []).
  { intros i r l. induction l as [|p l IH]; cbn; [destruct (Nat.eqb i r); reflexivity|]. rewrite IH. destruct (Nat.eqb i r); reflexivity. }
  intros start cnt r. revert start. induction cnt as [|cnt IH]; intros start; cbn [seq map concat].
  - cbn [filter map]. destruct (Nat.leb_spec start r), (Nat.ltb_spec r (start + 0)); try reflexivity. lia.
  - rewrite filter_app, map_app, IH, F. destruct (Nat.eqb_spec start r) as [->|Hne].
    + rewrite map_map. cbn [snd]. rewrite map_id.
      destruct (Nat.leb_spec (S r) r), (Nat.leb_spec r r), (Nat.ltb_spec r (r + S cnt)); try lia. cbn. apply app_nil_r.
    + cbn [map app]. destruct (Nat.leb_spec (S start) r), (Nat.ltb_spec r (S start + cnt)), (Nat.leb_spec start r), (Nat.ltb_spec r (start + S cnt)); cbn; try lia; reflexivity.
Qed.
Lemma flip_rows_correct M order : csm_ok M -> Permutation (seq 0 (nmaj M)) order ->
  exists M', flip_rows M order = Some M' /\ csm_ok M' /\ nmaj M' = nmaj M /\ nmin M' = nmin M /\
    forall k j, (k < nmaj M)%nat -> entry M' k j = entry M (nth k order 0%nat) j.
Proof.
  intros Hok P. assert (Ln : length order = nmaj M) by (rewrite <- (Permutation_length P); apply seq_length).
  rewrite <- Ln in P. assert (Inv := argsort_inverse order P).
  assert (Ls : length (argsort order) = nmaj M).
  { rewrite <- (Permutation_length (argsort_perm order)), seq_length. exact Ln. }
  assert (Hrow : forall x, In x (to_coo M) -> (fst x < nmaj M)%nat /\ (fst (snd x) < nmin M)%nat).
  { intros x Hx. unfold to_coo in Hx. apply in_concat in Hx. destruct Hx as [l [Hl Hx]]. apply in_map_iff in Hl. destruct Hl as [i [<- Hi]].
    apply in_map_iff in Hx. destruct Hx as [p [<- Hp]]. apply in_seq in Hi. cbn. split; [lia|].
    assert (Q := line_cols M i Hok). rewrite Forall_forall in Q. apply Q. exact Hp. }
  unfold flip_rows. rewrite remap_ok by (apply Forall_forall; intros x Hx; rewrite Ls; apply Hrow; exact Hx).
  set (t := map _ (to_coo M)).
  assert (Ht : forall x, In x t -> (fst x < nmaj M)%nat /\ (fst (snd x) < nmin M)%nat).
  { intros x Hx. unfold t in Hx. apply in_map_iff in Hx. destruct Hx as [y [<- Hy]]. cbn. destruct (Hrow y Hy) as [R1 R2].
    split; [|exact R2]. rewrite <- Ln in *. apply Inv. exact R1. }
  assert (Fb : forallb (fun x => Nat.ltb (fst x) (nmaj M)) t = true).
  { apply forallb_forall. intros x Hx. apply Nat.ltb_lt. apply Ht. exact Hx. }
  rewrite Fb. set (ls := map _ (seq 0 (nmaj M))).
  assert (HF : List.Forall (List.Forall (fun p => (fst p < nmin M)%nat)) ls).
  { unfold ls. rewrite Forall_map. apply Forall_forall. intros i _. rewrite Forall_map. apply Forall_filter. apply Forall_forall. intros x Hx. apply Ht. exact Hx. }
  assert (Lls : length ls = nmaj M) by (unfold ls; rewrite map_length; apply seq_length).
  eexists. split; [reflexivity|]. split; [apply of_lines_ok; exact HF|]. split; [exact Lls|]. split; [reflexivity|].
  intros k j Hk. rewrite of_lines_entry by (try exact HF; lia).
  assert (Ho : (nth k order 0 < nmaj M)%nat).
  { assert (I : In (nth k order 0%nat) order) by (apply nth_In; lia).
    apply (Permutation_in _ (Permutation_sym P)) in I. apply in_seq in I. lia. }
  rewrite entry_line by assumption. f_equal.
  unfold ls. rewrite (nth_indep _ [] ((fun r => map snd (filter (fun x : nat * (nat * R) => Nat.eqb (fst x) r) t)) 0%nat)) by (rewrite map_length, seq_length; exact Hk).
  rewrite (map_nth (fun r => map snd (filter (fun x : nat * (nat * R) => Nat.eqb (fst x) r) t))). rewrite seq_nth by exact Hk. cbn [Nat.add].
  assert (Q := coo_rows_filter M 0 (nmaj M) (nth k order 0%nat)). fold (to_coo M) in Q.
  destruct (Nat.leb_spec 0 (nth k order 0%nat)); [|lia]. destruct (Nat.ltb_spec (nth k order 0%nat) (0 + nmaj M)); [|lia]. cbn [andb] in Q.
  rewrite <- Q. unfold t. generalize (to_coo M) Hrow. clear - Inv Hk Ln.
  induction l as [|x l IH]; intros Hrow; [reflexivity|]. cbn [map filter fst snd].
  assert (Hx : (fst x < nmaj M)%nat) by (apply Hrow; left; reflexivity).
  assert (Eb : Nat.eqb (nth (fst x) (argsort order) 0%nat) k = Nat.eqb (fst x) (nth k order 0%nat)).
  { destruct (Nat.eqb_spec (nth (fst x) (argsort order) 0%nat) k) as [E|E], (Nat.eqb_spec (fst x) (nth k order 0%nat)) as [E'|E']; try reflexivity; exfalso.
    - apply E'. rewrite <- E. symmetry. apply Inv. lia.
    - apply E. rewrite E'. apply Inv. lia. }
  rewrite Eb. destruct (Nat.eqb (fst x) (nth k order 0%nat)); cbn [map snd]; rewrite IH by (intros; apply Hrow; right; assumption); reflexivity.
Qed.
