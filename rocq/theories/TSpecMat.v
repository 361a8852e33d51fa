(** The matrices of trigspec act on coefficient functions. *)
From Coq Require Import Reals ZArith List Arith Lia Lra Bool.
From Coquelicot Require Import Coquelicot.
From Verif Require Import Base ToolsProofs TrigSpec TrigBase TrigModel TrigModel2 TrigTrans TrigEval TrigCalc TrigCalc2 TrigObj TSpecSpec TSpecModel TSpecZ.
Import ListNotations.
Open Scope R_scope.
Open Scope C_scope.

Lemma ment_cmk n f i j : (i < n)%nat -> (j < n)%nat -> ment (cmk n f) i j = f i j.
Proof. intros Hi Hj. unfold ment, cmk. rewrite nth_mk by exact Hi. apply nth_mk. exact Hj. Qed.
Lemma cmatvec_length n M v : length (cmatvec n M v) = n. Proof. apply mk_length. Qed.
Lemma nth_cmatvec n M v i : (i < n)%nat -> nth i (cmatvec n M v) C0 = csum n (fun j => ment M i j * nth j v C0).
Proof. intros Hi. unfold cmatvec. rewrite nth_mk by exact Hi. reflexivity. Qed.
Lemma cvec_ext (u v : list C) : length u = length v -> (forall i, (i < length u)%nat -> nth i u C0 = nth i v C0) -> u = v.
Proof. intros L H. apply (nth_ext u v C0 C0 L H). Qed.
Lemma cmatvec_ext n A B v : (forall i j, (i < n)%nat -> (j < n)%nat -> ment A i j = ment B i j) -> cmatvec n A v = cmatvec n B v.
Proof.
  intros H. apply cvec_ext; [rewrite !cmatvec_length; reflexivity|]. intros i Hi. rewrite cmatvec_length in Hi. rewrite !nth_cmatvec by exact Hi.
  apply csum_ext. intros j Hj. rewrite H by assumption. reflexivity.
Qed.
Lemma cmatvec_mul n A B v : cmatvec n (cmatmul n A B) v = cmatvec n A (cmatvec n B v).
Proof.
  apply cvec_ext; [rewrite !cmatvec_length; reflexivity|]. intros i Hi. rewrite cmatvec_length in Hi. rewrite !nth_cmatvec by exact Hi.
  transitivity (csum n (fun j => csum n (fun k => ment A i k * ment B k j * nth j v C0))).
  - apply csum_ext. intros j Hj. unfold cmatmul. rewrite ment_cmk by assumption. rewrite <- csum_scal_r. reflexivity.
  - rewrite csum_swap. apply csum_ext. intros k Hk. rewrite nth_cmatvec by exact Hk. rewrite <- csum_scal. apply csum_ext. intros j _. ring.
Qed.
Lemma nth_cmatvec_add n A B v i : (i < n)%nat -> nth i (cmatvec n (cmatadd n A B) v) C0 = nth i (cmatvec n A v) C0 + nth i (cmatvec n B v) C0.
Proof.
  intros Hi. rewrite !nth_cmatvec by exact Hi. rewrite <- csum_plus. apply csum_ext. intros j Hj. unfold cmatadd. rewrite ment_cmk by assumption. ring.
Qed.
Lemma nth_cmatvec_scal n s A v i : (i < n)%nat -> nth i (cmatvec n (cmatscal n s A) v) C0 = s * nth i (cmatvec n A v) C0.
Proof.
  intros Hi. rewrite !nth_cmatvec by exact Hi. rewrite <- csum_scal. apply csum_ext. intros j Hj. unfold cmatscal. rewrite ment_cmk by assumption. ring.
Qed.
Lemma nth_cmatvec_diag n f v i : (i < n)%nat -> nth i (cmatvec n (cdiag n f) v) C0 = f i * nth i v C0.
Proof.
  intros Hi. rewrite nth_cmatvec by exact Hi. rewrite (csum_single _ _ i); [|exact Hi|].
  - unfold cdiag. rewrite ment_cmk by exact Hi. rewrite Nat.eqb_refl. reflexivity.
  - intros j Hj Hne. unfold cdiag. rewrite ment_cmk by assumption. destruct (Nat.eqb_spec i j); [congruence|]. unfold C0. ring.
Qed.
Lemma nth_cmatvec_zero n v i : (i < n)%nat -> nth i (cmatvec n (czero n) v) C0 = C0.
Proof. intros Hi. rewrite nth_cmatvec by exact Hi. apply csum_zero. intros j Hj. unfold czero. rewrite ment_cmk by assumption. unfold C0. ring. Qed.

(** ** sptoeplitz *)
Lemma ceqb_true a b : ceqb a b = true <-> a = b.
Proof.
  unfold ceqb, Re, Im. rewrite andb_true_iff, !TrigTrans.Reqb_true. destruct a as [a1 a2], b as [b1 b2]. cbn [fst snd]. split; [intros [-> ->]; reflexivity|intros E; injection E; auto].
Qed.
Lemma nzs_spec l k : In k (nzs l) <-> (k < length l)%nat /\ nth k l C0 <> C0.
Proof.
  unfold nzs. rewrite filter_In, in_seq. split.
  - intros [H1 H2]. split; [lia|]. intros E. rewrite E in H2. assert (X : ceqb C0 C0 = true) by (apply ceqb_true; reflexivity). rewrite X in H2. discriminate.
  - intros [H1 H2]. split; [lia|]. destruct (ceqb (nth k l C0) C0) eqn:E; [|reflexivity]. apply ceqb_true in E. contradiction.
Qed.
Lemma nzs_out l k : ~ In k (nzs l) -> nth k l C0 = C0.
Proof.
  intros H. destruct (Nat.lt_ge_cases k (length l)) as [Hk|Hk]; [|apply nth_overflow; exact Hk].
  destruct (ceqb (nth k l C0) C0) eqn:E; [apply ceqb_true; exact E|]. exfalso. apply H. apply nzs_spec. split; [exact Hk|].
  intros X. rewrite X in E. assert (Y : ceqb C0 C0 = true) by (apply ceqb_true; reflexivity). congruence.
Qed.
Lemma spdiags_in ds z v i j : In (z, v) ds -> (forall v', In (z, v') ds -> v' = v) -> z = (Z.of_nat j - Z.of_nat i)%Z -> spdiags_entry ds i j = v.
Proof.
  intros H U E. unfold spdiags_entry. destruct (find _ ds) as [[z' v']|] eqn:F.
  - apply find_some in F. destruct F as [F1 F2]. cbn [fst] in F2. apply Z.eqb_eq in F2. cbn [snd]. apply U. rewrite E, <- F2. exact F1.
  - exfalso. assert (X := find_none _ _ F _ H). cbn [fst] in X. rewrite E, Z.eqb_refl in X. discriminate.
Qed.
Lemma spdiags_out ds i j : (forall z v, In (z, v) ds -> z <> (Z.of_nat j - Z.of_nat i)%Z) -> spdiags_entry ds i j = C0.
Proof.
  intros H. unfold spdiags_entry. destruct (find _ ds) as [[z' v']|] eqn:F; [|reflexivity]. apply find_some in F. destruct F as [F1 F2]. cbn [fst] in F2.
  apply Z.eqb_eq in F2. exfalso. exact (H _ _ F1 F2).
Qed.
Lemma sptoeplitz_entry col row i j : length col = length row -> nth 0 col C0 = nth 0 row C0 -> (i < length col)%nat -> (j < length col)%nat ->
  ment (sptoeplitz col row) i j = toeplitz_entry col row i j.
Proof.
  intros L E0 Hi Hj. unfold sptoeplitz. destruct (andb _ _).
  - destruct (nzs col) as [|ic [|? ?]] eqn:Nc; try (rewrite ment_cmk by assumption; reflexivity).
    destruct (nzs row) as [|ir [|? ?]] eqn:Nr; try (rewrite ment_cmk by assumption; reflexivity).
    assert (Zc : forall k, k <> ic -> nth k col C0 = C0) by (intros k Hk; apply nzs_out; rewrite Nc; intros [X|[]]; congruence).
    assert (Zr : forall k, k <> ir -> nth k row C0 = C0) by (intros k Hk; apply nzs_out; rewrite Nr; intros [X|[]]; congruence).
    assert (Ic : (ic < length col)%nat /\ nth ic col C0 <> C0) by (apply nzs_spec; rewrite Nc; left; reflexivity).
    assert (Ir : (ir < length row)%nat /\ nth ir row C0 <> C0) by (apply nzs_spec; rewrite Nr; left; reflexivity).
    destruct (Nat.eqb_spec ic 0) as [->|Hic]; rewrite ment_cmk by assumption; unfold toeplitz_entry.
    + assert (ir = 0%nat) as ->. { destruct (Nat.eq_dec ir 0) as [X|X]; [exact X|exfalso]. apply (proj2 Ic). rewrite E0. apply Zr. congruence. }
      destruct (Nat.eq_dec i j) as [->|Hij].
      * rewrite (spdiags_in _ 0 (nth 0 col C0)); [|left; reflexivity|intros v' [X|[]]; congruence|lia]. rewrite Nat.leb_refl, Nat.sub_diag. reflexivity.
      * rewrite spdiags_out; [|intros z v [X|[]]; injection X as X _; lia]. destruct (Nat.leb_spec j i); symmetry; [apply Zc|apply Zr]; lia.
    + assert (Hir : ir <> 0%nat). { intros ->. apply (proj2 Ir). rewrite <- E0. apply Zc. congruence. }
      destruct (Nat.leb_spec j i) as [Hji|Hji].
      * destruct (Nat.eq_dec (i - j) ic) as [X|X].
        -- rewrite X. rewrite (spdiags_in _ (- Z.of_nat ic) (nth ic col C0)); [reflexivity|left; reflexivity| |lia].
           intros v' [Y|[Y|[]]]; [congruence|]. injection Y as Y _. lia.
        -- rewrite (Zc _ X). apply spdiags_out. intros z v [Y|[Y|[]]]; injection Y as Y _; lia.
      * destruct (Nat.eq_dec (j - i) ir) as [X|X].
        -- rewrite X. rewrite (spdiags_in _ (Z.of_nat ir) (nth ir row C0)); [reflexivity|right; left; reflexivity| |lia].
           intros v' [Y|[Y|[]]]; [injection Y as Y _; lia|congruence].
        -- rewrite (Zr _ X). apply spdiags_out. intros z v [Y|[Y|[]]]; injection Y as Y _; lia.
  - rewrite ment_cmk by assumption. set (row' := C0 :: tl row).
    assert (R0 : nth 0 row' C0 = C0) by reflexivity. assert (RS : forall k, (1 <= k)%nat -> nth k row' C0 = nth k row C0).
    { intros k Hk. destruct k as [|k]; [lia|]. unfold row'. cbn [nth]. destruct row; [destruct k; reflexivity|reflexivity]. }
    assert (Z0 : ~ In 0%nat (nzs row')) by (intros X; apply nzs_spec in X; apply (proj2 X); exact R0).
    unfold toeplitz_entry. destruct (Nat.leb_spec j i) as [Hji|Hji].
    + destruct (in_dec Nat.eq_dec (i - j)%nat (nzs col)) as [X|X].
      * apply (spdiags_in _ (- Z.of_nat (i - j))); [| |lia].
        -- apply in_or_app. right. apply in_map_iff. exists (i - j)%nat. split; [reflexivity|exact X].
        -- intros v' Y. apply in_app_or in Y. destruct Y as [Y|Y]; apply in_map_iff in Y; destruct Y as (k & Y & Hk); injection Y as Y1 Y2.
           ++ assert (k = 0%nat) by lia. subst k. contradiction.
           ++ assert (k = (i - j)%nat) by lia. subst k. symmetry. exact Y2.
      * rewrite (nzs_out _ _ X). apply spdiags_out. intros z v Y Ez. apply in_app_or in Y. destruct Y as [Y|Y]; apply in_map_iff in Y; destruct Y as (k & Y & Hk); injection Y as Y1 Y2.
        -- assert (k = 0%nat) by lia. subst k. contradiction.
        -- assert (k = (i - j)%nat) by lia. subst k. contradiction.
    + rewrite <- RS by lia. destruct (in_dec Nat.eq_dec (j - i)%nat (nzs row')) as [X|X].
      * apply (spdiags_in _ (Z.of_nat (j - i))); [| |lia].
        -- apply in_or_app. left. apply in_map_iff. exists (j - i)%nat. split; [reflexivity|exact X].
        -- intros v' Y. apply in_app_or in Y. destruct Y as [Y|Y]; apply in_map_iff in Y; destruct Y as (k & Y & Hk); injection Y as Y1 Y2.
           ++ assert (k = (j - i)%nat) by lia. subst k. symmetry. exact Y2.
           ++ lia.
      * rewrite (nzs_out _ _ X). apply spdiags_out. intros z v Y Ez. apply in_app_or in Y. destruct Y as [Y|Y]; apply in_map_iff in Y; destruct Y as (k & Y & Hk); injection Y as Y1 Y2.
        -- assert (k = (j - i)%nat) by lia. subst k. contradiction.
        -- lia.
Qed.

(** ** multmat *)
Lemma mult_odd_entry k c i j : Nat.odd (length c) = true -> (i < k)%nat -> (j < k)%nat ->
  let Na := (length c / 2)%nat in
  let '(col, row) :=
      if Nat.ltb Na k then (skipn Na c ++ repeat C0 (k - Na - 1), rev (firstn (Na + 1) c) ++ repeat C0 (k - Na - 1))
      else (py_slice c (Z.of_nat Na) (Z.of_nat k - Z.of_nat Na - 1), py_slice_down c Na (Z.of_nat Na - Z.of_nat k)) in
  ment (sptoeplitz col row) i j = coef c (Z.of_nat i - Z.of_nat j).
Proof.
  intros Ho Hi Hj Na. assert (L := odd_half _ Ho). fold Na in L.
  (* the two vectors, entry by entry *)
  assert (Pair : forall col row, length col = k -> length row = k ->
     (forall m, (m < k)%nat -> nth m col C0 = coef c (Z.of_nat m)) -> (forall m, (m < k)%nat -> nth m row C0 = coef c (- Z.of_nat m)) ->
     ment (sptoeplitz col row) i j = coef c (Z.of_nat i - Z.of_nat j)).
  { intros col row L1 L2 H1 H2. rewrite sptoeplitz_entry; [| congruence | rewrite H1, H2 by lia; reflexivity | lia | lia].
    unfold toeplitz_entry. destruct (Nat.leb_spec j i); [rewrite H1 by lia|rewrite H2 by lia]; f_equal; lia. }
  assert (Cf : forall z, (Z.abs z <= Z.of_nat Na)%Z -> coef c z = nth (Z.to_nat (z + Z.of_nat Na)) c C0) by (intros z Hz; apply coef_odd; assumption).
  assert (Cb : forall z, (Z.of_nat Na < Z.abs z)%Z -> coef c z = C0) by (intros z Hz; apply coef_big; exact Hz).
  assert (Fl : length (firstn (Na + 1) c) = (Na + 1)%nat) by (rewrite firstn_length; lia).
  destruct (Nat.ltb_spec Na k) as [Hk|Hk]; apply Pair.
  - rewrite app_length, skipn_length, repeat_length. lia.
  - rewrite app_length, rev_length, Fl, repeat_length. lia.
  - intros m Hm. destruct (Nat.le_gt_cases m Na) as [X|X].
    + rewrite app_nth1 by (rewrite skipn_length; lia). rewrite nth_skipn'. rewrite Cf by lia. f_equal. lia.
    + rewrite app_nth2 by (rewrite skipn_length; lia). rewrite nth_repeat_C0. symmetry. apply Cb. lia.
  - intros m Hm. destruct (Nat.le_gt_cases m Na) as [X|X].
    + rewrite app_nth1 by (rewrite rev_length, Fl; lia). rewrite rev_nth by (rewrite Fl; lia). rewrite Fl, nth_firstn' by lia. rewrite Cf by lia. f_equal. lia.
    + rewrite app_nth2 by (rewrite rev_length, Fl; lia). rewrite nth_repeat_C0. symmetry. apply Cb. lia.
  - unfold py_slice, py_idx. destruct (Z.ltb_spec (Z.of_nat Na) 0); [lia|]. destruct (Z.ltb_spec (Z.of_nat k - Z.of_nat Na - 1) 0); [|lia].
    rewrite firstn_length, skipn_length. lia.
  - unfold py_slice_down, py_idx. destruct (Z.ltb_spec (Z.of_nat Na - Z.of_nat k) 0); [lia|]. rewrite rev_length, firstn_length, skipn_length. lia.
  - intros m Hm. unfold py_slice, py_idx. destruct (Z.ltb_spec (Z.of_nat Na) 0); [lia|]. destruct (Z.ltb_spec (Z.of_nat k - Z.of_nat Na - 1) 0); [|lia].
    rewrite nth_firstn' by lia. rewrite nth_skipn'. rewrite Cf by lia. f_equal. lia.
  - intros m Hm. unfold py_slice_down, py_idx. destruct (Z.ltb_spec (Z.of_nat Na - Z.of_nat k) 0); [lia|].
    set (e := Z.to_nat (Z.min (Z.of_nat Na - Z.of_nat k) (Z.of_nat (length c)))). assert (He : e = (Na - k)%nat) by (unfold e; lia).
    assert (Lf : length (firstn (Na - e) (skipn (e + 1) c)) = k) by (rewrite firstn_length, skipn_length; lia).
    rewrite rev_nth by lia. rewrite Lf. rewrite nth_firstn' by lia. rewrite nth_skipn'. rewrite Cf by lia. f_equal. lia.
Qed.
Lemma tmultmat_entry k c i j : (1 <= length c)%nat -> (i < k)%nat -> (j < k)%nat -> ment (tmultmat k c) i j = coef c (Z.of_nat i - Z.of_nat j).
Proof.
  intros Hc Hi Hj. unfold tmultmat. destruct (Nat.eqb_spec (length c) 1) as [E1|E1].
  - unfold cmatscal, ceye, cdiag. rewrite !ment_cmk by assumption. destruct (Nat.eqb_spec i j) as [->|Hn].
    + rewrite Z.sub_diag. rewrite coef_odd by (rewrite ?E1; first [reflexivity | change (1 / 2)%nat with 0%nat; lia]). rewrite E1. change (Z.to_nat (0 + Z.of_nat (1 / 2))) with 0%nat. apply Cmult_1_r.
    + rewrite coef_big by (rewrite E1; change (Z.of_nat (1 / 2)) with 0%Z; lia). unfold C0. ring.
  - fold (split_even c). change (if Nat.even (length c) then RtoC (/ 2) * nth 0 c C0 :: tl c ++ [RtoC (/ 2) * nth 0 c C0] else c) with (split_even c).
    rewrite <- coef_split by exact Hc. assert (M := mult_odd_entry k (split_even c) i j (split_even_odd c Hc) Hi Hj). cbv zeta in M |- *. destruct (Nat.ltb (length (split_even c) / 2) k); exact M.
Qed.

(** ** vectors of coefficient functions *)
Definition vecZ (n : nat) (g : Z -> C) : list C := mk n (fun i => g (freq n i)).
Definition inZ (n : nat) (g : Z -> C) : Prop := forall z, (Z.of_nat n <= 2 * Z.abs z)%Z -> g z = RtoC 0.
Lemma nth_vecZ n g i : (i < n)%nat -> nth i (vecZ n g) C0 = g (freq n i).
Proof. intros Hi. unfold vecZ. rewrite nth_mk by exact Hi. reflexivity. Qed.
Lemma vec_is n (v : list C) g : length v = n -> (forall i, (i < n)%nat -> nth i v C0 = g (freq n i)) -> v = vecZ n g.
Proof. intros L H. apply cvec_ext; [unfold vecZ; rewrite mk_length; exact L|]. intros i Hi. rewrite L in Hi. rewrite nth_vecZ by exact Hi. apply H. exact Hi. Qed.
Lemma vecZ_ext n g h : (forall i, (i < n)%nat -> g (freq n i) = h (freq n i)) -> vecZ n g = vecZ n h.
Proof. intros H. apply vec_is; [apply mk_length|]. intros i Hi. rewrite nth_vecZ by exact Hi. apply H. exact Hi. Qed.
Lemma half_cases n : (n = 2 * (n / 2) /\ Nat.even n = true \/ n = 2 * (n / 2) + 1 /\ Nat.odd n = true)%nat.
Proof. destruct (even_or_odd n) as [H|H]; [left; split; [apply even_half|]; exact H|right; split; [apply odd_half|]; exact H]. Qed.
Lemma inZ_supp n g : inZ n g -> supp (n / 2) g.
Proof. intros H z Hz. apply H. destruct (half_cases n) as [[E _]|[E _]]; lia. Qed.
(** sums over the entries are sums over the frequencies *)
Lemma csum_freq n f : (1 <= n)%nat -> (forall z, (Z.of_nat n <= 2 * Z.abs z)%Z -> f z = RtoC 0) -> csum n (fun j => f (freq n j)) = zsum (n / 2) f.
Proof.
  intros Hn H. unfold zsum, freq. destruct (half_cases n) as [[E _]|[E _]].
  - rewrite E at 1. rewrite csum_app. cbn [csum]. rewrite (H (Z.of_nat (2 * (n / 2) + 0) - Z.of_nat (n / 2))%Z) by lia. ring_simplify. reflexivity.
  - rewrite E at 1. reflexivity.
Qed.
Lemma coef_plain v : (1 <= length v)%nat -> plain v -> inZ (length v) (coef v) /\ v = vecZ (length v) (coef v).
Proof.
  intros Hl Hp. destruct (half_cases (length v)) as [[E Ev]|[E Ev]].
  - split.
    + intros z Hz. destruct (Z_lt_le_dec (Z.of_nat (length v / 2)) (Z.abs z)) as [X|X]; [apply coef_big; exact X|]. rewrite coef_top by (try exact Ev; lia).
      specialize (Hp Ev). unfold C0 in *. rewrite Hp. ring.
    + apply vec_is; [reflexivity|]. intros i Hi. unfold freq. destruct i as [|i].
      * rewrite coef_top by (try exact Ev; lia). specialize (Hp Ev). unfold C0 in *. rewrite Hp. ring.
      * rewrite coef_even by lia. f_equal. lia.
  - split.
    + intros z Hz. apply coef_big. lia.
    + apply vec_is; [reflexivity|]. intros i Hi. unfold freq. rewrite coef_odd by (try exact Ev; lia). f_equal. lia.
Qed.
Lemma coef_vecZ n g z : (2 * Z.abs z < Z.of_nat n)%Z -> coef (vecZ n g) z = g z.
Proof.
  intros Hz. assert (L : length (vecZ n g) = n) by apply mk_length. destruct (half_cases n) as [[E Ev]|[E Ev]].
  - rewrite coef_even by (rewrite L; lia). rewrite L, nth_vecZ by lia. f_equal. unfold freq. lia.
  - rewrite coef_odd by (rewrite L; try exact Ev; lia). rewrite L, nth_vecZ by lia. f_equal. unfold freq. lia.
Qed.

(** ** action of the matrices *)
Lemma mult_vecZ n c g : (1 <= n)%nat -> (1 <= length c)%nat -> inZ n g -> cmatvec n (ts_mult n c) (vecZ n g) = vecZ n (conv (n / 2) (coef c) g).
Proof.
  intros Hn Hc Hg. apply vec_is; [apply cmatvec_length|]. intros i Hi. rewrite nth_cmatvec by exact Hi. unfold conv.
  rewrite <- (csum_freq n (fun w => coef c (freq n i - w) * g w)) by (try exact Hn; intros z Hz; rewrite Hg by exact Hz; ring).
  apply csum_ext. intros j Hj. unfold ts_mult. rewrite tmultmat_entry by assumption. rewrite nth_vecZ by exact Hj. f_equal. f_equal. unfold freq. lia.
Qed.
Lemma cpow_mul_C a b m : cpow (a * b) m = cpow a m * cpow b m.
Proof. induction m as [|m IH]; cbn [cpow]; [ring|]. rewrite IH. ring. Qed.
Lemma diff_vecZ a b n m g : a < b -> (1 <= n)%nat -> inZ n g ->
  cmatvec n (ts_diff n m (b - a)) (vecZ n g) = vecZ n (fun z => cpow (Ci * RtoC (omega a b z)) m * g z).
Proof.
  intros Hab Hn Hg. apply vec_is; [apply cmatvec_length|]. intros i Hi. unfold ts_diff. destruct (Nat.eqb_spec m 0) as [->|Hm].
  - unfold ceye. rewrite nth_cmatvec_diag by exact Hi. rewrite nth_vecZ by exact Hi. reflexivity.
  - rewrite nth_cmatvec_scal by exact Hi. unfold tdiffmat. destruct (Nat.eqb_spec m 0); [contradiction|]. rewrite nth_cmatvec_diag by exact Hi. rewrite nth_vecZ by exact Hi.
    assert (Key : forall w, w = RtoC (IZR (freq n i)) -> RtoC ((2 * PI / (b - a)) ^ m) * (cpow Ci m * cpow w m * g (freq n i)) = cpow (Ci * RtoC (omega a b (freq n i))) m * g (freq n i)).
    { intros w ->. rewrite <- cpow_R, <- (cpow_mul_C Ci). rewrite Cmult_assoc, <- cpow_mul_C. f_equal. f_equal. unfold omega.
      replace (PI * IZR (freq n i) * (2 / (b - a)))%R with (2 * PI / (b - a) * IZR (freq n i))%R by (field; lra). rewrite RtoC_mult. ring. }
    unfold diff_diag. destruct (Nat.odd n) eqn:On; [apply Key; reflexivity|]. destruct (Nat.odd m); [|apply Key; reflexivity].
    destruct (Nat.eqb_spec i 0) as [->|Hi0]; [|apply Key; reflexivity].
    assert (Z0 : g (freq n 0) = RtoC 0). { apply Hg. unfold freq. destruct (half_cases n) as [[E _]|[_ X]]; [lia|congruence]. }
    rewrite Z0. ring.
Qed.
Lemma int_vecZ n len g : (1 <= n)%nat -> cmatvec n (ts_int n len) (vecZ n g) = vecZ n (fun z => if Z.eqb z 0 then RtoC len * g 0%Z else RtoC 0).
Proof.
  intros Hn. apply vec_is; [apply cmatvec_length|]. intros i Hi. unfold ts_int. rewrite nth_cmatvec_scal by exact Hi. rewrite nth_cmatvec by exact Hi.
  assert (Ind : (if Nat.odd n then (n + 1) / 2 - 1 else n / 2)%nat = (n / 2)%nat).
  { destruct (Nat.odd n) eqn:On; [|reflexivity]. assert (E := odd_half n On). rewrite E at 1. replace (2 * (n / 2) + 1 + 1)%nat with ((n / 2 + 1) * 2)%nat by lia. rewrite Nat.div_mul by lia. lia. }
  assert (Hh : (n / 2 < n)%nat) by (apply Nat.div_lt; lia). unfold tintmat. rewrite Ind.
  destruct (Nat.eq_dec i (n / 2)) as [->|Hne].
  - rewrite (csum_single _ _ (n / 2)%nat); [|exact Hh|].
    + rewrite ment_cmk by exact Hh. rewrite Nat.eqb_refl. cbn [andb]. rewrite nth_vecZ by exact Hh. unfold freq. rewrite Z.sub_diag. cbn [Z.eqb].
      rewrite Cmult_assoc. f_equal. rewrite <- RtoC_mult. f_equal. field.
    + intros j Hj Hn2. rewrite ment_cmk by assumption. destruct (Nat.eqb_spec j (n / 2)); [contradiction|]. rewrite andb_false_r. unfold C0. ring.
  - rewrite csum_zero; [|intros j Hj; rewrite ment_cmk by assumption; destruct (Nat.eqb_spec i (n / 2)); [contradiction|]; cbn [andb]; unfold C0; ring].
    destruct (Z.eqb_spec (freq n i) 0) as [E|E]; [unfold freq in E; lia|]. ring.
Qed.
Lemma agg_vecZ a b n g : a < b -> cmatvec n (ts_agg0 n (b - a)) (vecZ n g) = vecZ n (fun z => nlsym a b z * g z).
Proof.
  intros Hab. apply vec_is; [apply cmatvec_length|]. intros i Hi. unfold ts_agg0, ts_agg, aggmat. cbn [Nat.leb Nat.eqb]. rewrite nth_cmatvec_diag by exact Hi.
  rewrite nth_vecZ by exact Hi. f_equal. unfold gen_m0, nlsym. destruct (Z.eqb_spec (freq n i) 0); [unfold C0; ring|].
  assert (E : (1 / (/ 2 * (b - a)) * PI * IZR (freq n i) = omega a b (freq n i))%R) by (unfold omega; field; lra). rewrite E. reflexivity.
Qed.
