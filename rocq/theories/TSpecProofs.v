(** The matrix of a periodic linear operator acts on Fourier coefficients as the operator. *)
From Coq Require Import Reals ZArith List Arith Lia Lra Bool.
From Coquelicot Require Import Coquelicot.
From Verif Require Import Base ToolsProofs TrigSpec TrigBase TrigModel TrigModel2 TrigTrans TrigEval TrigCalc TrigCalc2 TrigObj TSpecSpec TSpecModel TSpecClaims TSpecZ TSpecMat.
Import ListNotations.
Open Scope R_scope.
Open Scope C_scope.

(** [M] applied to the coefficients [g] gives the coefficients of the function [w] *)
Definition acts (a b : R) (n : nat) (cst : Prop) (g : Z -> C) (M : cmat) (w : R -> C) : Prop :=
  exists K h, hasZ a b w K h /\ cmatvec n M (vecZ n g) = vecZ n h /\ (cst -> inZ n h).

Lemma acts_zero a b n cst g : acts a b n cst g (czero n) (fun _ => RtoC 0).
Proof.
  exists 0%nat, (fun _ => RtoC 0). split; [apply hasZ_zero|]. split; [|intros _ z _; reflexivity].
  apply vec_is; [apply cmatvec_length|]. intros i Hi. rewrite nth_cmatvec_zero by exact Hi. reflexivity.
Qed.
Lemma acts_ext a b n cst g M w w' : (forall x, w x = w' x) -> acts a b n cst g M w -> acts a b n cst g M w'.
Proof. intros E (K & h & H & V & I). exists K, h. split; [|split; assumption]. apply (hasZ_ext a b w w' K h h E); [reflexivity|exact H]. Qed.
Lemma acts_add a b n cst g A B u w : acts a b n cst g A u -> acts a b n cst g B w -> acts a b n cst g (cmatadd n A B) (fun x => u x + w x).
Proof.
  intros (K & h & H & V & I) (K' & h' & H' & V' & I'). exists (Nat.max K K'), (fun z => h z + h' z). split; [|split].
  - apply hasZ_plus; [apply (hasZ_weaken a b u K)|apply (hasZ_weaken a b w K')]; try assumption; lia.
  - apply vec_is; [apply cmatvec_length|]. intros i Hi. rewrite nth_cmatvec_add by exact Hi. rewrite V, V', !nth_vecZ by exact Hi. reflexivity.
  - intros c z Hz. rewrite I, I' by assumption. ring.
Qed.
Lemma conv_const K (c : list C) g z : length c = 1%nat -> supp K g -> conv K (coef c) g z = nth 0 c C0 * g z.
Proof.
  intros L S. assert (B : forall w, w <> 0%Z -> coef c w = RtoC 0) by (intros w Hw; apply coef_big; rewrite L; change (Z.of_nat (1 / 2)) with 0%Z; lia).
  assert (Z0 : coef c 0 = nth 0 c C0) by (rewrite coef_odd by (rewrite ?L; first [reflexivity | change (1 / 2)%nat with 0%nat; lia]); rewrite L; reflexivity).
  unfold conv. destruct (Z_lt_le_dec (Z.of_nat K) (Z.abs z)) as [X|X].
  - rewrite (S z X). rewrite zsum_zero; [ring|]. intros w Hw. rewrite B by lia. ring.
  - rewrite (zsum_single K _ z X). + rewrite Z.sub_diag, Z0. reflexivity. + intros w _ Hw. rewrite B by lia. ring.
Qed.
(** multiplication by a coefficient function of something already represented *)
Lemma acts_mult a b n (cst : Prop) g M w (c : list C) K h : (1 <= n)%nat -> (1 <= length c)%nat -> (cst -> length c = 1%nat) ->
  hasZ a b w K h -> inZ n h -> cmatvec n M (vecZ n g) = vecZ n h ->
  acts a b n cst g (cmatmul n (ts_mult n c) M) (fun x => tfun a b c x * w x).
Proof.
  intros Hn Hc Hcst H I V. assert (Sh := inZ_supp n h I).
  assert (H' : hasZ a b w (n / 2) h).
  { split; [exact Sh|]. intros x. destruct H as [Sk Hx]. rewrite Hx. destruct (Nat.le_ge_cases K (n / 2)) as [X|X].
    - replace (n / 2)%nat with (K + (n / 2 - K))%nat by lia. symmetry. apply zsum_extend. intros z Hz. rewrite Sk by exact Hz. ring.
    - replace K with (n / 2 + (K - n / 2))%nat by lia. apply zsum_extend. intros z Hz. rewrite Sh by exact Hz. ring. }
  exists (length c / 2 + n / 2)%nat, (conv (n / 2) (coef c) h). split; [|split].
  - apply hasZ_mul; [apply hasZ_tfun; exact Hc|exact H'].
  - rewrite cmatvec_mul, V. apply mult_vecZ; assumption.
  - intros k z Hz. rewrite conv_const by (try exact Sh; apply Hcst; exact k). rewrite I by exact Hz. ring.
Qed.
Lemma inZ_scal n s g : inZ n g -> inZ n (fun z => s z * g z).
Proof. intros I z Hz. rewrite I by exact Hz. ring. Qed.
Lemma acts_diff a b n (cst : Prop) u g (c : list C) j : a < b -> (1 <= n)%nat -> (1 <= length c)%nat -> (cst -> length c = 1%nat) -> inZ n g -> hasZ a b u (n / 2) g ->
  acts a b n cst g (cmatmul n (ts_mult n c) (ts_diff n j (b - a))) (fun x => tfun a b c x * cder u j x).
Proof.
  intros Hab Hn Hc Hk I H. apply (acts_mult a b n cst g _ (cder u j) c (n / 2) (fun z => cpow (Ci * RtoC (omega a b z)) j * g z)); try assumption.
  - apply hasZ_der; assumption.
  - apply (inZ_scal n (fun z => cpow (Ci * RtoC (omega a b z)) j)). exact I.
  - apply diff_vecZ; assumption.
Qed.
Lemma acts_int a b n (cst : Prop) u g (c : list C) : a < b -> (1 <= n)%nat -> (1 <= length c)%nat -> (cst -> length c = 1%nat) -> hasZ a b u (n / 2) g ->
  acts a b n cst g (cmatmul n (ts_mult n c) (ts_int n (b - a))) (fun x => tfun a b c x * cRInt u a b).
Proof.
  intros Hab Hn Hc Hk H. set (h := fun z : Z => if Z.eqb z 0 then RtoC (b - a) * g 0%Z else RtoC 0).
  apply (acts_mult a b n cst g _ (fun _ => cRInt u a b) c 0 h); try assumption.
  - split; [intros z Hz; unfold h; destruct (Z.eqb_spec z 0); [lia|reflexivity]|]. intros x. rewrite (cint_unique _ _ _ _ (hasZ_int a b u (n / 2) g Hab H)).
    rewrite (zsum_single 0 _ 0%Z) by (try (intros z Hz Hz0); lia). unfold h. cbn [Z.eqb]. rewrite ez_0. ring.
  - intros z Hz. unfold h. destruct (Z.eqb_spec z 0); [lia|reflexivity].
  - apply int_vecZ. exact Hn.
Qed.
Lemma acts_nl a b n (cst : Prop) u g (c : list C) j : a < b -> (1 <= n)%nat -> (1 <= length c)%nat -> (cst -> length c = 1%nat) -> inZ n g -> hasZ a b u (n / 2) g ->
  acts a b n cst g (cmatmul n (cmatmul n (ts_mult n c) (ts_diff n j (b - a))) (ts_agg0 n (b - a))) (fun x => tfun a b c x * cder (nonlocal u) j x).
Proof.
  intros Hab Hn Hc Hk I H. set (g' := fun z => nlsym a b z * g z).
  assert (I' : inZ n g') by (apply (inZ_scal n (nlsym a b)); exact I).
  assert (H' : hasZ a b (nonlocal u) (n / 2) g') by (apply hasZ_nonlocal; assumption).
  destruct (acts_diff a b n cst (nonlocal u) g' c j Hab Hn Hc Hk I' H') as (K & h & X & V & Y). exists K, h. split; [exact X|]. split; [|exact Y].
  rewrite cmatvec_mul, agg_vecZ by exact Hab. exact V.
Qed.
Lemma acts_fold a b n cst g (flag : nat -> bool) (F : nat -> cmat) (w : nat -> R -> C) L w0 k :
  acts a b n cst g L w0 -> (forall j, (j < k)%nat -> if flag j then acts a b n cst g (F j) (w j) else forall x, w j x = RtoC 0) ->
  acts a b n cst g (fold_left (fun L j => if flag j then cmatadd n L (F j) else L) (seq 0 k) L) (fun x => w0 x + csum k (fun j => w j x)).
Proof.
  intros H0. induction k as [|k IH]; intros H.
  - cbn [seq fold_left csum]. apply (acts_ext a b n cst g L w0); [intros x; unfold C0; ring|exact H0].
  - rewrite seq_S, fold_left_app. cbn [fold_left]. cbn [Nat.add]. specialize (IH (fun j Hj => H j (Nat.lt_lt_succ_r _ _ Hj))). specialize (H k (Nat.lt_succ_diag_r k)).
    destruct (flag k).
    + eapply acts_ext; [|apply acts_add; [exact IH|exact H]]. intros x. cbn [csum]. ring.
    + eapply acts_ext; [|exact IH]. intros x. cbn [csum]. rewrite H. ring.
Qed.

Lemma cRInt_ext u v a b : (forall x, u x = v x) -> cRInt u a b = cRInt v a b.
Proof. intros H. unfold cRInt. f_equal; apply RInt_ext; intros x _; rewrite H; reflexivity. Qed.
Lemma raw_acts a b n q v : a < b -> length v = n -> (1 <= n)%nat -> plain v -> tblock_ok a b q ->
  acts a b n (const_block q) (coef v) (ts_raw n (b - a) q) (tblock_op a b q (tfun a b v)).
Proof.
  intros Hab Lv Hn Hp (F1 & F2 & HI). set (u := tfun a b v). set (g := coef v).
  assert (Hl : (1 <= length v)%nat) by lia. destruct (coef_plain v Hl Hp) as [I _]. rewrite Lv in I. fold g in I.
  assert (H : hasZ a b u (n / 2) g) by (rewrite <- Lv; apply hasZ_tfun; exact Hl).
  unfold ts_raw. cbv zeta.
  set (L1 := fold_left _ (seq 0 (length (t_coeffs q))) (czero n)).
  assert (A1 : acts a b n (const_block q) g L1 (fun x => csum (length (t_coeffs q)) (fun j => tfun a b (nth j (t_coeffs q) []) x * cder u j x))).
  { eapply acts_ext; [|apply (acts_fold a b n (const_block q) g (tflag (t_info q)) (fun j => cmatmul n (ts_mult n (nth j (t_coeffs q) [])) (ts_diff n j (b - a)))
       (fun j x => tfun a b (nth j (t_coeffs q) []) x * cder u j x) (czero n) (fun _ => RtoC 0)); [apply acts_zero|]].
    - intros x. cbn beta. ring.
    - intros j Hj. destruct (F1 j Hj) as [Off On]. destruct (tflag (t_info q) j).
      + apply acts_diff; try assumption; [apply On; reflexivity|]. intros C. apply C. apply in_or_app. left. apply nth_In. exact Hj.
      + intros x. unfold tfun. rewrite Off by reflexivity. ring. }
  clearbody L1.
  set (L2 := if t_iflag q then _ else L1).
  assert (A2 : acts a b n (const_block q) g L2 (fun x => csum (length (t_coeffs q)) (fun j => tfun a b (nth j (t_coeffs q) []) x * cder u j x) +
      csum (length (t_ics q)) (fun k => tfun a b (nth k (t_ics q) []) x * cRInt (fun y => tfun a b (nth k (t_ints q) []) y * u y) a b))).
  { unfold L2, tints_ok in *. destruct (t_iflag q).
    - destruct HI as (c & d & E1 & E2 & Lc & One). assert (Hc : const_block q -> length c = 1%nat) by (intros X; apply X; apply in_or_app; right; apply in_or_app; left; rewrite E1; left; reflexivity).
      eapply acts_ext; [|apply acts_add; [exact A1|rewrite E1; cbn [nth]; apply (acts_int a b n (const_block q) u g c Hab Hn Lc Hc H)]].
      intros x. cbn beta. rewrite E1, E2. cbn [length csum nth]. rewrite Cplus_0_l. f_equal. f_equal. apply cRInt_ext. intros y. rewrite One. ring.
    - rewrite HI. eapply acts_ext; [|exact A1]. intros x. cbn [length csum]. unfold C0. ring. }
  clearbody L2.
  apply (acts_fold a b n (const_block q) g (tflag (t_nlinfo q)) (fun j => cmatmul n (cmatmul n (ts_mult n (nth j (t_nlcoeffs q) [])) (ts_diff n j (b - a))) (ts_agg0 n (b - a)))
       (fun j x => tfun a b (nth j (t_nlcoeffs q) []) x * cder (nonlocal u) j x) L2 _ _ A2).
  intros j Hj. destruct (F2 j Hj) as [Off On]. destruct (tflag (t_nlinfo q) j).
  - apply acts_nl; try assumption; [apply On; reflexivity|]. intros C. apply C. apply in_or_app. right. apply in_or_app. right. apply nth_In. exact Hj.
  - intros x. unfold tfun. rewrite Off by reflexivity. ring.
Qed.

(** ** Fourier coefficients *)
Lemma hasZ_tmode a b y : hasZ a b (tmode a b y) (Z.abs_nat y) (fun z => if Z.eqb z y then RtoC 1 else RtoC 0).
Proof.
  split; [intros z Hz; destruct (Z.eqb_spec z y); [lia|reflexivity]|]. intros x. rewrite (zsum_single _ _ y).
  - rewrite Z.eqb_refl. unfold ez, tmode. ring.
  - lia.
  - intros z _ Hz. destruct (Z.eqb_spec z y); [contradiction|]. ring.
Qed.
Lemma hasZ_fourier a b w K h z : a < b -> hasZ a b w K h -> fourier a b w z = h z.
Proof.
  intros Hab H. assert (P := hasZ_mul a b w (tmode a b (- z)) K _ h _ H (hasZ_tmode a b (- z))).
  assert (I := hasZ_int a b _ _ _ Hab P). unfold fourier. rewrite (cint_unique _ _ _ _ I). unfold conv. rewrite (zsum_single _ _ (- z)%Z).
  - rewrite Z.eqb_refl. replace (0 - - z)%Z with z by lia. rewrite !Cmult_assoc, <- RtoC_mult. replace (/ (b - a) * (b - a))%R with 1%R by (field; lra). ring.
  - lia.
  - intros y _ Hy. destruct (Z.eqb_spec y (- z)); [contradiction|]. ring.
Qed.
Lemma vecZ_coef v : (1 <= length v)%nat -> plain v -> vecZ (length v) (coef v) = v.
Proof. intros H P. symmetry. apply coef_plain; assumption. Qed.

Lemma raw_fourier a b n q v i : a < b -> length v = n -> (1 <= n)%nat -> plain v -> tblock_ok a b q -> (i < n)%nat ->
  nth i (cmatvec n (ts_raw n (b - a) q) v) C0 = fourier a b (tblock_op a b q (tfun a b v)) (freq n i).
Proof.
  intros Hab Lv Hn Hp Hq Hi. destruct (raw_acts a b n q v Hab Lv Hn Hp Hq) as (K & h & H & V & _).
  rewrite (hasZ_fourier a b _ K h _ Hab H). assert (E := vecZ_coef v). rewrite Lv in E. rewrite E in V by assumption. rewrite V. apply nth_vecZ. exact Hi.
Qed.
Lemma vecZ_fun a b n h : (1 <= n)%nat -> inZ n h -> hasZ a b (tfun a b (vecZ n h)) (n / 2) h.
Proof.
  intros Hn I. assert (L : length (vecZ n h) = n) by apply mk_length. assert (T := hasZ_tfun a b (vecZ n h)). rewrite L in T. specialize (T Hn).
  refine (hasZ_ext a b _ _ _ _ h (fun x => eq_refl) _ T). intros z. destruct (Z_lt_le_dec (2 * Z.abs z) (Z.of_nat n)) as [X|X]; [apply coef_vecZ; exact X|].
  rewrite I by exact X. assert (P : plain (vecZ n h)).
  { intros Ev. rewrite L in Ev. assert (N0 := nth_vecZ n h 0 ltac:(lia)). unfold C0 in N0. rewrite N0. apply I. unfold freq. destruct (half_cases n) as [[E _]|[_ O]]; [lia|]. unfold Nat.odd in O. rewrite Ev in O. discriminate. }
  assert (Q := coef_plain (vecZ n h)). rewrite L in Q. apply (Q Hn P). exact X.
Qed.
Lemma hasZ_unique a b u w K K' h : hasZ a b u K h -> hasZ a b w K' h -> forall x, u x = w x.
Proof.
  intros [S1 H1] [S2 H2] x. rewrite H1, H2. destruct (Nat.le_ge_cases K K') as [X|X].
  - replace K' with (K + (K' - K))%nat by lia. symmetry. apply zsum_extend. intros z Hz. rewrite S1 by exact Hz. ring.
  - replace K with (K' + (K - K'))%nat by lia. apply zsum_extend. intros z Hz. rewrite S2 by exact Hz. ring.
Qed.
Lemma raw_const a b n q v : a < b -> length v = n -> (1 <= n)%nat -> plain v -> tblock_ok a b q -> const_block q ->
  forall x, tfun a b (cmatvec n (ts_raw n (b - a) q) v) x = tblock_op a b q (tfun a b v) x.
Proof.
  intros Hab Lv Hn Hp Hq Hc. destruct (raw_acts a b n q v Hab Lv Hn Hp Hq) as (K & h & H & V & I). specialize (I Hc).
  assert (E := vecZ_coef v). rewrite Lv in E. rewrite E in V by assumption. rewrite V. apply (hasZ_unique a b _ _ _ _ h (vecZ_fun a b n h Hn I) H).
Qed.
Lemma hasZ_minus a b u w K K' h h' : hasZ a b u K h -> hasZ a b w K' h' -> hasZ a b (fun x => u x - w x) (Nat.max K K') (fun z => h z - h' z).
Proof.
  intros H H'. apply (hasZ_ext a b (fun x => u x + RtoC (-1) * w x) _ _ (fun z => h z + RtoC (-1) * h' z)).
  - intros x. ring_simplify. unfold Cminus. f_equal. rewrite <- RtoC_opp || idtac. apply injective_projections; cbn; ring.
  - intros z. apply injective_projections; cbn; ring.
  - apply hasZ_plus; [apply (hasZ_weaken a b u K); [lia|exact H]|apply hasZ_scal, (hasZ_weaken a b w K'); [lia|exact H']].
Qed.
Lemma raw_galerkin a b n q v f : a < b -> length v = n -> length f = n -> (1 <= n)%nat -> plain v -> plain f -> tblock_ok a b q ->
  (cmatvec n (ts_raw n (b - a) q) v = f <->
   forall i, (i < n)%nat -> fourier a b (fun x => tblock_op a b q (tfun a b v) x - tfun a b f x) (freq n i) = RtoC 0).
Proof.
  intros Hab Lv Lf Hn Pv Pf Hq. destruct (raw_acts a b n q v Hab Lv Hn Pv Hq) as (K & h & H & V & _).
  assert (E := vecZ_coef v). rewrite Lv in E. rewrite E in V by assumption. rewrite V.
  assert (F : hasZ a b (tfun a b f) (n / 2) (coef f)) by (rewrite <- Lf; apply hasZ_tfun; lia).
  assert (Ef := vecZ_coef f). rewrite Lf in Ef. specialize (Ef Hn Pf).
  assert (D : forall i, fourier a b (fun x => tblock_op a b q (tfun a b v) x - tfun a b f x) (freq n i) = h (freq n i) - coef f (freq n i)).
  { intros i. apply (hasZ_fourier a b _ _ (fun z => h z - coef f z) _ Hab (hasZ_minus a b _ _ _ _ _ _ H F)). }
  split.
  - intros Eq i Hi. rewrite D. rewrite <- (nth_vecZ n h i Hi), <- (nth_vecZ n (coef f) i Hi), Eq, Ef. ring.
  - intros Z. rewrite <- Ef. apply vecZ_ext. intros i Hi. specialize (Z i Hi). rewrite D in Z.
    replace (h (freq n i)) with (h (freq n i) - coef f (freq n i) + coef f (freq n i)) by ring. rewrite Z. ring.
Qed.
(** ** eliminate_zeros *)
Lemma celim_bound n e M v i : 0 <= e -> (i < n)%nat -> Cmod (nth i (cmatvec n (celim n e M) v) C0 - nth i (cmatvec n M v) C0) <= e * rsum n (fun j => Cmod (nth j v C0)).
Proof.
  intros He Hi. rewrite !nth_cmatvec by exact Hi.
  assert (G : forall k, (k <= n)%nat -> Cmod (csum k (fun j => ment (celim n e M) i j * nth j v C0) - csum k (fun j => ment M i j * nth j v C0)) <= e * rsum k (fun j => Cmod (nth j v C0))).
  { induction k as [|k IH]; intros Hk; cbn [csum rsum].
    - replace (RtoC 0 - RtoC 0) with (RtoC 0) by (ring). rewrite Cmod_0. lra.
    - set (s1 := csum k (fun j => ment (celim n e M) i j * nth j v C0)) in *. set (s2 := csum k (fun j => ment M i j * nth j v C0)) in *.
      replace (s1 + ment (celim n e M) i k * nth k v C0 - (s2 + ment M i k * nth k v C0)) with ((s1 - s2) + (ment (celim n e M) i k - ment M i k) * nth k v C0) by ring.
      eapply Rle_trans; [apply Cmod_triangle|]. rewrite Rmult_plus_distr_l. apply Rplus_le_compat; [apply IH; lia|]. rewrite Cmod_mult. apply Rmult_le_compat_r; [apply Cmod_ge_0|].
      unfold celim. rewrite ment_cmk by lia. destruct (Rlt_dec (Cmod (ment M i k)) e) as [X|X].
      + replace (C0 - ment M i k) with (- ment M i k) by (unfold C0; ring). rewrite Cmod_opp. lra.
      + replace (ment M i k - ment M i k) with (RtoC 0) by ring. rewrite Cmod_0. exact He. }
  apply G. lia.
Qed.
Lemma celim_kept n e M v : kept n e M -> cmatvec n (celim n e M) v = cmatvec n M v.
Proof.
  intros H. apply cmatvec_ext. intros i j Hi Hj. unfold celim. rewrite ment_cmk by assumption. destruct (H i j Hi Hj) as [Z|L]; destruct (Rlt_dec _ e) as [X|X]; try reflexivity.
  - rewrite Z. reflexivity.
  - lra.
Qed.

(** ** systems *)
Lemma nth_concat_mk {A} (d : A) m n (f : nat -> list A) i r : (forall i, (i < m)%nat -> length (f i) = n) -> (i < m)%nat -> (r < n)%nat -> nth (i * n + r) (concat (mk m f)) d = nth r (f i) d.
Proof.
  intros H Hi Hr. apply nth_error_nth. rewrite (nth_error_concat n (mk m f) d).
  - rewrite nth_mk by exact Hi. reflexivity.
  - apply Forall_forall. intros c Hc. unfold mk in Hc. apply in_map_iff in Hc. destruct Hc as (k & <- & Hk). apply in_seq in Hk. apply H. lia.
  - rewrite mk_length. exact Hi.
  - exact Hr.
Qed.
Lemma csum_blocks m n f : csum (m * n) f = csum m (fun j => csum n (fun s => f (j * n + s)%nat)).
Proof.
  induction m as [|m IH]; [reflexivity|]. cbn [csum]. rewrite <- IH. replace (S m * n)%nat with (m * n + n)%nat by lia. apply csum_app.
Qed.
Lemma ts_block_shape adj n len e q r : (r < n)%nat -> length (nth r (ts_block adj n len e q) []) = n.
Proof. intros Hr. unfold ts_block, celim, cmk. rewrite nth_mk by exact Hr. apply mk_length. Qed.
Lemma ts_matrix_entry adj n m len e Q i r j s : (i < m)%nat -> (r < n)%nat -> (j < m)%nat -> (s < n)%nat ->
  ment (ts_matrix adj n m len e Q) (i * n + r) (j * n + s) = ment (ts_block adj n len e (if adj then Q j i else Q i j)) r s.
Proof.
  intros Hi Hr Hj Hs. unfold ment at 1. unfold ts_matrix. cbv zeta. rewrite nth_concat_mk; [|intros; apply mk_length|exact Hi|exact Hr].
  rewrite nth_mk by exact Hr.
  set (G := fun j => nth r (ts_block adj n len e (if adj then Q j i else Q i j)) []).
  replace (map _ _) with (mk m G) by (unfold mk, G; rewrite map_map; reflexivity).
  rewrite nth_concat_mk; [reflexivity| |exact Hj|exact Hs]. intros k Hk. apply ts_block_shape. exact Hr.
Qed.
Lemma ts_matrix_mul (adj : bool) n m len e Q (vs : nat -> list C) i r : (forall j, (j < m)%nat -> length (vs j) = n) -> (i < m)%nat -> (r < n)%nat ->
  nth (i * n + r) (cmatvec (m * n) (ts_matrix adj n m len e Q) (concat (mk m vs))) C0 = csum m (fun j => nth r (cmatvec n (ts_block adj n len e (if adj then Q j i else Q i j)) (vs j)) C0).
Proof.
  intros L Hi Hr. rewrite nth_cmatvec by nia. rewrite csum_blocks. apply csum_ext. intros j Hj. rewrite nth_cmatvec by exact Hr. apply csum_ext. intros s Hs.
  rewrite ts_matrix_entry by assumption. rewrite nth_concat_mk by assumption. reflexivity.
Qed.
Lemma hasZ_csum a b m (ws : nat -> R -> C) : (forall j, (j < m)%nat -> exists K h, hasZ a b (ws j) K h) -> forall k, (k <= m)%nat ->
  exists K h, hasZ a b (fun x => csum k (fun j => ws j x)) K h.
Proof.
  intros H. induction k as [|k IH]; intros Hk.
  - exists 0%nat, (fun _ => RtoC 0). apply (hasZ_zero a b 0).
  - destruct (IH ltac:(lia)) as (K & h & X). destruct (H k ltac:(lia)) as (K' & h' & X'). exists (Nat.max K K'), (fun z => h z + h' z). cbn [csum].
    apply (hasZ_plus a b (fun x => csum k (fun j => ws j x)) (ws k)); [apply (hasZ_weaken a b _ K)|apply (hasZ_weaken a b _ K')]; try assumption; lia.
Qed.
Lemma fourier_csum a b m (ws : nat -> R -> C) z : a < b -> (forall j, (j < m)%nat -> exists K h, hasZ a b (ws j) K h) ->
  fourier a b (fun x => csum m (fun j => ws j x)) z = csum m (fun j => fourier a b (ws j) z).
Proof.
  intros Hab H. assert (G : forall k, (k <= m)%nat -> fourier a b (fun x => csum k (fun j => ws j x)) z = csum k (fun j => fourier a b (ws j) z)); [|apply G; lia].
  induction k as [|k IH]; intros Hk.
  - cbn [csum]. apply (hasZ_fourier a b _ 0 (fun _ => RtoC 0) z Hab (hasZ_zero a b 0)).
  - destruct (hasZ_csum a b m ws H k ltac:(lia)) as (K & h & X). destruct (H k ltac:(lia)) as (K' & h' & X'). cbn [csum]. rewrite <- IH by lia.
    rewrite (hasZ_fourier a b _ K h z Hab X), (hasZ_fourier a b _ K' h' z Hab X').
    apply (hasZ_fourier a b _ (Nat.max K K') (fun z => h z + h' z) z Hab).
    apply (hasZ_plus a b (fun x => csum k (fun j => ws j x)) (ws k)); [apply (hasZ_weaken a b _ K)|apply (hasZ_weaken a b _ K')]; try assumption; lia.
Qed.
Lemma ts_system (adj : bool) a b n m e Q vs i r : a < b -> (1 <= n)%nat ->
  (forall j, (j < m)%nat -> length (vs j) = n /\ plain (vs j)) ->
  (forall i j, (i < m)%nat -> (j < m)%nat -> tblock_ok a b (Q i j) /\ kept n e (ts_raw n (b - a) (Q i j))) -> (i < m)%nat -> (r < n)%nat ->
  nth (i * n + r) (cmatvec (m * n) (ts_matrix adj n m (b - a) e Q) (concat (mk m vs))) C0 =
  fourier a b (fun x => csum m (fun j => tblock_op a b (if adj then Q j i else Q i j) (tfun a b (vs j)) x)) (freq n r).
Proof.
  intros Hab Hn Hv HQ Hi Hr. rewrite ts_matrix_mul by (try assumption; intros j Hj; apply Hv; exact Hj). rewrite fourier_csum.
  - apply csum_ext. intros j Hj. destruct (Hv j Hj) as [Lv Pv]. destruct (HQ i j Hi Hj) as [O K], (HQ j i Hj Hi) as [O' K']. unfold ts_block. destruct adj; [rewrite celim_kept by exact K'; apply raw_fourier; assumption|]. rewrite celim_kept by exact K. apply raw_fourier; assumption.
  - exact Hab.
  - intros j Hj. destruct (Hv j Hj) as [Lv Pv]. assert (O : tblock_ok a b (if adj then Q j i else Q i j)) by (destruct adj; apply HQ; assumption). destruct (raw_acts a b n (if adj then Q j i else Q i j) (vs j) Hab Lv Hn Pv O) as (K & h & X & _). exists K, h. exact X.
Qed.

(** ** aggregation *)
Lemma agg0_exact a b n v M : a < b -> length v = n -> (1 <= n)%nat -> plain v -> ts_agg n 0 (b - a) = Some M ->
  forall x, tfun a b (cmatvec n M v) x = nonlocal (tfun a b v) x.
Proof.
  intros Hab Lv Hn Pv HM. assert (EM : M = ts_agg0 n (b - a)) by (unfold ts_agg0; rewrite HM; reflexivity). rewrite EM.
  assert (Hl : (1 <= length v)%nat) by lia. destruct (coef_plain v Hl Pv) as [I E]. rewrite Lv in I, E. assert (V : cmatvec n (ts_agg0 n (b - a)) v = vecZ n (fun z => nlsym a b z * coef v z)) by (transitivity (cmatvec n (ts_agg0 n (b - a)) (vecZ n (coef v))); [f_equal; exact E|apply agg_vecZ; exact Hab]). rewrite V.
  apply (hasZ_unique a b _ _ (n / 2) (n / 2) (fun z => nlsym a b z * coef v z)).
  - apply vecZ_fun; [exact Hn|]. apply (inZ_scal n (nlsym a b)). exact I.
  - apply hasZ_nonlocal; [exact Hab|]. rewrite <- Lv. apply hasZ_tfun. exact Hl.
Qed.
(** one block *)
Lemma ts_matrix_one (adj : bool) n len e q v : length v = n -> (1 <= n)%nat -> kept n e (ts_raw n len q) ->
  cmatvec n (ts_matrix adj n 1 len e (fun _ _ => q)) v = cmatvec n (ts_raw n len q) v.
Proof.
  intros Lv Hn K. rewrite <- (celim_kept n e (ts_raw n len q) v K). apply cmatvec_ext. intros i j Hi Hj.
  assert (E := ts_matrix_entry adj n 1 len e (fun _ _ => q) 0 i 0 j Nat.lt_0_1 Hi Nat.lt_0_1 Hj). cbn [Nat.mul Nat.add] in E. rewrite E. destruct adj; reflexivity.
Qed.
