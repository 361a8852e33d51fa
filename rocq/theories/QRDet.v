(** Determinants from the QR factorisation and of bordered matrices. *)
From Coq Require Import Reals List Arith Lia Lra Bool Permutation.
From Verif Require Import Base LASpec BordModel BordSpec LABase BordProofs DetSpec DetMath LinModel SwapSpec Swaps QRModel QRSpec QRProofs.
Import ListNotations.
Open Scope R_scope.

(** ** permuted columns *)
Lemma swaps_proper l sw : sorts sw l -> exists sw', sorts sw' l /\ Forall (fun p => fst p <> snd p) sw' /\ (length sw' <= length sw)%nat.
Proof.
  assert (G : forall sw l, Forall (fun p => (fst p < length l)%nat /\ (snd p < length l)%nat) sw -> exists sw', Forall (fun p => (fst p < length l)%nat /\ (snd p < length l)%nat) sw' /\ apply_swaps sw' l = apply_swaps sw l /\ Forall (fun p => fst p <> snd p) sw' /\ (length sw' <= length sw)%nat).
  { clear. induction sw as [|p sw IH]; intros l F; [exists []; auto|]. apply Forall_cons_iff in F. destruct F as [[F1 F2] F].
    assert (Ls := swap_length l (fst p) (snd p)). destruct (IH (swap_at l (fst p) (snd p))) as [sw' [A1 [A2 [A3 A4]]]]; [rewrite Ls; exact F|]. rewrite Ls in A1.
    destruct (Nat.eq_dec (fst p) (snd p)) as [E|E].
    - exists sw'. split; [exact A1|]. split; [|split; [exact A3|cbn; lia]]. change (apply_swaps (p :: sw) l) with (apply_swaps sw (swap_at l (fst p) (snd p))). rewrite <- A2.
      f_equal. apply nat_list_ext; [congruence|]. intros k Hk. rewrite swap_nth by exact Hk. unfold tr. rewrite E. destruct (Nat.eqb_spec k (snd p)); [subst|]; reflexivity.
    - exists (p :: sw'). split; [constructor; auto|]. split; [exact A2|]. split; [constructor; assumption|cbn; lia]. }
  intros [F E]. destruct (G sw l F) as [sw' [A1 [A2 [A3 A4]]]]. exists sw'. split; [split; [exact A1|congruence]|]. split; assumption.
Qed.
Lemma det_swaps n M sw : forall l, length l = n -> (forall k, (k < n)%nat -> (nth k l 0 < n)%nat) -> Forall (fun p => (fst p < n)%nat /\ (snd p < n)%nat) sw -> Forall (fun p => fst p <> snd p) sw ->
  det n (fun i j => M i (nth j (apply_swaps sw l) 0%nat)) = (-1) ^ length sw * det n (fun i j => M i (nth j l 0%nat)).
Proof.
  induction sw as [|p sw IH]; intros l Ll Hl F P; [cbn; ring|]. apply Forall_cons_iff in F, P. destruct F as [[F1 F2] F], P as [P0 P].
  assert (Ls := swap_length l (fst p) (snd p)). change (apply_swaps (p :: sw) l) with (apply_swaps sw (swap_at l (fst p) (snd p))). rewrite IH; [|congruence| |exact F|exact P].
  - cbn [length pow].
    rewrite (det_ext n (fun i j => M i (nth j (swap_at l (fst p) (snd p)) 0%nat)) (colperm (fun i j => M i (nth j l 0%nat)) (trn (fst p) (snd p)))).
    + rewrite (m_swap n n (det n) (det_mla n)) by assumption. ring.
    + intros i j _ Hj. unfold colperm. rewrite swap_nth by congruence. reflexivity.
  - intros k Hk. rewrite swap_nth by congruence. apply Hl. apply (tr_lt n); assumption.
Qed.
Lemma neg1_parity a b : Nat.odd a = Nat.odd b -> (-1) ^ a = (-1) ^ b.
Proof.
  assert (G : forall k, (-1) ^ k = if Nat.odd k then -1 else 1).
  { intros k. destruct (Nat.odd k) eqn:E.
    - apply Nat.odd_spec in E. destruct E as [p ->]. rewrite pow_add, pow_mult. replace ((-1) ^ 2) with 1 by ring. rewrite pow1. ring.
    - rewrite <- Nat.negb_even in E. apply negb_false_iff in E. apply Nat.even_spec in E. destruct E as [p ->]. rewrite pow_mult. replace ((-1) ^ 2) with 1 by ring. apply pow1. }
  intros H. rewrite !G, H. reflexivity.
Qed.
Lemma neg1_sq k : (-1) ^ k * (-1) ^ k = 1.
Proof. rewrite <- Rpow_mult_distr. replace (-1 * -1) with 1 by ring. apply pow1. Qed.
(** det of the matrix whose columns are those of M in the order P *)
Lemma det_perm n M P : Permutation (seq 0 n) P -> exists c, minimumSwaps P = Some c /\ det n (fun i j => M i (nth j P 0%nat)) = (-1) ^ c * det n M.
Proof.
  intros HP. assert (LP := perm_len n P HP). destruct (minimumSwaps_correct P) as [c [E1 [[sw [Lsw Hsw]] [_ Hpar]]]]; [rewrite LP; exact HP|].
  exists c. split; [exact E1|]. destruct (swaps_proper P sw Hsw) as [sw' [S1 [S2 _]]]. rewrite <- (neg1_parity _ _ (Hpar sw' S1 S2)).
  assert (Q := det_swaps n M sw' P LP (perm_lt n P HP)). destruct S1 as [F E]. rewrite LP in F, E. specialize (Q F S2). rewrite E in Q.
  rewrite (det_ext n (fun i j => M i (nth j (seq 0 n) 0%nat)) M) in Q by (intros i j _ Hj; rewrite seq_nth by exact Hj; reflexivity).
  rewrite Q, <- Rmult_assoc, neg1_sq. ring.
Qed.
(** ** the orthogonal factor *)
Definition unit_list (n j : nat) : list R := mk n (fun i => if Nat.eqb i j then 1 else 0).
Definition qmat (n : nat) (hs : list hh) : fmat := fun i j => nth i (ormqr_N hs (unit_list n j)) 0.
Lemma dotp_unit n v j : length v = n -> (j < n)%nat -> dotp v (unit_list n j) = nth j v 0.
Proof.
  intros Lv Hj. unfold dotp, unit_list. rewrite Lv. rewrite (rsum_single n _ j Hj); [rewrite nth_mk, Nat.eqb_refl by exact Hj; ring|].
  intros i Hi Hne. rewrite nth_mk by exact Hi. destruct (Nat.eqb_spec i j); [contradiction|ring].
Qed.
Lemma det_qmat n hs : Forall (reflector n) hs -> det n (qmat n hs) = (-1) ^ length (filter tau_nz hs).
Proof.
  intros F. induction F as [|h hs Hh F IH].
  - cbn [filter length pow]. rewrite (det_ext n _ ident); [apply det_ident|]. intros i j Hi Hj. unfold qmat, ident, unit_list. cbn. rewrite nth_mk by exact Hi. reflexivity.
  - rewrite (det_ext n _ (mmul n (fun i j => ident i j + nth i (snd h) 0 * (- fst h * nth j (snd h) 0)) (qmat n hs))).
    + rewrite det_mul, det_rank1, IH. cbn [filter]. unfold tau_nz at 2. destruct Hh as [Lv Ht]. unfold tau_nz.
      replace (rsum n (fun j => - fst h * nth j (snd h) 0 * nth j (snd h) 0)) with (- fst h * dotp (snd h) (snd h)) by (unfold dotp; rewrite Lv, <- rsum_scal; apply rsum_ext; intros; ring).
      destruct (Req_EM_T (fst h) 0) as [E|E]; [rewrite E; ring|]. destruct Ht as [Ht|Ht]; [contradiction|]. cbn [length pow]. replace (- fst h * dotp (snd h) (snd h)) with (-2) by lra. ring.
    + intros i j Hi Hj. unfold qmat at 1. cbn [ormqr_N fold_right]. fold (ormqr_N hs (unit_list n j)). assert (Lu : length (unit_list n j) = n) by apply mk_length.
      rewrite (hstep_nth n) by (try exact Hh; apply (ormN_length n); assumption). unfold mmul. rewrite (rsum_ext n _ (fun q => ident i q * qmat n hs q j + nth i (snd h) 0 * - fst h * (nth q (snd h) 0 * qmat n hs q j))) by (intros; ring).
      rewrite rsum_plus, rsum_scal. rewrite (rsum_single n _ i Hi) by (intros q _ Hne; unfold ident; destruct (Nat.eqb_spec i q); [congruence|ring]).
      unfold ident. rewrite Nat.eqb_refl. destruct Hh as [Lv _]. unfold dotp. rewrite Lv. unfold qmat. ring.
Qed.
(** columns *)
Lemma orm_col n hs x i : Forall (reflector n) hs -> length x = n -> (i < n)%nat -> nth i (ormqr_N hs x) 0 = rsum n (fun q => qmat n hs i q * nth q x 0).
Proof.
  intros F Lx Hi. assert (Q := orm_mv n hs n ident (qmat n hs) x F). rewrite <- (mv_nth n n (qmat n hs) x i Hi). rewrite Q.
  - f_equal. f_equal. apply vext; [rewrite mv_length; exact Lx|]. intros k Hk. rewrite Lx in Hk. rewrite mv_nth by exact Hk. rewrite (rsum_single n _ k Hk); [unfold ident; rewrite Nat.eqb_refl; ring|].
    intros j _ Hne. unfold ident. destruct (Nat.eqb_spec k j); [congruence|ring].
  - intros j Hj. unfold column, qmat. apply vext; [rewrite mk_length, (ormN_length n); [reflexivity|exact F|apply mk_length]|]. rewrite mk_length. intros k Hk. rewrite nth_mk by exact Hk. reflexivity.
Qed.
(** ** the determinant *)
Lemma sgn_mult_exp n f : prodn n (fun i => sgn (f i)) * exp_sum_log n (fun i => Rabs (f i)) = rprod n f.
Proof.
  unfold exp_sum_log. destruct (forallb _ (seq 0 n)) eqn:E.
  - rewrite forallb_forall in E. assert (H : forall i, (i < n)%nat -> f i <> 0).
    { intros i Hi Z. specialize (E i ltac:(apply in_seq; lia)). rewrite Z, Rabs_R0 in E. destruct (Req_EM_T 0 0); [discriminate|lra]. }
    clear E. induction n as [|n IH]; [cbn; rewrite exp_0; ring|]. cbn [prodn rsum rprod]. rewrite exp_plus, exp_ln by (apply Rabs_pos_lt, H; lia). rewrite <- IH by (intros; apply H; lia).
    assert (S1 : sgn (f n) * Rabs (f n) = f n). { unfold sgn, Rabs. assert (Hn := H n ltac:(lia)). destruct (Rlt_dec (f n) 0), (Rcase_abs (f n)); try lra. destruct (Rlt_dec 0 (f n)); lra. }
    set (p := prodn n (fun i => sgn (f i))). set (x := exp (rsum n (fun i => ln (Rabs (f i))))). rewrite <- S1 at 3. ring.
  - assert (H : exists i, (i < n)%nat /\ f i = 0).
    { clear - E. induction n as [|n IH]; [cbn in E; discriminate|]. rewrite seq_S, forallb_app in E. apply andb_false_iff in E. destruct E as [E|E].
      - destruct (IH E) as [i [Hi Z]]. exists i. split; [lia|exact Z].
      - cbn in E. destruct (Req_EM_T (Rabs (f n)) 0) as [Z|Z]; [|discriminate]. exists n. split; [lia|]. unfold Rabs in Z. destruct (Rcase_abs (f n)); lra. }
    destruct H as [i [Hi Z]]. rewrite Rmult_0_r. symmetry. clear E. induction n as [|n IH]; [lia|]. cbn [rprod]. destruct (Nat.eq_dec i n) as [->|Hne]; [rewrite Z; ring|]. rewrite IH by lia. ring.
Qed.
Lemma filter_removelast h : h <> [] -> fst (last h (0, [])) = 0 -> length (filter tau_nz (removelast h)) = length (filter tau_nz h).
Proof.
  intros Hne Hl. destruct (exists_last Hne) as [l [a E]]. subst h. rewrite removelast_last. rewrite last_last in Hl. rewrite filter_app, app_length. cbn [filter]. assert (E : tau_nz a = false) by (unfold tau_nz; rewrite Hl; destruct (Req_EM_T 0 0); [reflexivity|lra]). rewrite E.
cbn [length]. symmetry. apply Nat.add_0_r.
Qed.
Lemma qr_k_eq m n A h Rm C tol : (m <= n)%nat -> qr_fact m n A h Rm C -> qr_k (qr_new m n h Rm C tol) = length (filter tau_nz h).
Proof.
  intros Hmn [Lh [_ [Hl _]]]. unfold qr_k. cbn [q_rows q_cols q_h qr_new]. destruct (Nat.leb_spec m n); [|lia]. destruct h as [|x h]; [reflexivity|]. apply filter_removelast; [discriminate|exact Hl].
Qed.
(** square matrices *)
Lemma qr_det_square n A h Rm C tol : qr_fact n n A h Rm C -> qr_det (qr_new n n h Rm C tol) = Some (det n A).
Proof.
  intros HF. assert (HP := q_perm n A h Rm C HF). assert (Hr := q_refl n A h Rm C HF).
  assert (PP : Permutation (seq 0 n) (argsort C)).
  { apply NoDup_Permutation_bis; [apply seq_NoDup|rewrite seq_length, (argsort_len n C HP); lia|]. intros j Hj. apply in_seq in Hj. rewrite <- (argsort_C n C HP j) by lia. apply nth_In. rewrite (argsort_len n C HP). apply (perm_lt n C HP). lia. }
  unfold qr_det, qr_det_sign, qr_swaps. cbn [q_rows q_cols q_P q_R qr_new]. rewrite (qr_k_eq n n A h Rm C tol) by (try lia; exact HF). rewrite Nat.ltb_irrefl. unfold diag_len. cbn [q_rows q_cols qr_new]. rewrite Nat.min_id.
  destruct (det_perm n (mmul n (qmat n h) Rm) (argsort C) PP) as [c [E1 E2]]. rewrite E1. f_equal.
  rewrite Rmult_assoc, sgn_mult_exp. rewrite <- (det_upper n Rm) by (intros i j; apply HF). rewrite pow_add, <- (det_qmat n h Hr).
  rewrite det_mul in E2. replace (det n (qmat n h) * (-1) ^ c * det n Rm) with ((-1) ^ c * (det n (qmat n h) * det n Rm)) by ring. rewrite <- E2.
  apply det_ext. intros i j Hi Hj. destruct (C_argsort n C HP j Hj) as [L1 L2]. destruct HF as [_ [_ [_ [_ [_ Hc]]]]]. assert (Q := f_equal (fun l => nth i l 0) (Hc _ L1)). cbn beta in Q. rewrite L2 in Q.
  unfold column in Q at 1. rewrite nth_mk in Q by exact Hi. rewrite Q. rewrite (orm_col n) by (try exact Hr; try exact Hi; apply mk_length). unfold mmul, column. apply rsum_ext. intros q Hq. rewrite nth_mk by exact Hq. reflexivity.
Qed.
(** ** bordered matrices *)
Lemma det_last_col n A : (forall i, (i < n)%nat -> A i n = 0) -> det (S n) A = A n n * det n A.
Proof.
  intros H. cbn [det rsum]. rewrite rsum_zero.
  - rewrite Rplus_0_l. replace ((-1) ^ (n + n)) with 1 by (replace (n + n)%nat with (2 * n)%nat by lia; rewrite pow_mult; replace ((-1) ^ 2) with 1 by ring; symmetry; apply pow1).
    rewrite Rmult_1_l. f_equal. apply det_ext. intros i j Hi Hj. unfold dropcol. destruct (Nat.ltb_spec j n); [reflexivity|lia].
  - intros j Hj. destruct n as [|n]; [lia|]. rewrite (m_zero (S n) (S n) (det (S n)) (det_mla (S n)) (dropcol A j) n); [ring|lia|].
    intros i Hi. unfold dropcol. destruct (Nat.ltb_spec n j); [lia|]. apply H, Hi.
Qed.
Lemma det_bord n A b c d beta : length b = n -> length c = n -> length beta = n -> mv n n A beta = c -> det (S n) (bord n A b c d) = det n A * (d - dotp b beta).
Proof.
  intros Lb Lc Lbe E. set (M := bord n A b c d). set (x := fun q => if Nat.eqb q n then 1 else - nth q beta 0).
  assert (Cr := m_cramer (S n) (S n) (det (S n)) (det_mla (S n)) M n x ltac:(lia)). unfold x at 2 in Cr. rewrite Nat.eqb_refl, Rmult_1_l in Cr. rewrite <- Cr.
  assert (V : forall i, (i < S n)%nat -> rsum (S n) (fun q => M i q * x q) = if Nat.eqb i n then d - dotp b beta else 0).
  { intros i Hi. cbn [rsum]. unfold x at 2. rewrite Nat.eqb_refl. rewrite (rsum_ext n _ (fun q => - (M i q * nth q beta 0))) by (intros q Hq; unfold x; destruct (Nat.eqb_spec q n); [lia|ring]).
    rewrite rsum_opp. unfold M, bord. rewrite Nat.ltb_irrefl. destruct (Nat.ltb_spec i n) as [H|H].
    - destruct (Nat.eqb_spec i n); [lia|]. rewrite (rsum_ext n _ (fun q => A i q * nth q beta 0)) by (intros q Hq; destruct (Nat.ltb_spec q n); [reflexivity|lia]).
      assert (Q := f_equal (fun l => nth i l 0) E). cbn beta in Q. rewrite mv_nth in Q by exact H. rewrite Q. ring.
    - destruct (Nat.eqb_spec i n); [|lia]. rewrite (rsum_ext n _ (fun q => nth q b 0 * nth q beta 0)) by (intros q Hq; destruct (Nat.ltb_spec q n); [reflexivity|lia]). unfold dotp. rewrite Lb. ring. }
  rewrite det_last_col.
  - unfold setcol at 1. rewrite Nat.eqb_refl, V, Nat.eqb_refl by lia. rewrite Rmult_comm. f_equal. apply det_ext. intros i j Hi Hj. unfold setcol, M, bord. destruct (Nat.eqb_spec j n); [lia|]. destruct (Nat.ltb_spec i n), (Nat.ltb_spec j n); try lia. reflexivity.
  - intros i Hi. unfold setcol. rewrite Nat.eqb_refl, V by lia. destruct (Nat.eqb_spec i n); [lia|reflexivity].
Qed.
Lemma bem_det_correct n A s b c d : exact_solver n A s -> s_det s = det n A -> length b = n -> length c = n -> bem_det (bem_new s b c d) = det (S n) (bord n A b c d).
Proof.
  intros [S0 [S1 S2]] Hdet Lb Lc. destruct (S1 c Lc) as [L E]. unfold bem_det, bem_new. rewrite S0. cbn. rewrite Hdet. symmetry. apply det_bord; assumption.
Qed.
(** ** one column more than rows *)
Lemma argmax_spec l : l <> [] -> let '(i, mx) := argmax l in (i < length l)%nat /\ nth i l 0%nat = mx /\ forall k, (k < length l)%nat -> (nth k l 0 <= mx)%nat.
Proof.
  induction l as [|x l IH]; intros H; [contradiction|]. destruct l as [|y l].
  - cbn [argmax length]. split; [lia|]. split; [reflexivity|]. intros k Hk. assert (k = 0%nat) by lia. subst k. cbn. lia.
  - assert (IH' := IH ltac:(discriminate)). change (argmax (x :: y :: l)) with (let '(i, m) := argmax (y :: l) in if Nat.leb m x then (0, x)%nat else (S i, m)).
    destruct (argmax (y :: l)) as [i mx]. destruct IH' as [I1 [I2 I3]]. destruct (Nat.leb_spec mx x) as [L|L].
    + split; [cbn; lia|]. split; [reflexivity|]. intros k Hk. destruct k as [|k]; [cbn; lia|]. cbn [length nth] in *. specialize (I3 k ltac:(lia)). lia.
    + split; [cbn [length] in *; lia|]. split; [exact I2|]. intros k Hk. destruct k as [|k]; [cbn; lia|]. cbn [length nth] in *. apply (I3 k). lia.
Qed.
Lemma nth_delete_at (l : list nat) i k : (i < length l)%nat -> nth k (delete_at l i) 0%nat = nth (if Nat.ltb k i then k else S k) l 0%nat.
Proof.
  intros Hi. unfold delete_at. assert (Lf : length (firstn i l) = i) by (rewrite firstn_length; lia). destruct (Nat.ltb_spec k i) as [H|H].
  - rewrite app_nth1 by lia. rewrite <- (firstn_skipn i l) at 2. rewrite app_nth1 by lia. reflexivity.
  - rewrite app_nth2 by lia. rewrite Lf. rewrite <- (firstn_skipn (S i) l) at 2. assert (Lf' : length (firstn (S i) l) = S i) by (rewrite firstn_length; lia).
    rewrite app_nth2 by lia. rewrite Lf'. replace (S k - S i)%nat with (k - i)%nat by lia. reflexivity.
Qed.
Lemma argsort_perm n C : Permutation (seq 0 n) C -> Permutation (seq 0 n) (argsort C).
Proof.
  intros HP. apply NoDup_Permutation_bis; [apply seq_NoDup|rewrite seq_length, (argsort_len n C HP); lia|]. intros j Hj. apply in_seq in Hj. rewrite <- (argsort_C n C HP j) by lia. apply nth_In. rewrite (argsort_len n C HP). apply (perm_lt n C HP). lia.
Qed.
Lemma qr_det_rect m A h Rm C tol : qr_fact m (S m) A h Rm C -> qr_det (qr_new m (S m) h Rm C tol) = Some (det m (dropcol A (nth m C 0%nat))).
Proof.
  intros HF. set (n := S m) in *. assert (HP : Permutation (seq 0 n) C) by apply HF. assert (Hr : Forall (reflector m) h) by apply HF. assert (PP := argsort_perm n C HP).
  assert (LP := argsort_len n C HP). set (P := argsort C) in *. set (cs := nth m C 0%nat).
  assert (Hcs : (cs < n)%nat) by (apply (perm_lt n C HP); unfold n; lia). assert (Pcs : nth cs P 0%nat = m) by (apply (argsort_C n C HP); unfold n; lia).
  assert (NDP : NoDup P) by apply (perm_nd n P PP).
  assert (EA : fst (argmax P) = cs).
  { assert (Sp := argmax_spec P). destruct (argmax P) as [i mx]. cbn [fst]. destruct Sp as [I1 [I2 I3]]; [intros Z; rewrite Z in LP; discriminate|]. rewrite LP in I1, I3.
    assert (Q := I3 cs Hcs). rewrite Pcs in Q. assert (Q2 := perm_lt n P PP i I1). rewrite I2 in Q2. assert (mx = m) by (unfold n in Q2; lia).
    apply (proj1 (NoDup_nth P 0%nat) NDP); [congruence|congruence|]. congruence. }
  set (P' := delete_at P cs). set (sk := fun k => if Nat.ltb k cs then k else S k).
  assert (Hsk : forall k, (k < m)%nat -> (sk k < n)%nat /\ sk k <> cs) by (intros k Hk; unfold sk, n; destruct (Nat.ltb_spec k cs); lia).
  assert (NP' : forall k, nth k P' 0%nat = nth (sk k) P 0%nat) by (intros k; apply nth_delete_at; rewrite LP; exact Hcs).
  assert (LP' : length P' = m) by (unfold P', delete_at; rewrite app_length, firstn_length, skipn_length, LP; unfold n in *; lia).
  assert (PV : forall k, (k < m)%nat -> (nth k P' 0 < m)%nat).
  { intros k Hk. destruct (Hsk k Hk) as [S1 S2]. rewrite NP'. assert (Q := perm_lt n P PP _ S1). assert (nth (sk k) P 0%nat <> m); [|unfold n in Q; lia].
    intros Z. apply S2. apply (proj1 (NoDup_nth P 0%nat) NDP); [rewrite LP; exact S1|rewrite LP; exact Hcs|congruence]. }
  assert (PP' : Permutation (seq 0 m) P').
  { symmetry. apply NoDup_Permutation_bis.
    - apply NoDup_nth with (d := 0%nat). rewrite LP'. intros i j Hi Hj E. rewrite !NP' in E. destruct (Hsk i Hi) as [I1 _], (Hsk j Hj) as [J1 _]. apply (proj1 (NoDup_nth P 0%nat) NDP) in E; [|rewrite LP; assumption|rewrite LP; assumption].
      unfold sk in E. destruct (Nat.ltb_spec i cs), (Nat.ltb_spec j cs); lia.
    - rewrite seq_length. lia.
    - intros x Hx. apply (In_nth _ _ 0%nat) in Hx. destruct Hx as [k [Hk <-]]. apply in_seq. rewrite LP' in Hk. specialize (PV k Hk). lia. }
  unfold qr_det, qr_det_sign, qr_swaps. cbn [q_rows q_cols q_P q_R qr_new]. fold P. rewrite (qr_k_eq m n A h Rm C tol) by (try (unfold n; lia); exact HF). destruct (Nat.ltb_spec m n) as [_|Z]; [|unfold n in Z; lia].
  rewrite EA. fold P'. unfold diag_len. cbn [q_rows q_cols qr_new]. rewrite Nat.min_l by (unfold n; lia).
  destruct (det_perm m (mmul m (qmat m h) Rm) P' PP') as [c [E1 E2]]. rewrite E1. f_equal.
  rewrite Rmult_assoc, sgn_mult_exp. rewrite <- (det_upper m Rm) by (intros i j; apply HF). rewrite pow_add, <- (det_qmat m h Hr).
  rewrite det_mul in E2. replace (det m (qmat m h) * (-1) ^ c * det m Rm) with ((-1) ^ c * (det m (qmat m h) * det m Rm)) by ring. rewrite <- E2.
  apply det_ext. intros i j Hi Hj. rewrite NP'. unfold dropcol. fold (sk j). destruct (Hsk j Hj) as [S1 _]. destruct (C_argsort n C HP (sk j) S1) as [L1 L2]. fold P in L1, L2. destruct HF as [_ [_ [_ [_ [_ Hc]]]]].
  assert (Q := f_equal (fun l => nth i l 0) (Hc _ L1)). cbn beta in Q. rewrite L2 in Q.
  unfold column in Q at 1. rewrite nth_mk in Q by exact Hi. rewrite Q. rewrite (orm_col m) by (try exact Hr; try exact Hi; apply mk_length). unfold mmul, column. apply rsum_ext. intros q Hq. rewrite nth_mk by exact Hq. reflexivity.
Qed.
(** ** the bordered solver on top of QR *)
Lemma qr_exact n A h Rm C tol : qr_fact n n A h Rm C -> 0 < tol -> (1 <= n)%nat -> (forall i, (i < n)%nat -> Rabs (Rm (n - 1)%nat (n - 1)%nat) <= Rabs (Rm i i)) ->
  tol <= Rabs (Rm (n - 1)%nat (n - 1)%nat) -> exact_solver n A (qr_solver (qr_new n n h Rm C tol)) /\ s_det (qr_solver (qr_new n n h Rm C tol)) = det n A.
Proof.
  intros HF Ht Hn Hpiv Hreg. assert (Hd : forall i, (i < n)%nat -> Rm i i <> 0) by (intros i Hi Z; specialize (Hpiv i Hi); rewrite Z, Rabs_R0 in Hpiv; lra).
  split; [|cbn; rewrite (qr_det_square n A h Rm C tol HF); reflexivity]. split; [|split].
  - cbn. unfold qr_sing. cbn [q_rows q_cols q_R q_tol qr_new]. destruct (Rlt_dec _ _); [lra|reflexivity].
  - intros f Lf. apply (qr_solve_ok n A h Rm C tol HF); assumption.
  - intros f Lf. apply (qr_solve_adj_ok n A h Rm C tol HF); assumption.
Qed.
Lemma qr_exact_singular m A h Rm C tol : let n := S m in qr_fact n n A h Rm C -> 0 < tol -> (forall i, (i < m)%nat -> Rm i i <> 0) -> Rm m m = 0 ->
  exact_singular n A (qr_solver (qr_new n n h Rm C tol)).
Proof.
  intros n HF Ht Hd Hz. set (s := qr_new n n h Rm C tol). assert (HP := q_perm n A h Rm C HF).
  assert (Hphi := qr_null_phi m A h Rm C tol HF Hd). assert (Hpsi := qr_null_psi m A h Rm C tol HF).
  assert (Hpart := fun b L => qr_part m A h Rm C tol HF Hd b L). assert (Hpa := fun b L => qr_part_adj m A h Rm C tol HF Hd b L). fold n s in Hphi, Hpsi, Hpart, Hpa. cbv zeta in Hpart, Hpa.
  split; [cbn; unfold qr_sing; cbn [q_rows q_cols q_R q_tol s qr_new]; replace (n - 1)%nat with m by (unfold n; lia); rewrite Hz, Rabs_R0; destruct (Rlt_dec 0 tol); [reflexivity|lra]|].
  cbn [qr_solver s_null s_part s_part_adj]. destruct (qr_null s) as [phi psi]. cbn [fst snd] in *. destruct Hphi as [Lp [P1 P2]], Hpsi as [Lq [Q1 Q2]].
  split; [exact Lp|]. split; [exact Lq|]. split; [intros Z; rewrite Z, nth_zeros in P1; lra|]. split; [intros Z; rewrite Z, dotp_zeros_r in Q1; lra|].
  assert (K : forall x y : list R, length x = n -> length y = n -> (forall k, (k < n)%nat -> nth (nth k C 0%nat) x 0 = nth (nth k C 0%nat) y 0) -> x = y).
  { intros x y Lx Ly E. apply (gather_inj n A h Rm C HF); try assumption. unfold gather. apply map_ext_in. intros c Hc. apply (In_nth _ _ 0%nat) in Hc. destruct Hc as [k [Hk <-]]. rewrite (perm_len n C HP) in Hk. apply E, Hk. }
  split; [rewrite P2, Hz; apply vext; [rewrite vscal_length, zeros_length; exact Lq|]; intros i _; rewrite nth_vscal, nth_zeros; ring|].
  split; [apply K; [apply mv_length|apply zeros_length|]; intros k Hk; rewrite Q2, nth_zeros by exact Hk; rewrite Hz; destruct (Nat.eqb k m); reflexivity|].
  split; intros f Lf Hf.
  - destruct (Hpart f Lf) as [_ Hx]. rewrite Hf, Rabs_R0 in Hx. destruct (Hx ltac:(lra)) as [x [-> [Lx Ex]]]. split; [exact Lx|]. rewrite Ex.
    apply vext; [rewrite vsub_length; rewrite ?vscal_length; congruence|]. intros i _. rewrite nth_vsub, nth_vscal by (rewrite vscal_length; congruence). ring.
  - destruct (Hpa f Lf) as [Hy Hn]. rewrite Hf in Hy, Hn. rewrite Ropp_0, ?Rabs_R0 in *. destruct (qr_particular_adj s f) as [y|]; [|exfalso; destruct Hn as [Hn _]; specialize (Hn eq_refl); lra].
    destruct (Hy y eq_refl) as [Ly [_ Ey]]. split; [exact Ly|]. apply K; [apply mv_length|exact Lf|]. intros k Hk. rewrite Ey by exact Hk. destruct (Nat.eqb k m); ring.
Qed.

(** ** statements *)
Lemma qr_solve_thm n A h Rm C tol b : qr_fact n n A h Rm C -> (forall i, (i < n)%nat -> Rm i i <> 0) -> length b = n ->
  solves n A (qr_solve (qr_new n n h Rm C tol) b) b.
Proof. intros HF. apply (qr_solve_ok n A h Rm C tol HF). Qed.
Lemma qr_solve_adj_thm n A h Rm C tol b : qr_fact n n A h Rm C -> (forall i, (i < n)%nat -> Rm i i <> 0) -> length b = n ->
  solves n (transp A) (qr_solve_adj (qr_new n n h Rm C tol) b) b.
Proof. intros HF. apply (qr_solve_adj_ok n A h Rm C tol HF). Qed.
Lemma qr_null_right_thm m A h Rm C tol : let n := S m in qr_fact n n A h Rm C -> (forall i, (i < m)%nat -> Rm i i <> 0) ->
  let '(phi, psi) := qr_null (qr_new n n h Rm C tol) in length phi = n /\ phi <> zeros n /\ mv n n A phi = vscal (- Rm m m) psi.
Proof.
  intros n HF Hd. assert (Q := qr_null_phi m A h Rm C tol HF Hd). fold n in Q. destruct (qr_null (qr_new n n h Rm C tol)) as [phi psi]. destruct Q as [Q1 [Q2 Q3]]. split; [exact Q1|]. split; [|exact Q3].
  intros Z. rewrite Z, nth_zeros in Q2. lra.
Qed.
Lemma qr_null_left_thm m A h Rm C tol : let n := S m in qr_fact n n A h Rm C ->
  let '(phi, psi) := qr_null (qr_new n n h Rm C tol) in length psi = n /\ dotp psi psi = 1 /\
    forall i, (i < n)%nat -> nth i (mv n n (transp A) psi) 0 = if Nat.eqb i (nth m C 0%nat) then Rm m m else 0.
Proof.
  intros n HF. assert (Q := qr_null_psi m A h Rm C tol HF). fold n in Q. destruct (qr_null (qr_new n n h Rm C tol)) as [phi psi]. destruct Q as [Q1 [Q2 Q3]]. split; [exact Q1|]. split; [exact Q2|].
  intros i Hi. assert (HP : Permutation (seq 0 n) C) by apply HF. destruct (C_argsort n C HP i Hi) as [L1 L2]. specialize (Q3 _ L1). rewrite L2 in Q3. rewrite Q3.
  destruct (Nat.eqb_spec (nth i (argsort C) 0%nat) m) as [E|E], (Nat.eqb_spec i (nth m C 0%nat)) as [E'|E']; try reflexivity; exfalso.
  - apply E'. rewrite <- E. symmetry. exact L2.
  - apply E. rewrite E'. apply (argsort_C n C HP). unfold n. lia.
Qed.
Lemma qr_particular_thm m A h Rm C tol b : let n := S m in let s := qr_new n n h Rm C tol in qr_fact n n A h Rm C -> (forall i, (i < m)%nat -> Rm i i <> 0) -> length b = n ->
  let psi := snd (qr_null s) in let r := dotp psi b in
  (tol < Rabs r -> qr_particular s b = None) /\
  (Rabs r <= tol -> exists x, qr_particular s b = Some x /\ length x = n /\ mv n n A x = vsub b (vscal r psi)).
Proof. intros n s HF Hd Lb. apply (qr_part m A h Rm C tol HF Hd b Lb). Qed.
Lemma qr_particular_adj_thm m A h Rm C tol b : let n := S m in let s := qr_new n n h Rm C tol in qr_fact n n A h Rm C -> (forall i, (i < m)%nat -> Rm i i <> 0) -> length b = n ->
  let r := dotp (fst (qr_null s)) b in
  (tol < Rabs r -> qr_particular_adj s b = None) /\
  (Rabs r <= tol -> exists y, qr_particular_adj s b = Some y /\ length y = n /\
    forall i, (i < n)%nat -> nth i (mv n n (transp A) y) 0 = nth i b 0 + (if Nat.eqb i (nth m C 0%nat) then r else 0)).
Proof.
  intros n s HF Hd Lb. cbv zeta. destruct (qr_part_adj m A h Rm C tol HF Hd b Lb) as [Q1 Q2]. fold n in Q1, Q2. fold s in Q1, Q2. rewrite Rabs_Ropp in Q2. split; [apply Q2|].
  intros Hr. destruct (qr_particular_adj s b) as [y|] eqn:Ey; [|exfalso; assert (tol < Rabs (dotp (fst (qr_null s)) b)) by (apply Q2; reflexivity); lra].
  exists y. split; [reflexivity|]. destruct (Q1 y eq_refl) as [Ly [_ E]]. split; [exact Ly|]. intros i Hi. assert (HP : Permutation (seq 0 n) C) by apply HF.
  destruct (C_argsort n C HP i Hi) as [L1 L2]. specialize (E _ L1). rewrite L2 in E. rewrite E. f_equal. rewrite Ropp_involutive.
  destruct (Nat.eqb_spec (nth i (argsort C) 0%nat) m) as [E1|E1], (Nat.eqb_spec i (nth m C 0%nat)) as [E'|E']; try reflexivity; exfalso.
  - apply E'. rewrite <- E1. symmetry. exact L2.
  - apply E1. rewrite E'. apply (argsort_C n C HP). unfold n. lia.
Qed.
