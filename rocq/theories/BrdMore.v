(** brd_solve.py: BMatrix; nullspace.py; logdet; refutations. *)
From Coq Require Import Reals List Arith Lia Lra Bool Permutation.
From Verif Require Import Base LASpec BordModel BordSpec LABase BordProofs DetSpec DetMath LinModel LinProofs SwapSpec Swaps QRModel QRSpec QRProofs QRDet CholProofs CholDet BrdModel BrdSpec BrdProofs.
Import ListNotations.
Open Scope R_scope.

Lemma usolve_ext n U : forall f g, (forall i, (i < n)%nat -> f i = g i) -> usolve n U f = usolve n U g.
Proof.
  induction n as [|n IH]; intros f g H; [reflexivity|]. cbn [usolve]. rewrite (H n) by lia. f_equal. apply IH. intros i Hi. rewrite (H i) by lia. reflexivity.
Qed.
Definition bm_new (n : nat) (h : list hh) (Rm : rmat) (C : list nat) (b c : list R) (d : R) : bmat :=
  {| m_n := n; m_h := h; m_R := Rm; m_C := C; m_b := b; m_c := c; m_d := d |}.
(** ** BMatrix, A non-singular *)
Section bmn.
  Variables (n : nat) (A : rmat) (h : list hh) (Rm : rmat) (C : list nat).
  Hypothesis HF : qr_fact n n A h Rm C.
  Hypothesis Hd : forall i, (i < n)%nat -> Rm i i <> 0.
  Variables (b c : list R) (d : R).
  Hypothesis Lb : length b = n.
  Hypothesis Lc : length c = n.
  Let s := bm_new n h Rm C b c d.
  Let beta := utsolve n Rm (fun i => nth i (gather b C) 0).
  Let gamma := ormqr_T h c.
  Let delta := d - dotp beta gamma.
  Lemma bm_HP : Permutation (seq 0 n) C. Proof. apply HF. Qed.
  Lemma bm_Hr : Forall (reflector n) h. Proof. apply HF. Qed.
  Lemma bm_up : upper n Rm. Proof. intros i j Hi Hj. apply HF; assumption. Qed.
  Lemma bm_lg : length gamma = n. Proof. apply (ormT_length n h c bm_Hr Lc). Qed.
  Lemma bm_img g : length g = n -> let x := gather (usolve n Rm (fun i => nth i g 0)) (argsort C) in
    length x = n /\ mv n n A x = ormqr_N h g /\ dotp b x = dotp beta g.
  Proof.
    intros Lg x. set (chi := usolve n Rm (fun i => nth i g 0)) in x. assert (HP := bm_HP).
    assert (Ec : mv n n Rm chi = g). { apply vext; [rewrite mv_length; congruence|]. rewrite mv_length. intros i Hi. rewrite mv_nth by exact Hi. apply (usolve_correct n Rm bm_up Hd). exact Hi. }
    split; [unfold x; rewrite gather_length; apply argsort_len, HP|]. split.
    - unfold x. rewrite (qr_mv_mn n n A h Rm C chi HF), Ec. reflexivity.
    - unfold dotp. rewrite Lb. unfold x. rewrite (gather_argsort_sum n C HP (fun j => nth j b 0) chi). unfold beta. rewrite utsolve_length. fold beta.
      rewrite (rsum_ext n _ (fun k => rsum n (fun l => nth l beta 0 * (Rm l k * nth k chi 0)))).
      2:{ intros k Hk. replace (nth (nth k C 0%nat) b 0) with (nth k (gather b C) 0) by (apply nth_gather; rewrite (perm_len n C HP); exact Hk).
          rewrite <- (utsolve_correct n Rm (fun i => nth i (gather b C) 0) bm_up Hd k Hk). fold beta. rewrite <- rsum_scal_r. apply rsum_ext. intros. ring. }
      rewrite rsum_swap. apply rsum_ext. intros l Hl. rewrite rsum_scal. transitivity (nth l beta 0 * nth l (mv n n Rm chi) 0); [rewrite mv_nth by exact Hl; reflexivity|rewrite Ec; reflexivity].
  Qed.
  Lemma bm_core f t : length f = n -> delta <> 0 -> let z := (t - dotp beta (ormqr_T h f)) / delta in
    solves (S n) (bord n A b c d) (gather (usolve n Rm (fun i => nth i (vsub (ormqr_T h f) (vscal z gamma)) 0)) (argsort C) ++ [z]) (f ++ [t]).
  Proof.
    intros Lf Hdl z. assert (Hr := bm_Hr). assert (Lg := bm_lg). assert (Lfh := ormT_length n h f Hr Lf). assert (Lv : length (vsub (ormqr_T h f) (vscal z gamma)) = n) by (rewrite vsub_length; rewrite ?vscal_length; congruence).
    destruct (bm_img _ Lv) as [Lx [E1 E2]]. match type of Lx with length ?t = _ => set (x := t) in * end. split; [rewrite app_length, Lx; cbn; lia|]. rewrite mv_bord by assumption. f_equal.
    - rewrite E1. assert (Eg : vsub (ormqr_T h f) (vscal z gamma) = vadd (ormqr_T h f) (vscal (- z) gamma)).
      { apply vext; [rewrite vsub_length, vadd_length; rewrite ?vscal_length; congruence|]. intros i _. rewrite nth_vsub, nth_vadd, !nth_vscal by (rewrite vscal_length; congruence). ring. }
      rewrite Eg, (ormN_add n) by (try assumption; rewrite vscal_length; exact Lg). rewrite (ormN_scal n) by assumption. unfold gamma. rewrite !(ormN_T n) by assumption.
      apply vext; [rewrite !vadd_length; rewrite ?vadd_length; rewrite ?vscal_length; congruence|]. intros i _. rewrite !nth_vadd, !nth_vscal by (rewrite ?vadd_length; rewrite ?vscal_length; congruence). ring.
    - rewrite E2. rewrite dotp_vsub_r, dotp_vscal_r by (rewrite vscal_length; congruence). f_equal. unfold z.
      replace (d * ((t - dotp beta (ormqr_T h f)) / delta)) with ((delta + dotp beta gamma) * ((t - dotp beta (ormqr_T h f)) / delta)) by (unfold delta; ring). field. exact Hdl.
  Qed.
  Lemma bm_delta : nonsingular (S n) (bord n A b c d) -> delta <> 0.
  Proof.
    intros HN Z. assert (Hr := bm_Hr). assert (Lg := bm_lg). assert (Lv : length (vscal (-1) gamma) = n) by (rewrite vscal_length; exact Lg).
    destruct (bm_img _ Lv) as [Lx [E1 E2]]. match type of Lx with length ?t = _ => set (x := t) in * end. assert (Q : x ++ [1] = zeros (S n)).
    { apply HN; [rewrite app_length, Lx; cbn; lia|]. rewrite mv_bord by assumption. rewrite zeros_S. f_equal.
      - rewrite E1, (ormN_scal n) by assumption. unfold gamma. rewrite (ormN_T n) by assumption. apply vext; [rewrite vadd_length; rewrite ?vscal_length, ?zeros_length; congruence|]. intros i _. rewrite nth_vadd, !nth_vscal, nth_zeros by (rewrite !vscal_length; congruence). ring.
      - rewrite E2. rewrite dotp_vscal_r. f_equal. unfold delta in Z. lra. }
    rewrite zeros_S in Q. apply snoc_inj in Q. destruct Q as [_ Q]. lra.
  Qed.
  Lemma bm_nonsing_ok r : length r = S n -> nonsingular (S n) (bord n A b c d) ->
    solves (S n) (bord n A b c d) (bm_solve_nonsingular s r) r /\ solves (S n) (bord n A b c d) (bm_solve_null_nonsingular s) (zeros n ++ [1]).
  Proof.
    intros Lr HN. apply bm_delta in HN. destruct (snoc_split r n Lr) as [f [t [-> [Lf [R0 R1]]]]]. split.
    - unfold bm_solve_nonsingular. cbn [m_n m_h m_R m_C m_b m_c m_d s bm_new]. rewrite R0, R1. fold beta gamma delta. apply bm_core; assumption.
    - unfold bm_solve_null_nonsingular. cbn [m_n m_h m_R m_C m_b m_c m_d s bm_new]. fold beta gamma delta. assert (Hr := bm_Hr). assert (Lg := bm_lg).
      assert (Zt : ormqr_T h (zeros n) = zeros n).
      { assert (E : ormqr_N h (zeros n) = zeros n).
        { assert (E0 : zeros n = vscal 0 (zeros n)) by (apply vext; [rewrite vscal_length; reflexivity|]; intros i _; rewrite nth_vscal, nth_zeros; ring). rewrite E0 at 1. rewrite (ormN_scal n) by (try exact Hr; apply zeros_length).
          apply vext; [rewrite vscal_length, (ormN_length n), zeros_length; auto using zeros_length|]. intros i _. rewrite nth_vscal, nth_zeros. ring. }
        rewrite <- E at 1. apply (ormT_N n); [exact Hr|apply zeros_length]. }
      assert (Q := bm_core (zeros n) 1 (zeros_length n) HN). cbv zeta in Q. rewrite Zt, dotp_zeros_r, Rminus_0_r in Q.
      assert (E : vsub (zeros n) (vscal (1 / delta) gamma) = vscal (- (1 / delta)) gamma).
      { apply vext; [rewrite vsub_length; rewrite ?vscal_length, zeros_length; congruence|]. intros i _. rewrite nth_vsub by (rewrite vscal_length, zeros_length; congruence). rewrite !nth_vscal, nth_zeros. ring. }
      rewrite E in Q. exact Q.
  Qed.
End bmn.
(** ** BMatrix, A singular *)
Lemma bm_null_eq m h Rm C b c d : (forall i, (i < m)%nat -> Rm i i <> 0) -> bm_null (bm_new (S m) h Rm C b c d) = qr_null (qr_new (S m) (S m) h Rm C 0).
Proof.
  intros Hd. unfold bm_null, qr_null. cbn [m_n m_h m_R m_C bm_new q_rows q_cols q_R q_h q_P qr_new]. replace (S m - 1)%nat with m by lia. unfold trtrs. rewrite (proj2 (diag_ok_spec m Rm) Hd).
  rewrite (usolve_ext m Rm (fun i => nth i (mk m (fun i0 => Rm i0 m)) 0) (fun i => Rm i m)) by (intros i Hi; rewrite nth_mk by exact Hi; reflexivity). reflexivity.
Qed.
Lemma bm_sing_ok m A h Rm C b c d r : let n := S m in let s := bm_new n h Rm C b c d in
  qr_fact n n A h Rm C -> (forall i, (i < m)%nat -> Rm i i <> 0) -> Rm m m = 0 -> length b = n -> length c = n -> length r = S n ->
  nonsingular (S n) (bord n A b c d) ->
  solves (S n) (bord n A b c d) (bm_solve_singular s r) r.
Proof.
  intros n s HF Hd Hz Lb Lc Lr HN. assert (EN := bm_null_eq m h Rm C b c d Hd). fold n s in EN. unfold bm_solve_singular. rewrite EN. set (s0 := qr_new n n h Rm C 0) in *. fold s0 in EN.
  assert (Hphi := qr_null_phi m A h Rm C 0 HF Hd). assert (Hpsi := qr_null_psi m A h Rm C 0 HF). fold n in Hphi, Hpsi. fold s0 in Hphi, Hpsi.
  destruct (snoc_split r n Lr) as [f [t [-> [Lf [R0 R1]]]]]. rewrite R0, R1.
  assert (Hpt : forall g, length g = n -> dotp (snd (qr_null s0)) g = 0 -> length (bm_part s g) = n /\ mv n n A (bm_part s g) = g).
  { intros g Lg Hg. destruct (qr_part m A h Rm C 0 HF Hd g Lg) as [_ Hp]. fold n in Hp. fold s0 in Hp. rewrite Hg, Rabs_R0 in Hp. destruct (Hp ltac:(lra)) as [x [Ex [Lx Ax]]].
    assert (E : x = bm_part s g).
    { unfold qr_particular in Ex. destruct (Rlt_dec _ _); [discriminate|]. assert (Ex' : gather (trtrs (q_rows s0 - 1) (q_R s0) false (removelast (ormqr_T (q_h s0) g)) ++ [0]) (q_P s0) = x) by congruence. rewrite <- Ex'.
      unfold bm_part. cbn [m_n m_h m_R m_C s bm_new q_rows q_R q_h q_P s0 qr_new]. replace (n - 1)%nat with m by (unfold n; lia). f_equal. f_equal. unfold trtrs. rewrite (proj2 (diag_ok_spec m Rm) Hd).
      apply usolve_ext. intros i Hi. assert (Lo := ormT_length n h g ltac:(apply HF) Lg). destruct (snoc_split _ m Lo) as [u [w [Eu [Lu [Ru _]]]]]. rewrite Ru, Eu. rewrite app_nth1 by lia. reflexivity. }
    subst x. split; [exact Lx|]. rewrite Ax. apply vext; [rewrite vsub_length; rewrite ?vscal_length; [congruence|]|].
    - destruct (qr_null s0) as [phi psi]. cbn [snd]. destruct Hpsi as [Lq _]. congruence.
    - intros i _. destruct (qr_null s0) as [phi psi]. cbn [snd]. destruct Hpsi as [Lq _]. rewrite nth_vsub, nth_vscal by (rewrite vscal_length; congruence). ring. }
  assert (Hs := qr_exact_singular m A h Rm C 1 HF ltac:(lra) Hd Hz). fold n in Hs.
  assert (Hpv := fun phi psi En => sing_pivots n A b c d Lb Lc _ phi psi Hs En HN). change (s_null (qr_solver (qr_new n n h Rm C 1))) with (qr_null s0) in Hpv.
  destruct (qr_null s0) as [phi psi]. destruct (Hpv phi psi eq_refl) as [B1 B2]. cbn [snd] in Hpt. destruct Hphi as [Lp [_ P2]], Hpsi as [Lq [_ Q2]].
  assert (P0 : mv n n A phi = zeros n) by (rewrite P2, Hz; apply vext; [rewrite vscal_length, zeros_length; exact Lq|]; intros i _; rewrite nth_vscal, nth_zeros; ring).
  cbn [m_b m_c m_d s bm_new]. set (z := dotp psi f / dotp psi c). set (g := vsub f (vscal z c)). assert (Lg : length g = n) by (unfold g; rewrite vsub_length; rewrite ?vscal_length; congruence).
  destruct (Hpt g Lg) as [Lx Ex]. { unfold g. rewrite dotp_vsub_r, dotp_vscal_r by (rewrite vscal_length; congruence). unfold z. field. exact B2. }
  fold g. set (xp := bm_part s g) in *. set (al := (t - d * z - dotp b xp) / dotp b phi). assert (La : length (vadd xp (vscal al phi)) = n) by (rewrite vadd_length; rewrite ?vscal_length; congruence).
  split; [rewrite app_length, La; cbn; lia|]. rewrite mv_bord by assumption. f_equal.
  - rewrite mv_vadd, mv_vscal, Ex, P0 by (rewrite vscal_length; congruence). assert (L1 : length (vscal al (zeros n)) = length g) by (rewrite vscal_length, zeros_length; congruence). assert (L2 : length (vadd g (vscal al (zeros n))) = n) by (rewrite vadd_length by exact L1; exact Lg).
    apply vext; [rewrite vadd_length; rewrite ?vscal_length; congruence|]. intros i _. rewrite (nth_vadd (vadd g _)) by (rewrite vscal_length; congruence). rewrite (nth_vadd g) by exact L1. unfold g. rewrite nth_vsub by (rewrite vscal_length; congruence). rewrite !nth_vscal, nth_zeros. ring.
  - rewrite dotp_vadd_r, dotp_vscal_r by (rewrite vscal_length; congruence). f_equal. unfold al. field. exact B1.
Qed.
(** solve_null with a singular A: not normalised *)
Lemma bm_null_sing_ok m A h Rm C b c d : let n := S m in let s := bm_new n h Rm C b c d in
  qr_fact n n A h Rm C -> (forall i, (i < m)%nat -> Rm i i <> 0) -> Rm m m = 0 -> length b = n -> length c = n ->
  solves (S n) (bord n A b c d) (bm_solve_null_singular s) (zeros n ++ [dotp b (fst (bm_null s))]).
Proof.
  intros n s HF Hd Hz Lb Lc. unfold bm_solve_null_singular. assert (EN := bm_null_eq m h Rm C b c d Hd). fold n s in EN. rewrite EN.
  assert (Hphi := qr_null_phi m A h Rm C 0 HF Hd). assert (Hpsi := qr_null_psi m A h Rm C 0 HF). fold n in Hphi, Hpsi. destruct (qr_null (qr_new n n h Rm C 0)) as [phi psi]. cbn [fst]. destruct Hphi as [Lp [_ P2]], Hpsi as [Lq _].
  split; [rewrite app_length, Lp; cbn; lia|]. rewrite mv_bord by assumption. f_equal; [|f_equal; ring].
  rewrite P2, Hz. apply vext; [rewrite vadd_length; rewrite ?vscal_length, ?zeros_length; congruence|]. intros i _. rewrite nth_vadd, !nth_vscal, nth_zeros by (rewrite !vscal_length; congruence). ring.
Qed.
(** ** determinant *)
Lemma det_rows n M P : Permutation (seq 0 n) P -> exists c, minimumSwaps P = Some c /\ det n (fun i j => M (nth i P 0%nat) j) = (-1) ^ c * det n M.
Proof.
  intros HP. destruct (det_perm n ident P HP) as [c [E1 E2]]. exists c. split; [exact E1|]. rewrite det_ident, Rmult_1_r in E2.
  set (Pm := fun i j => ident (nth i P 0%nat) j). assert (HB := perm_lt n P HP). assert (ND := perm_nd n P HP). assert (LP := perm_len n P HP).
  assert (EM : det n (fun i j => M (nth i P 0%nat) j) = det n Pm * det n M).
  { rewrite <- det_mul. apply det_ext. intros i j Hi Hj. unfold mmul, Pm. rewrite (rsum_single n _ (nth i P 0%nat) (HB i Hi)); [unfold ident; rewrite Nat.eqb_refl; ring|].
    intros q Hq Hne. unfold ident. destruct (Nat.eqb_spec (nth i P 0%nat) q); [congruence|ring]. }
  assert (EI : det n Pm * det n (fun i j => ident i (nth j P 0%nat)) = 1).
  { rewrite <- det_mul, <- (det_ident n). apply det_ext. intros i j Hi Hj. unfold mmul, Pm. rewrite (rsum_single n _ (nth i P 0%nat) (HB i Hi)).
    - unfold ident. rewrite Nat.eqb_refl. destruct (Nat.eqb_spec (nth i P 0%nat) (nth j P 0%nat)) as [E|E], (Nat.eqb_spec i j) as [E'|E']; try ring; exfalso; [apply E'; apply (proj1 (NoDup_nth P 0%nat) ND); congruence|apply E; congruence].
    - intros q Hq Hne. unfold ident. destruct (Nat.eqb_spec (nth i P 0%nat) q); [congruence|ring]. }
  rewrite E2 in EI. rewrite EM. assert (Z := neg1_sq c). assert (EP : det n Pm = (-1) ^ c). { transitivity (det n Pm * ((-1) ^ c * (-1) ^ c)); [rewrite Z; ring|]. rewrite <- Rmult_assoc, EI. ring. }
  rewrite EP. reflexivity.
Qed.
Lemma det_lower1 n L : (forall i j, (i < n)%nat -> (i < j)%nat -> L i j = 0) -> (forall i, (i < n)%nat -> L i i = 1) -> det n L = 1.
Proof.
  induction n as [|n IH]; intros H1 H2; [reflexivity|]. rewrite det_last_col by (intros i Hi; apply H1; lia). rewrite (H2 n), IH by (intros; try apply H1; try apply H2; lia). ring.
Qed.
Lemma prodn_one n f : (forall i, (i < n)%nat -> f i = 1) -> prodn n f = 1.
Proof. induction n as [|n IH]; intros H; [reflexivity|]. cbn. rewrite IH, H by (intros; try apply H; lia). ring. Qed.
Lemma logdet_spec n A L U pr pc : splu_fact n A L U pr pc -> (forall i, (i < n)%nat -> U i i <> 0) ->
  exists sg ld k, logdet_superlu (lu_of n L U pr pc) = Some (sg, ld) /\ minimumSwaps pc = Some k /\ ld = ln (Rabs (det n A)) /\ (sg = 1 \/ sg = -1) /\ sg * exp ld = (-1) ^ k * det n A.
Proof.
  intros HF Hd. assert (HR : Permutation (seq 0 n) pr) by apply HF. assert (HC : Permutation (seq 0 n) pc) by apply HF. destruct HF as [L1 [L2 [U1 [_ [_ E]]]]].
  destruct (det_rows n (fun i j => mmul n L U i (nth j pc 0%nat)) pr HR) as [a [A1 A2]]. destruct (det_perm n (mmul n L U) pc HC) as [k [K1 K2]].
  assert (ED : det n A = (-1) ^ a * ((-1) ^ k * rprod n (fun i => U i i))).
  { rewrite <- (det_upper n U) by exact U1. replace (det n U) with (det n (mmul n L U)) by (rewrite det_mul, (det_lower1 n L L1 L2); ring). rewrite <- K2, <- A2. apply det_ext. intros i j Hi Hj. apply E; assumption. }
  unfold logdet_superlu. cbn [lu_of o_n o_L o_U o_r]. rewrite A1.
  assert (S1 : prodn n (fun i => sgn (L i i)) = 1). { apply prodn_one. intros i Hi. rewrite L2 by exact Hi. unfold sgn. destruct (Rlt_dec 1 0); [lra|]. destruct (Rlt_dec 0 1); lra. }
  assert (S2 : rsum n (fun i => ln (Rabs (L i i))) = 0). { apply rsum_zero. intros i Hi. rewrite L2 by exact Hi. rewrite Rabs_R1, ln_1. reflexivity. }
  rewrite S1, S2. assert (Q := sgn_mult_exp n (fun i => U i i)). unfold exp_sum_log in Q.
  assert (F : forallb (fun i => if Req_EM_T (Rabs (U i i)) 0 then false else true) (seq 0 n) = true).
  { apply forallb_forall. intros i Hi. apply in_seq in Hi. destruct (Req_EM_T (Rabs (U i i)) 0) as [Z|]; [|reflexivity]. exfalso. apply (Rabs_no_R0 (U i i)); [apply Hd; lia|exact Z]. }
  rewrite F in Q. set (ld := rsum n (fun i => ln (Rabs (U i i)))) in *. set (ps := prodn n (fun i => sgn (U i i))) in *.
  assert (PS : ps = 1 \/ ps = -1).
  { unfold ps. clear - Hd. induction n as [|n IH]; [left; reflexivity|]. cbn [prodn]. assert (sgn (U n n) = 1 \/ sgn (U n n) = -1). { assert (Z := Hd n ltac:(lia)). unfold sgn. destruct (Rlt_dec (U n n) 0); [right; reflexivity|]. destruct (Rlt_dec 0 (U n n)); [left; reflexivity|lra]. }
    destruct IH as [-> | ->]; [intros; apply Hd; lia| |]; destruct H as [-> | ->]; lra. }
  assert (PM : forall q, (-1) ^ q = 1 \/ (-1) ^ q = -1). { induction q as [|q IH]; [left; reflexivity|]. cbn [pow]. destruct IH as [-> | ->]; [right|left]; ring. }
  exists ((-1) ^ a * 1 * ps), (0 + ld), k. split; [reflexivity|]. split; [exact K1|]. split; [|split].
  - rewrite ED, <- Q, !Rabs_mult. assert (N : forall q, Rabs ((-1) ^ q) = 1) by (intros q; rewrite <- RPow_abs; replace (Rabs (-1)) with 1 by (unfold Rabs; destruct (Rcase_abs (-1)); lra); apply pow1). rewrite !N.
    replace (Rabs ps) with 1 by (destruct PS as [-> | ->]; unfold Rabs; destruct (Rcase_abs _); lra). rewrite (Rabs_right (exp ld)) by (left; apply exp_pos). rewrite !Rmult_1_l, ln_exp. ring.
  - destruct (PM a) as [-> | ->], PS as [-> | ->]; lra.
  - rewrite Rplus_0_l, ED, <- Q. assert (Z := neg1_sq k). transitivity ((-1) ^ a * ps * exp ld * ((-1) ^ k * (-1) ^ k)); [rewrite Z; ring|ring].
Qed.
