(** QRCholesky: solutions, minimal norm, tangent. *)
From Coq Require Import Reals List Arith Lia Lra Bool Permutation.
From Verif Require Import Base LASpec BordModel BordSpec LABase BordProofs DetSpec DetMath LinModel QRModel QRSpec QRProofs QRDet CholModel.
Import ListNotations.
Open Scope R_scope.

Lemma qr_mv_mn m n A h Rm C xhat : qr_fact m n A h Rm C -> mv m n A (gather xhat (argsort C)) = ormqr_N h (mv m n Rm xhat).
Proof.
  intros HF. assert (Hr : Forall (reflector m) h) by apply HF. assert (HP : Permutation (seq 0 n) C) by apply HF.
  rewrite <- (orm_mv m h n Rm (fun i j => A i (nth j C 0%nat)) xhat Hr); [|destruct HF as [_ [_ [_ [_ [_ H]]]]]; exact H].
  apply vext; [rewrite !mv_length; reflexivity|]. rewrite mv_length. intros i Hi. rewrite !mv_nth by exact Hi. apply (gather_argsort_sum n C HP).
Qed.
(** the object for a matrix of full row rank r, r + p columns *)
Definition chol_new (m n : nat) (h : list hh) (Rm : rmat) (C : list nat) (rank : nat) (L : rmat) : qrc :=
  {| k_m := m; k_n := n; k_h := h; k_R := Rm; k_C := argsort C; k_rank := rank; k_L := L |}.
Section chol.
  Variables (r p : nat) (A : rmat) (h : list hh) (Rm : rmat) (C : list nat) (L : rmat).
  Hypothesis HF : qr_fact r (r + p) A h Rm C.
  Hypothesis Hd : forall i, (i < r)%nat -> Rm i i <> 0.
  Let s := chol_new r (r + p) h Rm C r L.
  Lemma c_upper : upper r Rm. Proof. intros i j. apply HF. Qed.
  Lemma jbar_eq i q : (i < r)%nat -> rsum r (fun j => Rm i j * jbar s j q) = Rm i (r + q)%nat.
  Proof. intros Hi. unfold jbar. cbn [k_rank k_R s chol_new]. apply (usolve_correct r Rm c_upper Hd (fun i => Rm i (r + q)%nat) i Hi). Qed.
  Lemma defi_eq : defi s = p. Proof. unfold defi. cbn. lia. Qed.
  (** R (y - J t, t) = R1 y *)
  Lemma split_img y t i : length y = r -> length t = p -> (i < r)%nat -> nth i (mv r (r + p) Rm (vsub y (mv r p (jbar s) t) ++ t)) 0 = rsum r (fun j => Rm i j * nth j y 0).
  Proof.
    intros Ly Lt Hi. rewrite mv_nth by exact Hi. rewrite rsum_app. assert (Lv : length (vsub y (mv r p (jbar s) t)) = r) by (rewrite vsub_length; rewrite ?mv_length; congruence).
    rewrite (rsum_ext r _ (fun j => Rm i j * nth j y 0 - rsum p (fun q => Rm i j * jbar s j q * nth q t 0))).
    2:{ intros j Hj. rewrite app_nth1 by lia. rewrite nth_vsub by (rewrite mv_length; congruence). rewrite mv_nth by exact Hj. rewrite (rsum_ext p (fun q => Rm i j * jbar s j q * nth q t 0) (fun q => Rm i j * (jbar s j q * nth q t 0))) by (intros; ring). rewrite rsum_scal. ring. }
    rewrite rsum_minus, rsum_swap. rewrite (rsum_ext p (fun q => rsum r _) (fun q => Rm i (r + q)%nat * nth q t 0)).
    2:{ intros q Hq. rewrite rsum_scal_r, jbar_eq by exact Hi. reflexivity. }
    rewrite (rsum_ext p (fun k => Rm i (r + k)%nat * nth (r + k) _ 0) (fun q => Rm i (r + q)%nat * nth q t 0)).
    2:{ intros q Hq. rewrite app_nth2 by lia. rewrite Lv. replace (r + q - r)%nat with q by lia. reflexivity. }
    ring.
  Qed.
  Lemma split_solves b y t : length b = r -> length y = r -> length t = p -> mv r r Rm y = ormqr_T h b ->
    mv r (r + p) A (gather (vsub y (mv r p (jbar s) t) ++ t) (argsort C)) = b.
  Proof.
    intros Lb Ly Lt Hy. assert (Hr : Forall (reflector r) h) by apply HF. rewrite (qr_mv_mn r (r + p) A h Rm C _ HF).
    assert (E : mv r (r + p) Rm (vsub y (mv r p (jbar s) t) ++ t) = ormqr_T h b).
    { rewrite <- Hy. apply vext; [rewrite !mv_length; reflexivity|]. rewrite mv_length. intros i Hi. rewrite split_img by assumption. rewrite mv_nth by exact Hi. reflexivity. }
    rewrite E. apply (ormN_T r); assumption.
  Qed.
  Let y b := usolve r Rm (fun i => nth i (ormqr_T h b) 0).
  Lemma y_ok b : length b = r -> length (y b) = r /\ mv r r Rm (y b) = ormqr_T h b.
  Proof.
    intros Lb. split; [apply usolve_length|]. assert (Lt := ormT_length r h b ltac:(apply HF) Lb). apply vext; [rewrite mv_length; congruence|]. rewrite mv_length. intros i Hi. rewrite mv_nth by exact Hi.
    unfold y. rewrite (usolve_correct r Rm c_upper Hd); [reflexivity|exact Hi].
  Qed.
  Let Qx b := let Qyk := mv p r (transp (jbar s)) (vscal (-1) (y b)) in utsolve p L (fun i => nth i (usolve p L (fun i => nth i Qyk 0)) 0).
  Lemma sing_form b : length b = r -> chol_solve_sing s b = gather (vsub (y b) (mv r p (jbar s) (vscal (-1) (Qx b))) ++ vscal (-1) (Qx b)) (argsort C).
  Proof.
    intros Lb. unfold chol_solve_sing. rewrite defi_eq. cbn [k_rank k_R k_h k_C k_L s chol_new]. fold s. fold (y b). fold (Qx b). f_equal. unfold vscal at 1. rewrite map_app. fold (vscal (-1) (Qx b)). f_equal.
    fold (vscal (-1) (vsub (vscal (-1) (y b)) (mv r p (jbar s) (Qx b)))). assert (Ly : length (y b) = r) by apply usolve_length.
    rewrite mv_vscal. apply vext; [rewrite vscal_length, !vsub_length; rewrite ?vscal_length, ?mv_length; congruence|]. intros i _.
    rewrite nth_vscal, nth_vsub, nth_vsub, !nth_vscal by (rewrite ?vscal_length, ?mv_length; congruence). ring.
  Qed.
  Lemma chol_solves b : length b = r -> length (chol_solve_sing s b) = (r + p)%nat /\ mv r (r + p) A (chol_solve_sing s b) = b.
  Proof.
    intros Lb. rewrite sing_form by exact Lb. split; [rewrite gather_length; apply argsort_len; apply HF|]. destruct (y_ok b Lb) as [Ly Ey].
    apply split_solves; try assumption. rewrite vscal_length. unfold Qx. apply utsolve_length.
  Qed.
  (** gathering keeps scalar products *)
  Lemma gather_dot (u v : list R) : length u = (r + p)%nat -> dotp (gather u (argsort C)) (gather v (argsort C)) = dotp u v.
  Proof.
    intros Lu. assert (HP : Permutation (seq 0 (r + p)) C) by apply HF. unfold dotp at 1. rewrite gather_length, (argsort_len _ C HP).
    rewrite (gather_argsort_sum _ C HP). unfold dotp. rewrite Lu. apply rsum_ext. intros k Hk. f_equal. rewrite nth_gather by (rewrite (argsort_len _ C HP); apply (perm_lt _ C HP), Hk). rewrite (argsort_C _ C HP) by exact Hk. reflexivity.
  Qed.
End chol.
Lemma R_unique r Rm (y z : list R) : upper r Rm -> (forall i, (i < r)%nat -> Rm i i <> 0) -> length y = r -> length z = r -> mv r r Rm y = mv r r Rm z -> y = z.
Proof.
  intros Hu Hd Ly Lz E. assert (Hdet : det r Rm <> 0).
  { rewrite det_upper by exact Hu. clear - Hd. induction r as [|r IH]; cbn [rprod]; [lra|]. apply Rmult_integral_contrapositive_currified; [apply IH; intros; apply Hd; lia|apply Hd; lia]. }
  apply vext; [congruence|]. rewrite Ly. intros i Hi. assert (Q := det_kernel r Rm (fun q => nth q y 0 - nth q z 0) Hdet). cut (nth i y 0 - nth i z 0 = 0); [lra|]. apply Q; [|exact Hi].
  intros k Hk. rewrite (rsum_ext r _ (fun q => Rm k q * nth q y 0 - Rm k q * nth q z 0)) by (intros; ring). rewrite rsum_minus. rewrite <- (mv_nth r r Rm y k Hk), <- (mv_nth r r Rm z k Hk), E. ring.
Qed.
(** one column more than rows: the solution of least norm *)
Lemma chol_min_norm r A h Rm C L b : qr_fact r (r + 1) A h Rm C -> (forall i, (i < r)%nat -> Rm i i <> 0) ->
  let s := chol_new r (r + 1) h Rm C r L in 0 < L 0%nat 0%nat -> L 0%nat 0%nat * L 0%nat 0%nat = chol_M s 0%nat 0%nat -> length b = r ->
  let x := chol_solve_sing s b in
  length x = (r + 1)%nat /\ mv r (r + 1) A x = b /\ forall v, length v = (r + 1)%nat -> mv r (r + 1) A v = b -> dotp x x <= dotp v v.
Proof.
  intros HF Hd s HL HM Lb x. destruct (chol_solves r 1 A h Rm C L HF Hd b Lb) as [Lx Ex]. fold s in Lx, Ex. fold x in Lx, Ex. split; [exact Lx|]. split; [exact Ex|].
  intros v Lv Hv. assert (HP : Permutation (seq 0 (r + 1)) C) by apply HF.
  set (j := mk r (fun i => jbar s i 0%nat)). assert (Lj : length j = r) by apply mk_length.
  set (y := usolve r Rm (fun i => nth i (ormqr_T h b) 0)). destruct (y_ok r 1 A h Rm C HF Hd b Lb) as [Ly Ey]. fold y in Ly, Ey.
  assert (Ll : L 0%nat 0%nat * L 0%nat 0%nat = 1 + dotp j j).
  { rewrite HM. unfold chol_M. cbn [Nat.eqb]. f_equal. unfold dotp, j. rewrite mk_length. cbn [k_rank s chol_new]. apply rsum_ext. intros i Hi. rewrite !nth_mk by exact Hi. reflexivity. }
  assert (Jt : forall t, length t = 1%nat -> mv r 1 (jbar s) t = vscal (nth 0 t 0) j).
  { intros t Lt. apply vext; [rewrite vscal_length, mv_length; congruence|]. rewrite mv_length. intros i Hi. rewrite mv_nth, nth_vscal by exact Hi. cbn [rsum]. unfold j. rewrite nth_mk by exact Hi. ring. }
  set (t0 := dotp j y / (1 + dotp j j)).
  assert (Xf : x = gather (vsub y (vscal t0 j) ++ [t0]) (argsort C)).
  { unfold x. rewrite (sing_form r 1 h Rm C L b Lb : chol_solve_sing s b = _). fold s. fold y. f_equal.
    set (Q := utsolve 1 L _). assert (EQ : vscal (-1) Q = [t0]).
    { unfold Q, t0. cbn [utsolve usolve app nth mv mk seq map rsum vscal]. f_equal. rewrite !Rminus_0_r, Rplus_0_l || idtac.
      assert (D : rsum r (fun k => transp (jbar s) 0%nat k * nth k (vscal (-1) y) 0) = - dotp j y).
      { unfold dotp. rewrite Lj, <- rsum_opp. apply rsum_ext. intros k Hk. rewrite nth_vscal. unfold transp, j. rewrite nth_mk by exact Hk. ring. }
      unfold mv, mk. cbn [seq map nth]. rewrite D. rewrite <- Ll. field. lra. }
    rewrite EQ, Jt by reflexivity. reflexivity. }
  (* any solution *)
  set (vh := gather v C). assert (Lvh : length vh = (r + 1)%nat) by (unfold vh; rewrite gather_length; apply perm_len, HP).
  assert (Vf : v = gather vh (argsort C)).
  { apply vext; [rewrite gather_length, (argsort_len _ C HP); exact Lv|]. rewrite Lv. intros i Hi. destruct (C_argsort _ C HP i Hi) as [L1 L2].
    rewrite nth_gather by (rewrite (argsort_len _ C HP); exact Hi). unfold vh. rewrite nth_gather by (rewrite (perm_len _ C HP); exact L1). rewrite L2. reflexivity. }
  replace (r + 1)%nat with (S r) in Lvh by lia. destruct (snoc_split vh r Lvh) as [f [t [Evh [Lf _]]]].
  assert (Hyy : y = vadd f (vscal t j)).
  { assert (Hr : Forall (reflector r) h) by apply HF. apply (R_unique r Rm); [intros a c; apply HF|exact Hd|exact Ly|rewrite vadd_length; rewrite ?vscal_length; congruence|]. rewrite Ey.
    assert (E1 : mv r (r + 1) Rm vh = ormqr_T h b).
    { rewrite <- Hv, Vf, (qr_mv_mn r (r + 1) A h Rm C _ HF). rewrite (ormT_N r) by (try exact Hr; apply mv_length). reflexivity. }
    rewrite <- E1. replace (r + 1)%nat with (S r) by lia. rewrite mv_vadd by (rewrite vscal_length; congruence). rewrite (mv_snoc r r), Evh. rewrite nth_snoc, Lf, Nat.ltb_irrefl, Nat.eqb_refl. f_equal.
    - apply mv_ext; [reflexivity|]. intros q Hq. rewrite nth_snoc, Lf. destruct (Nat.ltb_spec q r); [reflexivity|lia].
    - rewrite mv_vscal. f_equal. unfold column. apply vext; [rewrite mv_length, mk_length; reflexivity|]. rewrite mk_length. intros i Hi. rewrite nth_mk, mv_nth by exact Hi.
      assert (Jq := jbar_eq r 1 A h Rm C L HF Hd i 0%nat Hi). fold s in Jq. rewrite Nat.add_0_r in Jq. rewrite <- Jq. apply rsum_ext. intros q Hq. unfold j. rewrite nth_mk by exact Hq. reflexivity. }
  assert (Lw : forall w t, length w = r -> length (vsub w (vscal t0 j) ++ [t : R]) = (r + 1)%nat) by (intros w t' Lw; rewrite app_length, vsub_length; rewrite ?vscal_length; cbn; congruence).
  rewrite Xf, Vf. rewrite !(gather_dot r 1 A h Rm C HF) by (try apply Lw; try exact Ly; rewrite Lvh; lia). rewrite Evh.
  rewrite !dotp_app by reflexivity.
  assert (Nj := dotp_pos j). assert (Ff : dotp f f = dotp y y - 2 * t * dotp j y + t * t * dotp j j).
  { assert (Ef : f = vsub y (vscal t j)).
    { rewrite Hyy. apply vext; [rewrite vsub_length, vadd_length; rewrite ?vscal_length; try congruence; rewrite vadd_length; rewrite ?vscal_length; congruence|]. intros i _.
      rewrite nth_vsub, nth_vadd by (rewrite ?vadd_length; rewrite ?vscal_length; congruence). ring. }
    rewrite Ef. rewrite dotp_vsub_l, !dotp_vsub_r, !dotp_vscal_l, !dotp_vscal_r by (rewrite vscal_length; congruence). rewrite (dotp_comm y j) by congruence. ring. }
  rewrite Ff. rewrite dotp_vsub_l, !dotp_vsub_r, !dotp_vscal_l, !dotp_vscal_r by (rewrite vscal_length; congruence). rewrite (dotp_comm y j) by congruence.
  set (a := dotp j y) in *. set (g := dotp j j) in *. assert (Et : t0 * (1 + g) = a) by (unfold t0; field; lra).
  assert (Sq : 0 <= (1 + g) * ((t - t0) * (t - t0))) by (apply Rmult_le_pos; [lra|apply Rle_0_sqr]). rewrite <- Et. lra.
Qed.
(** the tangent: unit, in the kernel *)
Lemma chol_tangent_ok r A h Rm C L : qr_fact r (r + 1) A h Rm C -> (forall i, (i < r)%nat -> Rm i i <> 0) ->
  let t := chol_tangent (chol_new r (r + 1) h Rm C r L) in
  length t = (r + 1)%nat /\ dotp t t = 1 /\ mv r (r + 1) A t = zeros r.
Proof.
  intros HF Hd. cbv zeta. set (s := chol_new r (r + 1) h Rm C r L). assert (HP : Permutation (seq 0 (r + 1)) C) by apply HF. assert (Hr : Forall (reflector r) h) by apply HF.
  unfold chol_tangent. cbn [k_rank k_C s chol_new]. fold s. set (w := mk r (fun i => jbar s i 0%nat)). assert (Lw : length w = r) by apply mk_length. assert (Nw := dotp_pos w).
  assert (Lt : length (vscal (-1) w ++ [1]) = (r + 1)%nat) by (rewrite app_length, vscal_length; cbn; congruence).
  split; [rewrite gather_length; apply argsort_len, HP|]. split.
  - rewrite (gather_dot r 1 A h Rm C HF) by (rewrite vscal_length; exact Lt). rewrite dotp_vscal_l, dotp_vscal_r, dotp_app by reflexivity. rewrite dotp_vscal_l, dotp_vscal_r.
    assert (Hs : sqrt (1 + dotp w w) * sqrt (1 + dotp w w) = 1 + dotp w w) by (apply sqrt_sqrt; lra). assert (0 < sqrt (1 + dotp w w)) by (apply sqrt_lt_R0; lra).
    transitivity ((1 + dotp w w) / (sqrt (1 + dotp w w) * sqrt (1 + dotp w w))); [field; lra|]. rewrite Hs. field. lra.
  - rewrite (qr_mv_mn r (r + 1) A h Rm C _ HF), mv_vscal. assert (Z : mv r (r + 1) Rm (vscal (-1) w ++ [1]) = zeros r).
    { apply vext; [rewrite mv_length, zeros_length; reflexivity|]. rewrite mv_length. intros i Hi. rewrite mv_nth, nth_zeros by exact Hi. replace (r + 1)%nat with (S r) by lia. cbn [rsum].
      rewrite nth_snoc, vscal_length, Lw, Nat.ltb_irrefl, Nat.eqb_refl. rewrite (rsum_ext r _ (fun q => - (Rm i q * jbar s q 0%nat))) by (intros q Hq; rewrite nth_snoc, vscal_length, Lw; destruct (Nat.ltb_spec q r); [|lia]; rewrite nth_vscal; unfold w; rewrite nth_mk by exact Hq; ring).
      rewrite rsum_opp. assert (Jq := jbar_eq r 1 A h Rm C L HF Hd i 0%nat Hi). fold s in Jq. rewrite Nat.add_0_r in Jq. rewrite Jq. ring. }
    rewrite Z. set (k := / sqrt _). rewrite (ormN_scal r) by (try exact Hr; apply zeros_length).
    assert (Z2 : ormqr_N h (zeros r) = zeros r).
    { assert (E : zeros r = vscal 0 (zeros r)) by (apply vext; [rewrite vscal_length; reflexivity|]; intros i _; rewrite nth_vscal, nth_zeros; ring). rewrite E at 1. rewrite (ormN_scal r) by (try exact Hr; apply zeros_length).
      apply vext; [rewrite vscal_length, (ormN_length r), zeros_length; auto using zeros_length|]. intros i _. rewrite nth_vscal, nth_zeros. ring. }
    rewrite Z2. apply vext; [rewrite vscal_length; reflexivity|]. intros i _. rewrite nth_vscal, nth_zeros. ring.
Qed.
Lemma chol_nonsing_ok n A h Rm C L b : qr_fact n n A h Rm C -> (forall i, (i < n)%nat -> Rm i i <> 0) -> length b = n ->
  solves n A (chol_solve_nonsing (chol_new n n h Rm C n L) b) b.
Proof.
  intros HF Hd Lb. assert (Q := qr_solve_thm n A h Rm C 0 b HF Hd Lb). unfold qr_solve, trtrs in Q. cbn [q_rows q_R q_h q_P qr_new] in Q. rewrite (proj2 (diag_ok_spec n Rm) Hd) in Q. exact Q.
Qed.
