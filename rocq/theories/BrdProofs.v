(** brd_solve.py: the LU based bordered solvers. *)
From Coq Require Import Reals List Arith Lia Lra Bool Permutation.
From Verif Require Import Base LASpec BordModel BordSpec LABase BordProofs DetSpec DetMath LinModel LinProofs SwapSpec Swaps QRModel QRSpec QRProofs QRDet BrdModel BrdSpec.
Import ListNotations.
Open Scope R_scope.

(** ** scatter *)
Lemma setnth_length o k x : length (setnth o k x) = length o. Proof. apply mk_length. Qed.
Lemma nth_setnth o k x i : (k < length o)%nat -> nth i (setnth o k x) 0 = if Nat.eqb i k then x else nth i o 0.
Proof.
  intros Hk. unfold setnth. destruct (Nat.lt_ge_cases i (length o)) as [H|H]; [rewrite nth_mk by exact H; reflexivity|].
  rewrite nth_overflow by (rewrite mk_length; exact H). destruct (Nat.eqb_spec i k); [lia|]. rewrite nth_overflow by exact H. reflexivity.
Qed.
Lemma scatter_at_length p : forall o arr, length (scatter_at o p arr) = length o.
Proof. induction p as [|k p IH]; intros o [|x arr]; cbn; try reflexivity. rewrite IH. apply setnth_length. Qed.
Lemma scatter_at_other p : forall o arr k, (forall j, In j p -> (j < length o)%nat) -> ~ In k p -> nth k (scatter_at o p arr) 0 = nth k o 0.
Proof.
  induction p as [|a p IH]; intros o [|x arr] k Hb Hk; cbn [scatter_at]; try reflexivity. rewrite IH.
  - rewrite nth_setnth by (apply Hb; left; reflexivity). destruct (Nat.eqb_spec k a); [exfalso; apply Hk; left; congruence|reflexivity].
  - intros j Hj. rewrite setnth_length. apply Hb. right. exact Hj.
  - intros H. apply Hk. right. exact H.
Qed.
Lemma scatter_at_nth p : forall o arr i, NoDup p -> length arr = length p -> (forall j, In j p -> (j < length o)%nat) -> (i < length p)%nat -> nth (nth i p 0%nat) (scatter_at o p arr) 0 = nth i arr 0.
Proof.
  induction p as [|a p IH]; intros o [|x arr] i ND L Hb Hi; cbn [length] in *; try lia. inversion ND as [|? ? Ha ND']. cbn [scatter_at]. destruct i as [|i].
  - cbn [nth]. rewrite scatter_at_other; [|intros j Hj; rewrite setnth_length; apply Hb; right; exact Hj|exact Ha]. rewrite nth_setnth by (apply Hb; left; reflexivity). rewrite Nat.eqb_refl. reflexivity.
  - cbn [nth]. apply IH; [exact ND'|lia| |lia]. intros j Hj. rewrite setnth_length. apply Hb. right. exact Hj.
Qed.
Lemma scatter_nth n p arr i : Permutation (seq 0 n) p -> length arr = n -> (i < n)%nat -> nth (nth i p 0%nat) (scatter arr p) 0 = nth i arr 0.
Proof.
  intros HP L Hi. apply scatter_at_nth; [apply (perm_nd n p HP)|rewrite (perm_len n p HP); exact L| |rewrite (perm_len n p HP); exact Hi].
  intros j Hj. rewrite zeros_length, L. apply (Permutation_in _ (Permutation_sym HP)) in Hj. apply in_seq in Hj. lia.
Qed.
Lemma scatter_length arr p : length (scatter arr p) = length arr.
Proof. unfold scatter. rewrite scatter_at_length. apply zeros_length. Qed.
(** ** the factorisation *)
Definition lu_of (n : nat) (L U : rmat) (pr pc : list nat) : luobj := {| o_n := n; o_L := L; o_U := U; o_r := pr; o_c := pc |}.
Section splu.
  Variables (n : nat) (A L U : rmat) (pr pc : list nat).
  Hypothesis HF : splu_fact n A L U pr pc.
  Hypothesis Hd : forall i, (i < n)%nat -> U i i <> 0.
  Lemma s_r : Permutation (seq 0 n) pr. Proof. apply HF. Qed.
  Lemma s_c : Permutation (seq 0 n) pc. Proof. apply HF. Qed.
  Lemma s_U : upper n U. Proof. intros i j Hi Hj. apply HF; assumption. Qed.
  Lemma s_L : upper n (transp L). Proof. intros i j Hi Hj. unfold transp. apply HF; lia. Qed.
  Lemma s_Ld i : (i < n)%nat -> transp L i i <> 0. Proof. intros Hi. unfold transp. destruct HF as [_ [E _]]. rewrite E by exact Hi. lra. Qed.
  (** L y = Pr v *)
  Lemma lsolve_ok v i : length v = n -> (i < n)%nat -> rsum n (fun l => L (nth i pr 0%nat) l * nth l (lsolve n L (scatter v pr)) 0) = nth i v 0.
  Proof.
    intros Lv Hi. unfold lsolve. assert (Q := utsolve_correct n (transp L) (fun i => nth i (scatter v pr) 0) s_L s_Ld (nth i pr 0%nat) (perm_lt n pr s_r i Hi)).
    unfold transp in Q at 1. rewrite Q. apply (scatter_nth n); [exact s_r|exact Lv|exact Hi].
  Qed.
  Lemma lsolve_len v : length (lsolve n L v) = n. Proof. apply utsolve_length. Qed.
  Lemma ut_ok v k : length v = n -> (k < n)%nat -> rsum n (fun l => U l (nth k pc 0%nat) * nth l (utsolve n U (fun i => nth i (scatter v pc) 0)) 0) = nth k v 0.
  Proof.
    intros Lv Hk. rewrite (utsolve_correct n U _ s_U Hd _ (perm_lt n pc s_c k Hk)). apply (scatter_nth n); [exact s_c|exact Lv|exact Hk].
  Qed.
  (** the permuted solution of U chi = g *)
  Lemma right_core g : length g = n -> let x := gather (usolve n U (fun i => nth i g 0)) pc in
    length x = n /\ (forall i, (i < n)%nat -> nth i (mv n n A x) 0 = rsum n (fun l => L (nth i pr 0%nat) l * nth l g 0)) /\
    forall b, length b = n -> dotp b x = dotp (utsolve n U (fun i => nth i (scatter b pc) 0)) g.
  Proof.
    intros Lg x. set (chi := usolve n U (fun i => nth i g 0)) in x. assert (Lc : length pc = n) by apply (perm_len n pc s_c).
    assert (Ex : forall k, (k < n)%nat -> nth k x 0 = nth (nth k pc 0%nat) chi 0) by (intros k Hk; apply nth_gather; congruence).
    assert (EU : forall l, (l < n)%nat -> rsum n (fun k => U l (nth k pc 0%nat) * nth (nth k pc 0%nat) chi 0) = nth l g 0).
    { intros l Hl. rewrite <- (rsum_perm n pc s_c (fun k => U l k * nth k chi 0)). apply (usolve_correct n U s_U Hd); exact Hl. }
    split; [unfold x; rewrite gather_length; exact Lc|]. split.
    - intros i Hi. rewrite mv_nth by exact Hi. destruct HF as [_ [_ [_ [_ [_ E]]]]].
      rewrite (rsum_ext n _ (fun k => rsum n (fun l => L (nth i pr 0%nat) l * (U l (nth k pc 0%nat) * nth (nth k pc 0%nat) chi 0)))).
      2:{ intros k Hk. rewrite E, Ex by assumption. rewrite <- rsum_scal_r. apply rsum_ext. intros. ring. }
      rewrite rsum_swap. apply rsum_ext. intros l Hl. rewrite rsum_scal, EU by exact Hl. reflexivity.
    - intros b Lb. unfold dotp. rewrite Lb, utsolve_length. rewrite (rsum_ext n _ (fun k => rsum n (fun l => nth l (utsolve n U (fun i => nth i (scatter b pc) 0)) 0 * (U l (nth k pc 0%nat) * nth (nth k pc 0%nat) chi 0)))).
      2:{ intros k Hk. rewrite <- (ut_ok b k Lb Hk), Ex by exact Hk. rewrite <- rsum_scal_r. apply rsum_ext. intros. ring. }
      rewrite rsum_swap. apply rsum_ext. intros l Hl. rewrite rsum_scal, EU by exact Hl. reflexivity.
  Qed.
  (** the permuted solution of L^T chi = g *)
  Lemma left_core g : length g = n -> let x := gather (usolve n (transp L) (fun i => nth i g 0)) pr in
    length x = n /\ (forall k, (k < n)%nat -> nth k (mv n n (transp A) x) 0 = rsum n (fun l => U l (nth k pc 0%nat) * nth l g 0)) /\
    forall c, length c = n -> dotp c x = dotp (lsolve n L (scatter c pr)) g.
  Proof.
    intros Lg x. set (chi := usolve n (transp L) (fun i => nth i g 0)) in x. assert (Lc : length pr = n) by apply (perm_len n pr s_r).
    assert (Ex : forall k, (k < n)%nat -> nth k x 0 = nth (nth k pr 0%nat) chi 0) by (intros k Hk; apply nth_gather; congruence).
    assert (EU : forall l, (l < n)%nat -> rsum n (fun i => L (nth i pr 0%nat) l * nth (nth i pr 0%nat) chi 0) = nth l g 0).
    { intros l Hl. rewrite <- (rsum_perm n pr s_r (fun k => L k l * nth k chi 0)). apply (usolve_correct n (transp L) s_L s_Ld); exact Hl. }
    split; [unfold x; rewrite gather_length; exact Lc|]. split.
    - intros k Hk. rewrite mv_nth by exact Hk. destruct HF as [_ [_ [_ [_ [_ E]]]]]. unfold transp at 1.
      rewrite (rsum_ext n _ (fun i => rsum n (fun l => U l (nth k pc 0%nat) * (L (nth i pr 0%nat) l * nth (nth i pr 0%nat) chi 0)))).
      2:{ intros i Hi. rewrite E, Ex by assumption. rewrite <- rsum_scal_r. apply rsum_ext. intros. ring. }
      rewrite rsum_swap. apply rsum_ext. intros l Hl. rewrite rsum_scal, EU by exact Hl. reflexivity.
    - intros c Lb. unfold dotp. rewrite Lb, lsolve_len. rewrite (rsum_ext n _ (fun k => rsum n (fun l => nth l (lsolve n L (scatter c pr)) 0 * (L (nth k pr 0%nat) l * nth (nth k pr 0%nat) chi 0)))).
      2:{ intros k Hk. rewrite <- (lsolve_ok c k Lb Hk), Ex by exact Hk. rewrite <- rsum_scal_r. apply rsum_ext. intros. ring. }
      rewrite rsum_swap. apply rsum_ext. intros l Hl. rewrite rsum_scal, EU by exact Hl. reflexivity.
  Qed.
  Variables (b c : list R) (d : R).
  Hypothesis Lb : length b = n.
  Hypothesis Lc : length c = n.
  Let gamma := lsolve n L (scatter c pr).
  Let beta := utsolve n U (fun i => nth i (scatter b pc) 0).
  Let delta := d - dotp beta gamma.
  (** solution with top right hand side f = L fhat *)
  Lemma bord_core f fhat h : length f = n -> length fhat = n -> (forall i, (i < n)%nat -> rsum n (fun l => L (nth i pr 0%nat) l * nth l fhat 0) = nth i f 0) ->
    delta <> 0 -> let z := (h - dotp beta fhat) / delta in
    solves (S n) (bord n A b c d) (gather (usolve n U (fun i => nth i (vsub fhat (vscal z gamma)) 0)) pc ++ [z]) (f ++ [h]).
  Proof.
    intros Lf Lfh Ef Hdl z. assert (Lg : length gamma = n) by apply lsolve_len. assert (Lv : length (vsub fhat (vscal z gamma)) = n) by (rewrite vsub_length; rewrite ?vscal_length; congruence).
    destruct (right_core _ Lv) as [Lx [E1 E2]]. set (x := gather _ pc) in *. split; [rewrite app_length, Lx; cbn; lia|].
    rewrite mv_bord by assumption. f_equal.
    - apply vext; [rewrite vadd_length; rewrite ?vscal_length, ?mv_length; congruence|]. rewrite vadd_length, mv_length by (rewrite vscal_length, mv_length; congruence). intros i Hi.
      rewrite nth_vadd by (rewrite vscal_length, mv_length; congruence). rewrite E1, nth_vscal by exact Hi.
      rewrite (rsum_ext n _ (fun l => L (nth i pr 0%nat) l * nth l fhat 0 - z * (L (nth i pr 0%nat) l * nth l gamma 0))) by (intros l Hl; rewrite nth_vsub, nth_vscal by (rewrite vscal_length; congruence); ring).
      rewrite rsum_minus, rsum_scal, Ef by exact Hi. unfold gamma. rewrite lsolve_ok by assumption. ring.
    - rewrite E2 by exact Lb. fold beta. rewrite dotp_vsub_r, dotp_vscal_r by (rewrite vscal_length; congruence). f_equal. unfold z. replace (d * ((h - dotp beta fhat) / delta)) with ((delta + dotp beta gamma) * ((h - dotp beta fhat) / delta)) by (unfold delta; ring). field. exact Hdl.
  Qed.
  Lemma delta_nz : nonsingular (S n) (bord n A b c d) -> delta <> 0.
  Proof.
    intros HN Z. assert (Lg : length gamma = n) by apply lsolve_len. assert (Lv : length (vscal (-1) gamma) = n) by (rewrite vscal_length; exact Lg).
    destruct (right_core _ Lv) as [Lx [E1 E2]]. set (x := gather _ pc) in *. assert (Q : x ++ [1] = zeros (S n)).
    { apply HN; [rewrite app_length, Lx; cbn; lia|]. rewrite mv_bord by assumption. rewrite zeros_S. f_equal.
      - apply vext; [rewrite vadd_length; rewrite ?vscal_length, ?mv_length, ?zeros_length; congruence|]. rewrite vadd_length, mv_length by (rewrite vscal_length, mv_length; congruence). intros i Hi.
        rewrite nth_vadd by (rewrite vscal_length, mv_length; congruence). rewrite E1, nth_vscal, nth_zeros by exact Hi.
        rewrite (rsum_ext n _ (fun l => -1 * (L (nth i pr 0%nat) l * nth l gamma 0))) by (intros l Hl; rewrite nth_vscal; ring). rewrite rsum_scal. unfold gamma. rewrite lsolve_ok by assumption. ring.
      - rewrite E2 by exact Lb. fold beta. rewrite dotp_vscal_r. f_equal. unfold delta in Z. lra. }
    rewrite zeros_S in Q. apply snoc_inj in Q. destruct Q as [_ Q]. lra.
  Qed.
  Lemma brd_solve_ok f : length f = S n -> nonsingular (S n) (bord n A b c d) -> solves (S n) (bord n A b c d) (brd_solve (lu_of n L U pr pc) b c d f) f.
  Proof.
    intros Lf HN. apply delta_nz in HN. destruct (snoc_split f n Lf) as [f0 [h [-> [L0 [R0 R1]]]]]. unfold brd_solve. cbn [lu_of o_n o_L o_U o_r o_c]. rewrite R0, R1. fold gamma beta delta.
    apply bord_core; [exact L0|apply lsolve_len| |exact HN]. intros i Hi. apply lsolve_ok; assumption.
  Qed.
  Lemma solve_nonsing_ok : nonsingular (S n) (bord n A b c d) -> solves (S n) (bord n A b c d) (solve_nonsing (lu_of n L U pr pc) b c d) (zeros n ++ [1]).
  Proof.
    intros HN. apply delta_nz in HN. unfold solve_nonsing. cbn [lu_of o_n o_L o_U o_r o_c]. fold gamma beta delta.
    assert (Q := bord_core (zeros n) (zeros n) 1 (zeros_length n) (zeros_length n)). cbv zeta in Q. rewrite dotp_zeros_r, Rminus_0_r in Q.
    assert (Lg : length gamma = n) by apply lsolve_len.
    assert (E : vsub (zeros n) (vscal (1 / delta) gamma) = vscal (- (1 / delta)) gamma).
    { apply vext; [rewrite vsub_length; rewrite ?vscal_length, zeros_length; congruence|]. intros i _. rewrite nth_vsub by (rewrite vscal_length, zeros_length; congruence). rewrite !nth_vscal, nth_zeros. ring. }
    rewrite E in Q. apply Q; [|exact HN]. intros i Hi. rewrite rsum_zero; [rewrite nth_zeros; reflexivity|]. intros l Hl. rewrite nth_zeros. ring.
  Qed.
  Lemma solve_null_nonsing_ok : nonsingular (S n) (bord n A b c d) -> let '(v, w) := solve_null_nonsing (lu_of n L U pr pc) b c d in
    solves (S n) (bord n A b c d) v (zeros n ++ [1]) /\ solves (S n) (transp (bord n A b c d)) w (zeros n ++ [1]).
  Proof.
    intros HN. assert (V := solve_nonsing_ok HN). apply delta_nz in HN. unfold solve_null_nonsing. cbn [lu_of o_n o_L o_U o_r o_c] in *. split; [exact V|]. fold gamma beta. clear V.
    assert (Lg : length gamma = n) by apply lsolve_len. assert (Lbe : length beta = n) by apply utsolve_length.
    rewrite (dotp_comm gamma beta) by congruence. fold delta. apply transp_bord_solves. set (z := 1 / delta). assert (Lv : length (vscal (- z) beta) = n) by (rewrite vscal_length; exact Lbe).
    destruct (left_core _ Lv) as [Lx [E1 E2]]. set (x := gather _ pr) in *. split; [rewrite app_length, Lx; cbn; lia|]. rewrite mv_bord by assumption. f_equal.
    - apply vext; [rewrite vadd_length; rewrite ?vscal_length, ?mv_length, ?zeros_length; congruence|]. rewrite vadd_length, mv_length by (rewrite vscal_length, mv_length; congruence). intros k Hk.
      rewrite nth_vadd by (rewrite vscal_length, mv_length; congruence). rewrite E1, nth_vscal, nth_zeros by exact Hk.
      rewrite (rsum_ext n _ (fun l => - z * (U l (nth k pc 0%nat) * nth l beta 0))) by (intros l Hl; rewrite nth_vscal; ring). rewrite rsum_scal. unfold beta. rewrite ut_ok by assumption. ring.
    - rewrite E2 by exact Lc. fold gamma. rewrite dotp_vscal_r. f_equal. rewrite (dotp_comm gamma beta) by congruence. unfold z. replace (d * (1 / delta)) with ((delta + dotp beta gamma) * (1 / delta)) by (unfold delta; ring). field. exact HN.
  Qed.
End splu.
