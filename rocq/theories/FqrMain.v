(** The QR factorisation of chebtechs and Funs. *)
From Coq Require Import Reals ZArith List Arith Bool Lra Lia.
From Coquelicot Require Import Coquelicot.
From Verif Require Import Base Vecs ChebSpec ChebMath ChebDct ChebModel ChebModel2 ChebEval ChebCalc ChebChop ChebObj RootsMin FnlProofs FunModel FunProofs Legendre FqrSpec FqrModel FqrProofs FqrObj.
Import ListNotations.
Open Scope R_scope.

Definition cols (A : arr) (j : nat) : R -> R := evalT (nth j A []).
Definition entry (A : list (list R)) (i j : nat) : R := nth j (nth i A []) 0.
Lemma vsum_i n (f : nat -> vecs) i : ((vsum n f : vecs) : vec) i = rsum n (fun k => (f k : vec) i).
Proof. induction n as [|n IH]; [reflexivity|]. cbn [vsum rsum]. rewrite vplus_i, IH. reflexivity. Qed.
Lemma evalT_prolong c N x : (length c <= N)%nat -> evalT (prolong1 c (Z.of_nat N)) x = evalT c x.
Proof.
  intros H. rewrite (evalT_ge c x N H). unfold evalT. rewrite prolong1_length, Nat2Z.id. apply rsum_ext. intros k Hk. now rewrite prolong1_nth by (rewrite Nat2Z.id; exact Hk).
Qed.
Lemma spanT_residual M m f q (r : nat -> R) : spanT M f -> (forall i, (i < m)%nat -> spanT M (q i)) -> spanT M (fun x => f x - rsum m (fun i => q i x * r i)).
Proof.
  intros Hf Hq. apply spanT_ext with (fun x => f x + (-1) * rsum m (fun i => r i * q i x)).
  { intros x. rewrite (rsum_ext m (fun i => q i x * r i) (fun i => r i * q i x)) by (intros; ring). ring. }
  apply spanT_plus; [exact Hf|]. apply spanT_scal. apply (spanT_rsum M m (fun i x => r i * q i x)). intros i Hi. apply spanT_scal. now apply Hq.
Qed.

Theorem cheb_qr_cols_ok f n eps0 : rect n (coeffs f) -> (2 <= ncols f)%nat ->
  let m := ncols f in let tol := eps0 * max_vscale (coeffs f) in
  0 < tol ->
  exists c Rm fp, cheb_qr_cols eps0 f = Some (c, false, Rm, fp) /\ rect (S (Nat.max n m)) c /\ length c = m /\
    orthonormal (-1) 1 m (cols c) /\ upper_triangular (entry Rm) /\ (forall j, (j < m)%nat -> 0 <= entry Rm j j) /\
    (tol * INR (Nat.max n m) <= 9 / 10 -> forall j, (j < m)%nat ->
      let e := qr_residual m (cols (coeffs f)) (cols c) (entry Rm) j in
      (forall x, e x = 0) \/ (entry Rm j j < 3 / 2 * (tol * sqrt ((2 * INR j + 1) / 2)) /\ L2_le (-1) 1 e (2 * entry Rm j j))) /\
    length Rm = m /\ rect (2 * Nat.max n m) fp /\ length fp = m /\ (forall j x, (j < m)%nat -> cols fp j x = cols (coeffs f) j x).
Proof.
  intros Hrect Hm m tol Htol. set (M := Nat.max n m) in *. assert (H1 : (2 <= M)%nat) by (unfold M; lia). assert (HmM : (m <= M)%nat) by (unfold M; lia). assert (HnM : (n <= M)%nat) by (unfold M; lia).
  set (N := (2 * M)%nat). destruct (quadwts_some N ltac:(unfold N; lia)) as (w & Hw & _).
  set (x := fun i => nth i (chebpts_type2_compute N) 0).
  set (fc := prolong (coeffs f) (Z.of_nat N)). set (A0 := (fun j i => nth i (nth j (polyval fc) []) 0) : nat -> vecs).
  assert (Lf : forall j, (j < m)%nat -> length (nth j (coeffs f) []) = n) by (intros j Hj; now apply rect_nth).
  assert (A0v : forall j i, (j < m)%nat -> (i < N)%nat -> (A0 j : vec) i = cols (coeffs f) j (x i)).
  { intros j i Hj Hi. unfold A0, polyval. assert (Lfc : length fc = m) by (unfold fc, prolong; rewrite map_length; reflexivity).
    rewrite (nth_map_col polyval1) by (rewrite Lfc; exact Hj). unfold fc. rewrite nth_prolong by exact Hj.
    assert (LP : length (prolong1 (nth j (coeffs f) []) (Z.of_nat N)) = N) by (rewrite prolong1_length, Nat2Z.id; reflexivity).
    rewrite polyval1_spec by (rewrite LP; unfold N in *; lia). rewrite LP, evalT_prolong by (rewrite Lf by exact Hj; unfold N; lia). reflexivity. }
  assert (HSf : forall j, (j < m)%nat -> spanT M (cols (coeffs f) j)) by (intros j Hj; apply spanT_evalT; rewrite Lf by exact Hj; lia).
  assert (IPs := wdot_semi M ltac:(lia) w Hw). assert (SS := SPv_sub M). fold N in IPs.
  destruct (abstractQR_ok (wdot N w) (vinf N) tol m (SPv M) IPs SS Htol A0 (leg_E x)) as (Q & Rf & HQR & QO & QS & RU & RP & QE).
  { intros j Hj. apply (E0_norm M ltac:(lia)). }
  { intros i j Hi Hj. apply (E0_orth M ltac:(lia) w Hw); lia. }
  { intros j Hj. split; [apply (E0_S M ltac:(lia)); lia|]. exists (cols (coeffs f) j). split; [now apply HSf|]. intros i Hi. now apply A0v. }
  set (c := map (firstn (N / 2 + 1)) (polyfit (mk m (fun j => mk N (fun i => (Q j : vec) i))))).
  set (Rm := mk m (fun i => mk m (fun j => Rf i j))).
  assert (CJ : forall j, (j < m)%nat -> nth j c [] = firstn (N / 2 + 1) (polyfit1 (mk N (fun i => (Q j : vec) i)))).
  { intros j Hj. unfold c, polyfit. rewrite map_map. rewrite (nth_map_col (fun l => firstn (N / 2 + 1) (polyfit1 l))) by (rewrite mk_length; exact Hj). now rewrite nth_mk by exact Hj. }
  assert (CV : forall j, (j < m)%nat -> length (nth j c []) = S M /\ spanT M (cols c j) /\ forall i, (i < N)%nat -> (Q j : vec) i = cols c j (x i)).
  { intros j Hj. destruct (QS j Hj) as (q & Hq & Eq). destruct (fit_trunc M ltac:(lia) (Q j) q Hq Eq) as [L E]. fold N in L, E. unfold cols. rewrite CJ by exact Hj.
    split; [exact L|]. split; [apply spanT_ext with q; [intros; symmetry; apply E|exact Hq]|]. intros i Hi. rewrite E. now apply Eq. }
  assert (Rij : forall i j, (i < m)%nat -> (j < m)%nat -> entry Rm i j = Rf i j).
  { intros i j Hi Hj. unfold entry, Rm. rewrite (nth_mk m) by exact Hi. now rewrite nth_mk by exact Hj. }
  exists c, Rm, fc. split; [|split; [|split; [|split; [|split; [|split; [|split; [|split; [|split; [|split]]]]]]]]].
  - unfold cheb_qr_cols. cbv zeta. change (length (coeffs f)) with m. rewrite (rect_nrows n _ Hrect). destruct (Nat.leb_spec m 1); [lia|]. fold tol. fold M. fold N. fold fc. rewrite Hw.
    change (abstractQR (X := vecs) (wdot N w) (vinf N) tol m A0 (leg_E x) = Some (Q, Rf)) in HQR. unfold A0, x in HQR. rewrite HQR.
    fold c. fold Rm. replace (Nat.eqb (N / 2 + 1) N) with false; [reflexivity|]. symmetry. apply Nat.eqb_neq. unfold N. rewrite Nat.mul_comm, Nat.div_mul by lia. lia.
  - split; [lia|]. split.
    + intros Z. destruct (CV 0%nat ltac:(lia)) as [L _]. rewrite Z in L. cbn in L. lia.
    + apply Forall_forall. intros l Hl. apply (In_nth _ _ []) in Hl. destruct Hl as (j & Hj & <-). apply CV. unfold c, polyfit in Hj. rewrite !map_length, mk_length in Hj. exact Hj.
  - unfold c, polyfit. now rewrite !map_length, mk_length.
  - intros i j Hi Hj. destruct (CV i Hi) as (_ & Si & Vi). destruct (CV j Hj) as (_ & Sj & Vj).
    assert (I := wdot_int M ltac:(lia) w Hw (Q i) (Q j) _ _ Si Sj Vi Vj). fold N in I. rewrite QO in I by assumption. exact I.
  - intros i j Hij. destruct (Nat.lt_ge_cases i m) as [Hi|Hi].
    + rewrite Rij by lia. now apply RU.
    + unfold entry. rewrite (nth_overflow Rm) by (unfold Rm; rewrite mk_length; exact Hi). now destruct j.
  - intros j Hj. rewrite Rij by exact Hj. now apply RP.
  - intros HtM j Hj. destruct (QE j Hj) as (err & HF & _ & B). set (e := qr_residual m (cols (coeffs f)) (cols c) (entry Rm) j). cbv zeta.
    assert (Se : spanT M e) by (apply (spanT_residual M m (cols (coeffs f) j) (cols c) (fun i => entry Rm i j)); [now apply HSf|intros i Hi; now apply CV]).
    assert (Ve : forall i, (i < N)%nat -> (err : vec) i = e (x i)).
    { intros i Hi. unfold e, qr_residual. rewrite <- A0v by assumption. rewrite HF, vplus_i, vsum_i.
      rewrite (rsum_ext m (fun k => (scal (Rf k j) (Q k) : vec) i) (fun k => cols c k (x i) * entry Rm k j)); [ring|].
      intros k Hk. rewrite vscal_i, Rij by assumption. destruct (CV k Hk) as (_ & _ & ->); [ring|exact Hi]. }
    destruct B as [Z|(B1 & u & Su & Nu & Lu)].
    + left. apply (nodes_ext M ltac:(lia) e (fun _ => 0)); [apply spanT_mono with M; [lia|exact Se]|apply spanT_0|].
      intros i Hi. change (e (x i) = 0). rewrite <- Ve by exact Hi. rewrite Z. reflexivity.
    + right. rewrite Rij by assumption. split.
      * assert (UB := vinf_L2 M ltac:(lia) w Hw u (Rf j j) Su (RP j Hj) Nu). fold N in UB.
        assert (EB := E0_norm M ltac:(lia) j). fold N in EB. change (leg_E (fun i => nth i (chebpts_type2_compute N) 0) j) with (leg_E x j) in EB.
        assert (S2 : 0 < sqrt 2) by (apply sqrt_lt_R0; lra). assert (Q2 : sqrt 2 * sqrt 2 = 2) by (apply sqrt_sqrt; lra).
        destruct (Rle_lt_dec (vinf N u) (vinf N (leg_E x j))) as [L|L].
        -- rewrite Rmax_left in Lu by exact L. eapply Rlt_le_trans; [exact Lu|]. apply Rmult_le_compat_l; [lra|]. apply Rmult_le_compat_l; lra.
        -- exfalso. rewrite Rmax_right in Lu by lra. assert (Rp := RP j Hj).
           assert (L2 : tol * vinf N u <= 9 / 10 / sqrt 2 * Rf j j).
           { apply Rle_trans with (tol * (INR M / sqrt 2 * Rf j j)); [apply Rmult_le_compat_l; lra|].
             replace (tol * (INR M / sqrt 2 * Rf j j)) with (tol * INR M * (Rf j j / sqrt 2)) by (field; lra). replace (9 / 10 / sqrt 2 * Rf j j) with (9 / 10 * (Rf j j / sqrt 2)) by (field; lra).
             apply Rmult_le_compat_r; [apply Rdiv_le_0_compat; lra|exact HtM]. }
           assert (S14 : 14 / 10 < sqrt 2) by nra. assert (9 / 10 / sqrt 2 <= 9 / 14). { apply Rmult_le_reg_r with (sqrt 2); [lra|]. unfold Rdiv at 1. rewrite Rmult_assoc, Rinv_l by lra. lra. }
           assert (9 / 10 / sqrt 2 * Rf j j <= 9 / 14 * Rf j j) by (apply Rmult_le_compat_r; lra). lra.
      * exists (wdot N w err err). split; [exact (wdot_int M ltac:(lia) w Hw err err e e Se Se Ve Ve)|]. lra.
  - unfold Rm. apply mk_length.
  - apply (rect_prolong n); [exact Hrect|unfold N; lia].
  - unfold fc, prolong. apply map_length.
  - intros j t Hj. unfold cols, fc. rewrite nth_prolong by exact Hj. apply evalT_prolong. rewrite Lf by exact Hj. unfold N. lia.
Qed.
