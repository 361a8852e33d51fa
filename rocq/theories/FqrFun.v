(** The QR factorisation of a Fun. *)
From Coq Require Import Reals ZArith List Arith Bool Lra Lia.
From Coquelicot Require Import Coquelicot.
From Verif Require Import Base Vecs ChebSpec ChebMath ChebDct ChebModel ChebModel2 ChebEval ChebCalc ChebChop ChebObj ChebArith RootsMin RootsObj FnlProofs FunModel FunProofs Legendre FqrSpec FqrModel FqrProofs FqrObj FqrMain.
Import ListNotations.
Open Scope R_scope.

Lemma max_vscale_ge A j : (j < length A)%nat -> vscale_col (nth j A []) <= max_vscale A.
Proof.
  unfold max_vscale. revert j. induction A as [|c A IH]; cbn [length]; [lia|]. intros [|j] Hj; cbn [map fold_right nth]; [apply Rmax_l|].
  eapply Rle_trans; [apply IH; lia|apply Rmax_r].
Qed.
Lemma max_vscale_le A B : 0 <= B -> (forall j, (j < length A)%nat -> vscale_col (nth j A []) <= B) -> max_vscale A <= B.
Proof.
  intros HB. unfold max_vscale. induction A as [|c A IH]; cbn [map fold_right]; intros H; [exact HB|].
  apply Rmax_lub; [exact (H 0%nat ltac:(cbn; lia))|]. apply IH. intros j Hj. exact (H (S j) ltac:(cbn; lia)).
Qed.
Lemma evalT_nonzero c x : evalT c x <> 0 -> exists k, nth k c 0 <> 0.
Proof.
  intros H. unfold evalT in H. assert (G : forall n (g : nat -> R), rsum n g <> 0 -> exists k, g k <> 0).
  { intros n g. induction n as [|n IH]; cbn [rsum]; [lra|]. intros S. destruct (Req_dec (g n) 0) as [E|E]; [apply IH; rewrite E in S; lra|exists n; exact E]. }
  destruct (G _ _ H) as [k Hk]. exists k. intros Z. apply Hk. rewrite Z. ring.
Qed.
Lemma bwd_fwd' a b y : a < b -> (2 * ((b * (y + 1) + a * (1 - y)) / 2) - a - b) / (b - a) = y.
Proof. intros H. field. lra. Qed.
Lemma fwd_dom a b y : a < b -> -1 <= y <= 1 -> a <= (b * (y + 1) + a * (1 - y)) / 2 <= b.
Proof. intros H Hy. split; nra. Qed.
Lemma nth_map_map (g : R -> R) A j : (j < length A)%nat -> nth j (map (map g) A) [] = map g (nth j A []).
Proof. intros H. rewrite (nth_indep _ [] (map g [])) by (rewrite map_length; exact H). apply map_nth. Qed.
Lemma entry_scale A s i j : entry (map (map (fun x => x * s)) A) i j = entry A i j * s.
Proof.
  unfold entry. destruct (Nat.lt_ge_cases i (length A)) as [H|H].
  - rewrite nth_map_map by exact H. destruct (Nat.lt_ge_cases j (length (nth i A []))) as [L|L].
    + rewrite (nth_indep _ 0 (0 * s)) by (rewrite map_length; exact L). apply (map_nth (fun x => x * s)).
    + rewrite !nth_overflow by (rewrite ?map_length; exact L). ring.
  - rewrite (nth_overflow (map _ A)) by (rewrite map_length; exact H). rewrite (nth_overflow A) by exact H. destruct j; cbn; ring.
Qed.

(** F has at least two columns and is not identically zero. *)
Theorem fun_qr_ok F n eps0 : rect n (coeffs (onefun F)) -> dom0 F < dom1 F -> ishappy (onefun F) = true -> (2 <= fcols F)%nat ->
  (exists j x, (j < fcols F)%nat /\ fev F j x <> 0) ->
  0 < eps0 ->
  exists G Rm F', fun_qr eps0 F = Some (G, false, Rm, F') /\ fwf G /\ fwf F' /\ same_dom F G /\ same_dom F F' /\ fcols G = fcols F /\ fcols F' = fcols F /\
    (forall j x, (j < fcols F)%nat -> fev F' j x = fev F j x) /\
    orthonormal (dom0 F) (dom1 F) (fcols F) (fev G) /\ upper_triangular (entry Rm) /\ (forall j, (j < fcols F)%nat -> 0 <= entry Rm j j) /\
    (forall B, (forall j x, (j < fcols F)%nat -> dom0 F <= x <= dom1 F -> Rabs (fev F j x) <= B) ->
     eps0 * B * INR (Nat.max n (fcols F)) <= 9 / 10 -> forall j, (j < fcols F)%nat ->
      let e := qr_residual (fcols F) (fev F) (fev G) (entry Rm) j in
      (forall x, e x = 0) \/
      (entry Rm j j < 3 / 2 * (eps0 * B * sqrt ((2 * INR j + 1) / 2) * sqrt ((dom1 F - dom0 F) / 2)) /\ L2_le (dom0 F) (dom1 F) e (2 * entry Rm j j))).
Proof.
  intros HR Hd Hh Hm (j0 & x0 & Hj0 & Hx0) He. destruct F as [f a b]. cbn [onefun dom0 dom1] in *. unfold fcols in *. cbn [onefun] in *.
  set (m := ncols f) in *. set (M := Nat.max n m) in *.
  assert (V0 : 0 < max_vscale (coeffs f)).
  { unfold fev, ev in Hx0. cbn [onefun] in Hx0. destruct (evalT_nonzero _ _ Hx0) as [k Hk]. eapply Rlt_le_trans; [apply (vscale_pos _ k Hk)|]. apply max_vscale_ge. exact Hj0. }
  assert (M0 : 0 <= INR M) by apply pos_INR.
  destruct (cheb_qr_cols_ok f n eps0 HR Hm) as (c & Rm & fp & E & Rc & Lc & QO & RU & RP & RES & LR & Rfp & Lfp & Vfp).
  { apply Rmult_lt_0_compat; assumption. }
  fold m in Lc, QO, RP, RES, LR, Lfp, Vfp. fold M in Rc, Rfp.
  set (s := sqrt (/ 2 * (b - a))). assert (S0 : 0 < s) by (apply sqrt_lt_R0; lra). assert (SS : s * s = / 2 * (b - a)) by (apply sqrt_sqrt; lra).
  unfold fun_qr, cheb_qr. cbn [onefun dom0 dom1]. rewrite E. unfold init_strided. rewrite Hh. cbn [orb].
  destruct (cheb_init_some (S M) c (eps f) (hscale f) (maxLength f) true Rc) as (hp & EI & _). rewrite EI. cbn [coeffs]. fold s.
  eexists _, _, _. split; [reflexivity|].
  set (c' := map (map (fun x => x / s)) c).
  assert (LC' : length c' = m) by (unfold c'; rewrite map_length; exact Lc).
  assert (RC' : rect (S M) c').
  { destruct Rc as (r1 & r2 & r3). split; [exact r1|]. split; [intros Z; apply r2; unfold c' in Z; destruct c; [reflexivity|discriminate]|].
    apply Forall_forall. intros l Hl. unfold c' in Hl. apply in_map_iff in Hl. destruct Hl as (l' & <- & Hl). rewrite map_length. rewrite Forall_forall in r3. now apply r3. }
  assert (EV : forall j y, (j < m)%nat -> evalT (nth j c' []) y = cols c j y / s).
  { intros j y Hj. unfold c'. rewrite nth_map_map by (rewrite Lc; exact Hj). rewrite (evalT_map_scal _ (/ s)) by (intros; unfold Rdiv; ring). unfold cols, Rdiv. ring. }
  split; [split; [exists (S M); exact RC'|exact Hd]|]. split; [split; [exists (2 * M)%nat; exact Rfp|exact Hd]|]. split; [split; reflexivity|]. split; [split; reflexivity|].
  split; [exact LC'|]. split; [exact Lfp|].
  destruct (bwd_ends a b Hd) as [BA BB].
  split; [|split; [|split; [|split]]].
  - intros j x Hj. unfold fev, ev. cbn [onefun dom0 dom1 coeffs]. exact (Vfp j _ Hj).
  - intros i j Hi Hj. unfold fev, ev. cbn [onefun dom0 dom1 coeffs]. fold c'.
    assert (I := QO i j Hi Hj). rewrite <- BA, <- BB in I at 1. 
    apply (is_RInt_bwd (fun y => cols c i y * cols c j y) a b a b) in I; [|exact Hd].
    apply (is_RInt_scal _ _ _ (/ (s * s))) in I.
    match type of I with is_RInt _ _ _ ?v => assert (EE : v = (if Nat.eqb i j then 1 else 0)) end.
    { change (/ (s * s) * ((if Nat.eqb i j then 1 else 0) * (/ 2 * (b - a))) = (if Nat.eqb i j then 1 else 0)). rewrite <- SS. field. lra. }
    rewrite EE in I. eapply is_RInt_ext; [|exact I]. intros y _. cbn beta. rewrite !EV by assumption. match goal with |- scal ?u ?v = ?w => change (u * v = w) end. field. lra.
  - intros i j Hij. rewrite entry_scale, (RU i j Hij). ring.
  - intros j Hj. rewrite entry_scale. apply Rmult_le_pos; [now apply RP|lra].
  - intros B HB HT. fold m M in HT. change (ncols (onefun (mkFun f a b))) with m in HB. cbn [dom0 dom1] in HB.
  assert (B0 : 0 <= B) by (eapply Rle_trans; [apply Rabs_pos|apply (HB j0 a Hj0); lra]).
  assert (VB : max_vscale (coeffs f) <= B).
  { apply max_vscale_le; [exact B0|]. intros j Hj. destruct (vscale_col_attained (nth j (coeffs f) [])) as (y & Hy & ->).
    - rewrite (rect_nth n) by assumption. destruct HR; lia.
    - assert (H := HB j ((b * (y + 1) + a * (1 - y)) / 2) Hj (fwd_dom a b y Hd Hy)). unfold fev, ev in H. cbn [onefun dom0 dom1] in H. rewrite bwd_fwd' in H by exact Hd. exact H. }
    assert (HT' : eps0 * max_vscale (coeffs f) * INR M <= 9 / 10).
    { eapply Rle_trans; [|exact HT]. apply Rmult_le_compat_r; [exact M0|]. apply Rmult_le_compat_l; lra. }
    intros j Hj. cbv zeta. match goal with |- (forall x, ?g x = 0) \/ _ => set (e := g) end.
    assert (Ee : forall x, e x = qr_residual m (cols (coeffs f)) (cols c) (entry Rm) j ((2 * x - a - b) / (b - a))).
    { intros x. unfold e, qr_residual, fev, ev. cbn [onefun dom0 dom1 coeffs]. fold c'. unfold cols at 1. f_equal. apply rsum_ext. intros i Hi. rewrite EV by exact Hi. rewrite entry_scale. field. lra. }
    destruct (RES HT' j Hj) as [Z|[L1 (I & HI & LI)]].
    + left. intros x. rewrite Ee. apply Z.
    + right. rewrite entry_scale. assert (PR := RP j Hj). split.
      * replace (sqrt ((b - a) / 2)) with s by (unfold s; f_equal; lra). 
        apply Rlt_le_trans with (3 / 2 * (eps0 * max_vscale (coeffs f) * sqrt ((2 * INR j + 1) / 2)) * s); [apply Rmult_lt_compat_r; assumption|].
        replace (3 / 2 * (eps0 * B * sqrt ((2 * INR j + 1) / 2) * s)) with (3 / 2 * (eps0 * B * sqrt ((2 * INR j + 1) / 2)) * s) by ring.
        apply Rmult_le_compat_r; [lra|]. apply Rmult_le_compat_l; [lra|]. apply Rmult_le_compat_r; [apply sqrt_pos|]. apply Rmult_le_compat_l; lra.
      * exists (I * (/ 2 * (b - a))). split.
        -- rewrite <- BA, <- BB in HI at 1. apply (is_RInt_bwd _ a b a b) in HI; [|exact Hd]. eapply is_RInt_ext; [|exact HI]. intros y _. cbn beta. rewrite Ee. reflexivity.
        -- rewrite <- SS. assert (Q : 0 <= s * s) by nra. assert (X : I * (s * s) <= 2 * entry Rm j j * (2 * entry Rm j j) * (s * s)) by (apply Rmult_le_compat_r; assumption). lra.
Qed.
