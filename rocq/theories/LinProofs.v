(** Proofs about linalg/helpers.py (Givens, Hessenberg determinants) and lucp. *)
From Coq Require Import Reals ZArith List Arith Lia Lra Bool.
From Verif Require Import Base DetSpec LinModel.
Import ListNotations.
Open Scope R_scope.

Lemma feps_pos : 0 < feps < 1.
Proof.
  unfold feps. assert (1 < 2 ^ 52) by (apply Rlt_pow_R1; [lra|lia]).
  split; [apply Rinv_0_lt_compat; lra|]. rewrite <- Rinv_1. apply Rinv_lt_contravar; lra.
Qed.
Lemma feps_inv : 1 < / feps.
Proof. assert (H := feps_pos). rewrite <- Rinv_1. apply Rinv_lt_contravar; lra. Qed.

Lemma Rmax_scale t a b : 0 <= t -> Rmax (Rabs (a * t)) (Rabs (b * t)) = Rmax (Rabs a) (Rabs b) * t.
Proof. intros H. rewrite !Rabs_mult, (Rabs_pos_eq t H). rewrite (Rmult_comm (Rmax _ _)), <- RmaxRmult by exact H. f_equal; ring. Qed.

Lemma shrink_ok N : forall f g c0, Rmax (Rabs f) (Rabs g) * feps ^ (S N) < / feps ->
  exists d, forall fuel, (S N <= fuel)%nat -> shrink fuel f g c0 = Some (f * feps ^ d, g * feps ^ d, (c0 + d)%nat).
Proof.
  assert (P := feps_pos). induction N as [|N IH]; intros f g c0 H.
  - exists 1%nat. intros [|fu] Hf; [lia|]. cbn [shrink]. rewrite Rmax_scale by lra.
    destruct (Rlt_dec _ _) as [_|C]; [|exfalso; apply C; rewrite pow_1 in H; exact H].
    rewrite pow_1. repeat f_equal. lia.
  - destruct (Rlt_dec (Rmax (Rabs (f * feps)) (Rabs (g * feps))) (/ feps)) as [L|L].
    + exists 1%nat. intros [|fu] Hf; [lia|]. cbn [shrink]. destruct (Rlt_dec _ _) as [_|C]; [|contradiction].
      rewrite pow_1. repeat f_equal. lia.
    + destruct (IH (f * feps) (g * feps) (S c0)) as [d Hd].
      { rewrite Rmax_scale by lra. rewrite Rmult_assoc. exact H. }
      exists (S d). intros [|fu] Hf; [lia|]. cbn [shrink]. destruct (Rlt_dec _ _) as [C|_]; [contradiction|].
      rewrite Hd by lia. cbn [pow]. f_equal. f_equal; [f_equal; ring|lia].
Qed.
Lemma grow_ok N : forall f g c0, feps < Rmax (Rabs f) (Rabs g) * (/ feps) ^ (S N) ->
  exists d, forall fuel, (S N <= fuel)%nat -> grow fuel f g c0 = Some (f * (/ feps) ^ d, g * (/ feps) ^ d, (c0 + d)%nat).
Proof.
  assert (P := feps_pos). assert (P' := feps_inv). induction N as [|N IH]; intros f g c0 H.
  - exists 1%nat. intros [|fu] Hf; [lia|]. cbn [grow]. rewrite Rmax_scale by lra.
    destruct (Rlt_dec _ _) as [_|C]; [|exfalso; apply C; rewrite pow_1 in H; exact H].
    rewrite pow_1. repeat f_equal. lia.
  - destruct (Rlt_dec feps (Rmax (Rabs (f * / feps)) (Rabs (g * / feps)))) as [L|L].
    + exists 1%nat. intros [|fu] Hf; [lia|]. cbn [grow]. destruct (Rlt_dec _ _) as [_|C]; [|contradiction].
      rewrite pow_1. repeat f_equal. lia.
    + destruct (IH (f * / feps) (g * / feps) (S c0)) as [d Hd].
      { rewrite Rmax_scale by lra. rewrite Rmult_assoc. exact H. }
      exists (S d). intros [|fu] Hf; [lia|]. cbn [grow]. destruct (Rlt_dec _ _) as [C|_]; [contradiction|].
      rewrite Hd by lia. cbn [pow]. f_equal. f_equal; [f_equal; ring|lia].
Qed.
Lemma shrink_bound m : 0 < m -> exists N, m * feps ^ (S N) < / feps.
Proof.
  intros Hm. assert (P := feps_pos). assert (Pi := feps_inv).
  destruct (pow_lt_1_zero feps ltac:(rewrite Rabs_right; lra) (/ (feps * m))) as [N HN].
  { apply Rinv_0_lt_compat. nra. }
  exists N. specialize (HN (S N) ltac:(lia)). rewrite Rabs_right in HN by (apply Rle_ge, pow_le; lra).
  apply (Rmult_lt_compat_l m) in HN; [|exact Hm].
  replace (m * / (feps * m)) with (/ feps) in HN by (field; lra). exact HN.
Qed.
Lemma grow_bound m : 0 < m -> exists N, feps < m * (/ feps) ^ (S N).
Proof.
  intros Hm. assert (P := feps_pos). assert (Pi := feps_inv).
  destruct (Pow_x_infinity (/ feps) ltac:(rewrite Rabs_right; lra) (/ m)) as [N HN].
  exists N. specialize (HN (S N) ltac:(lia)). rewrite Rabs_right in HN by (apply Rle_ge, pow_le; lra).
  apply Rge_le in HN. apply (Rmult_le_compat_l m) in HN; [|lra]. rewrite Rinv_r in HN by lra. lra.
Qed.

Lemma sqrt_scale t f g : 0 < t -> sqrt (f * t * (f * t) + g * t * (g * t)) = sqrt (f * f + g * g) * t.
Proof.
  intros H. replace (f * t * (f * t) + g * t * (g * t)) with ((f * f + g * g) * (t * t)) by ring.
  rewrite sqrt_mult by nra. rewrite sqrt_square by lra. reflexivity.
Qed.

Lemma givens_value f g : f <> 0 -> g <> 0 ->
  let rho := sqrt (f * f + g * g) in
  exists N, forall fuel, (N <= fuel)%nat -> givens fuel f g = Some (givens_flip f g (f / rho, g / rho, rho)).
Proof.
  intros Hf Hg rho. assert (P := feps_pos). assert (Pi := feps_inv).
  assert (Hr : 0 < rho) by (apply sqrt_lt_R0; nra).
  assert (Hm : 0 < Rmax (Rabs f) (Rabs g)).
  { apply Rlt_le_trans with (Rabs f); [apply Rabs_pos_lt; exact Hf|apply Rmax_l]. }
  unfold givens. destruct (Req_EM_T g 0); [contradiction|]. destruct (Req_EM_T f 0); [contradiction|].
  destruct (Rle_dec (/ feps) (Rmax (Rabs f) (Rabs g))); [|destruct (Rle_dec (Rmax (Rabs f) (Rabs g)) feps)].
  - destruct (shrink_bound _ Hm) as [N HN]. destruct (shrink_ok N f g 0 HN) as [d Hd]. exists (S N). intros fuel Hfu.
    rewrite Hd by exact Hfu. assert (Ht : 0 < feps ^ d) by (apply pow_lt; lra).
    rewrite sqrt_scale by exact Ht. fold rho. f_equal. f_equal. cbn [Nat.add].
    rewrite pow_inv. f_equal; [f_equal|]; field; repeat split; lra.
  - destruct (grow_bound _ Hm) as [N HN]. destruct (grow_ok N f g 0 HN) as [d Hd]. exists (S N). intros fuel Hfu.
    rewrite Hd by exact Hfu. assert (Ht : 0 < (/ feps) ^ d) by (apply pow_lt; lra).
    rewrite sqrt_scale by exact Ht. fold rho. f_equal. f_equal. cbn [Nat.add].
    assert (Ei : feps ^ d = / (/ feps) ^ d) by (rewrite <- pow_inv, Rinv_inv; reflexivity).
    rewrite Ei. f_equal; [f_equal|]; field; repeat split; lra.
  - exists 0%nat. intros fuel _. fold rho. reflexivity.
Qed.

Lemma givens_correct f g : exists N c s r, (forall fuel, (N <= fuel)%nat -> givens fuel f g = Some (c, s, r)) /\
  c * f + s * g = r /\ - s * f + c * g = 0 /\ c * c + s * s = 1 /\ (Rabs g < Rabs f -> 0 <= c).
Proof.
  destruct (Req_EM_T g 0) as [->|Hg].
  - exists 0%nat, 1, 0, f. split; [intros; unfold givens; destruct (Req_EM_T 0 0); [reflexivity|congruence]|]. repeat split; lra.
  - destruct (Req_EM_T f 0) as [->|Hf].
    + exists 0%nat, 0, 1, g. split; [intros; unfold givens; destruct (Req_EM_T g 0); [contradiction|]; destruct (Req_EM_T 0 0); [reflexivity|congruence]|].
      repeat split; lra.
    + destruct (givens_value f g Hf Hg) as [N HN]. set (rho := sqrt (f * f + g * g)) in *.
      assert (Hr : 0 < rho) by (apply sqrt_lt_R0; nra).
      assert (Hq : rho * rho = f * f + g * g) by (apply sqrt_sqrt; nra).
      unfold givens_flip in HN.
      destruct (Rlt_dec (Rabs g) (Rabs f)); [destruct (Rlt_dec (f / rho) 0) as [Hc|Hc]|].
      * exists N, (- (f / rho)), (- (g / rho)), (- rho). split; [exact HN|]. repeat split.
        -- replace (- rho) with (- ((rho * rho) / rho)) by (field; lra). rewrite Hq. field. lra.
        -- field. lra.
        -- replace (- (f / rho) * - (f / rho) + - (g / rho) * - (g / rho)) with ((f * f + g * g) / (rho * rho)) by (field; lra). rewrite Hq. field. nra.
        -- intros _. lra.
      * exists N, (f / rho), (g / rho), rho. split; [exact HN|]. repeat split.
        -- replace rho with ((rho * rho) / rho) at 3 by (field; lra). rewrite Hq. field. lra.
        -- field. lra.
        -- replace (f / rho * (f / rho) + g / rho * (g / rho)) with ((f * f + g * g) / (rho * rho)) by (field; lra). rewrite Hq. field. nra.
        -- intros _. lra.
      * exists N, (f / rho), (g / rho), rho. split; [exact HN|]. repeat split.
        -- replace rho with ((rho * rho) / rho) at 3 by (field; lra). rewrite Hq. field. lra.
        -- field. lra.
        -- replace (f / rho * (f / rho) + g / rho * (g / rho)) with ((f * f + g * g) / (rho * rho)) by (field; lra). rewrite Hq. field. nra.
        -- intros C. contradiction.
Qed.

(** ** Hessenberg determinants *)
Lemma sgn_mult a b : sgn (a * b) = sgn a * sgn b.
Proof. unfold sgn. repeat match goal with |- context [Rlt_dec ?x ?y] => destruct (Rlt_dec x y) end; try lra; exfalso; nra. Qed.
Definition slog_spec (P ld D : R) (o : outcome (R * R)) : Prop :=
  (D <> 0 -> o = Done (P * sgn D, ld + ln (Rabs D))) /\ (D = 0 -> o = Raises).

Lemma hess_loop_correct M k : forall g, hessenberg (S k) M ->
  exists N, forall fuel P ld, (N <= fuel)%nat -> slog_spec P ld (det (S k) (setcol M k g)) (hess_loop fuel M k g P ld).
Proof.
  induction k as [|k IH]; intros g HM.
  - exists 0%nat. intros fuel P ld _. cbn [hess_loop].
    assert (E : det 1 (setcol M 0 g) = g 0%nat) by (cbn; unfold setcol; cbn; ring). rewrite E.
    destruct (Req_EM_T (g 0%nat) 0); split; intros; try contradiction; reflexivity.
  - destruct (givens_correct (g (S k)) (M (S k) k)) as [N1 [c [s [r [Hg [H1 [H2 [H3 _]]]]]]]].
    set (g' := fun j => if Nat.leb j k then c * M j k - s * g j else g j).
    destruct (IH g') as [N2 HN2]. { intros i j Hi Hj. apply HM; lia. }
    exists (Nat.max N1 N2). intros fuel P ld Hf. cbn [hess_loop]. rewrite Hg by lia. fold g'.
    assert (ED : det (S (S k)) (setcol M (S k) g) = r * det (S k) (setcol M k g')).
    { transitivity (det (S (S k)) (setcol2 M k (fun i => M i k) g)).
      { apply det_ext. intros i j _ _. unfold setcol2, setcol. destruct (Nat.eqb_spec j (S k)), (Nat.eqb_spec j k); subst; reflexivity. }
      assert (Q := det_rotate (S (S k)) M k (fun i => M i k) g c (- s) s c ltac:(lia)).
      replace (c * c - - s * s) with 1 in Q by lra. rewrite Rmult_1_l in Q. rewrite <- Q.
      rewrite det_last.
      - f_equal.
        + unfold setcol2, setcol. rewrite Nat.eqb_refl. lra.
        + apply det_ext. intros i j Hi Hj. unfold setcol2, setcol. destruct (Nat.eqb_spec j (S k)); [lia|].
          destruct (Nat.eqb_spec j k); [|reflexivity]. unfold g'. destruct (Nat.leb_spec i k); [ring|lia].
      - intros j Hj. unfold setcol2, setcol. destruct (Nat.eqb_spec j (S k)); [lia|]. destruct (Nat.eqb_spec j k); [lra|].
        apply HM; lia. }
    rewrite ED. destruct (Req_EM_T r 0) as [->|Hr].
    + split; intros H; [exfalso; apply H; ring|reflexivity].
    + specialize (HN2 fuel (P * sgn r) (ld + ln (Rabs r)) ltac:(lia)). destruct HN2 as [A B]. split; intros H.
      * assert (HD : det (S k) (setcol M k g') <> 0) by (intros C; apply H; rewrite C; ring).
        rewrite A by exact HD. f_equal. f_equal; [rewrite sgn_mult; ring|].
        rewrite Rabs_mult, ln_mult by (apply Rabs_pos_lt; assumption). ring.
      * apply B. apply Rmult_integral in H. destruct H; [contradiction|assumption].
Qed.

Lemma slogdet_hessenberg_correct n M : hessenberg n M ->
  exists N, forall fuel, (N <= fuel)%nat ->
    (det n M <> 0 -> slogdet_hessenberg fuel n M = Done (sgn (det n M), ln (Rabs (det n M)))) /\
    (det n M = 0 -> slogdet_hessenberg fuel n M = Raises).
Proof.
  destruct n as [|k]; intros HM.
  - exists 0%nat. intros fuel _. cbn. split; [intros _|lra]. f_equal. f_equal.
    + unfold sgn. destruct (Rlt_dec 1 0); [lra|]. destruct (Rlt_dec 0 1); lra.
    + rewrite Rabs_R1, ln_1. reflexivity.
  - destruct (hess_loop_correct M k (fun i => M i k) HM) as [N HN]. exists N. intros fuel Hf. specialize (HN fuel 1 0 Hf).
    assert (E : det (S k) (setcol M k (fun i => M i k)) = det (S k) M).
    { apply det_ext. intros i j _ _. unfold setcol. destruct (Nat.eqb_spec j k); subst; reflexivity. }
    unfold slog_spec in HN. rewrite E in HN. destruct HN as [A B]. cbn [slogdet_hessenberg]. split; [|exact B].
    intros H. rewrite A by exact H. f_equal. f_equal; ring.
Qed.

(** detH: right for orders 2 and 3, wrong from order 4 on *)
Lemma detH_small A : hessenberg 3 A -> detH 2 A = Some (det 2 A) /\ detH 3 A = Some (det 3 A).
Proof.
  intros H. assert (H20 := H 2%nat 0%nat ltac:(lia) ltac:(lia)). unfold detH. cbn -[pow]. unfold upd, dropcol. cbn -[pow].
  rewrite H20. split; f_equal; simpl; ring.
Qed.
Definition hess4 (i j : nat) : R :=
  nth j (nth i [[2; 0; 0; 0]; [1; 1; 0; 1]; [0; 1; 1; 0]; [0; 0; 1; 1]] []) 0.
Lemma detH_refuted : hessenberg 4 hess4 /\ det 4 hess4 = 4 /\ detH 4 hess4 = Some 6 /\ detH 1 (fun _ _ => 1) = None.
Proof.
  split; [|split; [|split; [|reflexivity]]].
  - intros i j Hi Hj. destruct i as [|[|[|[|i]]]]; try lia; destruct j as [|[|[|j]]]; try lia; reflexivity.
  - unfold det, dropcol, hess4. cbn. ring.
  - unfold detH. cbn -[pow]. unfold upd, hess4. cbn -[pow]. f_equal. simpl. ring.
Qed.

(** ** LU with complete pivoting *)
Lemma argmax_from_spec f cnt : forall best cur lo, (lo <= best < cur)%nat -> (forall i, (lo <= i < cur)%nat -> f i <= f best) ->
  (lo <= argmax_from f best cur cnt < cur + cnt)%nat /\ forall i, (lo <= i < cur + cnt)%nat -> f i <= f (argmax_from f best cur cnt).
Proof.
  induction cnt as [|cnt IH]; intros best cur lo Hb Hm; cbn [argmax_from].
  - rewrite Nat.add_0_r. split; [lia|exact Hm].
  - destruct (Rlt_dec (f best) (f cur)) as [L|L].
    + destruct (IH cur (S cur) lo) as [A B]; [lia| |].
      * intros i Hi. destruct (Nat.eq_dec i cur) as [->|]; [lra|]. specialize (Hm i ltac:(lia)). lra.
      * split; [lia|]. intros i Hi. apply B. lia.
    + destruct (IH best (S cur) lo) as [A B]; [lia| |].
      * intros i Hi. destruct (Nat.eq_dec i cur) as [->|]; [lra|]. apply Hm. lia.
      * split; [lia|]. intros i Hi. apply B. lia.
Qed.
Lemma argmax_spec f lo hi : (lo < hi)%nat -> (lo <= argmax f lo hi < hi)%nat /\ forall i, (lo <= i < hi)%nat -> f i <= f (argmax f lo hi).
Proof.
  intros H. unfold argmax. destruct (argmax_from_spec f (hi - S lo) lo (S lo) lo) as [A B]; [lia| |].
  - intros i Hi. replace i with lo by lia. lra.
  - replace (S lo + (hi - S lo))%nat with hi in * by lia. split; assumption.
Qed.

Lemma bij_swap n p a b : bij n p -> (a < n)%nat -> (b < n)%nat -> bij n (swapf p a b).
Proof.
  intros [H1 H2] Ha Hb. split.
  - intros i Hi. unfold swapf. destruct (Nat.eqb_spec i a); [auto|]. destruct (Nat.eqb_spec i b); auto.
  - intros i j Hi Hj. unfold swapf. destruct (Nat.eqb_spec i a), (Nat.eqb_spec i b), (Nat.eqb_spec j a), (Nat.eqb_spec j b); subst; intros E; try lia; (apply H2 in E; [lia|assumption|assumption]).
Qed.

Definition Lp (A : nat -> nat -> R) i l : R := if Nat.ltb l i then A i l else if Nat.eqb i l then 1 else 0.
Definition Up (A : nat -> nat -> R) l j : R := if Nat.leb l j then A l j else 0.
Definition lu_inv (A0 : nat -> nat -> R) (n m k : nat) (s : lustate) : Prop :=
  bij n (lup s) /\ bij m (luq s) /\
  (forall i j, (i < n)%nat -> (j < m)%nat ->
    A0 (lup s i) (luq s j) = rsum k (fun l => Lp (luA s) i l * Up (luA s) l j) + (if Nat.leb k i && Nat.leb k j then luA s i j else 0)) /\
  (forall i l, (i < n)%nat -> (l < k)%nat -> (l < i)%nat -> Rabs (luA s i l) <= 1).

Definition piv_max (n m k : nat) (A : nat -> nat -> R) : Prop :=
  forall i j, (k <= i < n)%nat -> (k <= j < m)%nat -> Rabs (A i j) <= Rabs (A k k).

Lemma lu_pivot_inv A0 n m k s : (k < n)%nat -> (k < m)%nat -> lu_inv A0 n m k s ->
  lu_inv A0 n m k (lu_pivot n m k s) /\ piv_max n m k (luA (lu_pivot n m k s)).
Proof.
  intros Hn Hm (B1 & B2 & H & HL).
  set (A := luA s) in *. set (ri := fun j => argmax (fun i => Rabs (A i j)) k n). set (cp := argmax (fun j => Rabs (A (ri j) j)) k m).
  assert (Hri : forall j, (k <= ri j < n)%nat /\ forall i, (k <= i < n)%nat -> Rabs (A i j) <= Rabs (A (ri j) j)).
  { intros j. unfold ri. apply (argmax_spec (fun i => Rabs (A i j)) k n Hn). }
  assert (Hcp : (k <= cp < m)%nat /\ forall j, (k <= j < m)%nat -> Rabs (A (ri j) j) <= Rabs (A (ri cp) cp)).
  { unfold cp. apply (argmax_spec (fun j => Rabs (A (ri j) j)) k m Hm). }
  destruct Hcp as [Hc1 Hc2]. set (rp := ri cp) in *. destruct (Hri cp) as [Hr1 Hr2]. fold rp in Hr1, Hr2.
  change (lu_pivot n m k s) with (mkLu (fun i => swapf (swapf A k rp i) k cp) (swapf (lup s) k rp) (swapf (luq s) k cp)).
  set (rowp := fun i => if Nat.eqb i k then rp else if Nat.eqb i rp then k else i).
  set (colp := fun j => if Nat.eqb j k then cp else if Nat.eqb j cp then k else j).
  assert (EA : forall i j, swapf (swapf A k rp i) k cp j = A (rowp i) (colp j)).
  { intros i j. unfold swapf, rowp, colp. destruct (Nat.eqb i k), (Nat.eqb i rp), (Nat.eqb j k), (Nat.eqb j cp); reflexivity. }
  assert (Ep : forall i, swapf (lup s) k rp i = lup s (rowp i)) by (intros; unfold swapf, rowp; destruct (Nat.eqb i k), (Nat.eqb i rp); reflexivity).
  assert (Eq : forall i, swapf (luq s) k cp i = luq s (colp i)) by (intros; unfold swapf, colp; destruct (Nat.eqb i k), (Nat.eqb i cp); reflexivity).
  assert (Rlow : forall i, (i < k)%nat -> rowp i = i) by (intros i Hi; unfold rowp; destruct (Nat.eqb_spec i k); [lia|]; destruct (Nat.eqb_spec i rp); lia).
  assert (Clow : forall i, (i < k)%nat -> colp i = i) by (intros i Hi; unfold colp; destruct (Nat.eqb_spec i k); [lia|]; destruct (Nat.eqb_spec i cp); lia).
  assert (Rhi : forall i, (k <= i < n)%nat -> (k <= rowp i < n)%nat) by (intros i Hi; unfold rowp; destruct (Nat.eqb_spec i k); [lia|]; destruct (Nat.eqb_spec i rp); lia).
  assert (Chi : forall i, (k <= i < m)%nat -> (k <= colp i < m)%nat) by (intros i Hi; unfold colp; destruct (Nat.eqb_spec i k); [lia|]; destruct (Nat.eqb_spec i cp); lia).
  assert (Rlt' : forall i, (i < n)%nat -> (rowp i < n)%nat /\ (Nat.leb k (rowp i) = Nat.leb k i)).
  { intros i Hi. destruct (lt_dec i k); [rewrite Rlow by assumption; auto|]. specialize (Rhi i ltac:(lia)). split; [lia|]. destruct (Nat.leb_spec k i), (Nat.leb_spec k (rowp i)); try lia; reflexivity. }
  assert (Clt' : forall i, (i < m)%nat -> (colp i < m)%nat /\ (Nat.leb k (colp i) = Nat.leb k i)).
  { intros i Hi. destruct (lt_dec i k); [rewrite Clow by assumption; auto|]. specialize (Chi i ltac:(lia)). split; [lia|]. destruct (Nat.leb_spec k i), (Nat.leb_spec k (colp i)); try lia; reflexivity. }
  split.
  - split; [apply bij_swap; [exact B1|lia|lia]|]. split; [apply bij_swap; [exact B2|lia|lia]|]. cbn [luA lup luq]. split.
    + intros i j Hi Hj. rewrite Ep, Eq. destruct (Rlt' i Hi) as [R1 R2]. destruct (Clt' j Hj) as [C1 C2].
      rewrite H by assumption. rewrite R2, C2. f_equal; [|rewrite EA; reflexivity].
      apply rsum_ext. intros l Hl. f_equal.
      * unfold Lp. rewrite EA. rewrite (Clow l Hl). destruct (lt_dec i k) as [Hik|Hik]; [rewrite (Rlow i Hik); reflexivity|].
        specialize (Rhi i ltac:(lia)). destruct (Nat.ltb_spec l (rowp i)), (Nat.ltb_spec l i); try lia. reflexivity.
      * unfold Up. rewrite EA. rewrite (Rlow l Hl). destruct (lt_dec j k) as [Hik|Hik]; [rewrite (Clow j Hik); reflexivity|].
        specialize (Chi j ltac:(lia)). destruct (Nat.leb_spec l (colp j)), (Nat.leb_spec l j); try lia. reflexivity.
    + intros i l Hi Hl Hli. rewrite EA, (Clow l Hl). destruct (Rlt' i Hi) as [R1 _]. apply HL; [exact R1|exact Hl|].
      destruct (lt_dec i k); [rewrite Rlow by assumption; exact Hli|]. specialize (Rhi i ltac:(lia)). lia.
  - intros i j Hi Hj. cbn [luA]. rewrite !EA.
    assert (Ekk : A (rowp k) (colp k) = A rp cp) by (unfold rowp, colp; rewrite !Nat.eqb_refl; reflexivity). rewrite Ekk.
    apply Rle_trans with (Rabs (A (ri (colp j)) (colp j))); [apply Hri, Rhi; exact Hi|apply Hc2, Chi; exact Hj].
Qed.

Lemma lu_elim_inv A0 n m k s : (k < n)%nat -> (k < m)%nat -> luA s k k <> 0 -> piv_max n m k (luA s) -> lu_inv A0 n m k s ->
  lu_inv A0 n m (S k) (lu_elim n m k s).
Proof.
  intros Hn Hm Hp Hmax (B1 & B2 & H & HL). set (A := luA s) in *. split; [exact B1|]. split; [exact B2|].
  change (lup (lu_elim n m k s)) with (lup s). change (luq (lu_elim n m k s)) with (luq s).
  set (A' := luA (lu_elim n m k s)).
  assert (Esm : forall i j, (i <= k)%nat -> A' i j = A i j).
  { intros i j Hi. unfold A', lu_elim; cbn [luA]; fold A. destruct (Nat.ltb_spec k i); [lia|]. reflexivity. }
  assert (Ecl : forall i j, (j < k)%nat -> A' i j = A i j).
  { intros i j Hj. unfold A', lu_elim; cbn [luA]; fold A. destruct (Nat.ltb_spec k j); [lia|]. destruct (Nat.eqb_spec j k); [lia|]. rewrite !andb_false_r. reflexivity. }
  assert (Ek : forall i, (k < i < n)%nat -> A' i k = A i k / A k k).
  { intros i Hi. unfold A', lu_elim; cbn [luA]; fold A. rewrite Nat.ltb_irrefl, Nat.eqb_refl. destruct (Nat.ltb_spec k i); [|lia]. destruct (Nat.ltb_spec i n); [|lia]. reflexivity. }
  assert (Eb : forall i j, (k < i < n)%nat -> (k < j < m)%nat -> A' i j = A i j - A i k / A k k * A k j).
  { intros i j Hi Hj. unfold A', lu_elim; cbn [luA]; fold A. rewrite !Nat.ltb_irrefl, Nat.eqb_refl. destruct (Nat.ltb_spec k i); [|lia]. destruct (Nat.ltb_spec i n); [|lia].
    destruct (Nat.ltb_spec k j); [|lia]. destruct (Nat.ltb_spec j m); [|lia]. destruct (Nat.eqb_spec j k); [lia|]. reflexivity. }
  split.
  - intros i j Hi Hj. rewrite H by assumption. cbn [rsum].
    assert (ES : rsum k (fun l => Lp A i l * Up A l j) = rsum k (fun l => Lp A' i l * Up A' l j)).
    { apply rsum_ext. intros l Hl. unfold Lp, Up. rewrite (Ecl i l Hl), (Esm l j) by lia. reflexivity. }
    rewrite <- ES. rewrite Rplus_assoc. f_equal. unfold Lp, Up. rewrite (Esm k j) by lia.
    destruct (Nat.leb_spec k i) as [Hki|Hki], (Nat.leb_spec k j) as [Hkj|Hkj]; cbn [andb];
      destruct (Nat.ltb_spec k i), (Nat.eqb_spec i k), (Nat.leb_spec (S k) i), (Nat.leb_spec (S k) j); try lia; cbn [andb]; subst; try ring.
    all: try (assert (j = k) by lia; subst j).
    all: rewrite Ek by lia. all: try (rewrite Eb by lia). all: field; exact Hp.
  - intros i l Hi Hl Hli. destruct (Nat.eq_dec l k) as [->|Hne].
    + rewrite Ek by lia. unfold Rdiv. rewrite Rabs_mult, Rabs_inv.
      apply (Rmult_le_reg_r (Rabs (A k k))); [apply Rabs_pos_lt; exact Hp|]. rewrite Rmult_assoc, Rinv_l by (apply Rabs_no_R0; exact Hp).
      rewrite Rmult_1_r, Rmult_1_l. apply Hmax; lia.
    + rewrite Ecl by lia. apply HL; lia.
Qed.

Lemma lu_loop_inv A0 n m tol cnt : 0 < tol -> forall k s, (k + cnt <= n)%nat -> (k + cnt <= m)%nat -> lu_inv A0 n m k s ->
  let '(s', stop) := lu_loop n m tol k cnt s in
  match stop with
  | None => lu_inv A0 n m (k + cnt) s'
  | Some k' => (k <= k' < k + cnt)%nat /\ lu_inv A0 n m k' s' /\ piv_max n m k' (luA s') /\ Rabs (luA s' k' k') < tol
  end.
Proof.
  intros Ht. induction cnt as [|cnt IH]; intros k s Hn Hm HI; cbn [lu_loop].
  - rewrite Nat.add_0_r. exact HI.
  - destruct (lu_pivot_inv A0 n m k s ltac:(lia) ltac:(lia) HI) as [HI1 Hmax].
    destruct (Rle_dec tol (Rabs (luA (lu_pivot n m k s) k k))) as [Hle|Hlt].
    + assert (Hp : luA (lu_pivot n m k s) k k <> 0) by (intros C; rewrite C, Rabs_R0 in Hle; lra).
      specialize (IH (S k) (lu_elim n m k (lu_pivot n m k s)) ltac:(lia) ltac:(lia) (lu_elim_inv A0 n m k _ ltac:(lia) ltac:(lia) Hp Hmax HI1)).
      destruct (lu_loop n m tol (S k) cnt _) as [s' [k'|]].
      * destruct IH as [A B]. split; [lia|exact B].
      * replace (k + S cnt)%nat with (S k + cnt)%nat by lia. exact IH.
    + split; [lia|]. split; [exact HI1|]. split; [exact Hmax|]. lra.
Qed.
Lemma lu_inv_init A n m : lu_inv A n m 0 (mkLu A (fun i => i) (fun j => j)).
Proof.
  split; [split; auto|]. split; [split; auto|]. split.
  - intros i j _ _. cbn. ring.
  - intros; lia.
Qed.

Lemma rsum_abs_bound n f b : (forall k, (k < n)%nat -> Rabs (f k) <= b) -> Rabs (rsum n f) <= INR n * b.
Proof.
  induction n as [|n IH]; intros H; [cbn; rewrite Rabs_R0; lra|]. cbn [rsum]. rewrite S_INR.
  eapply Rle_trans; [apply Rabs_triang|]. specialize (IH ltac:(intros; apply H; lia)). specialize (H n ltac:(lia)). lra.
Qed.

Lemma lucp_correct n m tol A : 0 < tol ->
  let '(F, stop) := lucp n m tol A in
  let LU := fun i j => rsum (Nat.min n m) (fun l => luL F i l * luU F l j) in
  bij n (resp F) /\ bij m (resq F) /\
  (forall i j, (i < j)%nat -> luL F i j = 0) /\ (forall i, luL F i i = 1) /\ (forall i j, (j < i)%nat -> luU F i j = 0) /\
  (stop = None -> forall i j, (i < n)%nat -> (j < m)%nat -> A (resp F i) (resq F j) = LU i j) /\
  (stop = None -> forall i j, (i < n)%nat -> (j < Nat.min n m)%nat -> Rabs (luL F i j) <= 1) /\
  (forall i j, (i < n)%nat -> (j < m)%nat -> Rabs (A (resp F i) (resq F j) - LU i j) <= tol + INR (Nat.min n m) * (tol * tol)).
Proof.
  intros Ht. unfold lucp.
  assert (Q := lu_loop_inv A n m tol (Nat.min (n - 1) m) Ht 0 _ ltac:(lia) ltac:(lia) (lu_inv_init A n m)).
  destruct (lu_loop n m tol 0 (Nat.min (n - 1) m) _) as [s stop]. cbn [luL luU resp resq].
  change (fun l j => if Nat.leb l j then luA s l j else 0) with (Up (luA s)).
  assert (Base : forall k, lu_inv A n m k s -> bij n (lup s) /\ bij m (luq s)) by (intros k (X & Y & _); auto).
  assert (Tri : (forall i j, (i < j)%nat -> Lp (luA s) i j = 0) /\ (forall i, Lp (luA s) i i = 1) /\ (forall i j, (j < i)%nat -> Up (luA s) i j = 0)).
  { split; [|split].
    - intros i j Hij. unfold Lp. destruct (Nat.ltb_spec j i); [lia|]. destruct (Nat.eqb_spec i j); [lia|reflexivity].
    - intros i. unfold Lp. rewrite Nat.ltb_irrefl, Nat.eqb_refl. reflexivity.
    - intros i j Hij. unfold Up. destruct (Nat.leb_spec i j); [lia|reflexivity]. }
  destruct Tri as [T1 [T2 T3]].
  change (forall i j, (i < j)%nat -> (if Nat.ltb j i then luA s i j else if Nat.eqb i j then 1 else 0) = 0) with (forall i j, (i < j)%nat -> Lp (luA s) i j = 0).
  change (forall i, (if Nat.ltb i i then luA s i i else if Nat.eqb i i then 1 else 0) = 1) with (forall i, Lp (luA s) i i = 1).
  set (LU := fun i j => rsum (Nat.min n m) (fun l => Lp (luA s) i l * Up (luA s) l j)).
  assert (Pos : 0 <= tol + INR (Nat.min n m) * (tol * tol)) by (assert (H := pos_INR (Nat.min n m)); nra).
  destruct stop as [k|].
  - destruct Q as [Hk [HI [Hmax Hs]]]. destruct (Base _ HI) as [B1 B2]. split; [exact B1|]. split; [exact B2|].
    split; [exact T1|]. split; [exact T2|]. split; [exact T3|]. split; [discriminate|]. split; [discriminate|].
    destruct HI as (_ & _ & H & _). intros i j Hi Hj. change (rsum (Nat.min n m) _) with (LU i j).
    rewrite H by assumption. unfold LU. replace (Nat.min n m) with (k + (Nat.min n m - k))%nat at 1 by lia. rewrite rsum_app.
    set (S1 := rsum k _). set (T := rsum (Nat.min n m - k) _).
    destruct (Nat.leb_spec k i) as [Hki|Hki]; cbn [andb].
    2:{ assert (T = 0) as ->; [apply rsum_zero; intros l Hl; rewrite T1 by lia; ring|]. replace (S1 + 0 - (S1 + 0)) with 0 by ring. rewrite Rabs_R0. exact Pos. }
    destruct (Nat.leb_spec k j) as [Hkj|Hkj].
    2:{ assert (T = 0) as ->; [apply rsum_zero; intros l Hl; rewrite T3 by lia; ring|]. replace (S1 + 0 - (S1 + 0)) with 0 by ring. rewrite Rabs_R0. exact Pos. }
    assert (Small : forall a b, (k <= a < n)%nat -> (k <= b < m)%nat -> Rabs (luA s a b) <= tol).
    { intros a b Ha Hb. specialize (Hmax a b Ha Hb). lra. }
    set (d := (Nat.min n m - k)%nat) in *.
    assert (Hd : INR d <= INR (Nat.min n m)) by (apply le_INR; unfold d; lia).
    destruct (le_lt_dec i j) as [Hij|Hij].
    + assert (ET : T = luA s i j + rsum d (fun t => if Nat.eqb (k + t) i then 0 else Lp (luA s) i (k + t) * Up (luA s) (k + t) j)).
      { transitivity (rsum d (fun t => if Nat.eqb t (i - k) then luA s i j else 0) + rsum d (fun t => if Nat.eqb (k + t) i then 0 else Lp (luA s) i (k + t) * Up (luA s) (k + t) j)).
        - rewrite <- rsum_plus. apply rsum_ext. intros t Htd. destruct (Nat.eqb_spec t (i - k)), (Nat.eqb_spec (k + t) i); try lia; [|ring].
          rewrite e0. rewrite T2. unfold Up. destruct (Nat.leb_spec i j); [ring|lia].
        - f_equal. rewrite (rsum_single d _ (i - k)); [rewrite Nat.eqb_refl; reflexivity|unfold d; lia|].
          intros t _ Hne. destruct (Nat.eqb_spec t (i - k)); [contradiction|reflexivity]. }
      replace (S1 + luA s i j - (S1 + T)) with (- (T - luA s i j)) by ring. rewrite Rabs_Ropp.
      replace (T - luA s i j) with (rsum d (fun t => if Nat.eqb (k + t) i then 0 else Lp (luA s) i (k + t) * Up (luA s) (k + t) j)) by lra.
      apply Rle_trans with (INR d * (tol * tol)); [|assert (0 <= tol * tol) by nra; nra].
      apply rsum_abs_bound. intros t Htd. destruct (Nat.eqb_spec (k + t) i); [rewrite Rabs_R0; nra|].
      unfold Lp, Up. destruct (Nat.ltb_spec (k + t) i), (Nat.eqb_spec i (k + t)), (Nat.leb_spec (k + t) j); try lia;
        rewrite ?Rmult_0_l, ?Rmult_0_r, ?Rabs_R0; try nra.
      rewrite Rabs_mult. apply Rmult_le_compat; try apply Rabs_pos; apply Small; lia.
    + assert (HT : Rabs T <= INR d * (tol * tol)).
      { apply rsum_abs_bound. intros t Htd. unfold Lp, Up. destruct (Nat.ltb_spec (k + t) i), (Nat.eqb_spec i (k + t)), (Nat.leb_spec (k + t) j); try lia;
        rewrite ?Rmult_0_l, ?Rmult_0_r, ?Rabs_R0; try nra.
        rewrite Rabs_mult. apply Rmult_le_compat; try apply Rabs_pos; apply Small; lia. }
      replace (S1 + luA s i j - (S1 + T)) with (luA s i j + - T) by ring.
      eapply Rle_trans; [apply Rabs_triang|]. rewrite Rabs_Ropp. specialize (Small i j ltac:(lia) ltac:(lia)). assert (0 <= tol * tol) by nra. nra.
  - destruct (Base _ Q) as [B1 B2]. destruct Q as (_ & _ & H & HL). cbn [Nat.add] in *.
    split; [exact B1|]. split; [exact B2|]. split; [exact T1|]. split; [exact T2|]. split; [exact T3|].
    assert (Ex : forall i j, (i < n)%nat -> (j < m)%nat -> A (lup s i) (luq s j) = LU i j).
    { intros i j Hi Hj. rewrite H by assumption. unfold LU. destruct (le_lt_dec n m) as [Hnm|Hnm].
      - replace (Nat.min (n - 1) m) with (n - 1)%nat by lia. replace (Nat.min n m) with (S (n - 1)) by lia. cbn [rsum]. f_equal.
        destruct (Nat.leb_spec (n - 1) i) as [A1|A1]; cbn [andb].
        + assert (i = n - 1)%nat by lia. subst i. rewrite T2. unfold Up. destruct (Nat.leb (n - 1) j); ring.
        + rewrite T1 by lia. ring.
      - replace (Nat.min (n - 1) m) with m by lia. replace (Nat.min n m) with m by lia.
        destruct (Nat.leb_spec m j); [lia|]. rewrite andb_false_r. ring. }
    split; [intros _; exact Ex|]. split.
    + intros _ i j Hi Hj. change (Rabs (Lp (luA s) i j) <= 1). unfold Lp. destruct (Nat.ltb_spec j i) as [Hji|Hji].
      * apply HL; lia.
      * destruct (Nat.eqb i j); [rewrite Rabs_R1|rewrite Rabs_R0]; lra.
    + intros i j Hi Hj. change (rsum (Nat.min n m) _) with (LU i j). rewrite Ex by assumption.
      replace (LU i j - LU i j) with 0 by ring. rewrite Rabs_R0. exact Pos.
Qed.
