(** Vectors and matrices: basic facts. *)
From Coq Require Import Reals List Arith Lia Lra.
From Verif Require Import Base LASpec BordModel.
Import ListNotations.
Open Scope R_scope.

Lemma vext (a b : list R) : length a = length b -> (forall i, (i < length a)%nat -> nth i a 0 = nth i b 0) -> a = b.
Proof. intros H1 H2. apply (nth_ext _ _ 0 0 H1 H2). Qed.
Lemma vadd_length a b : length b = length a -> length (vadd a b) = length a.
Proof. intros H. unfold vadd. rewrite map_length, combine_length, H. apply Nat.min_id. Qed.
Lemma vsub_length a b : length b = length a -> length (vsub a b) = length a.
Proof. intros H. unfold vsub. rewrite map_length, combine_length, H. apply Nat.min_id. Qed.
Lemma vscal_length k a : length (vscal k a) = length a.
Proof. apply map_length. Qed.
Lemma nth_vscal k a i : nth i (vscal k a) 0 = k * nth i a 0.
Proof. unfold vscal. transitivity (nth i (map (fun x => k * x) a) (k * 0)); [f_equal; ring|]. apply (map_nth (fun x => k * x)). Qed.
Lemma nth_vadd a b i : length b = length a -> nth i (vadd a b) 0 = nth i a 0 + nth i b 0.
Proof.
  intros H. unfold vadd. set (f := fun p : R * R => fst p + snd p). transitivity (nth i (map f (combine a b)) (f (0, 0))); [f_equal; unfold f; cbn; ring|]. rewrite map_nth, combine_nth by congruence. reflexivity.
Qed.
Lemma nth_vsub a b i : length b = length a -> nth i (vsub a b) 0 = nth i a 0 - nth i b 0.
Proof.
  intros H. unfold vsub. set (f := fun p : R * R => fst p - snd p). transitivity (nth i (map f (combine a b)) (f (0, 0))); [f_equal; unfold f; cbn; ring|]. rewrite map_nth, combine_nth by congruence. reflexivity.
Qed.
Lemma zeros_length n : length (zeros n) = n. Proof. apply mk_length. Qed.
Lemma nth_zeros n i : nth i (zeros n) 0 = 0.
Proof. unfold zeros. destruct (Nat.lt_ge_cases i n); [rewrite nth_mk by assumption; reflexivity|apply nth_mk_out; assumption]. Qed.
Lemma mv_length m n A x : length (mv m n A x) = m. Proof. apply mk_length. Qed.
Lemma mv_nth m n A x i : (i < m)%nat -> nth i (mv m n A x) 0 = rsum n (fun j => A i j * nth j x 0).
Proof. intros H. unfold mv. rewrite nth_mk by exact H. reflexivity. Qed.
Lemma mv_ext m n A B x y : (forall i j, (i < m)%nat -> (j < n)%nat -> A i j = B i j) -> (forall j, (j < n)%nat -> nth j x 0 = nth j y 0) -> mv m n A x = mv m n B y.
Proof. intros HA Hx. apply mk_ext. intros i Hi. apply rsum_ext. intros j Hj. rewrite HA, Hx by assumption. reflexivity. Qed.

Ltac vlen := repeat (rewrite ?vadd_length, ?vsub_length, ?vscal_length, ?mv_length, ?zeros_length; try reflexivity; try congruence).
Lemma mv_vadd m n A a b : length b = length a -> mv m n A (vadd a b) = vadd (mv m n A a) (mv m n A b).
Proof.
  intros H. apply vext; [vlen; rewrite !mv_length; reflexivity|]. rewrite mv_length. intros i Hi. rewrite nth_vadd by vlen. rewrite !mv_nth by exact Hi.
  rewrite <- rsum_plus. apply rsum_ext. intros j _. rewrite nth_vadd by exact H. ring.
Qed.
Lemma mv_vsub m n A a b : length b = length a -> mv m n A (vsub a b) = vsub (mv m n A a) (mv m n A b).
Proof.
  intros H. apply vext; [rewrite vsub_length; rewrite !mv_length; reflexivity|]. rewrite mv_length. intros i Hi. rewrite nth_vsub by vlen. rewrite !mv_nth by exact Hi.
  rewrite <- rsum_minus. apply rsum_ext. intros j _. rewrite nth_vsub by exact H. ring.
Qed.
Lemma mv_vscal m n A k a : mv m n A (vscal k a) = vscal k (mv m n A a).
Proof.
  apply vext; [vlen|]. rewrite mv_length. intros i Hi. rewrite nth_vscal, !mv_nth by exact Hi. rewrite <- rsum_scal. apply rsum_ext. intros j _. rewrite nth_vscal. ring.
Qed.
Lemma mv_zeros m n A : mv m n A (zeros n) = zeros m.
Proof. apply vext; [vlen|]. rewrite mv_length. intros i Hi. rewrite mv_nth by exact Hi. rewrite nth_zeros. apply rsum_zero. intros j _. rewrite nth_zeros. ring. Qed.

Lemma dotp_ext a b c : length b = length c -> (forall i, nth i b 0 = nth i c 0) -> dotp a b = dotp a c.
Proof. intros _ H. apply rsum_ext. intros i _. rewrite H. reflexivity. Qed.
Lemma dotp_comm a b : length a = length b -> dotp a b = dotp b a.
Proof. intros H. unfold dotp. rewrite H. apply rsum_ext. intros; ring. Qed.
Lemma dotp_vadd_r a b c : length c = length b -> dotp a (vadd b c) = dotp a b + dotp a c.
Proof. intros H. unfold dotp. rewrite <- rsum_plus. apply rsum_ext. intros i _. rewrite nth_vadd by exact H. ring. Qed.
Lemma dotp_vsub_r a b c : length c = length b -> dotp a (vsub b c) = dotp a b - dotp a c.
Proof. intros H. unfold dotp. rewrite <- rsum_minus. apply rsum_ext. intros i _. rewrite nth_vsub by exact H. ring. Qed.
Lemma dotp_vscal_r a k b : dotp a (vscal k b) = k * dotp a b.
Proof. unfold dotp. rewrite <- rsum_scal. apply rsum_ext. intros i _. rewrite nth_vscal. ring. Qed.
Lemma dotp_vadd_l a b c : length b = length a -> dotp (vadd a b) c = dotp a c + dotp b c.
Proof. intros H. unfold dotp. rewrite vadd_length, H by exact H. rewrite <- rsum_plus. apply rsum_ext. intros i _. rewrite nth_vadd by exact H. ring. Qed.
Lemma dotp_vsub_l a b c : length b = length a -> dotp (vsub a b) c = dotp a c - dotp b c.
Proof. intros H. unfold dotp. rewrite vsub_length, H by exact H. rewrite <- rsum_minus. apply rsum_ext. intros i _. rewrite nth_vsub by exact H. ring. Qed.
Lemma dotp_vscal_l a k b : dotp (vscal k a) b = k * dotp a b.
Proof. unfold dotp. rewrite vscal_length. rewrite <- rsum_scal. apply rsum_ext. intros i _. rewrite nth_vscal. ring. Qed.
Lemma dotp_zeros_r a n : dotp a (zeros n) = 0.
Proof. apply rsum_zero. intros i _. rewrite nth_zeros. ring. Qed.
Lemma dotp_app a b x y : length a = length b -> dotp (a ++ [x]) (b ++ [y]) = dotp a b + x * y.
Proof.
  intros H. unfold dotp. rewrite app_length. cbn [length]. rewrite Nat.add_1_r. cbn [rsum]. f_equal.
  - apply rsum_ext. intros i Hi. rewrite !app_nth1 by lia. reflexivity.
  - rewrite !app_nth2 by lia. rewrite H, !Nat.sub_diag. reflexivity.
Qed.
Lemma dotp_mv m n A x y : length x = n -> length y = m -> dotp (mv m n A x) y = dotp x (mv n m (transp A) y).
Proof.
  intros Hx Hy. unfold dotp. rewrite mv_length, Hx.
  rewrite (rsum_ext m _ (fun i => rsum n (fun j => A i j * nth j x 0 * nth i y 0))).
  2:{ intros i Hi. rewrite mv_nth by exact Hi. rewrite <- rsum_scal_r. reflexivity. }
  rewrite rsum_swap. apply rsum_ext. intros j Hj. rewrite mv_nth by exact Hj. rewrite <- rsum_scal. apply rsum_ext. intros i _. unfold transp. ring.
Qed.
Lemma dotp_pos a : 0 <= dotp a a.
Proof. apply rsum_nonneg. intros. nra. Qed.
Lemma dotp_zero a : dotp a a = 0 -> a = zeros (length a).
Proof.
  intros H. apply vext; [rewrite zeros_length; reflexivity|]. intros i Hi. rewrite nth_zeros. unfold dotp in H.
  assert (G : forall n f, (forall k, (k < n)%nat -> 0 <= f k) -> rsum n f = 0 -> forall k, (k < n)%nat -> f k = 0).
  { clear. induction n as [|n IH]; intros f Hp Hs k Hk; [lia|]. cbn [rsum] in Hs. assert (P := Hp n ltac:(lia)).
    assert (Q : 0 <= rsum n f) by (apply rsum_nonneg; intros; apply Hp; lia). destruct (Nat.eq_dec k n); [subst; lra|]. apply IH; [intros; apply Hp; lia|lra|lia]. }
  specialize (G _ _ (fun k _ => Rle_0_sqr (nth k a 0)) H i Hi). apply Rsqr_0_uniq. exact G.
Qed.

(** bordered matrices *)
Lemma nth_snoc (x : list R) z i : nth i (x ++ [z]) 0 = if Nat.ltb i (length x) then nth i x 0 else if Nat.eqb i (length x) then z else 0.
Proof.
  destruct (Nat.ltb_spec i (length x)); [apply app_nth1; assumption|]. rewrite app_nth2 by assumption. destruct (Nat.eqb_spec i (length x)).
  - subst. rewrite Nat.sub_diag. reflexivity.
  - destruct (i - length x)%nat as [|p] eqn:E; [lia|]. destruct p; reflexivity.
Qed.
Lemma mv_bord n A b c d x z : length x = n -> length b = n -> length c = n ->
  mv (S n) (S n) (bord n A b c d) (x ++ [z]) = vadd (mv n n A x) (vscal z c) ++ [dotp b x + d * z].
Proof.
  intros Hx Hb Hc. apply vext; [rewrite app_length, vadd_length, !mv_length; cbn [length]; [lia|rewrite vscal_length, mv_length; exact Hc]|].
  rewrite mv_length. intros i Hi. rewrite mv_nth by exact Hi. cbn [rsum]. rewrite nth_snoc, (nth_snoc (vadd _ _)).
  rewrite vadd_length by (rewrite vscal_length, mv_length; exact Hc). rewrite mv_length, Hx.
  rewrite Nat.ltb_irrefl, Nat.eqb_refl. unfold bord at 2. rewrite Nat.ltb_irrefl.
  destruct (Nat.ltb_spec i n) as [H|H].
  - rewrite nth_vadd by (rewrite vscal_length, mv_length; exact Hc). rewrite mv_nth by exact H. rewrite nth_vscal, (Rmult_comm z). f_equal.
    apply rsum_ext. intros j Hj. unfold bord. rewrite nth_snoc, Hx. destruct (Nat.ltb_spec i n), (Nat.ltb_spec j n); try lia. reflexivity.
  - assert (i = n) by lia. subst i. rewrite Nat.eqb_refl. f_equal. unfold dotp. rewrite Hb.
    apply rsum_ext. intros j Hj. unfold bord. rewrite nth_snoc, Hx. destruct (Nat.ltb_spec n n), (Nat.ltb_spec j n); try lia. reflexivity.
Qed.
Lemma transp_bord n A b c d i j : transp (bord n A b c d) i j = bord n (transp A) c b d i j.
Proof. unfold transp, bord. destruct (Nat.ltb i n), (Nat.ltb j n); reflexivity. Qed.
Lemma mv_bord_t n A b c d x z : length x = n -> length b = n -> length c = n ->
  mv (S n) (S n) (transp (bord n A b c d)) (x ++ [z]) = vadd (mv n n (transp A) x) (vscal z b) ++ [dotp c x + d * z].
Proof. intros Hx Hb Hc. rewrite <- mv_bord by assumption. apply mv_ext; [intros; apply transp_bord|reflexivity]. Qed.
Lemma snoc_split (r : list R) n : length r = S n -> exists f h, r = f ++ [h] /\ length f = n /\ removelast r = f /\ last r 0 = h.
Proof.
  intros H. exists (removelast r), (last r 0). assert (r <> []) by (intros ->; discriminate). rewrite <- (app_removelast_last 0) by assumption. repeat split.
  assert (E : length (removelast r ++ [last r 0]) = S n) by (rewrite <- app_removelast_last; assumption). rewrite app_length in E. cbn [length] in E. lia.
Qed.
Lemma snoc_inj (a b : list R) x y : a ++ [x] = b ++ [y] -> a = b /\ x = y.
Proof. intros H. apply app_inj_tail in H. exact H. Qed.
Lemma zeros_S n : zeros (S n) = zeros n ++ [0].
Proof. apply vext; [rewrite app_length, !zeros_length; cbn; lia|]. intros i _. rewrite nth_zeros, nth_snoc, nth_zeros. destruct (Nat.ltb i (length (zeros n))), (Nat.eqb i (length (zeros n))); reflexivity. Qed.
