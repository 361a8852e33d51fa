(** QRCholesky.detH and refutations. *)
From Coq Require Import Reals List Arith Lia Lra Bool Permutation.
From Verif Require Import Base LASpec BordModel BordSpec LABase BordProofs DetSpec DetMath LinModel LinProofs SwapSpec Swaps QRModel QRSpec QRProofs QRDet CholModel CholProofs.
Import ListNotations.
Open Scope R_scope.

Lemma perm_of_nth n l : length l = n -> (forall k, (k < n)%nat -> (nth k l 0 < n)%nat) -> (forall i j, (i < n)%nat -> (j < n)%nat -> nth i l 0%nat = nth j l 0%nat -> i = j) -> Permutation (seq 0 n) l.
Proof.
  intros L B I. symmetry. apply NoDup_Permutation_bis.
  - apply NoDup_nth with (d := 0%nat). rewrite L. exact I.
  - rewrite seq_length. lia.
  - intros x Hx. apply (In_nth _ _ 0%nat) in Hx. destruct Hx as [k [Hk <-]]. apply in_seq. rewrite L in Hk. specialize (B k Hk). lia.
Qed.
Lemma close_up_inj td a b : a <> td -> b <> td -> close_up td a = close_up td b -> a = b.
Proof. unfold close_up. destruct (Nat.ltb_spec td a), (Nat.ltb_spec td b); lia. Qed.
Lemma detH_perm_ok m P : Permutation (seq 0 (S m)) P -> let td := nth m P 0%nat in
  last P 0%nat = td /\ Permutation (seq 0 m) (detH_perm P) /\
  forall k, (k < m)%nat -> nth k (detH_perm P) 0%nat = close_up td (nth k P 0%nat) /\ nth k P 0%nat <> td.
Proof.
  intros HP. assert (LP := perm_len _ P HP). assert (NDP := perm_nd _ P HP). assert (HB := perm_lt _ P HP). cbv zeta.
  assert (Hne : P <> []) by (intros Z; rewrite Z in LP; discriminate). destruct (exists_last Hne) as [l [td E]]. subst P. rewrite app_length in LP. cbn in LP. assert (Ll : length l = m) by lia.
  assert (Etd : nth m (l ++ [td]) 0%nat = td) by (rewrite app_nth2 by lia; rewrite Ll, Nat.sub_diag; reflexivity). rewrite Etd. rewrite last_last. split; [reflexivity|].
  assert (Hnt : forall k, (k < m)%nat -> nth k l 0%nat <> td).
  { intros k Hk Z. assert (k = m); [|lia]. apply (proj1 (NoDup_nth _ 0%nat) NDP); [rewrite app_length; cbn; lia|rewrite app_length; cbn; lia|]. rewrite Etd, app_nth1 by lia. exact Z. }
  assert (ED : detH_perm (l ++ [td]) = map (close_up td) l).
  { unfold detH_perm. rewrite last_last. f_equal. rewrite filter_app. cbn [filter]. rewrite Nat.eqb_refl. cbn [negb]. rewrite app_nil_r.
    clear - Hnt Ll. revert m Hnt Ll. induction l as [|a l IH]; intros m Hnt Ll; [reflexivity|]. cbn [filter]. assert (H0 := Hnt 0%nat). cbn in Ll. destruct (Nat.eqb_spec a td) as [Z|Z]; [exfalso; apply H0; [lia|exact Z]|]. cbn [negb]. f_equal.
    apply (IH (length l)); [|reflexivity]. intros k Hk. apply (Hnt (S k)). lia. }
  rewrite ED. assert (EN : forall k, (k < m)%nat -> nth k (map (close_up td) l) 0%nat = close_up td (nth k l 0%nat)).
  { intros k Hk. rewrite (nth_indep _ 0%nat (close_up td 0)) by (rewrite map_length; lia). apply map_nth. }
  assert (HL : forall k, (k < m)%nat -> (nth k l 0 < S m)%nat) by (intros k Hk; specialize (HB k ltac:(lia)); rewrite app_nth1 in HB by lia; exact HB).
  assert (Htd : (td < S m)%nat) by (specialize (HB m ltac:(lia)); rewrite Etd in HB; exact HB).
  split.
  - apply perm_of_nth; [rewrite map_length; exact Ll| |].
    + intros k Hk. rewrite EN by exact Hk. specialize (HL k Hk). specialize (Hnt k Hk). unfold close_up. destruct (Nat.ltb_spec td (nth k l 0%nat)); lia.
    + intros i j Hi Hj Eij. rewrite !EN in Eij by assumption. apply close_up_inj in Eij; [|apply Hnt, Hi|apply Hnt, Hj].
      apply (proj1 (NoDup_nth _ 0%nat) NDP); [rewrite app_length; lia|rewrite app_length; lia|]. rewrite !app_nth1 by lia. exact Eij.
  - intros k Hk. rewrite app_nth1 by lia. split; [apply EN, Hk|apply Hnt, Hk].
Qed.
(** detH is the determinant of the first m columns; when it is zero: ValueError *)
Lemma chol_detH_correct m A h Rm C : qr_fact m (S m) A h Rm C ->
  exists N, forall fuel, (N <= fuel)%nat ->
    (det m A <> 0 -> chol_detH fuel m h Rm C = Done (det m A)) /\ (det m A = 0 -> chol_detH fuel m h Rm C = Raises).
Proof.
  intros HF. assert (HP : Permutation (seq 0 (S m)) C) by apply HF. assert (Hr : Forall (reflector m) h) by apply HF. assert (PP := argsort_perm _ C HP).
  set (P := argsort C) in *. destruct (detH_perm_ok m P PP) as [E1 [HQ EQ]]. set (td := nth m P 0%nat) in *.
  set (H := fun i j => Rm i (if Nat.ltb j td then j else S j)).
  assert (HH : hessenberg m H). { intros i j Hi Hj. unfold H. apply HF; [lia|]. destruct (Nat.ltb_spec j td); lia. }
  destruct (det_perm m (mmul m (qmat m h) H) (detH_perm P) HQ) as [c [Ec Ed]]. rewrite det_mul, det_qmat in Ed by exact Hr.
  assert (EA : det m (fun i j => mmul m (qmat m h) H i (nth j (detH_perm P) 0%nat)) = det m A).
  { apply det_ext. intros i j Hi Hj. destruct (EQ j Hj) as [Q1 Q2]. rewrite Q1. assert (Hj' : (j < S m)%nat) by lia. destruct (C_argsort _ C HP j Hj') as [L1 L2]. fold P in L1, L2.
    destruct HF as [_ [_ [_ [_ [_ Hc]]]]]. assert (Q := f_equal (fun l => nth i l 0) (Hc _ L1)). cbn beta in Q. rewrite L2 in Q. unfold column in Q at 1. rewrite nth_mk in Q by exact Hi. rewrite Q.
    rewrite (orm_col m) by (try exact Hr; try exact Hi; apply mk_length). unfold mmul, column. apply rsum_ext. intros q Hq. rewrite nth_mk by exact Hq. f_equal. unfold H, close_up. f_equal.
    destruct (Nat.ltb_spec td (nth j P 0%nat)).
    - destruct (Nat.ltb_spec (nth j P 0%nat - 1)%nat td); lia.
    - destruct (Nat.ltb_spec (nth j P 0%nat) td); lia. }
  rewrite EA in Ed. set (k := length (filter tau_nz h)) in *.
  assert (Ek : length (filter tau_nz (removelast h)) = k).
  { destruct h as [|x h']; [reflexivity|]. apply filter_removelast; [discriminate|apply HF]. }
  destruct (slogdet_hessenberg_correct m H HH) as [N HN]. exists N. intros fuel Hf. destruct (HN fuel Hf) as [N1 N2].
  unfold chol_detH. fold P. cbv zeta. rewrite Ec, E1. fold H. rewrite Ek. split; intros Hd.
  - assert (HdH : det m H <> 0) by (intros Z; apply Hd; rewrite Ed, Z; ring). rewrite (N1 HdH). f_equal. rewrite exp_ln by (apply Rabs_pos_lt, HdH).
    rewrite Rmult_assoc. replace (sgn (det m H) * Rabs (det m H)) with (det m H). { rewrite pow_add, Ed. ring. }
    unfold sgn, Rabs. destruct (Rlt_dec (det m H) 0), (Rcase_abs (det m H)); try lra. destruct (Rlt_dec 0 (det m H)); lra.
  - assert (HdH : det m H = 0). { rewrite Ed in Hd. apply Rmult_integral in Hd. destruct Hd as [Z|Z]; [exfalso; revert Z; apply pow_nonzero; lra|]. apply Rmult_integral in Z. destruct Z as [Z|Z]; [exfalso; revert Z; apply pow_nonzero; lra|exact Z]. }
    rewrite (N2 HdH). reflexivity.
Qed.
Lemma chol_det_square n A h Rm C : qr_fact n n A h Rm C -> chol_det n n h Rm C = Some (det n A).
Proof. intros HF. apply (qr_det_square n A h Rm C 0 HF). Qed.
Lemma chol_solves_thm r p A h Rm C L b : qr_fact r (r + p) A h Rm C -> (forall i, (i < r)%nat -> Rm i i <> 0) -> length b = r ->
  length (chol_solve_sing (chol_new r (r + p) h Rm C r L) b) = (r + p)%nat /\ mv r (r + p) A (chol_solve_sing (chol_new r (r + p) h Rm C r L) b) = b.
Proof. intros HF Hd Lb. apply (chol_solves r p A h Rm C L HF Hd b Lb). Qed.
(** rank deficiency two: not the shortest solution.  The Cholesky factor is
    applied in the wrong order: L L^T instead of L^T L *)
Definition A13 : rmat := fun i j => match j with 0%nat => 1 | 1%nat => 3 / 4 | _ => 15 / 16 end.
Definition L2 : rmat := fun i j => match i, j with 0%nat, 0%nat => 5 / 4 | 0%nat, _ => 9 / 16 | _, 0%nat => 0 | _, _ => 5 / 4 end.
Lemma A13_fact : qr_fact 1 (1 + 2) A13 [(0, [0])] A13 [0; 1; 2]%nat.
Proof.
  split; [reflexivity|]. split; [constructor; [split; [reflexivity|left; reflexivity]|constructor]|]. split; [reflexivity|]. split; [intros [|i] j Hi Hj; lia|]. split; [reflexivity|].
  intros [|[|[|j]]] Hj; [| | |lia]; unfold column, mk, ormqr_N, hstep, vsub, vscal, dotp; cbn; repeat (apply f_equal2; [ring|]); reflexivity.
Qed.
Lemma chol_not_min_norm : exists A h Rm C L, let s := chol_new 1 (1 + 2) h Rm C 1 L in
  qr_fact 1 (1 + 2) A h Rm C /\ Rm 0%nat 0%nat <> 0 /\
  (forall a c, (a < 2)%nat -> (c < a)%nat -> L a c = 0) /\ (forall a, (a < 2)%nat -> 0 < L a a) /\
  (forall a c, (a < 2)%nat -> (c < 2)%nat -> rsum 2 (fun k => L k a * L k c) = chol_M s a c) /\
  exists v, length v = 3%nat /\ mv 1 3 A v = [1] /\ dotp v v < dotp (chol_solve_sing s [1]) (chol_solve_sing s [1]).
Proof.
  exists A13, [(0, [0])], A13, [0; 1; 2]%nat, L2. cbv zeta. split; [exact A13_fact|]. split; [cbn; lra|]. split; [intros [|[|a]] [|[|c]]; intros; try lia; reflexivity|].
  split; [intros [|[|a]] Ha; [cbn; lra|cbn; lra|lia]|]. split.
  - intros [|[|a]] [|[|c]] Ha Hc; try lia; unfold chol_M, jbar; cbn; field.
  - exists [1 / (1 + 9 / 16 + 225 / 256); 3 / 4 / (1 + 9 / 16 + 225 / 256); 15 / 16 / (1 + 9 / 16 + 225 / 256)]. split; [reflexivity|]. split; [unfold mv, mk; cbn; f_equal; field|].
    assert (E : chol_solve_sing (chol_new 1 (1 + 2) [(0, [0])] A13 [0; 1; 2]%nat 1 L2) [1] = [1 - 3 / 4 * (21 / 100) - 15 / 16 * (1011 / 2000); 21 / 100; 1011 / 2000]).
    { unfold chol_solve_sing. cbn. unfold gather, vsub, vscal, hstep, dotp, mv, mk, jbar, transp. cbn. repeat (apply f_equal2; [field|]). reflexivity. }
    rewrite E. unfold dotp. cbn. lra.
Qed.
(** ** pseudo_rank *)
Lemma first_small_spec r r0 eps : forall i, match first_small r r0 eps i with
  | None => forall k, (k < length r)%nat -> r0 * eps < nth k r 0 / r0
  | Some j => (i <= j)%nat /\ (j - i < length r)%nat /\ nth (j - i) r 0 / r0 <= r0 * eps /\ forall k, (k < j - i)%nat -> r0 * eps < nth k r 0 / r0 end.
Proof.
  induction r as [|x r IH]; intros i; cbn [first_small]; [intros k Hk; cbn in Hk; lia|]. destruct (Rle_dec (x / r0) (r0 * eps)) as [H|H].
  - split; [lia|]. rewrite Nat.sub_diag. split; [cbn; lia|]. split; [exact H|]. intros k Hk. lia.
  - specialize (IH (S i)). destruct (first_small r r0 eps (S i)) as [j|].
    + destruct IH as [I1 [I2 [I3 I4]]]. split; [lia|]. replace (j - i)%nat with (S (j - S i)) by lia. split; [cbn; lia|]. split; [exact I3|]. intros [|k] Hk; [cbn; lra|]. cbn [nth]. apply I4. lia.
    + intros [|k] Hk; [cbn; lra|]. cbn [nth length] in *. apply IH. lia.
Qed.
(** what it computes: the first diagonal entry at or below eps times the SQUARE of the first *)
Lemma pseudo_rank_spec r eps : r <> [] -> 0 < nth 0 r 0 -> let k := pseudo_rank r eps in
  (1 <= k <= length r)%nat /\ (forall i, (1 <= i < k)%nat -> eps * (nth 0 r 0 * nth 0 r 0) < nth i r 0) /\
  ((k < length r)%nat -> nth k r 0 <= eps * (nth 0 r 0 * nth 0 r 0)).
Proof.
  intros Hne H0. destruct r as [|r0 r]; [contradiction|]. cbn [nth] in H0. cbv zeta. unfold pseudo_rank. assert (Q := first_small_spec r r0 eps 0). cbn [nth].
  assert (K1 : forall x, r0 * eps < x / r0 -> eps * (r0 * r0) < x). { intros x Hx. apply (Rmult_lt_compat_r r0) in Hx; [|exact H0]. replace (x / r0 * r0) with x in Hx by (field; lra). lra. }
  assert (K2 : forall x, x / r0 <= r0 * eps -> x <= eps * (r0 * r0)). { intros x Hx. apply (Rmult_le_compat_r r0) in Hx; [|lra]. replace (x / r0 * r0) with x in Hx by (field; lra). lra. }
  destruct (first_small r r0 eps 0) as [j|].
  - rewrite Nat.sub_0_r in Q. destruct Q as [_ [Q2 [Q3 Q4]]]. cbn [length]. split; [lia|]. split; [intros [|i] Hi; [lia|]; cbn [nth]; apply K1, Q4; lia|]. intros _. cbn [nth]. apply K2, Q3.
  - split; [cbn; lia|]. split; [|cbn; lia]. intros [|i] Hi; [lia|]. cbn [nth length] in *. apply K1, Q. lia.
Qed.
(** scaling the matrix changes the answer *)
Lemma pseudo_rank_scale : pseudo_rank [1000000; 1] (/ 10000000000) = 1%nat /\ pseudo_rank [1; / 1000000] (/ 10000000000) = 2%nat.
Proof.
  unfold pseudo_rank, first_small. split.
  - destruct (Rle_dec (1 / 1000000) (1000000 * / 10000000000)); [reflexivity|lra].
  - destruct (Rle_dec (/ 1000000 / 1) (1 * / 10000000000)); [lra|reflexivity].
Qed.
