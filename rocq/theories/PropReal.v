(** C165: with one coefficient the linear system is the linearised operator on constants. *)
From Coq Require Import Reals List Arith Bool ZArith Lra Lia.
From Coquelicot Require Import Coquelicot.
From Verif Require Import Base ChebSpec ChebMath ChebModel ChebEval FunModel FunProofs OpModel OpSpec OpSys OpArith SrcModel PropSrc RealModel PropCts.
Import ListNotations.
Open Scope R_scope.

(** all coefficients of the operator are constants (the linearisation at a constant state of equations without explicit x) *)
Definition const_block (q : qblock) : Prop :=
  q_coeffs q <> [] /\ List.Forall (fun c => length c = 1%nat) (q_coeffs q) /\ List.Forall (fun c => length c = 1%nat) (q_ics q) /\ List.Forall (fun c => length c = 1%nat) (q_ints q) /\ length (q_ics q) = length (q_ints q).
Definition const_sys (m : nat) (X : sysop) : Prop :=
  length X = m /\ forall e, (e < m)%nat -> length (nth e X []) = m /\ forall q, (q < m)%nat -> const_block (blk X e q).
Definition c0 (c : list R) : R := nth 0 c 0.
Lemma ufun1 a b c x : length c = 1%nat -> ufun a b c x = c0 c.
Proof. destruct c as [|y [|z c]]; cbn; intros; try lia. unfold ufun, evalT, c0. cbn. ring. Qed.
Lemma F_nth {A} (P : A -> Prop) l d k : List.Forall P l -> (k < length l)%nat -> P (nth k l d).
Proof. intros H Hk. rewrite List.Forall_forall in H. apply H, nth_In, Hk. Qed.
Lemma loop_val ics : forall ints acc, List.Forall (fun c => length c = 1%nat) ics -> List.Forall (fun c => length c = 1%nat) ints -> length ics = length ints ->
  real_loop acc ics ints = Some (acc + rsum (length ics) (fun k => c0 (nth k ics []) * c0 (nth k ints []))).
Proof.
  induction ics as [|c ics IH]; intros ints acc H1 H2 L; [cbn; f_equal; ring|]. destruct ints as [|d ints]; [discriminate|]. inversion H1; subst. inversion H2; subst.
  destruct c as [|x [|? ?]]; [discriminate| |discriminate]. destruct d as [|y [|? ?]]; [discriminate| |discriminate]. cbn [real_loop item length].
  rewrite IH by (try assumption; cbn in L; lia). rewrite rsum_S_l. change (c0 (nth 0 ([x] :: ics) [])) with x. change (c0 (nth 0 ([y] :: ints) [])) with y. f_equal. cbn [nth]. ring.
Qed.
Lemma entry_val q : const_block q -> real_entry q = Some (c0 (nth 0 (q_coeffs q) []) + rsum (length (q_ics q)) (fun k => c0 (nth k (q_ics q) []) * c0 (nth k (q_ints q) []))).
Proof.
  intros (H1 & H2 & H3 & H4 & H5). unfold real_entry. destruct (q_coeffs q) as [|c cs]; [contradiction|]. inversion H2; subst. cbn [nth]. destruct c as [|x [|? ?]]; [discriminate| |discriminate]. cbn [prolong1 length item]. apply loop_val; assumption.
Qed.
Lemma lin_const a b q d x : const_block q ->
  lin_op a b (q_coeffs q) (q_ics q) (q_ints q) (ufun a b [d]) x = (c0 (nth 0 (q_coeffs q) []) + rsum (length (q_ics q)) (fun k => c0 (nth k (q_ics q) []) * c0 (nth k (q_ints q) [])) * (b - a)) * d.
Proof.
  intros (H1 & H2 & H3 & H4 & H5). unfold lin_op. assert (U : forall y, ufun a b [d] y = d) by (intros y; rewrite ufun1 by reflexivity; reflexivity).
  destruct (q_coeffs q) as [|c cs] eqn:E; [contradiction|]. cbn [length]. rewrite rsum_S_l. cbn [nth]. change (Derive_n (ufun a b [d]) 0 x) with (ufun a b [d] x). inversion H2; subst. rewrite U, ufun1 by assumption.
  rewrite (rsum_zero (length cs)).
  - rewrite Rplus_0_r, Rmult_plus_distr_r. f_equal. rewrite Rmult_assoc, (Rmult_comm (rsum _ _)), <- rsum_scal. apply rsum_ext. intros k Hk. rewrite ufun1 by (apply F_nth; assumption).
    rewrite (RInt_ext _ (fun _ => c0 (nth k (q_ints q) []) * d)) by (intros y _; rewrite U, ufun1 by (apply F_nth; [assumption|lia]); reflexivity). rewrite RInt_const. unfold scal; cbn; unfold mult; cbn. ring.
  - intros j Hj. rewrite (Derive_n_ext _ (fun _ => d) (S j) x U), Derive_n_const. ring.
Qed.
Lemma matrix_val m X : const_sys m X -> exists M, real_matrix X = Some M /\ length M = m /\ forall e, (e < m)%nat -> length (nth e M []) = m /\ forall q, (q < m)%nat -> real_entry (blk X e q) = Some (nth q (nth e M []) 0).
Proof.
  intros [L H]. assert (RW : forall e, (e < m)%nat -> exists r, real_row (nth e X []) = Some r).
  { intros e He. destruct (H e He) as [Le Hq]. unfold real_row. apply all_some_map. intros q Hin. destruct (In_nth _ _ qnone Hin) as (i & Hi & <-). rewrite Le in Hi. specialize (Hq i Hi). unfold blk in Hq. eexists. apply (entry_val _ Hq). }
  assert (EX : exists M, real_matrix X = Some M).
  { unfold real_matrix. apply all_some_map. intros r Hin. destruct (In_nth _ _ [] Hin) as (i & Hi & <-). apply (RW i). lia. }
  destruct EX as (M & EM). exists M. split; [exact EM|]. unfold real_matrix in EM. destruct (all_some_nth _ _ EM) as [LM HM]. rewrite map_length in LM, HM. split; [lia|]. intros e He.
  specialize (HM e (real_row []) [] ltac:(lia)). rewrite (map_nth real_row) in HM. unfold real_row in HM. destruct (all_some_nth _ _ HM) as [LR HR]. rewrite map_length in LR, HR. destruct (H e He) as [Le _]. split; [lia|].
  intros q Hq. specialize (HR q (real_entry qnone) 0 ltac:(lia)). rewrite (map_nth real_entry) in HR. exact HR.
Qed.

(** C165: the exact difference between the matrix applied to constants and the operator applied to them. *)
Theorem C165_matrix_partial : forall a b m X D, const_sys m X -> length D = m ->
  exists M, real_matrix X = Some M /\ length M = m /\ forall e x, (e < m)%nat -> length (nth e M []) = m /\
    rsum m (fun q => nth q (nth e M []) 0 * nth q D 0) =
    sys_op a b m (blk X) (map (fun d => [d]) D) e x +
    (1 - (b - a)) * rsum m (fun q => rsum (length (q_ics (blk X e q))) (fun k => nth 0 (nth k (q_ics (blk X e q)) []) 0 * nth 0 (nth k (q_ints (blk X e q)) []) 0) * nth q D 0).
Proof.
  intros a b m X D H LD. destruct (matrix_val m X H) as (M & EM & LM & HM). exists M. split; [exact EM|]. split; [exact LM|]. intros e x He. destruct (HM e He) as [LR HR]. split; [exact LR|].
  unfold sys_op. rewrite <- rsum_scal, <- rsum_plus. apply rsum_ext. intros q Hq. specialize (HR q Hq). destruct H as [_ H]. destruct (H e He) as [_ HC]. specialize (HC q Hq). rewrite (entry_val _ HC) in HR. injection HR as <-.
  rewrite (nth_indep (map (fun d => [d]) D) [] ([0])) by (rewrite map_length; lia). rewrite (map_nth (fun d => [d]) D 0 q). rewrite (lin_const a b _ _ x HC). unfold c0. ring.
Qed.
Print Assumptions C165_matrix_partial.
(** C165: so on a domain of length one, or without integral terms, a vector solves the matrix equation exactly if the constants solve the linearised equations. *)
Theorem C165_solution_partial : forall a b m X D r, const_sys m X -> length D = m ->
  (b - a = 1 \/ forall e q, (e < m)%nat -> (q < m)%nat -> q_ics (blk X e q) = []) ->
  exists M, real_matrix X = Some M /\ forall e x, (e < m)%nat -> (rsum m (fun q => nth q (nth e M []) 0 * nth q D 0) = r <-> sys_op a b m (blk X) (map (fun d => [d]) D) e x = r).
Proof.
  intros a b m X D r H LD HC. destruct (C165_matrix_partial a b m X D H LD) as (M & EM & _ & HM). exists M. split; [exact EM|]. intros e x He. destruct (HM e x He) as [_ ->].
  replace ((1 - (b - a)) * _) with 0; [rewrite Rplus_0_r; reflexivity|]. destruct HC as [->|HC]; [ring|]. rewrite rsum_zero; [ring|]. intros q Hq. rewrite (HC e q He Hq). cbn. ring.
Qed.
Print Assumptions C165_solution_partial.
(** C165: on every domain of another length the integral of a constant is taken to be the constant: the operator u + int(u) is represented by the matrix of u + int(u)/(b-a). *)
Theorem C165_length_refuted : forall a b d x, a < b -> b - a <> 1 -> d <> 0 ->
  let X := [[mkQ [true; true] [[1]] [[1]] [[1]]]] in
  const_sys 1 X /\ real_matrix X = Some [[2]] /\ sys_op a b 1 (blk X) [[d]] 0 x = (1 + (b - a)) * d /\ 2 * d <> sys_op a b 1 (blk X) [[d]] 0 x.
Proof.
  intros a b d x Hab HL Hd X. assert (CB : const_block (mkQ [true; true] [[1]] [[1]] [[1]])). { split; [discriminate|]. cbn. repeat split; repeat constructor. }
  assert (C : const_sys 1 X). { split; [reflexivity|]. intros e He. replace e with 0%nat by lia. split; [reflexivity|]. intros q Hq. replace q with 0%nat by lia. exact CB. }
  assert (V : sys_op a b 1 (blk X) [[d]] 0 x = (1 + (b - a)) * d). { unfold sys_op. cbn [rsum]. change (nth 0 [[d]] []) with [d]. change (blk X 0 0) with (mkQ [true; true] [[1]] [[1]] [[1]]). rewrite (lin_const a b _ d x CB). unfold c0. cbn [rsum length q_ics q_ints q_coeffs nth]. ring. }
  split; [exact C|]. split. { cbn. do 3 f_equal. ring. } split; [exact V|]. rewrite V. intros E. apply HL. apply (Rmult_eq_reg_r d); lra.
Qed.
Print Assumptions C165_length_refuted.
(** C165: assembling changes the operator: the coefficient of order 0 is cut to its mean-value coefficient in place, unless it has one coefficient. *)
Theorem C165_in_place_refuted : forall q, real_after q = q <-> (forall c, q_coeffs q <> [] -> nth 0 (q_coeffs q) [] = c -> length c = 1%nat).
Proof.
  intros [i cs ics ints]. unfold real_after. cbn [q_info q_coeffs q_ics q_ints]. split.
  - intros E c H <-. destruct cs as [|y cs]; [contradiction|]. injection E as E. cbn [nth]. rewrite <- E. change 1%Z with (Z.of_nat 1). apply prolong1_length.
  - intros H. destruct cs as [|y cs]; [reflexivity|]. specialize (H y ltac:(discriminate) eq_refl). destruct y as [|z [|? ?]]; try discriminate. reflexivity.
Qed.
Print Assumptions C165_in_place_refuted.
(** C165: linop returns the matrix and its adjoint. *)
Theorem C165_adjoint : forall m X M N, const_sys m X -> real_linop X = Some (M, N) ->
  real_matrix X = Some M /\ forall v w, rsum m (fun e => rsum m (fun q => nth q (nth e M []) 0 * nth q v 0) * nth e w 0) = rsum m (fun q => nth q v 0 * rsum m (fun e => nth e (nth q N []) 0 * nth e w 0)).
Proof.
  intros m X M N H E. destruct (matrix_val m X H) as (M' & EM & LM & HM). unfold real_linop in E. rewrite EM in E. injection E as <- <-. split; [exact EM|]. intros v w.
  rewrite (rsum_ext m (fun e => _) (fun e => rsum m (fun q => nth q (nth e M' []) 0 * nth q v 0 * nth e w 0))) by (intros e _; rewrite Rmult_comm, <- rsum_scal; apply rsum_ext; intros; ring).
  rewrite rsum_swap. apply rsum_ext. intros q Hq. rewrite <- rsum_scal. apply rsum_ext. intros e He. rewrite LM, nth_mk by exact Hq. rewrite nth_mk by exact He. ring.
Qed.
Print Assumptions C165_adjoint.
(** a case: two equations, one with an integral, on [0,1] *)
Example C165_ex : let X := [[mkQ [true; false; true; true] [[3]; [0]; [1]] [[2]] [[5]]; mkQ [true; false] [[1]] [] []]; [mkQ [true; false] [[4]] [] []; mkQ [true; false] [[-1]] [] []]] in
  const_sys 2 X /\ real_matrix X = Some [[3 + 2 * 5; 1]; [4; -1]] /\ 1 - 0 = 1.
Proof.
  cbn zeta. split; [|split; [reflexivity|lra]]. split; [reflexivity|]. intros e He. destruct e as [|[|e]]; [| |lia]; (split; [reflexivity|]); intros q Hq; (destruct q as [|[|q]]; [| |lia]); unfold blk, const_block; cbn; (split; [discriminate|]); repeat split; repeat constructor.
Qed.
