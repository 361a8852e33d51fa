(** Counterexamples and the small operators around the Schur solver. *)
From Coq Require Import String Reals List Arith Bool Lra Lia.
From Coquelicot Require Import Coquelicot.
From Verif Require Import Base ToolsProofs NewtonSpec NewtonBroyden SchurSpec SchurModel SchurProofs.
Import ListNotations.
Open Scope R_scope.

Lemma inner_R : inner (X := R_ModuleSpace) Rmult.
Proof.
  split.
  - intros u v w. change (plus u v) with (u + v). ring.
  - intros a u w. change (scal a u) with (a * u). ring.
  - intros u w. ring.
  - intros u Hu. change zero with 0 in Hu. nra.
Qed.
Lemma linmap_id (X : ModuleSpace R_Ring) : linmap (fun x : X => x).
Proof. split; reflexivity. Qed.
Lemma ex_kernel : kernel_vec (X := R_ModuleSpace) (Y := R_ModuleSpace) (fun x => x) 1 (-1, 1) /\ st_ip (X := R_ModuleSpace) Rmult (-1, 1) (0, 1) <> 0.
Proof. unfold kernel_vec, aug, st_ip. cbn. unfold plus, scal, mult, zero; cbn. unfold mult; cbn. split; lra. Qed.
(** u + a = 0 at the origin: the correction for the right side 1 is not in the hyperplane *)
Lemma ng_solve_wrong : st_ip (X := R_ModuleSpace) Rmult (ng_tangent (X := R_ModuleSpace) (Y := R_ModuleSpace) Rmult (fun y => y) 1 (0, 1)) (ng_solve (X := R_ModuleSpace) (Y := R_ModuleSpace) Rmult (fun y => y) 1 (0, 1) 1) <> 0.
Proof.
  destruct ex_kernel as [K N].
  destruct (solve_rows (X := R_ModuleSpace) (Y := R_ModuleSpace) Rmult (fun x => x) (fun y => y) 1 inner_R (linmap_id _) (fun _ => eq_refl) (fun _ => eq_refl) (0, 1) (-1, 1) 1 K N) as [_ E].
  intros Z0. rewrite Z0 in E. symmetry in E. revert E. destruct (tangent_form (X := R_ModuleSpace) (Y := R_ModuleSpace) Rmult (fun y => y) 1 inner_R (0, 1)) as (c & F & C1 & _).
  - intros X. apply (f_equal snd) in X. cbn in X. lra.
  - unfold schur_comp, ng_W. cbn. lra.
  - rewrite F. cbn [fst]. unfold ng_W in *. change (scal (- c) 1) with (- c * 1). intros Z. assert (c = 0) by lra. subst c. lra.
Qed.

(** ** bif_pt: the vector B *)
Lemma map_single {A B} (f : A -> B) n g : concat (mk n (fun i => [g i])) = mk n (g : nat -> A).
Proof. unfold mk. induction (seq 0 n) as [|a l IH]; [reflexivity|]. cbn. f_equal. exact IH. Qed.
Lemma bif_vec_one n c : bif_vec n [c] = flatF (map (prolong_col n) [c]).
Proof.
  unfold bif_vec, flatC, flatF. cbn [map concat]. rewrite app_nil_r. rewrite (map_single (fun x : R => x)). unfold prolong_col at 2.
  unfold mk. apply map_ext_in. intros i Hi. apply in_seq in Hi. unfold prolong_col. rewrite nth_mk by lia. reflexivity.
Qed.
Lemma padded_prolong n c : padded n c = prolong_col n c.
Proof.
  unfold padded, prolong_col. apply list_ext with (d := 0).
  - rewrite firstn_length, app_length, repeat_length, mk_length. lia.
  - intros i Hi. rewrite firstn_length, app_length, repeat_length in Hi. assert (Hi' : (i < n)%nat) by lia. rewrite nth_mk by exact Hi'.
    rewrite nth_firstn' by exact Hi'. destruct (Nat.lt_ge_cases i (List.length c)) as [L|L].
    + now rewrite app_nth1.
    + rewrite app_nth2 by exact L. rewrite nth_repeat. symmetry. now apply nth_overflow.
Qed.
Lemma bif_vec_stacked n c : bif_vec n [c] = stacked n [c].
Proof. rewrite bif_vec_one. unfold stacked, flatF. cbn [map]. now rewrite padded_prolong. Qed.
Lemma bif_vec_two_wrong : bif_vec 2 [[1; 2]; [3; 4]] = [1; 3; 2; 4] /\ stacked 2 [[1; 2]; [3; 4]] = [1; 2; 3; 4].
Proof. split; reflexivity. Qed.
Definition R2 : ModuleSpace R_Ring := prod_ModuleSpace R_Ring R_ModuleSpace R_ModuleSpace.
Definition R4 : ModuleSpace R_Ring := prod_ModuleSpace R_Ring R2 R2.
Definition emb4 (l : list R) : R4 := ((nth 0 l 0, nth 1 l 0), (nth 2 l 0, nth 3 l 0)).
Definition ip4 (u v : R4) : R :=
  let '((a, b), (c, d)) := (u : (R * R) * (R * R)) in let '((a', b'), (c', d')) := (v : (R * R) * (R * R)) in a * a' + b * b' + c * c' + d * d'.
Lemma inner_4 : inner ip4.
Proof.
  split.
  - intros [[a b] [c d]] [[a1 b1] [c1 d1]] [[a2 b2] [c2 d2]]. cbn. unfold plus. cbn. ring.
  - intros s [[a b] [c d]] [[a1 b1] [c1 d1]]. cbn. unfold scal. cbn. unfold mult. cbn. ring.
  - intros [[a b] [c d]] [[a1 b1] [c1 d1]]. cbn. ring.
  - intros [[a b] [c d]] H. cbn. assert (Z : a <> 0 \/ b <> 0 \/ c <> 0 \/ d <> 0).
    { destruct (Req_dec a 0) as [->|]; [|tauto]. destruct (Req_dec b 0) as [->|]; [|tauto]. destruct (Req_dec c 0) as [->|]; [|tauto]. destruct (Req_dec d 0) as [->|]; [|tauto].
      exfalso. apply H. reflexivity. }
    destruct Z as [Z|[Z|[Z|Z]]]; nra.
Qed.
Lemma ex_kernel4 : kernel_vec (X := R4) (Y := R4) (fun x => x) (emb4 []) (emb4 [], 1) /\ st_ip ip4 (emb4 [], 1) (emb4 [], 1) <> 0.
Proof.
  unfold kernel_vec, aug, st_ip, emb4. cbn [fst snd nth ip4]. split; [|lra].
  assert (Z : emb4 [] = zero) by reflexivity. unfold emb4 in Z. cbn [nth] in Z. rewrite Z. rewrite scal_zero_r. apply plus_zero_l.
Qed.

(** ** FoldSolver *)
Lemma np_zip_len f u v w : np_zip f u v = Some w -> length w = length u.
Proof. unfold np_zip. destruct (Nat.eqb _ _); [|discriminate]. intros [= <-]. apply mk_length. Qed.
Lemma fold_solve_raises null part proj ddx c1 c2 x : (forall b, length (part b) = (length x - 1) / 2)%nat -> (1 <= length x)%nat ->
  fold_solve null part proj ddx c1 c2 x = None.
Proof.
  intros Hp Hx. unfold fold_solve. destruct null as [phi psi]. unfold obind.
  repeat match goal with |- match ?o with Some _ => _ | None => None end = None => destruct o eqn:?; [|reflexivity] end.
  exfalso.
  match goal with H : np_at ?l _ = Some _ |- _ => assert (L := nth_error_Some l (length x - 1)); unfold np_at in H; rewrite H in L; assert (Q : (length x - 1 < length l)%nat) by (apply L; discriminate) end.
  match goal with H : np_zip _ (part _) phi = Some _ |- _ => apply np_zip_len in H; rewrite Hp in H; rewrite H in Q end.
  assert (D := Nat.div_lt (length x - 1) 2). destruct (length x - 1)%nat eqn:E; [cbn in Q; lia|]. specialize (D ltac:(lia) ltac:(lia)). lia.
Qed.
Lemma fold_solve_adj_raises null parta proj c1 c2 x : fold_solve_adj null parta proj None c1 c2 x = None.
Proof.
  unfold fold_solve_adj. destruct null as [phi psi]. unfold obind.
  repeat match goal with |- match ?o with Some _ => _ | None => None end = None => destruct o eqn:?; [|reflexivity] end.
  reflexivity.
Qed.
Lemma fold_solve_adj_raises' null parta proj da c1 c2 x : (1 <= length x)%nat -> (length c1 = (length x - 1) / 2)%nat ->
  fold_solve_adj null parta proj (Some da) c1 c2 x = None.
Proof.
  intros Hx Hc. unfold fold_solve_adj. destruct null as [phi psi]. cbn [obind].
  assert (N : np_dot c1 x = None).
  { unfold np_dot. destruct (Nat.eqb_spec (length c1) (length x)) as [E|E]; [|reflexivity]. exfalso. rewrite E in Hc. assert (D := Nat.div_le_upper_bound (length x - 1) 2 (length x - 1)). lia. }
  rewrite N. unfold obind.
  repeat match goal with |- match ?o with Some _ => _ | None => None end = None => destruct o eqn:?; [|reflexivity] end.
  reflexivity.
Qed.

(** ** Newton-Gauss operators *)
Lemma dotr_app u a v b : length u = length v -> dotr (u ++ [a]) (v ++ [b]) = dotr u v + a * b.
Proof.
  intros L. unfold dotr. rewrite app_length. cbn [length]. rewrite Nat.add_1_r. cbn [rsum].
  f_equal; [|rewrite !app_nth2 by lia; rewrite L, Nat.sub_diag; reflexivity]. apply rsum_ext. intros i Hi. rewrite !app_nth1 by lia. reflexivity.
Qed.
Lemma ngc_matvec_ok Du Da dx : List.Forall (fun r => length r = (length dx - 1)%nat) Du -> (1 <= length dx)%nat -> ngc_matvec Du Da dx = mvec (ngc_mat Du Da) dx.
Proof.
  intros Hr Hx. unfold ngc_matvec, ngc_mat, mvec. unfold mk. rewrite map_map. apply map_ext_in. intros i Hi. apply in_seq in Hi.
  rewrite (nth_indep _ 0 (dotr [] (removelast dx))) by (rewrite map_length; lia). rewrite (map_nth (fun r => dotr r (removelast dx))).
  assert (Ne : dx <> []) by (destruct dx; [cbn in Hx; lia|discriminate]). rewrite (app_removelast_last 0 Ne) at 3.
  rewrite dotr_app; [reflexivity|]. rewrite Forall_forall in Hr. rewrite (Hr (nth i Du [])) by (apply nth_In; lia).
  assert (L := f_equal (@length R) (app_removelast_last 0 Ne)). rewrite app_length in L. cbn in L. lia.
Qed.
Lemma nth_mvec M x i : (i < length M)%nat -> nth i (mvec M x) 0 = dotr (nth i M []) x.
Proof. intros Hi. unfold mvec. rewrite (nth_indep _ 0 (dotr [] x)) by (rewrite map_length; exact Hi). apply (map_nth (fun r => dotr r x)). Qed.
Lemma mtvec_adj n M x y : List.Forall (fun r => length r = n) M -> length x = n -> length y = length M -> dotr (mvec M x) y = dotr x (mtvec n M y).
Proof.
  intros Hr Hx Hy. unfold dotr at 1 2. unfold mvec at 1. rewrite map_length. rewrite Hx.
  transitivity (rsum (length M) (fun i => rsum n (fun j => nth j (nth i M []) 0 * nth j x 0 * nth i y 0))).
  - apply rsum_ext. intros i Hi. rewrite nth_mvec by exact Hi. unfold dotr. rewrite Forall_forall in Hr. rewrite (Hr (nth i M [])) by (apply nth_In; exact Hi).
    rewrite <- rsum_scal_r || (rewrite Rmult_comm, <- rsum_scal; apply rsum_ext; intros; ring). reflexivity.
  - rewrite rsum_swap. apply rsum_ext. intros j Hj. unfold mtvec. rewrite nth_mk by exact Hj. rewrite <- rsum_scal. apply rsum_ext. intros i _. ring.
Qed.
Lemma ngc_adjoint n Du Da x y : length Du = n -> List.Forall (fun r => length r = n) Du -> length Da = n -> length x = (n + 1)%nat -> length y = n ->
  dotr (ngc_matvec Du Da x) y = dotr x (ngc_rmatvec n Du Da y).
Proof.
  intros LD Hr La Lx Ly. assert (Ne : x <> []) by (destruct x; [cbn in Lx; lia|discriminate]).
  assert (L := f_equal (@length R) (app_removelast_last 0 Ne)). rewrite app_length in L. cbn [length] in L.
  rewrite (app_removelast_last 0 Ne) at 2. unfold ngc_rmatvec. rewrite dotr_app by (unfold mtvec; rewrite mk_length; lia).
  rewrite <- (mtvec_adj n Du (removelast x) y) by (try assumption; lia).
  assert (Lm : forall z, length (mvec Du z) = n) by (intros z; unfold mvec; rewrite map_length; exact LD).
  transitivity (rsum n (fun i => (nth i (mvec Du (removelast x)) 0 + nth i Da 0 * last x 0) * nth i y 0)).
  - unfold ngc_matvec, dotr. rewrite mk_length, LD. apply rsum_ext. intros i Hi. rewrite nth_mk by exact Hi. reflexivity.
  - unfold dotr at 1 2. rewrite Lm, La. rewrite <- rsum_scal, <- rsum_plus. apply rsum_ext. intros i Hi. ring.
Qed.
Lemma ngp_matvec_len n Du x : length Du = n -> length (ngp_matvec Du x) = n /\ length (mvec (ngp_mat n Du) x) = (n + 1)%nat.
Proof. intros L. unfold ngp_matvec, mvec, ngp_mat. rewrite !map_length, app_length, mk_length. cbn. lia. Qed.
