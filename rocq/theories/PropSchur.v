(** Newton-Gauss steps with the Schur complement, fold systems, exact linear solver (C116-C121). *)
From Coq Require Import String Reals List Arith Bool Lra Lia.
From Coquelicot Require Import Coquelicot.
From Verif Require Import Base NewtonSpec NewtonBroyden SchurSpec SchurModel SchurProofs SchurMore.
Import ListNotations.
Open Scope R_scope.

(** ** C116: the tangent *)
(** C116: if the old tangent t is not orthogonal to the kernel of [Fu Fa], the tangent the
    solver stores is in the kernel, has length 1 and points in the direction of t. *)
Theorem C116_tangent : forall (X Y : ModuleSpace R_Ring) (ip : X -> X -> R) (J : X -> Y) (core : Y -> X) (Fa : Y) (t K : X * R),
  inner ip -> linmap J -> inverse_of J core -> kernel_vec J Fa K -> pair_ip ip K t <> 0 ->
  let T := ng_tangent ip core Fa t in kernel_vec J Fa T /\ pair_ip ip T T = 1 /\ 0 < pair_ip ip T t.
Proof. intros X Y ip J core Fa t K IP LJ [JC CJ]. exact (tangent_spec ip J core Fa IP LJ JC CJ t K). Qed.
Print Assumptions C116_tangent.
(** C116: and it is the only such vector. *)
Theorem C116_tangent_unique : forall (X Y : ModuleSpace R_Ring) (ip : X -> X -> R) (J : X -> Y) (core : Y -> X) (Fa : Y) (t K T : X * R),
  inner ip -> linmap J -> inverse_of J core -> kernel_vec J Fa K -> pair_ip ip K t <> 0 ->
  kernel_vec J Fa T -> pair_ip ip T T = 1 -> 0 < pair_ip ip T t -> T = ng_tangent ip core Fa t.
Proof. intros X Y ip J core Fa t K T IP LJ [JC CJ]. exact (tangent_unique ip J core Fa IP LJ JC CJ t K T). Qed.
Print Assumptions C116_tangent_unique.
Example ex_C116 : inner (X := R_ModuleSpace) Rmult /\ linmap (fun x : R_ModuleSpace => x) /\ inverse_of (fun x : R_ModuleSpace => x) (fun y => y) /\
  kernel_vec (X := R_ModuleSpace) (Y := R_ModuleSpace) (fun x => x) 1 (-1, 1) /\ pair_ip (X := R_ModuleSpace) Rmult (-1, 1) (0, 1) <> 0.
Proof. split; [exact inner_R|]. split; [apply linmap_id|]. split; [split; reflexivity|]. exact ex_kernel. Qed.

(** ** C117: the Newton-Gauss correction *)
(** C117: the correction solves the linearised equation; its product with the tangent is
    twice the product of the tangent with the Newton correction at fixed parameter. *)
Theorem C117_correction_partial : forall (X Y : ModuleSpace R_Ring) (ip : X -> X -> R) (J : X -> Y) (core : Y -> X) (Fa : Y) (t K : X * R) (rhs : Y),
  inner ip -> linmap J -> inverse_of J core -> kernel_vec J Fa K -> pair_ip ip K t <> 0 ->
  let T := ng_tangent ip core Fa t in let d := ng_solve ip core Fa t rhs in
  aug J Fa d = rhs /\ pair_ip ip T d = 2 * ip (fst T) (core rhs).
Proof. intros X Y ip J core Fa t K rhs IP LJ [JC CJ]. exact (solve_rows ip J core Fa IP LJ JC CJ t K rhs). Qed.
Print Assumptions C117_correction_partial.
(** C117 REFUTED: the correction does not lie in the hyperplane with normal T. *)
Theorem C117_hyperplane_refuted : ~ (forall (X Y : ModuleSpace R_Ring) (ip : X -> X -> R) (J : X -> Y) (core : Y -> X) (Fa : Y) (t K : X * R) (rhs : Y),
  inner ip -> linmap J -> inverse_of J core -> kernel_vec J Fa K -> pair_ip ip K t <> 0 ->
  pair_ip ip (ng_tangent ip core Fa t) (ng_solve ip core Fa t rhs) = 0).
Proof.
  intros H. apply ng_solve_wrong. destruct ex_kernel as [K N].
  exact (H R_ModuleSpace R_ModuleSpace Rmult (fun x => x) (fun y => y) 1 (0, 1) (-1, 1) 1 inner_R (linmap_id _) (conj (fun _ => eq_refl) (fun _ => eq_refl)) K N).
Qed.
Print Assumptions C117_hyperplane_refuted.

(** ** C118: bifurcation points *)
(** C118: for a single equation, (bif_dir, bif_pt) is the solution (y, tau) of
    [Fu Fa B_u; T_u T_a B_l; C_u C_a 0] (y, tau) = (0, 0, 1). *)
Theorem C118_bif : forall (X Y : ModuleSpace R_Ring) (ip : X -> X -> R) (J : X -> Y) (core : Y -> X) (Fa : Y) (t K : X * R) (emb : list R -> Y) n B Bl C,
  inner ip -> linmap J -> inverse_of J core -> kernel_vec J Fa K -> pair_ip ip K t <> 0 ->
  let b := emb (bif_vec n [B]) in
  pair_ip ip C (bif_G ip core Fa t b Bl) <> 0 ->
  let T := ng_tangent ip core Fa t in let y := bif_dir ip core Fa t b Bl C in let tau := bif_tau ip core Fa t b Bl C in
  plus (aug J Fa y) (scal tau (emb (stacked n [B]))) = zero /\ pair_ip ip T y + tau * Bl = 0 /\ pair_ip ip C y = 1.
Proof.
  intros X Y ip J core Fa t K emb n B Bl C IP LJ [JC CJ] HK Hn b HC. rewrite <- bif_vec_stacked. fold b. exact (bif_spec ip J core Fa IP LJ JC CJ t K b Bl C HK Hn HC).
Qed.
Print Assumptions C118_bif.
(** C118 REFUTED for systems: B_u.flatten() reads the array row by row, the unknowns are
    ordered column by column. *)
Theorem C118_system_refuted : ~ (forall (X Y : ModuleSpace R_Ring) (ip : X -> X -> R) (J : X -> Y) (core : Y -> X) (Fa : Y) (t K : X * R) (emb : list R -> Y) n Bs Bl C,
  inner ip -> linmap J -> inverse_of J core -> kernel_vec J Fa K -> pair_ip ip K t <> 0 ->
  let b := emb (bif_vec n Bs) in
  pair_ip ip C (bif_G ip core Fa t b Bl) <> 0 ->
  let y := bif_dir ip core Fa t b Bl C in let tau := bif_tau ip core Fa t b Bl C in
  plus (aug J Fa y) (scal tau (emb (stacked n Bs))) = zero).
Proof.
  intros H. destruct ex_kernel4 as [K N].
  specialize (H R4 R4 ip4 (fun x => x) (fun y => y) (emb4 []) (emb4 [], 1) (emb4 [], 1) emb4 2%nat [[1; 2]; [3; 4]] 0 (emb4 [1], 0)
    inner_4 (linmap_id _) (conj (fun _ => eq_refl) (fun _ => eq_refl)) K N).
  destruct bif_vec_two_wrong as [E1 E2]. rewrite E1, E2 in H. cbv zeta in H.
  set (b := emb4 [1; 3; 2; 4]) in *.
  destruct (bif_rows ip4 (fun x : R4 => x) (fun y => y) (emb4 []) inner_4 (linmap_id _) (fun _ => eq_refl) (fun _ => eq_refl) (emb4 [], 1) (emb4 [], 1) b 0 K N) as [G1 G2].
  set (G := bif_G ip4 (fun y : R4 => y) (emb4 []) (emb4 [], 1) b 0) in *.
  assert (G3 : fst G = b). { rewrite <- G1. assert (Z : emb4 [] = zero) by reflexivity. rewrite Z, scal_zero_r, plus_zero_r. reflexivity. }
  assert (CG : pair_ip ip4 (emb4 [1], 0) G = 1) by (unfold pair_ip; rewrite G3; cbn; ring).
  assert (Hne : pair_ip ip4 (emb4 [1], 0) G <> 0) by (rewrite CG; lra). specialize (H Hne).
  assert (Y : aug (fun x : R4 => x) (emb4 []) (bif_dir ip4 (fun y : R4 => y) (emb4 []) (emb4 [], 1) b 0 (emb4 [1], 0)) =
              scal (- bif_tau ip4 (fun y : R4 => y) (emb4 []) (emb4 [], 1) b 0 (emb4 [1], 0)) b).
  { unfold aug, bif_dir. fold G. cbn [fst snd]. rewrite G3. transitivity (plus (scal (- bif_tau ip4 (fun y : R4 => y) (emb4 []) (emb4 [], 1) b 0 (emb4 [1], 0)) b) (zero : R4)); [f_equal; apply (scal_zero_r (V := R4))|apply plus_zero_r]. }
  rewrite Y in H.
  assert (Tau : bif_tau ip4 (fun y : R4 => y) (emb4 []) (emb4 [], 1) b 0 (emb4 [1], 0) = -1).
  { unfold bif_tau. fold G. cbv zeta. cbn [fst snd]. unfold pair_ip in CG. cbn [fst snd] in CG. replace (0 * snd G + ip4 (emb4 [1]) (fst G)) with 1 by lra. field. }
  rewrite Tau in H. apply (f_equal (fun p => snd (fst p))) in H. cbn in H. unfold plus, scal, mult, zero in H. cbn in H. unfold mult in H. cbn in H. lra.
Qed.
Print Assumptions C118_system_refuted.
Example ex_C118 : pair_ip (X := R_ModuleSpace) Rmult (1, 0) (bif_G (X := R_ModuleSpace) (Y := R_ModuleSpace) Rmult (fun y => y) 0 (0, 1) 3 0) <> 0.
Proof.
  unfold pair_ip, bif_G, ng_tangent, new_tangent, ng_W, schur_comp, st_unit, new_tangent_raw, st_minus, schur_comp. cbn [fst snd].
  unfold scal, plus, minus, opp, plus, mult. cbn. unfold mult, plus, opp. cbn. unfold Rdiv. rewrite !Rmult_0_r, ?Rmult_0_l. lra.
Qed.

(** ** C119: fold systems *)
(** C119 REFUTED: with vectors of the dimension the docstring asks for, FoldSolver.solve raises
    on every right side (x is overwritten before x[n-1] is read) ... *)
Theorem C119_solve_refuted : forall null part proj ddx c1 c2 x, (forall b, List.length (part b) = (List.length x - 1) / 2)%nat -> (1 <= List.length x)%nat ->
  fold_solve null part proj ddx c1 c2 x = None.
Proof. exact fold_solve_raises. Qed.
Print Assumptions C119_solve_refuted.
(** ... and so does solve_adj, both as constructed and when ddx_adj is supplied. *)
Theorem C119_solve_adj_refuted : forall null parta proj ddx_adj c1 c2 x, (1 <= List.length x)%nat -> (List.length c1 = (List.length x - 1) / 2)%nat ->
  fold_solve_adj null parta proj ddx_adj c1 c2 x = None.
Proof. intros null parta proj [da|] c1 c2 x Hx Hc; [apply fold_solve_adj_raises'; assumption|apply fold_solve_adj_raises]. Qed.
Print Assumptions C119_solve_adj_refuted.
Definition ex_part (b : list R) : list R := [nth 0 b 0].
Example ex_C119 : forall b, List.length (ex_part b) = ((List.length [1; 2; 3] - 1) / 2)%nat.
Proof. reflexivity. Qed.

(** ** C120: ExactLinearSolver *)
(** C120: with method 'lu' (any capitalisation that lower() maps to it) the result is the
    projected solution and the flag True. *)
Theorem C120_lu_partial : forall (V U : Type) lower (lu : V -> V) (A : V -> V) proj (to_fun : V -> U) b m,
  lower m = "lu"%string -> (forall r, A (lu r) = r) ->
  exists s, exact_init lower (Some lu) m = Some s /\ exists x, A x = b /\ exact_solve s proj to_fun b = (to_fun (proj x), true).
Proof.
  intros V U lower lu A proj to_fun b m E H. exists lu. unfold exact_init. rewrite E. split; [reflexivity|]. exists (lu b). split; [apply H|reflexivity].
Qed.
Print Assumptions C120_lu_partial.
(** C120 REFUTED: method 'qr' raises for every matrix. *)
Theorem C120_qr_refuted : forall (V : Type) lower (lu : option (V -> V)) m, lower m = "qr"%string -> exact_init lower lu m = None.
Proof. intros V lower lu m E. unfold exact_init. rewrite E. reflexivity. Qed.
Print Assumptions C120_qr_refuted.
Example ex_C120 : (fun s : string => s) "lu"%string = "lu"%string /\ forall r : R, 2 * (r / 2) = r.
Proof. split; [reflexivity|intros r; field]. Qed.

(** ** C121: Newton-Gauss operators *)
(** C121: for the corrector, _matvec is the product with to_matrix() and _rmatvec is its adjoint. *)
Theorem C121_corrector_matvec : forall Du Da dx, List.Forall (fun r => List.length r = (List.length dx - 1)%nat) Du -> (1 <= List.length dx)%nat ->
  ngc_matvec Du Da dx = mvec (ngc_mat Du Da) dx.
Proof. exact ngc_matvec_ok. Qed.
Print Assumptions C121_corrector_matvec.
Theorem C121_corrector_adjoint : forall n Du Da x y, List.length Du = n -> List.Forall (fun r => List.length r = n) Du -> List.length Da = n ->
  List.length x = (n + 1)%nat -> List.length y = n -> dotr (ngc_matvec Du Da x) y = dotr x (ngc_rmatvec n Du Da y).
Proof. exact ngc_adjoint. Qed.
Print Assumptions C121_corrector_adjoint.
(** C121 REFUTED for the preconditioner: _matvec does not even have the size of the matrix. *)
Theorem C121_precond_refuted : forall n Du x, List.length Du = n -> ngp_matvec Du x <> mvec (ngp_mat n Du) x.
Proof. intros n Du x L E. destruct (ngp_matvec_len n Du x L) as [A B]. rewrite E in A. lia. Qed.
Print Assumptions C121_precond_refuted.
Example ex_C121 : ngc_matvec [[1; 2]; [3; 4]] [5; 6] [1; 1; 1] = [8; 13] /\ List.Forall (fun r => List.length r = 2%nat) [[1; 2]; [3; 4]].
Proof.
  split; [|repeat constructor]. unfold ngc_matvec, mvec, mk, dotr. cbn. f_equal; [ring|]. f_equal. ring.
Qed.
