(** Proofs about the Newton-Gauss Schur complement solver and its neighbours. *)
From Coq Require Import String Reals List Arith Bool Lra Lia.
From Coquelicot Require Import Coquelicot.
From Verif Require Import Base NewtonSpec NewtonBroyden SchurSpec SchurModel.
Import ListNotations.
Open Scope R_scope.

Section schur.
  Context {X Y : ModuleSpace R_Ring} (ip : X -> X -> R) (J : X -> Y) (core : Y -> X) (Fa : Y).
  Hypothesis IP : inner ip.
  Hypothesis LJ : linmap J.
  Hypothesis JC : forall r, J (core r) = r.
  Hypothesis CJ : forall x, core (J x) = x.
  Let W := ng_W core Fa.

  Lemma JW : J W = Fa. Proof. apply JC. Qed.
  Lemma J0 : J zero = zero.
  Proof. rewrite <- (scal_zero_l (zero : X)), (lm_scal J LJ). apply (scal_zero_l (J zero)). Qed.
  (** the kernel of [J Fa] is spanned by (-W, 1) *)
  Lemma kernel_span u a : plus (J u) (scal a Fa) = zero -> u = scal (- a) W.
  Proof.
    intros E. rewrite <- (CJ u), <- (CJ (scal (- a) W)). f_equal. rewrite (lm_scal J LJ), JW.
    rewrite <- (plus_zero_r (J u)). change (scal (- a) Fa) with (scal (opp a) Fa). rewrite scal_opp_l.
    rewrite <- (plus_opp_r (scal a Fa)) at 1. rewrite plus_assoc, E, plus_zero_l. reflexivity.
  Qed.
  Lemma st_ip_ker a t : st_ip ip (scal (- a) W, a) t = a * schur_comp ip t W.
  Proof. unfold st_ip, schur_comp. cbn [fst snd]. rewrite (in_scal ip IP), (in_sym ip IP W). ring. Qed.

  Lemma raw_form t : schur_comp ip t W <> 0 ->
    let a := st_ip ip t t / schur_comp ip t W in new_tangent_raw ip W t = (scal (- a) W, a).
  Proof.
    intros Hb a. unfold new_tangent_raw, st_minus. cbn [fst snd].
    set (d := - (ip (fst t) (fst t) + ip (fst t) (scal (snd t) W)) / schur_comp ip t W).
    assert (E : snd t - d = a).
    { unfold d, a, st_ip. rewrite (ip_scal_r ip IP). unfold schur_comp in *. field. exact Hb. }
    rewrite E. f_equal. unfold minus. rewrite opp_plus, plus_assoc, plus_opp_r, plus_zero_l. symmetry. apply (scal_opp_l a W).
  Qed.
  Lemma W_pos : 0 < 1 + ip W W. Proof. assert (H := ip_nonneg ip IP W). lra. Qed.
  Lemma st_ip_pos (t : st) : t <> (zero, 0) -> 0 < st_ip ip t t.
  Proof.
    intros Ht. unfold st_ip. destruct t as [u a]. cbn [fst snd]. assert (Hu := ip_nonneg ip IP u). destruct (Req_dec a 0) as [Ea|Ea].
    - subst a. assert (Nu : u <> zero) by (intros ->; apply Ht; reflexivity). assert (P := in_pos ip IP u Nu). lra.
    - assert (0 < a * a) by nra. lra.
  Qed.
  Lemma st_ip_scal_ker a b : st_ip ip (scal (- a) W, a) (scal (- b) W, b) = a * b * (1 + ip W W).
  Proof. rewrite st_ip_ker. unfold schur_comp. cbn [fst snd]. rewrite (in_scal ip IP). ring. Qed.
  (** the new tangent *)
  Lemma tangent_form t : t <> (zero, 0) -> schur_comp ip t W <> 0 ->
    exists c, ng_tangent ip core Fa t = (scal (- c) W, c) /\ c * c * (1 + ip W W) = 1 /\ 0 < c * schur_comp ip t W.
  Proof.
    intros Ht Hb. unfold ng_tangent, new_tangent, st_unit. fold W. set (a := st_ip ip t t / schur_comp ip t W). rewrite (raw_form t Hb). fold a. cbn [fst snd].
    unfold st_nrm. rewrite st_ip_scal_ker. assert (P := st_ip_pos t Ht).
    assert (Ha : a <> 0) by (unfold a, Rdiv; apply Rmult_integral_contrapositive; split; [lra|apply Rinv_neq_0_compat; exact Hb]).
    assert (WP := W_pos). assert (Q : 0 < a * a * (1 + ip W W)) by (apply Rmult_lt_0_compat; nra).
    set (N := sqrt (a * a * (1 + ip W W))). assert (HN : 0 < N) by (apply sqrt_lt_R0; exact Q). assert (NN : N * N = a * a * (1 + ip W W)) by (apply sqrt_sqrt; lra).
    exists (/ N * a). split; [|split].
    - f_equal. rewrite scal_assoc. change (mult (/ N) (- a)) with (/ N * - a)%R. replace (/ N * - a) with (- (/ N * a)) by ring. reflexivity.
    - replace (/ N * a * (/ N * a) * (1 + ip W W)) with (/ (N * N) * (a * a * (1 + ip W W))) by (field; lra). rewrite <- NN. field. lra.
    - replace (/ N * a * schur_comp ip t W) with (/ N * st_ip ip t t) by (unfold a; field; split; lra). apply Rmult_lt_0_compat; [apply Rinv_0_lt_compat; exact HN|exact P].
  Qed.
  Lemma schur_tangent c : c * c * (1 + ip W W) = 1 -> schur_comp ip (scal (- c) W, c) W <> 0.
  Proof. intros E. unfold schur_comp. cbn [fst snd]. rewrite (in_scal ip IP). intros Z. assert (c * (1 + ip W W) = 0) by lra. assert (c * (c * (1 + ip W W)) = 0) by (rewrite H; ring). lra. Qed.
  (** hypotheses in terms of the kernel *)
  Lemma kernel_old t u a : plus (J u) (scal a Fa) = zero -> st_ip ip (u, a) t <> 0 -> t <> (zero, 0) /\ schur_comp ip t W <> 0.
  Proof.
    intros K N. rewrite (kernel_span u a K), st_ip_ker in N. split; [|intros Z; apply N; rewrite Z; ring].
    intros ->. apply N. unfold schur_comp. cbn [fst snd]. rewrite (ip_0_l ip IP). ring.
  Qed.

  Lemma ker_is c : kernel_vec J Fa (scal (- c) W, c).
  Proof. unfold kernel_vec, aug. cbn [fst snd]. rewrite (lm_scal J LJ), JW. transitivity (plus (opp (scal c Fa)) (scal c Fa)); [f_equal; apply (scal_opp_l c Fa)|apply plus_opp_l]. Qed.
  Lemma tangent_spec t K : kernel_vec J Fa K -> st_ip ip K t <> 0 ->
    let T := ng_tangent ip core Fa t in kernel_vec J Fa T /\ st_ip ip T T = 1 /\ 0 < st_ip ip T t.
  Proof.
    intros HK Hn T. destruct K as [u a]. destruct (kernel_old t u a HK Hn) as [Ht Hb]. destruct (tangent_form t Ht Hb) as (c & E & C1 & C2).
    unfold T. rewrite E. split; [apply ker_is|]. split; [rewrite st_ip_scal_ker; exact C1|]. rewrite st_ip_ker. exact C2.
  Qed.
  Lemma tangent_unique t K T : kernel_vec J Fa K -> st_ip ip K t <> 0 -> kernel_vec J Fa T -> st_ip ip T T = 1 -> 0 < st_ip ip T t -> T = ng_tangent ip core Fa t.
  Proof.
    intros HK Hn HT N P. destruct K as [u a]. destruct (kernel_old t u a HK Hn) as [Ht Hb]. destruct (tangent_form t Ht Hb) as (c & E & C1 & C2). rewrite E.
    destruct T as [v b]. assert (Ev := kernel_span v b HT). rewrite Ev in N, P |- *. rewrite st_ip_scal_ker in N. rewrite st_ip_ker in P.
    assert (WP := W_pos). assert (S : b * b = c * c) by nra. assert (D : (b - c) * (b + c) = 0) by lra.
    assert (b = c). { apply Rmult_integral in D. destruct D as [D|D]; [lra|]. exfalso. assert (b = - c) by lra. subst b. lra. }
    subst b. reflexivity.
  Qed.
  (** one step *)
  Lemma solve_rows t K rhs : kernel_vec J Fa K -> st_ip ip K t <> 0 ->
    let T := ng_tangent ip core Fa t in let d := ng_solve ip core Fa t rhs in
    plus (J (fst d)) (scal (snd d) Fa) = rhs /\ st_ip ip T d = 2 * ip (fst T) (core rhs).
  Proof.
    intros HK Hn T d. destruct K as [u a]. destruct (kernel_old t u a HK Hn) as [Ht Hb]. destruct (tangent_form t Ht Hb) as (c & E & C1 & C2).
    assert (S : schur_comp ip T W <> 0) by (unfold T; rewrite E; apply schur_tangent; exact C1).
    unfold d, ng_solve. fold T W. cbn [fst snd]. set (da := ip (fst T) (core rhs) / schur_comp ip T W). split.
    - unfold minus. rewrite (lm_add J LJ), JC. rewrite <- scal_opp_l, (lm_scal J LJ), JW. rewrite scal_opp_l, <- plus_assoc, plus_opp_l. apply plus_zero_r.
    - unfold st_ip. cbn [fst snd]. unfold minus. rewrite (ip_add_r ip IP). rewrite <- scal_opp_l, (ip_scal_r ip IP). change (opp da) with (- da)%R.
      unfold da, schur_comp in *. field. exact S.
  Qed.
  Lemma bif_rows t K b Bl : kernel_vec J Fa K -> st_ip ip K t <> 0 ->
    let T := ng_tangent ip core Fa t in let G := bif_G ip core Fa t b Bl in
    plus (J (fst G)) (scal (snd G) Fa) = b /\ st_ip ip T G = Bl.
  Proof.
    intros HK Hn T d. destruct K as [u a]. destruct (kernel_old t u a HK Hn) as [Ht Hb]. destruct (tangent_form t Ht Hb) as (c & E & C1 & C2).
    assert (S : schur_comp ip T W <> 0) by (unfold T; rewrite E; apply schur_tangent; exact C1).
    unfold d, bif_G. fold T W. cbn [fst snd]. set (da := (Bl - ip (fst T) (core b)) / schur_comp ip T W). split.
    - unfold minus. rewrite (lm_add J LJ), JC. rewrite <- scal_opp_l, (lm_scal J LJ), JW. rewrite scal_opp_l, <- plus_assoc, plus_opp_l. apply plus_zero_r.
    - unfold st_ip. cbn [fst snd]. unfold minus. rewrite (ip_add_r ip IP). rewrite <- scal_opp_l, (ip_scal_r ip IP). change (opp da) with (- da)%R.
      unfold da, schur_comp in *. field. exact S.
  Qed.
  Lemma st_ip_scal_r s k (g : st (X := X)) : st_ip ip s (scal k (fst g), k * snd g) = k * st_ip ip s g.
  Proof. unfold st_ip. cbn [fst snd]. rewrite (ip_scal_r ip IP). ring. Qed.
  Lemma bif_spec t K b Bl C : kernel_vec J Fa K -> st_ip ip K t <> 0 -> st_ip ip C (bif_G ip core Fa t b Bl) <> 0 ->
    let T := ng_tangent ip core Fa t in let y := bif_dir ip core Fa t b Bl C in let tau := bif_tau ip core Fa t b Bl C in
    plus (plus (J (fst y)) (scal (snd y) Fa)) (scal tau b) = zero /\ st_ip ip T y + tau * Bl = 0 /\ st_ip ip C y = 1.
  Proof.
    intros HK Hn HC T y tau. destruct (bif_rows t K b Bl HK Hn) as [R1 R2]. set (G := bif_G ip core Fa t b Bl) in *.
    assert (Ey : y = (scal (- tau) (fst G), - tau * snd G)) by reflexivity. rewrite Ey. split; [|split].
    - cbn [fst snd]. rewrite (lm_scal J LJ). change (- tau * snd G) with (mult (- tau)%R (snd G)). rewrite <- scal_assoc, <- (scal_distr_l (- tau)%R), R1.
      transitivity (plus (opp (scal tau b)) (scal tau b)); [f_equal; apply (scal_opp_l tau b)|apply plus_opp_l].
    - rewrite st_ip_scal_r. fold T in R2. rewrite R2. ring.
    - rewrite st_ip_scal_r. assert (Et : tau = -1 / st_ip ip C G) by (unfold tau, bif_tau; fold G; unfold st_ip; f_equal; ring). rewrite Et. field. exact HC.
  Qed.
End schur.
