(** Correctness of the block elimination solvers. *)
From Coq Require Import Reals List Arith Lia Lra Bool.
From Verif Require Import Base LASpec BordModel BordSpec LABase.
Import ListNotations.
Open Scope R_scope.

(** delta = eta *)
Lemma delta_eta n A gamma beta b c : length gamma = n -> length beta = n -> mv n n (transp A) gamma = b -> mv n n A beta = c -> dotp gamma c = dotp b beta.
Proof.
  intros Lg Lb Hg Hb. rewrite <- Hb, <- Hg. rewrite (dotp_comm gamma) by (rewrite mv_length; exact Lg). rewrite dotp_mv by assumption.
  apply dotp_comm. rewrite mv_length. exact Lb.
Qed.
Lemma transp_bord_solves n A b c d x f : solves (S n) (bord n (transp A) c b d) x f -> solves (S n) (transp (bord n A b c d)) x f.
Proof. intros [L H]. split; [exact L|]. rewrite <- H. apply mv_ext; [intros; apply transp_bord|reflexivity]. Qed.

Section bem.
  Variables (n : nat) (A : rmat) (b c : list R) (d : R).
  Hypotheses (Lb : length b = n) (Lc : length c = n).
  Let M := bord n A b c d.

  (** the pivot vanishes only for a singular bordered matrix *)
  Lemma eta_nonzero beta : length beta = n -> mv n n A beta = c -> nonsingular (S n) M -> d - dotp b beta <> 0.
  Proof.
    intros L H N E. specialize (N (vscal (-1) beta ++ [1])). 
    assert (Z : vscal (-1) beta ++ [1] = zeros (S n)).
    { apply N; [rewrite app_length, vscal_length; cbn; lia|]. unfold M. rewrite mv_bord by (rewrite ?vscal_length; assumption). rewrite mv_vscal, H, zeros_S. f_equal.
      - apply vext; [rewrite vadd_length, vscal_length, zeros_length by (rewrite !vscal_length; reflexivity); congruence|]. intros i _. rewrite nth_vadd, !nth_vscal, nth_zeros by (rewrite !vscal_length; reflexivity). ring.
      - f_equal. rewrite dotp_vscal_r. lra. }
    rewrite zeros_S in Z. apply snoc_inj in Z. destruct Z. lra.
  Qed.
  Lemma bord_step w beta y1 y2 f h : length w = n -> length beta = n -> length f = n ->
    mv n n A w = vsub f (vscal y1 c) -> mv n n A beta = c -> (h - y1 * d - dotp b w) = y2 * (d - dotp b beta) ->
    solves (S n) M (vsub w (vscal y2 beta) ++ [y1 + y2]) (f ++ [h]).
  Proof.
    intros Lw Lbe Lf Hw Hb Hy. assert (L : length (vsub w (vscal y2 beta)) = n) by (rewrite vsub_length; [exact Lw|rewrite vscal_length; congruence]).
    split; [rewrite app_length, L; cbn; lia|]. unfold M. rewrite mv_bord by assumption. rewrite mv_vsub by (rewrite vscal_length; congruence). rewrite mv_vscal, Hw, Hb. f_equal.
    - apply vext.
      + rewrite vadd_length; rewrite !vsub_length; rewrite ?vscal_length; try congruence; rewrite vsub_length; rewrite ?vscal_length; congruence.
      + intros i _. rewrite nth_vadd by (rewrite !vsub_length; rewrite ?vscal_length; try congruence; rewrite vsub_length; rewrite ?vscal_length; congruence).
        rewrite nth_vsub by (rewrite vsub_length; rewrite ?vscal_length; congruence). rewrite nth_vsub by (rewrite vscal_length; congruence). rewrite !nth_vscal. ring.
    - f_equal. rewrite dotp_vsub_r by (rewrite vscal_length; congruence). rewrite dotp_vscal_r. lra.
  Qed.
  (** the solution is unique *)
  Lemma solves_unique m B x y f : nonsingular m B -> solves m B x f -> solves m B y f -> x = y.
  Proof.
    intros N [Lx Hx] [Ly Hy]. assert (E : vsub x y = zeros m).
    { apply N; [rewrite vsub_length; congruence|]. rewrite mv_vsub by congruence. rewrite Hx, Hy. apply vext; [rewrite vsub_length, zeros_length by reflexivity; rewrite <- Hx, mv_length; reflexivity|].
      intros i _. rewrite nth_vsub, nth_zeros by reflexivity. ring. }
    apply vext; [congruence|]. intros i _. assert (Q := nth_vsub x y i ltac:(congruence)). rewrite E, nth_zeros in Q. lra.
  Qed.
  (** singular A *)
  Lemma sing_pivots s phi psi : exact_singular n A s -> s_null s = (phi, psi) -> nonsingular (S n) M -> dotp b phi <> 0 /\ dotp psi c <> 0.
  Proof.
    intros [_ E] Hn N. rewrite Hn in E. destruct E as [Lp [Lq [Zp [Zq [Hp [Hq [Pt _]]]]]]].
    assert (B1 : dotp b phi <> 0).
    { intros E. apply Zp. assert (Z : phi ++ [0] = zeros (S n)).
      { apply N; [rewrite app_length; cbn; lia|]. unfold M. rewrite mv_bord by assumption. rewrite Hp, zeros_S. f_equal; [|f_equal; lra].
        apply vext; [rewrite vadd_length; rewrite ?vscal_length, ?zeros_length; congruence|]. intros i _. rewrite nth_vadd, nth_vscal, nth_zeros by (rewrite vscal_length, zeros_length; exact Lc). ring. }
      rewrite zeros_S in Z. apply snoc_inj in Z. apply Z. }
    split; [exact B1|]. intros E. destruct (Pt c Lc E) as [Lx Hx]. set (p := s_part s c) in *.
    set (al := (dotp b p - d) / dotp b phi).
    assert (Z : vadd (vscal (-1) p) (vscal al phi) ++ [1] = zeros (S n)).
    { assert (L : length (vadd (vscal (-1) p) (vscal al phi)) = n) by (rewrite vadd_length; rewrite ?vscal_length; congruence).
      apply N; [rewrite app_length, L; cbn; lia|]. unfold M. rewrite mv_bord by assumption. rewrite mv_vadd by (rewrite !vscal_length; congruence). rewrite !mv_vscal, Hx, Hp, zeros_S. f_equal.
      - apply vext; [rewrite !vadd_length; rewrite ?vadd_length; rewrite ?vscal_length, ?zeros_length; congruence|].
        intros i _. rewrite nth_vadd by (rewrite vadd_length; rewrite ?vscal_length, ?zeros_length; congruence). rewrite nth_vadd by (rewrite !vscal_length, zeros_length; congruence).
        rewrite !nth_vscal, !nth_zeros. ring.
      - f_equal. rewrite dotp_vadd_r by (rewrite !vscal_length; congruence). rewrite !dotp_vscal_r. unfold al. field. exact B1. }
    rewrite zeros_S in Z. apply snoc_inj in Z. destruct Z. lra.
  Qed.
  Lemma sing_step s phi psi f h al z : exact_singular n A s -> s_null s = (phi, psi) -> length f = n -> dotp psi f = z * dotp psi c ->
    h - d * z - dotp b (s_part s (vsub f (vscal z c))) = al * dotp b phi ->
    solves (S n) M (vadd (s_part s (vsub f (vscal z c))) (vscal al phi) ++ [z]) (f ++ [h]).
  Proof.
    intros [_ E] Hn Lf Hz Hal. rewrite Hn in E. destruct E as [Lp [Lq [Zp [Zq [Hp [Hq [Pt _]]]]]]].
    destruct (Pt (vsub f (vscal z c))) as [Lx Hx].
    { rewrite vsub_length; [exact Lf|rewrite vscal_length; congruence]. }
    { rewrite dotp_vsub_r by (rewrite vscal_length; congruence). rewrite dotp_vscal_r. lra. }
    set (xp := s_part s _) in *. assert (L : length (vadd xp (vscal al phi)) = n) by (rewrite vadd_length; rewrite ?vscal_length; congruence).
    split; [rewrite app_length, L; cbn; lia|]. unfold M. rewrite mv_bord by assumption. rewrite mv_vadd by (rewrite vscal_length; congruence). rewrite mv_vscal, Hx, Hp. f_equal.
    - assert (L1 : length (vsub f (vscal z c)) = n) by (rewrite vsub_length; rewrite ?vscal_length; congruence).
      apply vext; [rewrite !vadd_length; rewrite ?vadd_length; rewrite ?vscal_length, ?zeros_length; congruence|].
      intros i _. rewrite nth_vadd by (rewrite vadd_length; rewrite ?vscal_length, ?zeros_length; congruence). rewrite nth_vadd by (rewrite !vscal_length, zeros_length; congruence).
      rewrite nth_vsub by (rewrite vscal_length; congruence). rewrite !nth_vscal, nth_zeros. ring.
    - f_equal. rewrite dotp_vadd_r by (rewrite vscal_length; congruence). rewrite dotp_vscal_r. lra.
  Qed.
End bem.

Lemma bem_new_data s b c d : e_s (bem_new s b c d) = s /\ e_b (bem_new s b c d) = b /\ e_c (bem_new s b c d) = c /\ e_d (bem_new s b c d) = d /\
  (s_sing s = false -> e_gamma (bem_new s b c d) = s_adj s b /\ e_delta (bem_new s b c d) = d - dotp (s_adj s b) c /\ e_beta (bem_new s b c d) = s_solve s c /\ e_eta (bem_new s b c d) = d - dotp b (s_solve s c)).
Proof. unfold bem_new. destruct (s_sing s); cbn; repeat split; try reflexivity; discriminate. Qed.
Ltac bem_data s b c d := let D := fresh "D" in assert (D := bem_new_data s b c d); destruct D as [Des [Deb [Dec [Ded Dns]]]].

(** the adjoint problem is the problem of the adjoint solver *)
Definition adj_solver (s : solver) : solver :=
  {| s_solve := s_adj s; s_adj := s_solve s; s_null := (snd (s_null s), fst (s_null s)); s_part := s_part_adj s; s_part_adj := s_part s; s_sing := s_sing s; s_det := s_det s |}.
Lemma adj_exact n A s : exact_solver n A s -> exact_solver n (transp A) (adj_solver s).
Proof. intros [H1 [H2 H3]]. split; [exact H1|]. split; [exact H3|exact H2]. Qed.
Lemma adj_exact_sing n A s : exact_singular n A s -> exact_singular n (transp A) (adj_solver s).
Proof.
  unfold exact_singular. cbn. destruct (s_null s) as [phi psi]. cbn. intros [H0 [H1 [H2 [H3 [H4 [H5 [H6 [H7 H8]]]]]]]]. repeat split; try assumption; intros; first [apply H8; assumption | apply H7; assumption].
Qed.

(** C40 *)
Lemma bem_solve_correct n A s b c d r : (exact_solver n A s \/ exact_singular n A s) -> length b = n -> length c = n -> length r = S n ->
  nonsingular (S n) (bord n A b c d) -> solves (S n) (bord n A b c d) (bem_solve (bem_new s b c d) r) r.
Proof.
  intros Hs Lb Lc Lr N. destruct (snoc_split r n Lr) as [f [h [Er [Lf [E1 E2]]]]].
  bem_data s b c d. unfold bem_solve. rewrite Des. destruct Hs as [Hs|Hs].
  - destruct Hs as [S0 [S1 S2]]. rewrite S0. unfold solve_nonsing. rewrite Des, Deb, Dec, Ded, E1, E2. destruct (Dns S0) as [-> [-> [-> ->]]].
    destruct (S1 c Lc) as [Lbe Hbe]. assert (Hne := eta_nonzero n A b c d Lb Lc _ Lbe Hbe N).
    set (y1 := (h - _) / _). destruct (S1 (vsub f (vscal y1 c))) as [Lw Hw]; [rewrite vsub_length; rewrite ?vscal_length; congruence|].
    rewrite Er. apply bord_step; try assumption. field. exact Hne.
  - assert (Hs' := Hs). destruct Hs as [S0 _]. rewrite S0. unfold solve_singular. rewrite Des, Deb, Dec, Ded, E1, E2. destruct (s_null s) as [phi psi] eqn:En.
    destruct (sing_pivots n A b c d Lb Lc s phi psi Hs' En N) as [B1 B2]. rewrite Er. eapply sing_step; try eassumption; field; repeat split; assumption.
Qed.
(** a matrix whose systems are all solvable has a nonsingular transpose *)
Lemma nonsing_t m M : (forall r, length r = m -> exists x, solves m M x r) -> nonsingular m (transp M).
Proof.
  intros H y Ly Hy. destruct (H y Ly) as [x [Lx Hx]]. rewrite (dotp_zero y); [rewrite Ly; reflexivity|].
  rewrite <- Hx at 1. rewrite dotp_mv by assumption. rewrite Hy. apply dotp_zeros_r.
Qed.
Lemma bem_nonsing_t n A s b c d : (exact_solver n A s \/ exact_singular n A s) -> length b = n -> length c = n ->
  nonsingular (S n) (bord n A b c d) -> nonsingular (S n) (bord n (transp A) c b d).
Proof.
  intros Hs Lb Lc N y Ly Hy. apply (nonsing_t (S n) (bord n A b c d)); [|exact Ly|].
  - intros r Lr. eexists. apply (bem_solve_correct n A s b c d r); assumption.
  - rewrite <- Hy. apply mv_ext; [intros; apply transp_bord|reflexivity].
Qed.
Lemma adj_bem s b c d r : (s_sing s = false -> length (s_solve s c) = length b /\ length (s_adj s b) = length c) -> bem_solve_adj (bem_new s b c d) r = bem_solve (bem_new (adj_solver s) c b d) r.
Proof.
  intros HL. bem_data s b c d. destruct (bem_new_data (adj_solver s) c b d) as [Des0 [Deb0 [Dec0 [Ded0 Dns0]]]]. unfold bem_solve_adj, bem_solve. rewrite Des, Des0. cbn [s_sing adj_solver]. destruct (s_sing s) eqn:E.
  - unfold solve_singular_adj, solve_singular. rewrite Des, Deb, Dec, Ded, Des0, Deb0, Dec0, Ded0. cbn [s_null adj_solver]. destruct (s_null s) as [phi psi]. reflexivity.
  - unfold solve_nonsing_adj, solve_nonsing. destruct (Dns eq_refl) as [-> [-> [-> ->]]]. destruct (Dns0 E) as [-> [-> [-> ->]]]. rewrite Des, Deb, Dec, Ded, Des0, Deb0, Dec0, Ded0. destruct (HL eq_refl) as [L1 L2].
    cbn [s_solve s_adj adj_solver]. rewrite (dotp_comm b (s_solve s c)), (dotp_comm (s_adj s b) c) by congruence. reflexivity.
Qed.
Lemma bem_solve_adj_correct n A s b c d r : (exact_solver n A s \/ exact_singular n A s) -> length b = n -> length c = n -> length r = S n ->
  nonsingular (S n) (bord n A b c d) -> solves (S n) (transp (bord n A b c d)) (bem_solve_adj (bem_new s b c d) r) r.
Proof.
  intros Hs Lb Lc Lr N. rewrite adj_bem.
  2:{ intros S0. destruct Hs as [[_ [S1 S2]]|[S1 _]]; [|congruence]. destruct (S1 c Lc), (S2 b Lb). split; congruence. }
  apply transp_bord_solves. apply bem_solve_correct; try assumption.
  - destruct Hs as [Hs|Hs]; [left; apply adj_exact; exact Hs|right; apply adj_exact_sing; exact Hs].
  - apply (bem_nonsing_t n A s); assumption.
Qed.
(** the special right hand sides *)
Lemma removelast_snoc (f : list R) h : removelast (f ++ [h]) = f /\ last (f ++ [h]) 0 = h.
Proof. split; [apply removelast_last|apply last_last]. Qed.
Lemma bem_zero_eq e f : bem_solve_zero e f = bem_solve e (f ++ [0]).
Proof.
  unfold bem_solve_zero, bem_solve. destruct (removelast_snoc f 0) as [E1 E2]. destruct (s_sing (e_s e)).
  - unfold solve_singular. rewrite E1, E2. destruct (s_null (e_s e)) as [phi psi]. do 3 f_equal. f_equal. ring.
  - unfold solve_nonsing. rewrite E1, E2. replace (0 - dotp (e_gamma e) f) with (- dotp (e_gamma e) f) by ring.
    set (y1 := _ / e_delta e). set (w := s_solve _ _). replace (0 - y1 * e_d e - dotp (e_b e) w) with (- (y1 * e_d e + dotp (e_b e) w)) by ring. reflexivity.
Qed.
Lemma bem_solve_zero_correct n A s b c d f : (exact_solver n A s \/ exact_singular n A s) -> length b = n -> length c = n -> length f = n ->
  nonsingular (S n) (bord n A b c d) -> solves (S n) (bord n A b c d) (bem_solve_zero (bem_new s b c d) f) (f ++ [0]).
Proof. intros. rewrite bem_zero_eq. apply bem_solve_correct; try assumption. rewrite app_length. cbn. lia. Qed.
Lemma bem_null_nonsing n A s b c d : exact_solver n A s -> length b = n -> length c = n ->
  nonsingular (S n) (bord n A b c d) -> solves (S n) (bord n A b c d) (bem_solve_null (bem_new s b c d)) (zeros n ++ [1]).
Proof.
  intros Hs Lb Lc N. assert (Hs' := Hs). destruct Hs as [S0 [S1 S2]]. bem_data s b c d. unfold bem_solve_null. rewrite Des, S0. destruct (Dns S0) as [_ [-> [-> ->]]]. rewrite Deb, Ded.
  destruct (S1 c Lc) as [Lbe Hbe]. destruct (S2 b Lb) as [Lga Hga]. assert (Hne := eta_nonzero n A b c d Lb Lc _ Lbe Hbe N).
  assert (De := delta_eta n A _ _ b c Lga Lbe Hga Hbe). rewrite De. set (beta := s_solve s c) in *. set (eta := d - dotp b beta) in *.
  replace (1 / eta + (1 + 1 / eta * (dotp b beta - d)) / eta) with (/ eta) by (unfold eta; field; exact Hne).
  assert (E : vscal (/ eta) (vscal (-1) beta ++ [1]) = vscal (- / eta) beta ++ [/ eta]).
  { unfold vscal. rewrite map_app, map_map. cbn [map]. f_equal; [|f_equal; ring]. apply map_ext. intros; ring. }
  rewrite E. split; [rewrite app_length, vscal_length; cbn; lia|]. rewrite mv_bord by (rewrite ?vscal_length; assumption). rewrite mv_vscal, Hbe. f_equal.
  - apply vext; [rewrite vadd_length, vscal_length, zeros_length by (rewrite !vscal_length; reflexivity); exact Lc|]. intros i _. rewrite nth_vadd, !nth_vscal, nth_zeros by (rewrite !vscal_length; reflexivity). ring.
  - f_equal. rewrite dotp_vscal_r. unfold eta. field. exact Hne.
Qed.
Lemma adj_bem_null s b c d : (s_sing s = false -> length (s_solve s c) = length b /\ length (s_adj s b) = length c) -> bem_solve_null_adj (bem_new s b c d) = bem_solve_null (bem_new (adj_solver s) c b d).
Proof.
  intros HL. bem_data s b c d. destruct (bem_new_data (adj_solver s) c b d) as [Des0 [Deb0 [Dec0 [Ded0 Dns0]]]]. unfold bem_solve_null_adj, bem_solve_null. rewrite Des, Des0. cbn [s_sing adj_solver]. destruct (s_sing s) eqn:E.
  - reflexivity.
  - destruct (Dns eq_refl) as [-> [-> [_ ->]]]. destruct (Dns0 E) as [_ [-> [-> ->]]]. rewrite Dec, Ded, Deb0, Ded0. destruct (HL eq_refl) as [L1 L2].
    cbn [s_solve s_adj adj_solver]. rewrite (dotp_comm b (s_solve s c)), (dotp_comm (s_adj s b) c) by congruence. reflexivity.
Qed.
Lemma bem_null_nonsing_adj n A s b c d : exact_solver n A s -> length b = n -> length c = n ->
  nonsingular (S n) (bord n A b c d) -> solves (S n) (transp (bord n A b c d)) (bem_solve_null_adj (bem_new s b c d)) (zeros n ++ [1]).
Proof.
  intros Hs Lb Lc N. rewrite adj_bem_null.
  2:{ intros S0. destruct Hs as [_ [S1 S2]]. destruct (S1 c Lc), (S2 b Lb). split; congruence. }
  apply transp_bord_solves. apply bem_null_nonsing; try assumption; [apply adj_exact; exact Hs|]. apply (bem_nonsing_t n A s); auto.
Qed.
(** for singular A solve_null is only a multiple of the solution *)
Lemma bem_null_sing n A s b c d : exact_singular n A s -> length b = n -> length c = n ->
  mv (S n) (S n) (bord n A b c d) (bem_solve_null (bem_new s b c d)) = zeros n ++ [dotp b (fst (s_null s))].
Proof.
  intros [S0 E] Lb Lc. bem_data s b c d. unfold bem_solve_null. rewrite Des, S0. destruct (s_null s) as [phi psi]. destruct E as [Lp [Lq [Zp [Zq [Hp [Hq [Pt _]]]]]]]. cbn [fst].
  rewrite mv_bord by assumption. rewrite Hp. f_equal; [|f_equal; ring].
  apply vext; [rewrite vadd_length; rewrite ?vscal_length, ?zeros_length; congruence|]. intros i _. rewrite nth_vadd, nth_vscal, nth_zeros by (rewrite vscal_length, zeros_length; exact Lc). ring.
Qed.
Lemma mv_top n A b c d x : length c = n -> length b = n -> length x = S n -> mv n (S n) (toprows n A c) x = removelast (mv (S n) (S n) (bord n A b c d) x).
Proof.
  intros Lc Lb Lx. destruct (snoc_split x n Lx) as [f [h [-> [Lf _]]]]. rewrite mv_bord by assumption. rewrite removelast_last.
  apply vext; [rewrite vadd_length; rewrite ?vscal_length, ?mv_length; congruence|]. rewrite mv_length. intros i Hi. rewrite nth_vadd by (rewrite vscal_length, mv_length; congruence).
  rewrite !mv_nth by exact Hi. cbn [rsum]. rewrite nth_vscal, nth_snoc, Lf, Nat.ltb_irrefl, Nat.eqb_refl. unfold toprows at 2. rewrite Nat.ltb_irrefl. rewrite (Rmult_comm h). f_equal.
  apply rsum_ext. intros j Hj. unfold toprows. rewrite nth_snoc, Lf. destruct (Nat.ltb_spec j n); [reflexivity|lia].
Qed.
(** minimal norm: x solves the first rows, t spans their kernel *)
Lemma min_norm_core m (B : rmat) (M : rmat) x t f be : length x = S m -> length t = S m ->
  (forall v, length v = S m -> mv m (S m) B v = removelast (mv (S m) (S m) M v)) -> nonsingular (S m) M ->
  mv (S m) (S m) M x = f ++ [0] -> mv (S m) (S m) M t = zeros m ++ [be] -> be <> 0 -> length f = m ->
  let r := vsub x (vscal (dotp x t / dotp t t) t) in
  length r = S m /\ mv m (S m) B r = f /\ forall v, length v = S m -> mv m (S m) B v = f -> dotp r r <= dotp v v.
Proof.
  intros Lx Lt HB N Hx Ht Hbe Lf r. assert (Lr : length r = S m) by (unfold r; rewrite vsub_length; [exact Lx|rewrite vscal_length; congruence]).
  assert (Htt : dotp t t <> 0).
  { intros E. apply dotp_zero in E. rewrite Lt in E. rewrite E, mv_zeros, zeros_S in Ht. apply snoc_inj in Ht. destruct Ht; congruence. }
  set (k := dotp x t / dotp t t) in *.
  assert (Hr : mv m (S m) B r = f).
  { rewrite HB by exact Lr. unfold r. rewrite mv_vsub by (rewrite vscal_length; congruence). rewrite mv_vscal, Hx, Ht.
    assert (E : vsub (f ++ [0]) (vscal k (zeros m ++ [be])) = f ++ [0 - k * be]).
    { apply vext; [rewrite vsub_length; [rewrite !app_length; reflexivity|rewrite vscal_length, !app_length, zeros_length; cbn; lia]|]. intros i _.
      rewrite nth_vsub by (rewrite vscal_length, !app_length, zeros_length; cbn; lia). rewrite nth_vscal, !nth_snoc, zeros_length, nth_zeros, Lf.
      destruct (Nat.ltb i m); [ring|]. destruct (Nat.eqb i m); ring. }
    rewrite E. apply removelast_last. }
  split; [exact Lr|]. split; [exact Hr|]. intros v Lv Hv.
  assert (Ort : dotp r t = 0).
  { unfold r. rewrite dotp_vsub_l by (rewrite vscal_length; congruence). rewrite dotp_vscal_l. unfold k. field. exact Htt. }
  (* v - r is a multiple of t *)
  destruct (snoc_split (mv (S m) (S m) M (vsub v r)) m (mv_length _ _ _ _)) as [g [h [Eg [Lg [Eg1 Eg2]]]]].
  assert (Ldv : length (vsub v r) = S m) by (rewrite vsub_length; congruence).
  assert (Zg : g = zeros m).
  { rewrite <- Eg1, <- HB by exact Ldv. rewrite mv_vsub by congruence. rewrite Hv, Hr. apply vext; [rewrite vsub_length, zeros_length by reflexivity; exact Lf|]. intros i _. rewrite nth_vsub, nth_zeros by reflexivity. ring. }
  assert (Ev : vsub v r = vscal (h / be) t).
  { apply (solves_unique (S m) M _ _ (zeros m ++ [h]) N).
    - split; [exact Ldv|]. rewrite Eg, Zg. reflexivity.
    - split; [rewrite vscal_length; exact Lt|]. rewrite mv_vscal, Ht. apply vext; [rewrite vscal_length, !app_length; reflexivity|]. intros i _. rewrite nth_vscal, !nth_snoc, zeros_length, nth_zeros.
      destruct (Nat.ltb i m); [ring|]. destruct (Nat.eqb i m); [field; exact Hbe|ring]. }
  assert (Evv : v = vadd r (vscal (h / be) t)).
  { apply vext; [rewrite vadd_length; rewrite ?vscal_length; congruence|]. intros i _. rewrite nth_vadd by (rewrite vscal_length; congruence). rewrite <- Ev, nth_vsub by congruence. ring. }
  rewrite Evv. rewrite dotp_vadd_l by (rewrite vscal_length; congruence). rewrite !dotp_vadd_r by (rewrite vscal_length; congruence). rewrite !dotp_vscal_l, !dotp_vscal_r.
  rewrite (dotp_comm t r) by congruence. rewrite Ort. assert (P := dotp_pos t).
  set (q := h / be). assert (Q : 0 <= q * (q * dotp t t)) by (rewrite <- Rmult_assoc; apply Rmult_le_pos; [apply Rle_0_sqr|exact P]). lra.
Qed.
Lemma bem_min_norm_correct n A s b c d f : (exact_solver n A s \/ exact_singular n A s) -> length b = n -> length c = n -> length f = n ->
  nonsingular (S n) (bord n A b c d) ->
  let r := bem_min_norm (bem_new s b c d) f in
  length r = S n /\ mv n (S n) (toprows n A c) r = f /\ forall v, length v = S n -> mv n (S n) (toprows n A c) v = f -> dotp r r <= dotp v v.
Proof.
  intros Hs Lb Lc Lf N. destruct (bem_solve_zero_correct n A s b c d f Hs Lb Lc Lf N) as [Lx Hx]. cbv zeta. unfold bem_min_norm.
  destruct Hs as [Hs|Hs].
  - destruct (bem_null_nonsing n A s b c d Hs Lb Lc N) as [Lt Ht].
    apply (min_norm_core n (toprows n A c) (bord n A b c d) _ _ f 1); try assumption; [|lra]. intros v Lv. apply mv_top; assumption.
  - assert (Ht := bem_null_sing n A s b c d Hs Lb Lc). destruct (s_null s) as [phi psi] eqn:En. destruct (sing_pivots n A b c d Lb Lc s phi psi Hs En N) as [B1 _].
    cbn [fst] in Ht. apply (min_norm_core n (toprows n A c) (bord n A b c d) _ _ f (dotp b phi)); try assumption.
    + bem_data s b c d. unfold bem_solve_null. rewrite Des. destruct Hs as [S0 E]. rewrite S0, En. cbn [fst]. rewrite En in E. rewrite app_length. cbn. destruct E as [E _]. lia.
    + intros v Lv. apply mv_top; assumption.
Qed.
(** C41 is false: nullspace is always the zero vector *)
Lemma bem_nullspace_zero n A s b c d : exact_solver n A s -> length b = n -> length c = n -> nonsingular n A ->
  nonsingular (S n) (bord n A b c d) -> nullspace (bem_new s b c d) = zeros (S n).
Proof.
  intros Hs Lb Lc NA N. destruct Hs as [S0 [S1 S2]]. bem_data s b c d. unfold nullspace. rewrite Des, Deb, Dec, Ded. destruct (Dns S0) as [_ [-> [-> ->]]].
  destruct (S1 c Lc) as [Lbe Hbe]. destruct (S2 b Lb) as [Lga Hga]. assert (Hne := eta_nonzero n A b c d Lb Lc _ Lbe Hbe N).
  assert (De := delta_eta n A _ _ b c Lga Lbe Hga Hbe). rewrite De. set (beta := s_solve s c) in *. set (eta := d - dotp b beta) in *.
  destruct (S1 (vscal (1 / eta) c)) as [Lw Hw]; [rewrite vscal_length; exact Lc|].
  assert (Ew : s_solve s (vscal (1 / eta) c) = vscal (1 / eta) beta).
  { apply (solves_unique n A _ _ (vscal (1 / eta) c) NA); [split; assumption|]. split; [rewrite vscal_length; exact Lbe|]. rewrite mv_vscal, Hbe. reflexivity. }
  rewrite Ew. rewrite !dotp_vscal_r. replace ((1 / eta * d + -1 * (1 / eta * dotp b beta)) / eta) with (1 / eta) by (unfold eta; field; exact Hne).
  rewrite zeros_S. f_equal; [|f_equal; ring].
  apply vext; [rewrite vadd_length, !vscal_length, zeros_length by (rewrite !vscal_length; reflexivity); exact Lbe|]. intros i _. rewrite nth_vadd, !nth_vscal, nth_zeros by (rewrite !vscal_length; reflexivity). ring.
Qed.
(** for a singular bordered matrix nullspace divides by zero *)
Lemma bem_nullspace_pivot n A s b c d : exact_solver n A s -> length b = n -> length c = n -> nonsingular n A ->
  ~ nonsingular (S n) (bord n A b c d) -> e_delta (bem_new s b c d) = 0.
Proof.
  intros Hs Lb Lc NA N. destruct Hs as [S0 [S1 S2]]. bem_data s b c d. destruct (Dns S0) as [_ [-> _]].
  destruct (S1 c Lc) as [Lbe Hbe]. destruct (S2 b Lb) as [Lga Hga].
  assert (De := delta_eta n A _ _ b c Lga Lbe Hga Hbe). rewrite De. set (beta := s_solve s c) in *.
  destruct (Req_dec (d - dotp b beta) 0) as [E|E]; [exact E|]. exfalso. apply N. intros x Lx Hx.
  destruct (snoc_split x n Lx) as [f [h [-> [Lf _]]]]. rewrite mv_bord in Hx by assumption. rewrite zeros_S in Hx. apply snoc_inj in Hx. destruct Hx as [Hx Hh].
  assert (Q : vadd f (vscal h beta) = zeros n).
  { apply NA; [rewrite vadd_length; rewrite ?vscal_length; congruence|]. rewrite mv_vadd by (rewrite vscal_length; congruence). rewrite mv_vscal, Hbe. exact Hx. }
  assert (F : f = vscal (- h) beta).
  { apply vext; [rewrite vscal_length; congruence|]. intros i _. assert (Z := nth_vadd f (vscal h beta) i ltac:(rewrite vscal_length; congruence)). rewrite Q, nth_zeros, nth_vscal in Z. rewrite nth_vscal. lra. }
  rewrite F, dotp_vscal_r in Hh. assert (Zh : h = 0).
  { apply (Rmult_eq_reg_l (d - dotp b beta)); [|exact E]. lra. }
  subst h. rewrite F, zeros_S. f_equal. apply vext; [rewrite vscal_length, zeros_length; exact Lbe|]. intros i _. rewrite nth_vscal, nth_zeros. ring.
Qed.
(** histories of updates *)
Lemma run_op_new s b c d o : run_op (bem_new s b c d) o = let '(b', c', d') := data_op (b, c, d) o in bem_new s b' c' d'.
Proof.
  destruct o as [b' d'|c' d']; cbn; unfold update_row, update_col, bem_new; destruct (s_sing s) eqn:E; cbn; rewrite E; reflexivity.
Qed.
Lemma bem_history s ops : forall b c d, fold_left run_op ops (bem_new s b c d) = let '(b', c', d') := fold_left data_op ops (b, c, d) in bem_new s b' c' d'.
Proof.
  induction ops as [|o ops IH]; intros b c d; [reflexivity|]. cbn [fold_left]. rewrite run_op_new. destruct (data_op (b, c, d) o) as [[b' c'] d']. apply IH.
Qed.
