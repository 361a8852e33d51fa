(** The linear system solved by a Newton step of a compiled Chebyshev operator (C157): the symbolic compiler (SrcModel)
    together with the assembled ultraspherical system (OpModel). *)
From Coq Require Import Reals ZArith List Arith Bool Lra Lia.
From Coquelicot Require Import Coquelicot.
From Verif Require Import Base ChebSpec ChebMath ChebModel ChebEval ChebBary UltraModel UltraSpec UltraProofs FnlModel OpModel OpSpec OpProofs OpSys SrcModel SrcSpec SrcProofs SrcLin SrcMain PropSrc.
Import ListNotations.
Open Scope R_scope.

(** ** model: funpy/colloc/rhs.py 44-53, Residual.update: the coefficients of every residual function cut or padded to n_disc *)
Definition residual_values (n : nat) (F : list (list R)) : list (list R) := map (fun f => prolong1 f (Z.of_nat n)) F.

(** ** specification *)
(** unknowns and directions are Chebyshev series on [a,b] *)
Definition series_env (E : env) (a b : R) (U D : list (list R)) : Prop := (forall j x, e_fun E j x = ufun a b (nth j U []) x) /\ (forall j x, e_pert E 1 j x = ufun a b (nth j D []) x).
(** linBlock.py 88-99: the coefficient functions of block (e,j) are the compiled coefficients evaluated at the state *)
Definition holds_compiled (E : env) (a b : R) (m : nat) (srcs : list sexp) (Q : nat -> nat -> qblock) : Prop := forall e j, (e < m)%nat -> (j < m)%nat ->
  length (q_coeffs (Q e j)) = S (diff_order m srcs) /\ q_ics (Q e j) = [] /\
  forall k x, (k <= diff_order m srcs)%nat -> a < x < b -> ufun a b (nth k (q_coeffs (Q e j)) []) x = den E (nth k (nth j (nth e (fst (fst (compile_lin m srcs []))) []) []) (SNum 0)) x.
(** F are the series of the residuals of the equations at the state *)
Definition holds_residual (E : env) (a b : R) (m : nat) (srcs : list sexp) (F : list (list R)) : Prop := length F = m /\ forall e x, (e < m)%nat -> a < x < b -> ufun a b (nth e F []) x = den E (nth e srcs (SNum 0)) x.
(** every equation is well formed, defined near the state, and of an order the compiler finds *)
Definition sources_ok (E : env) (a b : R) (m : nat) (srcs : list sexp) : Prop := length srcs = m /\ forall s, In s srcs -> user m s /\ (forall j, (j < m)%nat -> (ode_order j s <= diff_order m srcs)%nat) /\ defined_near E (e_pert E 1) a b s.

(** ** proofs *)
Lemma evalT_ge' c x N : (length c <= N)%nat -> evalT c x = rsum N (fun k => nth k c 0 * ubasis 0 k x).
Proof. intros H. rewrite <- evalU_0. apply evalU_ge, H. Qed.
Lemma prolong_eval' n f x : (length f <= n)%nat -> evalT (prolong1 f (Z.of_nat n)) x = evalT f x.
Proof.
  intros H. rewrite (evalT_ge' f _ n), (evalT_ge' (prolong1 f (Z.of_nat n)) _ n); [|rewrite prolong1_length, Nat2Z.id; lia|exact H]. apply rsum_ext. intros j Hj. rewrite prolong1_nth by (rewrite Nat2Z.id; exact Hj). reflexivity.
Qed.
Lemma sys_op_frechet E a b m srcs Q U D e x : a < b -> smoothE E -> series_env E a b U D -> sources_ok E a b m srcs -> holds_compiled E a b m srcs Q -> (e < m)%nat -> a < x < b ->
  is_derive (fun t => den (move E (e_pert E 1) t) (nth e srcs (SNum 0)) x) 0 (sys_op a b m Q D e x).
Proof.
  intros Hab SE [SU SD] [Ls Ss] HC He Hx. assert (I : In (nth e srcs (SNum 0)) srcs) by (apply nth_In; lia). destruct (Ss _ I) as [Us [Os Ds]].
  evar_last; [apply (proj1 (C150_compile_partial E m srcs [] a b x SE Hx) e (nth e srcs (SNum 0))); [apply nth_error_nth'; lia|exact Us|exact Os|exact Ds]|].
  unfold sys_op. apply rsum_ext. intros j Hj. destruct (HC e j He Hj) as [L [Q0 C]]. unfold lin_op. rewrite L, Q0. symmetry. rewrite <- (Rplus_0_r (rsum (S (diff_order m srcs)) (fun k => den E (nth k (nth j (nth e (fst (fst (compile_lin m srcs []))) []) []) (SNum 0)) x * Derive_n (e_pert E 1 j) k x))). f_equal. symmetry. apply rsum_ext. intros k Hk. rewrite (C k x) by (try lia; exact Hx). f_equal. apply Derive_n_ext. intros y. apply SD.
Qed.
Lemma tail_agrees K n f : (2 <= n)%nat -> agrees K (n - 2 * K) (fun t => evalT f t + -1 * evalT (prolong1 f (Z.of_nat n)) t) (mk n (fun _ => 0)).
Proof.
  intros Hn. set (g := prolong1 f (Z.of_nat n)). assert (Lg : length g = n) by (unfold g; rewrite prolong1_length; apply Nat2Z.id).
  assert (A : agrees 0 n (fun t => evalT f t + -1 * evalT g t) (mk n (fun _ => 0))).
  { set (N := Nat.max n (length f)). exists (mk N (fun i => nth i f 0 + -1 * nth i g 0)). split.
    - intros i Hi. rewrite !nth_mk by lia. unfold g. rewrite prolong1_nth by (rewrite Nat2Z.id; exact Hi). ring.
    - intros x. rewrite evalU_mk. rewrite (evalT_ge' f x N), (evalT_ge' g x N) by lia. rewrite <- rsum_scal, <- rsum_plus. apply rsum_ext. intros j _. ring. }
  apply (agrees_us_convert n K 0 n) in A; [|exact Hn|apply mk_length|lia|lia]. replace (K - 0)%nat with K in A by lia. destruct A as (h & H1 & H2). exists h. split; [|exact H2].
  intros i Hi. rewrite H1 by exact Hi. rewrite matvec_nth by lia. rewrite nth_mk by lia. apply rsum_zero. intros j Hj. rewrite nth_mk by exact Hj. ring.
Qed.
Lemma residual_length n F : length (residual_values n F) = length F. Proof. apply map_length. Qed.
Lemma residual_nth n F e : (e < length F)%nat -> nth e (residual_values n F) [] = prolong1 (nth e F []) (Z.of_nat n).
Proof. intros H. unfold residual_values. rewrite (nth_indep _ [] (prolong1 [] (Z.of_nat n))) by (rewrite map_length; exact H). apply (map_nth (fun f => prolong1 f (Z.of_nat n))). Qed.
Lemma residual_Forall n F : List.Forall (fun c => length c = n) (residual_values n F).
Proof. apply List.Forall_forall. intros c I. unfold residual_values in I. apply in_map_iff in I. destruct I as [f [<- _]]. rewrite prolong1_length. apply Nat2Z.id. Qed.

(** ** C157 *)
(** a correction D solving the assembled system satisfies the linearised equations up to ultraspherical coefficients of index n - 2K and above, where K is the compiled order *)
Theorem C157_correction : forall E a b n m eps srcs U D F Q fs cts d, a < b -> (3 <= n)%nat -> (diff_order m srcs <= n)%nat ->
  smoothE E -> series_env E a b U D -> sources_ok E a b m srcs -> holds_compiled E a b m srcs Q -> holds_residual E a b m srcs F ->
  length D = m -> List.Forall (fun c => length c = n) D -> List.Forall (fun r => length r = (n * m)%nat) fs -> length cts = length fs -> sys_ok n m (diff_order m srcs) eps Q -> (forall q, (q < m)%nat -> supported (d q) (nth q D [])) ->
  rows_apply (us_matrix n m (diff_order m srcs) (b - a) eps Q fs) (concat D) = us_project n m (diff_order m srcs) cts (concat (residual_values n F)) ->
  (forall i, (i < length fs)%nat -> dotl (nth i fs []) (concat (polyval D)) = nth i cts 0) /\
  (forall e, (e < m)%nat -> exists h, (forall i, (i + 2 * diff_order m srcs < n)%nat -> nth i h 0 = 0) /\
    forall x, a < x < b -> is_derive (fun t => den (move E (e_pert E 1) t) (nth e srcs (SNum 0)) x) 0 (den E (nth e srcs (SNum 0)) x + evalU (diff_order m srcs) h (phi a b x))).
Proof.
  intros E a b n m eps srcs U D F Q fs cts d Hab Hn HK SE SV SO HC [LF HF] LD FD Ffs Lc Ok Sd M. set (K := diff_order m srcs) in *.
  assert (IF : ints_fit n m Q d). { intros e q k He Hq Hk. destruct (HC e q He Hq) as [_ [Q0 _]]. rewrite Q0 in Hk. cbn in Hk. lia. }
  destruct (system_leading a b n m K eps Q fs cts D (residual_values n F) d Hab Hn HK LD (eq_trans (residual_length n F) LF) FD (residual_Forall n F) Ffs Lc Ok Sd IF M) as [B H]. split; [exact B|].
  intros e He. destruct (H e He) as (h & H1 & H2). destruct (tail_agrees K n (nth e F [])) as (g & G1 & G2); [lia|].
  set (N := Nat.max n (Nat.max (length h) (length g))). exists (mk N (fun i => nth i h 0 + -1 * nth i g 0)). split.
  - intros i Hi. rewrite nth_mk by lia. rewrite H1 by exact Hi. rewrite G1 by lia. rewrite nth_mk by lia. ring.
  - intros x Hx. evar_last; [apply (sys_op_frechet E a b m srcs Q U D e x Hab SE SV SO HC He Hx)|].
    rewrite evalU_mk. rewrite (rsum_ext N _ (fun j => nth j h 0 * ubasis K j (phi a b x) + -1 * (nth j g 0 * ubasis K j (phi a b x)))) by (intros; ring). rewrite rsum_plus, rsum_scal. rewrite <- (evalU_ge K h), <- (evalU_ge K g) by lia.
    rewrite <- H2, G2. rewrite <- (HF e x He Hx). unfold ufun. rewrite residual_nth by lia. ring.
Qed.
Print Assumptions C157_correction.

(** when nothing is cut off, the assembled system is equivalent to the conditions together with the linearised equations up to the K last coefficients *)
Theorem C157_exact : forall E a b n m eps srcs U D F Q fs cts d, a < b -> (3 <= n)%nat -> (diff_order m srcs <= n)%nat ->
  smoothE E -> series_env E a b U D -> sources_ok E a b m srcs -> holds_compiled E a b m srcs Q -> holds_residual E a b m srcs F -> List.Forall (fun f => (length f <= n)%nat) F ->
  length D = m -> List.Forall (fun c => length c = n) D -> List.Forall (fun r => length r = (n * m)%nat) fs -> length cts = length fs -> sys_ok n m (diff_order m srcs) eps Q -> (forall q, (q < m)%nat -> supported (d q) (nth q D [])) -> terms_fit n m Q d ->
  rows_apply (us_matrix n m (diff_order m srcs) (b - a) eps Q fs) (concat D) = us_project n m (diff_order m srcs) cts (concat (residual_values n F)) ->
  (forall i, (i < length fs)%nat -> dotl (nth i fs []) (concat (polyval D)) = nth i cts 0) /\
  (forall e, (e < m)%nat -> exists h, length h = n /\ (forall i, (i < n - diff_order m srcs)%nat -> nth i h 0 = 0) /\
    forall x, a < x < b -> is_derive (fun t => den (move E (e_pert E 1) t) (nth e srcs (SNum 0)) x) 0 (den E (nth e srcs (SNum 0)) x + evalU (diff_order m srcs) h (phi a b x))).
Proof.
  intros E a b n m eps srcs U D F Q fs cts d Hab Hn HK SE SV SO HC [LF HF] SF LD FD Ffs Lc Ok Sd Tf M. set (K := diff_order m srcs) in *.
  assert (IF : ints_fit n m Q d). { intros e q k He Hq Hk. destruct (HC e q He Hq) as [_ [Q0 _]]. rewrite Q0 in Hk. cbn in Hk. lia. }
  destruct (proj1 (system_exact a b n m K eps Q fs cts D (residual_values n F) d Hab Hn HK LD (eq_trans (residual_length n F) LF) FD (residual_Forall n F) Ffs Lc Ok Sd IF Tf) M) as [B H]. split; [exact B|].
  intros e He. destruct (H e He) as (h & Lh & H1 & H2). exists h. split; [exact Lh|]. split; [exact H1|].
  intros x Hx. evar_last; [apply (sys_op_frechet E a b m srcs Q U D e x Hab SE SV SO HC He Hx)|].
  rewrite <- H2. rewrite <- (HF e x He Hx). rewrite residual_nth by lia. unfold ufun. replace (evalT (prolong1 (nth e F []) (Z.of_nat n)) (phi a b x)) with (evalT (nth e F []) (phi a b x)); [ring|].
  symmetry. apply (prolong_eval' n). rewrite List.Forall_forall in SF. apply SF, nth_In. lia.
Qed.
Print Assumptions C157_exact.

(** polynomial equations: all coefficients and residuals are Chebyshev series, so the hypotheses can be met *)
Fixpoint polynomial (s : sexp) : Prop :=
  match s with
  | SInv _ | SApp _ _ => False
  | SAdd p q | SMul p q => polynomial p /\ polynomial q
  | SPow p _ | SD p => polynomial p
  | _ => True
  end.
Definition is_series (a b : R) (f : R -> R) : Prop := exists c, forall x, ufun a b c x = f x.
Lemma series_span a b f : a < b -> (exists n g, spanT n g /\ forall x, f x = g (phi a b x)) <-> is_series a b f.
Proof.
  intros Hab. split.
  - intros (n & g & (c & _ & Hc) & H). exists c. intros x. unfold ufun. rewrite <- Hc. symmetry. apply H.
  - intros [c H]. exists (length c), (evalT c). split; [apply spanT_evalT; lia|]. intros x. symmetry. apply H.
Qed.
Lemma series_ext a b f g : (forall x, f x = g x) -> is_series a b f -> is_series a b g.
Proof. intros E [c H]. exists c. intros x. rewrite H. apply E. Qed.
Lemma series_plus a b f g : a < b -> is_series a b f -> is_series a b g -> is_series a b (fun x => f x + g x).
Proof.
  intros Hab F G. apply series_span in F; [|exact Hab]. apply series_span in G; [|exact Hab]. destruct F as (n & p & Sp & F). destruct G as (m & q & Sq & G). apply series_span; [exact Hab|].
  exists (Nat.max n m), (fun x => p x + q x). split; [apply spanT_plus; [apply (spanT_mono n)|apply (spanT_mono m)]; try assumption; lia|]. intros x. rewrite F, G. reflexivity.
Qed.
Lemma series_mult a b f g : a < b -> is_series a b f -> is_series a b g -> is_series a b (fun x => f x * g x).
Proof.
  intros Hab F G. apply series_span in F; [|exact Hab]. apply series_span in G; [|exact Hab]. destruct F as (n & p & Sp & F). destruct G as (m & q & Sq & G). apply series_span; [exact Hab|].
  exists (n + m)%nat, (fun x => p x * q x). split; [apply (spanT_mul n m); try assumption; lia|]. intros x. rewrite F, G. reflexivity.
Qed.
Lemma series_const a b r : is_series a b (fun _ => r).
Proof. exists [r]. intros x. unfold ufun, evalT. cbn. ring. Qed.
Lemma series_id a b : a < b -> is_series a b (fun x => x).
Proof. intros H. exists [(a + b) / 2; (b - a) / 2]. intros x. unfold ufun, evalT, phi. cbn. field. lra. Qed.
Lemma series_Derive_n a b f k : a < b -> is_series a b f -> is_series a b (Derive_n f k).
Proof.
  intros Hab [c H]. destruct c as [|c0 c].
  - apply (series_ext a b (fun _ => 0)); [|apply series_const]. intros x. rewrite (Derive_n_ext f (fun _ => 0) k x) by (intros t; rewrite <- H; reflexivity). destruct k; [reflexivity|]. symmetry. apply Derive_n_const.
  - set (cc := c0 :: c) in *. apply series_span; [exact Hab|]. set (n := S (length cc)).
    exists n, (evalU k (matvec n (us_diff n (b - a) k) (prolong1 cc (Z.of_nat n)))). split.
    + apply spanT_evalU; [unfold n, cc; cbn; lia|]. rewrite matvec_length. lia.
    + assert (L : length (prolong1 cc (Z.of_nat n)) = n) by (rewrite prolong1_length; apply Nat2Z.id). intros x. rewrite (us_diff_exact n (b - a) k _ L).
      rewrite (Derive_n_ext f (ufun a b cc) k x) by (intros t; symmetry; apply H). rewrite Derive_n_ufun by exact Hab. f_equal. apply Derive_n_ext. intros t. symmetry.
      rewrite (evalT_ge' cc _ n) by (unfold n; lia). rewrite (evalT_ge' (prolong1 cc (Z.of_nat n)) _ n) by (rewrite L; lia). apply rsum_ext. intros j Hj. rewrite prolong1_nth by (rewrite Nat2Z.id; exact Hj). reflexivity.
Qed.
Lemma poly_series E a b nf s : a < b -> (forall j, is_series a b (e_cf E j)) -> (forall j, is_series a b (e_fun E j)) -> user nf s -> nosd s -> polynomial s -> is_series a b (den E s).
Proof.
  intros Hab Hc Hf. induction s; cbn [user nosd polynomial den]; intros U N P; try contradiction.
  - apply series_const.
  - apply series_id, Hab.
  - apply (series_const a b (e_par E p)).
  - apply series_Derive_n; [exact Hab|apply Hc].
  - apply series_Derive_n; [exact Hab|apply Hf].
  - apply series_plus; [exact Hab|apply IHs1|apply IHs2]; tauto.
  - apply series_mult; [exact Hab|apply IHs1|apply IHs2]; tauto.
  - specialize (IHs U N P). induction n as [|n IH]; [apply (series_const a b 1)|]. cbn [pow]. apply (series_mult a b (den E s) (fun x => den E s x ^ n)); assumption.
Qed.
Lemma closed_poly : closed polynomial. Proof. unfold closed; cbn; intuition. Qed.
Lemma poly_sdx s : polynomial s -> polynomial (sdx s).
Proof. induction s; cbn [polynomial sdx]; tauto. Qed.
Lemma poly_norm s : polynomial s -> polynomial (norm s).
Proof. induction s; cbn [polynomial norm]; try tauto. intros H. apply poly_sdx, IHs, H. Qed.
Lemma poly_repl l j s : polynomial s -> polynomial (repl l j s).
Proof. induction s; cbn [polynomial repl]; try tauto. destruct (Nat.eqb j0 j); cbn; tauto. Qed.
Lemma poly_sdiff at' s : polynomial s -> polynomial (sdiff at' s).
Proof. induction s; cbn [polynomial sdiff]; try tauto. Qed.
Lemma poly_subs0 s : polynomial s -> polynomial (subs0 s).
Proof.
  induction s; cbn [polynomial subs0]; try tauto; intros [H1 H2].
  - apply sadd_P; [apply closed_poly|apply IHs1, H1|apply IHs2, H2].
  - apply smul_P; [apply closed_poly|apply IHs1, H1|apply IHs2, H2].
Qed.
Theorem C157_polynomial : forall E a b m srcs, a < b -> (forall j, is_series a b (e_cf E j)) -> (forall j, is_series a b (e_fun E j)) -> smoothE E -> sources_ok E a b m srcs -> (forall s, In s srcs -> polynomial s) ->
  (forall e, (e < m)%nat -> exists c, forall x, a < x < b -> ufun a b c x = den E (nth e srcs (SNum 0)) x) /\
  (forall e j k, (e < m)%nat -> (j < m)%nat -> exists c, forall x, ufun a b c x = den E (nth k (nth j (nth e (fst (fst (compile_lin m srcs []))) []) []) (SNum 0)) x).
Proof.
  intros E a b m srcs Hab Hc Hf SE [Ls Ss] P. split.
  - intros e He. assert (I : In (nth e srcs (SNum 0)) srcs) by (apply nth_In; lia). destruct (Ss _ I) as [Us [Os Ds]].
    destruct (poly_series E a b m (norm (nth e srcs (SNum 0))) Hab Hc Hf (user_norm _ _ Us) (norm_nosd _) (poly_norm _ (P _ I))) as [c H]. exists c. intros x Hx. rewrite H. apply (norm_correct E a b _ SE (defined_near_0 _ _ _ _ _ Ds) x Hx).
  - intros e j k He Hj. assert (I : In (nth e srcs (SNum 0)) srcs) by (apply nth_In; lia). destruct (Ss _ I) as [Us [Os Ds]].
    assert (NE : nth_error srcs e = Some (nth e srcs (SNum 0))) by (apply nth_error_nth'; lia). cbn [compile_lin fst].
    assert (UC := C150_coefficients_closed (diff_order m srcs) m srcs e _ j k NE Us Hj Os).
    apply (poly_series E a b m); try assumption; rewrite (linearize_row _ m srcs e _ NE), map_seq_nth by exact Hj; unfold lin_block, frechet; apply coeffs_P.
    + apply closed_nosd.
    + apply (fr_nosd 1 j), norm_nosd.
    + apply closed_poly.
    + apply poly_subs0, poly_sdiff, poly_repl, poly_norm, P, I.
Qed.
Print Assumptions C157_polynomial.

(** a case: u'' + u^2 on [-1,1] at u = x with 5 coefficients; the correction x/2 solves d'' + 2 x d = x^2 *)
Definition c157_src : sexp := SAdd (SFun 0 2) (SMul (SFun 0 0) (SFun 0 0)).
Definition c157_U : list (list R) := [[0; 1]].
Definition c157_D : list (list R) := [[0; / 2; 0; 0; 0]].
Definition c157_F : list (list R) := [[/ 2; 0; / 2]].
Definition c157_env : env := mkEnv (fun _ => 0) (fun _ _ => 0) (fun j => ufun (-1) 1 (nth j c157_U [])) (fun _ j => ufun (-1) 1 (nth j c157_D [])) 0.
Definition c157_Q (e j : nat) : qblock := mkQ [true; true; true; true] [[0; 2]; [0]; [1]] [] [].
Lemma smooth_ufun1 c : smooth (ufun (-1) 1 c).
Proof. intros k x. apply (ex_derive_n_ext (evalT c)); [intros t; unfold ufun, phi; f_equal; field|]. apply ex_derive_n_evalT. Qed.
Lemma phi1 x : phi (-1) 1 x = x. Proof. unfold phi. field. Qed.
Lemma c157_frechet : frechet 1 0 c157_src = SAdd (SMul (SNum 1) (SPert 1 0 2)) (SAdd (SMul (SMul (SNum 1) (SPert 1 0 0)) (SFun 0 0)) (SMul (SFun 0 0) (SMul (SNum 1) (SPert 1 0 0)))).
Proof. unfold frechet, diff_eps, c157_src. cbn [norm repl Nat.eqb sdiff subs0]. unfold smul. rewrite !isz0, isz1. cbn [isz]. unfold sadd. rewrite !isz0. cbn [isz]. reflexivity. Qed.
Example C157_ex : forall eps, smoothE c157_env /\ series_env c157_env (-1) 1 c157_U c157_D /\ sources_ok c157_env (-1) 1 1 [c157_src] /\ holds_compiled c157_env (-1) 1 1 [c157_src] c157_Q /\
  holds_residual c157_env (-1) 1 1 [c157_src] c157_F /\ sys_ok 5 1 (diff_order 1 [c157_src]) eps c157_Q /\ terms_fit 5 1 c157_Q (fun _ => 2%nat) /\ (forall q, (q < 1)%nat -> supported 2 (nth q c157_D [])) /\
  rows_apply (us_matrix 5 1 (diff_order 1 [c157_src]) (1 - -1) eps c157_Q []) (concat c157_D) = us_project 5 1 (diff_order 1 [c157_src]) [] (concat (residual_values 5 c157_F)).
Proof.
  intros eps. assert (SE : smoothE c157_env). { split; [intros j; apply (smooth_K 0)|]. split; intros; apply smooth_ufun1. }
  assert (SV : series_env c157_env (-1) 1 c157_U c157_D) by (split; reflexivity).
  assert (SO : sources_ok c157_env (-1) 1 1 [c157_src]).
  { split; [reflexivity|]. intros s [<-|[]]. split; [cbn; lia|]. split; [intros j Hj; replace j with 0%nat by lia; cbn; lia|]. unfold defined_near. apply filter_forall. intros. cbn. tauto. }
  assert (K2 : diff_order 1 [c157_src] = 2%nat) by reflexivity.
  assert (HC : holds_compiled c157_env (-1) 1 1 [c157_src] c157_Q).
  { intros e j He Hj. replace e with 0%nat by lia. replace j with 0%nat by lia. split; [reflexivity|]. split; [reflexivity|]. intros k x Hk Hx. rewrite K2 in Hk.
    cbn [compile_lin fst]. rewrite (linearize_row _ 1 [c157_src] 0 c157_src eq_refl), map_seq_nth by lia. rewrite K2. unfold lin_block. rewrite c157_frechet. unfold ufun. rewrite phi1.
    destruct k as [|[|[|k]]]; [| | |lia]; cbn; unfold ufun, evalT; cbn; rewrite ?phi1; ring. }
  assert (HR : holds_residual c157_env (-1) 1 1 [c157_src] c157_F).
  { split; [reflexivity|]. intros e x He Hx. replace e with 0%nat by lia. cbn [nth c157_src den c157_F]. assert (Z : Derive_n (e_fun c157_env 0) 2 x = 0).
    { rewrite (Derive_n_ext _ (fun t => t ^ 1)) by (intros t; cbn; unfold ufun, evalT; cbn; rewrite phi1; ring). apply Derive_n_pow_bigi. lia. }
    rewrite Z. cbn. unfold ufun, evalT. cbn. rewrite phi1. field. }
  assert (OK : sys_ok 5 1 (diff_order 1 [c157_src]) eps c157_Q).
  { intros e q He Hq. split.
    - split; [intros j Hj; cbn in Hj; destruct j as [|[|[|j]]]; [| | |lia]; cbn; discriminate|cbn; discriminate].
    - split; [|split; [reflexivity|cbn; lia]]. intros j Hj. cbn in Hj. rewrite K2. split; [lia|]. destruct j as [|[|[|j]]]; [| | |lia].
      + right. split; [cbn; lia|]. left. split; [lia|]. left. lia.
      + left. reflexivity.
      + left. reflexivity. }
  assert (TF : terms_fit 5 1 c157_Q (fun _ => 2%nat)). { intros e q j He Hq Hj. cbn in Hj. destruct j as [|[|[|j]]]; [| | |lia]; cbn; lia. }
  assert (SD : forall q, (q < 1)%nat -> supported 2 (nth q c157_D [])). { intros q Hq i Hi. replace q with 0%nat by lia. destruct i as [|[|[|[|[|i]]]]]; try lia; cbn; try reflexivity. destruct i; reflexivity. }
  repeat (split; [assumption|]).
  apply (proj2 (system_exact (-1) 1 5 1 (diff_order 1 [c157_src]) eps c157_Q [] [] c157_D (residual_values 5 c157_F) (fun _ => 2%nat) ltac:(lra) ltac:(lia) ltac:(rewrite K2; lia) eq_refl eq_refl ltac:(repeat constructor) (residual_Forall 5 c157_F) ltac:(constructor) eq_refl OK SD ltac:(intros ? ? ? _ _ Hk; cbn in Hk; lia) TF)).
  split; [intros i Hi; cbn in Hi; lia|]. intros e He. replace e with 0%nat by lia. exists (repeat 0 5). split; [reflexivity|]. split; [intros i _; do 6 (destruct i as [|i]; [reflexivity|]); reflexivity|].
  intros x. unfold sys_op, lin_op. cbn [rsum c157_Q q_coeffs q_ics length nth].
  assert (Z : Derive_n (ufun (-1) 1 (nth 0 c157_D [])) 2 x = 0). { rewrite (Derive_n_ext _ (fun t => / 2 * t ^ 1)) by (intros t; cbn; unfold ufun, evalT; cbn; rewrite phi1; ring). rewrite Derive_n_scal_l. rewrite Derive_n_pow_bigi by lia. ring. }
  assert (G : ufun (-1) 1 (nth 0 (residual_values 5 c157_F) []) x = x ^ 2). { rewrite residual_nth by (cbn; lia). unfold ufun. rewrite (prolong_eval' 5) by (cbn; lia). rewrite phi1. unfold evalT. cbn. field. }
  assert (H0 : evalU 2 (repeat 0 5) (phi (-1) 1 x) = 0). { unfold evalU. apply rsum_zero. intros j Hj. replace (nth j (repeat 0 5) 0) with 0; [ring|]. do 5 (destruct j as [|j]; [reflexivity|]). cbn in Hj. lia. }
  rewrite G, K2, H0, Z. change (Derive_n (ufun (-1) 1 (nth 0 c157_D [])) 0 x) with (ufun (-1) 1 (nth 0 c157_D []) x). generalize (Derive_n (ufun (-1) 1 (nth 0 c157_D [])) 1 x). intros r. unfold ufun, evalT. cbn. rewrite !phi1. field.
Qed.
