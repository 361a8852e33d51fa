(** Properties of funpy/functional.py, of the functional conversions in
    funpy/colloc/coeffsDiscretization.py and of the quadrature weights.
    Vocabulary: ev, fev (values of a column on [-1,1], on the domain), fwf
    (non-empty rectangular coefficients, a < b): ChebObj.v, FunProofs.v; dotl is
    the dot product; models: FnlModel.v. *)
From Coq Require Import Reals ZArith List Arith Bool Lra Lia.
From Coquelicot Require Import Coquelicot.
From Verif Require Import Base ChebSpec ChebMath ChebModel ChebEval ChebDct ChebCalc ChebObj FunModel FunProofs FnlModel FnlProofs FnlMore.
Import ListNotations.
Open Scope R_scope.

(** ** C44: functional rows *)
(** C44: the row of f applied to the coefficients of u (same length, same
    columns, same domain) is Clenshaw-Curtis quadrature of sum_j f_j u_j. *)
Theorem C44_row_is_quadrature : forall F G, fwf F -> fwf G -> len (onefun G) = len (onefun F) -> fcols G = fcols F ->
  dom0 G = dom0 F -> dom1 G = dom1 F ->
  exists row w, functional_row F = Some row /\ quadwts (len (onefun F)) = Some w /\
    length row = (len (onefun F) * fcols F)%nat /\
    dotl row (fun_flatten G) = rsum (fcols F) (fun j => (dom1 F - dom0 F) / 2 * rsum (len (onefun F)) (fun k =>
       nth k w 0 * (ev (onefun F) j (nth k (chebpts_type2_compute (len (onefun F))) 0)
                  * ev (onefun G) j (nth k (chebpts_type2_compute (len (onefun F))) 0)))).
Proof. exact functional_row_quad. Qed.
Print Assumptions C44_row_is_quadrature.

(** C44, partial: it is the integral when the degrees fit: deg f + deg u < n. *)
Theorem C44_row_exact_partial : forall F G p q, fwf F -> fwf G -> len (onefun G) = len (onefun F) -> fcols G = fcols F ->
  dom0 G = dom0 F -> dom1 G = dom1 F ->
  (p + q <= S (len (onefun F)))%nat ->
  (forall j k, (j < fcols F)%nat -> (p <= k)%nat -> coef (onefun F) j k = 0) ->
  (forall j k, (j < fcols F)%nat -> (q <= k)%nat -> coef (onefun G) j k = 0) ->
  exists row, functional_row F = Some row /\
    is_RInt (fun x => rsum (fcols F) (fun j => fev F j x * fev G j x)) (dom0 F) (dom1 F) (dotl row (fun_flatten G)).
Proof. exact functional_row_exact. Qed.
Print Assumptions C44_row_exact_partial.

(** C44, refuted in general: f = u = x on two points gives 2 instead of 2/3. *)
Theorem C44_row_exact_refuted : exists F row, fwf F /\ functional_row F = Some row /\
  dotl row (fun_flatten F) = 2 /\ is_RInt (fun x => fev F 0 x * fev F 0 x) (dom0 F) (dom1 F) (2 / 3).
Proof.
  exists (mkF [[0; 1]] (-1) 1), [0; 2]. destruct ex_row as [A [B C]]. split.
  - split; [exists 2%nat; split; [lia|]; split; [discriminate|repeat constructor]|cbn; lra].
  - split; [exact A|]. split; [exact B|exact C].
Qed.
Print Assumptions C44_row_exact_refuted.

(** ** C98: weighted functional rows *)
(** C98, partial (one column): the weighted row gives the integral of f u with
    the weight 1/sqrt(1-x^2) (x = cos t). *)
Theorem C98_weighted_row_partial : forall F G, fwf F -> fwf G -> fcols F = 1%nat -> fcols G = 1%nat ->
  len (onefun G) = len (onefun F) ->
  is_RInt (fun t => ev (onefun F) 0 (cos t) * ev (onefun G) 0 (cos t)) 0 PI (dotl (functional_weighted F) (fun_flatten G)).
Proof. exact weighted_one. Qed.
Print Assumptions C98_weighted_row_partial.

(** C98, refuted for systems: only the first column's constant gets the factor
    pi.  For f = u = (1, 1) the value is 3/2 pi instead of 2 pi. *)
Theorem C98_weighted_row_refuted : exists F, fwf F /\ fcols F = 2%nat /\
  dotl (functional_weighted F) (fun_flatten F) = 3 / 2 * PI /\
  is_RInt (fun t => rsum 2 (fun j => ev (onefun F) j (cos t) * ev (onefun F) j (cos t))) 0 PI (2 * PI).
Proof.
  exists (mkF [[1]; [1]] (-1) 1). split; [|split; [reflexivity|exact ex_weighted]].
  split; [exists 1%nat; split; [lia|]; split; [discriminate|repeat constructor]|cbn; lra].
Qed.
Print Assumptions C98_weighted_row_refuted.

(** ** C99: Functional(f, n=...) and its argument *)
(** C99, partial: for n >= len f the caller's function keeps its values. *)
Theorem C99_argument_kept_partial : forall F n j x, fwf F -> (len (onefun F) <= n)%nat -> (j < fcols F)%nat ->
  fev (snd (functional_row_n F (Z.of_nat n))) j x = fev F j x.
Proof.
  intros F n j x [[m R] D] H Hj. unfold functional_row_n, fun_prolong, fev, ev. cbn [snd onefun coeffs dom0 dom1].
  rewrite nth_prolong by exact Hj. apply prolong1_eval.
  rewrite (rect_nth m) by (try exact R; exact Hj). rewrite <- (rect_nrows m _ R). apply inj_le. exact H.
Qed.
Print Assumptions C99_argument_kept_partial.

(** C99, refuted: a shorter n truncates the caller's function: x becomes 0. *)
Theorem C99_argument_kept_refuted : exists F, fwf F /\ (exists row, fst (functional_row_n F 1) = Some row) /\
  fev F 0 1 = 1 /\ fev (snd (functional_row_n F 1)) 0 1 = 0.
Proof.
  exists (mkF [[0; 1]] (-1) 1). split.
  - split; [exists 2%nat; split; [lia|]; split; [discriminate|repeat constructor]|cbn; lra].
  - split; [eexists; reflexivity|]. split; unfold fev, ev, evalT, mkF; cbn; [field|]. 
    change (Pos.to_nat 1) with 1%nat. cbn. ring.
Qed.
Print Assumptions C99_argument_kept_refuted.

(** ** C100: value rows to coefficient rows *)
(** C100: for every row r of m blocks of n values, the converted row applied to
    Chebyshev coefficients equals r applied to the values at the n points. *)
Theorem C100_convert_functional : forall n m r A, (1 <= n)%nat -> length r = (n * m)%nat -> length A = m ->
  List.Forall (fun c => length c = n) A ->
  dotl (convert_functional n m r) (concat A) = dotl r (concat (polyval A)).
Proof. exact convert_functional_dot. Qed.
Print Assumptions C100_convert_functional.

(** C100: so the row of an evaluation functional (its values at the points are
    the cardinal functions at z: exact on polynomials of degree < n) evaluates. *)
Theorem C100_evaluation_row : forall n r z c, (1 <= n)%nat -> length r = n -> length c = n ->
  (forall d, length d = n -> dotl r (polyval1 d) = evalT d z) ->
  dotl (convert_functional n 1 r) c = evalT c z.
Proof.
  intros n r z c Hn Lr Lc H. rewrite <- (H c Lc).
  pose proof (convert_functional_dot n 1 r [c] Hn ltac:(lia) eq_refl ltac:(repeat constructor; exact Lc)) as Q.
  cbn [concat polyval map] in Q. rewrite !app_nil_r in Q. exact Q.
Qed.
Print Assumptions C100_evaluation_row.

(** ** C101: functions representing functionals *)
(** C101: the function computed from a row of m blocks of n coefficients
    represents it: its functional row is that row; and conversely. *)
Theorem C101_to_function_row : forall n m a b r, (1 <= n)%nat -> (1 <= m)%nat -> a < b -> length r = (n * m)%nat ->
  exists A, to_function_coeffs n m a b r = Some A /\ rect n A /\ length A = m /\
    functional_row (mkF A a b) = Some r.
Proof. exact to_function_row. Qed.
Print Assumptions C101_to_function_row.
Theorem C101_row_to_function : forall F n, fwf F -> len (onefun F) = n ->
  exists row, functional_row F = Some row /\
    to_function_coeffs n (fcols F) (dom0 F) (dom1 F) row = Some (coeffs (onefun F)).
Proof. exact row_to_function. Qed.
Print Assumptions C101_row_to_function.

(** ** C102: the quadrature weights *)
(** C102: the Clenshaw-Curtis weights are positive; hence quadrature of a
    function bounded by B on [-1,1] is at most 2 B. *)
Theorem C102_weights_positive : forall N w j, (1 <= N)%nat -> quadwts N = Some w -> (j < N)%nat -> 0 < nth j w 0.
Proof. exact quadwts_pos. Qed.
Print Assumptions C102_weights_positive.
Theorem C102_quadrature_stable : forall N w f B, (1 <= N)%nat -> quadwts N = Some w ->
  (forall x, -1 <= x <= 1 -> Rabs (f x) <= B) ->
  Rabs (rsum N (fun j => nth j w 0 * f (nth j (chebpts_type2_compute N) 0))) <= 2 * B.
Proof. exact quadwts_bound. Qed.
Print Assumptions C102_quadrature_stable.

(** ** The hypotheses are met by concrete cases *)
(** f = x, u = 1 on three points of [0,2]: p = 2, q = 1. *)
Example ex_C44 : let F := mkF [[0; 1; 0]] 0 2 in let G := mkF [[1; 0; 0]] 0 2 in
  fwf F /\ fwf G /\ len (onefun G) = len (onefun F) /\ fcols G = fcols F /\ (2 + 1 <= S (len (onefun F)))%nat /\
  (forall j k, (j < fcols F)%nat -> (2 <= k)%nat -> coef (onefun F) j k = 0) /\
  (forall j k, (j < fcols F)%nat -> (1 <= k)%nat -> coef (onefun G) j k = 0).
Proof.
  cbn zeta. repeat match goal with |- _ /\ _ => split end; try reflexivity; try (cbn; lra); try (cbn; lia).
  - split; [exists 3%nat; split; [lia|]; split; [discriminate|repeat constructor]|cbn; lra].
  - split; [exists 3%nat; split; [lia|]; split; [discriminate|repeat constructor]|cbn; lra].
  - intros [|j] [|[|[|k]]] Hj Hk; try lia; cbn in Hj; try lia; unfold coef; cbn; try destruct k; reflexivity.
  - intros [|j] [|[|[|k]]] Hj Hk; try lia; cbn in Hj; try lia; unfold coef; cbn; try destruct k; reflexivity.
Qed.
(** The row picking the last value evaluates at z = 1 for every length. *)
Example ex_C100 n : (2 <= n)%nat -> let r := mk n (fun i => if Nat.eqb i (n - 1) then 1 else 0) in
  length r = n /\ (forall d, length d = n -> dotl r (polyval1 d) = evalT d 1).
Proof.
  intros Hn r. assert (Lr : length r = n) by apply mk_length. split; [exact Lr|]. intros d Ld. unfold dotl. rewrite Lr.
  rewrite (rsum_single n _ (n - 1)%nat); [|lia|].
  2:{ intros k Hk Hne. unfold r. rewrite nth_mk by lia. destruct (Nat.eqb_spec k (n - 1)); [lia|ring]. }
  unfold r. rewrite nth_mk, Nat.eqb_refl by lia. rewrite polyval1_spec by lia. rewrite Ld, chebpts_nth by lia.
  rewrite Nat.sub_diag. cbn [INR]. unfold Rdiv. rewrite Rmult_0_r, Rmult_0_l, cos_0. ring.
Qed.
