(** Periodic linear operators: the Fourier collocation matrices of trigspec (C112-C115). *)
From Coq Require Import Reals ZArith List Arith Bool Lra Lia.
From Coquelicot Require Import Coquelicot.
From Verif Require Import Base TrigSpec TrigModel TrigCalc TSpecSpec TSpecModel TSpecClaims TSpecZ TSpecMat TSpecProofs TSpecRefute TSpecReal.
Import ListNotations.
Open Scope R_scope.
Open Scope C_scope.

(** ** C112: the matrix of a block represents the operator *)
(** C112: applied to the n Fourier coefficients of u, the assembled matrix gives the n
    Fourier coefficients of L[u], whatever the lengths of the coefficient functions. *)
Theorem C112_block_fourier : forall a b n q v i, a < b -> length v = n -> (1 <= n)%nat -> plain v -> tblock_ok a b q -> (i < n)%nat ->
  nth i (cmatvec n (ts_raw n (b - a) q) v) (RtoC 0) = fourier a b (tblock_op a b q (tfun a b v)) (freq n i).
Proof. exact raw_fourier. Qed.
Print Assumptions C112_block_fourier.
(** C112: dropping the entries below e changes every coefficient by at most e sum |v_j|. *)
Theorem C112_block_error : forall a b n q v i e adj, a < b -> 0 <= e -> length v = n -> (1 <= n)%nat -> plain v -> tblock_ok a b q -> (i < n)%nat ->
  Cmod (nth i (cmatvec n (ts_block adj n (b - a) e q) v) (RtoC 0) - fourier a b (tblock_op a b q (tfun a b v)) (freq n i)) <= e * rsum n (fun j => Cmod (nth j v (RtoC 0))).
Proof.
  intros a b n q v i e adj Hab He Lv Hn Pv Hq Hi. rewrite <- (raw_fourier a b n q v i Hab Lv Hn Pv Hq Hi). apply celim_bound; assumption.
Qed.
Print Assumptions C112_block_error.
(** C112: with constant coefficients the result is L[u] itself. *)
Theorem C112_constant_exact : forall a b n q v, a < b -> length v = n -> (1 <= n)%nat -> plain v -> tblock_ok a b q -> const_block q ->
  forall x, tfun a b (cmatvec n (ts_raw n (b - a) q) v) x = tblock_op a b q (tfun a b v) x.
Proof. exact raw_const. Qed.
Print Assumptions C112_constant_exact.
(** C112: the derivative matrices of every order and size, even or odd, map the coefficients of a
    real function to coefficients of a real function. *)
Theorem C112_derivative_real : forall a b n m v, (1 <= n)%nat -> length v = n -> (forall x, Im (evalF v x) = 0%R) ->
  forall x, Im (evalF (cmatvec n (ts_diff n m (b - a)) v) x) = 0%R.
Proof. intros a b n m v Hn Lv Hh. exact (diff_real n m (b - a) v Hn Lv Hh). Qed.
Print Assumptions C112_derivative_real.
Example ex_C112_real : length v_cos = 2%nat /\ forall x, Im (evalF v_cos x) = 0%R.
Proof.
  split; [reflexivity|]. intros x. destruct q_sin_wrong as [H _]. specialize (H x). unfold tfun in H.
  replace (tphi (-1) 1 x) with x in H by (unfold tphi; field). rewrite H. reflexivity.
Qed.
(** C112 REFUTED for integral terms: the integrand is not used. *)
Theorem C112_integrand_refuted : ~ (forall a b n q v, a < b -> length v = n -> (1 <= n)%nat -> plain v -> const_block q ->
  tflags_ok (tflag (t_info q)) (t_coeffs q) -> tflags_ok (tflag (t_nlinfo q)) (t_nlcoeffs q) -> t_iflag q = true -> length (t_ics q) = 1%nat -> length (t_ints q) = 1%nat ->
  forall x, tfun a b (cmatvec n (ts_raw n (b - a) q) v) x = tblock_op a b q (tfun a b v) x).
Proof.
  intros H. destruct q_int0_wrong as [x Hx]. apply Hx. apply (H (-1)%R 1%R 1%nat q_int0 [RtoC 1]); try reflexivity; try lra; try lia; try (intros j Hj; cbn in Hj; lia).
  - apply plain_odd. reflexivity.
  - intros c Hc. cbn in Hc. destruct Hc as [<-|[]]. reflexivity.
Qed.
Print Assumptions C112_integrand_refuted.
(** C112 REFUTED for two integral terms: only the first is used. *)
Theorem C112_two_integrals_refuted : ~ (forall a b n q v, a < b -> length v = n -> (1 <= n)%nat -> plain v -> const_block q ->
  tflags_ok (tflag (t_info q)) (t_coeffs q) -> tflags_ok (tflag (t_nlinfo q)) (t_nlcoeffs q) -> t_iflag q = true -> length (t_ics q) = length (t_ints q) ->
  (forall d y, In d (t_ints q) -> tfun a b d y = RtoC 1) ->
  forall x, tfun a b (cmatvec n (ts_raw n (b - a) q) v) x = tblock_op a b q (tfun a b v) x).
Proof.
  intros H. destruct q_int2_wrong as [x Hx]. apply Hx. apply (H (-1)%R 1%R 1%nat q_int2 [RtoC 1]); try reflexivity; try lra; try lia; try (intros j Hj; cbn in Hj; lia).
  - apply plain_odd. reflexivity.
  - intros c Hc. cbn in Hc. destruct Hc as [<-|[<-|[]]]; reflexivity.
  - intros d y Hd. cbn in Hd. destruct Hd as [<-|[<-|[]]]; apply tfun_1.
Qed.
Print Assumptions C112_two_integrals_refuted.
(** C112 REFUTED for an even number of coefficients when the highest cosine is present:
    cos(pi x) has two coefficients, and the mean of sin(pi x) cos(pi x) comes out as -i/2. *)
Theorem C112_even_refuted : ~ (forall a b n q v i, a < b -> length v = n -> (1 <= n)%nat -> tblock_ok a b q -> (i < n)%nat ->
  nth i (cmatvec n (ts_raw n (b - a) q) v) (RtoC 0) = fourier a b (tblock_op a b q (tfun a b v)) (freq n i)).
Proof.
  intros H. destruct q_sin_wrong as (_ & W & F). specialize (H (-1)%R 1%R 2%nat q_sin v_cos 1%nat). rewrite F in H. unfold C0 in W. rewrite W in H.
  assert (E : - Ci * RtoC (/ 2) = RtoC 0).
  { apply H; try lra; try lia; try reflexivity. split; [|split; [intros j Hj; cbn in Hj; lia|reflexivity]].
    intros j Hj. cbn in Hj. destruct j; [|lia]. split; [discriminate|cbn; lia]. }
  apply (f_equal Im) in E. cbn in E. lra.
Qed.
Print Assumptions C112_even_refuted.
(** example: u' on [0,4] with three coefficients *)
Example ex_C112 : tblock_ok 0 4 q_der /\ const_block q_der /\ plain v_e /\ t_coeffs q_der = [[RtoC 0]; [RtoC 1]] /\
  (forall x, tfun 0 4 (cmatvec 3 (ts_raw 3 (4 - 0) q_der) v_e) x = cder (tfun 0 4 v_e) 1 x).
Proof.
  assert (P : plain v_e) by (apply plain_odd; reflexivity). split; [apply q_der_ok|]. split; [apply q_der_const|]. split; [exact P|]. split; [reflexivity|].
  intros x. rewrite <- (q_der_op 0 4). apply raw_const; try lra; try reflexivity; try lia; [exact P|apply q_der_ok|apply q_der_const].
Qed.
(** example: a variable coefficient and a non-local term: cos(pi x) u + (A u)' *)
Definition q_mix : tblock := mkTB [true] false [[RtoC (/ 2); RtoC 0; RtoC (/ 2)]] [] [] [false; true] [[RtoC 0]; [RtoC 1]].
Example ex_C112b : tblock_ok (-1) 1 q_mix.
Proof.
  split; [|split; [|reflexivity]]; intros j Hj; cbn in Hj.
  - destruct j; [|lia]. split; [discriminate|cbn; lia].
  - destruct j as [|[|j]]; [| |lia]; (split; [try discriminate; intros _ x; apply evalF_1|cbn; first [discriminate|lia]]).
Qed.

(** ** C113: systems and Galerkin solutions *)
(** C113: row (i, r) of the matrix of an m x m system gives the r-th Fourier coefficient of
    the i-th component of L[u_1..u_m]. *)
Theorem C113_system : forall a b n m e Q vs i r, a < b -> (1 <= n)%nat ->
  (forall j, (j < m)%nat -> length (vs j) = n /\ plain (vs j)) ->
  (forall i j, (i < m)%nat -> (j < m)%nat -> tblock_ok a b (Q i j) /\ kept n e (ts_raw n (b - a) (Q i j))) -> (i < m)%nat -> (r < n)%nat ->
  nth (i * n + r) (cmatvec (m * n) (ts_matrix false n m (b - a) e Q) (concat (mk m vs))) (RtoC 0) =
  fourier a b (fun x => csum m (fun j => tblock_op a b (Q i j) (tfun a b (vs j)) x)) (freq n r).
Proof. exact (ts_system false). Qed.
Print Assumptions C113_system.
(** C113: v solves the discrete system with right side f exactly when the residual L[u] - f
    is orthogonal to the n exponentials of the discretization. *)
Theorem C113_galerkin : forall a b n q v f, a < b -> length v = n -> length f = n -> (1 <= n)%nat -> plain v -> plain f -> tblock_ok a b q ->
  (cmatvec n (ts_raw n (b - a) q) v = f <->
   forall i, (i < n)%nat -> fourier a b (fun x => tblock_op a b q (tfun a b v) x - tfun a b f x) (freq n i) = RtoC 0).
Proof. exact raw_galerkin. Qed.
Print Assumptions C113_galerkin.
(** C113: with constant coefficients a discrete solution solves the equation. *)
Theorem C113_constant_solves : forall a b n q v f, a < b -> length v = n -> (1 <= n)%nat -> plain v -> tblock_ok a b q -> const_block q ->
  cmatvec n (ts_raw n (b - a) q) v = f -> forall x, tblock_op a b q (tfun a b v) x = tfun a b f x.
Proof. intros a b n q v f Hab L Hn P O K E x. rewrite <- E. symmetry. apply raw_const; assumption. Qed.
Print Assumptions C113_constant_solves.
Example ex_C113 : kept 3 0 (ts_raw 3 (1 - -1) q_der) /\ tblock_ok (-1) 1 q_der /\ plain v_em /\ length v_em = 3%nat.
Proof. split; [apply kept_0|]. split; [apply q_der_ok|]. split; [apply plain_odd|]; reflexivity. Qed.

(** ** C114: the aggregation operator *)
(** C114: aggregation() is u -> 1/2 int_0^1 u(x+r) - u(x-r) dr, on every interval. *)
Theorem C114_aggregation : forall a b n v M, a < b -> length v = n -> (1 <= n)%nat -> plain v -> ts_agg n 0 (b - a) = Some M ->
  forall x, tfun a b (cmatvec n M v) x = nonlocal (tfun a b v) x.
Proof. exact agg0_exact. Qed.
Print Assumptions C114_aggregation.
Theorem C114_aggregation_total : forall n len, exists M, ts_agg n 0 len = Some M.
Proof. intros n len. eexists. reflexivity. Qed.
Print Assumptions C114_aggregation_total.
(** C114 REFUTED for m = 1 ("order of the derivative in front of the aggregation term"). *)
Theorem C114_derivative_refuted : ~ (forall a b n m v M, a < b -> length v = n -> (1 <= n)%nat -> plain v -> ts_agg n m (b - a) = Some M ->
  forall x, tfun a b (cmatvec n M v) x = cder (nonlocal (tfun a b v)) m x).
Proof.
  intros H. destruct (ts_agg 3 1 (1 - -1)) as [M|] eqn:E; [|discriminate E]. destruct (agg1_wrong M E) as [x Hx]. apply Hx.
  apply (H (-1)%R 1%R 3%nat 1%nat v_e M); try lra; try reflexivity; try lia; [|exact E]. apply plain_odd. reflexivity.
Qed.
Print Assumptions C114_derivative_refuted.
Example ex_C114 : plain v_e /\ exists M, ts_agg 3 0 (1 - -1) = Some M /\ nth 2 (cmatvec 3 M v_e) (RtoC 0) = Ci * RtoC (2 / PI).
Proof.
  split; [apply plain_odd; reflexivity|]. eexists. split; [reflexivity|]. assert (D := fun f => nth_cmatvec_diag 3 f v_e 2 ltac:(lia)). unfold C0 in D. rewrite D.
  cbn [Nat.eqb]. change (freq 3 2) with 1%Z. unfold gen_m0. cbn [Z.eqb v_e nth]. replace (1 / (/ 2 * (1 - -1)) * PI * 1)%R with PI by field. rewrite cos_PI.
  replace (1 - -1)%R with 2%R by lra. ring.
Qed.

(** ** C115: adjoint *)
(** C115: adjoint=True exchanges the positions of the blocks and leaves the operators alone. *)
Theorem C115_adjoint_blocks : forall a b n m e Q vs i r, a < b -> (1 <= n)%nat ->
  (forall j, (j < m)%nat -> length (vs j) = n /\ plain (vs j)) ->
  (forall i j, (i < m)%nat -> (j < m)%nat -> tblock_ok a b (Q i j) /\ kept n e (ts_raw n (b - a) (Q i j))) -> (i < m)%nat -> (r < n)%nat ->
  nth (i * n + r) (cmatvec (m * n) (ts_matrix true n m (b - a) e Q) (concat (mk m vs))) (RtoC 0) =
  fourier a b (fun x => csum m (fun j => tblock_op a b (Q j i) (tfun a b (vs j)) x)) (freq n r).
Proof. exact (ts_system true). Qed.
Print Assumptions C115_adjoint_blocks.
(** C115 REFUTED: int L[u] w = int u L*[w] fails for u'. *)
Theorem C115_adjoint_refuted : ~ (forall a b n e q v w, a < b -> length v = n -> length w = n -> (1 <= n)%nat -> plain v -> plain w -> tblock_ok a b q -> const_block q ->
  kept n e (ts_raw n (b - a) q) ->
  pairing a b (tblock_op a b q (tfun a b v)) (tfun a b w) = pairing a b (tfun a b v) (tfun a b (cmatvec n (ts_matrix true n 1 (b - a) e (fun _ _ => q)) w))).
Proof.
  intros H. apply q_der_adj_wrong. apply (H (-1)%R 1%R 3%nat 0%R q_der v_e v_em); try lra; try reflexivity; try lia; try (apply plain_odd; reflexivity); [apply q_der_ok|apply q_der_const|apply kept_0].
Qed.
Print Assumptions C115_adjoint_refuted.
