(** Operators: assembly of the linear system, operator arithmetic, constraints (C103-C108). *)
From Coq Require Import Reals ZArith List Arith Bool Lra Lia.
From Coquelicot Require Import Coquelicot.
From Verif Require Import Base ChebSpec ChebMath ChebModel CosSums ChebDct ChebCalc ChebBary UltraSpec UltraModel UltraBasis UltraProofs UltraMult FunModel FunProofs ToolsProofs FnlModel FnlProofs OpSpec OpModel OpProofs OpSys OpArith.
Import ListNotations.
Open Scope R_scope.

(** ** C103: the matrix of a block represents the operator *)
(** C103: if the products of coefficient functions with derivatives of u (u has [d]
    non-zero coefficients) fit into n coefficients, the matrix maps the Chebyshev
    coefficients of u to the C^(K) coefficients of L[u]; K is the output space. *)
Theorem C103_block_exact : forall a b n K eps q c d, a < b -> (3 <= n)%nat -> length c = n ->
  flags_ok (q_info q) (q_coeffs q) (q_ics q) (q_ints q) -> op_representable n K eps (q_coeffs q) (q_ics q) (q_ints q) ->
  supported d c ->
  (forall j, (j < length (q_coeffs q))%nat -> (length (nth j (q_coeffs q) []) + (d - j) <= n + 1)%nat) ->
  (forall k, (k < length (q_ics q))%nat -> (length (nth k (q_ints q) []) + d <= n + 1)%nat) ->
  has_ucoeffs K a b (lin_op a b (q_coeffs q) (q_ics q) (q_ints q) (ufun a b c)) (matvec n (us_block false n K (b - a) eps q) c).
Proof.
  intros a b n K eps q c d Hab Hn L Fl Rp Sd Hd Hi x. rewrite lin_op_ref by exact Hab. symmetry.
  apply (block_exact false n K (b - a) eps q c d Hn L Fl Rp Sd Hd Hi).
Qed.
Print Assumptions C103_block_exact.
(** C103: without that condition (the integrands still have to fit) the rows i with
    i + 2K < n are those of L[u]. *)
Theorem C103_block_leading : forall a b n K eps q c d, a < b -> (3 <= n)%nat -> length c = n ->
  flags_ok (q_info q) (q_coeffs q) (q_ics q) (q_ints q) -> op_representable n K eps (q_coeffs q) (q_ics q) (q_ints q) ->
  supported d c ->
  (forall k, (k < length (q_ics q))%nat -> (length (nth k (q_ints q) []) + d <= n + 1)%nat) ->
  exists h, has_ucoeffs K a b (lin_op a b (q_coeffs q) (q_ics q) (q_ints q) (ufun a b c)) h /\
    forall i, (i + 2 * K < n)%nat -> nth i h 0 = nth i (matvec n (us_block false n K (b - a) eps q) c) 0.
Proof.
  intros a b n K eps q c d Hab Hn L Fl Rp Sd Hi.
  destruct (block_agrees false n K (b - a) eps q c d Hn L Fl Rp Sd Hi) as (h & H1 & H2). exists h. split.
  - intros x. rewrite lin_op_ref by exact Hab. rewrite H2. reflexivity.
  - intros i Hi'. apply H1. lia.
Qed.
Print Assumptions C103_block_leading.

(** rows beyond that can be wrong although they stay in the matrix: L[u] = x u, u = T_4, n = 5, K = 2, row 1 *)
Definition qx : qblock := mkQ [true; false] [[0; 1]] [] [].
Lemma x_rep n lam eps : (2 <= n)%nat -> (n < 100)%nat -> (lam <= 1)%nat -> representable n lam eps [0; 1].
Proof. intros H H2 H3. right. split; [cbn; lia|]. left. split; [exact H3|left; exact H2]. Qed.
Theorem C103_leading_sharp : forall eps,
  nth 1 (matvec 5 (us_block false 5 2 2 eps qx) [0; 0; 0; 0; 1]) 0 = - 3 / 16 /\
  has_ucoeffs 2 (-1) 1 (lin_op (-1) 1 (q_coeffs qx) (q_ics qx) (q_ints qx) (ufun (-1) 1 [0; 0; 0; 0; 1])) [0; - 1 / 8; 0; - 1 / 24; 0; 1 / 24].
Proof.
  intros eps. split.
  - set (c := [0; 0; 0; 0; 1]). assert (E : matvec 5 (us_block false 5 2 2 eps qx) c = matvec 5 (us_term 5 2 2 eps [0; 1] 0) c).
    { unfold us_block, qx. cbn [q_info q_coeffs q_ics q_ints length seq fold_left nth last andb]. rewrite matvec_madd, matvec_zeromat.
      apply (list_ext _ _ 0); [unfold ladd; rewrite mk_length, matvec_length; reflexivity|]. unfold ladd at 1. rewrite mk_length. intros i Hi. unfold ladd. rewrite nth_mk by exact Hi. rewrite nth_mk by exact Hi. ring. }
    rewrite E, us_term_vec. unfold us_diff. rewrite matvec_eye by reflexivity.
    set (r := matvec 5 (multmat 5 [0; 1] 0 eps) c).
    assert (Er : r = [0; 0; 0; 1 / 2; 0]).
    { destruct (mult_leading 5 0 eps [0; 1] c ltac:(lia) eq_refl (x_rep 5 0 eps ltac:(lia) ltac:(lia) ltac:(lia))) as (h & F & Eh). fold r in F.
      assert (Lh : (5 <= length h)%nat). { apply (f_equal (@length R)) in F. rewrite firstn_length in F. unfold r in F. rewrite matvec_length in F. lia. }
      assert (Q : padto (Nat.max 6 (length h)) h = padto (Nat.max 6 (length h)) [0; 0; 0; 1 / 2; 0; 1 / 2]).
      { apply (evalU_inj 0); [rewrite !padto_length; reflexivity|rewrite padto_length; lia|]. intros x. rewrite !evalU_pad by (cbn [length]; lia). rewrite Eh.
        unfold evalT, evalU, c. cbn [length rsum nth ubasis T]. field. }
      rewrite <- F. unfold r at 1. rewrite matvec_length. apply (list_ext _ _ 0); [rewrite firstn_length; cbn [length]; lia|]. rewrite firstn_length. intros k Hk.
      rewrite nth_firstn' by lia. rewrite <- (padto_nth (Nat.max 6 (length h)) h k) by lia. rewrite Q, padto_nth by (cbn [length]; lia).
      destruct k as [|[|[|[|[|k]]]]]; try reflexivity. lia. }
    rewrite Er. replace (matvec 5 (us_convert 5 2 0) [0; 0; 0; 1 / 2; 0]) with [0; - 3 / 16; 0; 1 / 16; 0]; [reflexivity|].
    apply (evalU_inj 2); [rewrite matvec_length; reflexivity|cbn; lia|]. intros x.
    rewrite (exactly_us_convert 5 2 0 (evalT [0; 0; 0; 1 / 2; 0]) [0; 0; 0; 1 / 2; 0]) by (try lia; try reflexivity; intros y; reflexivity).
    unfold evalT, evalU. cbn [length rsum nth ubasis T gegen INR]. field.
  - intros x. unfold lin_op, qx. cbn [q_coeffs q_ics q_ints length rsum nth Derive_n]. unfold ufun.
    assert (P : phi (-1) 1 x = x) by (unfold phi; field). rewrite P. unfold evalT, evalU. cbn [length rsum nth ubasis T gegen INR]. field.
Qed.
Print Assumptions C103_leading_sharp.

(** a case meeting the hypotheses: 3 u'' + x u + int y u(y) dy on [0,2], n = 6, u with 4 coefficients *)
Definition qex : qblock := mkQ [true; false; true; true] [[0; 1]; [0]; [3]] [[1]] [[0; 1]].
Example ex_C103 eps c : length c = 6%nat -> supported 4 c ->
  flags_ok (q_info qex) (q_coeffs qex) (q_ics qex) (q_ints qex) /\
  op_representable 6 2 eps (q_coeffs qex) (q_ics qex) (q_ints qex) /\
  (forall j, (j < length (q_coeffs qex))%nat -> (length (nth j (q_coeffs qex) []) + (4 - j) <= 6 + 1)%nat) /\
  (forall k, (k < length (q_ics qex))%nat -> (length (nth k (q_ints qex) []) + 4 <= 6 + 1)%nat).
Proof.
  intros L Sd. unfold qex. cbn [q_info q_coeffs q_ics q_ints length]. split; [split|split; [split; [|split]|split]].
  - intros j Hj E x. cbn [length] in Hj. destruct j as [|[|[|j]]]; try discriminate; try lia. unfold evalT. cbn [nth length rsum]. ring.
  - intros E; discriminate E.
  - intros j Hj. cbn [length] in Hj. destruct j as [|[|[|j]]]; try lia; (split; [lia|]); cbn [nth]; try (left; reflexivity). apply x_rep; lia.
  - reflexivity.
  - intros k Hk. cbn [length] in Hk. destruct k; [|lia]. cbn [nth]. split; [left; reflexivity|apply x_rep; lia].
  - intros j Hj. destruct j as [|[|[|j]]]; cbn; lia.
  - intros k Hk. destruct k; cbn; lia.
Qed.

(** ** C104: solutions of the assembled system *)
(** C104: for a system of m equations in m functions on [a,b], with value functionals fs
    and projection order K: the vector of coefficients A solves
    matrix . x = project_vector(F, cts) exactly when u satisfies every constraint and the first
    n-K coefficients of the residual L[u] - F in C^(K) vanish (the residual being a
    combination of C^(K)_{n-K}, ..., C^(K)_{n-1}), provided the products fit. *)
Theorem C104_system_exact : forall a b n m K eps Q fs cts A F d, a < b -> (3 <= n)%nat -> (K <= n)%nat -> length A = m -> length F = m ->
  List.Forall (fun c => length c = n) A -> List.Forall (fun c => length c = n) F ->
  List.Forall (fun r => length r = (n * m)%nat) fs -> length cts = length fs -> sys_ok n m K eps Q ->
  (forall q, (q < m)%nat -> supported (d q) (nth q A [])) -> ints_fit n m Q d -> terms_fit n m Q d ->
  (rows_apply (us_matrix n m K (b - a) eps Q fs) (concat A) = us_project n m K cts (concat F) <->
   (forall i, (i < length fs)%nat -> dotl (nth i fs []) (concat (polyval A)) = nth i cts 0) /\
   (forall e, (e < m)%nat -> exists h, length h = n /\ (forall i, (i < n - K)%nat -> nth i h 0 = 0) /\
      forall x, sys_op a b m Q A e x - ufun a b (nth e F []) x = evalU K h (phi a b x))).
Proof. exact system_exact. Qed.
Print Assumptions C104_system_exact.
(** C104: in general the constraints hold and the coefficients i with i + 2K < n vanish. *)
Theorem C104_system_leading : forall a b n m K eps Q fs cts A F d, a < b -> (3 <= n)%nat -> (K <= n)%nat -> length A = m -> length F = m ->
  List.Forall (fun c => length c = n) A -> List.Forall (fun c => length c = n) F ->
  List.Forall (fun r => length r = (n * m)%nat) fs -> length cts = length fs -> sys_ok n m K eps Q ->
  (forall q, (q < m)%nat -> supported (d q) (nth q A [])) -> ints_fit n m Q d ->
  rows_apply (us_matrix n m K (b - a) eps Q fs) (concat A) = us_project n m K cts (concat F) ->
   (forall i, (i < length fs)%nat -> dotl (nth i fs []) (concat (polyval A)) = nth i cts 0) /\
   (forall e, (e < m)%nat -> exists h, (forall i, (i + 2 * K < n)%nat -> nth i h 0 = 0) /\
      forall x, sys_op a b m Q A e x - ufun a b (nth e F []) x = evalU K h (phi a b x)).
Proof. exact system_leading. Qed.
Print Assumptions C104_system_leading.
(** C104: the matrix is square exactly when there are K constraints per function. *)
Theorem C104_square : forall n m K len eps Q fs, (K <= n)%nat ->
  (length (us_matrix n m K len eps Q fs) = n * m <-> length fs = K * m)%nat.
Proof.
  intros n m K len eps Q fs HK. unfold us_matrix. rewrite app_length, map_length, assemble_rows by exact HK.
  assert (E : forall (l : list nat) k (f : nat -> list (list R)), (forall e, length (f e) = k) -> length (concat (map f l)) = (length l * k)%nat).
  { intros l k f H. induction l as [|a l IH]; [reflexivity|]. cbn [map concat length]. rewrite app_length, H, IH. lia. }
  unfold mk at 1. rewrite (E _ (n - K)%nat) by (intros; apply mk_length). rewrite seq_length. nia.
Qed.
Print Assumptions C104_square.

(** a case meeting the hypotheses: u'' = 2, u(-1) = u(1) = 1 on [-1,1], n = 4: u = x^2 solves the linear system *)
Definition qpp : nat -> nat -> qblock := fun _ _ => mkQ [false; false; true; false] [[0]; [0]; [1]] [] [].
Example ex_C104 eps :
  rows_apply (us_matrix 4 1 2 (1 - -1) eps qpp [[1; 0; 0; 0]; [0; 0; 0; 1]]) (concat [[1 / 2; 0; 1 / 2; 0]]) = us_project 4 1 2 [1; 1] (concat [[2; 0; 0; 0]]).
Proof.
  assert (Ok : sys_ok 4 1 2 eps qpp).
  { intros e q _ _. split; [split|split; [|split]].
    - intros j Hj E x. cbn [length qpp q_coeffs] in Hj. destruct j as [|[|[|j]]]; try discriminate; try lia; unfold evalT; cbn; ring.
    - intros _ k Hk. cbn in Hk. lia.
    - intros j Hj. cbn [length qpp q_coeffs] in Hj. split; [lia|]. left. destruct j as [|[|[|j]]]; try reflexivity. lia.
    - reflexivity.
    - intros k Hk. cbn in Hk. lia. }
  assert (Sd : forall q, (q < 1)%nat -> supported 3 (nth q [[1 / 2; 0; 1 / 2; 0]] [])).
  { intros q Hq i Hi. replace q with 0%nat by lia. cbn [nth]. destruct i as [|[|[|[|i]]]]; try lia; try reflexivity. destruct i; reflexivity. }
  assert (If : ints_fit 4 1 qpp (fun _ => 3%nat)) by (intros e q k He Hq Hk; cbn in Hk; lia).
  assert (Tf : terms_fit 4 1 qpp (fun _ => 3%nat)).
  { intros e q j He Hq Hj. cbn [length qpp q_coeffs] in Hj. destruct j as [|[|[|j]]]; cbn; lia. }
  assert (W : forall l : list R, length l = 4%nat -> List.Forall (fun c => length c = 4%nat) [l]) by (intros l Hl; constructor; [exact Hl|constructor]).
  apply (C104_system_exact (-1) 1 4 1 2 eps qpp [[1; 0; 0; 0]; [0; 0; 0; 1]] [1; 1] [[1 / 2; 0; 1 / 2; 0]] [[2; 0; 0; 0]] (fun _ => 3%nat) ltac:(lra) ltac:(lia) ltac:(lia) eq_refl eq_refl
     (W [1 / 2; 0; 1 / 2; 0] eq_refl) (W [2; 0; 0; 0] eq_refl) ltac:(constructor; [reflexivity|constructor; [reflexivity|constructor]]) eq_refl Ok Sd If Tf). split.
  - intros i Hi. cbn [concat polyval map app]. rewrite app_nil_r.
    assert (Q : forall j, (j < 4)%nat -> nth j (polyval1 [1 / 2; 0; 1 / 2; 0]) 0 = (nth j (chebpts_type2_compute 4) 0) ^ 2).
    { intros j Hj. rewrite polyval1_spec by (cbn [length]; lia). unfold evalT. cbn [length rsum nth T]. field. }
    assert (N0 : nth 0 (chebpts_type2_compute 4) 0 = -1). { rewrite (chebpts_nth 4 0) by lia. replace (PI * INR (4 - 1 - 0) / INR (4 - 1)) with PI by (cbn; field). apply cos_PI. }
    assert (N3 : nth 3 (chebpts_type2_compute 4) 0 = 1). { rewrite (chebpts_nth 4 3) by lia. replace (PI * INR (4 - 1 - 3) / INR (4 - 1)) with 0 by (cbn; field). apply cos_0. }
    destruct i as [|[|i]]; [| |cbn in Hi; lia]; cbn [nth]; unfold dotl; cbn [length rsum nth]; rewrite !Q by lia.
    + rewrite N0. ring.
    + rewrite N3. ring.
  - intros e He. exists [0; 0; 0; 0]. replace e with 0%nat by lia. split; [reflexivity|]. split.
    + intros i Hi. destruct i as [|[|[|[|[|i]]]]]; reflexivity.
    + intros x. unfold sys_op, qpp. cbn [rsum q_coeffs q_ics q_ints]. unfold lin_op. cbn [length rsum nth].
      rewrite !Derive_n_ufun by lra. assert (D : Derive_n (evalT [1 / 2; 0; 1 / 2; 0]) 2 (phi (-1) 1 x) = 2).
      { rewrite (Derive_n_ext _ (fun y => y ^ 2)) by (intros t; unfold evalT; cbn [length rsum nth T]; field).
        cbn [Derive_n]. rewrite (Derive_ext _ (fun y => 2 * y)); [|intros t; apply is_derive_unique; auto_derive; [exact I|ring]]. apply is_derive_unique. auto_derive; [exact I|ring]. }
      rewrite D. unfold ufun, evalT, evalU. cbn [length rsum nth T]. field.
Qed.

(** ** C105: the adjoint *)
(** C105 (partial): with constant coefficients of the derivative terms (a_0 and the
    integral terms may vary) the matrix built with adjoint=True represents the adjoint. *)
Theorem C105_adjoint_partial : forall a b n K eps q c d, a < b -> (3 <= n)%nat -> length c = n ->
  flags_ok (q_info q) (q_coeffs q) (q_ics q) (q_ints q) -> op_representable n K eps (q_coeffs q) (q_ics q) (q_ints q) ->
  (forall j, (1 <= j < length (q_coeffs q))%nat -> length (nth j (q_coeffs q) []) = 1%nat) ->
  supported d c ->
  (forall j, (j < length (q_coeffs q))%nat -> (length (nth j (q_coeffs q) []) + (d - j) <= n + 1)%nat) ->
  (forall k, (k < length (q_ics q))%nat -> (length (nth k (q_ics q) []) + d <= n + 1)%nat) ->
  has_ucoeffs K a b (adjoint_op a b (q_coeffs q) (q_ics q) (q_ints q) (ufun a b c)) (matvec n (us_block true n K (b - a) eps q) c).
Proof.
  intros a b n K eps q c d Hab Hn L Fl Rp Hc Sd Hd Hi x. destruct Rp as (R1 & R2 & R3). rewrite adjoint_ref by assumption. symmetry.
  apply (block_exact true n K (b - a) eps q c d Hn L Fl (conj R1 (conj R2 R3)) Sd Hd Hi).
Qed.
Print Assumptions C105_adjoint_partial.
(** C105 is false for the self-adjoint form named in the documentation: (x u')' = x u'' + u'
    is its own adjoint; on v = x the adjoint is 1, the matrix gives -1. *)
Definition qsa : qblock := mkQ [false; true; true; false] [[0]; [1]; [0; 1]] [] [].
Lemma x_sep : separated 5 2 (/ 8) [0; 1].
Proof.
  intros c L E. assert (Q : c = [0; / 4; 0; 0; 0]).
  { apply (evalU_inj 2); [exact L|lia|]. intros x. rewrite E. unfold evalT, evalU. cbn [length rsum nth ubasis T gegen INR]. field. }
  subst c. intros p. destruct p as [|[|[|[|[|p]]]]]; cbn [nth]; try (left; reflexivity); [right; rewrite Rabs_pos_eq; lra|left; destruct p; reflexivity].
Qed.
Theorem C105_self_adjoint_refuted : let v := [0; 1; 0; 0; 0] in
  (forall x, adjoint_op (-1) 1 (q_coeffs qsa) (q_ics qsa) (q_ints qsa) (ufun (-1) 1 v) x =
             lin_op (-1) 1 (q_coeffs qsa) (q_ics qsa) (q_ints qsa) (ufun (-1) 1 v) x) /\
  (forall x, adjoint_op (-1) 1 (q_coeffs qsa) (q_ics qsa) (q_ints qsa) (ufun (-1) 1 v) x = 1) /\
  has_ucoeffs 2 (-1) 1 (fun _ => -1) (matvec 5 (us_block true 5 2 (1 - -1) (/ 8) qsa) v).
Proof.
  intros v. assert (P : forall x, phi (-1) 1 x = x) by (intros; unfold phi; field).
  assert (Ev : forall x, evalT v x = x) by (intros; unfold evalT, v; cbn [length rsum nth T]; ring).
  assert (Eu : forall x, ufun (-1) 1 v x = x) by (intros; unfold ufun; rewrite Ev; apply P).
  assert (A : forall x, adjoint_op (-1) 1 (q_coeffs qsa) (q_ics qsa) (q_ints qsa) (ufun (-1) 1 v) x = 1).
  { intros x. unfold adjoint_op, qsa. cbn [q_coeffs q_ics q_ints length rsum nth Derive_n].
    rewrite (Derive_ext (fun y => ufun (-1) 1 [1] y * ufun (-1) 1 v y) (fun y => y)) by (intros t; rewrite Eu; unfold ufun, evalT; cbn [length rsum nth T]; ring).
    rewrite (Derive_ext (Derive (fun y => ufun (-1) 1 [0; 1] y * ufun (-1) 1 v y)) (fun y => 2 * y)).
    2:{ intros t. rewrite (Derive_ext _ (fun y => y * y) t) by (intros y; rewrite Eu; unfold ufun; rewrite P; unfold evalT; cbn [length rsum nth T]; ring). apply is_derive_unique. auto_derive; [exact I|ring]. }
    rewrite Derive_id. replace (Derive (fun y => 2 * y) x) with 2 by (symmetry; apply is_derive_unique; auto_derive; [exact I|ring]). unfold ufun, evalT. cbn [length rsum nth T]. ring. }
  split; [|split; [exact A|]].
  - intros x. rewrite A. unfold lin_op, qsa. cbn [q_coeffs q_ics q_ints length rsum nth].
    cbn [Derive_n]. rewrite (Derive_ext (Derive (ufun (-1) 1 v)) (fun _ => 1)).
    2:{ intros t. rewrite (Derive_ext _ (fun y => y)) by exact Eu. apply Derive_id. }
    rewrite (Derive_ext (ufun (-1) 1 v) (fun y => y)) by exact Eu. rewrite Derive_id, Derive_const. unfold ufun, evalT. cbn [length rsum nth T]. ring.
  - intros x. symmetry. rewrite (block_exact true 5 2 (1 - -1) (/ 8) qsa v 2); try lia; try reflexivity.
    + unfold refop, qsa, sgn, dterm. cbn [q_coeffs q_ics q_ints length rsum nth andb Nat.odd Nat.even negb].
      cbn [Derive_n]. rewrite (Derive_ext (Derive (evalT v)) (fun _ => 1)).
      2:{ intros t. rewrite (Derive_ext _ (fun y => y)) by exact Ev. apply Derive_id. }
      rewrite (Derive_ext (evalT v) (fun y => y)) by exact Ev. rewrite Derive_id, Derive_const. unfold evalT. cbn [length rsum nth T]. field.
    + split; [|intros _ k Hk; cbn in Hk; lia]. intros j Hj E y. cbn [length qsa q_coeffs] in Hj. destruct j as [|[|[|j]]]; try discriminate; [|lia]. unfold evalT. cbn. ring.
    + split; [|split; [reflexivity|intros k Hk; cbn in Hk; lia]]. intros j Hj. cbn [length qsa q_coeffs] in Hj. split; [lia|]. destruct j as [|[|[|j]]]; [left; reflexivity|left; reflexivity| |lia].
      right. split; [cbn; lia|]. right. split; [lia|]. apply x_sep.
    + intros i Hi. unfold v. destruct i as [|[|[|[|[|i]]]]]; try lia; try reflexivity. destruct i; reflexivity.
    + intros j Hj. cbn [length qsa q_coeffs] in Hj. destruct j as [|[|[|j]]]; cbn; lia.
    + intros k Hk. cbn in Hk. lia.
Qed.
Print Assumptions C105_self_adjoint_refuted.

(** qex (3 u'' + x u + int y u(y) dy) meets the hypotheses of C105_adjoint_partial *)
Example ex_C105 : (forall j, (1 <= j < length (q_coeffs qex))%nat -> length (nth j (q_coeffs qex) []) = 1%nat) /\
  (forall k, (k < length (q_ics qex))%nat -> (length (nth k (q_ics qex) []) + 4 <= 6 + 1)%nat).
Proof.
  split; [intros j Hj; cbn [length qex q_coeffs] in Hj; destruct j as [|[|[|j]]]; try reflexivity; lia|].
  intros k Hk. cbn [length qex q_ics] in Hk. destruct k as [|k]; [cbn; lia|lia].
Qed.

(** ** C106: arithmetic of operators *)
(** C106 (partial): if at least one of two blocks of equal order has no integral terms, L1 + L2
    exists and acts as the sum, with right flags. *)
Theorem C106_add_partial : forall q r, length (q_coeffs q) = length (q_coeffs r) -> length (q_info q) = S (length (q_coeffs q)) ->
  length (q_info r) = S (length (q_coeffs r)) -> q_ics q = [] \/ q_ics r = [] ->
  flags_ok (q_info q) (q_coeffs q) (q_ics q) (q_ints q) -> flags_ok (q_info r) (q_coeffs r) (q_ics r) (q_ints r) ->
  exists s, q_add q r = Some s /\ flags_ok (q_info s) (q_coeffs s) (q_ics s) (q_ints s) /\
    forall a b u x, lin_op a b (q_coeffs s) (q_ics s) (q_ints s) u x =
      lin_op a b (q_coeffs q) (q_ics q) (q_ints q) u x + lin_op a b (q_coeffs r) (q_ics r) (q_ints r) u x.
Proof.
  intros q r LC Lq Lr H Fq Fr. destruct (q_add_defined q r LC ltac:(lia) H) as [s E]. exists s. split; [exact E|]. split.
  - apply (q_add_flags q r s); assumption.
  - intros a b u x. apply (q_add_correct a b q r s); assumption.
Qed.
Print Assumptions C106_add_partial.
(** C106 (partial): without integral terms -L is the negative and L1 - L2 the difference. *)
Theorem C106_neg_partial : forall a b q u x, q_ics q = [] ->
  lin_op a b (q_coeffs (q_neg q)) (q_ics (q_neg q)) (q_ints (q_neg q)) u x = - lin_op a b (q_coeffs q) (q_ics q) (q_ints q) u x.
Proof. exact q_neg_correct. Qed.
Print Assumptions C106_neg_partial.
Theorem C106_sub_partial : forall q r, length (q_coeffs q) = length (q_coeffs r) -> length (q_info q) = length (q_info r) -> q_ics r = [] ->
  exists s, q_sub q r = Some s /\
    forall a b u x, lin_op a b (q_coeffs s) (q_ics s) (q_ints s) u x =
      lin_op a b (q_coeffs q) (q_ics q) (q_ints q) u x - lin_op a b (q_coeffs r) (q_ics r) (q_ints r) u x.
Proof.
  intros q r LC LI H. unfold q_sub. assert (Hn : q_ics (q_neg r) = []) by (unfold q_neg; cbn [q_ics]; rewrite H; reflexivity).
  assert (LC' : length (q_coeffs q) = length (q_coeffs (q_neg r))) by (unfold q_neg; cbn [q_coeffs]; rewrite map_length; exact LC).
  destruct (q_add_defined q (q_neg r) LC' LI (or_intror Hn)) as [s E]. exists s. split; [exact E|]. intros a b u x.
  rewrite (q_add_correct a b q (q_neg r) s u x E LC' (or_intror Hn)). rewrite q_neg_correct by exact H. ring.
Qed.
Print Assumptions C106_sub_partial.
(** C106 (partial): sums of systems act equation by equation when no entry has integral terms twice. *)
Theorem C106_system_add_partial : forall S T X e q d, sys_add S T = Some X -> (e < length S)%nat -> (q < length (nth e S []))%nat ->
  let s := nth q (nth e S []) d in let t := nth q (nth e T []) d in let z := nth q (nth e X []) d in
  length (q_coeffs s) = length (q_coeffs t) -> q_ics s = [] \/ q_ics t = [] ->
  forall a b u x, lin_op a b (q_coeffs z) (q_ics z) (q_ints z) u x =
      lin_op a b (q_coeffs s) (q_ics s) (q_ints s) u x + lin_op a b (q_coeffs t) (q_ics t) (q_ints t) u x.
Proof.
  intros S T X e q d E He Hq s t z LC H a b u x. destruct (sys_add_block S T X E) as [_ B]. destruct (B e q d He Hq) as [_ Q].
  apply (q_add_correct a b s t z); assumption.
Qed.
Print Assumptions C106_system_add_partial.
(** C106 (partial): differences of systems act equation by equation when the subtracted entry has no integral terms. *)
Theorem C106_system_sub_partial : forall S T X e q d, sys_sub S T = Some X -> (e < length S)%nat -> (q < length (nth e S []))%nat ->
  let s := nth q (nth e S []) d in let t := nth q (nth e T []) d in let z := nth q (nth e X []) d in
  length (q_coeffs s) = length (q_coeffs t) -> q_ics t = [] ->
  forall a b u x, lin_op a b (q_coeffs z) (q_ics z) (q_ints z) u x =
      lin_op a b (q_coeffs s) (q_ics s) (q_ints s) u x - lin_op a b (q_coeffs t) (q_ics t) (q_ints t) u x.
Proof.
  intros S T X e q d E He Hq s t z LC H a b u x. unfold sys_sub in E. destruct (sys_add_block S (sys_neg T) X E) as [LT B].
  destruct (B e q d He Hq) as [LR Q]. fold s z in Q. unfold sys_neg in LT, LR, Q. rewrite map_length in LT.
  rewrite (nth_indep (map (map q_neg) T) [] (map q_neg [])) in LR, Q by (rewrite map_length; lia). rewrite map_nth in LR, Q.
  rewrite map_length in LR.
  rewrite (nth_indep (map q_neg (nth e T [])) d (q_neg d)) in Q by (rewrite map_length; lia). rewrite map_nth in Q. fold t in Q.
  assert (Hn : q_ics (q_neg t) = []) by (unfold q_neg; cbn [q_ics]; rewrite H; reflexivity).
  assert (LC' : length (q_coeffs s) = length (q_coeffs (q_neg t))) by (unfold q_neg; cbn [q_coeffs]; rewrite map_length; exact LC).
  rewrite (q_add_correct a b s (q_neg t) z u x Q LC' (or_intror Hn)). rewrite q_neg_correct by exact H. ring.
Qed.
Print Assumptions C106_system_sub_partial.
Example ex_C106_system_sub : let q := mkQ [true; false; true; false] [[0; 1]; [0]; [1]] [] [] in
  exists X, sys_sub [[qex]] [[q]] = Some X /\ length (q_coeffs qex) = length (q_coeffs q) /\ q_ics q = [].
Proof. eexists. repeat split. Qed.
(** C106 is false with integral terms on both sides: L = int u, on u = 1 over [0,1]: L u = 1 but (L + L) u = 4. *)
Theorem C106_add_integral_refuted : exists s, q_add qmean qmean = Some s /\
  lin_op 0 1 (q_coeffs qmean) (q_ics qmean) (q_ints qmean) (fun _ => 1) 0 = 1 /\
  lin_op 0 1 (q_coeffs s) (q_ics s) (q_ints s) (fun _ => 1) 0 = 4.
Proof. exact q_add_integral. Qed.
Print Assumptions C106_add_integral_refuted.
(** C106 is false for the negative of an integral operator: both functions change sign. *)
Theorem C106_neg_integral_refuted :
  lin_op 0 1 (q_coeffs qmean) (q_ics qmean) (q_ints qmean) (fun _ => 1) 0 = 1 /\
  lin_op 0 1 (q_coeffs (q_neg qmean)) (q_ics (q_neg qmean)) (q_ints (q_neg qmean)) (fun _ => 1) 0 = 1.
Proof. exact q_neg_integral. Qed.
Print Assumptions C106_neg_integral_refuted.
(** C106 is false for products: L1 * L2 is L1 + L2; with L = u (the identity) L * L doubles. *)
Definition qid : qblock := mkQ [true; false] [[1]] [] [].
Theorem C106_mul_refuted : exists X, sys_mul [[qid]] [[qid]] = Some X /\
  (forall a b u x, lin_op a b (q_coeffs qid) (q_ics qid) (q_ints qid) u x = u x) /\
  (forall a b u x, let z := nth 0 (nth 0 X []) qid in lin_op a b (q_coeffs z) (q_ics z) (q_ints z) u x = 2 * u x).
Proof.
  eexists. split; [reflexivity|]. split; intros a b u x; unfold lin_op, ufun, evalT; cbn; ring.
Qed.
Print Assumptions C106_mul_refuted.
Example ex_C106 : let q := mkQ [true; false; true; false] [[0; 1]; [0]; [1]] [] [] in
  exists s, q_add q qex = Some s /\ length (q_coeffs q) = length (q_coeffs qex) /\ q_ics q = [].
Proof. eexists. repeat split. Qed.

(** ** C107: constraint rows *)
(** C107 (partial): for a constraint whose required value is 0, given by a functional plus a constant, the
    row is the functional, so a Newton step with row . d = -residual makes the residual zero. *)
Theorem C107_row_partial : forall n l k0 j, (j < n)%nat -> length l = n -> nth j (cons_row n (fun u => dotl l u + k0) 0) 0 = nth j l 0.
Proof. intros n l k0 j Hj L. rewrite cons_row_entry by assumption. ring. Qed.
Print Assumptions C107_row_partial.
Theorem C107_newton_partial : forall n l k0 u d, length l = n -> length u = n -> length d = n ->
  dotl (cons_row n (fun u => dotl l u + k0) 0) d = - cons_residual (fun u => dotl l u + k0) 0 u ->
  cons_residual (fun u => dotl l u + k0) 0 (mk n (fun i => nth i u 0 + nth i d 0)) = 0.
Proof. exact cons_newton. Qed.
Print Assumptions C107_newton_partial.
(** C107 is false for a required value other than 0: u(x_0) = 1 from u = 0 (n = 2): the step d = (1/2, 0)
    satisfies row . d = -residual but leaves the residual -1/2. *)
Theorem C107_values_refuted : let op := fun u => dotl [1; 0] u + 0 in
  dotl (cons_row 2 op 1) [1 / 2; 0] = - cons_residual op 1 [0; 0] /\
  cons_residual op 1 [1 / 2; 0] = - 1 / 2.
Proof.
  intros op. assert (E : cons_row 2 op 1 = [2; 1]).
  { apply (list_ext _ _ 0); [reflexivity|]. intros j Hj. assert (Hj' : (j < 2)%nat) by exact Hj. unfold op. rewrite cons_row_entry by (try exact Hj'; reflexivity).
    destruct j as [|[|j]]; cbn [nth]; try lra. lia. }
  rewrite E. unfold op, cons_residual, dotl. cbn [length rsum nth]. split; field.
Qed.
Print Assumptions C107_values_refuted.
Example ex_C107 : let op := fun u => dotl [1; 0] u + -1 in
  dotl (cons_row 2 op 0) [1; 0] = - cons_residual op 0 [0; 0].
Proof.
  intros op. assert (E : cons_row 2 op 0 = [1; 0]).
  { apply (list_ext _ _ 0); [reflexivity|]. intros j Hj. unfold op. rewrite C107_row_partial by (try exact Hj; reflexivity). reflexivity. }
  rewrite E. unfold op, cons_residual, dotl. cbn [length rsum nth]. field.
Qed.

(** ** C108: eigenvalues *)
(** C108: with K constraints per function, (lambda, u) is an eigenpair of the pencil (matrix, rhs
    operator) exactly when u satisfies the homogeneous constraints and the first n-K C^(K) coefficients
    of L[u] - lambda u vanish. Real lambda. *)
Theorem C108_eigenpair : forall a b n m K eps Q fs A d lam, a < b -> (3 <= n)%nat -> (K <= n)%nat -> length A = m ->
  List.Forall (fun c => length c = n) A -> List.Forall (fun r => length r = (n * m)%nat) fs -> length fs = (K * m)%nat -> sys_ok n m K eps Q ->
  (forall q, (q < m)%nat -> supported (d q) (nth q A [])) -> ints_fit n m Q d -> terms_fit n m Q d ->
  (rows_apply (us_matrix n m K (b - a) eps Q fs) (concat A) = map (Rmult lam) (eig_rhs n m K (concat A)) <->
   (forall i, (i < length fs)%nat -> dotl (nth i fs []) (concat (polyval A)) = 0) /\
   (forall e, (e < m)%nat -> exists h, length h = n /\ (forall i, (i < n - K)%nat -> nth i h 0 = 0) /\
      forall x, sys_op a b m Q A e x - lam * ufun a b (nth e A []) x = evalU K h (phi a b x))).
Proof.
  intros a b n m K eps Q fs A d lam Hab Hn HK LA FA Ffs Lfs Ok Sd If Tf.
  set (F := map (map (Rmult lam)) A).
  assert (FF : List.Forall (fun c => length c = n) F).
  { apply List.Forall_forall. intros c Hc. apply in_map_iff in Hc. destruct Hc as (c' & <- & Hc'). rewrite map_length. rewrite List.Forall_forall in FA. apply FA. exact Hc'. }
  assert (N0 : forall l i, nth i (map (Rmult lam) l) 0 = lam * nth i l 0).
  { intros l i. rewrite <- (Rmult_0_r lam) at 1. apply (map_nth (Rmult lam)). }
  assert (NF : forall e, nth e F [] = map (Rmult lam) (nth e A [])).
  { intros e. unfold F. rewrite <- (map_nth (map (Rmult lam))). reflexivity. }
  assert (E : map (Rmult lam) (eig_rhs n m K (concat A)) = us_project n m K (repeat 0 (length fs)) (concat F)).
  { unfold eig_rhs, us_project. rewrite map_app. f_equal.
    - assert (LP : length (assemble n m K (fun e q => us_conv_block false n K (Nat.eqb e q))) = (m * (n - K))%nat).
      { rewrite assemble_rows by exact HK. assert (X : forall (l : list nat) k (f : nat -> list (list R)), (forall e, length (f e) = k) -> length (concat (map f l)) = (length l * k)%nat).
        { intros l k f H. induction l as [|y l IH]; [reflexivity|]. cbn [map concat length]. rewrite app_length, H, IH. lia. }
        unfold mk at 1. rewrite (X _ (n - K)%nat) by (intros; apply mk_length). rewrite seq_length. reflexivity. }
      rewrite LP, Lfs. replace (n * m - m * (n - K))%nat with (K * m)%nat by nia.
      generalize (K * m)%nat. intros k. induction k as [|k IH]; [reflexivity|]. cbn [repeat map]. rewrite IH, Rmult_0_r. reflexivity.
    - unfold rows_apply. rewrite map_map. apply map_ext. intros r. unfold F. rewrite <- concat_map. unfold dotl. rewrite <- rsum_scal. apply rsum_ext. intros i _. rewrite N0. ring. }
  rewrite E. rewrite (system_exact a b n m K eps Q fs (repeat 0 (length fs)) A F d); try assumption.
  - assert (EU : forall e x, ufun a b (nth e F []) x = lam * ufun a b (nth e A []) x).
    { intros e x. rewrite NF. unfold ufun, evalT. rewrite map_length, <- rsum_scal. apply rsum_ext. intros i _. rewrite N0. ring. }
    split; intros [C D]; split.
    + intros i Hi. rewrite C by exact Hi. apply nth_repeat.
    + intros e He. destruct (D e He) as (h & H1 & H2 & H3). exists h. split; [exact H1|]. split; [exact H2|]. intros x. rewrite <- EU. apply H3.
    + intros i Hi. rewrite C by exact Hi. symmetry. apply nth_repeat.
    + intros e He. destruct (D e He) as (h & H1 & H2 & H3). exists h. split; [exact H1|]. split; [exact H2|]. intros x. rewrite EU. apply H3.
  - unfold F. rewrite map_length. exact LA.
  - apply repeat_length.
Qed.
Print Assumptions C108_eigenpair.

(** a case: L u = u'' + 2 u on [-1,1], antisymmetry constraints at the four points, eigenpair lambda = 2, u = x *)
Definition qe2 : nat -> nat -> qblock := fun _ _ => mkQ [true; false; true; false] [[2]; [0]; [1]] [] [].
Example ex_C108 eps : let x := concat [[0; 1; 0; 0]] in
  rows_apply (us_matrix 4 1 2 (1 - -1) eps qe2 [[1; 0; 0; 1]; [0; 1; 1; 0]]) x = map (Rmult 2) (eig_rhs 4 1 2 x).
Proof.
  intros x.
  assert (Ok : sys_ok 4 1 2 eps qe2).
  { intros e q _ _. split; [split|split; [|split]].
    - intros j Hj E y. cbn [length qe2 q_coeffs] in Hj. destruct j as [|[|[|j]]]; try discriminate; try lia; unfold evalT; cbn; ring.
    - intros _ k Hk. cbn in Hk. lia.
    - intros j Hj. cbn [length qe2 q_coeffs] in Hj. split; [lia|]. left. destruct j as [|[|[|j]]]; try reflexivity. lia.
    - reflexivity.
    - intros k Hk. cbn in Hk. lia. }
  assert (Sd : forall q, (q < 1)%nat -> supported 2 (nth q [[0; 1; 0; 0]] [])).
  { intros q Hq i Hi. replace q with 0%nat by lia. cbn [nth]. destruct i as [|[|[|[|i]]]]; try lia; try reflexivity. destruct i; reflexivity. }
  assert (If : ints_fit 4 1 qe2 (fun _ => 2%nat)) by (intros e q k He Hq Hk; cbn in Hk; lia).
  assert (Tf : terms_fit 4 1 qe2 (fun _ => 2%nat)).
  { intros e q j He Hq Hj. cbn [length qe2 q_coeffs] in Hj. destruct j as [|[|[|j]]]; cbn; lia. }
  assert (W : forall l : list R, length l = 4%nat -> List.Forall (fun c => length c = 4%nat) [l]) by (intros l Hl; constructor; [exact Hl|constructor]).
  apply (C108_eigenpair (-1) 1 4 1 2 eps qe2 [[1; 0; 0; 1]; [0; 1; 1; 0]] [[0; 1; 0; 0]] (fun _ => 2%nat) 2 ltac:(lra) ltac:(lia) ltac:(lia) eq_refl
     (W [0; 1; 0; 0] eq_refl) ltac:(constructor; [reflexivity|constructor; [reflexivity|constructor]]) eq_refl Ok Sd If Tf). split.
  - intros i Hi. cbn [concat polyval map app]. rewrite app_nil_r.
    assert (Q : forall j, (j < 4)%nat -> nth j (polyval1 [0; 1; 0; 0]) 0 = nth j (chebpts_type2_compute 4) 0).
    { intros j Hj. rewrite polyval1_spec by (cbn [length]; lia). unfold evalT. cbn [length rsum nth T]. ring. }
    assert (N0 : nth 0 (chebpts_type2_compute 4) 0 = -1). { rewrite (chebpts_nth 4 0) by lia. replace (PI * INR (4 - 1 - 0) / INR (4 - 1)) with PI by (cbn; field). apply cos_PI. }
    assert (N3 : nth 3 (chebpts_type2_compute 4) 0 = 1). { rewrite (chebpts_nth 4 3) by lia. replace (PI * INR (4 - 1 - 3) / INR (4 - 1)) with 0 by (cbn; field). apply cos_0. }
    assert (N1 : nth 1 (chebpts_type2_compute 4) 0 = - cos (PI / 3)). { rewrite (chebpts_nth 4 1) by lia. replace (PI * INR (4 - 1 - 1) / INR (4 - 1)) with (- (PI / 3) + PI) by (cbn; field). rewrite neg_cos, cos_neg. reflexivity. }
    assert (N2 : nth 2 (chebpts_type2_compute 4) 0 = cos (PI / 3)). { rewrite (chebpts_nth 4 2) by lia. f_equal. cbn. field. }
    destruct i as [|[|i]]; [| |cbn in Hi; lia]; cbn [nth]; unfold dotl; cbn [length rsum nth]; rewrite !Q by lia.
    + rewrite N0, N3. ring.
    + rewrite N1, N2. ring.
  - intros e He. exists [0; 0; 0; 0]. replace e with 0%nat by lia. split; [reflexivity|]. split.
    + intros i Hi. destruct i as [|[|[|[|[|i]]]]]; reflexivity.
    + intros y. unfold sys_op, qe2. cbn [rsum q_coeffs q_ics q_ints]. unfold lin_op. cbn [length rsum nth].
      rewrite !Derive_n_ufun by lra. assert (D : Derive_n (evalT [0; 1; 0; 0]) 2 (phi (-1) 1 y) = 0).
      { rewrite (Derive_n_ext _ (fun t => t)) by (intros t; unfold evalT; cbn [length rsum nth T]; ring).
        cbn [Derive_n]. rewrite (Derive_ext _ (fun _ => 1)); [|intros t; apply Derive_id]. apply Derive_const. }
      rewrite D. cbn [Derive_n]. unfold ufun, evalT, evalU. cbn [length rsum nth T]. field.
Qed.
