(** C209: random functions.  C210: np.argmax of a function. *)
From Coq Require Import Reals ZArith List Arith Bool Lia Lra.
From Verif Require Import Base ToolsProofs ChebSpec ChebMath ChebModel ChebModel2 ChebEval ChebDct ChebChop ChebObj ChebOps ChebOps2 ChebArith ChebConstr FunModel DivModel DivProofs FunTrigProofs EqModel PropEq ReprModel PropRepr RandModel.
Import ListNotations.
Open Scope R_scope.

(** n by m numbers of [0, 1), by columns *)
Definition draws (n m : nat) (U : arr) : Prop := rect n U /\ length U = m /\ forall c u, In c U -> In u c -> 0 <= u < 1.

Lemma init_rect n A a b : rect n A -> exists F, option_map (fun f => mkFun f a b) (cheb_init A eps_default (fun_hscale a b) maxLength_default false false) = Some F /\
  wf (onefun F) /\ dom0 F = a /\ dom1 F = b /\ coeffs (onefun F) = A.
Proof.
  intros HR. destruct (cheb_init_some n A eps_default (fun_hscale a b) maxLength_default false HR) as [hp [E _]]. rewrite E. cbn [option_map].
  eexists. split; [reflexivity|]. cbn [onefun dom0 dom1 coeffs]. repeat split. eexists. exact HR.
Qed.
Lemma evalT_abs_le c s x : (forall k, (k < length c)%nat -> Rabs (nth k c 0) <= s) -> -1 <= x <= 1 -> Rabs (evalT c x) <= INR (length c) * s.
Proof.
  intros H Hx. unfold evalT. eapply Rle_trans; [apply rsum_Rabs|]. rewrite <- rsum_const. apply rsum_le. intros k Hk. rewrite Rabs_mult.
  assert (TB := T_bound k x Hx). specialize (H k Hk). assert (A := Rabs_pos (nth k c 0)). assert (B := Rabs_pos (T k x)). nra.
Qed.

(** C209: random(n, m, [a, b], scale) has m columns of n coefficients, each between -scale and scale, and is at most n |scale| everywhere *)
Theorem C209_random : forall n m U s a b, (1 <= m)%nat -> draws n m U -> a < b ->
  exists F, fun_random s U a b = Some F /\ wf (onefun F) /\ dom0 F = a /\ dom1 F = b /\ ncols (onefun F) = m /\ len (onefun F) = n /\
    (forall j k, (j < m)%nat -> (k < n)%nat -> Rabs (nth k (nth j (coeffs (onefun F)) []) 0) <= Rabs s) /\
    forall j x, (j < m)%nat -> a <= x <= b -> exists y, value F j x y /\ Rabs y <= INR n * Rabs s.
Proof.
  intros n m U s a b Hm [HR [LU HU]] Hab.
  assert (RR : rect n (random_coeffs s U)).
  { apply (ChebObj.rect_map n n (map (fun u => s * (1 - 2 * u))) U HR); [apply HR|]. intros c Hc. now rewrite map_length. }
  destruct (init_rect n _ a b RR) as [F [E [W [D0 [D1 EC]]]]]. exists F. split; [exact E|]. split; [exact W|]. split; [exact D0|]. split; [exact D1|].
  assert (NC : ncols (onefun F) = m) by (unfold ncols; rewrite EC; unfold random_coeffs; rewrite map_length; exact LU).
  assert (NL : len (onefun F) = n) by (apply rect_len; rewrite EC; exact RR). split; [exact NC|]. split; [exact NL|].
  assert (Q : forall j k, (j < m)%nat -> (k < n)%nat -> Rabs (nth k (nth j (coeffs (onefun F)) []) 0) <= Rabs s).
  { intros j k Hj Hk. rewrite EC. unfold random_coeffs. rewrite (nth_indep _ [] (map (fun u => s * (1 - 2 * u)) [])) by (rewrite map_length; lia).
    rewrite (map_nth (map (fun u => s * (1 - 2 * u)))). assert (Lc := rect_nth n U j HR ltac:(lia)). rewrite nth_map_R by lia.
    assert (U0 := HU (nth j U []) (nth k (nth j U []) 0) ltac:(apply nth_In; lia) ltac:(apply nth_In; lia)).
    rewrite Rabs_mult. assert (Rabs (1 - 2 * nth k (nth j U []) 0) <= 1) by (apply Rabs_le; lra). assert (P := Rabs_pos s). nra. }
  split; [exact Q|]. intros j x Hj Hx. eexists. split; [apply of_values_value; [exact W|lra|lra|lia]|].
  unfold ev. rewrite <- NL. rewrite <- (col_len (onefun F) j W) by lia. apply evalT_abs_le.
  - intros k Hk. rewrite (col_len (onefun F) j W), NL in Hk by lia. now apply Q.
  - rewrite D0, D1. apply (FunTrigProofs.bwd_in a b x Hab). exact Hx.
Qed.
Print Assumptions C209_random.

(** C209: every array of coefficients between -scale (excluded) and scale can be drawn *)
Theorem C209_reaches : forall n m s a b B, 0 < s -> rect n B -> length B = m -> (forall c v, In c B -> In v c -> - s < v <= s) ->
  exists U F, draws n m U /\ fun_random s U a b = Some F /\ coeffs (onefun F) = B.
Proof.
  intros n m s a b B Hs HR LB HB. set (U := map (map (fun v => (1 - v / s) / 2)) B). exists U.
  assert (RU : rect n U). { apply (ChebObj.rect_map n n (map (fun v => (1 - v / s) / 2)) B HR); [apply HR|]. intros c Hc. now rewrite map_length. }
  assert (EB : random_coeffs s U = B).
  { unfold random_coeffs, U. rewrite map_map. rewrite <- (map_id B) at 2. apply map_ext. intros c. rewrite map_map. rewrite <- (map_id c) at 2. apply map_ext. intros v. field. lra. }
  destruct (init_rect n (random_coeffs s U) a b) as [F [E [_ [_ [_ EC]]]]]; [rewrite EB; exact HR|].
  exists F. split; [|split; [exact E|rewrite EC; exact EB]].
  split; [exact RU|]. split; [unfold U; rewrite map_length; exact LB|]. intros c u Hc Hu. unfold U in Hc. apply in_map_iff in Hc. destruct Hc as [d [<- Hd]].
  apply in_map_iff in Hu. destruct Hu as [v [<- Hv]]. specialize (HB d v Hd Hv).
  assert (-1 < v / s <= 1); [|lra]. split; [apply (Rmult_lt_reg_r s); [lra|]|apply (Rmult_le_reg_r s); [lra|]]; unfold Rdiv; rewrite Rmult_assoc, Rinv_l by lra; lra.
Qed.
Print Assumptions C209_reaches.

Lemma decay_rect n s U : rect n U -> rect n (map (decay_col s) U).
Proof. intros HR. apply (ChebObj.rect_map n n (decay_col s) U HR); [apply HR|]. intros c Hc. unfold decay_col. rewrite mk_length. exact Hc. Qed.
Lemma decay_nth n m U s j k : draws n m U -> (j < m)%nat -> (k < n)%nat ->
  exists u, 0 <= u < 1 /\ nth k (nth j (map (decay_col s) U) []) 0 = s * (1 - 2 * (u / (1 + INR k) ^ 2)).
Proof.
  intros [HR [LU HU]] Hj Hk. assert (Lc := rect_nth n U j HR ltac:(lia)). exists (nth k (nth j U []) 0). split; [apply (HU (nth j U [])); apply nth_In; lia|].
  rewrite (nth_indep _ [] (decay_col s [])) by (rewrite map_length; lia). rewrite map_nth. unfold decay_col. rewrite nth_mk by lia. reflexivity.
Qed.

(** C209: random_decay has the same shape and the same bound *)
Theorem C209_random_decay : forall n m U s a b, (1 <= m)%nat -> draws n m U -> a < b ->
  exists F, fun_random_decay s U a b = Some F /\ wf (onefun F) /\ dom0 F = a /\ dom1 F = b /\ ncols (onefun F) = m /\ len (onefun F) = n /\
    forall j x, (j < m)%nat -> a <= x <= b -> exists y, value F j x y /\ Rabs y <= INR n * Rabs s.
Proof.
  intros n m U s a b Hm HU Hab. assert (RR := decay_rect n s U (proj1 HU)).
  destruct (init_rect n _ a b RR) as [F [E [W [D0 [D1 EC]]]]]. exists F. split; [exact E|]. split; [exact W|]. split; [exact D0|]. split; [exact D1|].
  assert (NC : ncols (onefun F) = m) by (unfold ncols; rewrite EC, map_length; apply HU).
  assert (NL : len (onefun F) = n) by (apply rect_len; rewrite EC; exact RR). split; [exact NC|]. split; [exact NL|].
  intros j x Hj Hx. eexists. split; [apply of_values_value; [exact W|lra|lra|lia]|].
  unfold ev. rewrite <- NL. rewrite <- (col_len (onefun F) j W) by lia. apply evalT_abs_le.
  - intros k Hk. rewrite (col_len (onefun F) j W), NL in Hk by lia. rewrite EC. destruct (decay_nth n m U s j k HU Hj Hk) as [u [Hu ->]].
    rewrite Rabs_mult. assert (I1 : 1 <= (1 + INR k) ^ 2) by (assert (0 <= INR k) by apply pos_INR; nra).
    assert (0 <= u / (1 + INR k) ^ 2 <= 1).
    { split; [apply Rmult_le_pos; [lra|left; apply Rinv_0_lt_compat; lra]|]. apply (Rmult_le_reg_r ((1 + INR k) ^ 2)); [lra|]. unfold Rdiv. rewrite Rmult_assoc, Rinv_l by lra. lra. }
    set (q := u / (1 + INR k) ^ 2) in *. clearbody q. assert (Rabs (1 - 2 * q) <= 1) by (apply Rabs_le; lra). assert (P := Rabs_pos s). nra.
  - rewrite D0, D1. apply (FunTrigProofs.bwd_in a b x Hab). exact Hx.
Qed.
Print Assumptions C209_random_decay.

(** not so: the coefficients of random_decay decay like 1/(k+1)^2: whatever is drawn, all but the first are above scale / 2,
    more than scale / (k+1)^2, and above any smaller part of scale from some index on *)
Theorem C209_decay_refuted : forall n m U s a b F, 0 < s -> draws n m U -> fun_random_decay s U a b = Some F ->
  forall j k, (j < m)%nat -> (1 <= k < n)%nat -> let c := nth k (nth j (coeffs (onefun F)) []) 0 in
    s / 2 < c /\ s / (1 + INR k) ^ 2 < c /\ forall t, 0 < t -> 2 <= t * (1 + INR k) ^ 2 -> s * (1 - t) <= c.
Proof.
  intros n m U s a b F Hs HU E j k Hj Hk c. assert (RR := decay_rect n s U (proj1 HU)).
  destruct (init_rect n _ a b RR) as [F' [E' [_ [_ [_ EC]]]]]. unfold fun_random_decay in E. rewrite E in E'. injection E' as <-.
  unfold c. rewrite EC. destruct (decay_nth n m U s j k HU Hj ltac:(lia)) as [u [Hu ->]].
  assert (K1 : 1 <= INR k) by (change 1 with (INR 1); apply le_INR; lia). set (N := (1 + INR k) ^ 2). assert (N4 : 4 <= N) by (unfold N; nra). clearbody N.
  assert (I0 : 0 < / N) by (apply Rinv_0_lt_compat; lra). assert (I1 : N * / N = 1) by (apply Rinv_r; lra). unfold Rdiv. set (i := / N) in *. clearbody i.
  assert (i4 : i <= / 4) by nra. assert (ui : 0 <= u * i < i) by nra.
  split; [nra|]. split; [nra|]. intros t Ht Hn. assert (2 * i <= t) by nra. nra.
Qed.
Print Assumptions C209_decay_refuted.

(** and so the functions are not bounded independently of n: the value at the right end is at least scale (n - 4) *)
Lemma sq_sum n : rsum n (fun k => / (1 + INR k) ^ 2) <= 2.
Proof.
  assert (H : forall n, (1 <= n)%nat -> rsum n (fun k => / (1 + INR k) ^ 2) <= 2 - / INR n).
  { induction n0 as [|m IH]; [lia|]. intros _. destruct m as [|m].
    - cbn [rsum INR]. rewrite Rplus_0_r, pow1, Rinv_1. lra.
    - cbn [rsum]. specialize (IH ltac:(lia)). cbn [rsum] in IH. set (q := INR (S m)). assert (Q : INR (S (S m)) = q + 1) by (unfold q; rewrite (S_INR (S m)); ring).
      fold q in IH. rewrite Q. assert (q1 : 1 <= q) by (unfold q; change 1 with (INR 1); apply le_INR; lia). clearbody q.
      assert (X : / (1 + q) ^ 2 <= / q - / (q + 1)).
      { replace (/ q - / (q + 1)) with (/ (q * (q + 1))) by (field; lra). apply Rinv_le_contravar; nra. }
      lra. }
  destruct n as [|n]; [cbn; lra|]. specialize (H (S n) ltac:(lia)). assert (0 < / INR (S n)) by (apply Rinv_0_lt_compat; apply lt_0_INR; lia). lra.
Qed.
Theorem C209_decay_grows_refuted : forall n m U s a b, 0 < s -> (1 <= m)%nat -> draws n m U -> a < b ->
  exists F, fun_random_decay s U a b = Some F /\ forall j, (j < m)%nat -> exists y, value F j b y /\ s * (INR n - 4) <= y.
Proof.
  intros n m U s a b Hs Hm HU Hab. assert (RR := decay_rect n s U (proj1 HU)).
  destruct (init_rect n _ a b RR) as [F [E [W [D0 [D1 EC]]]]]. exists F. split; [exact E|]. intros j Hj.
  assert (NC : ncols (onefun F) = m) by (unfold ncols; rewrite EC, map_length; apply HU).
  assert (NL : len (onefun F) = n) by (apply rect_len; rewrite EC; exact RR).
  eexists. split; [apply of_values_value; [exact W|lra|lra|lia]|]. rewrite D0, D1. replace (map_bwd a b b) with 1 by (unfold map_bwd; field; lra).
  unfold ev, evalT. rewrite (col_len (onefun F) j W), NL by lia.
  apply Rle_trans with (rsum n (fun k => s * 1 - (2 * s) * / (1 + INR k) ^ 2)).
  - rewrite rsum_minus, rsum_const, rsum_scal. assert (B := sq_sum n). nra.
  - apply rsum_le. intros k Hk. rewrite T_1, EC. destruct (decay_nth n m U s j k HU Hj Hk) as [u [Hu ->]]. unfold Rdiv.
    assert (0 < / (1 + INR k) ^ 2) by (apply Rinv_0_lt_compat; assert (0 <= INR k) by apply pos_INR; nra). set (i := / (1 + INR k) ^ 2) in *. clearbody i. assert (u * i <= i) by nra. assert (0 <= s * (i - u * i)) by (apply Rmult_le_pos; lra). lra.
Qed.
Print Assumptions C209_decay_grows_refuted.

(** the hypotheses are met: numbers drawn for one column of three coefficients *)
Theorem C209_case : draws 3 1 [[0; / 2; / 4]] /\ exists F, fun_random 2 [[0; / 2; / 4]] 0 1 = Some F /\ coeffs (onefun F) = [[2; 0; 1]].
Proof.
  assert (HR : rect 3 [[0; / 2; / 4]]) by (split; [lia|]; split; [discriminate|]; repeat constructor).
  split.
  - split; [exact HR|]. split; [reflexivity|]. intros c u [<-|[]] [<-|[<-|[<-|[]]]]; lra.
  - destruct (init_rect 3 (random_coeffs 2 [[0; / 2; / 4]]) 0 1) as [F [E [_ [_ [_ EC]]]]].
    + split; [lia|]. split; [discriminate|]. repeat constructor.
    + exists F. split; [exact E|]. rewrite EC. unfold random_coeffs. cbn [map]. repeat f_equal; field.
Qed.
Print Assumptions C209_case.

(** ** argmax *)
Lemma argmax_spec l : forall i best m, let r := argmax_list l i best m in
  (r = best /\ (forall k, (k < length l)%nat -> nth k l 0 <= m)) \/
  (exists k, r = (i + k)%nat /\ (k < length l)%nat /\ m < nth k l 0 /\ (forall q, (q < length l)%nat -> nth q l 0 <= nth k l 0) /\ forall q, (q < k)%nat -> nth q l 0 < nth k l 0).
Proof.
  induction l as [|a l IH]; intros i best m r.
  - left. split; [reflexivity|]. cbn. lia.
  - unfold r. cbn [argmax_list]. unfold Rltb. destruct (Rlt_dec m a) as [H|H].
    + right. destruct (IH (S i) i a) as [[E Q]|[k [E [Lk [Hk [Q1 Q2]]]]]].
      * exists 0%nat. rewrite E. cbn [length nth]. repeat split; [lia|lia|exact H| |lia]. intros [|q] Hq; [lra|apply Q; lia].
      * exists (S k). rewrite E. cbn [length nth]. repeat split; [lia|lia|lra| |].
        -- intros [|q] Hq; [lra|apply Q1; lia].
        -- intros [|q] Hq; [lra|apply Q2; lia].
    + destruct (IH (S i) best m) as [[E Q]|[k [E [Lk [Hk [Q1 Q2]]]]]].
      * left. split; [exact E|]. intros [|q] Hq; [cbn; lra|cbn [nth]; apply Q; cbn in Hq; lia].
      * right. exists (S k). rewrite E. cbn [length nth]. repeat split; [lia|lia|lra| |].
        -- intros [|q] Hq; [lra|apply Q1; lia].
        -- intros [|q] Hq; [lra|apply Q2; lia].
Qed.
Lemma np_argmax_spec l : l <> [] -> exists k, np_argmax l = Some k /\ (k < length l)%nat /\ (forall q, (q < length l)%nat -> nth q l 0 <= nth k l 0) /\ forall q, (q < k)%nat -> nth q l 0 < nth k l 0.
Proof.
  destruct l as [|a l]; [congruence|]. intros _. unfold np_argmax. destruct (argmax_spec l 1 0 a) as [[E Q]|[k [E [Lk [Hk [Q1 Q2]]]]]].
  - exists 0%nat. rewrite E. cbn [length nth]. repeat split; [lia| |lia]. intros [|q] Hq; [lra|apply Q; lia].
  - exists (S k). rewrite E. cbn [length nth]. repeat split; [lia| |]; intros [|q] Hq; [lra|apply Q1; lia|lra|apply Q2; lia].
Qed.
Lemma flat_nth (g : nat -> list R) m : (1 <= m)%nat -> (forall i, length (g i) = m) -> forall n s i j, (i < n)%nat -> (j < m)%nat ->
  nth (i * m + j) (flat_map g (seq s n)) 0 = nth j (g (s + i)%nat) 0.
Proof.
  intros Hm Lg. induction n as [|n IH]; intros s i j Hi Hj; [lia|]. cbn [seq flat_map]. destruct i as [|i].
  - rewrite app_nth1 by (rewrite Lg; lia). rewrite Nat.add_0_r. reflexivity.
  - rewrite app_nth2 by (rewrite Lg; nia). rewrite Lg. replace (S i * m + j - m)%nat with (i * m + j)%nat by nia.
    rewrite IH by lia. f_equal. f_equal. lia.
Qed.
Lemma flat_len (g : nat -> list R) m : (forall i, length (g i) = m) -> forall n s, length (flat_map g (seq s n)) = (n * m)%nat.
Proof. intros Lg. induction n as [|n IH]; intros s; [reflexivity|]. cbn [seq flat_map]. rewrite app_length, Lg, IH. lia. Qed.

(** C210: np.argmax(f) is i m + j where (i, j) is the place of the largest coefficient, the first in the order of rows *)
Theorem C210_coefficients : forall F, wf (onefun F) -> let m := ncols (onefun F) in let n := len (onefun F) in
  let c := fun i j => nth i (nth j (coeffs (onefun F)) []) 0 in
  exists i j, fun_argmax F = Some (i * m + j)%nat /\ (i < n)%nat /\ (j < m)%nat /\
    (forall p q, (p < n)%nat -> (q < m)%nat -> c p q <= c i j) /\
    (forall p q, (p < n)%nat -> (q < m)%nat -> (p * m + q < i * m + j)%nat -> c p q < c i j).
Proof.
  intros F W m n c. set (A := coeffs (onefun F)). assert (Hn : (1 <= n)%nat) by (apply len_pos; exact W). assert (Hm : (1 <= m)%nat) by (apply ncols_wf; exact W).
  set (g := fun i => map (fun c => nth i c 0) A). assert (Lg : forall i, length (g i) = m) by (intros i; unfold g; apply map_length).
  assert (ER : rowsC A = flat_map g (seq 0 n)) by reflexivity. assert (LR : length (rowsC A) = (n * m)%nat) by (rewrite ER; now apply flat_len).
  assert (NR : forall p q, (p < n)%nat -> (q < m)%nat -> nth (p * m + q) (rowsC A) 0 = c p q).
  { intros p q Hp Hq. rewrite ER, (flat_nth g m Hm Lg n 0 p q Hp Hq). cbn [Nat.add]. unfold g, c. fold A.
    rewrite (nth_indep _ 0 ((fun c => nth p c 0) [])) by (rewrite map_length; exact Hq). apply (map_nth (fun c => nth p c 0)). }
  destruct (np_argmax_spec (rowsC A)) as [k [E [Lk [Q1 Q2]]]].
  { intros Z. rewrite Z in LR. cbn in LR. nia. }
  rewrite LR in *. assert (DM := Nat.div_mod k m ltac:(lia)). assert (MB := Nat.mod_upper_bound k m ltac:(lia)).
  set (i := (k / m)%nat) in *. set (j := (k mod m)%nat) in *. assert (Ek : k = (i * m + j)%nat) by lia.
  assert (Hi : (i < n)%nat) by nia.
  exists i, j. split; [unfold fun_argmax; fold A; rewrite E, Ek; reflexivity|]. split; [exact Hi|]. split; [exact MB|]. split.
  - intros p q Hp Hq. rewrite <- !NR by assumption. rewrite <- Ek. apply Q1. nia.
  - intros p q Hp Hq Hlt. rewrite <- !NR by assumption. rewrite <- Ek. apply Q2. lia.
Qed.
Print Assumptions C210_coefficients.

(** not so: np.argmax(f) tells at which of its points the function is largest: 2 + x on [-1, 1] is larger at the second point (1), argmax is 0 *)
Theorem C210_place_refuted : exists F y0 y1, wf (onefun F) /\ len (onefun F) = 2%nat /\ ncols (onefun F) = 1%nat /\ dom0 F < dom1 F /\
  value F 0 (cpt (dom0 F) (dom1 F) 2 0) y0 /\ value F 0 (cpt (dom0 F) (dom1 F) 2 1) y1 /\ y0 < y1 /\ fun_argmax F = Some 0%nat.
Proof.
  set (F := mkFun (mkCheb [[2; 1]] eps_default 1 maxLength_default true) (-1) 1).
  assert (W : wf (onefun F)) by (exists 2%nat; split; [lia|]; split; [discriminate|]; repeat constructor).
  assert (P0 : cpt (dom0 F) (dom1 F) 2 0 = -1). { unfold cpt. cbn [dom0 dom1 F Nat.eqb Nat.sub INR]. replace (PI * 0 / 1) with 0 by field. rewrite cos_0. field. }
  assert (P1 : cpt (dom0 F) (dom1 F) 2 1 = 1). { unfold cpt. cbn [dom0 dom1 F Nat.eqb Nat.sub INR]. replace (PI * 1 / 1) with PI by field. rewrite cos_PI. field. }
  exists F, 1, 3. split; [exact W|]. split; [reflexivity|]. split; [reflexivity|]. split; [cbn; lra|].
  assert (V : forall x, -1 <= x <= 1 -> value F 0 x (2 + x)).
  { intros x Hx. replace (2 + x) with (ev (onefun F) 0 (map_bwd (dom0 F) (dom1 F) x)).
    - apply of_values_value; [exact W|cbn; lra|cbn; lra|cbn; lia].
    - cbn [dom0 dom1 F]. replace (map_bwd (-1) 1 x) with x by (unfold map_bwd; field). unfold ev, evalT. cbn [onefun F coeffs nth length rsum]. cbn [T]. ring. }
  split; [rewrite P0; assert (Z := V (-1) ltac:(lra)); replace (2 + -1) with 1 in Z by lra; exact Z|]. split; [rewrite P1; assert (Z := V 1 ltac:(lra)); replace (2 + 1) with 3 in Z by lra; exact Z|]. split; [lra|].
  change (fun_argmax F) with (Some (if Rltb 2 1 then 1%nat else 0%nat)). unfold Rltb. destruct (Rlt_dec 2 1); [lra|]. reflexivity.
Qed.
Print Assumptions C210_place_refuted.
