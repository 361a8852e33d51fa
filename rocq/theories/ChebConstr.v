(** restrict and construction from a callable. *)
From Coq Require Import Reals ZArith List Arith Lia Lra Bool.
From Coquelicot Require Import Coquelicot.
From Verif Require Import Base ChebSpec ChebMath ChebModel ChebModel2 ChebEval CosSums ChebDct ChebCalc ChebMul ChebChop ChebObj ChebOps ChebOps2 ChebArith.
Import ListNotations.
Open Scope R_scope.

(** ** restrict *)
Lemma restrict_correct f a b : wf f -> (2 <= len f)%nat -> (2 <= ncols f)%nat ->
  -1 <= a -> a < b -> b <= 1 ->
  exists g, restrict f [a; b] = Some g /\ wf g /\ ncols g = ncols f /\ len g = len f /\
    forall j x, (j < ncols f)%nat -> ev g j x = ev f j (/ 2 * ((1 - x) * a + (1 + x) * b)).
Proof.
  intros Hw Hl Hm Ha Hab Hb. unfold restrict.
  assert (Rltb a (-1) = false) as -> by (apply Rltb_false; lra).
  assert (Rltb 1 b = false) as -> by (apply Rltb_false; lra).
  assert (Rleb b a = false) as -> by (apply Rleb_false; lra). cbn [orb].
  destruct (Reqb a (-1) && Reqb b 1) eqn:E.
  - apply andb_true_iff in E. destruct E as [E1 E2]. apply Reqb_true in E1. apply Reqb_true in E2. subst a b.
    exists f. repeat split; auto. intros j x Hj. f_equal. field.
  - fold (len f) (ncols f). destruct (Nat.eqb_spec (len f) 1); [lia|]. destruct (Nat.eqb_spec (ncols f) 1); [lia|].
    set (phi := fun x => / 2 * ((1 - x) * a + (1 + x) * b)).
    set (C := polyfit (feval f (map phi (chebpts_type2_compute (len f))))).
    assert (HC : forall j, (j < ncols f)%nat ->
       nth j C [] = polyfit1 (mk (len f) (fun i => ev f j (phi (nth i (chebpts_type2_compute (len f)) 0))))).
    { intros j Hj. unfold C, polyfit. rewrite nth_map_col by (rewrite (proj1 (feval_shape f _)); exact Hj).
      f_equal. apply list_ext with 0.
      - rewrite (proj2 (feval_shape f _)) by exact Hj. rewrite map_length, chebpts_length, mk_length. reflexivity.
      - intros k Hk. rewrite (proj2 (feval_shape f _)) in Hk by exact Hj. rewrite map_length, chebpts_length in Hk.
        rewrite feval_correct by (try assumption; rewrite map_length, chebpts_length; exact Hk).
        rewrite nth_mk by exact Hk. rewrite nth_map_R by (rewrite chebpts_length; exact Hk). reflexivity. }
    assert (LC : length C = ncols f) by (unfold C, polyfit; rewrite map_length; apply feval_shape).
    assert (RC : rect (len f) C).
    { split; [lia|]. split; [intros H; rewrite H in LC; simpl in LC; lia|].
      apply List.Forall_forall. intros c Hc. apply In_nth with (d := []) in Hc. destruct Hc as [j [Hj <-]].
      rewrite LC in Hj. rewrite HC by exact Hj. rewrite polyfit1_length, mk_length. reflexivity. }
    destruct (cheb_init_some (len f) C (eps f) (hscale f) (maxLength f) (ishappy f) RC) as [hp [E1 _]].
    eexists. split; [exact E1|]. split; [eexists; exact RC|]. split; [exact LC|].
    split; [apply (rect_nrows _ C RC)|]. intros j x Hj. unfold ev at 1. cbn [coeffs]. rewrite HC by exact Hj.
    apply (polyfit_span (len f) (fun y => ev f j (phi y))); [lia|].
    apply (spanT_ext _ (fun y => ev f j ((b - a) / 2 * y + (a + b) / 2))).
    + intros y. f_equal. unfold phi. field.
    + apply (spanT_affine (len f) (ev f j)). apply spanT_evalT. rewrite col_len by assumption. lia.
Qed.

Lemma restrict_single_fails f a b : ncols f = 1%nat -> ~ (a = -1 /\ b = 1) -> restrict f [a; b] = None.
Proof.
  intros Hm Hab. unfold restrict. destruct (_ || _ || _); [reflexivity|].
  destruct (Reqb a (-1) && Reqb b 1) eqn:E.
  - apply andb_true_iff in E. destruct E as [E1 E2]. apply Reqb_true in E1. apply Reqb_true in E2. tauto.
  - destruct (Nat.eqb _ 1); [reflexivity|]. unfold ncols in Hm. rewrite Hm. reflexivity.
Qed.

(** ** nested grids *)
Lemma chebpts_nested n i : (2 <= n)%nat -> (i < n)%nat ->
  nth (2 * i) (chebpts_type2_compute (2 * n - 1)) 0 = nth i (chebpts_type2_compute n) 0.
Proof.
  intros Hn Hi. rewrite !chebpts_nth by lia. f_equal.
  replace (2 * n - 1 - 1 - 2 * i)%nat with (2 * (n - 1 - i))%nat by lia.
  replace (2 * n - 1 - 1)%nat with (2 * (n - 1))%nat by lia.
  rewrite !mult_INR. simpl (INR 2). assert (0 < INR (n - 1)) by (apply lt_0_INR; lia). field. lra.
Qed.

Lemma nested_col_correct op n : (2 <= n)%nat ->
  nested_col op (map op (chebpts_type2_compute n)) = map op (chebpts_type2_compute (2 * n - 1)).
Proof.
  intros Hn. unfold nested_col. rewrite map_length, chebpts_length. apply list_ext with 0.
  - rewrite mk_length, map_length, chebpts_length. reflexivity.
  - intros i Hi. rewrite mk_length in Hi. rewrite nth_mk by exact Hi.
    rewrite (nth_map_R op (chebpts_type2_compute (2 * n - 1))) by (rewrite chebpts_length; exact Hi).
    destruct (Nat.even i) eqn:E.
    + apply Nat.even_spec in E. destruct E as [k ->]. replace (2 * k / 2)%nat with k by (rewrite Nat.mul_comm, Nat.div_mul; lia).
      rewrite nth_map_R by (rewrite chebpts_length; lia). rewrite chebpts_nested by lia. reflexivity.
    + assert (O : Nat.odd i = true) by (rewrite <- Nat.negb_even, E; reflexivity).
      apply Nat.odd_spec in O. destruct O as [k ->].
      replace ((2 * k + 1 - 1) / 2)%nat with k by (rewrite Nat.add_sub, Nat.mul_comm, Nat.div_mul; lia).
      rewrite nth_map_R by (rewrite mk_length; lia). rewrite nth_mk by lia. reflexivity.
Qed.

Lemma nested_values_correct ops n : (2 <= n)%nat ->
  nested_values ops (sample ops n) = sample ops (2 * n - 1).
Proof.
  intros Hn. unfold nested_values, sample. induction ops as [|op ops IH]; [reflexivity|].
  cbn [map combine]. rewrite IH, nested_col_correct by exact Hn. reflexivity.
Qed.

Lemma sample_rect ops n : ops <> [] -> (1 <= n)%nat -> rect n (sample ops n).
Proof.
  intros Ho Hn. split; [exact Hn|]. split; [destruct ops; [congruence|discriminate]|].
  apply List.Forall_forall. intros c Hc. apply in_map_iff in Hc. destruct Hc as [op [<- _]].
  rewrite map_length. apply chebpts_length.
Qed.

(** ** happiness *)
Lemma happy_loop_true A tols n h rc k : happy_loop A tols n h rc = Some (true, k) ->
  length A = length tols ->
  (rc <= k)%nat /\ forall j, (j < length A)%nat -> exists c, standardChop (nth j A []) (nth j tols 0) = Some c /\ (c <= k)%nat /\ (c < n)%nat.
Proof.
  revert tols h rc. induction A as [|c A IH]; intros tols h rc H Hl; cbn [happy_loop] in H.
  - destruct h as [b|]; [|discriminate]. assert (k = rc) by congruence. subst. split; [lia|]. intros j Hj. simpl in Hj. lia.
  - destruct tols as [|t tols]; [discriminate|]. destruct (standardChop c t) as [cut|] eqn:E; [|discriminate].
    destruct (Nat.ltb_spec cut n) as [Hlt|]; [|discriminate].
    destruct (IH _ _ _ H ltac:(simpl in Hl; lia)) as [H1 H2]. split; [lia|].
    intros [|j] Hj; cbn [nth]; [exists cut; repeat split; [exact E|lia|exact Hlt]|]. apply H2. simpl in Hj. lia.
Qed.

Lemma happy_true n A e h k : rect n A -> happy A e h = Some (true, k) ->
  (1 <= k)%nat /\
  forall j, (j < length A)%nat ->
    let tol := Rmax h (vscale_col (nth j A [])) * e in
    0 < tol < 1 -> forall i, (k <= i)%nat -> Rabs (nth i (nth j A []) 0) <= Rpower tol (2 / 5).
Proof.
  intros HR H. unfold happy, happiness_check in H. rewrite (rect_nrows n A HR) in H.
  set (A' := if Nat.ltb n 17 then polyfit (polyval (prolong A 17)) else A) in H.
  set (tols := map (fun c => Rmax h (vscale_col c) * e) A) in H.
  destruct (happy_loop A' tols n None 0) as [[b k']|] eqn:E; [|discriminate].
  assert (b = true /\ k = (k' + 1)%nat) as [-> ->] by (split; congruence).
  assert (LA : length A' = length A).
  { unfold A'. destruct (Nat.ltb n 17); [|reflexivity]. unfold polyfit, polyval, prolong. rewrite !map_length. reflexivity. }
  destruct (happy_loop_true _ _ _ _ _ _ E) as [_ H2]; [unfold tols; rewrite map_length; exact LA|].
  split; [lia|]. intros j Hj. cbv zeta. intros Ht i Hi.
  assert (Ej : nth j A' [] = prolong1 (nth j A []) (Z.of_nat (Nat.max n 17))).
  { unfold A'. destruct (Nat.ltb_spec n 17).
    - replace 17%Z with (Z.of_nat 17) by reflexivity. rewrite polyfit_polyval_prolong by lia. rewrite Nat.max_r by lia. apply nth_prolong. exact Hj.
    - rewrite Nat.max_l by lia. rewrite <- nth_prolong by exact Hj. rewrite (prolong_id n A HR). reflexivity. }
  destruct (H2 j ltac:(lia)) as [c [E1 [E2 E3]]].
  assert (Et : nth j tols 0 = Rmax h (vscale_col (nth j A [])) * e).
  { unfold tols. rewrite (nth_indep _ 0 ((fun c => Rmax h (vscale_col c) * e) [])) by (rewrite map_length; exact Hj).
    rewrite (map_nth (fun c => Rmax h (vscale_col c) * e)). reflexivity. }
  rewrite Et in E1. rewrite Ej in E1.
  destruct (Nat.lt_ge_cases i n) as [Hin|Hin].
  - assert (HT := standardChop_tail _ _ _ Ht E1). rewrite prolong1_length, Nat2Z.id in HT.
    specialize (HT ltac:(lia) i ltac:(lia)). rewrite prolong1_nth in HT by (rewrite Nat2Z.id; lia). exact HT.
  - rewrite nth_overflow by (rewrite (rect_nth n A j HR Hj); exact Hin). rewrite Rabs_R0. left. apply exp_pos.
Qed.

(** ** populate *)
Definition interp (op : R -> R) (N : nat) : list R := polyfit1 (map op (chebpts_type2_compute N)).

Lemma populate_spec fuel : forall ops n e h ml, ops <> [] -> (2 <= n)%nat -> (Z.of_nat n <= ml)%Z ->
  (ml - Z.of_nat n <= Z.of_nat fuel)%Z ->
  exists hp N K, populate fuel ops (sample ops n) e h ml =
      Some (prolong (polyfit (sample ops N)) (Z.of_nat K), hp) /\
    (n <= N)%nat /\ (Z.of_nat N <= ml)%Z /\ (1 <= K)%nat /\
    (exists q, N = (2 ^ q * (n - 1) + 1)%nat) /\
    (hp = false -> K = N /\ (ml < 2 * Z.of_nat N - 1)%Z) /\
    (forall j, (j < length ops)%nat ->
       let c := interp (nth j ops (fun _ => 0)) N in
       let tol := Rmax h (vscale_col c) * e in
       0 < tol < 1 -> forall i, (K <= i)%nat -> Rabs (nth i c 0) <= Rpower tol (2 / 5)).
Proof.
  induction fuel as [|fuel IH]; intros ops n e h ml Ho Hn Hml Hf.
  - assert (Z.of_nat n = ml) by lia.
    cbn [populate]. assert (RS := sample_rect ops n Ho ltac:(lia)).
    assert (RP : rect n (polyfit (sample ops n))).
    { apply (rect_map n); [exact RS|lia|]. intros c Hc. rewrite polyfit1_length. exact Hc. }
    assert (Hcol : forall j, (j < length ops)%nat -> nth j (polyfit (sample ops n)) [] = interp (nth j ops (fun _ => 0)) n).
    { intros j Hj. unfold polyfit, sample. rewrite map_map.
      rewrite (nth_indep _ [] ((fun op => polyfit1 (map op (chebpts_type2_compute n))) (fun _ => 0))) by (rewrite map_length; exact Hj).
      rewrite (map_nth (fun op => polyfit1 (map op (chebpts_type2_compute n)))). reflexivity. }
    assert (LP : length (polyfit (sample ops n)) = length ops) by (unfold polyfit, sample; rewrite !map_length; reflexivity).
    destruct (happy_total (polyfit (sample ops n)) e h) as [[b k] Eh]; [apply RP|]. rewrite Eh. destruct b.
    + destruct (happy_true n _ e h k RP Eh) as [Hk HT].
      exists true, n, (k + 1)%nat. split; [reflexivity|]. split; [lia|]. split; [lia|]. split; [lia|].
      split; [exists 0%nat; simpl; lia|]. split; [discriminate|]. intros j Hj. cbv zeta. rewrite <- Hcol by exact Hj.
      intros Ht i Hi. apply HT; [lia|exact Ht|lia].
    + rewrite (rect_nrows n _ RS). destruct (Z.ltb_spec ml (Z.of_nat (2 * n - 1))); [|lia].
      exists false, n, n. split; [f_equal; f_equal; symmetry; apply prolong_id; exact RP|].
      split; [lia|]. split; [lia|]. split; [lia|]. split; [exists 0%nat; simpl; lia|]. split; [intros _; split; [reflexivity|lia]|].
      intros j Hj. cbv zeta. intros Ht i Hi. rewrite nth_overflow; [rewrite Rabs_R0; left; apply exp_pos|].
      unfold interp. rewrite polyfit1_length, map_length, chebpts_length. exact Hi.
  - cbn [populate]. assert (RS := sample_rect ops n Ho ltac:(lia)).
    assert (RP : rect n (polyfit (sample ops n))).
    { apply (rect_map n); [exact RS|lia|]. intros c Hc. rewrite polyfit1_length. exact Hc. }
    assert (Hcol : forall j, (j < length ops)%nat -> nth j (polyfit (sample ops n)) [] = interp (nth j ops (fun _ => 0)) n).
    { intros j Hj. unfold polyfit, sample. rewrite map_map.
      rewrite (nth_indep _ [] ((fun op => polyfit1 (map op (chebpts_type2_compute n))) (fun _ => 0))) by (rewrite map_length; exact Hj).
      rewrite (map_nth (fun op => polyfit1 (map op (chebpts_type2_compute n)))). reflexivity. }
    assert (LP : length (polyfit (sample ops n)) = length ops) by (unfold polyfit, sample; rewrite !map_length; reflexivity).
    destruct (happy_total (polyfit (sample ops n)) e h) as [[b k] Eh]; [apply RP|]. rewrite Eh. destruct b.
    + destruct (happy_true n _ e h k RP Eh) as [Hk HT].
      exists true, n, (k + 1)%nat. split; [reflexivity|]. split; [lia|]. split; [lia|]. split; [lia|].
      split; [exists 0%nat; simpl; lia|]. split; [discriminate|]. intros j Hj. cbv zeta. rewrite <- Hcol by exact Hj.
      intros Ht i Hi. apply HT; [lia|exact Ht|lia].
    + rewrite (rect_nrows n _ RS). destruct (Z.ltb_spec ml (Z.of_nat (2 * n - 1))).
      * exists false, n, n. split; [f_equal; f_equal; symmetry; apply prolong_id; exact RP|].
        split; [lia|]. split; [lia|]. split; [lia|]. split; [exists 0%nat; simpl; lia|]. split; [intros _; split; [reflexivity|lia]|].
        intros j Hj. cbv zeta. intros Ht i Hi. rewrite nth_overflow; [rewrite Rabs_R0; left; apply exp_pos|].
        unfold interp. rewrite polyfit1_length, map_length, chebpts_length. exact Hi.
      * rewrite nested_values_correct by exact Hn.
        destruct (IH ops (2 * n - 1)%nat e h ml Ho ltac:(lia) ltac:(lia) ltac:(lia)) as [hp [N [K [E [H1 [H2 [H3 [[q Hq] H4]]]]]]]].
        exists hp, N, K. split; [exact E|]. split; [lia|]. split; [exact H2|]. split; [exact H3|]. split; [|exact H4].
        exists (S q). rewrite Hq. replace (2 * n - 1 - 1)%nat with (2 * (n - 1))%nat by lia. cbn [Nat.pow]. lia.
Qed.

Lemma prolong_prolong c K K' : (K' <= K)%nat -> prolong1 (prolong1 c (Z.of_nat K)) (Z.of_nat K') = prolong1 c (Z.of_nat K').
Proof.
  intros H. apply list_ext with 0; [rewrite !prolong1_length; reflexivity|].
  intros k Hk. rewrite prolong1_length, Nat2Z.id in Hk. rewrite !prolong1_nth by (rewrite Nat2Z.id; lia). reflexivity.
Qed.
Lemma prolong_ge_eq c K K' : (length c <= K)%nat -> prolong1 (prolong1 c (Z.of_nat K)) (Z.of_nat K') = prolong1 c (Z.of_nat K').
Proof.
  intros H. apply list_ext with 0; [rewrite !prolong1_length; reflexivity|].
  intros k Hk. rewrite prolong1_length, Nat2Z.id in Hk. rewrite !(prolong1_nth _ (Z.of_nat K')) by (rewrite Nat2Z.id; lia).
  rewrite prolong1_mk, Nat2Z.id. destruct (Nat.lt_ge_cases k K); [rewrite nth_mk by lia; reflexivity|].
  rewrite nth_mk_out by lia. symmetry. apply nth_overflow. lia.
Qed.

Lemma initial_n_ge ml ms : (9 <= initial_n ml ms)%Z.
Proof.
  unfold initial_n. set (m := Z.max 9 _). assert (Hm : (9 <= m)%Z) by lia.
  assert (H := Z.log2_up_spec (m - 1) ltac:(lia)). lia.
Qed.

Lemma construct_spec ops e h ml ms : ops <> [] -> (initial_n ml ms <= ml)%Z ->
  exists f N K, construct ops e h ml ms = Some f /\ wf f /\ ncols f = length ops /\ eps f = e /\ hscale f = h /\
    (initial_n ml ms <= Z.of_nat N <= ml)%Z /\ (1 <= K <= len f)%nat /\
    (forall j k, (j < length ops)%nat ->
       coef f j k = if Nat.ltb k K then nth k (interp (nth j ops (fun _ => 0)) N) 0 else 0) /\
    (ishappy f = false -> K = N /\ (ml < 2 * Z.of_nat N - 1)%Z) /\
    (forall j, (j < length ops)%nat ->
       let c := interp (nth j ops (fun _ => 0)) N in
       let tol := Rmax h (vscale_col c) * e in
       0 < e < 1 -> 0 < tol < 1 -> forall i, (K <= i)%nat ->
         Rabs (nth i c 0) <= Rmax (Rpower tol (2 / 5)) (Rpower e (2 / 5))).
Proof.
  intros Ho Hml. assert (H9 := initial_n_ge ml ms). set (n0 := initial_n ml ms) in *.
  unfold construct. fold n0. destruct (Z.ltb_spec ml n0); [lia|].
  destruct (populate_spec (Z.to_nat ml) ops (Z.to_nat n0) e h ml Ho ltac:(lia) ltac:(lia) ltac:(lia))
    as [hp [N [K [E [H1 [H2 [H3 [_ [H5 H4]]]]]]]]].
  destruct ops as [|op0 ops0] eqn:Eo; [congruence|]. rewrite <- Eo in *. rewrite E. clear E.
  set (C := prolong (polyfit (sample ops N)) (Z.of_nat K)).
  assert (HN : (9 <= N)%nat) by lia.
  assert (RP : rect N (polyfit (sample ops N))).
  { apply (rect_map N); [apply sample_rect; [congruence|lia]|lia|]. intros c Hc. rewrite polyfit1_length. exact Hc. }
  assert (RC : rect K C) by (apply (rect_prolong N); assumption).
  assert (LP : length (polyfit (sample ops N)) = length ops) by (unfold polyfit, sample; rewrite !map_length; reflexivity).
  assert (LC : length C = length ops) by (unfold C, prolong; rewrite map_length; exact LP).
  assert (Hcol : forall j, (j < length ops)%nat -> nth j C [] = prolong1 (interp (nth j ops (fun _ => 0)) N) (Z.of_nat K)).
  { intros j Hj. unfold C. rewrite nth_prolong by lia. f_equal. unfold polyfit, sample. rewrite map_map.
    rewrite (nth_indep _ [] ((fun op => polyfit1 (map op (chebpts_type2_compute N))) (fun _ => 0))) by (rewrite map_length; exact Hj).
    rewrite (map_nth (fun op => polyfit1 (map op (chebpts_type2_compute N)))). reflexivity. }
  unfold cheb_init. rewrite (rect_nrows K C RC), LC.
  assert (Lo : (1 <= length ops)%nat) by (rewrite Eo; simpl; lia).
  destruct (Nat.eqb_spec (K * length ops) 0) as [E0|_]; [nia|].
  assert (Hhp : exists hp', (if hp then Some true else option_map fst (happy C e h)) = Some hp' /\ (hp' = false -> hp = false)).
  { destruct hp; [exists true; auto|]. destruct (happy_total C e h) as [[b k] Eh]; [apply RC|]. rewrite Eh.
    exists b. auto. }
  destruct Hhp as [hp' [-> Hhp']]. cbn [andb]. destruct hp'.
  - destruct (simplify_coeffs_spec K C e RC) as [K' [HK' [Es HT]]]. rewrite Es. cbn [option_map].
    assert (RC' : rect K' (prolong C (Z.of_nat K'))) by (apply (rect_prolong K); [exact RC|lia]).
    assert (Lf := rect_nrows K' _ RC').
    exists (mkCheb (prolong C (Z.of_nat K')) e h ml true), N, (Nat.min K K').
    split; [reflexivity|]. split; [eexists; exact RC'|].
    split; [unfold ncols; cbn [coeffs]; unfold prolong; rewrite map_length; exact LC|].
    split; [reflexivity|]. split; [reflexivity|]. split; [lia|].
    split; [unfold len; cbn [coeffs]; rewrite Lf; lia|].
    split; [|split; [discriminate|]].
    + intros j k Hj. unfold coef. cbn [coeffs]. rewrite nth_prolong by lia. rewrite Hcol by exact Hj.
      rewrite !prolong1_mk, !Nat2Z.id.
      destruct (Nat.ltb_spec k (Nat.min K K')) as [Hk|Hk].
      * rewrite !nth_mk by lia. reflexivity.
      * destruct (Nat.lt_ge_cases k K') as [Hk'|Hk']; [rewrite nth_mk by exact Hk'; apply nth_mk_out; lia|apply nth_mk_out; exact Hk'].
    + intros j Hj. cbv zeta. intros He Ht i Hi.
      destruct (Nat.lt_ge_cases i K) as [HiK|HiK].
      * eapply Rle_trans; [|apply Rmax_r]. assert (Q := HT He j i ltac:(lia)).
        rewrite Hcol in Q by exact Hj. rewrite prolong1_nth in Q by (rewrite Nat2Z.id; exact HiK). exact Q.
      * eapply Rle_trans; [|apply Rmax_l]. apply (H4 j Hj); assumption.
  - exists (mkCheb C e h ml false), N, K.
    split; [reflexivity|]. split; [eexists; exact RC|]. split; [exact LC|]. split; [reflexivity|]. split; [reflexivity|].
    split; [lia|]. split; [unfold len; cbn [coeffs]; rewrite (rect_nrows K C RC); lia|]. split; [|split].
    + intros j k Hj. unfold coef. cbn [coeffs]. rewrite Hcol by exact Hj. rewrite prolong1_mk, Nat2Z.id.
      destruct (Nat.ltb_spec k K); [rewrite nth_mk by assumption|rewrite nth_mk_out by assumption]; reflexivity.
    + intros _. apply H5. apply Hhp'. reflexivity.
    + intros j Hj. cbv zeta. intros He Ht i Hi. eapply Rle_trans; [|apply Rmax_l]. apply (H4 j Hj); assumption.
Qed.

(** the interpolant agrees with the sampled function at the grid points, and is
    the function itself when that is a polynomial of degree below the grid size *)
Lemma interp_nodes op N i : (1 <= N)%nat -> (i < N)%nat ->
  evalT (interp op N) (nth i (chebpts_type2_compute N) 0) = op (nth i (chebpts_type2_compute N) 0).
Proof.
  intros HN Hi. unfold interp. set (v := map op (chebpts_type2_compute N)).
  assert (Lv : length v = N) by (unfold v; rewrite map_length, chebpts_length; reflexivity).
  transitivity (nth i (polyval1 (polyfit1 v)) 0).
  - rewrite polyval1_spec by (rewrite polyfit1_length; lia). rewrite polyfit1_length, Lv. reflexivity.
  - rewrite polyval_polyfit by lia. unfold v. apply nth_map_R. rewrite chebpts_length. exact Hi.
Qed.
Lemma interp_span op N : (1 <= N)%nat -> spanT N op -> forall x, evalT (interp op N) x = op x.
Proof.
  intros HN HS x. rewrite <- (polyfit_span N op HN HS x). f_equal. unfold interp. f_equal.
  apply list_ext with 0; [rewrite map_length, chebpts_length, mk_length; reflexivity|].
  intros k Hk. rewrite map_length, chebpts_length in Hk. rewrite nth_map_R by (rewrite chebpts_length; exact Hk).
  rewrite nth_mk by exact Hk. reflexivity.
Qed.

(** error of the constructed function with respect to the interpolant *)
Lemma construct_error ops e h ml ms : ops <> [] -> (initial_n ml ms <= ml)%Z -> 0 < e < 1 ->
  exists f N, construct ops e h ml ms = Some f /\ wf f /\ ncols f = length ops /\
    (initial_n ml ms <= Z.of_nat N <= ml)%Z /\
    forall j, (j < length ops)%nat ->
      let op := nth j ops (fun _ => 0) in
      let tol := Rmax h (vscale_col (interp op N)) * e in
      0 < tol < 1 ->
      let B := INR N * Rmax (Rpower tol (2 / 5)) (Rpower e (2 / 5)) in
      (forall i, (i < N)%nat -> let xi := nth i (chebpts_type2_compute N) 0 in Rabs (op xi - ev f j xi) <= B) /\
      (spanT N op -> forall x, -1 <= x <= 1 -> Rabs (op x - ev f j x) <= B).
Proof.
  intros Ho Hml He. destruct (construct_spec ops e h ml ms Ho Hml) as [f [N [K [E [Wf [Nf [Ef [Hf [HN [HK [HC [_ HT]]]]]]]]]]]].
  assert (H9 := initial_n_ge ml ms).
  exists f, N. split; [exact E|]. split; [exact Wf|]. split; [exact Nf|]. split; [exact HN|].
  intros j Hj. cbv zeta. intros Ht. set (op := nth j ops (fun _ => 0)) in *.
  set (b := Rmax _ _). assert (Lint : length (interp op N) = N).
  { unfold interp. rewrite polyfit1_length, map_length, chebpts_length. reflexivity. }
  assert (Eev : forall x, ev f j x = evalT (prolong1 (interp op N) (Z.of_nat K)) x).
  { intros x. rewrite evalT_prolong_trunc. unfold ev. rewrite (evalT_ge _ x (len f)) by (rewrite col_len by (try assumption; lia); lia).
    rewrite (rsum_extend K (len f)); [|lia|].
    - apply rsum_ext. intros k Hk. f_equal. specialize (HC j k Hj). destruct (Nat.ltb_spec k K); [exact HC|lia].
    - intros k Hk. specialize (HC j k Hj). destruct (Nat.ltb_spec k K); [lia|]. unfold coef in HC. rewrite HC. ring. }
  assert (Hb : 0 <= b) by (eapply Rle_trans; [left; apply (exp_pos (2/5 * ln e))|apply Rmax_r]).
  assert (ERR : forall x, -1 <= x <= 1 -> Rabs (evalT (interp op N) x - ev f j x) <= INR N * b).
  { intros x Hx. rewrite Eev. eapply Rle_trans; [apply evalT_trunc_err with (t := b)|].
    - exact Hx.
    - exact Hb.
    - intros k Hk. apply (HT j Hj He Ht k Hk).
    - apply Rmult_le_compat_r; [exact Hb|]. rewrite Lint. apply le_INR. lia. }
  split.
  - intros i Hi. rewrite <- (interp_nodes op N i) by lia. apply ERR. apply chebpts_range.
  - intros HS x Hx. rewrite <- (interp_span op N ltac:(lia) HS x). apply ERR. exact Hx.
Qed.

(** a maximal length below the first grid makes every construction fail *)
Lemma construct_short_fails ops e h ml ms : (ml < 9 \/ (9 < ml < 17 /\ ml <= ms))%Z -> construct ops e h ml ms = None.
Proof.
  intros H. unfold construct. destruct ops as [|op ops]; [reflexivity|].
  assert (Hn : (ml < initial_n ml ms)%Z).
  { unfold initial_n. destruct H as [H|[H Hms]].
    - assert (E : Z.max 9 (Z.min ml ms) = 9%Z) by lia. rewrite E. change (Z.log2_up (9 - 1)) with 3%Z. lia.
    - assert (E : Z.max 9 (Z.min ml ms) = ml) by lia. rewrite E.
      assert (E2 : Z.log2_up (ml - 1) = 4%Z) by (apply Z.log2_up_unique; lia). rewrite E2. lia. }
  destruct (Z.ltb_spec ml (initial_n ml ms)); [reflexivity|lia].
Qed.
