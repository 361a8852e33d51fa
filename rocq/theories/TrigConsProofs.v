(** Proofs about the adaptive construction of periodic functions. *)
From Coq Require Import Reals ZArith List Arith Bool Lia Lra.
From Coquelicot Require Import Coquelicot.
From Verif Require Import Base ToolsProofs ChebModel ChebChop UconvModel TrigSpec TrigBase TrigModel TrigTrans TrigEval TrigCalc TrigCalc2 TrigModel2 TrigObj TrigObj2 TrigCons.
Import ListNotations.
Open Scope R_scope.
Open Scope C_scope.

Notation icf op N := (vals2coeffs1 (trig_resample op N)).

Lemma resample_length op n : length (trig_resample op n) = n.
Proof. unfold trig_resample. apply mk_length. Qed.
Lemma icf_length op n : length (icf op n) = n.
Proof. rewrite vals2coeffs1_length. apply resample_length. Qed.
Lemma nested_resample op n : (1 <= n)%nat -> trig_nested op (trig_resample op n) = trig_resample op (2 * n).
Proof.
  intros Hn. unfold trig_nested. rewrite resample_length. unfold trig_resample at 2. apply mk_ext. intros j Hj.
  destruct (Nat.even j) eqn:Ev.
  - assert (H2 := even_half _ Ev). set (i := (j / 2)%nat) in *. clearbody i. subst j. unfold trig_resample. rewrite nth_mk by lia.
    destruct (Nat.eqb_spec i 0) as [->|Hi].
    + change (2 * 0)%nat with 0%nat. cbn [Nat.eqb]. do 3 f_equal. unfold gridpt. cbn [INR]. unfold Rdiv. rewrite !Rmult_0_r, !Rmult_0_l. reflexivity.
    + destruct (Nat.eqb_spec (2 * i) 0); [lia|]. rewrite gridpt_even by exact Hn. reflexivity.
  - destruct (Nat.eqb_spec j 0) as [->|Hj0]; [discriminate|reflexivity].
Qed.

Lemma combine_map_self {A B D} (f : A -> B) (g : A -> B -> D) l : map (fun p => g (fst p) (snd p)) (combine l (map f l)) = map (fun x => g x (f x)) l.
Proof. induction l as [|a l IH]; [reflexivity|]. cbn. rewrite IH. reflexivity. Qed.

Lemma map_option_spec {A B} (f : A -> option B) l : (forall a, In a l -> exists b, f a = Some b) ->
  exists r, map_option f l = Some r /\ length r = length l /\ forall j da db, (j < length l)%nat -> f (nth j l da) = Some (nth j r db).
Proof.
  induction l as [|a l IH]; intros H.
  - exists []. split; [reflexivity|]. split; [reflexivity|]. intros j da db Hj. cbn in Hj. lia.
  - destruct (H a (or_introl eq_refl)) as [b Eb]. destruct IH as [r [Er [Lr Hr]]]; [intros x Hx; apply H; right; exact Hx|].
    exists (b :: r). cbn [map_option]. rewrite Eb, Er. split; [reflexivity|]. split; [cbn; lia|]. intros [|j] da db Hj; [exact Eb|]. cbn [nth]. apply Hr. cbn in Hj. lia.
Qed.

Lemma half_cut_eq k : half_cut k = (k / 2)%nat.
Proof.
  unfold half_cut. destruct (Nat.even k) eqn:E; [reflexivity|]. apply odd_half'. rewrite <- Nat.negb_even, E. reflexivity.
Qed.

Definition chop_ok (c : list C) (e : R) (K : nat) : Prop :=
  exists k, standardChop (map Cmod c) e = Some k /\ (k < length c)%nat /\ (k / 2 <= K)%nat.

Lemma thappy_spec e n : forall A acc, (forall c, In c A -> length c = n) ->
  (exists K, thappy A e acc = Some (true, (2 * K + 1)%nat) /\ (acc <= K)%nat /\ (K = acc \/ (2 * K < n)%nat) /\ forall c, In c A -> chop_ok c e K) \/
  (exists m, thappy A e acc = Some (false, m)).
Proof.
  induction A as [|c A IH]; intros acc HA.
  - left. exists acc. split; [reflexivity|]. split; [lia|]. split; [left; reflexivity|]. intros c [].
  - cbn [thappy]. destruct (standardChop_total (map Cmod c) e) as [k [Ek Hk]]. rewrite Ek. rewrite map_length in Hk.
    destruct (Nat.ltb_spec k (length c)) as [Hlt|Hge]; [|right; eexists; reflexivity].
    destruct (IH (Nat.max acc (half_cut k)) ltac:(intros x Hx; apply HA; right; exact Hx)) as [[K [E [H1 [H2 H3]]]]|[m E]]; [left|right; exists m; exact E].
    exists K. split; [exact E|]. rewrite half_cut_eq in *. split; [lia|]. assert (Bk := half_le k). assert (Lc := HA c (or_introl eq_refl)). split; [lia|].
    intros x [<-|Hx]; [|exact (H3 x Hx)]. exists k. split; [exact Ek|]. split; [exact Hlt|lia].
Qed.

Definition happy_res (ops : list (R -> C)) (e : R) (A : carr) (K N : nat) : Prop :=
  length A = length ops /\ (2 * K + 1 < N)%nat /\
  forall j, (j < length ops)%nat -> truncation (K + 1) (nth j A []) (icf (nth j ops (fun _ => C0)) N) /\ chop_ok (icf (nth j ops (fun _ => C0)) N) e K.

Lemma chop_trunc c K : Nat.even (length c) = true -> (2 * K < length c)%nat -> exists r, prolong_col c (2 * K + 1) = Some r /\ truncation (K + 1) r c.
Proof.
  intros Hev HK. assert (H2 := even_half _ Hev).
  destruct (trig_chop_correct c (2 * K + 1) ltac:(lia)) as [d [E [L [Ha Hb]]]]. exists d. split; [exact E|].
  split; [rewrite L; lia|]. split; [lia|]. split; [lia|]. split; intros z Hz; [apply Ha|apply Hb]; lia.
Qed.

Definition tbody (f : nat) (ops : list (R -> C)) (V' : carr) (vs e : R) : option (bool * carr * carr * R) :=
  match thappy (vals2coeffs V') e 0 with
  | None => None
  | Some (true, N) =>
      match map_option (fun c => prolong_col c N) (vals2coeffs V') with
      | None => None
      | Some B => Some (true, coeffs2vals B, B, Rmax vs (maxmod (concat V')))
      end
  | Some (false, _) => tpopulate f ops V' (vals2coeffs V') (Rmax vs (maxmod (concat V'))) e
  end.
Lemma tpopulate_body f ops V A vs e : tpopulate (S f) ops V A vs e = match trefine ops V with None => Some (false, V, A, vs) | Some V' => tbody f ops V' vs e end.
Proof. reflexivity. Qed.

Definition pop_res (ops : list (R -> C)) (e vs : R) (o : option (bool * carr * carr * R)) : Prop :=
  exists h V' A' vs' N, o = Some (h, V', A', vs') /\ (vs <= vs')%R /\ (8 <= Z.of_nat N <= tmaxlen)%Z /\ (exists i, N = (8 * 2 ^ i)%nat) /\
    (if h then V' = coeffs2vals A' /\ exists K, happy_res ops e A' K N
     else Z.of_nat N = tmaxlen /\ V' = map (fun op => trig_resample op N) ops /\ A' = map (fun op => icf op N) ops).

Lemma pow2_pos i : (1 <= 2 ^ i)%nat.
Proof. assert (2 ^ i <> 0)%nat by (apply Nat.pow_nonzero; lia). lia. Qed.

Lemma body_spec ops e : ops <> [] -> forall f i vs, (10 <= f + i)%nat -> (i <= 9)%nat ->
  pop_res ops e vs (tbody f ops (map (fun op => trig_resample op (8 * 2 ^ i)) ops) vs e).
Proof.
  intros Hne. induction f as [|f IH]; intros i vs Hf Hi; [lia|].
  assert (Hp := pow2_pos i).
  assert (HZ : Z.of_nat (8 * 2 ^ i) = (8 * 2 ^ Z.of_nat i)%Z) by (rewrite Nat2Z.inj_mul, Nat2Z.inj_pow; reflexivity).
  set (V := map (fun op => trig_resample op (8 * 2 ^ i)) ops).
  assert (Hc : crows V = (8 * 2 ^ i)%nat). { unfold V. destruct ops as [|o ops]; [congruence|]. unfold crows. cbn [map hd]. apply resample_length. }
  set (N := (8 * 2 ^ i)%nat) in *.
  assert (HNle : (8 <= Z.of_nat N <= tmaxlen)%Z).
  { rewrite HZ. assert (2 ^ Z.of_nat i <= 2 ^ 9)%Z by (apply Z.pow_le_mono_r; lia). assert (2 ^ 0 <= 2 ^ Z.of_nat i)%Z by (apply Z.pow_le_mono_r; lia). change (2 ^ 9)%Z with 512%Z in H. unfold tmaxlen. lia. }
  assert (HNev : Nat.even N = true) by (apply Nat.even_spec; exists (4 * 2 ^ i)%nat; unfold N; lia).
  assert (HA1 : vals2coeffs V = map (fun op => icf op N) ops) by (unfold V, vals2coeffs; rewrite map_map; reflexivity).
  unfold tbody.
  destruct (thappy_spec e N (vals2coeffs V) 0) as [[K [E [_ [HK HC]]]]|[m E]].
  { intros c Hc0. rewrite HA1 in Hc0. apply in_map_iff in Hc0 as [op [<- _]]. apply icf_length. }
  - rewrite E. rewrite HA1 in *.
    destruct (map_option_spec (fun c => prolong_col c (2 * K + 1)) (map (fun op => icf op N) ops)) as [B [EB [LB HB]]].
    { intros c Hc0. apply in_map_iff in Hc0 as [op [<- _]]. destruct (chop_trunc (icf op N) K ltac:(rewrite icf_length; exact HNev) ltac:(rewrite icf_length; lia)) as [r [Er _]]. exists r. exact Er. }
    rewrite EB. eexists true, (coeffs2vals B), B, _, N. split; [reflexivity|]. split; [apply Rmax_l|]. split; [exact HNle|]. split; [exists i; reflexivity|].
    split; [reflexivity|]. exists K. rewrite map_length in LB. split; [exact LB|]. assert (H2 := even_half _ HNev). split; [lia|].
    intros j Hj. set (op := nth j ops (fun _ => C0)).
    assert (Hin : In (icf op N) (map (fun op => icf op N) ops)) by (apply (in_map (fun op => icf op N)); apply nth_In; exact Hj).
    split; [|apply HC; exact Hin].
    specialize (HB j (icf (fun _ => C0) N) [] ltac:(rewrite map_length; exact Hj)). rewrite (map_nth (fun op => icf op N) ops (fun _ => C0)) in HB. fold op in HB.
    destruct (chop_trunc (icf op N) K ltac:(rewrite icf_length; exact HNev) ltac:(rewrite icf_length; lia)) as [r [Er Hr]]. rewrite Er in HB. injection HB as <-. exact Hr.
  - rewrite E. rewrite tpopulate_body. unfold trefine. rewrite Hc. destruct (Nat.eqb_spec N 0) as [E0|_]; [lia|].
    destruct (Z.ltb_spec tmaxlen (2 * Z.of_nat N)) as [Hg|Hg].
    + eexists false, V, (vals2coeffs V), _, N. split; [reflexivity|]. split; [apply Rmax_l|]. split; [exact HNle|]. split; [exists i; reflexivity|].
      split; [|split; [reflexivity|exact HA1]].
      assert (i = 9)%nat. { destruct (Nat.eq_dec i 9) as [|n]; [assumption|]. exfalso. assert (2 ^ Z.of_nat i <= 2 ^ 8)%Z by (apply Z.pow_le_mono_r; lia). change (2 ^ 8)%Z with 256%Z in H. unfold tmaxlen in Hg. lia. }
      subst i. rewrite HZ. reflexivity.
    + assert (Hi8 : (i < 9)%nat).
      { destruct (Nat.eq_dec i 9) as [->|]; [|lia]. exfalso. rewrite HZ in Hg. change (2 * (8 * 2 ^ Z.of_nat 9))%Z with 8192%Z in Hg. unfold tmaxlen in Hg. lia. }
      replace (map (fun p => trig_nested (fst p) (snd p)) (combine ops V)) with (map (fun op => trig_resample op (8 * 2 ^ (S i))) ops).
      2:{ unfold V. rewrite (combine_map_self (fun op => trig_resample op N) (fun op v => trig_nested op v)). apply map_ext. intros op. rewrite nested_resample by lia. f_equal. unfold N. rewrite Nat.pow_succ_r by lia. lia. }
      destruct (IH (S i) (Rmax vs (maxmod (concat V))) ltac:(lia) ltac:(lia)) as [h [V' [A' [vs' [N' [E' [Hvs HN']]]]]]].
      exists h, V', A', vs', N'. split; [exact E'|]. split; [|exact HN']. eapply Rle_trans; [apply Rmax_l|exact Hvs].
Qed.
Lemma populate_spec ops e vs : ops <> [] -> pop_res ops e vs (tpopulate 11 ops [] [] vs e).
Proof.
  intros Hne. rewrite tpopulate_body. unfold trefine. change (crows []) with 0%nat. cbn [Nat.eqb].
  exact (body_spec ops e Hne 10 0 vs ltac:(lia) ltac:(lia)).
Qed.

(** ** one cutoff for several columns *)
Lemma slice_spec c tol k0 k d : (1 <= length c)%nat -> prolong_fun_col c (simp_len (length c)) = Some d ->
  standardChop (fold_abs d) tol = Some k0 -> (k0 <= k)%nat -> (1 <= k)%nat ->
  truncation (simp_cutoff (Nat.min k (length c))) (tslice d (simp_cutoff (Nat.min k (length c)))) c /\
  ((0 < tol < 1)%R -> forall z, (Z.of_nat (simp_cutoff (Nat.min k (length c))) <= Z.abs z)%Z -> (Cmod (coef c z) + Cmod (coef c (- z)) <= Rpower tol (2 / 5))%R).
Proof.
  intros Hn Ed Ek Hk0 Hk1. set (nold := length c) in *. assert (HN := simp_len_ge nold). set (N := simp_len nold) in *.
  unfold prolong_fun_col in Ed. destruct (Nat.eqb_spec N (length c)) as [E|_]; [fold nold in E; lia|].
  destruct (prolong_up_coef c N ltac:(fold nold; lia)) as [d' [Ed' [Ld Hd]]]. rewrite Ed in Ed'. injection Ed' as <-.
  assert (Hk := standardChop_total (fold_abs d) tol). destruct Hk as [k0' [E' Hk]]. rewrite Ek in E'. injection E' as <-.
  rewrite simp_cutoff_eq. unfold tslice. rewrite Ld.
  set (k' := Nat.min k nold). set (K := (k' / 2 + 1)%nat). set (m := (N / 2)%nat).
  assert (Bm := half_le N). assert (Bk := half_le k'). assert (Bo := half_le nold). fold m in Bm.
  assert (Bm' : (N < 2 * m + 2)%nat) by (assert (A := Nat.div_mod N 2 ltac:(lia)); assert (B := Nat.mod_upper_bound N 2 ltac:(lia)); fold m in A; lia).
  assert (Kle : (K - 1 <= nold / 2)%nat) by (unfold K; replace (k' / 2 + 1 - 1)%nat with (k' / 2)%nat by lia; apply Nat.div_le_mono; lia).
  cbv zeta. set (e := if Nat.even N then _ else d).
  assert (He : length e = (2 * m + 1)%nat /\ forall i, (1 <= i)%nat -> (i < 2 * m)%nat -> nth i e C0 = nth i d C0).
  { unfold e. destruct (Nat.even N) eqn:Ev.
    - assert (H2 := even_half _ Ev). fold m in H2. split.
      + cbn [length]. rewrite app_length. destruct d as [|a t]; cbn [tl length] in *; lia.
      + intros i Hi1 Hi2. destruct i as [|i]; [lia|]. cbn [nth]. destruct d as [|a t]; [cbn [length] in Ld; lia|]. cbn [tl length] in *. rewrite app_nth1 by lia. reflexivity.
    - assert (O : Nat.odd N = true) by (rewrite <- Nat.negb_even, Ev; reflexivity). assert (H2 := odd_half _ O). fold m in H2. split; [lia|reflexivity]. }
  destruct He as [Le He].
  assert (Emid : ((length e + 1) / 2 = m + 1)%nat) by (rewrite Le; replace (2 * m + 1 + 1)%nat with ((m + 1) * 2)%nat by lia; apply Nat.div_mul; lia).
  rewrite Emid. set (r := firstn (2 * K - 1) (skipn (m + 1 - K) e)).
  assert (HK1 : (1 <= K)%nat) by (unfold K; lia).
  assert (Lr : length r = (2 * K - 1)%nat) by (unfold r; rewrite firstn_length, skipn_length; lia).
  assert (Or : Nat.odd (length r) = true) by (rewrite Lr; apply Nat.odd_spec; exists (K - 1)%nat; lia).
  assert (Hr2 : (length r / 2 = K - 1)%nat) by (assert (A := odd_half _ Or); rewrite Lr in A |- *; lia).
  assert (Hcoef : forall z, (Z.abs z < Z.of_nat m)%Z -> coef c z = nth (Z.to_nat (z + Z.of_nat m)) d C0).
  { intros z Hz. rewrite <- Hd. rewrite coef_even by (rewrite Ld; fold m; lia). rewrite Ld. reflexivity. }
  split.
  - split; [exact Lr|]. split; [exact HK1|]. split; [exact Kle|]. split.
    + intros z Hz. rewrite coef_odd by (try exact Or; lia). rewrite Hr2. rewrite Hcoef by lia.
      unfold r. rewrite nth_firstn' by lia. rewrite nth_skipn'. rewrite He by lia. f_equal. lia.
    + intros z Hz. apply coef_big. lia.
  - intros Ht z Hz.
    destruct (Z.lt_ge_cases (Z.of_nat (nold / 2)) (Z.abs z)) as [Hb|Hb].
    { rewrite !coef_big by (rewrite ?Z.abs_opp; fold nold; lia). unfold C0. rewrite !Cmod_0. left. rewrite Rplus_0_l. apply exp_pos. }
    set (p := Z.to_nat (Z.abs z)). assert (Hp : (1 <= p < m)%nat) by lia.
    assert (Hkk : (k0 < 2 * p)%nat).
    { assert (A := Nat.div_mod k' 2 ltac:(lia)). assert (B := Nat.mod_upper_bound k' 2 ltac:(lia)). unfold K in Hz.
      destruct (Nat.le_gt_cases nold k); [|lia]. assert (k' = nold) by lia. rewrite H0 in Hz. lia. }
    assert (Hfa : nth (2 * p) (fold_abs d) 0%R = (Cmod (coef c z) + Cmod (coef c (- z)))%R).
    { rewrite fold_abs_nth by (rewrite Ld; fold m; lia). rewrite Ld. fold m. rewrite !Hcoef by lia.
      destruct (Z.abs_spec z) as [[Hs Es]|[Hs Es]].
      - replace (m - p)%nat with (Z.to_nat (- z + Z.of_nat m)) by lia. replace (m + p)%nat with (Z.to_nat (z + Z.of_nat m)) by lia. apply Rplus_comm.
      - replace (m - p)%nat with (Z.to_nat (z + Z.of_nat m)) by lia. replace (m + p)%nat with (Z.to_nat (- z + Z.of_nat m)) by lia. reflexivity. }
    rewrite <- Hfa. destruct (Nat.lt_ge_cases k0 (length (fold_abs d))) as [Hkl|Hkl].
    + eapply Rle_trans; [apply Rle_abs|]. apply (standardChop_tail _ _ k0 Ht Ek Hkl). exact Hkk.
    + rewrite nth_overflow by lia. left. apply exp_pos.
Qed.

Lemma chops_max_spec tol : forall D acc, exists k, chops_max D tol acc = Some k /\ (acc <= k)%nat /\
  forall d, In d D -> exists k0, standardChop (fold_abs d) tol = Some k0 /\ (k0 <= k)%nat.
Proof.
  induction D as [|d D IH]; intros acc.
  - exists acc. split; [reflexivity|]. split; [lia|]. intros d [].
  - cbn [chops_max]. destruct (standardChop_total (fold_abs d) tol) as [k0 [E0 _]]. rewrite E0. destruct (IH (Nat.max acc k0)) as [k [Ek [Hk H]]].
    exists k. split; [exact Ek|]. split; [lia|]. intros x [<-|Hx]; [exists k0; split; [exact E0|lia]|exact (H x Hx)].
Qed.

Definition drops (K : nat) (c : list C) (tol : R) : Prop :=
  forall z, (Z.of_nat K <= Z.abs z)%Z -> (Cmod (coef c z) + Cmod (coef c (- z)) <= Rpower tol (2 / 5))%R.

Lemma simplify_cols_spec A tol n : A <> [] -> (1 <= n)%nat -> (forall c, In c A -> length c = n) ->
  exists B K, tsimplify_cols A tol = Some B /\ length B = length A /\
    forall j, (j < length A)%nat -> truncation K (nth j B []) (nth j A []) /\ ((0 < tol < 1)%R -> drops K (nth j A []) tol).
Proof.
  intros Hne Hn HA. assert (Hc : crows A = n). { destruct A as [|a A]; [congruence|]. unfold crows. cbn [hd]. apply HA. left. reflexivity. }
  unfold tsimplify_cols. rewrite Hc.
  destruct (map_option_spec (fun c => prolong_fun_col c (simp_len n)) A) as [D [ED [LD HD]]].
  { intros c Hin. assert (Lc := HA c Hin). assert (HN := simp_len_ge n). destruct (trig_prolong_fun_correct c (simp_len n) ltac:(lia)) as [d [E _]]. exists d. exact E. }
  rewrite ED. destruct (chops_max_spec tol D 1) as [k [Ek [Hk H]]]. rewrite Ek.
  set (cut := simp_cutoff (Nat.min k n)). exists (map (fun d => tslice d cut) D), cut. split; [reflexivity|]. rewrite map_length. split; [exact LD|].
  intros j Hj. assert (Lc := HA (nth j A []) (nth_In _ _ Hj)). specialize (HD j [] [] Hj).
  assert (Hin : In (nth j D []) D) by (apply nth_In; lia).
  destruct (H (nth j D []) Hin) as [k0 [Ek0 Hk0]].
  rewrite (nth_indep _ [] (tslice [] cut)) by (rewrite map_length; lia). rewrite (map_nth (fun d => tslice d cut)).
  rewrite <- Lc in HD. assert (Q := slice_spec (nth j A []) tol k0 k (nth j D []) ltac:(lia) HD Ek0 Hk0 Hk). rewrite Lc in Q. exact Q.
Qed.

(** ** the construction *)
Lemma zip3_nth {A B D E} (f : A -> B -> D -> E) : forall a b d j da db dd de, (j < length a)%nat -> length b = length a -> length d = length a ->
  nth j (zip3 f a b d) de = f (nth j a da) (nth j b db) (nth j d dd) .
Proof.
  induction a as [|x a IH]; intros [|y b] [|z d] [|j] da db dd de Hj Hb Hd; cbn in *; try lia; [reflexivity|]. apply IH; lia.
Qed.
Lemma zip3_length {A B D E} (f : A -> B -> D -> E) : forall a b d, length b = length a -> length d = length a -> length (zip3 f a b d) = length a.
Proof. induction a as [|x a IH]; intros [|y b] [|z d] Hb Hd; cbn in *; try lia. rewrite IH; lia. Qed.

Lemma truncation_trans K1 K2 r2 r1 c : truncation K1 r1 c -> truncation K2 r2 r1 -> truncation K2 r2 c.
Proof.
  intros [L1 [P1 [Q1 [A1 B1]]]] [L2 [P2 [Q2 [A2 B2]]]]. assert (Hh : (length r1 / 2 = K1 - 1)%nat).
  { rewrite L1. replace (2 * K1 - 1)%nat with (1 + (K1 - 1) * 2)%nat by lia. rewrite Nat.div_add by lia. reflexivity. }
  split; [exact L2|]. split; [exact P2|]. split; [lia|]. split; [|exact B2]. intros z Hz. rewrite A2 by exact Hz. apply A1. lia.
Qed.

Definition symm (c : list C) : Prop := forall z, coef c (- z) = Cconj (coef c z).
Lemma conjc_length c : length (conjc c) = length c.
Proof. unfold conjc. apply mk_length. Qed.

Lemma Cmod_conj' a : Cmod (Cconj a) = Cmod a.
Proof. unfold Cmod, Cconj. cbn [fst snd]. f_equal. ring. Qed.
Lemma real_conj a : Im a = 0%R -> Cconj a = a.
Proof. destruct a as [u v]. unfold Im, Cconj. cbn. intros ->. f_equal. ring. Qed.
Lemma conj_real a : Cconj a = a -> Im a = 0%R.
Proof. destruct a as [u v]. unfold Im, Cconj. cbn. intros H. injection H as H. lra. Qed.
Lemma herm_symm c : (1 <= length c)%nat -> (forall j, (j < length c)%nat -> Im (evalF c (gridpt (length c) j)) = 0%R) -> symm c.
Proof.
  intros Hn H z. assert (E : conjc c = c).
  { apply grid_unique; [apply conjc_length|]. rewrite conjc_length. intros j Hj. rewrite evalF_conjc by exact Hn. apply real_conj, H, Hj. }
  assert (Q := Cconj_coef_conjc c (- z) Hn). rewrite E, Z.opp_involutive in Q. exact Q.
Qed.
Lemma symm_herm c : (1 <= length c)%nat -> symm c -> hermitian c.
Proof.
  intros Hn H x. apply conj_real. rewrite <- evalF_conjc by exact Hn. apply coef_evalF; [rewrite conjc_length; exact Hn|exact Hn|].
  intros z. rewrite Cconj_coef_conjc by exact Hn. rewrite H, Cconj_conj. reflexivity.
Qed.
Lemma symm_trunc K r c : truncation K r c -> symm c -> symm r.
Proof.
  intros [_ [_ [_ [A B]]]] H z. destruct (Z.lt_ge_cases (Z.abs z) (Z.of_nat K)) as [Hz|Hz].
  - rewrite !A by lia. apply H.
  - rewrite !B by lia. symmetry. apply Cconj_R.
Qed.

Definition small_tail (K : nat) (c : list C) (e : R) : Prop :=
  forall z, (Z.of_nat K <= z < Z.of_nat (length c / 2))%Z -> (Cmod (coef c z) <= Rpower e (2 / 5))%R.

Lemma chop_small c e K : Nat.even (length c) = true -> (0 < e < 1)%R -> chop_ok c e K -> small_tail (K + 1) c e.
Proof.
  intros Hev He [k [Ek [Hk HK]]] z Hz. assert (H2 := even_half _ Hev). rewrite coef_even by lia.
  assert (T := standardChop_tail (map Cmod c) e k He Ek ltac:(rewrite map_length; exact Hk)).
  set (i := Z.to_nat (z + Z.of_nat (length c / 2))).
  assert (Hik : (k < i)%nat). { assert (A := Nat.div_mod k 2 ltac:(lia)). assert (B := Nat.mod_upper_bound k 2 ltac:(lia)). lia. }
  specialize (T i Hik). rewrite <- Cmod_0 in T. change (RtoC 0) with C0 in T. rewrite (map_nth Cmod c C0) in T. eapply Rle_trans; [apply Rle_abs|exact T].
Qed.

Definition dtrig : trig := {| tco := []; tva := []; tre := false |}.

Lemma tconstruct_spec ops e : ops <> [] ->
  exists h fs N K, tconstruct ops e = Some (h, fs) /\ length fs = length ops /\ (8 <= Z.of_nat N <= tmaxlen)%Z /\ (exists i, N = (8 * 2 ^ i)%nat) /\
    forall j, (j < length ops)%nat ->
      let c := icf (nth j ops (fun _ => C0)) N in
      let f := nth j fs dtrig in
      if h then truncation K (tco f) c /\ chop_ok c e (length c / 2) /\ tva f = coeffs2vals1 (tco f) /\
        ((0 < e < 1)%R -> small_tail K c e /\ (symm c -> forall z, (Z.of_nat K <= Z.abs z < Z.of_nat (N / 2))%Z -> (Cmod (coef c z) <= Rpower e (2 / 5))%R))
      else Z.of_nat N = tmaxlen /\ tco f = c.
Proof.
  intros Hne. unfold tconstruct. destruct (populate_spec ops e e Hne) as [h [V [A [vs [N [E [Hvs [HN [HNi Hh]]]]]]]]]. rewrite E.
  assert (HNev : Nat.even N = true) by (destruct HNi as [i ->]; apply Nat.even_spec; exists (4 * 2 ^ i)%nat; lia).
  set (V1 := map (fun p => realvals (isreal0 (fst p)) (snd p)) (combine ops V)).
  set (re := map (fun p => isreal_vs e vs (fst p) (snd p)) (combine V1 A)).
  destruct h.
  - destruct Hh as [HV [K [LA [HK HA]]]].
    assert (HL : forall c, In c A -> length c = (2 * K + 1)%nat).
    { intros c Hin. destruct (In_nth A c [] Hin) as [j [Hj <-]]. destruct (HA j ltac:(lia)) as [[L _] _]. lia. }
    assert (HAne : A <> []) by (destruct ops; [congruence|]; destruct A; [cbn in LA; lia|discriminate]).
    destruct (simplify_cols_spec A e (2 * K + 1) HAne ltac:(lia) HL) as [B [K2 [EB [LB HB]]]]. rewrite EB.
    assert (LV : length (coeffs2vals B) = length B) by (unfold coeffs2vals; apply map_length).
    assert (LVA : length V = length ops) by (rewrite HV; unfold coeffs2vals; rewrite map_length; exact LA).
    assert (Lre : length re = length B) by (unfold re, V1; rewrite map_length, combine_length, map_length, combine_length; lia).
    eexists true, _, N, K2. split; [reflexivity|]. split; [rewrite zip3_length; [lia|exact LV|exact Lre]|]. split; [exact HN|]. split; [exact HNi|].
    intros j Hj. cbv zeta. rewrite (zip3_nth _ _ _ _ j [] (coeffs2vals1 []) false) by lia. cbn [tco tva].
    destruct (HA j Hj) as [T1 C1]. destruct (HB j ltac:(lia)) as [T2 D2]. set (c := icf (nth j ops (fun _ => C0)) N) in *.
    assert (Lc : length c = N) by apply icf_length.
    assert (T := truncation_trans _ _ _ _ _ T1 T2). split; [exact T|].
    destruct T1 as [L1 [_ [Q1 [A1 _]]]]. split; [destruct C1 as [k [a [b b']]]; exists k; split; [exact a|split; [exact b|lia]]|].
    split; [unfold coeffs2vals; apply map_nth|].
    intros He. assert (S1 := chop_small c e K ltac:(rewrite Lc; exact HNev) He C1). specialize (D2 He).
    destruct T2 as [_ [P2 _]].
    assert (Hdr : forall z, (Z.of_nat K2 <= Z.abs z)%Z -> (Z.abs z <= Z.of_nat K)%Z -> (Cmod (coef c z) <= Rpower e (2 / 5))%R).
    { intros z Hz1 Hz2. rewrite <- A1 by lia. specialize (D2 z Hz1). assert (G := Cmod_ge_0 (coef (nth j A []) (- z))). lra. }
    assert (S2 : small_tail K2 c e).
    { intros z Hz. destruct (Z.le_gt_cases z (Z.of_nat K)) as [Hle|Hgt]; [apply Hdr; lia|apply S1; lia]. }
    split; [exact S2|]. intros Hs z Hz. destruct (Z.abs_spec z) as [[Hp Ez]|[Hp Ez]]; [apply S2; rewrite Lc; lia|].
    assert (Hc := Hs (- z)%Z). rewrite Z.opp_involutive in Hc. rewrite Hc. rewrite Cmod_conj'. apply S2. rewrite Lc. lia.
  - destruct Hh as [HZ [HV HA]].
    assert (LVA : length V = length ops) by (rewrite HV; apply map_length). assert (LA : length A = length ops) by (rewrite HA; apply map_length).
    assert (LV1 : length V1 = length A) by (unfold V1; rewrite map_length, combine_length; lia).
    assert (Lre : length re = length A) by (unfold re; rewrite map_length, combine_length; lia).
    eexists false, _, N, 1%nat. split; [reflexivity|]. split; [rewrite zip3_length; lia|]. split; [exact HN|]. split; [exact HNi|].
    intros j Hj. cbv zeta. rewrite (zip3_nth _ _ _ _ j (icf (fun _ => C0) N) [] false) by lia. cbn [tco]. split; [exact HZ|]. rewrite HA. apply (map_nth (fun op => icf op N)).
Qed.

(** ** real functions *)
Definition tpoly (d : nat) (f : R -> C) : Prop := exists c, length c = (2 * d + 1)%nat /\ forall x, f x = evalF c x.

Lemma resample_nth op N j : (j < N)%nat -> nth j (trig_resample op N) C0 = if Nat.eqb j 0 then RtoC (/ 2) * (op (-1)%R + op 1%R) else op (gridpt N j).
Proof.
  intros Hj. unfold trig_resample. rewrite nth_mk by exact Hj. destruct (Nat.eqb_spec j 0); [|reflexivity]. do 3 f_equal. unfold gridpt. cbn [INR]. unfold Rdiv. rewrite Rmult_0_r, Rmult_0_l. ring.
Qed.
Lemma icf_grid op N j : (j < N)%nat -> evalF (icf op N) (gridpt N j) = if Nat.eqb j 0 then RtoC (/ 2) * (op (-1)%R + op 1%R) else op (gridpt N j).
Proof.
  intros Hj. assert (Q := trig_interpolates (trig_resample op N) j). rewrite resample_length in Q. rewrite Q by exact Hj. apply resample_nth, Hj.
Qed.
Lemma icf_symm op N : (1 <= N)%nat -> (forall x, (-1 <= x <= 1)%R -> Im (op x) = 0%R) -> symm (icf op N).
Proof.
  intros HN H. apply herm_symm; [rewrite icf_length; exact HN|]. rewrite icf_length. intros j Hj. rewrite icf_grid by exact Hj.
  destruct (Nat.eqb_spec j 0).
  - assert (H1 := H (-1)%R ltac:(lra)). assert (H2 := H 1%R ltac:(lra)). destruct (op (-1)%R), (op 1%R). unfold Im in *. cbn in *. rewrite H1, H2. ring.
  - apply H. unfold gridpt. assert (0 < INR N)%R by (apply lt_0_INR; lia). assert (INR j <= INR N)%R by (apply le_INR; lia). assert (P := pos_INR j).
    assert (0 <= INR j / INR N <= 1)%R. { split; [apply Rmult_le_pos; [exact P|left; apply Rinv_0_lt_compat; exact H0]|]. apply Rmult_le_reg_r with (INR N); [exact H0|]. unfold Rdiv. rewrite Rmult_assoc, Rinv_l by lra. lra. }
    unfold Rdiv in *. lra.
Qed.
Lemma evalF_period c : (1 <= length c)%nat -> evalF c 1 = evalF c (-1).
Proof.
  intros Hn. unfold evalF. apply csum_ext. intros k Hk. f_equal. unfold mode. destruct (andb _ _).
  - f_equal. replace (PI * INR (length c / 2) * (-1))%R with (- (PI * INR (length c / 2) * 1))%R by ring. symmetry. apply cos_neg.
  - apply cis_cong with (freq (length c) k). ring.
Qed.
(** a trigonometric polynomial of degree below N/2 is its own interpolant *)
Lemma icf_tpoly f d N : tpoly d f -> (2 * d + 1 < N)%nat -> (forall x, evalF (icf f N) x = f x) /\ forall z, (Z.of_nat d < Z.abs z)%Z -> coef (icf f N) z = RtoC 0.
Proof.
  intros [c [Lc Hc]] HN. destruct (prolong_up_coef c N ltac:(lia)) as [p [Ep [Lp Hp]]].
  assert (Eq : icf f N = p).
  { apply interp_unique; [rewrite resample_length; symmetry; exact Lp|]. rewrite Lp. intros j Hj. rewrite resample_nth by exact Hj.
    rewrite (coef_evalF p c) by (try lia; exact Hp). destruct (Nat.eqb_spec j 0) as [->|]; [|apply Hc].
    rewrite !Hc. rewrite evalF_period by lia. unfold gridpt. cbn [INR]. unfold Rdiv. rewrite Rmult_0_r, Rmult_0_l, Rplus_0_r.
    apply injective_projections; cbn; field. }
  rewrite Eq. split.
  - intros x. rewrite (coef_evalF p c) by (try lia; exact Hp). symmetry. apply Hc.
  - intros z Hz. rewrite Hp. apply coef_big. rewrite Lc. replace (2 * d + 1)%nat with (1 + d * 2)%nat by lia. rewrite Nat.div_add by lia. cbn. lia.
Qed.

Lemma trunc_close K r c B x : Nat.even (length c) = true -> (1 <= length c)%nat -> truncation K r c -> nth 0 c C0 = C0 -> (0 <= B)%R ->
  (forall z, (Z.of_nat K <= Z.abs z < Z.of_nat (length c / 2))%Z -> (Cmod (coef c z) <= B)%R) -> (Cmod (evalF r x - evalF c x)%C <= INR (length c) * B)%R.
Proof.
  intros Hev Hn T H0 HB H. assert (H2 := even_half _ Hev). set (m := (length c / 2)%nat) in *.
  eapply Rle_trans; [apply (truncation_error K r c x Hn T)|]. fold m.
  replace (2 * m + 1)%nat with (S (length c)) by lia. cbn [rsum].
  apply Rle_trans with (rsum (length c) (fun _ => B) + 0)%R.
  - apply Rplus_le_compat.
    + apply rsum_le. intros k Hk. destruct (Z.leb_spec (Z.of_nat K) (Z.abs (Z.of_nat k - Z.of_nat m))) as [Hz|Hz]; [|exact HB].
      destruct (Nat.eq_dec k 0) as [->|Hk0]; [|apply H; lia].
      rewrite coef_top by (try exact Hev; fold m; lia). rewrite H0. unfold C0. rewrite Cmult_0_r, Cmod_0. exact HB.
    + destruct (Z.leb_spec (Z.of_nat K) (Z.abs (Z.of_nat (length c) - Z.of_nat m))); [|lra].
      rewrite coef_top by (try exact Hev; fold m; lia). rewrite H0. unfold C0. rewrite Cmult_0_r, Cmod_0. lra.
  - rewrite rsum_const. lra.
Qed.
Lemma tcall_herm f x : (1 <= length (tco f))%nat -> hermitian (tco f) -> fst (tcall f x) = evalF (tco f) x.
Proof.
  intros Hn Hh. unfold tcall. destruct (tre f); cbn [fst]; [apply horner_real_correct; assumption|apply horner_cmplx_correct; exact Hn].
Qed.
