(** Proofs: differentiation, integration, antiderivative of one column. *)
From Coq Require Import Reals ZArith List Lia Lra Arith Bool.
From Coquelicot Require Import Coquelicot.
From Verif Require Import Base ChebSpec ChebMath ChebModel ChebEval CosSums ChebDct.
Import ListNotations.
Open Scope R_scope.

(** sum (s_i - s_{i+2}) U_i telescopes into a T-series *)
Lemma tele_UT (s : nat -> R) x n :
  rsum (S (S n)) (fun i => (s i - s (S (S i))) * U i x)
  = s 0%nat + 2 * rsum (S n) (fun i => s (S i) * T (S i) x)
    - s (S (S n)) * U n x - s (S (S (S n))) * U (S n) x.
Proof.
  induction n as [|n IH].
  - simpl. ring.
  - set (N := S (S n)) in *.
    change (rsum (S N) (fun i => (s i - s (S (S i))) * U i x))
      with (rsum N (fun i => (s i - s (S (S i))) * U i x) + (s N - s (S (S N))) * U N x).
    rewrite IH.
    change (rsum N (fun i => s (S i) * T (S i) x))
      with (rsum (S n) (fun i => s (S i) * T (S i) x) + s N * T N x).
    assert (H := T_U n x). fold N in H.
    replace (s N * U n x) with (s N * (U N x - 2 * T N x)) by (rewrite H; ring).
    unfold N. ring.
Qed.

Lemma tele_UT_fin (s : nat -> R) x N M :
  (forall i, (N <= i)%nat -> s i = 0) -> (N <= M)%nat -> (1 <= N)%nat ->
  rsum M (fun i => (s i - s (S (S i))) * U i x) = 2 * rsum N (fun i => s i * T i x) - s 0%nat.
Proof.
  intros Hs HM HN.
  rewrite (rsum_extend N M); [|lia|intros k Hk; rewrite !Hs by lia; ring].
  rewrite <- (rsum_extend N (S (S N))); [|lia|intros k Hk; rewrite !Hs by lia; ring].
  rewrite tele_UT. rewrite (Hs (S (S N))), (Hs (S (S (S N)))) by lia.
  rewrite <- (rsum_extend N (S (S N)) (fun i => s i * T i x)); [|lia|intros k Hk; rewrite !Hs by lia; ring].
  rewrite (rsum_S_l (S N) (fun i => s i * T i x)). simpl (T 0 x). ring.
Qed.

Lemma sum_stride2_cons2 a b u : sum_stride2 (a :: b :: u) = a + sum_stride2 u.
Proof. reflexivity. Qed.

Lemma sum_stride2_skipn v i :
  sum_stride2 (skipn i v) = nth i v 0 + sum_stride2 (skipn (S (S i)) v).
Proof.
  destruct (lt_dec i (length v)) as [H|H].
  - rewrite skipn_cons_nth by exact H.
    destruct (lt_dec (S i) (length v)) as [H'|H'].
    + rewrite (skipn_cons_nth v (S i)) by exact H'. apply sum_stride2_cons2.
    + rewrite !skipn_all2 by lia. reflexivity.
  - rewrite !skipn_all2 by lia. rewrite nth_overflow by lia. simpl. lra.
Qed.

Lemma computeDerCoeffs1_length c : length (computeDerCoeffs1 c) = (length c - 1)%nat.
Proof. unfold computeDerCoeffs1. rewrite upd_length, mk_length. reflexivity. Qed.

Lemma evalT_upd0 c v x : (1 <= length c)%nat -> evalT (upd c 0 v) x = evalT c x + (v - nth 0 c 0).
Proof.
  intros Hc. unfold evalT. rewrite upd_length.
  destruct (length c) as [|n] eqn:E; [lia|].
  rewrite !rsum_S_l. rewrite upd_same by lia.
  rewrite (rsum_ext n (fun k => nth (S k) (upd c 0 v) 0 * T (S k) x) (fun k => nth (S k) c 0 * T (S k) x)).
  - simpl (T 0 x). ring.
  - intros k _. rewrite upd_other by lia. reflexivity.
Qed.

Lemma computeDerCoeffs1_correct c x : (2 <= length c)%nat ->
  is_derive (evalT c) x (evalT (computeDerCoeffs1 c) x).
Proof.
  intros Hc. evar_last; [apply is_derive_evalT|].
  unfold computeDerCoeffs1. set (n := length c).
  set (v := mk (n - 1) (fun i => 2 * INR (S i) * nth (S i) c 0)).
  set (s := fun i => sum_stride2 (skipn i v)).
  assert (Lv : length v = (n - 1)%nat) by apply mk_length.
  assert (Hs : forall i, (n - 1 <= i)%nat -> s i = 0).
  { intros i Hi. unfold s. rewrite skipn_all2 by lia. reflexivity. }
  rewrite evalT_upd0 by (rewrite mk_length; unfold n in *; lia).
  rewrite evalT_mk, nth_mk by (unfold n in *; lia).
  change (fun k => sum_stride2 (skipn k v) * T k x) with (fun k => s k * T k x).
  change (sum_stride2 (skipn 0 v)) with (s 0%nat).
  assert (E := tele_UT_fin s x (n - 1) (n - 1) Hs ltac:(lia) ltac:(unfold n; lia)).
  replace n with (S (n - 1)) at 1 by (unfold n; lia).
  rewrite rsum_S_l.
  rewrite (rsum_ext (n - 1) _ (fun k => / 2 * ((s k - s (S (S k))) * U k x))).
  2:{ intros k Hk. unfold s. rewrite (sum_stride2_skipn v k). unfold v. rewrite nth_mk by lia. field. }
  rewrite rsum_scal, E. lra.
Qed.

Lemma is_derive_evalT_const c x : (length c <= 1)%nat -> is_derive (evalT c) x 0.
Proof.
  intros H. evar_last; [apply is_derive_evalT|].
  destruct c as [|a [|b c]]; simpl in *; try lia; ring.
Qed.

(** n-fold derivative of a column *)
Fixpoint der_n (n : nat) (c : list R) : list R :=
  match n with O => c | S k => der_n k (computeDerCoeffs1 c) end.

Lemma der_n_length n c : length (der_n n c) = (length c - n)%nat.
Proof.
  revert c. induction n as [|n IH]; intros c; cbn [der_n]; [lia|].
  rewrite IH, computeDerCoeffs1_length. lia.
Qed.

Lemma Derive_n_evalT n c x : (n < length c)%nat -> Derive_n (evalT c) n x = evalT (der_n n c) x.
Proof.
  revert c x. induction n as [|n IH]; intros c x H; [reflexivity|].
  replace (S n) with (n + 1)%nat by lia.
  rewrite <- Derive_n_comp. cbn [der_n]. replace (n + 1)%nat with (S n) by lia. cbn [der_n].
  rewrite (Derive_n_ext _ (evalT (computeDerCoeffs1 c))).
  - apply IH. rewrite computeDerCoeffs1_length. lia.
  - intros t. cbn [Derive_n]. apply is_derive_unique.
    apply computeDerCoeffs1_correct. lia.
Qed.

Lemma is_derive_n_evalT n c x : (n < length c)%nat -> is_derive_n (evalT c) n x (evalT (der_n n c) x).
Proof.
  destruct n as [|n]; intros H; [reflexivity|]. cbn [is_derive_n].
  apply is_derive_ext with (evalT (der_n n c)).
  { intros t. symmetry. apply Derive_n_evalT. lia. }
  replace (der_n (S n) c) with (computeDerCoeffs1 (der_n n c)).
  - apply computeDerCoeffs1_correct. rewrite der_n_length. lia.
  - clear H. revert c. induction n as [|n IH]; intros c; [reflexivity|].
    cbn [der_n]. rewrite IH. reflexivity.
Qed.

Lemma is_derive_n_evalT_zero n c x : (length c <= n)%nat -> (1 <= length c)%nat ->
  is_derive_n (evalT c) n x 0.
Proof.
  intros H H1. replace n with (S (n - 1)) by lia.
  assert (K : forall k, Derive_n (evalT c) (length c + k) x = 0 /\
              forall y, is_derive (Derive_n (evalT c) (length c - 1 + k)) y 0).
  { clear n H. assert (B : forall k y, is_derive (Derive_n (evalT c) (length c - 1 + k)) y 0).
    { induction k as [|k IH]; intros y.
      - rewrite Nat.add_0_r. apply is_derive_ext with (evalT (der_n (length c - 1) c)).
        { intros t. symmetry. apply Derive_n_evalT. lia. }
        apply is_derive_evalT_const. rewrite der_n_length. lia.
      - replace (length c - 1 + S k)%nat with (S (length c - 1 + k)) by lia. cbn [Derive_n].
        apply is_derive_ext with (fun _ => 0).
        { intros t. symmetry. apply is_derive_unique, IH. }
        apply @is_derive_const. }
    intros k. split; [|apply B].
    replace (length c + k)%nat with (S (length c - 1 + k)) by lia. cbn [Derive_n].
    apply is_derive_unique, B. }
  cbn [is_derive_n]. destruct (K (n - length c)%nat) as [_ K'].
  replace (n - 1)%nat with (length c - 1 + (n - length c))%nat by lia. apply K'.
Qed.

(** ** Moments *)
Definition moment (k : nat) : R := if Nat.even k then 2 / (1 - INR k ^ 2) else 0.

Lemma even_ne1 k : Nat.even k = true -> 1 - INR k ^ 2 <> 0.
Proof.
  intros H E. destruct k as [|[|k]]; [simpl in E; lra|discriminate|].
  assert (0 <= INR k) by apply pos_INR. rewrite !S_INR in E. nra.
Qed.

Lemma is_RInt_T k : is_RInt (T k) (-1) 1 (moment k).
Proof.
  destruct k as [|[|k]].
  - evar_last.
    { apply (is_RInt_derive (T 1)); intros x _.
      - evar_last; [apply is_derive_T|]. simpl. ring.
      - apply @ex_derive_continuous, ex_derive_T. }
    unfold minus, plus, opp. simpl. unfold moment. simpl. field.
  - evar_last.
    { apply (is_RInt_derive (fun x => / 4 * T 2 x)); intros x _.
      - evar_last; [apply is_derive_scal, is_derive_T|]. simpl. field.
      - apply @ex_derive_continuous, ex_derive_T. }
    unfold minus, plus, opp. simpl. unfold moment. simpl. field.
  - assert (Hp : 0 <= INR k) by apply pos_INR.
    assert (Hk1 : INR (S k) <> 0) by (apply not_0_INR; lia).
    assert (Hk3 : INR (S (S (S k))) <> 0) by (apply not_0_INR; lia).
    evar_last.
    { apply (is_RInt_derive (fun x => / (2 * INR (S (S (S k)))) * T (S (S (S k))) x
                                      + - / (2 * INR (S k)) * T (S k) x)); intros x _.
      - evar_last; [apply @is_derive_plus; apply is_derive_scal; apply is_derive_T|].
        change (T (S (S k)) x) with ((fun y => T (S (S k)) y) x). cbv beta.
        unfold plus. cbn [AbelianGroup.plus]. simpl AbelianGroup.sort.
        transitivity (/ 2 * (U (S (S k)) x - U k x)).
        + change (/ (2 * INR (S (S (S k)))) * (INR (S (S (S k))) * U (S (S k)) x) +
                  - / (2 * INR (S k)) * (INR (S k) * U k x) = / 2 * (U (S (S k)) x - U k x)).
          field. split; assumption.
        + rewrite <- T_U. field.
      - apply @ex_derive_continuous, ex_derive_T. }
    change (/ (2 * INR (S (S (S k)))) * T (S (S (S k))) 1 + - / (2 * INR (S k)) * T (S k) 1
         - (/ (2 * INR (S (S (S k)))) * T (S (S (S k))) (-1) + - / (2 * INR (S k)) * T (S k) (-1))
         = moment (S (S k))).
    rewrite !T_1, !T_m1, !sgn_S. unfold moment.
    replace (Nat.even (S (S k))) with (Nat.even k) by reflexivity.
    rewrite !S_INR. unfold sgn. destruct (Nat.even k); [|field; lra].
    field. repeat split; nra.
Qed.

Lemma is_RInt_rsum n (F : nat -> R -> R) (I : nat -> R) a b :
  (forall k, (k < n)%nat -> is_RInt (F k) a b (I k)) ->
  is_RInt (fun x => rsum n (fun k => F k x)) a b (rsum n I).
Proof.
  induction n as [|n IH]; intros H; cbn [rsum].
  - evar_last; [apply @is_RInt_const|]. unfold scal. simpl. unfold mult. simpl. ring.
  - apply @is_RInt_plus; [apply IH; intros; apply H; lia | apply H; lia].
Qed.

Lemma is_RInt_evalT c : is_RInt (evalT c) (-1) 1 (rsum (length c) (fun k => nth k c 0 * moment k)).
Proof.
  unfold evalT. apply is_RInt_rsum. intros k Hk. apply @is_RInt_scal. apply is_RInt_T.
Qed.

Lemma cheb_sum1_moments c : cheb_sum1 c = rsum (length c) (fun k => nth k c 0 * moment k).
Proof.
  unfold cheb_sum1. destruct (Nat.eqb_spec (length c) 1) as [E|E].
  - rewrite E. cbn [rsum]. unfold moment. simpl. field.
  - apply rsum_ext. intros k Hk. unfold moment. rewrite <- Nat.negb_even.
    destruct k as [|[|k]].
    + simpl. field.
    + simpl. ring.
    + destruct (Nat.even (S (S k))); simpl negb; cbv iota; ring.
Qed.

Lemma cheb_sum1_correct c : is_RInt (evalT c) (-1) 1 (cheb_sum1 c).
Proof. rewrite cheb_sum1_moments. apply is_RInt_evalT. Qed.

(** ** cumsum *)
Lemma cumsum_coeffs1_length c : length (cumsum_coeffs1 c) = S (length c).
Proof. unfold cumsum_coeffs1. rewrite upd_length, mk_length. reflexivity. Qed.

Lemma nth_app_zeros c k : nth k (c ++ [0; 0]) 0 = nth k c 0.
Proof.
  destruct (lt_dec k (length c)).
  - apply app_nth1. lia.
  - rewrite app_nth2 by lia. rewrite nth_overflow with (l := c) by lia.
    destruct (k - length c)%nat as [|[|[|m]]]; reflexivity.
Qed.

Lemma cumsum_coeffs1_nth1 c : (1 <= length c)%nat ->
  nth 1 (cumsum_coeffs1 c) 0 = nth 0 c 0 - nth 2 c 0 / 2.
Proof.
  intros Hc. unfold cumsum_coeffs1. rewrite upd_other by lia.
  rewrite nth_mk by lia. rewrite !nth_app_zeros. reflexivity.
Qed.

Lemma cumsum_coeffs1_nthS c r : (2 <= r)%nat -> (r <= length c)%nat ->
  nth r (cumsum_coeffs1 c) 0 = (nth (r - 1) c 0 - nth (r + 1) c 0) / (2 * INR r).
Proof.
  intros H1 H2. unfold cumsum_coeffs1. rewrite upd_other by lia.
  rewrite nth_mk by lia. rewrite !nth_app_zeros. destruct r as [|[|r]]; try lia. reflexivity.
Qed.

Lemma cumsum_coeffs1_nth0 c : nth 0 (cumsum_coeffs1 c) 0 =
  rsum (length c) (fun j => sgn j * nth (S j) (cumsum_coeffs1 c) 0).
Proof.
  unfold cumsum_coeffs1. rewrite upd_same by (rewrite mk_length; lia).
  apply rsum_ext. intros j Hj. rewrite upd_other by lia. unfold sgn.
  rewrite <- Nat.negb_even. destruct (Nat.even j); reflexivity.
Qed.

Lemma cumsum_coeffs1_derive c x : (1 <= length c)%nat ->
  is_derive (evalT (cumsum_coeffs1 c)) x (evalT c x).
Proof.
  intros Hc. evar_last; [apply is_derive_evalT|].
  rewrite cumsum_coeffs1_length. rewrite rsum_S_l.
  set (n := length c) in *.
  rewrite (rsum_ext n _ (fun k => / 2 * ((nth k c 0 - nth (S (S k)) c 0) * U k x)
                                + (if Nat.eqb k 0 then nth 0 c 0 / 2 else 0))).
  2:{ intros k Hk. destruct k as [|k].
      - rewrite cumsum_coeffs1_nth1 by (unfold n in *; lia). simpl. field.
      - rewrite cumsum_coeffs1_nthS by (unfold n in *; lia).
        replace (S (S k) - 1)%nat with (S k) by lia.
        replace (S (S k) + 1)%nat with (S (S (S k))) by lia.
        cbn [Nat.eqb]. field. apply not_0_INR; lia. }
  rewrite rsum_plus, rsum_scal.
  rewrite (tele_UT_fin (fun k => nth k c 0) x n n).
  - rewrite (rsum_single n (fun k => if Nat.eqb k 0 then nth 0 c 0 / 2 else 0) 0); [|lia|].
    + cbn [Nat.eqb]. unfold evalT. fold n. cbv beta. lra.
    + intros k _ Hne. destruct k; [lia|reflexivity].
  - intros i Hi. apply nth_overflow. exact Hi.
  - lia.
  - exact Hc.
Qed.

Lemma cumsum_coeffs1_left c : evalT (cumsum_coeffs1 c) (-1) = 0.
Proof.
  unfold evalT. rewrite cumsum_coeffs1_length, rsum_S_l, cumsum_coeffs1_nth0.
  simpl (T 0 (-1)). rewrite Rmult_1_r, <- rsum_plus. apply rsum_zero. intros k _.
  rewrite T_m1, sgn_S. ring.
Qed.

(** ** Clenshaw-Curtis *)
Lemma quad_cvec_length N : (2 <= N)%nat ->
  length (quad_cvec N) = (N - 1)%nat.
Proof.
  intros HN. unfold quad_cvec. rewrite app_length, rev_length, firstn_length. cbn [tl length]. rewrite mk_length.
  pose proof (Nat.div_mod N 2 ltac:(lia)). pose proof (Nat.mod_upper_bound N 2 ltac:(lia)).
  pose proof (Nat.div_mod (N-1) 2 ltac:(lia)). pose proof (Nat.mod_upper_bound (N-1) 2 ltac:(lia)).
  lia.
Qed.

(** entries of the folded moment vector: c_k = moment(2 min(k, M-k)) *)
Lemma quad_cvec_nth N k : (2 <= N)%nat -> (k < N - 1)%nat ->
  nth k (quad_cvec N) 0 = moment (2 * Nat.min k (N - 1 - k)).
Proof.
  intros HN Hk. unfold quad_cvec.
  pose proof (Nat.div_mod N 2 ltac:(lia)). pose proof (Nat.mod_upper_bound N 2 ltac:(lia)).
  pose proof (Nat.div_mod (N-1) 2 ltac:(lia)). pose proof (Nat.mod_upper_bound (N-1) 2 ltac:(lia)).
  assert (ME : forall i, moment (2 * i) = 2 / (1 - INR (2 * i) ^ 2)).
  { intros i. unfold moment. rewrite Nat.even_mul. reflexivity. }
  destruct (le_lt_dec k ((N - 1) / 2)) as [L|L].
  - rewrite app_nth1 by (cbn [length]; rewrite mk_length; lia).
    replace (Nat.min k (N - 1 - k)) with k by lia.
    destruct k as [|k]; cbn [nth].
    + unfold moment. simpl. field.
    + rewrite nth_mk by lia. rewrite ME. do 4 f_equal. lia.
  - rewrite app_nth2 by (cbn [length]; rewrite mk_length; lia). cbn [length tl]. rewrite mk_length.
    rewrite rev_nth by (rewrite firstn_length, mk_length; lia).
    rewrite firstn_length, mk_length. rewrite nth_firstn_lt by lia. rewrite nth_mk by lia.
    replace (Nat.min k (N - 1 - k)) with (N - 1 - k)%nat by lia.
    rewrite ME. do 4 f_equal. lia.
Qed.

Lemma quadwts_some N : (1 <= N)%nat -> exists w, quadwts N = Some w /\ length w = N.
Proof.
  intros HN. destruct N as [|[|N]]; [lia|eexists; split; reflexivity|].
  unfold quadwts. eexists. split; [reflexivity|].
  rewrite app_length, upd_length. unfold ifft_re. rewrite mk_length, quad_cvec_length by lia. simpl. lia.
Qed.

(** w_j = ew_j * (1/M) sum_k c_k cos(2 pi j k / M) *)
Lemma quadwts_nth N w j : (2 <= N)%nat -> quadwts N = Some w -> (j < N)%nat ->
  nth j w 0 = ew (N - 1) j * (/ INR (N - 1) * rsum (N - 1) (fun k =>
     moment (2 * Nat.min k (N - 1 - k)) * cos (2 * PI * INR j * INR k / INR (N - 1)))).
Proof.
  intros HN Hw Hj. destruct N as [|[|N]]; try lia. unfold quadwts in Hw.
  set (NN := S (S N)) in *. set (M := (NN - 1)%nat) in *.
  assert (HM : (1 <= M)%nat) by (unfold M, NN; lia).
  assert (HMR : INR M <> 0) by (apply not_0_INR; lia).
  set (c := quad_cvec NN) in Hw. cbv zeta in Hw.
  assert (Hw' : upd (ifft_re c) 0 (/ 2 * nth 0 (ifft_re c) 0) ++
           [nth 0 (upd (ifft_re c) 0 (/ 2 * nth 0 (ifft_re c) 0)) 0] = w) by congruence.
  clear Hw. rename Hw' into Hw.
  assert (Lc : length c = M) by (apply (quad_cvec_length NN); unfold NN; lia).
  assert (Li : length (ifft_re c) = M) by (unfold ifft_re; rewrite mk_length; exact Lc).
  assert (Hi : forall i, (i < M)%nat -> nth i (ifft_re c) 0 = / INR M * rsum M (fun k =>
     moment (2 * Nat.min k (M - k)) * cos (2 * PI * INR i * INR k / INR M))).
  { intros i Hi. unfold ifft_re. rewrite nth_mk by lia. rewrite Lc. f_equal.
    apply rsum_ext. intros k Hk. f_equal. apply (quad_cvec_nth NN); unfold NN, M in *; lia. }
  rewrite <- Hw. unfold ew.
  destruct (Nat.eq_dec j M) as [->|HjM].
  - rewrite app_nth2 by (rewrite upd_length; lia). rewrite upd_length, Li, Nat.sub_diag. cbn [nth].
    rewrite upd_same by lia. rewrite Hi by lia. rewrite Nat.eqb_refl, orb_true_r. do 2 f_equal.
    apply rsum_ext. intros k Hk. f_equal.
    replace (2 * PI * INR M * INR k / INR M) with (0 + 2 * INR k * PI) by (field; exact HMR).
    rewrite cos_period. f_equal. simpl. field. exact HMR.
  - rewrite app_nth1 by (rewrite upd_length; unfold M in *; lia).
    destruct (Nat.eqb_spec j M); [lia|]. rewrite orb_false_r.
    destruct (Nat.eqb_spec j 0) as [->|H0].
    + rewrite upd_same by lia. rewrite Hi by lia. reflexivity.
    + rewrite upd_other by lia. rewrite Hi by (unfold M in *; lia). lra.
Qed.

Lemma trap_coscos_cc M k l : (1 <= M)%nat ->
  trap M (fun j => cos (2 * PI * INR j * INR k / INR M) * cos (PI * INR l * INR j / INR M)) =
  / 2 * (if Nat.eqb ((2 * k + l) mod (2 * M)) 0 then INR M else 0) +
  / 2 * (if Nat.eqb ((Nat.max (2 * k) l - Nat.min (2 * k) l) mod (2 * M)) 0 then INR M else 0).
Proof.
  intros HM. assert (HMR : INR M <> 0) by (apply not_0_INR; lia).
  rewrite <- !trap_cos by exact HM. rewrite <- !trap_scal, <- trap_plus.
  apply trap_ext. intros j _.
  assert (E : cos (PI * INR (Nat.max (2 * k) l - Nat.min (2 * k) l) * INR j / INR M) =
              cos (2 * PI * INR j * INR k / INR M - PI * INR l * INR j / INR M)).
  { destruct (le_ge_dec l (2 * k)).
    - rewrite Nat.max_l, Nat.min_r by lia. rewrite minus_INR, mult_INR by lia.
      change (INR 2) with 2. f_equal. field. exact HMR.
    - rewrite Nat.max_r, Nat.min_l by lia. rewrite minus_INR, mult_INR by lia.
      rewrite <- cos_neg. change (INR 2) with 2. f_equal. field. exact HMR. }
  rewrite E, plus_INR, mult_INR. change (INR 2) with 2.
  replace (PI * (2 * INR k + INR l) * INR j / INR M)
    with (2 * PI * INR j * INR k / INR M + PI * INR l * INR j / INR M) by (field; exact HMR).
  rewrite cos_plus, cos_minus. field.
Qed.

Lemma mod2M_zero a M : (1 <= M)%nat -> (a < 4 * M)%nat -> (a mod (2 * M) = 0)%nat -> (a = 0 \/ a = 2 * M)%nat.
Proof.
  intros HM Ha H. apply Nat.mod_divides in H; [|lia]. destruct H as [q Hq].
  destruct q as [|[|q]]; [lia|lia|]. exfalso. nia.
Qed.

Lemma quadwts_T N w l : (2 <= N)%nat -> quadwts N = Some w -> (l < N)%nat ->
  rsum N (fun j => nth j w 0 * T l (nth j (chebpts_type2_compute N) 0)) = moment l.
Proof.
  intros HN Hw Hl. set (M := (N - 1)%nat).
  assert (HM : (1 <= M)%nat) by (unfold M; lia).
  assert (HMR : INR M <> 0) by (apply not_0_INR; lia).
  set (W := fun j => / INR M * rsum M (fun k =>
       moment (2 * Nat.min k (M - k)) * cos (2 * PI * INR j * INR k / INR M))).
  assert (Wsym : forall j, (j <= M)%nat -> W (M - j)%nat = W j).
  { intros j Hj. unfold W. f_equal. apply rsum_ext. intros k _. f_equal.
    rewrite minus_INR by lia.
    replace (2 * PI * (INR M - INR j) * INR k / INR M)
      with (- (2 * PI * INR j * INR k / INR M) + 2 * INR k * PI) by (field; exact HMR).
    rewrite cos_period, cos_neg. reflexivity. }
  rewrite (rsum_ext N _ (fun j => ew M j * (W j * cos (PI * INR l * INR (M - j) / INR M)))).
  2:{ intros j Hj. rewrite (quadwts_nth N w j HN Hw Hj). rewrite chebpts_nth by lia.
      rewrite T_cos. fold M. unfold W. rewrite Rmult_assoc. do 3 f_equal. field. exact HMR. }
  replace N with (S M) by (unfold M; lia). rewrite <- trap_ew by exact HM.
  rewrite (trap_ext M _ (fun j => (fun i => W i * cos (PI * INR l * INR i / INR M)) (M - j)%nat)).
  2:{ intros j Hj. cbv beta. rewrite Wsym by lia. reflexivity. }
  rewrite (trap_rev M (fun i => W i * cos (PI * INR l * INR i / INR M))).
  rewrite (trap_ext M _ (fun j => rsum M (fun k => / INR M * moment (2 * Nat.min k (M - k)) *
      (cos (2 * PI * INR j * INR k / INR M) * cos (PI * INR l * INR j / INR M))))).
  2:{ intros j _. unfold W. rewrite <- rsum_scal, <- rsum_scal_r. apply rsum_ext. intros; ring. }
  rewrite trap_rsum.
  rewrite (rsum_ext M _ (fun k => / INR M * moment (2 * Nat.min k (M - k)) *
     (/ 2 * (if Nat.eqb ((2 * k + l) mod (2 * M)) 0 then INR M else 0) +
      / 2 * (if Nat.eqb ((Nat.max (2 * k) l - Nat.min (2 * k) l) mod (2 * M)) 0 then INR M else 0)))).
  2:{ intros k _. rewrite trap_scal, trap_coscos_cc by exact HM. reflexivity. }
  destruct (Nat.even l) eqn:El.
  - apply Nat.even_spec in El. destruct El as [p Hp]. subst l.
    rewrite (rsum_ext M _ (fun k =>
       (if Nat.eqb k ((M - p) mod M) then / 2 * moment (2 * Nat.min k (M - k)) else 0) +
       (if Nat.eqb k p then / 2 * moment (2 * Nat.min k (M - k)) else 0))).
    2:{ intros k Hk.
        assert (A1 : Nat.eqb ((2 * k + 2 * p) mod (2 * M)) 0 = Nat.eqb k ((M - p) mod M)).
        { apply Bool.eq_iff_eq_true. rewrite !Nat.eqb_eq. split.
          - intros E. apply mod2M_zero in E; [|lia|lia]. destruct E as [E|E].
            + assert (p = 0 /\ k = 0)%nat as [-> ->] by lia. rewrite Nat.sub_0_r, Nat.mod_same by lia. reflexivity.
            + rewrite Nat.mod_small by lia. lia.
          - intros E. destruct (Nat.eq_dec p 0) as [->|Hp0].
            + rewrite Nat.sub_0_r, Nat.mod_same in E by lia. subst k. simpl. apply Nat.mod_small. lia.
            + rewrite Nat.mod_small in E by lia. subst k.
              replace (2 * (M - p) + 2 * p)%nat with (2 * M)%nat by (unfold M in *; lia). apply Nat.mod_same. lia. }
        assert (A2 : Nat.eqb ((Nat.max (2 * k) (2 * p) - Nat.min (2 * k) (2 * p)) mod (2 * M)) 0 = Nat.eqb k p).
        { apply Bool.eq_iff_eq_true. rewrite !Nat.eqb_eq. split.
          - intros E. apply mod2M_zero in E; [|lia|unfold M in *; lia]. unfold M in *; lia.
          - intros ->. rewrite Nat.max_id, Nat.min_id, Nat.sub_diag. apply Nat.mod_0_l. lia. }
        rewrite A1, A2. destruct (Nat.eqb k ((M - p) mod M)), (Nat.eqb k p); field; exact HMR. }
    rewrite rsum_plus.
    assert (B1 : rsum M (fun k => if Nat.eqb k ((M - p) mod M) then / 2 * moment (2 * Nat.min k (M - k)) else 0)
               = / 2 * moment (2 * p)).
    { rewrite (rsum_single M _ ((M - p) mod M)).
      - rewrite Nat.eqb_refl. do 2 f_equal.
        destruct (Nat.eq_dec p 0) as [->|Hp0].
        + rewrite Nat.sub_0_r, Nat.mod_same by lia. reflexivity.
        + rewrite Nat.mod_small by lia. unfold M in *; lia.
      - apply Nat.mod_upper_bound. lia.
      - intros k _ Hne. destruct (Nat.eqb_spec k ((M - p) mod M)); [lia|reflexivity]. }
    rewrite B1.
    destruct (Nat.eq_dec p M) as [Ep|Ep].
    { assert (M = 0)%nat by (unfold M in *; lia). lia. }
    assert (B2 : rsum M (fun k => if Nat.eqb k p then / 2 * moment (2 * Nat.min k (M - k)) else 0)
               = / 2 * moment (2 * p)).
    { rewrite (rsum_single M _ p).
      - rewrite Nat.eqb_refl. do 2 f_equal. unfold M in *; lia.
      - unfold M in *; lia.
      - intros k _ Hne. destruct (Nat.eqb_spec k p); [lia|reflexivity]. }
    rewrite B2. lra.
  - rewrite rsum_zero.
    + unfold moment. rewrite El. reflexivity.
    + intros k Hk. rewrite <- Nat.negb_odd in El. apply Bool.negb_false_iff in El.
      apply Nat.odd_spec in El. destruct El as [p Hp].
      destruct (Nat.eqb_spec ((2 * k + l) mod (2 * M)) 0) as [E|E].
      { apply mod2M_zero in E; unfold M in *; lia. }
      destruct (Nat.eqb_spec ((Nat.max (2 * k) l - Nat.min (2 * k) l) mod (2 * M)) 0) as [E'|E'].
      { apply mod2M_zero in E'; unfold M in *; lia. }
      ring.
Qed.

(** exact for every polynomial of degree below N *)
Lemma quadwts_exact N w f : (1 <= N)%nat -> quadwts N = Some w -> spanT N f ->
  is_RInt f (-1) 1 (rsum N (fun j => nth j w 0 * f (nth j (chebpts_type2_compute N) 0))).
Proof.
  intros HN Hw [c [Hc Hf]].
  apply is_RInt_ext with (evalT c).
  { intros x _. symmetry. apply Hf. }
  evar_last; [apply is_RInt_evalT|]. rewrite Hc.
  destruct (Nat.eq_dec N 1) as [->|H1].
  - injection Hw as <-. cbn [rsum nth chebpts_type2_compute]. rewrite Hf.
    unfold evalT. rewrite Hc. cbn [rsum]. unfold moment. simpl. field.
  - transitivity (rsum N (fun j => rsum N (fun k =>
        nth k c 0 * (nth j w 0 * T k (nth j (chebpts_type2_compute N) 0))))).
    + rewrite rsum_swap. apply rsum_ext. intros k Hk. rewrite rsum_scal.
      rewrite quadwts_T by (auto; lia). reflexivity.
    + apply rsum_ext. intros j Hj. rewrite Hf. unfold evalT. rewrite Hc, <- rsum_scal.
      apply rsum_ext. intros; ring.
Qed.
