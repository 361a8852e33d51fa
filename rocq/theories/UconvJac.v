(** Jacobi polynomials: explicit formula, connection formulas, relation with the ultraspherical bases. *)
From Coq Require Import Reals ZArith List Arith Bool Lra Lia.
From Coquelicot Require Import Coquelicot.
From Verif Require Import Base ChebSpec ChebMath UltraSpec UltraBasis UconvModel.
Import ListNotations.
Open Scope R_scope.

Fixpoint poch (a : R) (k : nat) : R := match k with O => 1 | S j => poch a j * (a + INR j) end.
Lemma poch_l a k : poch a (S k) = a * poch (a + 1) k.
Proof.
  induction k as [|k IH]; [cbn; ring|]. change (poch a (S (S k))) with (poch a (S k) * (a + INR (S k))). rewrite IH. cbn [poch]. rewrite S_INR. ring.
Qed.
Lemma poch_eq a b k : a = b -> poch a k = poch b k. Proof. now intros ->. Qed.
Lemma poch_pos a k : 0 < a -> 0 < poch a k.
Proof. intros Ha. induction k as [|k IH]; cbn [poch]; [lra|]. apply Rmult_lt_0_compat; [exact IH|]. assert (P := pos_INR k). lra. Qed.
(** coefficient of ((x-1)/2)^k *)
Definition jac_A (n k : nat) (a b : R) : R := if Nat.leb k n then poch (a + INR k + 1) (n - k) * poch (INR n + a + b + 1) k / (INR (fact (n - k)) * INR (fact k)) else 0.
Definition jac (n : nat) (a b x : R) : R := rsum (S n) (fun k => jac_A n k a b * ((x - 1) / 2) ^ k).
Lemma INR_fact_pos n : 0 < INR (fact n).
Proof. apply lt_0_INR, lt_O_fact. Qed.
Lemma jac_ext n m a b x : (n <= m)%nat -> jac n a b x = rsum (S m) (fun k => jac_A n k a b * ((x - 1) / 2) ^ k).
Proof.
  intros H. unfold jac. symmetry. apply rsum_extend; [lia|]. intros k Hk. unfold jac_A. destruct (Nat.leb_spec k n); [lia|ring].
Qed.

Lemma jac_up_A n k a b : (1 <= n)%nat -> (2 * INR n + a + b + 1) * jac_A n k a b = (INR n + a + b + 1) * jac_A n k a (b + 1) + (INR n + a) * jac_A (n - 1) k a (b + 1).
Proof.
  intros Hn. unfold jac_A. assert (F1 := INR_fact_pos k).
  destruct (Nat.leb_spec k n) as [L|L]; [|destruct (Nat.leb_spec k (n - 1)); [lia|ring]].
  assert (E1 : (INR n + a + b + 1) * poch (INR n + a + (b + 1) + 1) k = poch (INR n + a + b + 1) k * (INR n + a + b + 1 + INR k)).
  { replace (INR n + a + (b + 1) + 1) with (INR n + a + b + 1 + 1) by ring. rewrite <- poch_l. reflexivity. }
  destruct (Nat.leb_spec k (n - 1)) as [L1|L1].
  - replace (n - k)%nat with (S (n - 1 - k)) by lia. set (m := (n - 1 - k)%nat). assert (Em : INR n = INR k + INR m + 1) by (unfold m; rewrite !minus_INR by lia; change (INR 1) with 1; ring).
    assert (Fm := INR_fact_pos m). change (fact (S m)) with (S m * fact m)%nat. rewrite mult_INR, S_INR. assert (Pm := pos_INR m). cbn [poch].
    replace (poch (INR (n - 1) + a + (b + 1) + 1) k) with (poch (INR n + a + b + 1) k) by (apply poch_eq; rewrite minus_INR by lia; change (INR 1) with 1; ring).
    transitivity ((INR n + a + b + 1) * poch (INR n + a + (b + 1) + 1) k * (poch (a + INR k + 1) m * (a + INR k + 1 + INR m) / ((INR m + 1) * INR (fact m) * INR (fact k))) + (INR n + a) * (poch (a + INR k + 1) m * poch (INR n + a + b + 1) k / (INR (fact m) * INR (fact k)))); [|field; repeat split; lra].
    rewrite E1, Em. field. repeat split; lra.
  - assert (k = n) as -> by lia. rewrite Nat.sub_diag. cbn [poch fact]. change (INR 1) with 1.
    transitivity ((INR n + a + b + 1) * poch (INR n + a + (b + 1) + 1) n / INR (fact n)); [|field; lra]. rewrite E1. field. lra.
Qed.
Lemma jac_right_A n k a b : (1 <= n)%nat -> (2 * INR n + a + b + 1) * jac_A n k a b = (INR n + a + b + 1) * jac_A n k (a + 1) b - (INR n + b) * jac_A (n - 1) k (a + 1) b.
Proof.
  intros Hn. unfold jac_A. assert (F1 := INR_fact_pos k).
  destruct (Nat.leb_spec k n) as [L|L]; [|destruct (Nat.leb_spec k (n - 1)); [lia|ring]].
  assert (E1 : (INR n + a + b + 1) * poch (INR n + (a + 1) + b + 1) k = poch (INR n + a + b + 1) k * (INR n + a + b + 1 + INR k)).
  { replace (INR n + (a + 1) + b + 1) with (INR n + a + b + 1 + 1) by ring. rewrite <- poch_l. reflexivity. }
  destruct (Nat.leb_spec k (n - 1)) as [L1|L1].
  - replace (n - k)%nat with (S (n - 1 - k)) by lia. set (m := (n - 1 - k)%nat). assert (Em : INR n = INR k + INR m + 1) by (unfold m; rewrite !minus_INR by lia; change (INR 1) with 1; ring).
    assert (Fm := INR_fact_pos m). change (fact (S m)) with (S m * fact m)%nat. rewrite mult_INR, S_INR. assert (Pm := pos_INR m). rewrite (poch_l (a + INR k + 1) m). cbn [poch].
    replace (poch (INR (n - 1) + (a + 1) + b + 1) k) with (poch (INR n + a + b + 1) k) by (apply poch_eq; rewrite minus_INR by lia; change (INR 1) with 1; ring).
    replace (poch (a + INR k + 1 + 1) m) with (poch (a + 1 + INR k + 1) m) by (apply poch_eq; ring).
    set (Q := poch (a + 1 + INR k + 1) m).
    transitivity ((INR n + a + b + 1) * poch (INR n + (a + 1) + b + 1) k * (Q * (a + 1 + INR k + 1 + INR m) / ((INR m + 1) * INR (fact m) * INR (fact k))) - (INR n + b) * (Q * poch (INR n + a + b + 1) k / (INR (fact m) * INR (fact k)))); [|field; repeat split; lra].
    rewrite E1, Em. field. repeat split; lra.
  - assert (k = n) as -> by lia. rewrite Nat.sub_diag. cbn [poch fact]. change (INR 1) with 1.
    transitivity ((INR n + a + b + 1) * poch (INR n + (a + 1) + b + 1) n / INR (fact n)); [|field; lra]. rewrite E1. field. lra.
Qed.
Lemma jac_up n a b x : (1 <= n)%nat -> (2 * INR n + a + b + 1) * jac n a b x = (INR n + a + b + 1) * jac n a (b + 1) x + (INR n + a) * jac (n - 1) a (b + 1) x.
Proof.
  intros Hn. rewrite (jac_ext (n - 1) n) by lia. unfold jac. rewrite <- !rsum_scal, <- rsum_plus. apply rsum_ext. intros k _.
  rewrite <- !Rmult_assoc, jac_up_A by exact Hn. ring.
Qed.
Lemma jac_right n a b x : (1 <= n)%nat -> (2 * INR n + a + b + 1) * jac n a b x = (INR n + a + b + 1) * jac n (a + 1) b x - (INR n + b) * jac (n - 1) (a + 1) b x.
Proof.
  intros Hn. rewrite (jac_ext (n - 1) n) by lia. unfold jac. rewrite <- !rsum_scal, <- rsum_minus. apply rsum_ext. intros k _.
  rewrite <- !Rmult_assoc, jac_right_A by exact Hn. ring.
Qed.
Lemma jac_0 a b x : jac 0 a b x = 1.
Proof. unfold jac. cbn [rsum]. unfold jac_A. cbn. field. Qed.
Lemma jac_1 a b x : jac 1 a b x = a + 1 + (a + b + 2) * ((x - 1) / 2).
Proof. unfold jac. cbn [rsum]. unfold jac_A. cbn [Nat.leb Nat.sub poch fact pow Nat.mul Nat.add INR]. field. Qed.
Lemma jac_at1 n a b : jac n a b 1 = poch (a + 1) n / INR (fact n).
Proof.
  unfold jac. rewrite rsum_S_l. rewrite rsum_zero.
  - unfold jac_A. cbn [Nat.leb pow poch fact]. rewrite Nat.sub_0_r. change (INR 0) with 0. change (INR 1) with 1. replace (a + 0 + 1) with (a + 1) by ring. field. apply Rgt_not_eq, INR_fact_pos.
  - intros k _. replace ((1 - 1) / 2) with 0 by field. rewrite pow_i by lia. ring.
Qed.
Lemma jac_derive n a b x : is_derive (jac (S n) a b) x ((INR (S n) + a + b + 1) / 2 * jac n (a + 1) (b + 1) x).
Proof.
  assert (G : forall N (c : nat -> R), is_derive (fun x => rsum N (fun k => c k * ((x - 1) / 2) ^ k)) x (rsum N (fun k => c k * (INR k * / 2 * ((x - 1) / 2) ^ (k - 1))))).
  { intros N c. induction N as [|N IH]; cbn [rsum]; [apply (is_derive_const (V := R_NormedModule))|]. apply (is_derive_plus (V := R_NormedModule)); [exact IH|].
    apply is_derive_scal. evar_last; [apply (is_derive_pow (fun x => (x - 1) / 2) N x (/ 2)); auto_derive; [exact I|field]|]. replace (pred N) with (N - 1)%nat by lia. ring. }
  evar_last; [apply G|]. rewrite rsum_S_l. change (INR 0) with 0. unfold jac. rewrite <- rsum_scal.
  transitivity (rsum (S n) (fun k => jac_A (S n) (S k) a b * (INR (S k) * / 2 * ((x - 1) / 2) ^ (S k - 1)))); [change (@eq R (jac_A (S n) 0 a b * (0 * / 2 * ((x - 1) / 2) ^ (0 - 1)) + rsum (S n) (fun k => jac_A (S n) (S k) a b * (INR (S k) * / 2 * ((x - 1) / 2) ^ (S k - 1)))) (rsum (S n) (fun k => jac_A (S n) (S k) a b * (INR (S k) * / 2 * ((x - 1) / 2) ^ (S k - 1))))); ring|].
  apply rsum_ext. intros k Hk. replace (S k - 1)%nat with k by lia. rewrite <- !Rmult_assoc. f_equal.
  unfold jac_A. destruct (Nat.leb_spec (S k) (S n)); [|lia]. destruct (Nat.leb_spec k n); [|lia]. replace (S n - S k)%nat with (n - k)%nat by lia.
  replace (a + INR (S k) + 1) with (a + 1 + INR k + 1) by (rewrite S_INR; ring).
  rewrite (poch_l (INR (S n) + a + b + 1) k). replace (INR (S n) + a + b + 1 + 1) with (INR n + (a + 1) + (b + 1) + 1) by (rewrite S_INR; ring).
  change (fact (S k)) with (S k * fact k)%nat. rewrite mult_INR. assert (P := pos_INR k). assert (F1 := INR_fact_pos k). assert (F2 := INR_fact_pos (n - k)). assert (0 < INR (S k)) by (rewrite S_INR; lra). field. repeat split; lra.
Qed.

(** ** relation with the ultraspherical basis *)
Lemma gegen_at1 lam n : (1 <= lam)%nat -> gegen lam n 1 = poch (2 * INR lam) n / INR (fact n).
Proof.
  intros Hl. enough (H : gegen lam n 1 = poch (2 * INR lam) n / INR (fact n) /\ gegen lam (S n) 1 = poch (2 * INR lam) (S n) / INR (fact (S n))) by apply H.
  induction n as [|n [IH1 IH2]].
  - split; cbn [gegen poch fact Nat.mul Nat.add INR]; field.
  - split; [exact IH2|]. rewrite gegen_SS, IH1, IH2. change (fact (S (S n))) with (S (S n) * (S n * fact n))%nat. change (fact (S n)) with (S n * fact n)%nat. rewrite !mult_INR. cbn [poch]. rewrite !S_INR. assert (F := INR_fact_pos n). assert (P := pos_INR n). field. repeat split; lra.
Qed.
Lemma scl_poch lam n : (1 <= lam)%nat -> scl lam n = poch (INR lam + / 2) n / poch (2 * INR lam) n.
Proof.
  intros Hl. destruct lam as [|l]; [lia|]. assert (P : 0 < INR (S l)) by (apply lt_0_INR; lia).
  induction n as [|n IH]; cbn [scl poch]; [field|]. rewrite IH. assert (Q := pos_INR n). assert (Q2 := poch_pos (2 * INR (S l)) n ltac:(lra)). field. split; lra.
Qed.
Lemma scl_poch0 n : scl 0 n = poch (/ 2) n / INR (fact n).
Proof.
  induction n as [|n IH]; cbn [scl poch]; [cbn; field|]. rewrite IH. change (fact (S n)) with (S n * fact n)%nat. rewrite mult_INR, S_INR. assert (Q := pos_INR n). assert (F := INR_fact_pos n). field. lra.
Qed.
Lemma scl_pos lam n : 0 < scl lam n.
Proof.
  induction n as [|n IH]; cbn [scl]; [lra|]. apply Rmult_lt_0_compat; [exact IH|]. assert (Q := pos_INR n). destruct lam as [|l].
  - apply Rdiv_lt_0_compat; lra.
  - assert (P : 0 < INR (S l)) by (apply lt_0_INR; lia). apply Rdiv_lt_0_compat; lra.
Qed.
Lemma ubasis_at1 lam n : scl lam n * ubasis lam n 1 = poch (INR lam + / 2) n / INR (fact n).
Proof.
  destruct lam as [|l].
  - cbn [ubasis]. rewrite scl_poch0. replace (T n 1) with 1; [|symmetry; rewrite <- cos_0 at 1; rewrite T_cos; rewrite Rmult_0_r, cos_0; reflexivity]. change (INR 0) with 0. rewrite Rplus_0_l. ring.
  - cbn [ubasis]. rewrite scl_poch, gegen_at1 by lia. assert (P : 0 < INR (S l)) by (apply lt_0_INR; lia). assert (Q2 := poch_pos (2 * INR (S l)) n ltac:(lra)). assert (F := INR_fact_pos n). field. lra.
Qed.
Lemma scl_step lam n : scl lam (S n) * match lam with O => INR (S n) | S _ => 2 * INR lam end = (INR (S n) + 2 * INR lam) / 2 * scl (S lam) n.
Proof.
  rewrite (scl_poch (S lam)) by lia. assert (Q := pos_INR n). destruct lam as [|l].
  - rewrite scl_poch0. rewrite poch_l. change (fact (S n)) with (S n * fact n)%nat. rewrite mult_INR. assert (F := INR_fact_pos n).
    replace (poch (INR 1 + / 2) n) with (poch (/ 2 + 1) n) by (apply poch_eq; change (INR 1) with 1; ring).
    assert (E : poch (2 * INR 1) n = INR (S n) * INR (fact n)).
    { clear. change (INR 1) with 1. rewrite Rmult_1_r. induction n as [|n IH]; [cbn; ring|]. cbn [poch]. rewrite IH. change (fact (S n)) with (S n * fact n)%nat. rewrite mult_INR, !S_INR. ring. }
    rewrite E. change (INR 0) with 0. rewrite S_INR. field. lra.
  - rewrite scl_poch by lia. rewrite !poch_l. set (L := INR (S l)). assert (P : 0 < L) by (apply lt_0_INR; lia).
    replace (poch (INR (S (S l)) + / 2) n) with (poch (L + / 2 + 1) n) by (apply poch_eq; unfold L; rewrite (S_INR (S l)); ring).
    assert (E : poch (2 * INR (S (S l))) n * (2 * L + 1) = poch (2 * L + 1) n * (2 * L + 1 + INR n)).
    { replace (2 * INR (S (S l))) with (2 * L + 1 + 1) by (unfold L; rewrite (S_INR (S l)); ring). rewrite Rmult_comm, <- poch_l. reflexivity. }
    assert (Q1 := poch_pos (2 * L + 1) n ltac:(lra)). assert (Q2 := poch_pos (2 * INR (S (S l))) n ltac:(rewrite S_INR; fold L; lra)).
    rewrite S_INR. apply Rmult_eq_reg_r with (poch (2 * INR (S (S l))) n * (2 * L + 1)); [|apply Rgt_not_eq; nra]. rewrite E at 1. field. lra.
Qed.
Lemma jac_ubasis n : forall lam x, jac n (INR lam - / 2) (INR lam - / 2) x = scl lam n * ubasis lam n x.
Proof.
  induction n as [|n IH]; intros lam x; [rewrite jac_0, ubasis_0; cbn; ring|].
  assert (D : forall t, is_derive (fun x => jac (S n) (INR lam - / 2) (INR lam - / 2) x - scl lam (S n) * ubasis lam (S n) x) t 0).
  { intros t. evar_last; [apply (is_derive_minus (V := R_NormedModule)); [apply jac_derive|apply is_derive_scal; apply is_derive_ubasis]|].
    change (@eq R ((INR (S n) + (INR lam - / 2) + (INR lam - / 2) + 1) / 2 * jac n (INR lam - / 2 + 1) (INR lam - / 2 + 1) t - scl lam (S n) * (match lam with O => INR (S n) | S _ => 2 * INR lam end * ubasis (S lam) n t)) 0).
    replace (INR lam - / 2 + 1) with (INR (S lam) - / 2) by (rewrite S_INR; ring). rewrite IH.
    rewrite <- (Rmult_assoc (scl lam (S n))), scl_step. field. }
  assert (V : forall t, jac (S n) (INR lam - / 2) (INR lam - / 2) t - scl lam (S n) * ubasis lam (S n) t = jac (S n) (INR lam - / 2) (INR lam - / 2) 1 - scl lam (S n) * ubasis lam (S n) 1).
  { intros t. destruct (Rtotal_order t 1) as [L|[->|L]]; [| reflexivity |].
    - apply (eq_is_derive (V := R_NormedModule) (fun x => jac (S n) (INR lam - / 2) (INR lam - / 2) x - scl lam (S n) * ubasis lam (S n) x) t 1); [intros s _; apply D|exact L].
    - symmetry. apply (eq_is_derive (V := R_NormedModule) (fun x => jac (S n) (INR lam - / 2) (INR lam - / 2) x - scl lam (S n) * ubasis lam (S n) x) 1 t); [intros s _; apply D|exact L]. }
  specialize (V x). rewrite jac_at1, ubasis_at1 in V. replace (INR lam - / 2 + 1) with (INR lam + / 2) in V by lra. lra.
Qed.
