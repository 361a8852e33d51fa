(** Finite complex sums and roots of unity. *)
From Coq Require Import Reals ZArith List Arith Lia Lra.
From Coquelicot Require Import Coquelicot.
From Verif Require Import Base TrigSpec.
Import ListNotations.
Open Scope R_scope.
Open Scope C_scope.

Lemma csum_ext n f g : (forall k, (k < n)%nat -> f k = g k) -> csum n f = csum n g.
Proof. induction n as [|n IH]; intros H; [reflexivity|]. cbn. rewrite IH by (intros; apply H; lia). rewrite H by lia. reflexivity. Qed.
Lemma csum_plus n f g : csum n (fun k => f k + g k) = csum n f + csum n g.
Proof. induction n as [|n IH]; cbn; [ring|]. rewrite IH. ring. Qed.
Lemma csum_scal n a f : csum n (fun k => a * f k) = a * csum n f.
Proof. induction n as [|n IH]; cbn; [ring|]. rewrite IH. ring. Qed.
Lemma csum_scal_r n a f : csum n (fun k => f k * a) = csum n f * a.
Proof. induction n as [|n IH]; cbn; [ring|]. rewrite IH. ring. Qed.
Lemma csum_zero n f : (forall k, (k < n)%nat -> f k = RtoC 0) -> csum n f = RtoC 0.
Proof. induction n as [|n IH]; intros H; [reflexivity|]. cbn. rewrite IH by (intros; apply H; lia). rewrite H by lia. ring. Qed.
Lemma csum_const n a : csum n (fun _ => a) = RtoC (INR n) * a.
Proof. induction n as [|n IH]; [cbn; ring|]. cbn [csum]. rewrite IH, S_INR, RtoC_plus. ring. Qed.
Lemma csum_app n m f : csum (n + m) f = csum n f + csum m (fun k => f (n + k)%nat).
Proof. induction m as [|m IH]; [rewrite Nat.add_0_r; cbn; ring|]. rewrite Nat.add_succ_r. cbn [csum]. rewrite IH. ring. Qed.
Lemma csum_head n f : csum (S n) f = f 0%nat + csum n (fun k => f (S k)).
Proof. change (S n) with (1 + n)%nat. rewrite csum_app. cbn. ring. Qed.
Lemma csum_single n f k : (k < n)%nat -> (forall j, (j < n)%nat -> j <> k -> f j = RtoC 0) -> csum n f = f k.
Proof.
  induction n as [|n IH]; intros Hk H; [lia|]. cbn [csum]. destruct (Nat.eq_dec k n) as [->|Hne].
  - rewrite csum_zero by (intros; apply H; lia). ring.
  - rewrite (H n) by lia. rewrite IH by (try lia; intros; apply H; lia). ring.
Qed.
Lemma csum_swap n m f : csum n (fun i => csum m (fun j => f i j)) = csum m (fun j => csum n (fun i => f i j)).
Proof.
  induction n as [|n IH]; cbn; [rewrite csum_zero; [reflexivity|intros; reflexivity]|].
  rewrite IH, <- csum_plus. reflexivity.
Qed.
Lemma csum_Re n f : Re (csum n f) = rsum n (fun k => Re (f k)).
Proof. induction n as [|n IH]; cbn; [reflexivity|]. unfold Re in *. cbn. rewrite IH. reflexivity. Qed.
Lemma csum_Im n f : Im (csum n f) = rsum n (fun k => Im (f k)).
Proof. induction n as [|n IH]; cbn; [reflexivity|]. unfold Im in *. cbn. rewrite IH. reflexivity. Qed.
Lemma csum_rev n f : csum n (fun k => f (n - 1 - k)%nat) = csum n f.
Proof.
  revert f. induction n as [|n IH]; intros f; [reflexivity|]. rewrite csum_head. cbn [csum].
  rewrite <- (IH f). replace (S n - 1 - 0)%nat with n by lia. rewrite Cplus_comm. f_equal.
  apply csum_ext. intros k Hk. f_equal. lia.
Qed.
Lemma csum_rot n s f : csum n (fun k => f ((k + s) mod n)%nat) = csum n f.
Proof.
  destruct n as [|n']; [reflexivity|]. set (n := S n').
  rewrite (csum_ext n (fun k => f ((k + s) mod n)%nat) (fun k => f ((k + s mod n) mod n)%nat)).
  2:{ intros k _. rewrite Nat.add_mod_idemp_r by (unfold n; lia). reflexivity. }
  assert (Hs : (s mod n < n)%nat) by (apply Nat.mod_upper_bound; unfold n; lia).
  set (r := (s mod n)%nat) in *.
  replace n with ((n - r) + r)%nat at 1 by lia. rewrite csum_app.
  replace (csum n f) with (csum (r + (n - r)) f) by (f_equal; lia). rewrite csum_app, Cplus_comm. f_equal.
  - apply csum_ext. intros k Hk. f_equal. replace (n - r + k + r)%nat with (k + 1 * n)%nat by lia.
    rewrite Nat.mod_add by (unfold n; lia). apply Nat.mod_small. lia.
  - apply csum_ext. intros k Hk. f_equal. rewrite Nat.mod_small by lia. lia.
Qed.

(** ** e^(it) *)
Lemma cis_0 : cis 0 = RtoC 1. Proof. unfold cis, RtoC. rewrite cos_0, sin_0. reflexivity. Qed.
Lemma cis_plus a b : cis (a + b) = cis a * cis b.
Proof. unfold cis. rewrite cos_plus, sin_plus. apply injective_projections; cbn; ring. Qed.
Lemma cis_neg a : cis (- a) = Cconj (cis a).
Proof. unfold cis, Cconj. cbn. rewrite cos_neg, sin_neg. reflexivity. Qed.
Lemma Cconj_mult a b : Cconj (a * b) = Cconj a * Cconj b.
Proof. apply injective_projections; cbn; ring. Qed.
Lemma Cconj_plus a b : Cconj (a + b) = Cconj a + Cconj b.
Proof. apply injective_projections; cbn; ring. Qed.
Lemma Cconj_conj a : Cconj (Cconj a) = a.
Proof. apply injective_projections; cbn; ring. Qed.
Lemma Cconj_R r : Cconj (RtoC r) = RtoC r.
Proof. apply injective_projections; cbn; ring. Qed.
Lemma Cconj_csum n f : Cconj (csum n f) = csum n (fun k => Cconj (f k)).
Proof. induction n as [|n IH]; cbn [csum]; [apply Cconj_R|]. rewrite Cconj_plus, IH. reflexivity. Qed.
Lemma cis_conj_mult a : cis a * Cconj (cis a) = RtoC 1.
Proof. rewrite <- cis_neg, <- cis_plus. replace (a + - a)%R with 0%R by ring. apply cis_0. Qed.
Lemma cis_neq_0 a : cis a <> RtoC 0.
Proof.
  intros H. assert (E := cis_conj_mult a). rewrite H in E. injection E as E1 E2. lra.
Qed.
Lemma cis_2PI_nat k t : cis (t + 2 * PI * INR k) = cis t.
Proof.
  induction k as [|k IH]; [f_equal; cbn; ring|].
  rewrite S_INR. replace (t + 2 * PI * (INR k + 1))%R with ((t + 2 * PI * INR k) + 2 * PI)%R by ring.
  rewrite cis_plus, IH. replace (cis (2 * PI)) with (RtoC 1); [ring|]. unfold cis. rewrite cos_2PI, sin_2PI. reflexivity.
Qed.
Lemma cis_2PI z t : cis (t + 2 * PI * IZR z) = cis t.
Proof.
  destruct z as [|p|p].
  - f_equal. ring.
  - rewrite <- (cis_2PI_nat (Pos.to_nat p) t). f_equal. rewrite INR_IZR_INZ, positive_nat_Z. reflexivity.
  - rewrite <- (cis_2PI_nat (Pos.to_nat p) (t + _)%R). f_equal. rewrite INR_IZR_INZ, positive_nat_Z.
    change (IZR (Z.neg p)) with (IZR (- Z.pos p)). rewrite opp_IZR. ring.
Qed.
(** two angles differing by a multiple of 2 pi *)
Lemma cis_cong a b z : (a = b + 2 * PI * IZR z)%R -> cis a = cis b.
Proof. intros ->. apply cis_2PI. Qed.
Lemma cis_scal_plus a n : cis (INR (S n) * a) = cis (INR n * a) * cis a.
Proof. rewrite <- cis_plus. f_equal. rewrite S_INR. ring. Qed.

Lemma geom_cis t n : (cis t - 1) * csum n (fun k => cis (INR k * t)) = cis (INR n * t) - 1.
Proof.
  induction n as [|n IH]; [cbn [csum INR]; rewrite Rmult_0_l, cis_0; ring|].
  cbn [csum]. rewrite Cmult_plus_distr_l, IH, cis_scal_plus. ring.
Qed.
Lemma cis_eq_1 t : (-2 * PI < t < 2 * PI)%R -> cis t = RtoC 1 -> t = 0%R.
Proof.
  intros Ht H. injection H as Hc Hs.
  assert (Hh : sin (t / 2) = 0%R).
  { assert (E := cos_2a_sin (t / 2)). replace (2 * (t / 2))%R with t in E by field. rewrite Hc in E. nra. }
  destruct (Rtotal_order t 0) as [Hl|[He|Hg]]; [exfalso| exact He |exfalso].
  - assert (0 < sin (- (t / 2)))%R by (apply sin_gt_0; lra). rewrite sin_neg in H. lra.
  - assert (0 < sin (t / 2))%R by (apply sin_gt_0; lra). lra.
Qed.
(** sums of roots of unity *)
Lemma root_sum n d : (- Z.of_nat n < d < Z.of_nat n)%Z ->
  csum n (fun t => cis (INR t * (2 * PI * IZR d / INR n))) = if Z.eqb d 0 then RtoC (INR n) else RtoC 0.
Proof.
  intros Hd. destruct (Z.eqb_spec d 0) as [->|Hne].
  - rewrite (csum_ext _ _ (fun _ => RtoC 1)); [rewrite csum_const; ring|].
    intros k _. rewrite <- cis_0. f_equal. unfold Rdiv. ring.
  - assert (Hn : (0 < n)%nat) by lia. assert (HN : (0 < INR n)%R) by (apply lt_0_INR; lia).
    set (t := (2 * PI * IZR d / INR n)%R).
    assert (G := geom_cis t n).
    assert (E1 : cis (INR n * t) = RtoC 1).
    { rewrite <- cis_0. apply (cis_cong _ _ d). unfold t. field. lra. }
    rewrite E1 in G.
    assert (Hz : cis t - 1 <> RtoC 0).
    { intros H. assert (C1 : cis t = RtoC 1) by (replace (cis t) with (cis t - 1 + 1) by ring; rewrite H; ring).
      assert (HP := PI_RGT_0).
      apply cis_eq_1 in C1.
      - unfold t in C1. apply Hne. apply eq_IZR. apply (Rmult_eq_reg_l (2 * PI / INR n)).
        + transitivity (2 * PI * IZR d / INR n)%R; [unfold Rdiv; ring|]. rewrite C1. ring.
        + apply Rgt_not_eq. apply Rdiv_lt_0_compat; lra.
      - assert (Hd1 : (- INR n < IZR d < INR n)%R).
        { rewrite INR_IZR_INZ, <- opp_IZR. split; apply IZR_lt; lia. }
        assert (E : (t = 2 * PI * (IZR d / INR n))%R) by (unfold t, Rdiv; ring).
        assert (B : (-1 < IZR d / INR n < 1)%R).
        { split; apply (Rmult_lt_reg_r (INR n)); try assumption; unfold Rdiv; rewrite Rmult_assoc, Rinv_l by lra; lra. }
        rewrite E. nra. }
    replace (RtoC 1 - 1) with (RtoC 0) in G by ring.
    destruct (Ceq_dec (csum n (fun k => cis (INR k * t))) (RtoC 0)) as [Z|NZ]; [exact Z|].
    exfalso. exact (Cmult_neq_0 _ _ Hz NZ G).
Qed.
