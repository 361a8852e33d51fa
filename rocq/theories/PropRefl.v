(** C166: tiling by reflections. *)
From Coq Require Import Reals List Arith Bool Lra Lia.
From Coquelicot Require Import Coquelicot.
From Verif Require Import Base ReflModel.
Import ListNotations.
Open Scope R_scope.

(** the triangle wave with n teeth starting from 1: the argument at which f is to be evaluated *)
Definition tile_arg (n k : nat) (x : R) : R := if Nat.odd k then INR k - INR n * x else INR n * x - INR (k - 1).
Lemma in_tile_true n k x : in_tile n k x = true <-> INR (k - 1) / INR n <= x <= INR k / INR n.
Proof. unfold in_tile. destruct (Rle_dec (INR (k-1) / INR n) x), (Rle_dec x (INR k / INR n)); split; intros; try discriminate; try reflexivity; lra. Qed.
Lemma clip_id y a b : a <= y <= b -> clip y a b = y.
Proof. intros H. unfold clip. rewrite Rmax_left by lra. apply Rmin_left. lra. Qed.
Lemma scale n k x : (0 < n)%nat -> (1 <= k)%nat -> INR (k - 1) / INR n <= x <= INR k / INR n -> INR (k - 1) <= INR n * x <= INR k.
Proof.
  intros Hn Hk [H1 H2]. assert (Z : 0 < INR n) by (apply lt_0_INR; lia). split.
  - apply (Rmult_le_compat_l (INR n)) in H1; [|lra]. replace (INR n * (INR (k - 1) / INR n)) with (INR (k - 1)) in H1 by (field; lra). exact H1.
  - apply (Rmult_le_compat_l (INR n)) in H2; [|lra]. replace (INR n * (INR k / INR n)) with (INR k) in H2 by (field; lra). exact H2.
Qed.
Lemma pred_INR k : (1 <= k)%nat -> INR (k - 1) = INR k - 1.
Proof. intros H. rewrite minus_INR by lia. reflexivity. Qed.
Lemma tile_val f n k x : (0 < n)%nat -> (1 <= k)%nat -> INR (k - 1) / INR n <= x <= INR k / INR n ->
  (if Nat.odd k then odd_tile f 0 1 n (k - 1) x else even_tile f 0 1 n (k - 1) x) = f (tile_arg n k x) /\ 0 <= tile_arg n k x <= 1.
Proof.
  intros Hn Hk Hx. pose proof (scale n k x Hn Hk Hx) as S. pose proof (pred_INR k Hk) as P. assert (Z : 0 < INR n) by (apply lt_0_INR; lia).
  unfold odd_tile, even_tile, tile_arg. destruct (Nat.odd k).
  - replace (INR n * (1 / INR n - (x - INR (k - 1) / INR n))) with (INR k - INR n * x) by (rewrite P; field; lra). split; [rewrite clip_id by lra; reflexivity|lra].
  - replace (INR n * (x - INR (k - 1) / INR n)) with (INR n * x - INR (k - 1)) by (field; lra). split; [rewrite clip_id by lra; reflexivity|lra].
Qed.
(** neighbouring tiles agree where they meet *)
Lemma tile_meet n k j x : (0 < n)%nat -> (1 <= j)%nat -> (j < k)%nat -> INR (j - 1) / INR n <= x <= INR j / INR n -> INR (k - 1) / INR n <= x <= INR k / INR n -> k = S j /\ tile_arg n k x = tile_arg n j x.
Proof.
  intros Hn Hj Hk H1 H2. pose proof (scale n j x Hn Hj H1) as S1. pose proof (scale n k x Hn ltac:(lia) H2) as S2.
  assert (L : INR (k - 1) <= INR j) by lra. apply INR_le in L. assert (E : k = S j) by lia. subst k. split; [reflexivity|].
  replace (S j - 1)%nat with j in * by lia. assert (X : INR n * x = INR j) by lra. unfold tile_arg. rewrite Nat.odd_succ, <- Nat.negb_odd. replace (S j - 1)%nat with j by lia. rewrite X, (pred_INR j Hj), S_INR. destruct (Nat.odd j); cbn [negb]; ring.
Qed.
Lemma loop_val f n x k : (0 < n)%nat -> (1 <= k)%nat -> INR (k - 1) / INR n <= x <= INR k / INR n -> forall m, (k <= m)%nat -> reflect_loop f 0 1 n m x = Some (f (tile_arg n k x)).
Proof.
  intros Hn Hk Hx m Hm. induction m as [|m IH]; [lia|].
  assert (E0 : reflect_loop f 0 1 n (S m) x = if in_tile n (S m) x then Some (if Nat.odd (S m) then odd_tile f 0 1 n (S m - 1) x else even_tile f 0 1 n (S m - 1) x) else reflect_loop f 0 1 n m x).
  { unfold reflect_loop at 1. rewrite seq_S, fold_left_app. reflexivity. }
  rewrite E0. destruct (in_tile n (S m) x) eqn:E.
  - apply in_tile_true in E. destruct (tile_val f n (S m) x Hn ltac:(lia) E) as [-> _]. do 2 f_equal. destruct (Nat.eq_dec k (S m)) as [->|N]; [reflexivity|]. apply (proj2 (tile_meet n (S m) k x Hn Hk ltac:(lia) Hx E)).
  - apply IH. destruct (Nat.eq_dec k (S m)) as [->|N]; [|lia]. apply in_tile_true in Hx. congruence.
Qed.

(** C166: on the k-th tile of two or more the result is f, stretched over the tile, reversed on the odd tiles; the tiles fit together. *)
Theorem C166_tiles_partial : forall f n k x, (2 <= n)%nat -> (1 <= k <= n)%nat -> INR (k - 1) / INR n <= x <= INR k / INR n ->
  reflect f 0 1 n x = Some (f (if Nat.odd k then INR k - INR n * x else INR n * x - INR (k - 1))).
Proof.
  intros f n k x Hn Hk Hx. unfold reflect. destruct (Nat.eqb_spec n 1); [lia|]. apply (loop_val f n x k); try lia. exact Hx.
Qed.
Print Assumptions C166_tiles_partial.
(** every point of [0,1] is in a tile *)
Lemma tile_exists n x : (0 < n)%nat -> 0 <= x <= 1 -> exists k, (1 <= k <= n)%nat /\ INR (k - 1) / INR n <= x <= INR k / INR n.
Proof.
  intros Hn Hx. assert (Z : 0 < INR n) by (apply lt_0_INR; lia).
  assert (D : forall j, (0 < j <= n)%nat -> INR n * x <= INR j -> exists k, (1 <= k <= j)%nat /\ INR (k - 1) <= INR n * x <= INR k).
  { induction j as [|j IH]; intros Hj H; [lia|]. destruct (Rle_dec (INR j) (INR n * x)) as [L|L].
    - exists (S j). split; [lia|]. replace (S j - 1)%nat with j by lia. lra.
    - destruct j as [|j]; [exfalso; apply L; cbn; apply Rmult_le_pos; lra|]. destruct (IH ltac:(lia) ltac:(lra)) as (k & K1 & K2). exists k. split; [lia|exact K2]. }
  destruct (D n ltac:(lia)) as (k & K1 & K2 & K3). { rewrite <- (Rmult_1_r (INR n)) at 2. apply Rmult_le_compat_l; lra. }
  exists k. split; [exact K1|]. split; apply (Rmult_le_reg_l (INR n)); try lra; [replace (INR n * (INR (k - 1) / INR n)) with (INR (k - 1)) by (field; lra)|replace (INR n * (INR k / INR n)) with (INR k) by (field; lra)]; assumption.
Qed.
(** C166: on [0,1] the result is always defined, a value of f on [0,1], and a function of even period 2/n about every tile end: points at the same distance from a tile end have the same value. *)
Theorem C166_mirror_partial : forall f n k x y, (2 <= n)%nat -> (1 <= k < n)%nat -> INR (k - 1) / INR n <= x <= INR k / INR n -> y = 2 * (INR k / INR n) - x ->
  reflect f 0 1 n x = reflect f 0 1 n y /\ exists t, 0 <= t <= 1 /\ reflect f 0 1 n x = Some (f t).
Proof.
  intros f n k x y Hn Hk Hx ->. assert (Z : 0 < INR n) by (apply lt_0_INR; lia).
  rewrite (C166_tiles_partial f n k x Hn ltac:(lia) Hx). split.
  - rewrite (C166_tiles_partial f n (S k)); [|lia|lia|].
    + do 2 f_equal. rewrite Nat.odd_succ, <- Nat.negb_odd. replace (S k - 1)%nat with k by lia. rewrite (pred_INR k) by lia. rewrite S_INR. destruct (Nat.odd k); cbn [negb]; field; lra.
    + replace (S k - 1)%nat with k by lia. rewrite S_INR. rewrite (pred_INR k) in Hx by lia. replace ((INR k + 1) / INR n) with (INR k / INR n + / INR n) by (field; lra). replace ((INR k - 1) / INR n) with (INR k / INR n - / INR n) in Hx by (field; lra). lra.
  - exists (tile_arg n k x). split; [apply (tile_val f n k x); try lia; exact Hx|reflexivity].
Qed.
Print Assumptions C166_mirror_partial.
(** C166: the integral over [0,1] is kept. *)
Lemma tile_int (f : R -> R) n k (g : R -> R) : (2 <= n)%nat -> (1 <= k <= n)%nat -> (forall x, 0 <= x <= 1 -> reflect f 0 1 n x = Some (g x)) -> ex_RInt f 0 1 -> is_RInt g (INR (k - 1) / INR n) (INR k / INR n) (RInt f 0 1 / INR n).
Proof.
  intros Hn Hk HG EI. assert (Z : 0 < INR n) by (apply lt_0_INR; lia). assert (Z1 : 0 < / INR n) by (apply Rinv_0_lt_compat; lra). pose proof (pred_INR k ltac:(lia)) as P.
  assert (KN : INR k <= INR n) by (apply le_INR; lia). assert (K1 : 1 <= INR k) by (apply (le_INR 1); lia).
  assert (LE : INR (k - 1) / INR n <= INR k / INR n) by (apply Rmult_le_compat_r; lra).
  assert (L0 : 0 <= INR (k - 1) / INR n) by (apply Rmult_le_pos; [apply pos_INR|lra]).
  assert (L1 : INR k / INR n <= 1) by (apply (Rmult_le_reg_r (INR n)); [lra|]; unfold Rdiv; rewrite Rmult_assoc, Rinv_l by lra; lra).
  assert (EXT : forall u v, (forall x, INR (k - 1) / INR n <= x <= INR k / INR n -> tile_arg n k x = u * x + v) -> forall l, is_RInt (fun x => f (u * x + v)) (INR (k - 1) / INR n) (INR k / INR n) l -> is_RInt g (INR (k - 1) / INR n) (INR k / INR n) l).
  { intros u v HT l HI. apply (is_RInt_ext (fun x => f (u * x + v))); [|exact HI]. intros x Hx. rewrite Rmin_left, Rmax_right in Hx by exact LE.
    assert (V := C166_tiles_partial f n k x Hn Hk ltac:(lra)). rewrite HG in V by lra. injection V as ->. fold (tile_arg n k x). rewrite HT by lra. reflexivity. }
  destruct (Nat.odd k) eqn:O.
  - apply (EXT (- INR n) (INR k)). { intros x _. unfold tile_arg. rewrite O. ring. }
    assert (I1 : is_RInt f ((- INR n) * (INR (k - 1) / INR n) + INR k) ((- INR n) * (INR k / INR n) + INR k) (- RInt f 0 1)).
    { replace (- INR n * (INR (k - 1) / INR n) + INR k) with 1 by (rewrite P; field; lra). replace (- INR n * (INR k / INR n) + INR k) with 0 by (field; lra). apply (is_RInt_swap (V := R_NormedModule) f 1 0 (RInt f 0 1)). exact (RInt_correct (V := R_CompleteNormedModule) f 0 1 EI). }
    apply is_RInt_comp_lin in I1. apply (is_RInt_scal _ _ _ (- / INR n)) in I1. assert (EE : @eq R (scal (- / INR n) (- RInt f 0 1)) (RInt f 0 1 / INR n)) by (unfold scal; cbn; unfold mult; cbn; field; lra). rewrite <- EE. clear EE.
    refine (is_RInt_ext _ _ _ _ _ _ I1). intros x _. unfold scal; cbn; unfold mult; cbn. field. lra.
  - apply (EXT (INR n) (- INR (k - 1))). { intros x _. unfold tile_arg. rewrite O. ring. }
    assert (I1 : is_RInt f (INR n * (INR (k - 1) / INR n) + - INR (k - 1)) (INR n * (INR k / INR n) + - INR (k - 1)) (RInt f 0 1)).
    { replace (INR n * (INR (k - 1) / INR n) + - INR (k - 1)) with 0 by (field; lra). replace (INR n * (INR k / INR n) + - INR (k - 1)) with 1 by (rewrite P; field; lra). exact (RInt_correct (V := R_CompleteNormedModule) f 0 1 EI). }
    apply is_RInt_comp_lin in I1. apply (is_RInt_scal _ _ _ (/ INR n)) in I1. assert (EE : @eq R (scal (/ INR n) (RInt f 0 1)) (RInt f 0 1 / INR n)) by (unfold scal; cbn; unfold mult; cbn; field; lra). rewrite <- EE. clear EE.
    refine (is_RInt_ext _ _ _ _ _ _ I1). intros x _. unfold scal; cbn; unfold mult; cbn. field. lra.
Qed.
Theorem C166_integral_partial : forall f n g, (2 <= n)%nat -> (forall x, 0 <= x <= 1 -> reflect f 0 1 n x = Some (g x)) -> ex_RInt f 0 1 -> is_RInt g 0 1 (RInt f 0 1).
Proof.
  intros f n g Hn HG EI. assert (Z : 0 < INR n) by (apply lt_0_INR; lia).
  assert (S : forall k, (k <= n)%nat -> is_RInt g 0 (INR k / INR n) (INR k * (RInt f 0 1 / INR n))).
  { induction k as [|k IH]; intros Hk.
    - cbn [INR]. replace (0 / INR n) with 0 by (field; lra). rewrite Rmult_0_l. apply (is_RInt_point g 0).
    - rewrite S_INR at 2. rewrite Rmult_plus_distr_r, Rmult_1_l. apply (is_RInt_Chasles g 0 (INR k / INR n)).
      + apply IH. lia.
      + pose proof (tile_int f n (S k) g Hn ltac:(lia) HG EI) as T. replace (S k - 1)%nat with k in T by lia. exact T. }
  specialize (S n ltac:(lia)). replace (INR n / INR n) with 1 in S by (field; lra). assert (EE : @eq R (INR n * (RInt f 0 1 / INR n)) (RInt f 0 1)) by (unfold Rdiv; rewrite (Rmult_comm (RInt f 0 1)), <- Rmult_assoc, Rinv_r, Rmult_1_l by lra; reflexivity). rewrite EE in S. exact S.
Qed.
Print Assumptions C166_integral_partial.
(** C166: one tile is f itself, but the first of several is f reversed, so the left end value jumps from f(0) to f(1). *)
Theorem C166_first_refuted : forall f, reflect f 0 1 1 0 = Some (f 0) /\ forall n, (2 <= n)%nat -> reflect f 0 1 n 0 = Some (f 1).
Proof.
  intros f. split; [reflexivity|]. intros n Hn. assert (Z : 0 < INR n) by (apply lt_0_INR; lia). rewrite (C166_tiles_partial f n 1 0 Hn); [cbn; do 2 f_equal; ring|lia|].
  cbn [Nat.sub INR]. split; [apply Req_le; field; lra|]. apply Rmult_le_pos; [lra|]. left. apply Rinv_0_lt_compat, Z.
Qed.
Print Assumptions C166_first_refuted.
(** C166: for a function on another interval the tiles do not contain it: on [0, b], b > 1, the values of f beyond 1 never occur, and points of the domain beyond 1 are not written at all. *)
Theorem C166_domain_refuted : forall f b n x, 1 < b -> (2 <= n)%nat ->
  (0 <= x <= 1 -> exists t, 0 <= t <= 1 /\ reflect f 0 b n x = Some (f t)) /\ (1 < x -> reflect f 0 b n x = None).
Proof.
  intros f b n x Hb Hn. assert (Z : 0 < INR n) by (apply lt_0_INR; lia). unfold reflect. destruct (Nat.eqb_spec n 1); [lia|].
  assert (G : forall m, (m <= n)%nat -> (reflect_loop f 0 b n m x = None \/ exists t, 0 <= t <= 1 /\ reflect_loop f 0 b n m x = Some (f t)) /\
     (forall k, (1 <= k <= m)%nat -> INR (k - 1) / INR n <= x <= INR k / INR n -> reflect_loop f 0 b n m x <> None) /\ (1 < x -> reflect_loop f 0 b n m x = None)).
  { induction m as [|m IH]; intros Hm; [split; [left; reflexivity|split; [intros; lia|intros; reflexivity]]|]. destruct (IH ltac:(lia)) as (I1 & I2 & I3).
    assert (E : reflect_loop f 0 b n (S m) x = if in_tile n (S m) x then Some (if Nat.odd (S m) then odd_tile f 0 b n (S m - 1) x else even_tile f 0 b n (S m - 1) x) else reflect_loop f 0 b n m x).
    { unfold reflect_loop at 1. rewrite seq_S, fold_left_app. reflexivity. }
    rewrite E. destruct (in_tile n (S m) x) eqn:ET.
    - apply in_tile_true in ET. pose proof (scale n (S m) x ltac:(lia) ltac:(lia) ET) as SC. pose proof (pred_INR (S m) ltac:(lia)) as P. split; [right|split; [intros; discriminate|]].
      + unfold odd_tile, even_tile. destruct (Nat.odd (S m)).
        * replace (INR n * (1 / INR n - (x - INR (S m - 1) / INR n))) with (INR (S m) - INR n * x) by (rewrite P; field; lra). exists (INR (S m) - INR n * x). split; [lra|]. rewrite clip_id by lra. reflexivity.
        * replace (INR n * (x - INR (S m - 1) / INR n)) with (INR n * x - INR (S m - 1)) by (field; lra). exists (INR n * x - INR (S m - 1)). split; [lra|]. rewrite clip_id by lra. reflexivity.
      + intros Hx. exfalso. assert (INR (S m) <= INR n) by (apply le_INR; lia). assert (INR n * 1 < INR n * x) by (apply Rmult_lt_compat_l; lra). lra.
    - split; [exact I1|]. split; [|exact I3]. intros k Hk Hx. destruct (Nat.eq_dec k (S m)) as [->|N]; [apply in_tile_true in Hx; congruence|]. apply (I2 k); [lia|exact Hx]. }
  destruct (G n ltac:(lia)) as (G1 & G2 & G3). split; [|exact G3]. intros Hx. destruct (tile_exists n x ltac:(lia) Hx) as (k & Hk & Hkx). specialize (G2 k Hk Hkx). destruct G1 as [G1|G1]; [contradiction|exact G1].
Qed.
Print Assumptions C166_domain_refuted.
(** a case: f(t) = t, 3 tiles, at x = 1/2: the middle of the second tile *)
Example C166_ex : (2 <= 3)%nat /\ INR (2 - 1) / INR 3 <= 1 / 2 <= INR 2 / INR 3 /\ reflect (fun t => t) 0 1 3 (1 / 2) = Some (1 / 2) /\ ex_RInt (fun t : R => t) 0 1.
Proof.
  split; [lia|]. assert (H : INR (2 - 1) / INR 3 <= 1 / 2 <= INR 2 / INR 3) by (cbn [Nat.sub INR]; lra). split; [exact H|]. split.
  - rewrite (C166_tiles_partial _ 3 2 (1/2) ltac:(lia) ltac:(lia) H). cbn [Nat.odd Nat.even negb Nat.sub]. f_equal. cbn [INR]. lra.
  - apply (ex_RInt_continuous (V := R_CompleteNormedModule)). intros z _. apply continuous_id.
Qed.
