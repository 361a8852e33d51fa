(** Proofs: multiplication of Chebyshev series by circular convolution. *)
From Coq Require Import Reals ZArith List Lia Lra Arith Bool.
From Verif Require Import Base ChebSpec ChebMath ChebModel ChebEval ChebDct.
Import ListNotations.
Open Scope R_scope.

(** indices of Z/P without mod *)
Definition addP (P i j : nat) : nat := if Nat.ltb (i + j) P then (i + j)%nat else (i + j - P)%nat.
Definition subP (P i j : nat) : nat := if Nat.leb j i then (i - j)%nat else (i + P - j)%nat.

Lemma mod_wrap a P : (a < 2 * P)%nat -> (a mod P = if Nat.ltb a P then a else a - P)%nat.
Proof.
  intros H. destruct (Nat.ltb_spec a P); [apply Nat.mod_small; lia|].
  replace a with ((a - P) + 1 * P)%nat at 1 by lia. rewrite Nat.mod_add by lia. apply Nat.mod_small. lia.
Qed.

Lemma rsum_rot P i g : (i < P)%nat -> rsum P (fun j => g (addP P i j)) = rsum P g.
Proof.
  intros Hi. replace P with ((P - i) + i)%nat at 1 by lia. rewrite rsum_app.
  replace (rsum P g) with (rsum (i + (P - i)) g) by (f_equal; lia).
  rewrite rsum_app. rewrite Rplus_comm. f_equal.
  - apply rsum_ext. intros k Hk. f_equal. unfold addP.
    destruct (Nat.ltb_spec (i + (P - i + k)) P); lia.
  - apply rsum_ext. intros k Hk. f_equal. unfold addP.
    destruct (Nat.ltb_spec (i + k) P); lia.
Qed.

Lemma rsum_reflect P g : (1 <= P)%nat -> rsum P (fun j => g (subP P 0 j)) = rsum P g.
Proof.
  intros HP. destruct P as [|p]; [lia|]. rewrite !rsum_S_l. f_equal.
  rewrite <- (rsum_rev p (fun k => g (S k))). apply rsum_ext. intros k Hk. f_equal.
  unfold subP. destruct (Nat.leb_spec (S k) 0); lia.
Qed.

Definition tau (P : nat) (x : R) (i : nat) : R := T (Nat.min i (P - i)) x.

Lemma tau_mul L P x i j : P = (2 * L - 1)%nat -> (1 <= L)%nat -> (i < P)%nat -> (j < P)%nat ->
  (Nat.min i (P - i) + Nat.min j (P - j) <= L - 1)%nat ->
  tau P x (addP P i j) + tau P x (subP P i j) = 2 * (tau P x i * tau P x j).
Proof.
  intros HP HL Hi Hj Hw. unfold tau.
  set (ri := Nat.min i (P - i)) in *. set (rj := Nat.min j (P - j)) in *.
  assert (E : forall a b, ((a = ri + rj /\ b = Nat.max ri rj - Nat.min ri rj) \/
                       (b = ri + rj /\ a = Nat.max ri rj - Nat.min ri rj))%nat ->
              T a x + T b x = 2 * (T ri x * T rj x)).
  { intros a b Hab. destruct (le_ge_dec rj ri) as [H|H].
    - rewrite (T_mul ri rj x H). rewrite (Nat.max_l ri rj), (Nat.min_r ri rj) in Hab by lia.
      destruct Hab as [[-> ->]|[-> ->]]; ring.
    - rewrite (Rmult_comm (T ri x)), (T_mul rj ri x H).
      rewrite (Nat.max_r ri rj), (Nat.min_l ri rj) in Hab by lia.
      replace (rj + ri)%nat with (ri + rj)%nat by lia.
      destruct Hab as [[-> ->]|[-> ->]]; ring. }
  apply E.
  assert (Ci : (i = ri \/ (i = P - ri /\ 0 < ri /\ ri <= P))%nat) by (unfold ri; lia).
  assert (Cj : (j = rj \/ (j = P - rj /\ 0 < rj /\ rj <= P))%nat) by (unfold rj; lia).
  clearbody ri rj. clear E.
  assert (Dx : (Nat.max ri rj - Nat.min ri rj = if Nat.leb ri rj then rj - ri else ri - rj)%nat)
    by (destruct (Nat.leb_spec ri rj); lia).
  rewrite Dx. clear Dx. unfold addP, subP.
  destruct Ci as [->|[-> [Ci Ci']]], Cj as [->|[-> [Cj Cj']]]; [left|right|right|left];
    destruct (Nat.leb_spec ri rj); split;
    repeat match goal with
           | |- context [Nat.ltb ?a ?b] => destruct (Nat.ltb_spec a b)
           | |- context [Nat.leb ?a ?b] => destruct (Nat.leb_spec a b)
           end; try lia.
Qed.

Lemma even_ext_length c : (1 <= length c)%nat -> length (even_ext c) = (2 * length c - 1)%nat.
Proof.
  intros H. unfold even_ext. rewrite app_length, rev_length.
  set (t := upd c 0 _). assert (Lt : length t = length c) by apply upd_length.
  destruct t as [|a t]; cbn [length tl] in *; lia.
Qed.

Lemma even_ext_nth c i : (1 <= length c)%nat -> (i < 2 * length c - 1)%nat ->
  nth i (even_ext c) 0 = (if Nat.eqb i 0 then 2 else 1) * nth (Nat.min i (2 * length c - 1 - i)) c 0.
Proof.
  intros H Hi. unfold even_ext. set (t := upd c 0 _).
  assert (Lt : length t = length c) by apply upd_length.
  destruct (lt_dec i (length c)) as [L|L].
  - rewrite app_nth1 by lia. rewrite Nat.min_l by lia.
    destruct (Nat.eqb_spec i 0) as [->|H0]; unfold t.
    + rewrite upd_same by lia. reflexivity.
    + rewrite upd_other by lia. ring.
  - rewrite app_nth2 by lia. rewrite Nat.min_r by lia.
    destruct (Nat.eqb_spec i 0); [lia|].
    assert (Htl : length (tl t) = (length c - 1)%nat) by (destruct t; cbn [length tl] in *; lia).
    rewrite rev_nth by lia. rewrite Htl, Lt.
    replace (nth (length c - 1 - S (i - length c)) (tl t) 0)
       with (nth (2 * length c - 1 - i) t 0).
    2:{ replace (2 * length c - 1 - i)%nat with (S (length c - 1 - S (i - length c))) by lia.
        destruct t as [|a t']; [cbn [length] in *; lia|]. reflexivity. }
    unfold t. rewrite upd_other by lia. ring.
Qed.

Lemma evalT_S c x : (1 <= length c)%nat ->
  evalT c x = nth 0 c 0 + rsum (length c - 1) (fun k => nth (S k) c 0 * T (S k) x).
Proof.
  intros H. unfold evalT. replace (length c) with (S (length c - 1)) at 1 by lia.
  rewrite rsum_S_l. simpl (T 0 x). ring.
Qed.

Lemma even_ext_sum c x : (1 <= length c)%nat ->
  rsum (2 * length c - 1) (fun i => nth i (even_ext c) 0 * tau (2 * length c - 1) x i) = 2 * evalT c x.
Proof.
  intros H. set (L := length c) in *.
  set (F := fun i => (if Nat.eqb i 0 then 2 else 1) *
     (nth (Nat.min i (2 * L - 1 - i)) c 0 * T (Nat.min i (2 * L - 1 - i)) x)).
  rewrite (rsum_ext _ _ F).
  2:{ intros i Hi. rewrite even_ext_nth by (unfold L in *; lia). unfold tau, F. fold L. ring. }
  replace (2 * L - 1)%nat with (S ((L - 1) + (L - 1))) by lia.
  rewrite rsum_S_l, rsum_app.
  assert (A : rsum (L - 1) (fun k => F (S k)) = rsum (L - 1) (fun k => nth (S k) c 0 * T (S k) x)).
  { apply rsum_ext. intros k Hk. unfold F.
    replace (Nat.min (S k) (2 * L - 1 - S k)) with (S k) by lia. cbn [Nat.eqb]. ring. }
  assert (B : rsum (L - 1) (fun k => F (S (L - 1 + k))) = rsum (L - 1) (fun k => nth (S k) c 0 * T (S k) x)).
  { rewrite <- (rsum_rev (L - 1) (fun k => F (S (L - 1 + k)))).
    apply rsum_ext. intros k Hk. unfold F. cbn [Nat.eqb].
    replace (Nat.min (S (L - 1 + (L - 1 - 1 - k))) (2 * L - 1 - S (L - 1 + (L - 1 - 1 - k)))) with (S k) by lia.
    ring. }
  rewrite A, B. rewrite evalT_S by exact H. fold L.
  unfold F. cbn [Nat.eqb]. rewrite Nat.min_0_l. simpl (T 0 x). ring.
Qed.

Lemma circ_length a b : length (circ a b) = length a.
Proof. apply mk_length. Qed.

Lemma circ_nth a b k : (k < length a)%nat ->
  nth k (circ a b) 0 = rsum (length a) (fun i => nth i a 0 * nth (subP (length a) k i) b 0).
Proof.
  intros Hk. unfold circ. rewrite nth_mk by lia. apply rsum_ext. intros i Hi. do 2 f_equal.
  rewrite mod_wrap by lia. unfold subP.
  destruct (Nat.ltb_spec (k + length a - i) (length a)), (Nat.leb_spec i k); lia.
Qed.

Lemma circ_sum a b g : length b = length a -> (1 <= length a)%nat ->
  rsum (length a) (fun k => nth k (circ a b) 0 * g k) =
  rsum (length a) (fun i => rsum (length a) (fun j => nth i a 0 * nth j b 0 * g (addP (length a) i j))).
Proof.
  intros Hb Ha. set (P := length a) in *.
  rewrite (rsum_ext P _ (fun k => rsum P (fun i => nth i a 0 * nth (subP P k i) b 0 * g k))).
  2:{ intros k Hk. rewrite circ_nth by exact Hk. fold P. rewrite <- rsum_scal_r. reflexivity. }
  rewrite rsum_swap. apply rsum_ext. intros i Hi.
  rewrite <- (rsum_rot P i (fun k => nth i a 0 * nth (subP P k i) b 0 * g k)) by exact Hi.
  apply rsum_ext. intros j Hj. do 3 f_equal. unfold subP, addP.
  destruct (Nat.ltb_spec (i + j) P).
  - destruct (Nat.leb_spec i (i + j)); lia.
  - destruct (Nat.leb_spec i (i + j - P)); lia.
Qed.

Lemma coeff_times1_length fc gc : length gc = length fc -> (1 <= length fc)%nat ->
  length (coeff_times1 fc gc) = length fc.
Proof.
  intros H1 H2. unfold coeff_times1. rewrite firstn_length, mk_length, circ_length, even_ext_length by lia. lia.
Qed.

Lemma coeff_times1_correct fc gc x p q :
  length gc = length fc -> (1 <= p)%nat -> (1 <= q)%nat -> (p + q - 1 <= length fc)%nat ->
  (forall i, (p <= i)%nat -> nth i fc 0 = 0) -> (forall i, (q <= i)%nat -> nth i gc 0 = 0) ->
  evalT (coeff_times1 fc gc) x = evalT fc x * evalT gc x.
Proof.
  intros Hlen Hp Hq Hpq Hf Hg.
  set (L := length fc) in *. assert (HL : (1 <= L)%nat) by lia.
  set (P := (2 * L - 1)%nat).
  assert (La : length (even_ext fc) = P) by (apply even_ext_length; exact HL).
  assert (Lb : length (even_ext gc) = P) by (unfold P; rewrite <- Hlen; apply even_ext_length; lia).
  set (C := circ (even_ext fc) (even_ext gc)).
  assert (LC : length C = P) by (unfold C; rewrite circ_length; exact La).
  (* left side *)
  assert (E1 : 4 * evalT (coeff_times1 fc gc) x = rsum P (fun k => nth k C 0 * tau P x k)).
  { unfold evalT. rewrite coeff_times1_length by lia. fold L.
    unfold coeff_times1. fold C. rewrite LC. fold L.
    rewrite <- rsum_scal.
    rewrite (rsum_ext L _ (fun k => (match k with O => nth 0 C 0 | _ => nth k C 0 + nth (P - k) C 0 end) * T k x)).
    2:{ intros k Hk. rewrite nth_firstn_lt by exact Hk. rewrite nth_mk by (unfold P; lia). field. }
    replace L with (S (L - 1)) at 1 by lia. rewrite rsum_S_l.
    transitivity (rsum (S ((L - 1) + (L - 1))) (fun k => nth k C 0 * tau P x k)).
    2:{ f_equal. unfold P; lia. }
    rewrite (rsum_S_l (L - 1 + (L - 1))), rsum_app.
    rewrite (rsum_ext (L - 1) _ (fun k => nth (S k) C 0 * T (S k) x + nth (P - S k) C 0 * T (S k) x)) by (intros; ring).
    rewrite rsum_plus.
    assert (A0 : tau P x 0 = T 0 x) by reflexivity. rewrite A0.
    rewrite (rsum_ext (L - 1) (fun k => nth (S k) C 0 * tau P x (S k)) (fun k => nth (S k) C 0 * T (S k) x)).
    2:{ intros k Hk. unfold tau. rewrite Nat.min_l by (unfold P; lia). reflexivity. }
    rewrite <- (rsum_rev (L - 1) (fun k => nth (S (L - 1 + k)) C 0 * tau P x (S (L - 1 + k)))).
    rewrite (rsum_ext (L - 1) (fun k => nth (S (L - 1 + (L - 1 - 1 - k))) C 0 * _)
               (fun k => nth (P - S k) C 0 * T (S k) x)).
    2:{ intros k Hk. replace (S (L - 1 + (L - 1 - 1 - k))) with (P - S k)%nat by (unfold P; lia).
        unfold tau. rewrite Nat.min_r by (unfold P; lia).
        replace (P - (P - S k))%nat with (S k) by (unfold P; lia). reflexivity. }
    ring. }
  (* right side *)
  assert (E2 : rsum P (fun k => nth k C 0 * tau P x k) = 4 * (evalT fc x * evalT gc x)).
  { unfold C. rewrite <- La. rewrite circ_sum by lia. rewrite La.
    set (a := even_ext fc) in *. set (b := even_ext gc) in *.
    assert (bsym : forall j, (j < P)%nat -> nth (subP P 0 j) b 0 = nth j b 0).
    { intros j Hj. unfold b. destruct j as [|j]; [reflexivity|].
      unfold subP. destruct (Nat.leb_spec (S j) 0); [lia|].
      rewrite !even_ext_nth by (unfold P in *; lia). rewrite Hlen. fold P.
      destruct (Nat.eqb_spec (0 + P - S j) 0); [lia|]. cbn [Nat.eqb].
      do 2 f_equal. fold L. fold P. lia. }
    assert (R1 : rsum P (fun i => rsum P (fun j => nth i a 0 * nth j b 0 * tau P x (addP P i j))) =
                 rsum P (fun i => rsum P (fun j => nth i a 0 * nth j b 0 * tau P x (subP P i j)))).
    { apply rsum_ext. intros i Hi.
      rewrite <- (rsum_reflect P (fun j => nth i a 0 * nth j b 0 * tau P x (addP P i j))) by (unfold P; lia).
      apply rsum_ext. intros j Hj. rewrite bsym by exact Hj. do 2 f_equal.
      unfold addP, subP.
      destruct (Nat.leb_spec j 0); [replace j with 0%nat by lia; rewrite ?Nat.sub_0_r;
         destruct (Nat.ltb_spec (i + 0) P), (Nat.leb_spec 0 i); lia|].
      destruct (Nat.ltb_spec (i + (0 + P - j)) P), (Nat.leb_spec j i); lia. }
    assert (R2 : 2 * rsum P (fun i => rsum P (fun j => nth i a 0 * nth j b 0 * tau P x (addP P i j))) =
                 2 * (rsum P (fun i => nth i a 0 * tau P x i) * rsum P (fun j => nth j b 0 * tau P x j))).
    { replace (2 * rsum P (fun i => rsum P (fun j => nth i a 0 * nth j b 0 * tau P x (addP P i j))))
        with (rsum P (fun i => rsum P (fun j => nth i a 0 * nth j b 0 * tau P x (addP P i j))) +
              rsum P (fun i => rsum P (fun j => nth i a 0 * nth j b 0 * tau P x (subP P i j))))
        by (rewrite <- R1; ring).
      rewrite <- rsum_plus, rsum_mul, <- rsum_scal. apply rsum_ext. intros i Hi.
      rewrite <- rsum_plus, <- rsum_scal. apply rsum_ext. intros j Hj.
      rewrite <- Rmult_plus_distr_l.
      destruct (le_lt_dec p (Nat.min i (P - i))) as [A|A].
      { assert (nth i a 0 = 0) as ->; [|ring].
        unfold a. rewrite even_ext_nth by (fold L; lia). fold L P. rewrite Hf by lia. ring. }
      destruct (le_lt_dec q (Nat.min j (P - j))) as [B|B].
      { assert (nth j b 0 = 0) as ->; [|ring].
        unfold b. rewrite even_ext_nth by (unfold P in *; lia). rewrite Hlen. fold P. rewrite Hg by lia. ring. }
      rewrite (tau_mul L P x i j) by (try reflexivity; unfold P in *; lia). ring. }
    assert (Sa := even_ext_sum fc x HL). fold L P a in Sa.
    assert (Sb := even_ext_sum gc x ltac:(lia)). rewrite Hlen in Sb. fold P b in Sb.
    rewrite Sa, Sb in R2. lra. }
  lra.
Qed.

Lemma pad_length k c : length (pad k c) = (length c + k)%nat.
Proof. unfold pad. rewrite app_length, mk_length. reflexivity. Qed.
Lemma pad_nth k c i : nth i (pad k c) 0 = nth i c 0.
Proof.
  unfold pad. destruct (lt_dec i (length c)) as [H|H].
  - apply app_nth1. exact H.
  - rewrite app_nth2 by lia. rewrite (nth_overflow c) by lia.
    destruct (lt_dec (i - length c) k).
    + rewrite nth_mk by lia. reflexivity.
    + rewrite nth_mk_out by lia. reflexivity.
Qed.
Lemma pad_eval k c x : evalT (pad k c) x = evalT c x.
Proof.
  rewrite (evalT_ge c x (length c + k)) by lia. unfold evalT. rewrite pad_length.
  apply rsum_ext. intros i _. rewrite pad_nth. reflexivity.
Qed.

(** the unsimplified product of two columns *)
Lemma product_correct f g x : (1 <= length f)%nat -> (1 <= length g)%nat ->
  evalT (coeff_times1 (pad (length g - 1) f) (pad (length f - 1) g)) x = evalT f x * evalT g x.
Proof.
  intros Hf Hg. rewrite (coeff_times1_correct _ _ x (length f) (length g)).
  - rewrite !pad_eval. reflexivity.
  - rewrite !pad_length. lia.
  - exact Hf.
  - exact Hg.
  - rewrite pad_length. lia.
  - intros i Hi. rewrite pad_nth. apply nth_overflow. exact Hi.
  - intros i Hi. rewrite pad_nth. apply nth_overflow. exact Hi.
Qed.

Lemma product_length f g : (1 <= length f)%nat -> (1 <= length g)%nat ->
  length (coeff_times1 (pad (length g - 1) f) (pad (length f - 1) g)) = (length f + length g - 1)%nat.
Proof.
  intros Hf Hg. rewrite coeff_times1_length; rewrite !pad_length; lia.
Qed.
