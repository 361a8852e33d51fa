(** The Householder QR factorisation of funpy/qr.py over any semi-inner product space. *)
From Coq Require Import Reals List Arith Bool Lra Lia.
From Coquelicot Require Import Coquelicot.
From Verif Require Import Base ChebModel ChebChop FqrModel.
Import ListNotations.
Open Scope R_scope.

Record semi {X : ModuleSpace R_Ring} (ip : X -> X -> R) : Prop := {
  se_add : forall u v w, ip (plus u v) w = ip u w + ip v w;
  se_scal : forall a u w, ip (scal a u) w = a * ip u w;
  se_sym : forall u w, ip u w = ip w u;
  se_pos : forall u, 0 <= ip u u }.
Record subspace {X : ModuleSpace R_Ring} (S : X -> Prop) : Prop := {
  su_zero : S zero;
  su_add : forall u v, S u -> S v -> S (plus u v);
  su_scal : forall a u, S u -> S (scal a u) }.
Fixpoint vsum {X : ModuleSpace R_Ring} (n : nat) (f : nat -> X) : X :=
  match n with O => zero | S n => plus (vsum n f) (f n) end.
Definition delta (i j : nat) : R := if Nat.eqb i j then 1 else 0.

Section qr.
Context {X : ModuleSpace R_Ring} (ip : X -> X -> R) (nrm : X -> R) (tol : R) (m : nat) (SP : X -> Prop).
Hypothesis IP : semi ip.
Hypothesis SS : subspace SP.
Hypothesis Htol : 0 < tol.

Lemma qi_add_r u v w : ip w (plus u v) = ip w u + ip w v.
Proof. rewrite (se_sym _ IP), (se_add _ IP), !(se_sym _ IP _ w). reflexivity. Qed.
Lemma qi_scal_r a u w : ip w (scal a u) = a * ip w u.
Proof. rewrite (se_sym _ IP), (se_scal _ IP), (se_sym _ IP _ w). reflexivity. Qed.
Lemma minus_scal (u v : X) : minus u v = plus u (scal (-1) v).
Proof. unfold minus. f_equal. change (-1) with (opp one : R_Ring). now rewrite scal_opp_one. Qed.
Lemma qi_minus_l u v w : ip (minus u v) w = ip u w - ip v w.
Proof. rewrite minus_scal, (se_add _ IP), (se_scal _ IP). ring. Qed.
Lemma qi_minus_r u v w : ip w (minus u v) = ip w u - ip w v.
Proof. rewrite (se_sym _ IP), qi_minus_l, !(se_sym _ IP _ w). reflexivity. Qed.
Lemma qi_zero_l w : ip zero w = 0.
Proof. rewrite <- (scal_zero_l (zero : X)). rewrite (se_scal _ IP). change (@zero R_Ring) with 0. ring. Qed.
Lemma su_minus u v : SP u -> SP v -> SP (minus u v).
Proof. intros. rewrite minus_scal. apply (su_add _ SS); [assumption|now apply (su_scal _ SS)]. Qed.
Lemma cs u e : ip e e = 1 -> ip e u * ip e u <= ip u u.
Proof.
  intros He. assert (P := se_pos _ IP (minus u (scal (ip e u) e))).
  rewrite qi_minus_l, !qi_minus_r, !(se_scal _ IP), !qi_scal_r, He, (se_sym _ IP u e) in P. lra.
Qed.
(** Vector identities by linear algebra. *)
Lemma minus_0 (u w : X) : minus u (scal 0 w) = u.
Proof. rewrite minus_scal, scal_assoc. replace (mult (-1) 0 : R_Ring) with (zero : R_Ring) by (unfold mult, zero; cbn; ring). rewrite scal_zero_l. apply plus_zero_r. Qed.

Lemma scal_cancel a (w : X) : plus (scal a w) (scal (- a) w) = zero.
Proof. change (- a) with (opp a : R_Ring). rewrite scal_opp_l. apply plus_opp_r. Qed.
Notation refl := (qr_refl ip).
Lemma refl_add v a b : refl v (plus a b) = plus (refl v a) (refl v b).
Proof.
  unfold qr_refl. rewrite qi_add_r, !minus_scal, !scal_assoc.
  replace (mult (-1) (2 * (ip v a + ip v b)) : R_Ring) with (plus (mult (-1) (2 * ip v a)) (mult (-1) (2 * ip v b)) : R_Ring) by (unfold plus, mult; cbn; ring).
  rewrite scal_distr_r. rewrite <- !plus_assoc. f_equal. rewrite !plus_assoc. f_equal. apply plus_comm.
Qed.
Lemma refl_scal v c a : refl v (scal c a) = scal c (refl v a).
Proof.
  unfold qr_refl. rewrite qi_scal_r, !minus_scal, scal_distr_l, !scal_assoc. do 2 f_equal. unfold mult; cbn. ring.
Qed.
Lemma refl_zero v : refl v zero = zero.
Proof. rewrite <- (scal_zero_l (zero : X)) at 1. rewrite refl_scal. apply scal_zero_l. Qed.
Lemma ip_refl_l v a b : ip (refl v a) b = ip a b - 2 * ip v a * ip v b.
Proof. unfold qr_refl. rewrite qi_minus_l, (se_scal _ IP). ring. Qed.
Lemma ip_refl_r v a b : ip a (refl v b) = ip a b - 2 * ip v b * ip a v.
Proof. unfold qr_refl. rewrite qi_minus_r, qi_scal_r. ring. Qed.
Lemma refl_iso v a b : ip v v = 1 -> ip (refl v a) (refl v b) = ip a b.
Proof. intros H. rewrite ip_refl_l, !ip_refl_r, H, (se_sym _ IP a v). ring. Qed.
Lemma refl_inv v a : ip v v = 1 -> refl v (refl v a) = a.
Proof.
  intros H. unfold qr_refl at 1. rewrite ip_refl_r, H. unfold qr_refl. rewrite !minus_scal, !scal_assoc, <- plus_assoc, <- scal_distr_r.
  replace (plus (mult (-1) (2 * ip v a)) (mult (-1) (2 * (ip v a - 2 * ip v a * 1))) : R_Ring) with (zero : R_Ring) by (unfold plus, mult, zero; cbn; ring).
  rewrite scal_zero_l. apply plus_zero_r.
Qed.
Lemma refl_S v a : SP v -> SP a -> SP (refl v a).
Proof. intros Hv Ha. unfold qr_refl. apply su_minus; [exact Ha|now apply (su_scal _ SS)]. Qed.

(** H_0 H_1 ... H_{k-1} x *)
Fixpoint chain (V : nat -> X) (k : nat) (x : X) : X := match k with O => x | S k => chain V k (refl (V k) x) end.
Lemma chain_add V k : forall a b, chain V k (plus a b) = plus (chain V k a) (chain V k b).
Proof. induction k as [|k IH]; intros a b; cbn; [reflexivity|]. now rewrite refl_add, IH. Qed.
Lemma chain_scal V k : forall c a, chain V k (scal c a) = scal c (chain V k a).
Proof. induction k as [|k IH]; intros c a; cbn; [reflexivity|]. now rewrite refl_scal, IH. Qed.
Lemma chain_zero V k : chain V k zero = zero.
Proof. induction k as [|k IH]; cbn; [reflexivity|]. now rewrite refl_zero. Qed.
Lemma chain_ext V W k : (forall i, (i < k)%nat -> V i = W i) -> forall x, chain V k x = chain W k x.
Proof. induction k as [|k IH]; intros H x; cbn; [reflexivity|]. rewrite H by lia. apply IH. intros; apply H; lia. Qed.
Lemma chain_iso V k : (forall i, (i < k)%nat -> ip (V i) (V i) = 1) -> forall a b, ip (chain V k a) (chain V k b) = ip a b.
Proof. induction k as [|k IH]; intros H a b; cbn; [reflexivity|]. rewrite IH by (intros; apply H; lia). apply refl_iso. apply H. lia. Qed.
Lemma chain_S V k : (forall i, (i < k)%nat -> SP (V i)) -> forall a, SP a -> SP (chain V k a).
Proof. induction k as [|k IH]; intros H a Ha; cbn; [exact Ha|]. apply IH; [intros; apply H; lia|]. apply refl_S; [apply H; lia|exact Ha]. Qed.
Lemma chain_cross V i n e x : (i < n)%nat -> (forall k, (k < n)%nat -> ip (V k) (V k) = 1) -> (forall k, (i < k < n)%nat -> ip e (V k) = 0) ->
  ip (chain V (S i) e) (chain V n x) = ip e x.
Proof.
  revert x. induction n as [|n IH]; intros x Hi U O; [lia|]. destruct (Nat.eq_dec i n) as [->|Hne]; [now apply chain_iso|].
  change (chain V (S n) x) with (chain V n (refl (V n) x)). rewrite IH; [|lia|intros; apply U; lia|intros; apply O; lia].
  rewrite ip_refl_r, (O n) by lia. ring.
Qed.
Lemma back_chain V : forall n Q j, (n <= m)%nat ->
  fold_left (fun Q k => fun j => if Nat.leb k j && Nat.ltb j m then refl (V k) (Q j) else Q j) (rev (seq 0 n)) Q j
  = if Nat.ltb j m then chain V (Nat.min n (S j)) (Q j) else Q j.
Proof.
  induction n as [|n IH]; intros Q j Hn; [cbn [seq rev fold_left Nat.min chain]; now destruct (Nat.ltb j m)|].
  rewrite seq_S, rev_app_distr. change (rev [(0 + n)%nat] ++ rev (seq 0 n)) with (n :: rev (seq 0 n)). cbn [fold_left]. rewrite IH by lia.
  destruct (Nat.ltb_spec j m) as [L|L]; [|rewrite andb_false_r; reflexivity]. rewrite andb_true_r.
  destruct (Nat.leb_spec n j) as [L2|L2].
  - rewrite !Nat.min_l by lia. reflexivity.
  - rewrite !Nat.min_r by lia. reflexivity.
Qed.
Lemma vsum_ext n (f g : nat -> X) : (forall i, (i < n)%nat -> f i = g i) -> vsum n f = vsum n g.
Proof. induction n as [|n IH]; intros H; cbn; [reflexivity|]. rewrite IH by (intros; apply H; lia). rewrite H by lia. reflexivity. Qed.
Lemma vsum_zero_tail n k (f : nat -> X) : (n <= k)%nat -> (forall i, (n <= i < k)%nat -> f i = zero) -> vsum k f = vsum n f.
Proof.
  induction k as [|k IH]; intros L H; [replace n with O by lia; reflexivity|]. destruct (Nat.eq_dec n (S k)) as [->|Hne]; [reflexivity|].
  cbn. rewrite IH by (try lia; intros; apply H; lia). rewrite H by lia. apply plus_zero_r.
Qed.

Context (A0 E0 : nat -> X).
Definition comb (s : qst) (k j : nat) : X := vsum k (fun i => scal (qR s i j) (chain (qV s) (S i) (qE s i))).
(** The residual of column j. *)
Definition small_err (j : nat) (r : R) (err : X) : Prop :=
  err = zero \/ (ip err err <= 4 * (r * r) /\ exists u, SP u /\ ip u u = r * r /\ r < 3 / 2 * (tol * Rmax (nrm (E0 j)) (nrm u))).
Record qinv (k : nat) (s : qst) : Prop := {
  iE : forall i j, (i < m)%nat -> (j < m)%nat -> ip (qE s i) (qE s j) = delta i j;
  iSE : forall j, (j < m)%nat -> SP (qE s j);
  iSA : forall j, (j < m)%nat -> SP (qA s j);
  iSV : forall j, (j < k)%nat -> SP (qV s j);
  iA : forall i j, (i < k)%nat -> (k <= j < m)%nat -> ip (qE s i) (qA s j) = 0;
  iV : forall i, (i < k)%nat -> ip (qV s i) (qV s i) = 1;
  iVE : forall i l, (i < l < k)%nat -> ip (qE s i) (qV s l) = 0;
  iE0 : forall j, (k <= j)%nat -> qE s j = E0 j;
  iR : forall i j, (k <= i \/ j < i)%nat -> qR s i j = 0;
  iRp : forall j, (j < k)%nat -> 0 <= qR s j j;
  iF : forall j, (k <= j < m)%nat -> A0 j = plus (comb s k j) (chain (qV s) k (qA s j));
  iD : forall j, (j < k)%nat -> exists err, A0 j = plus (comb s (S j) j) (chain (qV s) j err) /\ SP err /\ small_err j (qR s j j) err }.

Lemma orth_noop E k v : (forall i, (i < k - 1)%nat -> ip (E i) v = 0) -> qr_orth ip E k v = v.
Proof.
  unfold qr_orth. generalize (k - 1)%nat. intros n. induction n as [|n IH]; intros H; [reflexivity|].
  rewrite seq_S, fold_left_app. cbn [fold_left]. rewrite IH by (intros; apply H; lia). rewrite Nat.add_0_l, H by lia. apply minus_0.
Qed.
Lemma setc_same {A} (F : nat -> A) k v : setc F k v k = v. Proof. unfold setc. now rewrite Nat.eqb_refl. Qed.
Lemma setc_other {A} (F : nat -> A) k v j : j <> k -> setc F k v j = F j. Proof. intros H. unfold setc. destruct (Nat.eqb_spec j k); congruence. Qed.

(** One Householder reflector. *)
Lemma reflector e u scl sg : 0 < scl -> ip e e = 1 -> qr_sign tol (ip e u) scl = Some sg ->
  let Ek := scal sg e in let r := sqrt (ip u u) in
  exists v, qr_unit ip tol Ek (minus (scal r Ek) u) scl = Some v /\ ip v v = 1 /\ ip Ek Ek = 1 /\
    (SP e -> SP u -> SP v) /\ (forall x, ip x e = 0 -> ip x u = 0 -> ip x v = 0) /\
    exists err, u = plus (refl v (scal r Ek)) err /\ (SP e -> SP u -> SP err) /\
      (err = zero \/ (ip err err <= 4 * (r * r) /\ r < 3 / 2 * (tol * scl))).
Proof.
  intros Hs He Hg Ek r. set (t := tol * scl). assert (Ht : 0 < t) by (unfold t; nra).
  assert (Hr : r * r = ip u u) by (apply sqrt_sqrt; apply (se_pos _ IP)). assert (Hr0 : 0 <= r) by apply sqrt_pos.
  assert (Hsg : sg * sg = 1 /\ sg * ip e u <= t).
  { unfold qr_sign in Hg. fold t in Hg. destruct (Rltb (Rabs (ip e u)) t) eqn:B.
    - apply Rltb_true in B. injection Hg as <-. split; [ring|]. assert (L := Rle_abs (ip e u)). lra.
    - destruct (Reqb (Rabs (ip e u)) 0) eqn:B2; [discriminate|]. injection Hg as <-.
      assert (N0 : ip e u <> 0). { intros Z. rewrite Z, Rabs_R0 in B2. unfold Reqb in B2. destruct (Req_EM_T 0 0); [discriminate|congruence]. }
      destruct (Rlt_le_dec 0 (ip e u)) as [P|P].
      + rewrite (Rabs_pos_eq (ip e u)) by lra. replace (ip e u / ip e u) with 1 by (field; lra). rewrite sign_eq_1 by lra. split; [ring|lra].
      + rewrite (Rabs_left (ip e u)) by lra. replace (ip e u / - ip e u) with (-1) by (field; lra). rewrite sign_eq_m1 by lra. split; [ring|lra]. }
  destruct Hsg as [Hsg Hex].
  assert (EE : ip Ek Ek = 1) by (unfold Ek; rewrite (se_scal _ IP), qi_scal_r, He; lra).
  set (ex := ip Ek u). assert (Eex : ex = sg * ip e u) by (unfold ex, Ek; apply (se_scal _ IP)). assert (Hex' : ex <= t) by lra.
  assert (CS := cs u Ek EE). fold ex in CS. rewrite <- Hr in CS.
  set (v0 := minus (scal r Ek) u).
  assert (V0 : ip v0 v0 = 2 * (r * r) - 2 * (r * ex)).
  { unfold v0. rewrite qi_minus_l, !qi_minus_r, !(se_scal _ IP), !qi_scal_r, EE, (se_sym _ IP u Ek). fold ex. rewrite <- Hr. ring. }
  assert (V0u : ip v0 u = r * ex - r * r) by (unfold v0; rewrite qi_minus_l, (se_scal _ IP), <- Hr; fold ex; ring).
  unfold qr_unit. fold t. set (nv := sqrt (ip v0 v0)). assert (Hnv : nv * nv = ip v0 v0) by (apply sqrt_sqrt; apply (se_pos _ IP)). assert (Hnv0 : 0 <= nv) by apply sqrt_pos.
  destruct (Rltb nv t) eqn:B.
  - apply Rltb_true in B. exists Ek. split; [reflexivity|]. split; [exact EE|]. split; [exact EE|].
    split; [intros; now apply (su_scal _ SS)|]. split.
    { intros x H1 H2. unfold Ek. rewrite qi_scal_r, H1. ring. }
    exists (plus u (scal r Ek)). assert (RE : refl Ek (scal r Ek) = scal (- r) Ek).
    { unfold qr_refl. rewrite qi_scal_r, EE, minus_scal, scal_assoc, <- scal_distr_r. f_equal. unfold plus, mult; cbn. ring. }
    split; [|split].
    + rewrite RE. rewrite plus_comm, <- plus_assoc, scal_cancel. now rewrite plus_zero_r.
    + intros H1 H2. apply (su_add _ SS); [exact H2|]. now do 2 apply (su_scal _ SS).
    + right. split.
      * rewrite (se_add _ IP), !qi_add_r, !(se_scal _ IP), !qi_scal_r, EE, (se_sym _ IP u Ek). fold ex. rewrite <- Hr.
        assert (ex <= r) by nra. nra.
      * destruct (Rlt_le_dec r (3 / 2 * t)) as [|L]; [assumption|exfalso]. assert (N2 : nv * nv < t * t) by nra. rewrite Hnv, V0 in N2.
        assert (r * ex <= r * t) by nra. assert (r * (r - t) >= 3 / 2 * t * (1 / 2 * t)) by nra. nra.
  - apply Rltb_false in B. destruct (Reqb nv 0) eqn:B2. { unfold Reqb in B2. destruct (Req_EM_T nv 0); [lra|discriminate]. }
    assert (Nn : 0 < nv) by lra.
    exists (scal (/ nv) v0). split; [reflexivity|].
    assert (U : ip (scal (/ nv) v0) (scal (/ nv) v0) = 1) by (rewrite (se_scal _ IP), qi_scal_r, <- Hnv; field; lra).
    split; [exact U|]. split; [exact EE|]. split.
    { intros H1 H2. apply (su_scal _ SS). unfold v0. apply su_minus; [now do 2 apply (su_scal _ SS)|exact H2]. } split.
    { intros x H1 H2. unfold v0, Ek. rewrite qi_scal_r, qi_minus_r, !qi_scal_r, H1, H2. ring. }
    exists zero. split; [|split; [intros; apply (su_zero _ SS)|now left]]. rewrite plus_zero_r.
    assert (RU : refl (scal (/ nv) v0) u = scal r Ek).
    { unfold qr_refl. rewrite (se_scal _ IP), V0u, minus_scal, !scal_assoc.
      replace (mult (mult (-1) (2 * (/ nv * (r * ex - r * r)))) (/ nv) : R_Ring) with (one : R_Ring).
      - rewrite scal_one. unfold v0, minus. rewrite plus_comm, <- plus_assoc, plus_opp_l. apply plus_zero_r.
      - unfold mult, one; cbn. apply Rmult_eq_reg_l with (nv * nv); [|nra]. transitivity (ip v0 v0); [rewrite Hnv; ring|]. rewrite V0. field. lra. }
    rewrite <- RU. symmetry. now apply refl_inv.
Qed.
Lemma sign_some e u scl : 0 < scl -> exists sg, qr_sign tol (ip e u) scl = Some sg.
Proof.
  intros H. unfold qr_sign. destruct (Rltb (Rabs (ip e u)) (tol * scl)) eqn:B; [eauto|]. apply Rltb_false in B.
  destruct (Reqb (Rabs (ip e u)) 0) eqn:B2; [|eauto]. unfold Reqb in B2. destruct (Req_EM_T (Rabs (ip e u)) 0); [|discriminate]. nra.
Qed.
Hypothesis Hnrm : forall j, (j < m)%nat -> 0 < nrm (E0 j).

Lemma qr_step_inv k s : (k < m)%nat -> qinv k s -> exists s', qr_step ip nrm tol m s k = Some s' /\ qinv (S k) s'.
Proof.
  intros Hk I. set (scl := Rmax (nrm (qE s k)) (nrm (qA s k))).
  assert (Hs : 0 < scl). { assert (L := Rmax_l (nrm (qE s k)) (nrm (qA s k))). fold scl in L. rewrite (iE0 _ _ I k (le_n k)) in L at 1. assert (P := Hnrm k Hk). lra. }
  assert (He : ip (qE s k) (qE s k) = 1) by (rewrite (iE _ _ I k k Hk Hk); unfold delta; now rewrite Nat.eqb_refl).
  destruct (sign_some (qE s k) (qA s k) scl Hs) as [sg Hg].
  destruct (reflector (qE s k) (qA s k) scl sg Hs He Hg) as (v & Hv & U & EE & SV & OV & err & Herr & Serr & Berr).
  unfold qr_step. fold scl. rewrite Hg. set (Ek := scal sg (qE s k)) in *. set (E := setc (qE s) k Ek). set (r := sqrt (ip (qA s k) (qA s k))) in *.
  assert (Hex : forall i, (i < m)%nat -> i <> k -> ip (qE s i) Ek = 0).
  { intros i Hi Hne. unfold Ek. rewrite qi_scal_r, (iE _ _ I i k Hi Hk). unfold delta. destruct (Nat.eqb_spec i k); [contradiction|ring]. }
  assert (OV' : forall i, (i < k)%nat -> ip (qE s i) v = 0).
  { intros i Hi. apply OV; [|apply (iA _ _ I); lia]. rewrite (iE _ _ I i k) by lia. unfold delta. destruct (Nat.eqb_spec i k); [lia|reflexivity]. }
  rewrite orth_noop.
  2:{ intros i Hi. unfold E. rewrite setc_other by lia. rewrite qi_minus_r, qi_scal_r, Hex by lia. rewrite (iA _ _ I) by lia. ring. }
  rewrite Hv. eexists. split; [reflexivity|].
  set (s' := mkQ _ _ _ _).
  assert (SEk : SP Ek) by (apply (su_scal _ SS); apply (iSE _ _ I); exact Hk).
  assert (SV' : SP v) by (apply SV; [apply (iSE _ _ I)|apply (iSA _ _ I)]; exact Hk).
  assert (VS : forall i, (i < k)%nat -> qV s' i = qV s i) by (intros i Hi; apply setc_other; lia).
  assert (VK : qV s' k = v) by apply setc_same.
  assert (ES : forall i, i <> k -> qE s' i = qE s i) by (intros i Hi; now apply setc_other).
  assert (EK : qE s' k = Ek) by apply setc_same.
  assert (AS : forall j, (S k <= j < m)%nat -> qA s' j = qr_col ip Ek v (qA s j)).
  { intros j Hj. unfold s'; cbn [qA qE qV qR]. destruct (Nat.ltb_spec k j); [|lia]. destruct (Nat.ltb_spec j m); [reflexivity|lia]. }
  assert (RS : forall i j, i <> k -> qR s' i j = qR s i j) by (intros i j Hi; unfold s'; cbn [qA qE qV qR]; destruct (Nat.eqb_spec i k); [contradiction|reflexivity]).
  assert (RKK : qR s' k k = r) by (unfold s'; cbn [qA qE qV qR]; now rewrite Nat.eqb_refl).
  assert (RKJ : forall j, (S k <= j < m)%nat -> qR s' k j = qr_row ip Ek v (qA s j)).
  { intros j Hj. unfold s'; cbn [qA qE qV qR]. rewrite Nat.eqb_refl. destruct (Nat.eqb_spec j k); [lia|]. destruct (Nat.ltb_spec k j); [|lia]. destruct (Nat.ltb_spec j m); [reflexivity|lia]. }
  assert (CS : forall n j, (n <= k)%nat -> comb s' n j = comb s n j).
  { intros n j Hn. apply vsum_ext. intros i Hi. rewrite RS, ES by lia. f_equal. apply chain_ext. intros l Hl. apply VS. lia. }
  assert (CH : forall x, chain (qV s') (S k) x = chain (qV s) k (refl v x)).
  { intros x. change (chain (qV s') (S k) x) with (chain (qV s') k (refl (qV s' k) x)). rewrite VK. apply chain_ext. exact VS. }
  assert (SC : forall a, SP a -> SP (qr_col ip Ek v a)).
  { intros a Ha. unfold qr_col. apply su_minus; [now apply refl_S|now apply (su_scal _ SS)]. }
  constructor.
  - intros i j Hi Hj. destruct (Nat.eq_dec i k) as [->|Ni]; destruct (Nat.eq_dec j k) as [->|Nj].
    + rewrite EK. unfold delta. now rewrite Nat.eqb_refl.
    + rewrite EK, ES by exact Nj. rewrite (se_sym _ IP), Hex by assumption. unfold delta. destruct (Nat.eqb_spec k j); [lia|reflexivity].
    + rewrite EK, ES by exact Ni. rewrite Hex by assumption. unfold delta. destruct (Nat.eqb_spec i k); [lia|reflexivity].
    + rewrite !ES by assumption. now apply (iE _ _ I).
  - intros j Hj. destruct (Nat.eq_dec j k) as [->|Nj]; [now rewrite EK|]. rewrite ES by exact Nj. now apply (iSE _ _ I).
  - intros j Hj. unfold s'; cbn [qA qE qV qR]. destruct (Nat.ltb k j && Nat.ltb j m); [apply SC|]; now apply (iSA _ _ I).
  - intros j Hj. destruct (Nat.eq_dec j k) as [->|Nj]; [now rewrite VK|]. rewrite VS by lia. apply (iSV _ _ I). lia.
  - intros i j Hi Hj. rewrite AS by exact Hj. unfold qr_col. rewrite qi_minus_r, qi_scal_r. destruct (Nat.eq_dec i k) as [->|Ni].
    + rewrite EK, EE. unfold qr_row. ring.
    + rewrite ES by exact Ni. rewrite Hex by lia. rewrite ip_refl_r, OV' by lia. rewrite (iA _ _ I) by lia. ring.
  - intros i Hi. destruct (Nat.eq_dec i k) as [->|Ni]; [now rewrite VK|]. rewrite VS by lia. apply (iV _ _ I). lia.
  - intros i l Hl. rewrite ES by lia. destruct (Nat.eq_dec l k) as [->|Ni]; [rewrite VK; apply OV'; lia|]. rewrite VS by lia. apply (iVE _ _ I). lia.
  - intros j Hj. rewrite ES by lia. apply (iE0 _ _ I). lia.
  - intros i j Hij. unfold s'; cbn [qA qE qV qR]. destruct (Nat.eqb_spec i k) as [->|Ni]; [|apply (iR _ _ I); lia].
    destruct (Nat.eqb_spec j k) as [->|Nj]; [lia|]. destruct (Nat.ltb_spec k j); [lia|]. apply (iR _ _ I). lia.
  - intros j Hj. destruct (Nat.eq_dec j k) as [->|Nj]; [rewrite RKK; apply sqrt_pos|]. rewrite RS by exact Nj. apply (iRp _ _ I). lia.
  - intros j Hj. rewrite (iF _ _ I j) by lia. change (comb s' (S k) j) with (plus (comb s' k j) (scal (qR s' k j) (chain (qV s') (S k) (qE s' k)))).
    rewrite CS by lia. rewrite EK, RKJ by exact Hj. rewrite <- plus_assoc. f_equal. rewrite <- chain_scal, <- chain_add, CH. f_equal.
    rewrite AS by exact Hj. unfold qr_col. rewrite plus_comm. unfold minus at 1. rewrite <- plus_assoc, plus_opp_l, plus_zero_r. symmetry. now apply refl_inv.
  - intros j Hj. destruct (Nat.eq_dec j k) as [->|Nj].
    + exists err. split; [|split].
      * rewrite (iF _ _ I k) by lia. change (comb s' (S k) k) with (plus (comb s' k k) (scal (qR s' k k) (chain (qV s') (S k) (qE s' k)))).
        rewrite CS by lia. rewrite EK, RKK. rewrite <- plus_assoc. f_equal. rewrite <- chain_scal, CH. rewrite (chain_ext (qV s') (qV s) k VS). rewrite <- chain_add. f_equal. exact Herr.
      * apply Serr; [apply (iSE _ _ I)|apply (iSA _ _ I)]; exact Hk.
      * rewrite RKK. destruct Berr as [Z|[B1 B2]]; [now left|right]. split; [exact B1|]. exists (qA s k). split; [apply (iSA _ _ I); exact Hk|]. split.
        -- symmetry. apply sqrt_sqrt. apply (se_pos _ IP).
        -- unfold scl in B2. rewrite (iE0 _ _ I k (le_n k)) in B2. exact B2.
    + destruct (iD _ _ I j ltac:(lia)) as (er & F & SE & B). exists er. split; [|split; [exact SE|]].
      * rewrite CS by lia. rewrite F. f_equal. symmetry. apply chain_ext. intros l Hl. apply VS. lia.
      * rewrite RS by exact Nj. exact B.
Qed.
Lemma qr_loop_inv : forall n k s, (k + n = m)%nat -> qinv k s -> exists s', qr_loop ip nrm tol m s (seq k n) = Some s' /\ qinv m s'.
Proof.
  induction n as [|n IH]; intros k s H I; [exists s; replace m with k by lia; cbn; auto|].
  cbn [seq qr_loop]. destruct (qr_step_inv k s ltac:(lia) I) as (s1 & -> & I1). apply IH; [lia|exact I1].
Qed.
Theorem abstractQR_ok :
  (forall i j, (i < m)%nat -> (j < m)%nat -> ip (E0 i) (E0 j) = delta i j) ->
  (forall j, (j < m)%nat -> SP (E0 j) /\ SP (A0 j)) ->
  exists Q R, abstractQR ip nrm tol m A0 E0 = Some (Q, R) /\
    (forall i j, (i < m)%nat -> (j < m)%nat -> ip (Q i) (Q j) = delta i j) /\
    (forall j, (j < m)%nat -> SP (Q j)) /\
    (forall i j, (j < i)%nat -> R i j = 0) /\ (forall j, (j < m)%nat -> 0 <= R j j) /\
    (forall j, (j < m)%nat -> exists err, A0 j = plus (vsum m (fun i => scal (R i j) (Q i))) err /\ SP err /\ small_err j (R j j) err).
Proof.
  intros HE HS. destruct (qr_loop_inv m 0 (mkQ A0 E0 A0 (fun _ _ => 0))) as (s & Hs & I); [lia| |].
  { constructor; cbn [qA qE qV qR]; try (intros; lia); try (intros; reflexivity); try exact HE; try (intros j Hj; now apply HS).
    intros j Hj. cbn. now rewrite plus_zero_l. }
  unfold abstractQR. rewrite Hs. eexists. eexists. split; [reflexivity|].
  assert (QJ : forall j, (j < m)%nat -> qr_back ip m (qV s) (qE s) j = chain (qV s) (S j) (qE s j)).
  { intros j Hj. unfold qr_back. rewrite back_chain by lia. destruct (Nat.ltb_spec j m); [|lia]. now rewrite Nat.min_r by lia. }
  assert (O : forall i j, (i <= j < m)%nat -> ip (chain (qV s) (S i) (qE s i)) (chain (qV s) (S j) (qE s j)) = delta i j).
  { intros i j H. rewrite chain_cross; [apply (iE _ _ I); lia|lia|intros; apply (iV _ _ I); lia|intros; apply (iVE _ _ I); lia]. }
  split; [|split; [|split; [|split]]].
  - intros i j Hi Hj. rewrite !QJ by assumption. destruct (Nat.le_ge_cases i j) as [L|L]; [apply O; lia|].
    rewrite (se_sym _ IP), O by lia. unfold delta. now rewrite Nat.eqb_sym.
  - intros j Hj. rewrite QJ by exact Hj. apply chain_S; [intros; apply (iSV _ _ I); lia|apply (iSE _ _ I); exact Hj].
  - intros i j H. apply (iR _ _ I). lia.
  - intros j Hj. now apply (iRp _ _ I).
  - intros j Hj. destruct (iD _ _ I j Hj) as (err & F & SE & B). exists (chain (qV s) j err). split; [|split].
    + rewrite F at 1. f_equal. rewrite (vsum_zero_tail (S j) m) by (try lia; intros i Hi; rewrite (iR _ _ I) by lia; apply (scal_zero_l (K := R_Ring))).
      apply vsum_ext. intros i Hi. now rewrite QJ by lia.
    + apply chain_S; [intros; apply (iSV _ _ I); lia|exact SE].
    + destruct B as [->|[B1 B2]]; [left; apply chain_zero|right]. split; [|exact B2]. rewrite chain_iso by (intros; apply (iV _ _ I); lia). exact B1.
Qed.
End qr.
