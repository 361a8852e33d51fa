(** Proofs about standardChop, simplify_coeffs, happiness. *)
From Coq Require Import Reals ZArith List Lia Lra Arith Bool.
From Verif Require Import Base ChebSpec ChebMath ChebModel ChebEval CosSums ChebDct.
Import ListNotations.
Open Scope R_scope.

Lemma Rltb_true a b : Rltb a b = true <-> a < b.
Proof. unfold Rltb. destruct (Rlt_dec a b); split; intros; congruence || lra. Qed.
Lemma Rltb_false a b : Rltb a b = false <-> b <= a.
Proof. unfold Rltb. destruct (Rlt_dec a b); split; intros; congruence || lra. Qed.
Lemma Rleb_true a b : Rleb a b = true <-> a <= b.
Proof. unfold Rleb. destruct (Rle_dec a b); split; intros; congruence || lra. Qed.
Lemma Rleb_false a b : Rleb a b = false <-> b < a.
Proof. unfold Rleb. destruct (Rle_dec a b); split; intros; congruence || lra. Qed.
Lemma Reqb_true a b : Reqb a b = true <-> a = b.
Proof. unfold Reqb. destruct (Req_EM_T a b); split; intros; congruence. Qed.
Lemma Reqb_false a b : Reqb a b = false <-> a <> b.
Proof. unfold Reqb. destruct (Req_EM_T a b); split; intros; congruence. Qed.

(** ** envelope *)
Lemma envelope_cons a b t : envelope (a :: b :: t) = Rmax (Rabs a) (hd 0 (envelope (b :: t))) :: envelope (b :: t).
Proof. reflexivity. Qed.

Lemma envelope_length c : length (envelope c) = length c.
Proof.
  induction c as [|a [|b t] IH]; [reflexivity..|]. rewrite envelope_cons. cbn [length] in *. lia.
Qed.

Lemma hd_nth0 (l : list R) : hd 0 l = nth 0 l 0. Proof. destruct l; reflexivity. Qed.

Lemma envelope_step c j : (S j < length c)%nat ->
  nth j (envelope c) 0 = Rmax (Rabs (nth j c 0)) (nth (S j) (envelope c) 0).
Proof.
  revert j. induction c as [|a c IH]; intros j Hj; [simpl in Hj; lia|].
  destruct c as [|b t]; [simpl in Hj; lia|].
  rewrite envelope_cons. destruct j as [|j].
  - cbn [nth]. rewrite hd_nth0. reflexivity.
  - change (nth (S j) (Rmax (Rabs a) (hd 0 (envelope (b :: t))) :: envelope (b :: t)) 0) with (nth j (envelope (b :: t)) 0).
    change (nth (S (S j)) (Rmax (Rabs a) (hd 0 (envelope (b :: t))) :: envelope (b :: t)) 0) with (nth (S j) (envelope (b :: t)) 0).
    change (nth (S j) (a :: b :: t) 0) with (nth j (b :: t) 0).
    apply IH. cbn [length] in *. lia.
Qed.

Lemma envelope_last c j : length c = S j -> nth j (envelope c) 0 = Rabs (nth j c 0).
Proof.
  revert j. induction c as [|a c IH]; intros j Hj; [simpl in Hj; lia|].
  destruct c as [|b t].
  - simpl in Hj. assert (j = 0)%nat as -> by lia. reflexivity.
  - rewrite envelope_cons. destruct j as [|j]; [simpl in Hj; lia|].
    change (nth (S j) (Rmax (Rabs a) (hd 0 (envelope (b :: t))) :: envelope (b :: t)) 0) with (nth j (envelope (b :: t)) 0).
    change (nth (S j) (a :: b :: t) 0) with (nth j (b :: t) 0).
    apply IH. cbn [length] in *. lia.
Qed.

Lemma envelope_ge c j : Rabs (nth j c 0) <= nth j (envelope c) 0.
Proof.
  destruct (lt_dec (S j) (length c)).
  - rewrite envelope_step by lia. apply Rmax_l.
  - destruct (Nat.eq_dec (length c) (S j)).
    + rewrite envelope_last by lia. lra.
    + rewrite !nth_overflow by (rewrite ?envelope_length; lia). rewrite Rabs_R0. lra.
Qed.

Lemma envelope_mono1 c j : nth (S j) (envelope c) 0 <= nth j (envelope c) 0.
Proof.
  destruct (lt_dec (S j) (length c)).
  - rewrite (envelope_step c j) by lia. apply Rmax_r.
  - rewrite (nth_overflow (envelope c)) by (rewrite envelope_length; lia).
    eapply Rle_trans; [apply Rabs_pos|apply envelope_ge].
Qed.

Lemma envelope_mono c i j : (i <= j)%nat -> nth j (envelope c) 0 <= nth i (envelope c) 0.
Proof.
  induction 1 as [|j H IH]; [lra|]. eapply Rle_trans; [apply envelope_mono1|exact IH].
Qed.

Lemma envelope_nonneg c j : 0 <= nth j (envelope c) 0.
Proof. eapply Rle_trans; [apply Rabs_pos|apply envelope_ge]. Qed.

Lemma envelope_bound c i j : (j <= i)%nat -> Rabs (nth i c 0) <= nth j (envelope c) 0.
Proof. intros H. eapply Rle_trans; [apply envelope_ge|apply envelope_mono; exact H]. Qed.

(** the normalisation loop changes entry 0 only *)
Lemma upd_id l i v : nth i l 0 = v -> upd l i v = l.
Proof.
  intros H. apply list_ext with 0; [apply upd_length|]. intros k Hk. rewrite upd_length in Hk.
  destruct (Nat.eq_dec k i) as [->|Hne]; [rewrite upd_same by lia; congruence|apply upd_other; exact Hne].
Qed.

Lemma normalize_env_eq e : nth 0 e 0 <> 0 -> normalize_env e = upd e 0 1.
Proof.
  intros H. unfold normalize_env. destruct e as [|a e]; [reflexivity|].
  set (l := a :: e) in *. cbn [length seq fold_left].
  change (length l) with (S (length e)). cbn [seq fold_left].
  replace (nth 0 l 0 / nth 0 l 0) with 1 by (field; exact H).
  assert (G : forall js e', nth 0 e' 0 = 1 ->
     fold_left (fun e j => upd e j (nth j e 0 / nth 0 e 0)) js e' = e').
  { induction js as [|j js IH]; intros e' He'; [reflexivity|]. cbn [fold_left].
    rewrite upd_id; [apply IH; exact He'|]. rewrite He'. field. }
  apply G. apply upd_same. unfold l. simpl. lia.
Qed.

(** ** the scan *)
Lemma scan_inv fuel j n env tol :
  length env = n -> (1 <= j)%nat -> (n <= j + fuel)%nat -> (j < n)%nat ->
  match scan fuel j n env tol with
  | SReturn => True
  | SBreak k k2 => (j <= k)%nat /\ k2 = round125 k /\ (k2 < n)%nat /\
      (nth k env 0 = 0 \/ r_fun (nth k env 0) tol < nth k2 env 0 / nth k env 0) /\
      (forall i, (j <= i < k)%nat -> nth i env 0 <> 0)
  | _ => False
  end.
Proof.
  revert j. induction fuel as [|fuel IH]; intros j Hlen Hj Hf Hjn; [lia|].
  cbn [scan]. destruct (Nat.leb_spec n (round125 j)) as [H|H]; [exact I|].
  assert (J2 : (j <= round125 j)%nat).
  { unfold round125. apply Nat.div_le_lower_bound; lia. }
  rewrite (nth_error_nth' env 0) by lia. rewrite (nth_error_nth' env 0) by lia.
  destruct (Reqb (nth j env 0) 0) eqn:E0.
  { apply Reqb_true in E0. repeat split; auto; lia. }
  destruct (Rltb _ _) eqn:E1.
  { apply Rltb_true in E1. repeat split; auto; lia. }
  apply Reqb_false in E0.
  assert (j + 1 <= round125 j)%nat.
  { unfold round125. apply Nat.div_le_lower_bound; lia. }
  specialize (IH (S j) Hlen ltac:(lia) ltac:(lia) ltac:(lia)).
  destruct (scan fuel (S j) n env tol) as [|k k2| |]; auto.
  destruct IH as [A [B [C [D F]]]]. repeat split; auto; try lia.
  intros i Hi. destruct (Nat.eq_dec i j) as [->|]; [exact E0|apply F; lia].
Qed.

Lemma argmin_from_spec l i best b (f : nat -> R) :
  (best < i)%nat -> b = f best ->
  (forall k, (k < length l)%nat -> nth k l 0 = f (i + k)%nat) ->
  (forall k, (k < i)%nat -> b <= f k) ->
  let d := argmin_from i best b l in
  (d < i + length l)%nat /\ forall k, (k < i + length l)%nat -> f d <= f k.
Proof.
  revert i best b. induction l as [|a l IH]; intros i best b Hbi Hb Hl Hmin; cbn [argmin_from length].
  - rewrite Nat.add_0_r. split; [exact Hbi|]. intros k Hk. subst b. apply Hmin. exact Hk.
  - assert (Ha : a = f i) by (specialize (Hl 0%nat ltac:(simpl; lia)); rewrite Nat.add_0_r in Hl; exact Hl).
    assert (Hl' : forall k, (k < length l)%nat -> nth k l 0 = f (S i + k)%nat).
    { intros k Hk. specialize (Hl (S k) ltac:(simpl; lia)). cbn [nth] in Hl. rewrite Hl. f_equal. lia. }
    replace (i + S (length l))%nat with (S i + length l)%nat by lia.
    destruct (Rltb a b) eqn:E.
    + apply Rltb_true in E. apply IH; auto; try lia.
      intros k Hk. destruct (Nat.eq_dec k i) as [->|]; [lra|]. specialize (Hmin k ltac:(lia)). lra.
    + apply Rltb_false in E. apply IH; auto; try lia.
      intros k Hk. destruct (Nat.eq_dec k i) as [->|]; [lra|]. apply Hmin. lia.
Qed.

Lemma argmin_mk n f : (1 <= n)%nat ->
  exists d, argmin (mk n f) = Some d /\ (d < n)%nat /\ forall k, (k < n)%nat -> f d <= f k.
Proof.
  intros Hn. destruct n as [|n]; [lia|].
  destruct (mk (S n) f) as [|a t] eqn:E.
  { apply (f_equal (@length R)) in E. rewrite mk_length in E. simpl in E. lia. }
  assert (Lt : length t = n).
  { apply (f_equal (@length R)) in E. rewrite mk_length in E. simpl in E. lia. }
  assert (Hnth : forall k, (k < S n)%nat -> nth k (a :: t) 0 = f k).
  { intros k Hk. rewrite <- E. apply nth_mk. exact Hk. }
  exists (argmin_from 1 0 a t). split; [reflexivity|].
  assert (H := argmin_from_spec t 1 0 a f ltac:(lia) (Hnth 0%nat ltac:(lia))).
  cbv zeta in H. rewrite Lt in H. apply H.
  - intros k Hk. rewrite <- (Hnth (1 + k)%nat) by lia. reflexivity.
  - intros k Hk. assert (k = 0)%nat as -> by lia. rewrite <- (Hnth 0%nat) by lia. simpl. lra.
Qed.

Lemma round125_ge j : (4 * round125 j >= 5 * j + 19)%nat.
Proof.
  unfold round125. assert (H := Nat.div_mod (5 * j + 22) 4 ltac:(lia)).
  assert (H2 := Nat.mod_upper_bound (5 * j + 22) 4 ltac:(lia)). lia.
Qed.

Lemma round125_le j : (4 * round125 j <= 5 * j + 22)%nat.
Proof.
  unfold round125. assert (H := Nat.div_mod (5 * j + 22) 4 ltac:(lia)). lia.
Qed.

(** *** C14: total, in range *)
Lemma standardChop_total c tol : exists k, standardChop c tol = Some k /\ (k <= length c)%nat.
Proof.
  unfold standardChop. destruct (Rleb 1 tol); [exists 0%nat; split; [reflexivity|lia]|].
  destruct (Nat.ltb_spec (length c) 17); [eauto|].
  destruct (Reqb _ 0) eqn:E0; [exists 0%nat; split; [reflexivity|lia]|].
  apply Reqb_false in E0. rewrite normalize_env_eq by exact E0.
  set (env := upd (envelope c) 0 1).
  assert (Le : length env = length c) by (unfold env; rewrite upd_length; apply envelope_length).
  assert (H1 := scan_inv (length c - 1) 1 (length c) env tol Le ltac:(lia) ltac:(lia) ltac:(lia)).
  destruct (scan _ _ _ _ _) as [|j j2| |]; [eauto| |contradiction..].
  destruct H1 as [A [B [C [D F]]]].
  assert (H7 := round125_ge j).
  rewrite (nth_error_nth' env 0) by lia.
  destruct (Reqb _ 0); [exists (j - 1)%nat; split; [reflexivity|lia]|].
  set (ptol := Rpower tol (7 / 6)). set (j3 := length (filter _ _)).
  destruct (Nat.ltb_spec j3 j2).
  - destruct (argmin_mk (j3 + 1) (fun i => log10 (nth i (upd env (j3 + 1 - 1) ptol) 0)
       + nth i (linspace0 ((-1/3) * log10 tol) (j3 + 1)) 0) ltac:(lia)) as [d [E1 [E2 _]]].
    rewrite E1. exists (d - 1)%nat. split; [reflexivity|lia].
  - destruct (argmin_mk j2 (fun i => log10 (nth i env 0)
       + nth i (linspace0 ((-1/3) * log10 tol) j2) 0) ltac:(lia)) as [d [E1 [E2 _]]].
    rewrite E1. exists (d - 1)%nat. split; [reflexivity|lia].
Qed.

Lemma standardChop_big_tol c tol : 1 <= tol -> standardChop c tol = Some 0%nat.
Proof. intros H. unfold standardChop. apply Rleb_true in H. rewrite H. reflexivity. Qed.
Lemma standardChop_short c tol : tol < 1 -> (length c < 17)%nat -> standardChop c tol = Some (length c).
Proof.
  intros H1 H2. unfold standardChop. apply Rleb_false in H1. rewrite H1.
  apply Nat.ltb_lt in H2. rewrite H2. reflexivity.
Qed.
Lemma standardChop_zero c tol : (17 <= length c)%nat -> (forall k, nth k c 0 = 0) -> standardChop c tol = Some 0%nat.
Proof.
  intros H2 Hz. unfold standardChop. destruct (Rleb 1 tol); [reflexivity|].
  destruct (Nat.ltb_spec (length c) 17); [lia|].
  assert (nth 0 (envelope c) 0 = 0) as ->.
  { assert (G : forall k j, (j + k = length c - 1)%nat -> nth j (envelope c) 0 = 0).
    { induction k as [|k IH]; intros j Hj.
      - rewrite envelope_last by lia. rewrite Hz. apply Rabs_R0.
      - rewrite envelope_step by lia. rewrite Hz, Rabs_R0, (IH (S j)) by lia. apply Rmax_left. lra. }
    apply (G (length c - 1)%nat). lia. }
  assert (Reqb 0 0 = true) as -> by (apply Reqb_true; reflexivity). reflexivity.
Qed.

(** *** the discarded tail is small *)
Lemma filter_count_prefix (p : R -> bool) (l : list R) :
  (forall i j, (i <= j < length l)%nat -> p (nth j l 0) = true -> p (nth i l 0) = true) ->
  forall i, (i < length l)%nat -> (p (nth i l 0) = true <-> (i < length (filter p l))%nat).
Proof.
  induction l as [|a l IH]; intros H i Hi; [simpl in Hi; lia|].
  cbn [filter]. destruct (p a) eqn:Ea.
  - destruct i as [|i]; cbn [nth length].
    + split; intros; [lia|exact Ea].
    + rewrite IH; [split; lia| |simpl in Hi; lia].
      intros i' j' Hij. apply (H (S i') (S j')). simpl. lia.
  - assert (Hall : forall k, (k < length l)%nat -> p (nth k l 0) = false).
    { intros k Hk. destruct (p (nth k l 0)) eqn:E; [|reflexivity].
      assert (H0 := H 0%nat (S k) ltac:(simpl; lia) E). cbn [nth] in H0. congruence. }
    assert (Hf : filter p l = []).
    { clear -Hall. induction l as [|b l IH]; [reflexivity|]. cbn [filter].
      assert (Hb := Hall 0%nat ltac:(simpl; lia)). cbn [nth] in Hb. rewrite Hb. apply IH. intros k Hk. apply (Hall (S k)). simpl. lia. }
    rewrite Hf. cbn [length]. split; [|lia]. intros Hp. exfalso.
    destruct i as [|i]; cbn [nth] in Hp; [congruence|]. rewrite Hall in Hp by (simpl in Hi; lia). congruence.
Qed.

Lemma ln10_pos : 0 < ln 10. Proof. rewrite <- ln_1. apply ln_increasing; lra. Qed.
Lemma ln_tol_neg tol : 0 < tol < 1 -> ln tol < 0.
Proof. intros H. rewrite <- ln_1. apply ln_increasing; lra. Qed.

Lemma log10_le_Rpower a e tol : 0 < a -> log10 a <= e * log10 tol -> a <= Rpower tol e.
Proof.
  intros Ha H. unfold log10 in H. assert (H10 := ln10_pos).
  assert (ln a <= e * ln tol).
  { apply Rmult_le_reg_r with (/ ln 10); [apply Rinv_0_lt_compat; exact H10|].
    unfold Rdiv in H. lra. }
  unfold Rpower. rewrite <- (exp_ln a Ha). destruct H0 as [H0|H0]; [left; apply exp_increasing; exact H0|right; congruence].
Qed.

Lemma Rpower_anti tol e1 e2 : 0 < tol < 1 -> e2 <= e1 -> Rpower tol e1 <= Rpower tol e2.
Proof.
  intros Ht He. unfold Rpower. assert (Hl := ln_tol_neg tol Ht).
  assert (e1 * ln tol <= e2 * ln tol) by nra.
  destruct H as [H|H]; [left; apply exp_increasing; exact H|right; congruence].
Qed.

Lemma standardChop_tail c tol k : 0 < tol < 1 -> standardChop c tol = Some k -> (k < length c)%nat ->
  forall i, (k < i)%nat -> Rabs (nth i c 0) <= Rpower tol (2 / 5).
Proof.
  intros Ht Hk Hkn i Hi.
  assert (HP : 0 < Rpower tol (2/5)) by apply exp_pos.
  unfold standardChop in Hk.
  assert (Rleb 1 tol = false) as E1 by (apply Rleb_false; lra). rewrite E1 in Hk.
  destruct (Nat.ltb_spec (length c) 17) as [L17|L17]; [injection Hk as <-; lia|].
  destruct (Reqb _ 0) eqn:E0.
  { apply Reqb_true in E0. assert (H := envelope_bound c i 0 ltac:(lia)). rewrite E0 in H. lra. }
  apply Reqb_false in E0. rewrite normalize_env_eq in Hk by exact E0.
  set (env := upd (envelope c) 0 1) in *.
  assert (Le : length env = length c) by (unfold env; rewrite upd_length; apply envelope_length).
  assert (env0 : nth 0 env 0 = 1) by (unfold env; apply upd_same; rewrite envelope_length; lia).
  assert (envS : forall j, (1 <= j)%nat -> nth j env 0 = nth j (envelope c) 0)
    by (intros j Hj; unfold env; apply upd_other; lia).
  assert (H1 := scan_inv (length c - 1) 1 (length c) env tol Le ltac:(lia) ltac:(lia) ltac:(lia)).
  destruct (scan _ _ _ _ _) as [|j j2| |]; [injection Hk as <-; lia| |contradiction..].
  destruct H1 as [A [B [C [D F]]]].
  assert (HJ := round125_ge j).
  rewrite (nth_error_nth' env 0) in Hk by lia.
  assert (HJl := round125_le j).
  assert (Hplat : nth (j - 1) env 0 <> 0).
  { destruct (Nat.eq_dec j 1) as [->|]; [replace (1 - 1)%nat with 0%nat by lia; rewrite env0; lra|apply F; lia]. }
  apply Reqb_false in Hplat. rewrite Hplat in Hk.
  set (ptol := Rpower tol (7 / 6)) in *.
  assert (Hlt := ln_tol_neg tol Ht). assert (H10 := ln10_pos).
  assert (Hl10 : log10 tol < 0).
  { unfold log10. apply Rmult_lt_reg_r with (ln 10); [exact H10|]. unfold Rdiv. rewrite Rmult_assoc, Rinv_l; lra. }
  assert (Hp0 : 0 < ptol) by apply exp_pos.
  assert (Hp1 : ptol <= 1).
  { replace 1 with (Rpower tol 0) by (apply Rpower_O; lra). apply Rpower_anti; lra. }
  assert (Hlp : log10 ptol = 7 / 6 * log10 tol).
  { unfold log10, ptol. rewrite ln_Rpower. field. lra. }
  set (p := fun a => Rleb ptol a) in *. fold p in Hk. set (j3 := length (filter p env)) in *.
  assert (Hcnt : forall i, (i < length c)%nat -> (ptol <= nth i env 0 <-> (i < j3)%nat)).
  { intros i' Hi'. unfold j3. rewrite <- (filter_count_prefix p env); [unfold p; rewrite Rleb_true; tauto| |lia].
    intros a b Hab. unfold p. rewrite !Rleb_true. intros Hb.
    destruct a as [|a]; [rewrite env0; exact Hp1|].
    rewrite envS in * by lia. eapply Rle_trans; [exact Hb|]. apply envelope_mono. lia. }
  assert (j3pos : (0 < j3)%nat) by (apply (Hcnt 0%nat); [lia|rewrite env0; exact Hp1]).
  assert (log1 : log10 1 = 0) by (unfold log10; rewrite ln_1; field; lra).
  destruct (Nat.ltb_spec j3 j2) as [HA|HB].
  - set (env' := upd env (j3 + 1 - 1) ptol) in *.
    destruct (argmin_mk (j3 + 1) (fun i => log10 (nth i env' 0)
       + nth i (linspace0 ((-1/3) * log10 tol) (j3 + 1)) 0) ltac:(lia)) as [d [E2 [E3 E4]]].
    rewrite E2 in Hk. injection Hk as Hk.
    assert (Hlast := E4 j3 ltac:(lia)). cbv beta in Hlast.
    replace (nth j3 env' 0) with ptol in Hlast
      by (unfold env'; replace (j3 + 1 - 1)%nat with j3 by lia; symmetry; apply upd_same; lia).
    unfold linspace0 in Hlast. rewrite !nth_mk in Hlast by lia.
    replace (j3 + 1 - 1)%nat with j3 in * by lia.
    assert (Hj3R : 0 < INR j3) by (apply lt_0_INR; lia).
    replace (INR j3 * ((-1/3) * log10 tol / INR j3)) with ((-1/3) * log10 tol) in Hlast by (field; lra).
    rewrite Hlp in Hlast.
    assert (Hlin : 0 <= INR d * ((-1/3) * log10 tol / INR j3)).
    { apply Rmult_le_pos; [apply pos_INR|]. apply Rmult_le_pos; [nra|]. left. apply Rinv_0_lt_compat. exact Hj3R. }
    assert (Hd0 : d <> 0%nat).
    { intros ->. unfold env' in Hlast. rewrite upd_other in Hlast by lia. rewrite env0, log1 in Hlast. nra. }
    assert (Hdi : (d <= i)%nat) by lia.
    assert (Q : Rpower tol (5/6) <= Rpower tol (2/5)) by (apply Rpower_anti; lra).
    eapply Rle_trans; [|exact Q].
    destruct (Nat.eq_dec d j3) as [->|Hd3].
    + assert (Hn : nth j3 env 0 < ptol).
      { apply Rnot_le_lt. intros X. apply Hcnt in X; lia. }
      rewrite envS in Hn by lia. assert (HH := envelope_bound c i j3 ltac:(lia)).
      assert (ptol <= Rpower tol (5/6)) by (apply Rpower_anti; lra). lra.
    + unfold env' in Hlast. rewrite upd_other in Hlast by lia.
      assert (Hge : ptol <= nth d env 0) by (apply Hcnt; lia).
      assert (nth d env 0 <= Rpower tol (5/6)).
      { apply log10_le_Rpower; lra. }
      rewrite envS in H by lia. assert (HH := envelope_bound c i d ltac:(lia)). lra.
  - destruct (argmin_mk j2 (fun i => log10 (nth i env 0)
       + nth i (linspace0 ((-1/3) * log10 tol) j2) 0) ltac:(lia)) as [d [E2 [E3 E4]]].
    rewrite E2 in Hk. injection Hk as Hk.
    assert (Hj := E4 j ltac:(lia)). cbv beta in Hj.
    unfold linspace0 in Hj. rewrite !nth_mk in Hj by lia.
    assert (Hej : ptol <= nth j env 0) by (apply Hcnt; lia).
    assert (Hed : ptol <= nth d env 0) by (apply Hcnt; lia).
    destruct D as [D|D]; [lra|].
    assert (He2 : nth j2 env 0 <= nth j env 0).
    { rewrite !envS by lia. apply envelope_mono. lia. }
    assert (Hq : nth j2 env 0 / nth j env 0 <= 1).
    { apply Rmult_le_reg_r with (nth j env 0); [lra|]. unfold Rdiv. rewrite Rmult_assoc, Rinv_l; lra. }
    assert (Hln : ln (nth j env 0) < 2/3 * ln tol).
    { unfold r_fun in D.
      assert (Hr : 2 / 3 < ln (nth j env 0) / ln tol) by lra.
      apply Rmult_lt_compat_r with (r := - ln tol) in Hr; [|lra].
      replace (ln (nth j env 0) / ln tol * - ln tol) with (- ln (nth j env 0)) in Hr by (field; lra). lra. }
    assert (Hlog : log10 (nth j env 0) < 2/3 * log10 tol).
    { unfold log10. apply Rmult_lt_reg_r with (ln 10); [exact H10|].
      replace (ln (nth j env 0) / ln 10 * ln 10) with (ln (nth j env 0)) by (field; lra).
      replace (2/3 * (ln tol / ln 10) * ln 10) with (2/3 * ln tol) by (field; lra). exact Hln. }
    assert (Hj2R : 0 < INR (j2 - 1)) by (apply lt_0_INR; lia).
    assert (Hfrac : INR j / INR (j2 - 1) <= 4/5).
    { apply Rmult_le_reg_r with (INR (j2 - 1)); [exact Hj2R|].
      unfold Rdiv at 1. rewrite Rmult_assoc, Rinv_l by lra. rewrite Rmult_1_r.
      assert (HN : (5 * j <= 4 * (j2 - 1))%nat) by lia.
      apply le_INR in HN. rewrite !mult_INR in HN. change (INR 5) with (2+1+1+1) in HN || idtac.
      replace (INR 5) with 5 in HN by (simpl; lra). replace (INR 4) with 4 in HN by (simpl; lra). lra. }
    assert (Hfj : INR j * ((-1/3) * log10 tol / INR (j2 - 1)) <= 4/5 * ((-1/3) * log10 tol)).
    { replace (INR j * ((-1/3) * log10 tol / INR (j2 - 1))) with (INR j / INR (j2 - 1) * ((-1/3) * log10 tol)) by (field; lra).
      apply Rmult_le_compat_r; [nra|exact Hfrac]. }
    assert (Hlin : 0 <= INR d * ((-1/3) * log10 tol / INR (j2 - 1))).
    { apply Rmult_le_pos; [apply pos_INR|]. apply Rmult_le_pos; [nra|]. left. apply Rinv_0_lt_compat. exact Hj2R. }
    assert (Hd0 : d <> 0%nat).
    { intros ->. rewrite env0, log1 in Hj. simpl (INR 0) in Hj. rewrite Rmult_0_l in Hj. lra. }
    assert (nth d env 0 <= Rpower tol (2/5)).
    { apply log10_le_Rpower; lra. }
    rewrite envS in H by lia. assert (HH := envelope_bound c i d ltac:(lia)). lra.
Qed.
