(** C197: exact laws of the evaluation of a periodic function in floating point. *)
From Coq Require Import Reals List Arith Lia Lra Bool ZArith.
From Coquelicot Require Import Coquelicot.
From Flocq Require Import Core.
From Verif Require Import Base ToolsProofs TrigSpec TrigBase TrigModel TrigTrans TrigEval TrigObj FlModel FlProofs FlSum FlMap FlTrigModel FlTrig FlTrig2 PropFlT.
Import ListNotations.
Open Scope R_scope.
Local Opaque uro eta.

(** a complex number made of two doubles *)
Definition is_cdouble (a : C) : Prop := is_double (fst a) /\ is_double (snd a).
(** coefficients of x |-> f(-x) for a real function f, and of -f *)
Definition mirrored (c : list C) : list C := map Cconj c.
Definition negated (c : list C) : list C := map Copp c.
(** cos is even and sin is odd in the library *)
Definition libm_parity (L : libm) : Prop := forall t, lcos L (- t) = lcos L t /\ lsin L (- t) = - lsin L t.

(** A constant has its value everywhere. *)
Theorem C197_constant L z a x : ftcall L z false [a] x = a /\ ftcall L z true [a] x = RtoC (Re a).
Proof. split; reflexivity. Qed.
Print Assumptions C197_constant.

Lemma fold_sim {A B : Type} (P : A -> B -> Prop) (g : A -> nat -> A) (h : B -> nat -> B) l a b :
  P a b -> (forall a b j, In j l -> P a b -> P (g a j) (h b j)) -> P (fold_left g l a) (fold_left h l b).
Proof. revert a b. induction l as [|j l IH]; intros a b H0 H; [exact H0|]. cbn [fold_left]. apply IH; [apply H; [left; reflexivity|exact H0]|]. intros a' b' i Hi. apply H. right. exact Hi. Qed.
Lemma map_first (h : C -> C) n c : (h C0 = C0) -> forall j, nth j (rev (firstn n (map h c))) C0 = h (nth j (rev (firstn n c)) C0).
Proof. intros H0 j. rewrite <- H0 at 1. rewrite firstn_map, <- map_rev. apply map_nth. Qed.
Lemma ftouch_map (h : C -> C) c : (forall a, h (fmul (Re a) (/ 2), 0) = (fmul (Re (h a)) (/ 2), 0)) -> ftouch (map h c) = map h (ftouch c).
Proof. intros H. destruct c as [|a t]; [reflexivity|]. unfold ftouch. cbn [map]. rewrite !map_length || idtac. cbn [length]. rewrite map_length. destruct (Nat.even _); cbn [map]; [rewrite H|]; reflexivity. Qed.

(** Reflection: if the library respects parity, f(-x) is exactly the value of the mirrored function at x. *)
Theorem C197_reflection L c x : libm_parity L -> fhorner_real L (mirrored c) (- x) = fhorner_real L c x.
Proof.
  intros HP. unfold fhorner_real, mirrored. rewrite map_length. rewrite ftouch_map by (intros [a b]; apply injective_projections; cbn [fst snd Re Cconj fst snd]; lra).
  assert (Z : Cconj C0 = C0) by (apply injective_projections; cbn; lra). rewrite !(map_first Cconj _ _ Z).
  set (n := ((length c + 2) / 2)%nat). set (c' := rev (firstn n (ftouch c))). destruct (Nat.eqb (length c) 1); [reflexivity|].
  assert (T : fmul fpi (- x) = - fmul fpi x) by (unfold fmul; rewrite <- fl_opp; f_equal; ring). rewrite T. destruct (HP (fmul fpi x)) as [-> ->]. set (u := lcos L (fmul fpi x)). set (v := lsin L (fmul fpi x)).
  set (w1 := fold_left _ _ (Cconj _)). set (w2 := fold_left _ _ (nth _ _ _)).
  assert (W : w1 = Cconj w2).
  { unfold w1, w2. apply (fold_sim (fun a b => a = Cconj b)); [reflexivity|]. intros a b j _ ->. rewrite (map_first Cconj _ _ Z). fold c'. unfold frstep, fadd, fsub, fmul. destruct (nth j c' C0) as [p q], b as [co si]. unfold Cconj. cbn [fst snd].
    replace (- v * - si) with (v * si) by ring. replace (u * - si) with (- (u * si)) by ring. replace (- v * co) with (- (v * co)) by ring. rewrite !fl_opp. f_equal.
    replace (- q + - fl (u * si)) with (- (q + fl (u * si))) by ring. rewrite fl_opp. rewrite <- (fl_opp (fl (q + fl (u * si)) - fl (v * co))). f_equal. ring. }
  rewrite W. destruct w2 as [co si]. unfold Cconj, fmul. cbn [fst snd Re]. replace (- v * - si) with (v * si) by ring. reflexivity.
Qed.
Print Assumptions C197_reflection.

(** A function with real coefficients (an even function) has even values. *)
Theorem C197_even L c x : libm_parity L -> (forall a, In a c -> snd a = 0) -> fhorner_real L c (- x) = fhorner_real L c x.
Proof.
  intros HP H. rewrite <- (C197_reflection L c x HP). f_equal. unfold mirrored. rewrite <- (map_id c) at 1. apply map_ext_in. intros [a b] I. apply H in I. cbn in I. subst b. unfold Cconj. cbn. f_equal. ring.
Qed.
Print Assumptions C197_even.

(** The values of -f are minus the values of f. *)
Lemma fl_neg2 p q : fl (- p + - q) = - fl (p + q).
Proof. rewrite <- fl_opp. f_equal. ring. Qed.
Lemma ftwo_neg z p q : ftwo z (- p) (- q) = - ftwo z p q.
Proof. destruct z; cbn [ftwo]; rewrite ?fl_opp, ?fl_neg2; reflexivity. Qed.
Lemma fcmul_neg z p q : fcmul z p (- q)%C = (- fcmul z p q)%C.
Proof.
  destruct p as [a b], q as [c d]. unfold fcmul. cbn [fst snd Copp]. replace (a * - c) with (- (a * c)) by ring. replace (- (b * - d)) with (- - (b * d)) by ring. replace (a * - d) with (- (a * d)) by ring. replace (b * - c) with (- (b * c)) by ring.
  rewrite !ftwo_neg. reflexivity.
Qed.
Lemma fcadd_neg p q : fcadd (- p)%C (- q)%C = (- fcadd p q)%C.
Proof. destruct p as [a b], q as [c d]. unfold fcadd, fadd. cbn [fst snd Copp]. rewrite !fl_neg2. reflexivity. Qed.
Lemma nth_neg c j : nth j (negated c) C0 = (- nth j c C0)%C.
Proof. unfold negated. replace C0 with (- C0)%C at 1 by (unfold C0; ring). apply map_nth. Qed.
Lemma negative_real L c x : fhorner_real L (negated c) x = - fhorner_real L c x.
Proof.
  unfold fhorner_real, negated. rewrite map_length.
  rewrite ftouch_map by (intros [a b]; unfold Copp, Re, fmul; cbn [fst snd]; rewrite <- fl_opp; f_equal; [f_equal; ring|ring]).
  assert (Z : (- C0)%C = C0) by (unfold C0; ring). rewrite !(map_first Copp _ _ Z).
  set (n := ((length c + 2) / 2)%nat). set (c' := rev (firstn n (ftouch c))). destruct (Nat.eqb (length c) 1); [reflexivity|].
  set (u := lcos L (fmul fpi x)). set (v := lsin L (fmul fpi x)). set (w1 := fold_left _ _ (Copp _)). set (w2 := fold_left _ _ (nth _ _ _)).
  assert (W : w1 = (- w2)%C).
  { unfold w1, w2. apply (fold_sim (fun a b => a = (- b)%C)); [reflexivity|]. intros a b j _ ->. rewrite (map_first Copp _ _ Z). fold c'. unfold frstep, fadd, fsub, fmul. destruct (nth j c' C0) as [p q], b as [co si]. unfold Copp. cbn [fst snd].
    rewrite <- !Ropp_mult_distr_r. rewrite !fl_opp, !fl_neg2. f_equal. rewrite <- (fl_opp (fl (q + fl (u * si)) - fl (v * co))). f_equal. ring. }
  rewrite W. destruct w2 as [co si]. unfold Copp, Re, fadd, fmul. cbn [fst snd]. rewrite <- !Ropp_mult_distr_r. rewrite !fl_opp, !fl_neg2. rewrite <- !Ropp_mult_distr_r, !fl_opp, fl_neg2. reflexivity.
Qed.
Lemma negative_cmplx L z c x : fhorner_cmplx L z (negated c) x = (- fhorner_cmplx L z c x)%C.
Proof.
  assert (Lc : length (negated c) = length c) by apply map_length. unfold fhorner_cmplx. rewrite !Lc, !nth_neg. destruct (Nat.eqb (length c) 1); [reflexivity|].
  set (e := (lecos L (fmul fpi x), lesin L (fmul fpi x)) : C). set (w1 := fold_left _ _ (Copp _)). set (w2 := fold_left _ _ (nth _ _ _)).
  assert (W : w1 = (- w2)%C).
  { unfold w1, w2. apply (fold_sim (fun a b => a = (- b)%C)); [reflexivity|]. intros a b j _ ->. rewrite nth_neg, fcmul_neg, fcadd_neg. reflexivity. }
  rewrite W. destruct (Nat.odd (length c)).
  - rewrite fcmul_neg, fcadd_neg, fcmul_neg. reflexivity.
  - rewrite fcmul_neg. rewrite <- fcadd_neg. f_equal. unfold fmul, Copp. cbn [fst snd]. rewrite <- !Ropp_mult_distr_r, !fl_opp. reflexivity.
Qed.
Theorem C197_negative L z re c x : ftcall L z re (negated c) x = (- ftcall L z re c x)%C.
Proof. unfold ftcall. destruct re; [rewrite negative_real, RtoC_opp; reflexivity|apply negative_cmplx]. Qed.
Print Assumptions C197_negative.


(** Prolonging an odd number of coefficients to any larger number changes no bit of a value. *)
Lemma frstep_zero u v d : is_cdouble d -> frstep u v d C0 = d.
Proof. intros [H1 H2]. destruct d as [p q]. cbn [fst snd] in *. unfold frstep, fadd, fsub, fmul, C0. cbn [fst snd]. rewrite !Rmult_0_r, fl_0, !Rplus_0_r, Rminus_0_r, !(fl_double p H1), !(fl_double q H2). reflexivity. Qed.
Lemma cdouble_0 : is_cdouble C0.
Proof. split; cbn; apply (dbl_Z 0); cbn; lia. Qed.
Definition core (u v : R) (d : list C) (n : nat) : C := fold_left (fun w j => frstep u v (nth j d C0) w) (rev (seq 1 (n - 2))) (nth (n - 1) d C0).
Lemma core_more u v d n k : length d = n -> (2 <= n)%nat -> (forall a, In a d -> is_cdouble a) -> core u v (d ++ repeat C0 k) (n + k) = core u v d n.
Proof.
  intros Ld Hn Hd. induction k as [|k IH]; [rewrite app_nil_r, Nat.add_0_r; reflexivity|].
  assert (N1 : forall k j, (j < n)%nat -> nth j (d ++ repeat C0 k) C0 = nth j d C0) by (intros k' j Hj; apply app_nth1; lia).
  assert (N2 : forall k j, (n <= j)%nat -> nth j (d ++ repeat C0 k) C0 = C0) by (intros k' j Hj; rewrite app_nth2 by lia; apply nth_repeat).
  rewrite <- IH. unfold core. replace (n + S k - 2)%nat with (S (n + k - 2))%nat by lia. rewrite seq_S, rev_app_distr. cbn [rev app fold_left]. replace (1 + (n + k - 2))%nat with (n + k - 1)%nat by lia.
  rewrite (N2 (S k) (n + S k - 1)%nat) by lia.
  assert (P : forall j, nth j (d ++ repeat C0 (S k)) C0 = nth j (d ++ repeat C0 k) C0) by (intros j; destruct (le_lt_dec n j); [rewrite !N2 by lia|rewrite !N1 by lia]; reflexivity).
  rewrite frstep_zero, P. 2:{ rewrite P. destruct (le_lt_dec n (n + k - 1)); [rewrite N2 by lia; apply cdouble_0|]. rewrite N1 by lia. apply Hd, nth_In. lia. }
  generalize (nth (n + k - 1) (d ++ repeat C0 k) C0). generalize (rev (seq 1 (n + k - 2))). intros l. induction l as [|j l IHl]; intros w; [reflexivity|]. cbn [fold_left]. rewrite P. apply IHl.
Qed.
Theorem C197_prolong L c N d x : Nat.odd (length c) = true -> (length c < N)%nat -> (forall a, In a c -> is_cdouble a) ->
  prolong_col c N = Some d -> length d = N /\ fhorner_real L d x = fhorner_real L c x.
Proof.
  intros Ho HN Hc. unfold prolong_col, split_even. rewrite <- Nat.negb_odd, Ho. cbn [negb]. rewrite (proj2 (Nat.eqb_neq N (length c))) by lia. rewrite (proj2 (Nat.eqb_neq (length c) N)) by lia. rewrite (proj2 (Nat.ltb_lt (length c) N)) by lia.
  intros E. assert (D : d = pad_odd c N) by congruence. clear E. subst d. apply Nat.odd_spec in Ho. destruct Ho as [m Hm].
  set (kl := ((N - length c + 1) / 2)%nat). set (kr := ((N - length c) / 2)%nat).
  assert (K : (kl + kr = N - length c)%nat /\ (kr <= kl <= kr + 1)%nat /\ (1 <= kl)%nat).
  { unfold kl, kr. pose proof (Nat.div_mod (N - length c + 1) 2 ltac:(lia)). pose proof (Nat.div_mod (N - length c) 2 ltac:(lia)). pose proof (Nat.mod_upper_bound (N - length c + 1) 2 ltac:(lia)). pose proof (Nat.mod_upper_bound (N - length c) 2 ltac:(lia)). lia. }
  assert (Lp : length (pad_odd c N) = N) by (unfold pad_odd; fold kl kr; rewrite !app_length, !repeat_length; lia). split; [exact Lp|].
  set (n := (m + 1)%nat). assert (E1 : ((length c + 2) / 2 = n)%nat) by (rewrite Hm; unfold n; symmetry; apply (Nat.div_unique _ 2 _ 1); lia).
  assert (E2 : ((N + 2) / 2 = n + kl)%nat). { symmetry. apply (Nat.div_unique _ 2 _ (1 - (kl - kr))%nat); unfold n; lia. }
  assert (T1 : ftouch c = c). { destruct c as [|a t]; [reflexivity|]. unfold ftouch. rewrite Hm, Nat.even_add, Nat.even_mul. reflexivity. }
  assert (T2 : ftouch (pad_odd c N) = pad_odd c N).
  { unfold pad_odd. fold kl kr. destruct kl as [|kl']; [lia|]. cbn [repeat app]. unfold ftouch. destruct (Nat.even _); [|reflexivity]. f_equal. unfold fmul, C0, Re, RtoC. cbn [fst]. rewrite Rmult_0_l, fl_0. reflexivity. }
  set (c' := rev (firstn n c)). assert (Lc' : length c' = n) by (unfold c'; rewrite rev_length, firstn_length; lia).
  assert (R2 : rev (firstn (n + kl) (pad_odd c N)) = c' ++ repeat C0 kl).
  { unfold pad_odd. fold kl kr. rewrite firstn_app, repeat_length. rewrite firstn_all2 by (rewrite repeat_length; lia). replace (n + kl - kl)%nat with n by lia. rewrite firstn_app. replace (n - length c)%nat with 0%nat by (unfold n; lia). cbn [firstn]. rewrite app_nil_r, rev_app_distr. f_equal.
    clear. induction kl as [|k IH]; [reflexivity|]. cbn [repeat rev]. rewrite IH. symmetry. apply repeat_cons. }
  assert (Hc' : forall a, In a c' -> is_cdouble a). { intros a I. apply Hc. unfold c' in I. apply in_rev in I. rewrite <- (firstn_skipn n c). apply in_or_app. left. exact I. }
  unfold fhorner_real. rewrite Lp, E1, E2, T1, T2, R2. fold c'. rewrite (proj2 (Nat.eqb_neq N 1)) by lia.
  set (u := lcos L (fmul fpi x)). set (v := lsin L (fmul fpi x)).
  change (fold_left (fun w j => frstep u v (nth j (c' ++ repeat C0 kl) C0) w) (rev (seq 1 (n + kl - 2))) (nth (n + kl - 1) (c' ++ repeat C0 kl) C0)) with (core u v (c' ++ repeat C0 kl) (n + kl)).
  change (fold_left (fun w j => frstep u v (nth j c' C0) w) (rev (seq 1 (n - 2))) (nth (n - 1) c' C0)) with (core u v c' n).
  rewrite (app_nth1 c') by lia. destruct m as [|m'].
  - rewrite Hm. cbn [Nat.eqb Nat.mul Nat.add]. assert (W : core u v (c' ++ repeat C0 kl) (n + kl) = C0).
    { unfold core. assert (Z : forall j, (1 <= j)%nat -> nth j (c' ++ repeat C0 kl) C0 = C0) by (intros j Hj; rewrite app_nth2 by (unfold n in *; lia); apply nth_repeat).
      rewrite Z by (unfold n; lia). assert (A : forall l, (forall j, In j l -> (1 <= j)%nat) -> fold_left (fun w j => frstep u v (nth j (c' ++ repeat C0 kl) C0) w) l C0 = C0).
      { induction l as [|j l IHl]; intros Hl; [reflexivity|]. cbn [fold_left]. rewrite Z by (apply Hl; left; reflexivity). rewrite frstep_zero by apply cdouble_0. apply IHl. intros i Hi. apply Hl. right. exact Hi. }
      apply A. intros j I. apply in_rev in I. apply in_seq in I. lia. }
    rewrite W. unfold C0, fmul, fadd. cbn [fst snd RtoC]. rewrite !Rmult_0_r, !fl_0, Rplus_0_r, fl_0, Rmult_0_r, fl_0, Rplus_0_r. apply fl_double. apply Hc', nth_In. unfold n in *. lia.
  - rewrite (proj2 (Nat.eqb_neq (length c) 1)) by lia. rewrite core_more; [reflexivity|exact Lc'|unfold n; lia|exact Hc'].
Qed.
Print Assumptions C197_prolong.

(** The hypotheses are met: the library that rounds correctly respects parity, and 1 + cos (pi x) is an even function of doubles, which keeps its values when prolonged to six coefficients. *)
Lemma rounded_parity : libm_parity rounded_libm.
Proof. intros t. cbn. rewrite cos_neg, sin_neg, fl_opp. split; reflexivity. Qed.
Lemma dbl_half : is_double (/ 2).
Proof. apply generic_format_FLT. exists (Float radix2 1 (-1)); cbn; [unfold F2R; cbn; ring|lia|lia]. Qed.
Theorem C197_case x : let c := [RtoC (/ 2); RtoC 1; RtoC (/ 2)] in
  fhorner_real rounded_libm c (- x) = fhorner_real rounded_libm c x /\
  exists d, prolong_col c 6 = Some d /\ fhorner_real rounded_libm d x = fhorner_real rounded_libm c x /\ fhorner_real rounded_libm c 0 = 2.
Proof.
  intros c. split.
  - apply C197_even; [exact rounded_parity|]. intros a I. repeat (destruct I as [<-|I]; [reflexivity|]). destruct I.
  - assert (E : exists d, prolong_col c 6 = Some d) by (eexists; reflexivity). destruct E as [d E]. exists d. split; [exact E|]. split.
    + apply (C197_prolong rounded_libm c 6 d x); [reflexivity|cbn; lia| |exact E].
      assert (D0 : is_double 0) by (apply (dbl_Z 0); cbn; lia). intros a I. repeat (destruct I as [<-|I]; [split; [|exact D0]; cbn [fst RtoC]; first [exact dbl_1 | exact dbl_half]|]). destruct I.
    + unfold c, fhorner_real. cbn. unfold fmul, fadd, frstep. rewrite !Rmult_0_r, !fl_0, cos_0. rewrite (fl_double 1 dbl_1). rewrite Rmult_1_l, (fl_double (/ 2) dbl_half), Rplus_0_r, (fl_double (/ 2) dbl_half), Rinv_r by lra. rewrite (fl_double 1 dbl_1). replace (1 + 1) with 2 by ring. apply fl_double. apply (dbl_Z 2). cbn. lia.
Qed.
Print Assumptions C197_case.
