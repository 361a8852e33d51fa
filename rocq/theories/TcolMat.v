(** The entries of the Fourier differentiation matrices. *)
From Coq Require Import Reals ZArith List Arith Bool Lra Lia.
From Coquelicot Require Import Coquelicot.
From Verif Require Import Base TrigSpec TrigBase TrigModel TrigTrans TrigCalc TrigCalc2 ChebModel3 CollModel TcolProofs TcolClosed.
Import ListNotations.
Open Scope R_scope.

Lemma map_nth' {A B} (f : A -> B) l i d d' : (i < length l)%nat -> nth i (map f l) d = f (nth i l d').
Proof. intros H. rewrite (nth_indep _ _ (f d')) by (rewrite map_length; exact H). apply map_nth. Qed.
Definition th (n : nat) (i j : nat) : R := 2 * PI * (INR i - INR j) / INR n.
Lemma toep_roll n c (g : R -> R) : (1 <= n)%nat -> length c = n -> (forall t, g (t + 2 * PI) = g t) -> (forall d, (d < n)%nat -> nth d c 0 = g (2 * PI * INR d / INR n)) ->
  forall i j, (i < n)%nat -> (j < n)%nat -> toeplitz c (roll_back c) i j = g (th n i j).
Proof.
  intros Hn L G H i j Hi Hj. assert (P := INR_pos n Hn). unfold toeplitz, th. destruct (Nat.leb_spec j i).
  - rewrite H by lia. rewrite minus_INR by lia. reflexivity.
  - unfold roll_back. rewrite L. rewrite nth_mk by lia. destruct (Nat.eqb_spec (j - i) 0); [lia|]. rewrite H by lia. rewrite <- (G (2 * PI * (INR i - INR j) / INR n)). f_equal. rewrite !minus_INR by lia. field. lra.
Qed.
Lemma toep_sym n c r (g : R -> R) (s : R) : (1 <= n)%nat -> (forall t, g (- t) = s * g t) -> (forall d, (d < n)%nat -> nth d c 0 = g (2 * PI * INR d / INR n)) -> (forall d, (d < n)%nat -> nth d r 0 = s * nth d c 0) ->
  forall i j, (i < n)%nat -> (j < n)%nat -> toeplitz c r i j = g (th n i j).
Proof.
  intros Hn G H K i j Hi Hj. assert (P := INR_pos n Hn). unfold toeplitz, th. destruct (Nat.leb_spec j i).
  - rewrite H by lia. rewrite minus_INR by lia. reflexivity.
  - rewrite K, H, <- G by lia. f_equal. rewrite minus_INR by lia. field. lra.
Qed.
Lemma pow_m1 d : (-1) ^ d = if Nat.even d then 1 else -1.
Proof. induction d as [|d IH]; [reflexivity|]. cbn [pow]. rewrite IH, Nat.even_succ, <- Nat.negb_even. destruct (Nat.even d); cbn; ring. Qed.
Lemma neg_odd_nth c d : (d < length c)%nat -> nth d (neg_odd c) 0 = (-1) ^ d * nth d c 0.
Proof. intros H. unfold neg_odd. rewrite nth_mk by exact H. rewrite pow_m1. destruct (Nat.even d); ring. Qed.
Lemma neg_even_nth c d : (d < length c)%nat -> nth d (neg_even c) 0 = - ((-1) ^ d * nth d c 0).
Proof. intros H. unfold neg_even. rewrite nth_mk by exact H. rewrite pow_m1. destruct (Nat.even d); ring. Qed.
Lemma half_angle n d : (1 <= n)%nat -> / 2 * INR d * (2 * PI / INR n) = 2 * PI * INR d / INR n / 2.
Proof. intros Hn. assert (P := INR_pos n Hn). field. lra. Qed.
Lemma h2 n : (1 <= n)%nat -> PI ^ 2 / 2 / (2 * PI / INR n) ^ 2 = INR n ^ 2 / 8 /\ PI ^ 2 / 3 / (2 * PI / INR n) ^ 2 = INR n ^ 2 / 12.
Proof. intros Hn. assert (P := INR_pos n Hn). assert (Q := PI_RGT_0). split; field; lra. Qed.
Lemma cons_mk_length (a : R) n f : (1 <= n)%nat -> length (a :: mk (n - 1) f) = n.
Proof. intros H. cbn [length]. rewrite mk_length. lia. Qed.
Lemma not_odd_even n : Nat.odd n = false -> Nat.even n = true.
Proof. intros H. rewrite <- Nat.negb_odd, H. reflexivity. Qed.

Lemma tc_col1_nth n d : (1 <= n)%nat -> (d < n)%nat -> nth d (neg_odd (tc_col1 n)) 0 = Sd n 1 (2 * PI * INR d / INR n).
Proof.
  intros Hn Hd. rewrite neg_odd_nth by (unfold tc_col1; rewrite cons_mk_length by exact Hn; exact Hd). unfold tc_col1. destruct d as [|d].
  - cbn [nth INR]. replace (2 * PI * 0 / INR n) with 0 by (unfold Rdiv; ring). rewrite Sd1_0. ring.
  - cbn [nth]. rewrite nth_mk by lia. rewrite !half_angle by exact Hn. destruct (Nat.odd n) eqn:O.
    + destruct (odd_forms n (S d) O ltac:(lia)) as (_ & -> & _). field.
    + destruct (even_forms n (S d) (not_odd_even _ O) ltac:(lia)) as (_ & -> & _). field.
Qed.
Lemma tc_col2_nth n d : (1 <= n)%nat -> (d < n)%nat -> nth d (neg_even (tc_col2 n)) 0 = Sd n 2 (2 * PI * INR d / INR n).
Proof.
  intros Hn Hd. destruct (h2 n Hn) as [_ H2]. rewrite neg_even_nth by (unfold tc_col2; rewrite cons_mk_length by exact Hn; exact Hd). unfold tc_col2. destruct d as [|d].
  - cbn [nth INR pow]. replace (2 * PI * 0 / INR n) with 0 by (unfold Rdiv; ring). rewrite Sd2_0 by exact Hn. fold (2 * PI / INR n). cbn [pow] in H2. rewrite H2. cbn [pow]. destruct (Nat.odd n); ring.
  - cbn [nth]. rewrite nth_mk by lia. rewrite !half_angle by exact Hn. destruct (Nat.odd n) eqn:O.
    + destruct (odd_forms n (S d) O ltac:(lia)) as (_ & _ & -> & _). field.
    + destruct (even_forms n (S d) (not_odd_even _ O) ltac:(lia)) as (_ & _ & -> & _). field.
Qed.
Lemma tc_col3_nth n d : (1 <= n)%nat -> (d < n)%nat -> nth d (neg_even (tc_col3 n)) 0 = - Sd n 3 (2 * PI * INR d / INR n).
Proof.
  intros Hn Hd. destruct (h2 n Hn) as [H2 _]. rewrite neg_even_nth by (unfold tc_col3; rewrite cons_mk_length by exact Hn; exact Hd). unfold tc_col3. destruct d as [|d].
  - cbn [nth INR]. replace (2 * PI * 0 / INR n) with 0 by (unfold Rdiv; ring). rewrite Sd3_0. ring.
  - cbn [nth]. rewrite nth_mk by lia. rewrite !half_angle by exact Hn. rewrite H2. destruct (Nat.odd n) eqn:O.
    + destruct (odd_forms n (S d) O ltac:(lia)) as (_ & _ & _ & ->). ring.
    + destruct (even_forms n (S d) (not_odd_even _ O) ltac:(lia)) as (_ & _ & _ & ->). ring.
Qed.
Lemma tc_entries n m D : (2 <= n)%nat -> (1 <= m)%nat -> tc_diffmat n m = DMat D ->
  (m <= 3)%nat /\ forall i j, (i < n)%nat -> (j < n)%nat -> D i j = (if Nat.eqb m 3 then -1 else 1) * (PI ^ m * Sd n m (th n i j)).
Proof.
  intros Hn Hm E. assert (H1 : (1 <= n)%nat) by lia. unfold tc_diffmat in E. destruct (Nat.eqb_spec n 0); [lia|]. destruct (Nat.eqb_spec n 1); [lia|].
  destruct m as [|[|[|[|m]]]]; try lia; try discriminate; (split; [lia|]); intros i j Hi Hj; injection E as <-; cbn [Nat.eqb]; unfold mscale.
  - rewrite (toep_roll n _ (Sd n 1)); try assumption; [ring|unfold neg_odd, tc_col1; rewrite mk_length; apply cons_mk_length; exact H1|apply Sd_period|intros d Hd; now apply tc_col1_nth].
  - rewrite (toep_sym n _ _ (Sd n 2) 1); try assumption; [ring|intros t; rewrite Sd_neg; ring|intros d Hd; now apply tc_col2_nth|intros d Hd; ring].
  - rewrite (toep_roll n _ (fun t => - Sd n 3 t)); try assumption; [ring|unfold neg_even, tc_col3; rewrite mk_length; apply cons_mk_length; exact H1|intros t; now rewrite Sd_period|intros d Hd; now apply tc_col3_nth].
Qed.

(** ** trigtech.diffmat *)
Lemma tt_stack_nth f s n d : (d < n - 1)%nat -> nth d (tt_stack f s n) 0 = if Nat.ltb d (n / 2) then f (INR (S d) * tt_h n / 2) else s * f (INR (n - S d) * tt_h n / 2).
Proof.
  intros Hd. unfold tt_stack. assert (Hq := Nat.div_mod n 2 ltac:(lia)). assert (Hr := Nat.mod_upper_bound n 2 ltac:(lia)). assert (Hq1 := Nat.div_mod (n - 1) 2 ltac:(lia)). assert (Hr1 := Nat.mod_upper_bound (n - 1) 2 ltac:(lia)).
  assert (L : length (tt_tmp f n) = (n / 2)%nat) by (unfold tt_tmp; rewrite mk_length; reflexivity).
  destruct (Nat.ltb_spec d (n / 2)).
  - rewrite app_nth1 by lia. unfold tt_tmp. rewrite nth_mk by exact H. reflexivity.
  - rewrite app_nth2 by lia. rewrite L. assert (LF : length (firstn (tt_n1 n) (tt_tmp f n)) = ((n - 1) / 2)%nat) by (rewrite firstn_length, L; unfold tt_n1; lia).
    replace 0 with (s * 0) by ring. rewrite (map_nth (Rmult s)). rewrite rev_nth by lia. rewrite LF. replace (nth ((n - 1) / 2 - S (d - n / 2)) (firstn (tt_n1 n) (tt_tmp f n)) 0) with (nth ((n - 1) / 2 - S (d - n / 2)) (tt_tmp f n) 0).
    2:{ rewrite <- (firstn_skipn (tt_n1 n) (tt_tmp f n)) at 1. apply app_nth1. unfold tt_n1 in *. lia. }
    unfold tt_tmp. rewrite nth_mk by (unfold tt_n2; lia). replace (S ((n - 1) / 2 - S (d - n / 2))) with (n - S d)%nat by lia. reflexivity.
Qed.
Lemma csc_refl x : csc (PI - x) = csc x.
Proof. unfold csc. now rewrite sin_PI_x. Qed.
Lemma cot_refl x : cot (PI - x) = - cot x.
Proof. unfold cot. rewrite sin_PI_x. replace (cos (PI - x)) with (- cos x); [unfold Rdiv; ring|]. rewrite cos_minus, cos_PI, sin_PI. ring. Qed.
Lemma angle_refl n d : (1 <= n)%nat -> (d <= n)%nat -> INR (n - d) * tt_h n / 2 = PI - 2 * PI * INR d / INR n / 2.
Proof. intros Hn Hd. assert (P := INR_pos n Hn). rewrite minus_INR by exact Hd. unfold tt_h. field. lra. Qed.
Lemma angle_d n d : (1 <= n)%nat -> INR d * tt_h n / 2 = 2 * PI * INR d / INR n / 2.
Proof. intros Hn. assert (P := INR_pos n Hn). unfold tt_h. field. lra. Qed.
Lemma tt_stack_refl f s n d : (1 <= d < n)%nat -> (forall x, s * f (PI - x) = f x) -> nth (d - 1) (tt_stack f s n) 0 = f (2 * PI * INR d / INR n / 2).
Proof.
  intros Hd Hf. rewrite tt_stack_nth by lia. replace (S (d - 1)) with d by lia. rewrite angle_d, angle_refl by lia. destruct (Nat.ltb _ _); [reflexivity|apply Hf].
Qed.
Lemma zip_nth n f s d : (d < n - 1)%nat -> nth d (zipmul (tt_sgn n) (tt_stack f s n)) 0 = (-1) ^ S d * nth d (tt_stack f s n) 0.
Proof. intros Hd. unfold zipmul, tt_sgn. rewrite mk_length, nth_mk by exact Hd. now rewrite nth_mk by exact Hd. Qed.
Lemma nth_map_Rmult a l d : nth d (map (Rmult a) l) 0 = a * nth d l 0.
Proof. replace 0 with (a * 0) at 1 by ring. apply map_nth. Qed.
Lemma nth_map_Ropp l d : nth d (map Ropp l) 0 = - nth d l 0.
Proof. revert d. induction l as [|a l IH]; intros [|d]; cbn [map nth]; try ring. apply IH. Qed.
Lemma tt_col1_nth n d : (1 <= n)%nat -> (d < n)%nat -> nth d (tt_col1 n) 0 = PI * Sd n 1 (2 * PI * INR d / INR n).
Proof.
  intros Hn Hd. unfold tt_col1. destruct d as [|d].
  - cbn [nth INR]. replace (2 * PI * 0 / INR n) with 0 by (unfold Rdiv; ring). rewrite Sd1_0. ring.
  - cbn [nth]. rewrite nth_map_Rmult. destruct (Nat.odd n) eqn:O; rewrite zip_nth by lia; replace d with (S d - 1)%nat at 2 by lia.
    + rewrite tt_stack_refl; [|lia|intros x; rewrite csc_refl; ring]. destruct (odd_forms n (S d) O ltac:(lia)) as (_ & -> & _). field.
    + rewrite tt_stack_refl; [|lia|intros x; rewrite cot_refl; ring]. destruct (even_forms n (S d) (not_odd_even _ O) ltac:(lia)) as (_ & -> & _). field.
Qed.
Lemma tt_col2_nth n d : (1 <= n)%nat -> (d < n)%nat -> nth d (tt_col2 n) 0 = PI ^ 2 * Sd n 2 (2 * PI * INR d / INR n).
Proof.
  intros Hn Hd. assert (P := INR_pos n Hn). assert (Q := PI_RGT_0). unfold tt_col2. rewrite nth_map_Rmult. f_equal. destruct d as [|d].
  - cbn [nth INR]. replace (2 * PI * 0 / INR n) with 0 by (unfold Rdiv; ring). rewrite Sd2_0 by exact Hn. unfold tt_h. destruct (Nat.odd n); field; lra.
  - cbn [nth]. rewrite nth_map_Rmult. destruct (Nat.odd n) eqn:O; rewrite zip_nth by lia; replace d with (S d - 1)%nat at 2 by lia.
    + rewrite tt_stack_refl; [|lia|intros x; rewrite csc_refl, cot_refl; ring]. destruct (odd_forms n (S d) O ltac:(lia)) as (_ & _ & -> & _). field.
    + rewrite tt_stack_refl; [|lia|intros x; rewrite csc_refl; ring]. destruct (even_forms n (S d) (not_odd_even _ O) ltac:(lia)) as (_ & _ & -> & _). field.
Qed.
Lemma ones_fft n i : (1 <= n)%nat -> (i < n)%nat -> nth i (fft (RtoC 1 :: repeat (RtoC 0) (n - 1))) (RtoC 0) = RtoC 1.
Proof.
  intros Hn Hi. unfold fft. assert (L : length (RtoC 1 :: repeat (RtoC 0) (n - 1)) = n) by (cbn [length]; rewrite repeat_length; lia). rewrite L. rewrite nth_mk by exact Hi.
  rewrite (csum_single n _ 0); [|lia|intros [|j] Hj Hne; [congruence|cbn [nth]; unfold C0; rewrite nth_repeat; ring]].
  cbn [nth INR]. replace (- (2 * PI * 0 * INR i / INR n)) with 0 by (unfold Rdiv; ring). rewrite cis_0. ring.
Qed.
Lemma wave_sum n k (g : R -> nat -> R) : (1 <= n)%nat ->
  rsum n (fun i => g (nth i (tt_wave n k) 0) i) = rsum (tt_n1 n + 1) (fun i => g (INR i) i) + (if Nat.even n then g 0 (tt_n1 n + 1)%nat else 0) + rsum (tt_n1 n) (fun q => g (- INR (tt_n1 n) + INR q) (n - tt_n1 n + q)%nat).
Proof.
  intros Hn. assert (Hq1 := Nat.div_mod (n - 1) 2 ltac:(lia)). assert (Hr1 := Nat.mod_upper_bound (n - 1) 2 ltac:(lia)). set (p := tt_n1 n) in *. change ((n - 1) / 2)%nat with p in *.
  set (e := if Nat.even n then 1%nat else 0%nat). assert (En : n = (p + 1 + (e + p))%nat).
  { unfold e. destruct (Nat.even n) eqn:E; [apply Nat.even_spec in E|apply (f_equal negb) in E; rewrite Nat.negb_even in E; cbn in E; apply Nat.odd_spec in E]; destruct E as [q E]; subst n; lia. }
  rewrite En at 1. rewrite (rsum_app (p + 1) (e + p)), (rsum_app e p). rewrite Rplus_assoc. f_equal; [|f_equal].
  - apply rsum_ext. intros i Hi. f_equal. unfold tt_wave. fold p. rewrite app_nth1 by (rewrite map_length, seq_length; lia). rewrite (map_nth' INR _ _ _ 0%nat) by (rewrite seq_length; lia). now rewrite seq_nth by lia.
  - unfold e. destruct (Nat.even n) eqn:E; [|reflexivity]. cbn [rsum]. rewrite Rplus_0_l, Nat.add_0_r. f_equal. unfold tt_wave. fold p. rewrite app_nth2 by (rewrite map_length, seq_length; lia). rewrite map_length, seq_length, Nat.sub_diag, E. cbn [app nth].
    rewrite Nat.mod_1_r. cbn [INR]. ring.
  - apply rsum_ext. intros q Hq. f_equal; [|unfold e in *; lia]. unfold tt_wave. fold p. rewrite app_nth2 by (rewrite map_length, seq_length; lia). rewrite map_length, seq_length. unfold e. destruct (Nat.even n) eqn:E; cbn [app].
    + replace (p + 1 + (1 + q) - (p + 1))%nat with (S q) by lia. cbn [nth]. now rewrite nth_mk by exact Hq.
    + replace (p + 1 + (0 + q) - (p + 1))%nat with q by lia. now rewrite nth_mk by exact Hq.
Qed.
Lemma tt_colk_nth n k d : (1 <= n)%nat -> (3 <= k)%nat -> (d < n)%nat -> nth d (tt_colk n k) 0 = PI ^ k * Sdb true n k (2 * PI * INR d / INR n).
Proof.
  intros Hn Hk Hd. assert (P := INR_pos n Hn). unfold tt_colk. set (v := mk n _). assert (Lv : length v = n) by apply mk_length.
  rewrite (map_nth' _ _ _ _ (RtoC 0)) by (unfold ifft; rewrite mk_length, Lv; exact Hd). f_equal. unfold ifft. rewrite Lv, nth_mk by exact Hd. unfold Sdb. set (t := 2 * PI * INR d / INR n).
  replace (Re (Cmult (RtoC (/ INR n)) (csum n (fun k0 => Cmult (nth k0 v C0) (cis (2 * PI * INR d * INR k0 / INR n)))))) with (/ INR n * Re (csum n (fun k0 => Cmult (nth k0 v C0) (cis (2 * PI * INR d * INR k0 / INR n))))) by (unfold Re, Cmult, RtoC; cbn [fst snd]; ring).
  f_equal. rewrite csum_Re. set (g := fun (w : R) (i : nat) => w ^ k * cos (INR i * t + INR k * (PI / 2))).
  rewrite (rsum_ext n _ (fun i => g (nth i (tt_wave n k) 0) i)).
  2:{ intros i Hi. unfold v. unfold C0. rewrite nth_mk by exact Hi. rewrite ones_fft by assumption. rewrite cpow_polar, Cmult_1_r, <- Cmult_assoc, <- cis_plus. unfold g, cis, Re, Cmult, RtoC. cbn [fst snd].
      replace (INR k * (PI / 2) + 2 * PI * INR d * INR i / INR n) with (INR i * t + INR k * (PI / 2)) by (unfold t; field; lra). ring. }
  rewrite (wave_sum n k g Hn). assert (Hq1 := Nat.div_mod (n - 1) 2 ltac:(lia)). assert (Hr1 := Nat.mod_upper_bound (n - 1) 2 ltac:(lia)). assert (Hq := Nat.div_mod n 2 ltac:(lia)). assert (Hr := Nat.mod_upper_bound n 2 ltac:(lia)).
  set (p := tt_n1 n) in *. change ((n - 1) / 2)%nat with p in *.
  assert (Last : rsum p (fun q => g (- INR p + INR q) (n - p + q)%nat) = rsum p (fun q => (- INR p + INR q) ^ k * cos ((- INR p + INR q) * t + INR k * (PI / 2)))).
  { apply rsum_ext. intros q Hqq. unfold g. f_equal. assert (C := cis_2PI_nat d ((- INR p + INR q) * t + INR k * (PI / 2))). unfold cis in C. assert (C' := f_equal fst C). cbn [fst] in C'. rewrite <- C'. f_equal. rewrite plus_INR, minus_INR by lia. unfold t. field. lra. }
  rewrite Last. clear Last. cbn [andb].
  destruct (Nat.even n) eqn:E; cbn [andb].
  - assert (E' := E). apply Nat.even_spec in E'. destruct E' as [q Eq]. assert (p = (q - 1)%nat) by lia. assert (Eh : (n / 2)%nat = q) by lia.
    replace (g 0 (p + 1)%nat) with 0 by (unfold g; rewrite pow_ne_zero by lia; ring).
    replace n with (1 + (p + (p + 1)))%nat at 1 by lia. rewrite (rsum_app 1). cbn [rsum Nat.eqb]. rewrite Rplus_0_l, Rplus_0_l, Rplus_0_r. rewrite (rsum_app p (p + 1)). rewrite Rplus_comm. f_equal.
    + apply rsum_ext. intros i Hi. cbn [Nat.add Nat.eqb]. rewrite freq_R, Eh. replace (INR (S i) - INR q) with (- INR p + INR i) by (rewrite S_INR; assert (Q : INR q = INR p + 1) by (rewrite <- S_INR; f_equal; lia); rewrite Q; ring). reflexivity.
    + apply rsum_ext. intros i Hi. cbn [Nat.add Nat.eqb]. rewrite freq_R, Eh. unfold g. replace (INR (S (p + i)) - INR q) with (INR i) by (rewrite S_INR, plus_INR; assert (Q : INR q = INR p + 1) by (rewrite <- S_INR; f_equal; lia); rewrite Q; ring). reflexivity.
  - assert (O : Nat.odd n = true) by (rewrite <- Nat.negb_even, E; reflexivity). apply Nat.odd_spec in O. destruct O as [q Eq]. assert (p = q) by lia. assert (Eh : (n / 2)%nat = q) by lia.
    rewrite Rplus_0_r. replace n with (p + (p + 1))%nat at 1 by lia. rewrite (rsum_app p (p + 1)). rewrite Rplus_comm. f_equal.
    + apply rsum_ext. intros i Hi. rewrite freq_R, Eh. replace (INR i - INR q) with (- INR p + INR i) by (rewrite H; ring). reflexivity.
    + apply rsum_ext. intros i Hi. rewrite freq_R, Eh. unfold g. replace (INR (p + i) - INR q) with (INR i) by (rewrite plus_INR, H; ring). reflexivity.
Qed.
Lemma Sdb_neg b n m t : Sdb b n m (- t) = (-1) ^ m * Sdb b n m t.
Proof.
  unfold Sdb. rewrite <- Rmult_assoc, (Rmult_comm ((-1) ^ m)), Rmult_assoc. f_equal. rewrite <- rsum_scal. apply rsum_ext. intros k _. destruct (b && _)%bool; [ring|]. set (z := IZR (freq n k)).
  replace (z * - t + INR m * (PI / 2)) with (- (z * t + INR m * (PI / 2)) + INR m * PI) by field. rewrite cos_mPI, cos_neg. ring.
Qed.
Lemma tt_entries n k : (1 <= n)%nat -> (1 <= k)%nat -> forall i j, (i < n)%nat -> (j < n)%nat -> tt_diffmat n k i j = PI ^ k * Sdb (Nat.leb 3 k) n k (th n i j).
Proof.
  intros Hn Hk i j Hi Hj. unfold tt_diffmat. destruct k as [|[|[|k]]]; [lia| | |].
  - rewrite (toep_sym n _ _ (fun t => PI * Sd n 1 t) (-1)); try assumption; [change (Sdb (Nat.leb 3 1) n 1 (th n i j)) with (Sd n 1 (th n i j)); ring|intros t; rewrite Sd_neg; ring|intros d Hd; now apply tt_col1_nth|].
    intros d Hd. rewrite nth_map_Ropp. ring.
  - rewrite (toep_sym n _ _ (fun t => PI ^ 2 * Sd n 2 t) 1); try assumption; [change (Sdb (Nat.leb 3 2) n 2 (th n i j)) with (Sd n 2 (th n i j)); reflexivity|intros t; rewrite Sd_neg; ring|intros d Hd; now apply tt_col2_nth|].
    intros d Hd. ring.
  - change (Nat.leb 3 (S (S (S k)))) with true. set (m := S (S (S k))). assert (Hm : (3 <= m)%nat) by (unfold m; lia). clearbody m. clear Hk k.
    assert (C := fun d => tt_colk_nth n m d Hn Hm). assert (OE := pow_m1 m). destruct (Nat.odd m) eqn:O.
    + rewrite <- Nat.negb_odd, O in OE. cbn [negb] in OE. assert (C' : forall d, (d < n)%nat -> nth d (0 :: tl (tt_colk n m)) 0 = PI ^ m * Sdb true n m (2 * PI * INR d / INR n)).
      { intros [|d] Hd; [|cbn [nth]; rewrite <- C by exact Hd; destruct (tt_colk n m); [destruct d; reflexivity|reflexivity]].
        cbn [nth INR]. replace (2 * PI * 0 / INR n) with 0 by (unfold Rdiv; ring). assert (Z := Sdb_neg true n m 0). rewrite Ropp_0, OE in Z. assert (Z0 : Sdb true n m 0 = 0) by lra. rewrite Z0. ring. }
      rewrite (toep_sym n _ _ (fun t => PI ^ m * Sdb true n m t) (-1)); try assumption; [reflexivity|intros t; rewrite Sdb_neg, OE; ring|].
      intros d Hd. rewrite nth_map_Ropp. ring.
    + rewrite <- Nat.negb_odd, O in OE. cbn [negb] in OE. rewrite (toep_sym n _ _ (fun t => PI ^ m * Sdb true n m t) 1); try assumption; [reflexivity|intros t; rewrite Sdb_neg, OE; ring|]. intros d Hd. ring.
Qed.
