(** C212: whole calculations in floating point - a function built from a
    callable is called, multiplied, integrated from the left end; a product is
    called.  The specification consists of [fun_value] (the value of a series on
    a domain), [abs_sum] and the four bounds below. *)
From Coq Require Import Reals List Arith Lia Lra Bool ZArith.
From Coquelicot Require Import Coquelicot.
From Verif Require Import Base ToolsProofs ChebSpec ChebModel ChebDct ChebMath ChebMul TrigModel TrigTrans TrigObj FlModel FlModel2 FlProofs FlSum FlMap FlTrigModel FlTrig FlMulModel FlMul FlDctModel FlDct PropFlD FlSampleModel FlSample PropFlS PropFl PropFl2 FlDomModel FlDom PropFlG PropFlM.
Import ListNotations.
Open Scope R_scope.
Local Opaque uro eta.

Local Notation value := PropFl.fun_value.
Local Notation size := PropFl.abs_sum.
(** The error of calling a series of [n] coefficients of size [K] at a double of [a, b]. *)
Definition call_error (a b : R) (n : nat) (K : R) : R :=
  (8 + (24 + 8 * ((Rabs a + Rabs b) / (b - a))) * INR n ^ 2) * / 2 ^ 53 * K + (8 * INR n + INR n ^ 2 * K) * / 2 ^ 1075.
(** The error of each coefficient of a product of two series of sizes [A], [B]. *)
Definition times_error (d e A B : R) : R := 20 * (d + / 2 ^ 53) * (A * B) + 4 * e * (1 + A + B) + 16 * / 2 ^ 1075.

Lemma circ_l1 a b : length b = length a -> (1 <= length a)%nat -> lasum (circ a b) <= lasum a * lasum b.
Proof.
  intros Hb Ha. set (n := length a) in *. rewrite lasum_nth, circ_length. fold n. set (g := fun k => if Rle_dec 0 (nth k (circ a b) 0) then 1 else -1).
  rewrite (rsum_ext n _ (fun k => nth k (circ a b) 0 * g k)).
  2:{ intros k _. unfold g. destruct (Rle_dec 0 _); [rewrite Rabs_right by lra; ring|rewrite Rabs_left by lra; ring]. }
  unfold n. rewrite (circ_sum a b g Hb Ha). fold n.
  apply Rle_trans with (rsum n (fun i => rsum n (fun j => Rabs (nth i a 0) * Rabs (nth j b 0)))).
  - apply rsum_le. intros i _. apply rsum_le. intros j _. rewrite <- Rabs_mult. assert (G : g (addP n i j) = 1 \/ g (addP n i j) = -1) by (unfold g; destruct (Rle_dec 0 _); [left|right]; reflexivity). set (p := nth i a 0 * nth j b 0). pose proof (Rle_abs p). pose proof (Rle_abs (- p)). rewrite Rabs_Ropp in *. destruct G as [-> | ->]; lra.
  - apply Req_le. rewrite !lasum_nth, Hb. fold n. rewrite <- rsum_scal_r. apply rsum_ext. intros i _. rewrite rsum_scal. reflexivity.
Qed.
Lemma times_l1 fc gc : (1 <= length fc)%nat -> length gc = length fc -> lasum (coeff_times1 fc gc) <= lasum fc * lasum gc.
Proof.
  intros H Lg. pose proof (circ_l1 (even_ext fc) (even_ext gc)) as L1. rewrite !even_ext_length in L1 by lia. specialize (L1 ltac:(lia) ltac:(lia)). rewrite !even_ext_lasum in L1 by lia.
  assert (LT := coeff_times1_length fc gc Lg H). rewrite lasum_nth, LT. unfold coeff_times1 in *. set (w := circ (even_ext fc) (even_ext gc)) in *. assert (Lw : length w = (2 * length fc - 1)%nat) by (unfold w; rewrite circ_length, even_ext_length by lia; lia). rewrite Lw. set (m := length fc) in *.
  rewrite lasum_nth, Lw in L1. destruct m as [|m]; [lia|]. replace (2 * S m - 1)%nat with (S m + m)%nat in * by lia. rewrite rsum_app in L1. rewrite <- (rsum_rev m) in L1. rewrite rsum_S_l in L1. rewrite rsum_S_l.
  rewrite nth_firstn' by lia. rewrite nth_mk by lia. rewrite Rabs_mult, (Rabs_right (/ 4)) by lra.
  assert (X : rsum m (fun k => Rabs (nth (S k) (firstn (S m) (mk (S m + m) (fun k0 => / 4 * match k0 with 0%nat => nth 0 w 0 | S _ => nth k0 w 0 + nth (S m + m - k0) w 0 end))) 0))
     <= / 4 * rsum m (fun k => Rabs (nth (S k) w 0)) + / 4 * rsum m (fun k => Rabs (nth (S m + (m - 1 - k)) w 0))).
  { rewrite <- !rsum_scal, <- rsum_plus. apply rsum_le. intros k Hk. rewrite nth_firstn' by lia. rewrite nth_mk by lia. cbv beta iota. replace (S m + m - S k)%nat with (S m + (m - 1 - k))%nat by lia. rewrite Rabs_mult, (Rabs_right (/ 4)) by lra. pose proof (Rabs_triang (nth (S k) w 0) (nth (S m + (m - 1 - k)) w 0)). lra. }
  set (P := lasum fc * lasum gc). assert (E : 2 * lasum fc * (2 * lasum gc) = 4 * P) by (unfold P; ring). rewrite E in L1. lra.
Qed.
(** The exact product: its coefficients, their number and their size. *)
Lemma product_near F z d e f g : (1 <= length f)%nat -> (1 <= length g)%nat -> PropFlM.doubles f -> PropFlM.doubles g ->
  accurate_fft F (2 * (length f + length g) - 3) d e -> 0 <= d <= / 16 -> 0 <= e <= / 16 ->
  length (fproduct F z f g) = (length f + length g - 1)%nat /\
  PropFl.abs_sum (fproduct F z f g) <= PropFl.abs_sum f * PropFl.abs_sum g + INR (length f + length g - 1) * claimed_error d e f g.
Proof.
  intros Hf Hg Df Dg HF Hd He. set (pf := pad (length g - 1) f). set (pg := pad (length f - 1) g). set (h := coeff_times1 pf pg).
  assert (Lf : length pf = (length f + length g - 1)%nat) by (unfold pf; rewrite pad_length; lia). assert (Lg : length pg = length pf) by (unfold pg; rewrite pad_length, Lf; lia).
  assert (Lh : length h = (length f + length g - 1)%nat) by (apply product_length; assumption).
  assert (HW : fft_within F (2 * length pf - 1) d e) by (rewrite Lf; replace (2 * (length f + length g - 1) - 1)%nat with (2 * (length f + length g) - 3)%nat by lia; apply PropFlM.accurate_within, HF).
  assert (T := fun k Hk => times_err F z d e pf pg k ltac:(lia) Lg (pad_doubles _ f Df) (pad_doubles _ g Dg) HW Hd He Hk).
  assert (LP : length (fproduct F z f g) = length pf) by exact (proj1 (T 0%nat ltac:(lia))). split; [rewrite LP; exact Lf|].
  assert (Sf : lasum pf = lasum f) by apply lasum_pad. assert (Sg : lasum pg = lasum g) by apply lasum_pad.
  pose proof (times_l1 pf pg ltac:(lia) Lg) as L1. fold h in L1. rewrite Sf, Sg in L1. rewrite !PropFl.abs_sum_lasum.
  pose proof (lasum_near h (fproduct F z f g) (fun _ => claimed_error d e f g) ltac:(lia)) as Q. rewrite rsum_const, Lh in Q.
  eapply Rle_trans; [apply Q|lra]. intros k Hk. rewrite <- Lf in Hk. pose proof (proj2 (T k Hk)) as B. rewrite Sf, Sg in B. unfold claimed_error. rewrite !PropFlM.abs_sum_lasum. change (/ 2 ^ 53) with uro. change (/ 2 ^ 1075) with eta. exact B.
Qed.
Lemma call_mono a b n K K' : a < b -> K <= K' -> call_error a b n K <= call_error a b n K'.
Proof.
  intros Hab H. unfold call_error. change (/ 2 ^ 53) with uro. change (/ 2 ^ 1075) with eta. destruct uro_small as [U0 _]. pose proof eta_pos as E0. pose proof (pow2_ge_0 (INR n)) as N2.
  assert (Q : 0 <= (Rabs a + Rabs b) / (b - a)) by (apply Rmult_le_pos; [pose proof (Rabs_pos a); pose proof (Rabs_pos b); lra|apply Rlt_le, Rinv_0_lt_compat; lra]).
  assert (P : 0 <= (24 + 8 * ((Rabs a + Rabs b) / (b - a))) * INR n ^ 2) by (apply Rmult_le_pos; lra).
  assert (X : (8 + (24 + 8 * ((Rabs a + Rabs b) / (b - a))) * INR n ^ 2) * uro * K <= (8 + (24 + 8 * ((Rabs a + Rabs b) / (b - a))) * INR n ^ 2) * uro * K') by (apply Rmult_le_compat_l; [apply Rmult_le_pos; lra|exact H]).
  assert (Y : INR n ^ 2 * K <= INR n ^ 2 * K') by (apply Rmult_le_compat_l; lra).
  assert (Z : (8 * INR n + INR n ^ 2 * K) * eta <= (8 * INR n + INR n ^ 2 * K') * eta) by (apply Rmult_le_compat_r; lra). lra.
Qed.

(** The product of two functions, called at doubles of the domain. *)
Theorem C212_product_called F z y d e a b f g xs vs i : (1 <= length f)%nat -> (1 <= length g)%nat -> (length f + length g - 1 <= 2 ^ 24)%nat -> PropFlM.doubles f -> PropFlM.doubles g ->
  accurate_fft F (2 * (length f + length g) - 3) d e -> 0 <= d <= / 16 -> 0 <= e <= / 16 -> is_double a -> is_double b -> a < b ->
  (forall x, In x xs -> is_double x /\ a <= x <= b) -> ffun_call y a b (fproduct F z f g) xs = Some vs -> (i < length xs)%nat ->
  let n := (length f + length g - 1)%nat in let E := INR n * times_error d e (size f) (size g) in
  length vs = length xs /\
  Rabs (nth i vs 0 - value a b f (nth i xs 0) * value a b g (nth i xs 0)) <= call_error a b n (size f * size g + E) + E.
Proof.
  intros Hf Hg HN Df Dg HF Hd He Fa Fb Hab HX HC Hi n E. destruct (product_near F z d e f g Hf Hg Df Dg HF Hd He) as [LP SP].
  destruct (C168_domain y a b (fproduct F z f g) xs vs ltac:(lia) Fa Fb Hab HX HC) as [LV B]. split; [exact LV|]. specialize (B i Hi). rewrite LP in B. fold n in B.
  assert (Ix : In (nth i xs 0) xs) by (apply nth_In, Hi). destruct (HX _ Ix) as [_ Rx]. set (x := nth i xs 0) in *.
  pose proof (C198_domain F z d e a b f g x Hf Hg Df Dg HF Hd He Hab Rx) as D. fold n in D.
  change (claimed_error d e f g) with (times_error d e (size f) (size g)) in *. fold n in SP. fold E in SP, D.
  change (Rabs (nth i vs 0 - value a b (fproduct F z f g) x) <= call_error a b n (size (fproduct F z f g))) in B. change (Rabs (value a b (fproduct F z f g) x - value a b f x * value a b g x) <= E) in D.
  pose proof (call_mono a b n _ _ Hab SP) as M.
  replace (nth i vs 0 - value a b f x * value a b g x) with ((nth i vs 0 - value a b (fproduct F z f g) x) + (value a b (fproduct F z f g) x - value a b f x * value a b g x)) by ring. eapply Rle_trans; [apply Rabs_triang|]. lra.
Qed.
Print Assumptions C212_product_called.

(** A function built from a callable, called at doubles of the domain. *)
Theorem C212_built_called D L y s d e a b op h r xs vs i : accurate_sin L s -> computes_on a b op h r -> accurate_dct D (length h) d e -> 0 <= d <= / 16 -> 0 <= e ->
  is_double a -> is_double b -> a < b -> stays_inside a b -> (2 <= length h <= 2 ^ 24)%nat ->
  (forall x, In x xs -> is_double x /\ a <= x <= b) -> ffun_call y a b (fbuild D L a b op (length h)) xs = Some vs -> (i < length xs)%nat ->
  let E := INR (length h) * build_error a b s r d e h in
  length vs = length xs /\ Rabs (nth i vs 0 - value a b h (nth i xs 0)) <= call_error a b (length h) (size h + E) + E /\
  Rabs (nth i vs 0 - op (nth i xs 0)) <= call_error a b (length h) (size h + E) + E + r.
Proof.
  intros HL HO HD Hd He Fa Fb Hab I [H2 H24] HX HC Hi E. assert (CO := fun k Hk => C202_coefficients D L s d e a b op h r k HL HO HD Hd He Hab I H2 Hk). destruct (CO 0%nat ltac:(lia)) as [LC _].
  assert (SN : size (fbuild D L a b op (length h)) <= size h + E) by (apply (size_near _ h (build_error a b s r d e h) LC); intros k Hk; apply CO, Hk).
  destruct (C168_domain y a b (fbuild D L a b op (length h)) xs vs ltac:(lia) Fa Fb Hab HX HC) as [LV B]. split; [exact LV|]. specialize (B i Hi). rewrite LC in B.
  assert (Ix : In (nth i xs 0) xs) by (apply nth_In, Hi). destruct (HX _ Ix) as [Fx Rx]. set (x := nth i xs 0) in *.
  pose proof (C202_function D L s d e a b op h r x HL HO HD Hd He Hab I H2 Rx) as FN. fold E in FN. pose proof (HO x Fx Rx) as OX.
  set (c := fbuild D L a b op (length h)) in *. change (Rabs (nth i vs 0 - value a b c x) <= call_error a b (length h) (size c)) in B. pose proof (call_mono a b (length h) _ _ Hab SN) as M.
  assert (G : Rabs (nth i vs 0 - value a b h x) <= call_error a b (length h) (size h + E) + E).
  { replace (nth i vs 0 - value a b h x) with ((nth i vs 0 - value a b c x) + (value a b c x - value a b h x)) by ring. eapply Rle_trans; [apply Rabs_triang|]. lra. }
  split; [exact G|]. replace (nth i vs 0 - op x) with ((nth i vs 0 - value a b h x) + - (op x - value a b h x)) by ring. eapply Rle_trans; [apply Rabs_triang|]. rewrite Rabs_Ropp. lra.
Qed.
Print Assumptions C212_built_called.

Lemma value_size a b c x : a < b -> a <= x <= b -> Rabs (value a b c x) <= size c.
Proof. intros Hab Hx. unfold PropFl.fun_value, PropFl.abs_sum, evalT. eapply Rle_trans; [apply rsum_Rabs|]. apply rsum_le. intros k _. rewrite Rabs_mult. rewrite <- (Rmult_1_r (Rabs (nth k c 0))) at 2. apply Rmult_le_compat_l; [apply Rabs_pos|]. apply ChebMath.T_bound, (ref_range a b x Hab Hx). Qed.
Lemma size_pos c : 0 <= size c.
Proof. rewrite PropFl.abs_sum_lasum. apply lasum_pos. Qed.

(** The product of two functions built from callables. *)
Theorem C212_built_product F z D L s d e a b op1 h1 r1 op2 h2 r2 x : accurate_sin L s ->
  computes_on a b op1 h1 r1 -> computes_on a b op2 h2 r2 -> accurate_dct D (length h1) d e -> accurate_dct D (length h2) d e -> accurate_fft F (2 * (length h1 + length h2) - 3) d e ->
  0 <= d <= / 16 -> 0 <= e <= / 16 -> a < b -> stays_inside a b -> (2 <= length h1)%nat -> (2 <= length h2)%nat -> a <= x <= b ->
  let E1 := INR (length h1) * build_error a b s r1 d e h1 in let E2 := INR (length h2) * build_error a b s r2 d e h2 in
  Rabs (value a b (fproduct F z (fbuild D L a b op1 (length h1)) (fbuild D L a b op2 (length h2))) x - value a b h1 x * value a b h2 x)
  <= INR (length h1 + length h2 - 1) * times_error d e (size h1 + E1) (size h2 + E2) + size h1 * E2 + size h2 * E1 + E1 * E2.
Proof.
  intros HL O1 O2 D1 D2 HF Hd He Hab I L1 L2 Hx E1 E2.
  assert (C1 := fun k Hk => C202_coefficients D L s d e a b op1 h1 r1 k HL O1 D1 Hd (proj1 He) Hab I L1 Hk). destruct (C1 0%nat ltac:(lia)) as [K1 _]. assert (C2 := fun k Hk => C202_coefficients D L s d e a b op2 h2 r2 k HL O2 D2 Hd (proj1 He) Hab I L2 Hk). destruct (C2 0%nat ltac:(lia)) as [K2 _].
  pose proof (C202_function D L s d e a b op1 h1 r1 x HL O1 D1 Hd (proj1 He) Hab I L1 Hx) as F1. pose proof (C202_function D L s d e a b op2 h2 r2 x HL O2 D2 Hd (proj1 He) Hab I L2 Hx) as F2. fold E1 in F1. fold E2 in F2.
  assert (S1 : size (fbuild D L a b op1 (length h1)) <= size h1 + E1) by (apply (size_near _ h1 (build_error a b s r1 d e h1) K1); intros k Hk; apply C1, Hk).
  assert (S2 : size (fbuild D L a b op2 (length h2)) <= size h2 + E2) by (apply (size_near _ h2 (build_error a b s r2 d e h2) K2); intros k Hk; apply C2, Hk).
  assert (B1 : PropFlM.doubles (fbuild D L a b op1 (length h1))) by (unfold fbuild; apply (fconstruct_doubles D L s d e); auto). assert (B2 : PropFlM.doubles (fbuild D L a b op2 (length h2))) by (unfold fbuild; apply (fconstruct_doubles D L s d e); auto).
  set (f := fbuild D L a b op1 (length h1)) in *. set (g := fbuild D L a b op2 (length h2)) in *.
  pose proof (C198_domain F z d e a b f g x ltac:(lia) ltac:(lia) B1 B2 ltac:(rewrite K1, K2; exact HF) Hd He Hab Hx) as P. rewrite K1, K2 in P.
  change (claimed_error d e f g) with (times_error d e (size f) (size g)) in P. set (n := INR (length h1 + length h2 - 1)) in *. assert (N0 : 0 <= n) by apply pos_INR.
  pose proof (size_pos f) as Pf. pose proof (size_pos g) as Pg. pose proof (size_pos h1) as Q1. pose proof (size_pos h2) as Q2. pose proof (value_size a b h1 x Hab Hx) as V1. pose proof (value_size a b h2 x Hab Hx) as V2.
  assert (E10 : 0 <= E1) by (eapply Rle_trans; [apply Rabs_pos|exact F1]). assert (E20 : 0 <= E2) by (eapply Rle_trans; [apply Rabs_pos|exact F2]).
  assert (T : n * times_error d e (size f) (size g) <= n * times_error d e (size h1 + E1) (size h2 + E2)).
  { apply Rmult_le_compat_l; [exact N0|]. unfold times_error. change (/ 2 ^ 53) with uro. destruct uro_small as [U0 _]. assert (size f * size g <= (size h1 + E1) * (size h2 + E2)) by (apply Rmult_le_compat; assumption).
    assert (20 * (d + uro) * (size f * size g) <= 20 * (d + uro) * ((size h1 + E1) * (size h2 + E2))) by (apply Rmult_le_compat_l; lra). assert (4 * e * (1 + size f + size g) <= 4 * e * (1 + (size h1 + E1) + (size h2 + E2))) by (apply Rmult_le_compat_l; lra). lra. }
  change (PropFlM.fun_value a b) with (value a b) in P. set (vf := value a b f x) in *. set (vg := value a b g x) in *. set (u1 := value a b h1 x) in *. set (u2 := value a b h2 x) in *. set (vp := value a b (fproduct F z f g) x) in *.
  replace (vp - u1 * u2) with ((vp - vf * vg) + (u1 * (vg - u2) + u2 * (vf - u1) + (vf - u1) * (vg - u2))) by ring.
  assert (X1 : Rabs (u1 * (vg - u2)) <= size h1 * E2) by (rewrite Rabs_mult; apply Rmult_le_compat; try apply Rabs_pos; assumption).
  assert (X2 : Rabs (u2 * (vf - u1)) <= size h2 * E1) by (rewrite Rabs_mult; apply Rmult_le_compat; try apply Rabs_pos; assumption).
  assert (X3 : Rabs ((vf - u1) * (vg - u2)) <= E1 * E2) by (rewrite Rabs_mult; apply Rmult_le_compat; try apply Rabs_pos; assumption).
  eapply Rle_trans; [apply Rabs_triang|]. pose proof (Rabs_triang (u1 * (vg - u2) + u2 * (vf - u1)) ((vf - u1) * (vg - u2))). pose proof (Rabs_triang (u1 * (vg - u2)) (u2 * (vf - u1))). lra.
Qed.
Print Assumptions C212_built_product.

(** The running integral of a function built from a callable; [w] is what
    simplify makes of the integrated coefficients, at most [t] away. *)
Theorem C212_built_running D L s d e a b op h r cb w g t x : accurate_sin L s -> computes_on a b op h r -> accurate_dct D (length h) d e -> 0 <= d <= / 16 -> 0 <= e ->
  is_double a -> is_double b -> a < b -> / 2 ^ 1000 <= b - a -> stays_inside a b -> (2 <= length h)%nat -> (1 <= length w <= 2 ^ 24)%nat -> PropFl2.doubles w ->
  fcumsum_coeffs (fbuild D L a b op (length h)) cb -> within t w cb -> fshift w g -> a <= x <= b ->
  let N := INR (length h) in let E := N * build_error a b s r d e h in let H := size h + E in
  exists I : R, is_RInt (value a b h) a x I /\
    Rabs (value a b (fcum_scale a b g) x - I) <= (b - a) * (t + 6 * / 2 ^ 53 * H + 3 * N * / 2 ^ 1075 + 5 / 2 * INR (length w) * (/ 2 ^ 53 * size w + / 2 ^ 1075) + 2 * / 2 ^ 53 * size g + E) + INR (length g) * / 2 ^ 1075.
Proof.
  intros HL HO HD Hd He Fa Fb Hab Hw I H2 LW DW HC HW HS Hx N E H. assert (CO := fun k Hk => C202_coefficients D L s d e a b op h r k HL HO HD Hd He Hab I H2 Hk). destruct (CO 0%nat ltac:(lia)) as [LC _].
  assert (FD : PropFl2.doubles (fbuild D L a b op (length h))) by (unfold fbuild; apply (fconstruct_doubles D L s d e); auto).
  assert (SN : size (fbuild D L a b op (length h)) <= H) by (apply (size_near _ h (build_error a b s r d e h) LC); intros k Hk; apply CO, Hk).
  assert (FN := fun x Hx => C202_function D L s d e a b op h r x HL HO HD Hd He Hab I H2 Hx). fold N in FN. fold E in FN. set (c := fbuild D L a b op (length h)) in *.
  destruct (C178_domain a b c cb w g t x ltac:(lia) LW FD DW Fa Fb Hab Hw HC HW HS Hx) as (J & RJ & EJ).
  assert (EX : ex_RInt (value a b h) a x). { apply @ex_RInt_continuous. intros q _. unfold PropFl.fun_value. apply (continuous_comp (PropFl.ref_point a b) (evalT h)); [|apply continuous_evalT]. unfold PropFl.ref_point. apply (ex_derive_continuous (V := R_NormedModule)). auto_derive. lra. }
  destruct EX as [K RK]. exists K. split; [exact RK|].
  assert (DF : is_RInt (fun q => minus (value a b c q) (value a b h q)) a x (minus J K)) by (apply @is_RInt_minus; assumption).
  assert (E0 : 0 <= E) by (eapply Rle_trans; [apply Rabs_pos|exact (FN x Hx)]).
  assert (B : norm (minus J K) <= (x - a) * E). { apply (norm_RInt_le_const (V := R_NormedModule) _ a x _ E ltac:(lra)) in DF; [exact DF|]. intros q Hq. apply FN. lra. }
  change (Rabs (J - K) <= (x - a) * E) in B. assert (B2 : (x - a) * E <= (b - a) * E) by (apply Rmult_le_compat_r; lra).
  unfold cum_bound in EJ. rewrite LC in EJ. fold N in EJ. change (/ 2 ^ 53) with uro in *. change (/ 2 ^ 1075) with eta in *. destruct uro_small as [U0 _]. pose proof eta_pos as T0.
  assert (M : uro * size c <= uro * H) by (apply Rmult_le_compat_l; lra). set (W := INR (length w) * (uro * size w + eta)) in *. set (G := uro * size g) in *.
  assert (EJ2 : (b - a) * ((2 * t + 12 * uro * size c + 6 * N * eta + 5 * INR (length w) * (uro * size w + eta)) / 2 + 2 * uro * size g) <= (b - a) * (t + 6 * uro * H + 3 * N * eta + 5 / 2 * INR (length w) * (uro * size w + eta) + 2 * uro * size g)).
  { apply Rmult_le_compat_l; [lra|]. replace (5 * INR (length w) * (uro * size w + eta)) with (5 * W) by (unfold W; ring). replace (5 / 2 * INR (length w) * (uro * size w + eta)) with (5 / 2 * W) by (unfold W; field). lra. }
  replace (value a b (fcum_scale a b g) x - K) with ((value a b (fcum_scale a b g) x - J) + (J - K)) by ring. eapply Rle_trans; [apply Rabs_triang|].
  rewrite (Rmult_plus_distr_l (b - a) _ E). lra.
Qed.
Print Assumptions C212_built_running.

(** The integral of a computed product. *)
Theorem C212_product_integral F z d e a b f g v : (1 <= length f)%nat -> (1 <= length g)%nat -> (length f + length g - 1 <= 2 ^ 24)%nat -> PropFlM.doubles f -> PropFlM.doubles g ->
  accurate_fft F (2 * (length f + length g) - 3) d e -> 0 <= d <= / 16 -> 0 <= e <= / 16 -> is_double a -> is_double b -> a < b ->
  ffun_sum a b (fproduct F z f g) v ->
  let n := INR (length f + length g - 1) in let E := n * times_error d e (size f) (size g) in let K := size f * size g + E in
  exists I : R, is_RInt (fun x => value a b f x * value a b g x) a b I /\
    Rabs (v - I) <= (b - a) * ((6 + 5 * n) * / 2 ^ 53 * K + 2 * n * / 2 ^ 1075 + E) + (3 + 7 * K) * / 2 ^ 1075.
Proof.
  intros Hf Hg HN Df Dg HF Hd He Fa Fb Hab HS n E K. destruct (product_near F z d e f g Hf Hg Df Dg HF Hd He) as [LP SP]. destruct (C198_coefficients F z d e f g Hf Hg Df Dg HF Hd He) as (_ & _ & _ & _ & DP & _).
  assert (FN := fun x Hx => C198_domain F z d e a b f g x Hf Hg Df Dg HF Hd He Hab Hx). change (claimed_error d e f g) with (times_error d e (size f) (size g)) in *. fold n in SP, FN. fold E in SP, FN. fold K in SP. set (c := fproduct F z f g) in *.
  destruct (C169_domain a b c v ltac:(lia) DP Fa Fb Hab HS) as (J & RJ & EJ). rewrite LP in EJ. fold n in EJ.
  assert (CV : forall w q, continuous (value a b w) q). { intros w q. unfold PropFl.fun_value. apply (continuous_comp (PropFl.ref_point a b) (evalT w)); [|apply continuous_evalT]. unfold PropFl.ref_point. apply (ex_derive_continuous (V := R_NormedModule)). auto_derive. lra. }
  assert (EX : ex_RInt (fun x => value a b f x * value a b g x) a b) by (apply @ex_RInt_continuous; intros q _; apply (continuous_mult (value a b f) (value a b g)); apply CV).
  destruct EX as [I RI]. exists I. split; [exact RI|].
  assert (DF : is_RInt (fun x => minus (value a b c x) (value a b f x * value a b g x)) a b (minus J I)) by (apply @is_RInt_minus; assumption).
  assert (B : norm (minus J I) <= (b - a) * E). { apply (norm_RInt_le_const (V := R_NormedModule) _ a b _ E ltac:(lra)) in DF; [exact DF|]. intros x Hx. exact (FN x Hx). }
  change (Rabs (J - I) <= (b - a) * E) in B. replace (v - I) with ((v - J) + (J - I)) by ring. eapply Rle_trans; [apply Rabs_triang|].
  assert (N0 : 0 <= n) by apply pos_INR. destruct uro_small as [U0 _]. pose proof eta_pos as E0. change (/ 2 ^ 53) with uro in *. change (/ 2 ^ 1075) with eta in *.
  assert (M1 : (6 + 5 * n) * uro * size c <= (6 + 5 * n) * uro * K) by (apply Rmult_le_compat_l; [apply Rmult_le_pos; lra|exact SP]).
  assert (M2 : (b - a) * ((6 + 5 * n) * uro * size c + 2 * n * eta) <= (b - a) * ((6 + 5 * n) * uro * K + 2 * n * eta)) by (apply Rmult_le_compat_l; lra).
  assert (M3 : (3 + 7 * size c) * eta <= (3 + 7 * K) * eta) by (apply Rmult_le_compat_r; lra).
  rewrite (Rmult_plus_distr_l (b - a) _ E). lra.
Qed.
Print Assumptions C212_product_integral.

(** The derivative of a computed product: the product rule up to rounding. *)
Theorem C212_product_derivative F z d e a b f g x : (1 <= length f)%nat -> (1 <= length g)%nat -> (2 <= length f + length g - 1 <= 2 ^ 24)%nat -> PropFlM.doubles f -> PropFlM.doubles g ->
  accurate_fft F (2 * (length f + length g) - 3) d e -> 0 <= d <= / 16 -> 0 <= e <= / 16 -> is_double a -> is_double b -> a < b -> / 2 ^ 1000 <= b - a -> a <= x <= b ->
  let n := INR (length f + length g - 1) in let T := times_error d e (size f) (size g) in let K := size f * size g + n * T in
  exists p q : R, is_derive (value a b f) x p /\ is_derive (value a b g) x q /\
    Rabs (value a b (ffun_diff a b (fproduct F z f g)) x - (p * value a b g x + value a b f x * q))
      <= (36 * n ^ 2 * (/ 2 ^ 53 * (n * K) + / 2 ^ 1075) + 2 * n ^ 3 * T) / (b - a) + n * / 2 ^ 1075.
Proof.
  intros Hf Hg HN Df Dg HF Hd He Fa Fb Hab W Hx n T K. destruct (product_near F z d e f g Hf Hg Df Dg HF Hd He) as [LP SP]. destruct (C198_coefficients F z d e f g Hf Hg Df Dg HF Hd He) as (h & Lh & Vh & LC & DP & Bh).
  change (claimed_error d e f g) with T in *. fold n in SP. fold K in SP. set (c := fproduct F z f g) in *.
  destruct (C177_domain a b c x ltac:(lia) DP Fa Fb Hab W Hx) as (G & DG & EG). rewrite LP in EG. fold n in EG.
  assert (DD : forall w, exists p, is_derive (evalT w) (PropFl.ref_point a b x) p) by (intros w; eexists; apply is_derive_evalT).
  destruct (DD f) as [pf Df']. destruct (DD g) as [pg Dg']. destruct (DD h) as [ph Dh]. destruct (DD c) as [pc Dc].
  pose proof (chain a b f pf x Hab Df') as Cf. pose proof (chain a b g pg x Hab Dg') as Cg. pose proof (chain a b h ph x Hab Dh) as Ch. pose proof (chain a b c pc x Hab Dc) as Cc.
  exists (pf / ((b - a) / 2)), (pg / ((b - a) / 2)). split; [exact Cf|]. split; [exact Cg|].
  assert (PR : ph / ((b - a) / 2) = pf / ((b - a) / 2) * value a b g x + value a b f x * (pg / ((b - a) / 2))).
  { rewrite <- (is_derive_unique _ _ _ Ch). apply is_derive_unique. apply (is_derive_ext (fun t => value a b f t * value a b g t)); [intros t; symmetry; apply Vh|]. apply (is_derive_mult (value a b f) (value a b g)); [exact Cf|exact Cg|intros; apply Rmult_comm]. }
  rewrite <- PR. pose proof (derive_small c h (PropFl.ref_point a b x) T pc ph LC (ref_range a b x Hab Hx) Bh Dc Dh) as PQ. rewrite Lh in PQ. fold n in PQ.
  assert (EQ : G = pc / ((b - a) / 2)) by (rewrite <- (is_derive_unique _ _ _ DG); apply is_derive_unique, Cc). rewrite EQ in EG.
  assert (WS : weighted_sum c <= n * K). { apply Rle_trans with (n * size c); [|apply Rmult_le_compat_l; [apply pos_INR|exact SP]]. unfold weighted_sum, PropFl.abs_sum. rewrite <- rsum_scal. apply rsum_le. intros k Hk. apply Rmult_le_compat_r; [apply Rabs_pos|]. unfold n. apply le_INR. lia. }
  change (/ 2 ^ 53) with uro in *. change (/ 2 ^ 1075) with eta in *. destruct uro_small as [U0 _]. pose proof eta_pos as E0. assert (IB : 0 < / (b - a)) by (apply Rinv_0_lt_compat; lra).
  assert (B2 : Rabs (pc / ((b - a) / 2) - ph / ((b - a) / 2)) <= 2 * n ^ 3 * T / (b - a)). { replace (pc / ((b - a) / 2) - ph / ((b - a) / 2)) with ((pc - ph) * (2 * / (b - a))) by (field; lra). rewrite Rabs_mult, (Rabs_right (2 * / (b - a))) by lra. replace (2 * n ^ 3 * T / (b - a)) with (n ^ 3 * T * (2 * / (b - a))) by (field; lra). apply Rmult_le_compat_r; [lra|exact PQ]. }
  assert (M : 36 * n ^ 2 * (uro * weighted_sum c + eta) / (b - a) <= 36 * n ^ 2 * (uro * (n * K) + eta) / (b - a)). { apply Rmult_le_compat_r; [lra|]. apply Rmult_le_compat_l; [apply Rmult_le_pos; [lra|apply pow2_ge_0]|]. assert (uro * weighted_sum c <= uro * (n * K)) by (apply Rmult_le_compat_l; [lra|exact WS]). lra. }
  replace ((36 * n ^ 2 * (uro * (n * K) + eta) + 2 * n ^ 3 * T) / (b - a)) with (36 * n ^ 2 * (uro * (n * K) + eta) / (b - a) + 2 * n ^ 3 * T / (b - a)) by (field; lra).
  replace (value a b (ffun_diff a b c) x - ph / ((b - a) / 2)) with ((value a b (ffun_diff a b c) x - pc / ((b - a) / 2)) + (pc / ((b - a) / 2) - ph / ((b - a) / 2))) by ring. eapply Rle_trans; [apply Rabs_triang|]. lra.
Qed.
Print Assumptions C212_product_derivative.

(** The product of 1 + x and 1 - x on [-1, 1], called at 1/2. *)
Theorem C212_case z y : exists v, ffun_call y (-1) 1 (fproduct rounded_fft z [1; 1] [1; -1]) [/ 2] = Some [v] /\ Rabs (v - 3 / 4) <= 6000 * / 2 ^ 53 /\ 6000 * / 2 ^ 53 < / 10 ^ 11.
Proof.
  destruct uro_small as [U0 _]. pose proof tiny_uro as U1. pose proof eta_uro as EU. pose proof eta_pos as E0.
  assert (UB : uro <= / 9000000000000000). { Local Transparent uro. unfold uro. apply Rinv_le_contravar; [lra|]. rewrite !pow_IZR. apply IZR_le. cbn. lia. Local Opaque uro. }
  assert (P11 : / 10 ^ 11 = / 100000000000). { f_equal. rewrite pow_IZR. f_equal. }
  assert (D1 : PropFlM.doubles [1; 1]) by (intros t I; repeat (destruct I as [<-|I]; [exact dbl_1|]); destruct I). assert (D2 : PropFlM.doubles [1; -1]) by (intros t [<-|[<-|[]]]; [exact dbl_1|exact dbl_m1]).
  assert (FH : is_double (/ 2)) by (replace (/ 2) with (1 * Flocq.Core.Raux.bpow Flocq.Core.Zaux.radix2 (-1)) by (change (Flocq.Core.Raux.bpow Flocq.Core.Zaux.radix2 (-1)) with (/ 2); ring); apply float_double; cbn; lia). assert (HX : forall x, In x [/ 2] -> is_double x /\ -1 <= x <= 1) by (intros x [<-|[]]; split; [exact FH|lra]).
  destruct (C170_integer_ends_partial (-1) 1 ltac:(lia) ltac:(cbn; lia) ltac:(cbn; lia) y (fproduct rounded_fft z [1; 1] [1; -1]) [/ 2] HX) as [vs HV].
  assert (N24 : (length ([1; 1]%R : list R) + length ([1; -1]%R : list R) - 1 <= 2 ^ 24)%nat) by (cbn [length]; apply Nat.le_trans with (2 ^ 2)%nat; [cbn; lia|apply Nat.pow_le_mono_r; lia]).
  destruct (C212_product_called rounded_fft z y (2 * / 2 ^ 53) (2 * / 2 ^ 1075) (-1) 1 [1; 1] [1; -1] [/ 2] vs 0) as [LV B]; try assumption; try (cbn; lia); try exact dbl_1; try exact dbl_m1; try lra.
  { apply PropFlM.rounded_accurate. cbn. lia. }
  destruct vs as [|v [|]]; [discriminate LV| |discriminate LV]. exists v. split; [exact HV|]. split; [|change (/ 2 ^ 53) with uro; rewrite P11; lra].
  cbn [nth] in B. assert (VV : value (-1) 1 [1; 1] (/ 2) * value (-1) 1 [1; -1] (/ 2) = 3 / 4) by (unfold PropFl.fun_value, PropFl.ref_point, evalT; cbn [length rsum nth T]; field). rewrite VV in B. eapply Rle_trans; [exact B|]. clear B HV HX VV.
  assert (S1 : size [1; 1] = 2) by (unfold PropFl.abs_sum; cbn [length rsum nth]; rewrite Rabs_R1; ring). assert (S2 : size [1; -1] = 2) by (unfold PropFl.abs_sum; cbn [length rsum nth]; rewrite Rabs_R1, Rabs_left by lra; lra).
  unfold call_error, times_error. rewrite S1, S2. change (INR (length [1; 1] + length [1; -1] - 1)) with (INR 3). replace (INR 3) with 3 by (cbn; ring). rewrite (Rabs_left (-1)), (Rabs_right 1) by lra. change (/ 2 ^ 53) with uro. change (/ 2 ^ 1075) with eta.
  set (Q := 3 * (20 * (2 * uro + uro) * (2 * 2) + 4 * (2 * eta) * (1 + 2 + 2) + 16 * eta)). assert (QB : 0 <= Q <= 800 * uro) by (unfold Q; lra). clearbody Q.
  replace ((- -1 + 1) / (1 - -1)) with 1 by field. assert (M1 : uro * (2 * 2 + Q) <= uro * 5) by (apply Rmult_le_compat_l; lra). assert (M2 : (2 * 2 + Q) * eta <= 5 * eta) by (apply Rmult_le_compat_r; lra). lra.
Qed.
Print Assumptions C212_case.
