(** Error analysis of fvals2coeffs and fcoeffs2vals. *)
From Coq Require Import Reals List Arith Lia Lra Bool ZArith.
From Coquelicot Require Import Coquelicot.
From Verif Require Import Base ToolsProofs TrigSpec TrigBase TrigModel TrigTrans TrigObj FlModel FlProofs FlSum FlMap FlTrigModel FlTrig FlMul FlFftModel.
Import ListNotations.
Open Scope R_scope.
Local Opaque uro eta.

Definition casum (v : list C) : R := rsum (length v) (fun k => Cmod (nth k v C0)).
Lemma casum_pos v : 0 <= casum v.
Proof. apply rsum_nonneg. intros. apply Cmod_ge_0. Qed.

(** accuracy assumed of the transforms *)
Definition cfft_within (F : cfftlib) (n : nat) (d e : R) : Prop :=
  (forall v, length v = n -> cdoubles v -> length (cfft F v) = n /\ forall k, (k < n)%nat -> Cmod (nth k (cfft F v) C0 - nth k (fft v) C0)%C <= d * casum v + e) /\
  (forall w, length w = n -> cdoubles w -> length (cifft F w) = n /\ forall k, (k < n)%nat -> Cmod (nth k (cifft F w) C0 - nth k (ifft w) C0)%C <= d * (/ INR n * casum w) + e).

Lemma csum_RtoC n f : csum n (fun k => RtoC (f k)) = RtoC (rsum n f).
Proof. induction n as [|n IH]; [reflexivity|]. cbn [csum rsum]. rewrite IH, RtoC_plus. reflexivity. Qed.
Lemma rsum_rot n s f : rsum n (fun k => f ((k + s) mod n)%nat) = rsum n f.
Proof. pose proof (csum_rot n s (fun k => RtoC (f k))) as E. cbv beta in E. rewrite (csum_RtoC n (fun k => f ((k + s) mod n)%nat)), csum_RtoC in E. injection E. auto. Qed.
Lemma cfft_bound v k : (k < length v)%nat -> Cmod (nth k (fft v) C0) <= casum v.
Proof. intros H. rewrite fft_nth by exact H. eapply Rle_trans; [apply csum_mod|]. apply rsum_le. intros j _. rewrite Cmod_mult, cis_mod. lra. Qed.
Lemma cifft_diff v w j : length w = length v -> (j < length v)%nat ->
  Cmod (nth j (ifft w) C0 - nth j (ifft v) C0)%C <= / INR (length v) * rsum (length v) (fun k => Cmod (nth k w C0 - nth k v C0)%C).
Proof.
  intros L Hj. assert (Np : (0 < INR (length v))%R) by (apply lt_0_INR; lia). unfold ifft. rewrite L, !nth_mk by exact Hj. set (n := length v) in *.
  replace (RtoC (/ INR n) * csum n (fun k => nth k w C0 * cis (2 * PI * INR j * INR k / INR n)) - RtoC (/ INR n) * csum n (fun k => nth k v C0 * cis (2 * PI * INR j * INR k / INR n)))%C
    with (RtoC (/ INR n) * csum n (fun k => (nth k w C0 - nth k v C0) * cis (2 * PI * INR j * INR k / INR n)))%C.
  2:{ transitivity (RtoC (/ INR n) * (csum n (fun k => nth k w C0 * cis (2 * PI * INR j * INR k / INR n)) + (- RtoC 1) * csum n (fun k => nth k v C0 * cis (2 * PI * INR j * INR k / INR n))))%C; [|ring].
      f_equal. rewrite <- csum_scal, <- csum_plus. apply csum_ext. intros k Hk. ring. }
  rewrite Cmod_mult, Cmod_R, Rabs_right by (apply Rle_ge, Rlt_le, Rinv_0_lt_compat, Np). apply Rmult_le_compat_l; [apply Rlt_le, Rinv_0_lt_compat, Np|].
  eapply Rle_trans; [apply csum_mod|]. apply rsum_le. intros k _. rewrite Cmod_mult, cis_mod. lra.
Qed.

(** ** rounding of complex numbers *)
Lemma fscale_err r w : Cmod (fscale r w - RtoC r * w)%C <= 2 * uro * (Rabs r * Cmod w) + 2 * eta.
Proof.
  destruct uro_small as [U0 _]. eapply Rle_trans; [apply mod_sum|]. destruct w as [a b]. unfold fscale, fmul. cbn [fst snd Cminus Cplus Copp Cmult RtoC].
  replace (fl (r * a) + - (r * a - 0 * b)) with (fl (r * a) - r * a) by ring. replace (fl (r * b) + - (r * b + 0 * a)) with (fl (r * b) - r * b) by ring.
  pose proof (fl_err (r * a)) as F1. pose proof (fl_err (r * b)) as F2. rewrite Rabs_mult in F1, F2. pose proof (re_mod (a, b)) as R1. pose proof (im_mod (a, b)) as R2. cbn [fst snd] in R1, R2. pose proof (Rabs_pos r) as Rr.
  assert (X1 : uro * (Rabs r * Rabs a) <= uro * (Rabs r * Cmod (a, b))) by (apply Rmult_le_compat_l; [lra|]; apply Rmult_le_compat_l; assumption).
  assert (X2 : uro * (Rabs r * Rabs b) <= uro * (Rabs r * Cmod (a, b))) by (apply Rmult_le_compat_l; [lra|]; apply Rmult_le_compat_l; assumption). lra.
Qed.
Lemma fscale_double r w : is_double (fst (fscale r w)) /\ is_double (snd (fscale r w)).
Proof. split; apply fl_is_double. Qed.
Lemma cround_dist (s t : C) (a b : R) B : Cmod (s - t)%C <= B -> a = fl (fst s) -> b = fl (snd s) -> Cmod (((a, b) : C) - t)%C <= B + 2 * uro * (Cmod t + B) + 2 * eta.
Proof.
  intros H -> ->. destruct uro_small as [U0 _]. replace (((fl (fst s), fl (snd s)) : C) - t)%C with ((((fl (fst s), fl (snd s)) : C) - s) + (s - t))%C by ring. eapply Rle_trans; [apply Cmod_triangle|].
  assert (T : Cmod s <= Cmod t + B). { replace s with (t + (s - t))%C by ring. eapply Rle_trans; [apply Cmod_triangle|]. lra. }
  assert (G : Cmod (((fl (fst s), fl (snd s)) : C) - s)%C <= 2 * uro * Cmod s + 2 * eta).
  { eapply Rle_trans; [apply mod_sum|]. cbn [fst snd Cminus Cplus Copp]. pose proof (fl_err (fst s)) as F1. pose proof (fl_err (snd s)) as F2. pose proof (re_mod s). pose proof (im_mod s). assert (uro * Rabs (fst s) <= uro * Cmod s) by (apply Rmult_le_compat_l; lra). assert (uro * Rabs (snd s) <= uro * Cmod s) by (apply Rmult_le_compat_l; lra). unfold Rminus in *. lra. }
  assert (2 * uro * Cmod s <= 2 * uro * (Cmod t + B)) by (apply Rmult_le_compat_l; lra). lra.
Qed.
Lemma Cmod_conj a : Cmod (Cconj a) = Cmod a.
Proof. unfold Cmod, Cconj. cbn [fst snd]. f_equal. ring. Qed.
Lemma conj_diff p q : Cmod (Cconj p - Cconj q)%C = Cmod (p - q)%C.
Proof. rewrite <- (Cmod_conj (p - q)%C). f_equal. destruct p, q. apply injective_projections; cbn; ring. Qed.

(** ** values -> coefficients *)
Definition corr (h s : bool) (a : C) : C := let a := if h then ((fst a, 0) : C) else a in if s then ((0, snd a) : C) else a.
Lemma corr_near h s a b : Cmod (corr h s a - corr h s b)%C <= Cmod (a - b)%C.
Proof.
  assert (P : forall x y : R, Cmod ((x, 0) : C) <= Cmod ((x, y) : C) /\ Cmod ((0, y) : C) <= Cmod ((x, y) : C)).
  { intros x y. split; (eapply Rle_trans; [apply mod_sum|]; cbn [fst snd]; rewrite Rabs_R0); [rewrite Rplus_0_r; exact (re_mod (x, y))|rewrite Rplus_0_l; exact (im_mod (x, y))]. }
  assert (M : forall x1 x2 y1 y2 : R, (((x1, x2) : C) - ((y1, y2) : C))%C = ((x1 - y1)%R, (x2 - y2)%R)) by (intros; apply injective_projections; cbn; ring).
  destruct a as [a1 a2], b as [b1 b2]. unfold corr. cbn [fst snd]. destruct h, s; cbn [fst snd]; rewrite !M; replace (0 - 0) with 0 by ring.
  - eapply Rle_trans; [|apply Cmod_ge_0]. right. exact Cmod_0.
  - apply P.
  - apply P.
  - lra.
Qed.
Definition vsh (n k : nat) : nat := ((k + (n - n / 2)) mod n)%nat.
Lemma vsh_lt n k : (1 <= n)%nat -> (vsh n k < n)%nat.
Proof. intros H. apply Nat.mod_upper_bound. lia. Qed.
Lemma corr_list h s (g1 g2 : C -> C) l k : (forall a, g1 a = ((fst a, 0) : C)) -> (forall a, g2 a = ((0, snd a) : C)) -> (k < length l)%nat ->
  nth k (let c := if h : bool then map g1 l else l in if s : bool then map g2 c else c) C0 = corr h s (nth k l C0).
Proof.
  intros H1 H2 Hk. unfold corr. destruct h, s; cbv zeta; rewrite ?map_nth_C by (rewrite ?map_length; exact Hk); rewrite ?H2, ?H1; try reflexivity.
Qed.
Lemma v2c_entry v k : (2 <= length v)%nat -> (k < length v)%nat ->
  nth k (vals2coeffs1 v) C0 = (eofix (length v) k * corr (isHerm (v ++ [nth 0 v C0])) (isSkew (v ++ [nth 0 v C0])) (RtoC (/ INR (length v)) * nth (vsh (length v) k) (fft v) C0))%C.
Proof.
  intros H2 Hk. unfold vals2coeffs1. destruct (Nat.leb_spec (length v) 1); [lia|]. cbv zeta. rewrite nth_mk by exact Hk. f_equal.
  assert (Lf : length (fft v) = length v) by apply mk_length. assert (Ls : length (fftshift (fft v)) = length v) by (unfold fftshift; rewrite mk_length; exact Lf).
  rewrite (corr_list _ _ (fun a => RtoC (Re a)) (fun a => (Ci * RtoC (Im a))%C) (map (fun a => (RtoC (/ INR (length v)) * a)%C) (fftshift (fft v))) k).
  - f_equal. rewrite map_nth_C by lia. f_equal. unfold fftshift. rewrite Lf, nth_mk by exact Hk. reflexivity.
  - reflexivity.
  - intros [x y]. apply injective_projections; cbn; ring.
  - rewrite map_length. lia.
Qed.
Lemma fv2c_entry F v k : (2 <= length v)%nat -> (k < length v)%nat -> length (cfft F v) = length v ->
  nth k (fvals2coeffs F v) C0 = (eofix (length v) k * corr (isHerm (v ++ [nth 0 v C0])) (isSkew (v ++ [nth 0 v C0])) (fscale (fdiv 1 (INR (length v))) (nth (vsh (length v) k) (cfft F v) C0)))%C.
Proof.
  intros H2 Hk Lf. unfold fvals2coeffs. destruct (Nat.leb_spec (length v) 1); [lia|]. cbv zeta. rewrite nth_mk by exact Hk. f_equal.
  assert (Ls : length (fftshift (cfft F v)) = length v) by (unfold fftshift; rewrite mk_length; exact Lf).
  rewrite (corr_list _ _ (fun a : C => ((fst a, 0) : C)) (fun a : C => ((0, snd a) : C)) (map (fscale (fdiv 1 (INR (length v)))) (fftshift (cfft F v))) k).
  - f_equal. rewrite map_nth_C by lia. f_equal. unfold fftshift. rewrite Lf, nth_mk by exact Hk. reflexivity.
  - reflexivity.
  - reflexivity.
  - rewrite map_length. lia.
Qed.
Lemma fv2c_length F v : length (fvals2coeffs F v) = length v.
Proof. unfold fvals2coeffs. destruct (Nat.leb_spec (length v) 1); [reflexivity|]. apply mk_length. Qed.
Lemma eofix_mod n k : Cmod (eofix n k) = 1.
Proof. unfold eofix. destruct (Z.even _); rewrite Cmod_R; [apply Rabs_R1|rewrite Rabs_left; lra]. Qed.
Lemma eofix_diff n k a b : Cmod (eofix n k * a - eofix n k * b)%C = Cmod (a - b)%C.
Proof. replace (eofix n k * a - eofix n k * b)%C with (eofix n k * (a - b))%C by ring. rewrite Cmod_mult, eofix_mod. ring. Qed.

Lemma v2c_bound (q d e S u h r w x : R) : 0 <= q <= 1 -> 0 <= d <= / 16 -> 0 <= e <= / 16 -> 0 <= S -> 0 <= u <= / 1000 -> 0 <= h <= / 1000 -> Rabs (r - q) <= u * q + h -> 0 <= w -> w <= S + x -> 0 <= x -> x <= d * S + e ->
  2 * u * (Rabs r * w) + 2 * h + (Rabs r * x + Rabs (r - q) * S) <= 4 * (d + u) * (q * S) + 2 * e + 3 * (1 + S) * h.
Proof.
  intros [q0 q1] [d0 d1] [e0 e1] S0 [u0 u1] [h0 h1] Hr w0 Hw x0 Hx.
  assert (RR : Rabs r <= q + u * q + h). { replace r with (q + (r - q)) by ring. eapply Rle_trans; [apply Rabs_triang|]. rewrite (Rabs_right q) by lra. lra. }
  pose proof (Rabs_pos r) as R0. set (R := Rabs r) in *. set (D := Rabs (r - q)) in *. assert (D0 : 0 <= D) by apply Rabs_pos.
  assert (qS : 0 <= q * S) by (apply Rmult_le_pos; lra). assert (hS : 0 <= h * S) by (apply Rmult_le_pos; lra). assert (qe : 0 <= q * e <= e) by (split; [apply Rmult_le_pos; lra|]; rewrite <- (Rmult_1_l e) at 2; apply Rmult_le_compat_r; lra). assert (he : 0 <= h * e <= / 16 * h) by (split; [apply Rmult_le_pos; lra|]; rewrite (Rmult_comm h); apply Rmult_le_compat_r; lra).
  assert (dqS : 0 <= d * (q * S)) by (apply Rmult_le_pos; lra). assert (uqS : 0 <= u * (q * S)) by (apply Rmult_le_pos; lra).
  assert (B1 : R * w <= (q + u * q + h) * (S + (d * S + e))) by (apply Rmult_le_compat; lra).
  assert (B2 : R * x <= (q + u * q + h) * (d * S + e)) by (apply Rmult_le_compat; lra).
  assert (B3 : D * S <= (u * q + h) * S) by (apply Rmult_le_compat_r; lra).
  assert (E2 : (q + u * q + h) * (d * S + e) <= 1001 / 1000 * (d * (q * S)) + 1001 / 1000 * e + / 16 * (h * S) + / 16 * h).
  { replace ((q + u * q + h) * (d * S + e)) with (d * (q * S) + u * (d * (q * S)) + d * (h * S) + (q * e + u * (q * e) + h * e)) by ring.
    assert (u * (d * (q * S)) <= / 1000 * (d * (q * S))) by (apply Rmult_le_compat_r; lra). assert (d * (h * S) <= / 16 * (h * S)) by (apply Rmult_le_compat_r; lra). assert (u * (q * e) <= / 1000 * (q * e)) by (apply Rmult_le_compat_r; lra). lra. }
  assert (E1 : (q + u * q + h) * (S + (d * S + e)) <= 11 / 10 * (q * S) + 11 / 10 * e + 11 / 10 * (h * S) + / 16 * h).
  { replace ((q + u * q + h) * (S + (d * S + e))) with (q * S + u * (q * S) + h * S + (q + u * q + h) * (d * S + e)) by ring.
    assert (u * (q * S) <= / 1000 * (q * S)) by (apply Rmult_le_compat_r; lra). assert (d * (q * S) <= / 16 * (q * S)) by (apply Rmult_le_compat_r; lra). lra. }
  assert (U1 : 2 * u * (R * w) <= 2 * u * (11 / 10 * (q * S) + 11 / 10 * e + 11 / 10 * (h * S) + / 16 * h)) by (apply Rmult_le_compat_l; lra).
  assert (U2 : u * (11 / 10 * e + 11 / 10 * (h * S) + / 16 * h) <= / 1000 * (11 / 10 * e + 11 / 10 * (h * S) + / 16 * h)) by (apply Rmult_le_compat_r; lra).
  replace (2 * u * (11 / 10 * (q * S) + 11 / 10 * e + 11 / 10 * (h * S) + / 16 * h)) with (22 / 10 * (u * (q * S)) + 2 * (u * (11 / 10 * e + 11 / 10 * (h * S) + / 16 * h))) in U1 by field.
  replace (4 * (d + u) * (q * S)) with (4 * (d * (q * S)) + 4 * (u * (q * S))) by ring. replace ((u * q + h) * S) with (u * (q * S) + h * S) in B3 by ring. replace (3 * (1 + S) * h) with (3 * h + 3 * (h * S)) by ring. lra.
Qed.
Lemma v2c_err F d e v k : (2 <= length v)%nat -> cdoubles v -> cfft_within F (length v) d e -> 0 <= d <= / 16 -> 0 <= e <= / 16 -> (k < length v)%nat ->
  Cmod (nth k (fvals2coeffs F v) C0 - nth k (vals2coeffs1 v) C0)%C <= 4 * (d + uro) * (/ INR (length v) * casum v) + 2 * e + 3 * (1 + casum v) * eta.
Proof.
  intros H2 Dv [HF _] Hd He Hk. destruct (HF v eq_refl Dv) as [Lf EF]. rewrite fv2c_entry, v2c_entry by assumption. rewrite eofix_diff. eapply Rle_trans; [apply corr_near|].
  set (n := length v) in *. assert (Hs := vsh_lt n k ltac:(lia)). set (s := vsh n k) in *. specialize (EF s Hs). pose proof (cfft_bound v s Hs) as FB. set (X := nth s (fft v) C0) in *. set (Y := nth s (cfft F v) C0) in *. set (r := fdiv 1 (INR n)).
  destruct uro_small as [U0 _]. pose proof tiny_uro as U1. pose proof eta_pos as E0. pose proof eta_uro as E1. pose proof (casum_pos v) as S0.
  assert (n1 : 1 <= INR n) by (change 1 with (INR 1); apply le_INR; lia). assert (q0 : 0 < / INR n) by (apply Rinv_0_lt_compat; lra). assert (q1 : / INR n <= 1) by (rewrite <- Rinv_1; apply Rinv_le_contravar; lra).
  assert (Hr : Rabs (r - / INR n) <= uro * / INR n + eta). { unfold r, fdiv, Rdiv. rewrite Rmult_1_l. pose proof (fl_err (/ INR n)) as Q. rewrite (Rabs_right (/ INR n)) in Q by lra. exact Q. }
  replace (fscale r Y - RtoC (/ INR n) * X)%C with ((fscale r Y - RtoC r * Y) + (RtoC r * (Y - X) + RtoC (r - / INR n)%R * X))%C by (rewrite RtoC_minus; ring).
  eapply Rle_trans; [apply Cmod_triangle|]. pose proof (fscale_err r Y) as FS. pose proof (Cmod_triangle (RtoC r * (Y - X))%C (RtoC (r - / INR n)%R * X)%C) as TR. rewrite !Cmod_mult, !Cmod_R in TR.
  assert (YB : Cmod Y <= casum v + Cmod (Y - X)%C). { replace Y with (X + (Y - X))%C at 1 by ring. eapply Rle_trans; [apply Cmod_triangle|]. lra. }
  assert (XB : Rabs (r - / INR n) * Cmod X <= Rabs (r - / INR n) * casum v) by (apply Rmult_le_compat_l; [apply Rabs_pos|exact FB]).
  pose proof (v2c_bound (/ INR n) d e (casum v) uro eta r (Cmod Y) (Cmod (Y - X)%C) ltac:(lra) Hd He S0 ltac:(lra) ltac:(lra) Hr (Cmod_ge_0 _) YB (Cmod_ge_0 _) EF) as V. lra.
Qed.

(** ** coefficients -> values *)
Definition opp_index (n j : nat) : nat := ((n - j) mod n)%nat.
Lemma pair_nth (f : C * C -> C) (V : list C) n j : length V = n -> (j < n)%nat ->
  nth j (firstn n (map f (combine (V ++ [nth 0 V C0]) (rev (V ++ [nth 0 V C0]))))) C0 = f (nth j V C0, nth (opp_index n j) V C0).
Proof.
  intros L Hj. assert (LL : length (V ++ [nth 0 V C0]) = S n) by (rewrite app_length, L; cbn; lia). rewrite nth_firstn' by exact Hj.
  rewrite nth_indep with (d' := f (C0, C0)) by (rewrite map_length, combine_length, rev_length, LL; lia). rewrite map_nth, combine_rev_nth by (rewrite LL; lia). rewrite LL. rewrite !app_last_nth by lia.
  rewrite L. rewrite (proj2 (Nat.eqb_neq j n)) by lia. unfold opp_index. destruct (Nat.eqb_spec (S n - 1 - j) n) as [E|E].
  - assert (j = 0)%nat as -> by lia. rewrite Nat.sub_0_r, Nat.mod_same by lia. reflexivity.
  - rewrite Nat.mod_small by lia. replace (S n - 1 - j)%nat with (n - j)%nat by lia. reflexivity.
Qed.
Lemma opp_lt n j : (1 <= n)%nat -> (opp_index n j < n)%nat.
Proof. intros H. apply Nat.mod_upper_bound. lia. Qed.
Definition adj (c : list C) : list C := mk (length c) (fun k => (eofix (length c) k * nth k c C0)%C).
Definition isre (c : list C) : bool := forallb (fun a => Reqb (Rabs (Im a)) 0) (adj c).
Definition isim (c : list C) : bool := forallb (fun a => Reqb (Rabs (Re a)) 0) (adj c).
Definition rawv (c : list C) : list C := ifft (ifftshift (map (fun a => (RtoC (INR (length c)) * a)%C) (adj c))).
Definition frawv (F : cfftlib) (c : list C) : list C := cifft F (ifftshift (map (fscale (INR (length c))) (adj c))).
Lemma c2v_entry c j : (2 <= length c)%nat -> (j < length c)%nat ->
  nth j (coeffs2vals1 c) C0 = let p := nth j (rawv c) C0 in let q := nth (opp_index (length c) j) (rawv c) C0 in
    if isim c then ((p - Cconj q) / RtoC 2)%C else if isre c then ((p + Cconj q) / RtoC 2)%C else p.
Proof.
  intros H2 Hj. unfold coeffs2vals1. destruct (Nat.leb_spec (length c) 1); [lia|]. fold (adj c). fold (isre c). fold (isim c). fold (rawv c). cbv zeta.
  assert (L : length (rawv c) = length c) by (unfold rawv, ifft, ifftshift, adj; rewrite !mk_length, map_length, mk_length; reflexivity).
  destruct (isim c); [apply (pair_nth (fun p => ((fst p - Cconj (snd p)) / RtoC 2)%C)); assumption|]. destruct (isre c); [apply (pair_nth (fun p => ((fst p + Cconj (snd p)) / RtoC 2)%C)); assumption|]. reflexivity.
Qed.
Lemma fc2v_entry F c j : (2 <= length c)%nat -> (j < length c)%nat -> length (frawv F c) = length c ->
  nth j (fcoeffs2vals F c) C0 = let p := nth j (frawv F c) C0 in let q := nth (opp_index (length c) j) (frawv F c) C0 in
    if isim c then fskew p q else if isre c then fherm p q else p.
Proof.
  intros H2 Hj L. unfold fcoeffs2vals. destruct (Nat.leb_spec (length c) 1); [lia|]. fold (adj c). fold (isre c). fold (isim c). fold (frawv F c). cbv zeta.
  destruct (isim c); [apply (pair_nth (fun p => fskew (fst p) (snd p))); assumption|]. destruct (isre c); [apply (pair_nth (fun p => fherm (fst p) (snd p))); assumption|]. reflexivity.
Qed.
Lemma fc2v_length F c : (2 <= length c)%nat -> length (frawv F c) = length c -> length (fcoeffs2vals F c) = length c.
Proof.
  intros H2 L. unfold fcoeffs2vals. destruct (Nat.leb_spec (length c) 1); [lia|]. fold (adj c). fold (isre c). fold (isim c). fold (frawv F c). cbv zeta.
  assert (G : forall f : C * C -> C, length (firstn (length c) (map f (combine (frawv F c ++ [nth 0 (frawv F c) C0]) (rev (frawv F c ++ [nth 0 (frawv F c) C0]))))) = length c).
  { intros f. rewrite firstn_length, map_length, combine_length, rev_length, app_length, L. cbn [length]. lia. }
  destruct (isim c); [apply G|]. destruct (isre c); [apply G|]. exact L.
Qed.
Lemma raw_err F d e c j : (2 <= length c)%nat -> cdoubles c -> cfft_within F (length c) d e -> 0 <= d <= / 16 -> 0 <= e -> (j < length c)%nat ->
  length (frawv F c) = length c /\ Cmod (nth j (rawv c) C0) <= casum c /\ Cmod (nth j (frawv F c) C0 - nth j (rawv c) C0)%C <= 11 / 10 * d * casum c + 2 * uro * casum c + e + 3 * eta.
Proof.
  intros H2 Dc [_ HF] Hd He Hj. destruct uro_small as [U0 _]. pose proof tiny_uro as U1. pose proof eta_pos as E0. pose proof (casum_pos c) as S0. set (n := length c) in *.
  assert (n1 : 1 <= INR n) by (change 1 with (INR 1); apply le_INR; lia). assert (q0 : 0 < / INR n) by (apply Rinv_0_lt_compat; lra). assert (qn : / INR n * INR n = 1) by (apply Rinv_l; lra).
  assert (La : length (adj c) = n) by apply mk_length. set (w0 := ifftshift (map (fun a => (RtoC (INR n) * a)%C) (adj c))). set (w1 := ifftshift (map (fscale (INR n)) (adj c))).
  assert (L0 : length w0 = n) by (unfold w0, ifftshift; rewrite mk_length, map_length; exact La). assert (L1 : length w1 = n) by (unfold w1, ifftshift; rewrite mk_length, map_length; exact La).
  assert (N0 : forall k, (k < n)%nat -> nth k w0 C0 = (RtoC (INR n) * nth ((k + n / 2) mod n) (adj c) C0)%C). { intros k Hk. unfold w0, ifftshift. rewrite map_length, La, nth_mk by exact Hk. rewrite map_nth_C by (rewrite La; apply Nat.mod_upper_bound; lia). reflexivity. }
  assert (N1 : forall k, (k < n)%nat -> nth k w1 C0 = fscale (INR n) (nth ((k + n / 2) mod n) (adj c) C0)). { intros k Hk. unfold w1, ifftshift. rewrite map_length, La, nth_mk by exact Hk. rewrite map_nth_C by (rewrite La; apply Nat.mod_upper_bound; lia). reflexivity. }
  assert (AM : forall k, (k < n)%nat -> Cmod (nth k (adj c) C0) = Cmod (nth k c C0)). { intros k Hk. unfold adj. fold n. rewrite nth_mk by exact Hk. rewrite Cmod_mult, eofix_mod. ring. }
  assert (SA : rsum n (fun k => Cmod (nth ((k + n / 2) mod n) (adj c) C0)) = casum c). { rewrite (rsum_rot n (n / 2) (fun k => Cmod (nth k (adj c) C0))). apply rsum_ext. exact AM. }
  assert (SW0 : casum w0 = INR n * casum c). { unfold casum at 1. rewrite L0, <- SA, <- rsum_scal. apply rsum_ext. intros k Hk. rewrite N0 by exact Hk. rewrite Cmod_mult, Cmod_R, Rabs_right by lra. reflexivity. }
  assert (SD : rsum n (fun k => Cmod (nth k w1 C0 - nth k w0 C0)%C) <= INR n * (2 * uro * casum c + 2 * eta)).
  { apply Rle_trans with (rsum n (fun k => 2 * uro * INR n * Cmod (nth ((k + n / 2) mod n) (adj c) C0) + 2 * eta)).
    - apply rsum_le. intros k Hk. rewrite N0, N1 by exact Hk. pose proof (fscale_err (INR n) (nth ((k + n / 2) mod n) (adj c) C0)) as Q. rewrite Rabs_right in Q by lra. lra.
    - rewrite rsum_plus, rsum_scal, rsum_const, SA. lra. }
  assert (SW1 : casum w1 <= INR n * (casum c + (2 * uro * casum c + 2 * eta))).
  { apply Rle_trans with (casum w0 + rsum n (fun k => Cmod (nth k w1 C0 - nth k w0 C0)%C)); [|rewrite SW0; lra]. unfold casum. rewrite L0, L1, <- rsum_plus. apply rsum_le. intros k _. replace (nth k w1 C0) with (nth k w0 C0 + (nth k w1 C0 - nth k w0 C0))%C at 1 by ring. apply Cmod_triangle. }
  assert (D1 : cdoubles w1). { intros a I. unfold w1, ifftshift in I. apply in_map_iff in I. destruct I as (k & <- & _). rewrite map_length, La. rewrite map_nth_C by (rewrite La; apply Nat.mod_upper_bound; lia). apply fscale_double. }
  destruct (HF w1 L1 D1) as [LF EF]. unfold frawv, rawv. fold n w0 w1. split; [exact LF|]. split.
  - unfold ifft. rewrite L0, nth_mk by exact Hj. rewrite Cmod_mult, Cmod_R, Rabs_right by lra. apply Rle_trans with (/ INR n * casum w0); [|rewrite SW0, <- Rmult_assoc, qn; lra]. apply Rmult_le_compat_l; [lra|]. unfold casum. rewrite L0. eapply Rle_trans; [apply csum_mod|]. apply rsum_le. intros k _. rewrite Cmod_mult, cis_mod. lra.
  - specialize (EF j Hj). pose proof (cifft_diff w0 w1 j ltac:(lia) ltac:(lia)) as DD. rewrite L0 in DD.
    assert (M1 : / INR n * rsum n (fun k => Cmod (nth k w1 C0 - nth k w0 C0)%C) <= 2 * uro * casum c + 2 * eta). { apply Rle_trans with (/ INR n * (INR n * (2 * uro * casum c + 2 * eta))); [apply Rmult_le_compat_l; lra|]. rewrite <- Rmult_assoc, qn. lra. }
    assert (M2 : / INR n * casum w1 <= casum c + (2 * uro * casum c + 2 * eta)). { apply Rle_trans with (/ INR n * (INR n * (casum c + (2 * uro * casum c + 2 * eta)))); [apply Rmult_le_compat_l; lra|]. rewrite <- Rmult_assoc, qn. lra. }
    assert (M3 : d * (/ INR n * casum w1) <= d * (casum c + (2 * uro * casum c + 2 * eta))) by (apply Rmult_le_compat_l; lra).
    replace (nth j (cifft F w1) C0 - nth j (ifft w0) C0)%C with ((nth j (cifft F w1) C0 - nth j (ifft w1) C0) + (nth j (ifft w1) C0 - nth j (ifft w0) C0))%C by ring. eapply Rle_trans; [apply Cmod_triangle|].
    assert (dS : 0 <= d * casum c) by (apply Rmult_le_pos; lra). assert (M4 : uro * (d * casum c) <= / 1000 * (d * casum c)) by (apply Rmult_le_compat_r; lra). assert (M5 : d * eta <= / 16 * eta) by (apply Rmult_le_compat_r; lra).
    replace (d * (casum c + (2 * uro * casum c + 2 * eta))) with (d * casum c + 2 * (uro * (d * casum c)) + 2 * (d * eta)) in M3 by ring. replace (11 / 10 * d * casum c) with (11 / 10 * (d * casum c)) by ring. lra.
Qed.
Lemma half_err (p q p' q' : C) (s1 s2 : R) A T : Cmod p <= A -> Cmod q <= A -> Cmod (p' - p)%C <= T -> Cmod (q' - q)%C <= T -> 0 <= A ->
  s1 = fdiv (fadd (fst p') (fst q')) 2 -> s2 = fdiv (fadd (snd p') (snd q')) 2 -> Cmod (((s1, s2) : C) - (p + q) / RtoC 2)%C <= 101 / 100 * T + 5 * uro * A + 4 * eta.
Proof.
  intros HA HB HT HT' A0 -> ->. destruct uro_small as [U0 _]. pose proof tiny_uro as U1. pose proof eta_pos as E0. assert (T0 : 0 <= T) by (eapply Rle_trans; [apply Cmod_ge_0|exact HT]).
  set (s := (fadd (fst p') (fst q'), fadd (snd p') (snd q')) : C).
  assert (S1 : Cmod (s - (p + q))%C <= 2 * T + 2 * uro * (2 * A + 2 * T) + 2 * eta).
  { eapply Rle_trans; [apply (cround_dist (p' + q')%C (p + q)%C _ _ (2 * T)); [|reflexivity|reflexivity]|].
    - replace (p' + q' - (p + q))%C with ((p' - p) + (q' - q))%C by ring. eapply Rle_trans; [apply Cmod_triangle|]. lra.
    - assert (PQ : Cmod (p + q)%C <= 2 * A) by (eapply Rle_trans; [apply Cmod_triangle|lra]). assert (2 * uro * (Cmod (p + q)%C + 2 * T) <= 2 * uro * (2 * A + 2 * T)) by (apply Rmult_le_compat_l; lra). lra. }
  set (B := T + uro * (2 * A + 2 * T) + eta).
  assert (S2 : Cmod (s / RtoC 2 - (p + q) / RtoC 2)%C <= B).
  { replace (s / RtoC 2 - (p + q) / RtoC 2)%C with (RtoC (/ 2) * (s - (p + q)))%C by (rewrite RtoC_inv by lra; unfold Cdiv; ring). rewrite Cmod_mult, Cmod_R, Rabs_right by lra. unfold B. lra. }
  assert (PQ2 : Cmod ((p + q) / RtoC 2)%C <= A). { replace ((p + q) / RtoC 2)%C with (RtoC (/ 2) * (p + q))%C by (rewrite RtoC_inv by lra; unfold Cdiv; ring). rewrite Cmod_mult, Cmod_R, Rabs_right by lra. assert (Cmod (p + q)%C <= 2 * A) by (eapply Rle_trans; [apply Cmod_triangle|lra]). lra. }
  eapply Rle_trans; [apply (cround_dist (s / RtoC 2)%C _ _ _ B S2)|].
  - unfold fdiv. f_equal. unfold s. generalize (fadd (fst p') (fst q')) (fadd (snd p') (snd q')). intros x y. cbn. field.
  - unfold fdiv. f_equal. unfold s. generalize (fadd (fst p') (fst q')) (fadd (snd p') (snd q')). intros x y. cbn. field.
  - assert (uA : 0 <= uro * A) by (apply Rmult_le_pos; lra). assert (uT : 0 <= uro * T <= / 1000 * T) by (split; [apply Rmult_le_pos; lra|apply Rmult_le_compat_r; lra]).
    assert (BX : B = T + 2 * (uro * A) + 2 * (uro * T) + eta) by (unfold B; ring). assert (B0 : 0 <= B) by lra.
    assert (V1 : 2 * uro * (Cmod ((p + q) / RtoC 2)%C + B) <= 2 * uro * (A + B)) by (apply Rmult_le_compat_l; lra). assert (V2 : uro * B <= uro * T + / 1000 * (2 * (uro * A) + 2 * (uro * T) + eta)). { rewrite BX. replace (uro * (T + 2 * (uro * A) + 2 * (uro * T) + eta)) with (uro * T + uro * (2 * (uro * A) + 2 * (uro * T) + eta)) by ring. assert (uro * (2 * (uro * A) + 2 * (uro * T) + eta) <= / 1000 * (2 * (uro * A) + 2 * (uro * T) + eta)) by (apply Rmult_le_compat_r; lra). lra. }
    replace (2 * uro * (A + B)) with (2 * (uro * A) + 2 * (uro * B)) in V1 by ring. replace (5 * uro * A) with (5 * (uro * A)) by ring. lra.
Qed.
Lemma c2v_err F d e c j : (2 <= length c)%nat -> cdoubles c -> cfft_within F (length c) d e -> 0 <= d <= / 16 -> 0 <= e -> (j < length c)%nat ->
  length (fcoeffs2vals F c) = length c /\ Cmod (nth j (fcoeffs2vals F c) C0 - nth j (coeffs2vals1 c) C0)%C <= 8 * (d + uro) * casum c + 2 * e + 8 * eta.
Proof.
  intros H2 Dc HF Hd He Hj. destruct uro_small as [U0 _]. pose proof eta_pos as E0. pose proof (casum_pos c) as S0.
  destruct (raw_err F d e c j H2 Dc HF Hd He Hj) as (L & B1 & E1). destruct (raw_err F d e c (opp_index (length c) j) H2 Dc HF Hd He (opp_lt (length c) j ltac:(lia))) as (_ & B2 & E2).
  split; [apply fc2v_length; assumption|]. rewrite fc2v_entry, c2v_entry by assumption. cbv zeta. set (p := nth j (rawv c) C0) in *. set (q := nth (opp_index (length c) j) (rawv c) C0) in *. set (p' := nth j (frawv F c) C0) in *. set (q' := nth (opp_index (length c) j) (frawv F c) C0) in *.
  set (T := 11 / 10 * d * casum c + 2 * uro * casum c + e + 3 * eta) in *. set (A := casum c) in *.
  assert (dA : 0 <= d * A) by (apply Rmult_le_pos; lra). assert (uA : 0 <= uro * A) by (apply Rmult_le_pos; lra). assert (TX : T = 11 / 10 * (d * A) + 2 * (uro * A) + e + 3 * eta) by (unfold T; ring).
  replace (8 * (d + uro) * A) with (8 * (d * A) + 8 * (uro * A)) by ring. destruct (isim c); [|destruct (isre c); [|lra]].
  - replace (p - Cconj q)%C with (p + - Cconj q)%C by ring. eapply Rle_trans; [apply (half_err p (- Cconj q)%C p' (- Cconj q')%C _ _ A T B1)|].
    + rewrite Cmod_opp, Cmod_conj. exact B2.
    + exact E1.
    + replace (- Cconj q' - - Cconj q)%C with (- (Cconj q' - Cconj q))%C by ring. rewrite Cmod_opp, conj_diff. exact E2.
    + exact S0.
    + reflexivity.
    + unfold fsub, fadd. reflexivity.
    + lra.
  - eapply Rle_trans; [apply (half_err p (Cconj q)%C p' (Cconj q')%C _ _ A T B1)|].
    + rewrite Cmod_conj. exact B2.
    + exact E1.
    + rewrite conj_diff. exact E2.
    + exact S0.
    + reflexivity.
    + reflexivity.
    + lra.
Qed.
