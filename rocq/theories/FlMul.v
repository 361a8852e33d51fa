(** Error analysis of fcoeff_times. *)
From Coq Require Import Reals List Arith Lia Lra Bool ZArith.
From Coquelicot Require Import Coquelicot.
From Verif Require Import Base ToolsProofs ChebSpec ChebModel ChebDct ChebMul TrigSpec TrigBase TrigModel TrigTrans TrigObj FlModel FlProofs FlSum FlMap FlTrigModel FlTrig FlMulModel.
Import ListNotations.
Open Scope R_scope.
Local Opaque uro eta.

(** ** the convolution theorem *)
Lemma fft_nth v k : (k < length v)%nat -> nth k (fft v) C0 = csum (length v) (fun j => nth j v C0 * cis (- (2 * PI * INR j * INR k / INR (length v))))%C.
Proof. intros H. unfold fft. rewrite nth_mk by exact H. reflexivity. Qed.
Lemma nth_RtoC (a : list R) j : nth j (map RtoC a) C0 = RtoC (nth j a 0).
Proof. exact (map_nth RtoC a 0 j). Qed.
Lemma conv_theorem a b j : length b = length a -> (j < length a)%nat ->
  nth j (ifft (mk (length a) (fun k => nth k (fft (map RtoC a)) C0 * nth k (fft (map RtoC b)) C0)%C)) C0 = RtoC (nth j (circ a b) 0).
Proof.
  intros Lb Hj. set (n := length a) in *. assert (Np : (0 < INR n)%R) by (apply lt_0_INR; lia). assert (Nz : INR n <> 0) by lra.
  unfold ifft. rewrite mk_length, nth_mk by exact Hj. unfold circ. fold n. rewrite nth_mk by exact Hj.
  set (w := fun (p : Z) (k : nat) => cis (INR k * (2 * PI * IZR p / INR n))).
  assert (E1 : csum n (fun k => nth k (mk n (fun k0 => (nth k0 (fft (map RtoC a)) C0 * nth k0 (fft (map RtoC b)) C0)%C)) C0 * cis (2 * PI * INR j * INR k / INR n))%C
    = csum n (fun i => csum n (fun l => RtoC (nth i a 0) * RtoC (nth l b 0) * csum n (fun k => w (Z.of_nat j - Z.of_nat i - Z.of_nat l)%Z k)))%C).
  { transitivity (csum n (fun k => csum n (fun i => csum n (fun l => RtoC (nth i a 0) * RtoC (nth l b 0) * w (Z.of_nat j - Z.of_nat i - Z.of_nat l)%Z k)))%C).
    - apply csum_ext. intros k Hk. rewrite nth_mk by exact Hk. rewrite !fft_nth by (rewrite map_length; lia). rewrite !map_length, Lb. fold n.
      set (Sb := csum n (fun j0 => nth j0 (map RtoC b) C0 * cis (- (2 * PI * INR j0 * INR k / INR n)))%C). rewrite <- csum_scal_r, <- csum_scal_r. apply csum_ext. intros i Hi.
      transitivity (nth i (map RtoC a) C0 * cis (- (2 * PI * INR i * INR k / INR n)) * cis (2 * PI * INR j * INR k / INR n) * Sb)%C; [ring|]. unfold Sb. rewrite <- csum_scal. apply csum_ext. intros l Hl. rewrite !nth_RtoC.
      transitivity (RtoC (nth i a 0) * RtoC (nth l b 0) * (cis (- (2 * PI * INR i * INR k / INR n)) * cis (2 * PI * INR j * INR k / INR n) * cis (- (2 * PI * INR l * INR k / INR n))))%C; [ring|].
      f_equal. rewrite <- !cis_plus. unfold w. f_equal. rewrite !minus_IZR, <- !INR_IZR_INZ. field. exact Nz.
    - rewrite csum_swap. apply csum_ext. intros i Hi. rewrite csum_swap. apply csum_ext. intros l Hl. apply csum_scal. }
  rewrite E1. clear E1.
  transitivity (csum n (fun i => RtoC (nth i a 0 * nth ((j + n - i) mod n) b 0))%C).
  2:{ apply injective_projections; [change (fst ?x) with (Re x); rewrite csum_Re; reflexivity|]. change (snd ?x) with (Im x). rewrite csum_Im. cbn [Im RtoC snd]. apply rsum_0. }
  rewrite <- csum_scal. apply csum_ext. intros i Hi. set (r := ((j + n - i) mod n)%nat). assert (Hr : (r < n)%nat) by (apply Nat.mod_upper_bound; lia).
  rewrite (csum_single n _ r Hr).
  - assert (W : csum n (fun k => w (Z.of_nat j - Z.of_nat i - Z.of_nat r)%Z k) = RtoC (INR n)).
    { transitivity (csum n (fun t => cis (INR t * (2 * PI * IZR 0 / INR n)))); [|rewrite root_sum by lia; reflexivity]. apply csum_ext. intros k Hk. unfold w.
      assert (D := Nat.div_mod (j + n - i) n ltac:(lia)). fold r in D. apply (cis_cong _ _ (Z.of_nat k * (Z.of_nat ((j + n - i) / n) - 1))). rewrite mult_IZR, !minus_IZR, <- !INR_IZR_INZ.
      assert (DR : INR j - INR i - INR r = INR n * (INR ((j + n - i) / n) - 1)). { assert (INR (j + n - i) = INR (n * ((j + n - i) / n) + r)) by (f_equal; exact D). rewrite plus_INR, mult_INR, minus_INR, plus_INR in H by lia. lra. }
      rewrite DR. field. exact Nz. }
    rewrite W. transitivity (RtoC (/ INR n) * RtoC (INR n) * (RtoC (nth i a 0) * RtoC (nth r b 0)))%C; [ring|]. rewrite <- !RtoC_mult. f_equal. field. exact Nz.
  - intros l Hl Hne. assert (W : csum n (fun k => w (Z.of_nat j - Z.of_nat i - Z.of_nat l)%Z k) = RtoC 0).
    { transitivity (csum n (fun t => cis (INR t * (2 * PI * IZR (Z.of_nat r - Z.of_nat l) / INR n)))).
      - apply csum_ext. intros k Hk. unfold w. assert (D := Nat.div_mod (j + n - i) n ltac:(lia)). fold r in D. apply (cis_cong _ _ (Z.of_nat k * (Z.of_nat ((j + n - i) / n) - 1))). rewrite mult_IZR, !minus_IZR, <- !INR_IZR_INZ.
        assert (DR : INR j - INR i - INR r = INR n * (INR ((j + n - i) / n) - 1)). { assert (INR (j + n - i) = INR (n * ((j + n - i) / n) + r)) by (f_equal; exact D). rewrite plus_INR, mult_INR, minus_INR, plus_INR in H by lia. lra. }
        replace (INR j - INR i - INR l) with (INR r - INR l + INR n * (INR ((j + n - i) / n) - 1)) by lra. field. exact Nz.
      - rewrite root_sum by lia. destruct (Z.eqb_spec (Z.of_nat r - Z.of_nat l) 0) as [E|E]; [lia|reflexivity]. }
    rewrite W. ring.
Qed.

(** ** sizes *)
Lemma fft_bound a k : (k < length a)%nat -> Cmod (nth k (fft (map RtoC a)) C0) <= lasum a.
Proof.
  intros H. rewrite fft_nth by (rewrite map_length; exact H). rewrite map_length, lasum_nth. eapply Rle_trans; [apply csum_mod|]. apply rsum_le. intros j _. rewrite nth_RtoC, Cmod_mult, cis_mod, Cmod_R. lra.
Qed.
Lemma circ_bound a b j : length b = length a -> (j < length a)%nat -> Rabs (nth j (circ a b) 0) <= lasum a * lasum b.
Proof.
  intros Lb Hj. rewrite <- Cmod_R, <- conv_theorem by assumption. set (n := length a) in *. assert (Np : (0 < INR n)%R) by (apply lt_0_INR; lia). unfold ifft. rewrite mk_length, nth_mk by exact Hj.
  rewrite Cmod_mult, Cmod_R, Rabs_right by (apply Rle_ge, Rlt_le, Rinv_0_lt_compat, Np).
  assert (B : Cmod (csum n (fun k => nth k (mk n (fun k0 => (nth k0 (fft (map RtoC a)) C0 * nth k0 (fft (map RtoC b)) C0)%C)) C0 * cis (2 * PI * INR j * INR k / INR n))%C) <= INR n * (lasum a * lasum b)).
  { eapply Rle_trans; [apply csum_mod|]. rewrite <- rsum_const. apply rsum_le. intros k Hk. rewrite nth_mk by exact Hk. rewrite !Cmod_mult, cis_mod, Rmult_1_r. apply Rmult_le_compat; try apply Cmod_ge_0; apply fft_bound; lia. }
  apply (Rmult_le_compat_l (/ INR n)) in B; [|apply Rlt_le, Rinv_0_lt_compat, Np]. rewrite <- Rmult_assoc, Rinv_l, Rmult_1_l in B by lra. exact B.
Qed.
Lemma ifft_diff n (p q : nat -> C) B j : (j < n)%nat -> (forall k, (k < n)%nat -> Cmod (p k - q k)%C <= B) -> Cmod (nth j (ifft (mk n p)) C0 - nth j (ifft (mk n q)) C0)%C <= B.
Proof.
  intros Hj H. assert (Np : (0 < INR n)%R) by (apply lt_0_INR; lia). unfold ifft. rewrite !mk_length, !nth_mk by exact Hj.
  replace (RtoC (/ INR n) * csum n (fun k => nth k (mk n p) C0 * cis (2 * PI * INR j * INR k / INR n)) - RtoC (/ INR n) * csum n (fun k => nth k (mk n q) C0 * cis (2 * PI * INR j * INR k / INR n)))%C
    with (RtoC (/ INR n) * csum n (fun k => (p k - q k) * cis (2 * PI * INR j * INR k / INR n)))%C.
  2:{ transitivity (RtoC (/ INR n) * (csum n (fun k => nth k (mk n p) C0 * cis (2 * PI * INR j * INR k / INR n)) + (- RtoC 1) * csum n (fun k => nth k (mk n q) C0 * cis (2 * PI * INR j * INR k / INR n))))%C; [|ring].
      f_equal. rewrite <- csum_scal, <- csum_plus. apply csum_ext. intros k Hk. rewrite !nth_mk by exact Hk. ring. }
  rewrite Cmod_mult, Cmod_R, Rabs_right by (apply Rle_ge, Rlt_le, Rinv_0_lt_compat, Np).
  assert (S1 : Cmod (csum n (fun k => (p k - q k) * cis (2 * PI * INR j * INR k / INR n))%C) <= INR n * B).
  { eapply Rle_trans; [apply csum_mod|]. rewrite <- rsum_const. apply rsum_le. intros k Hk. rewrite Cmod_mult, cis_mod, Rmult_1_r. apply H, Hk. }
  apply (Rmult_le_compat_l (/ INR n)) in S1; [|apply Rlt_le, Rinv_0_lt_compat, Np]. rewrite <- Rmult_assoc, Rinv_l, Rmult_1_l in S1 by lra. exact S1.
Qed.
Lemma lasum_rev l : lasum (rev l) = lasum l.
Proof. induction l as [|a l IH]; [reflexivity|]. cbn [rev lasum]. rewrite lasum_app, IH. cbn. lra. Qed.
Lemma upd_head a l v : upd (a :: l) 0 v = v :: l.
Proof. apply (list_ext _ _ 0); [rewrite upd_length; reflexivity|]. rewrite upd_length. intros i Hi. unfold upd. rewrite nth_mk by exact Hi. destruct i; reflexivity. Qed.
Lemma even_ext_cons a l : even_ext (a :: l) = (2 * a) :: (l ++ rev l).
Proof. unfold even_ext. rewrite upd_head. reflexivity. Qed.
Lemma even_ext_lasum c : (1 <= length c)%nat -> lasum (even_ext c) = 2 * lasum c.
Proof. intros H. destruct c as [|a l]; [cbn in H; lia|]. rewrite even_ext_cons. cbn [lasum]. rewrite lasum_app, lasum_rev, Rabs_mult, (Rabs_right 2) by lra. ring. Qed.
Lemma lasum_pad k c : lasum (pad k c) = lasum c.
Proof. unfold pad. rewrite lasum_app. assert (Z : lasum (mk k (fun _ => 0)) = 0). { rewrite lasum_nth, mk_length. apply rsum_zero. intros j Hj. rewrite nth_mk by exact Hj. apply Rabs_R0. } rewrite Z. ring. Qed.
Lemma feven_exact c : (forall t, In t c -> is_double t) -> feven_ext c = even_ext c.
Proof. intros H. unfold feven_ext, even_ext. destruct c as [|a l]; [reflexivity|]. cbn [nth]. unfold fmul. rewrite (fl_double (2 * a)); [reflexivity|]. apply double_twice, H. left. reflexivity. Qed.
Lemma even_ext_doubles c : (forall t, In t c -> is_double t) -> forall t, In t (even_ext c) -> is_double t.
Proof.
  intros H t I. destruct c as [|a l]; [destruct I|]. rewrite even_ext_cons in I. destruct I as [<-|I]; [apply double_twice, H; left; reflexivity|]. apply in_app_or in I. destruct I as [I|I]; [|apply in_rev in I]; apply H; right; exact I.
Qed.

(** ** the accuracy assumed of the transforms *)
Definition cdoubles (w : list C) : Prop := forall a, In a w -> is_double (fst a) /\ is_double (snd a).
Definition fft_within (F : fftlib) (n : nat) (d e : R) : Prop :=
  (forall v, length v = n -> (forall t, In t v -> is_double t) -> length (lfft F v) = n /\
     forall k, (k < n)%nat -> Cmod (nth k (lfft F v) C0 - nth k (fft (map RtoC v)) C0)%C <= d * lasum v + e) /\
  (forall w, length w = n -> cdoubles w -> length (lifft F w) = n /\
     forall j, (j < n)%nat -> Cmod (nth j (lifft F w) C0 - nth j (ifft w) C0)%C <= d * (/ INR n * rsum n (fun k => Cmod (nth k w C0))) + e).

Lemma tiny_uro : uro <= / 1000.
Proof. Local Transparent uro. unfold uro. apply Rinv_le_contravar; [lra|]. rewrite !pow_IZR. apply IZR_le. cbn. lia. Local Opaque uro. Qed.
(** arithmetic of the bounds *)
Lemma bound_product (d e A B u h : R) : 0 <= d <= / 16 -> 0 <= e <= / 16 -> 0 <= A -> 0 <= B -> 0 <= u <= / 1000 -> 0 <= h ->
  6 * u * ((A + (d * A + e)) * (B + (d * B + e))) + 8 * h + ((d * A + e) * B + A * (d * B + e) + (d * A + e) * (d * B + e))
   <= (33 / 16 * d + 7 * u) * (A * B) + 3 / 2 * e * (A + B) + / 8 * e + 8 * h.
Proof.
  intros Hd He HA HB Hu Hh. assert (AB : 0 <= A * B) by (apply Rmult_le_pos; lra).
  assert (dAB : 0 <= d * (A * B)) by (apply Rmult_le_pos; lra). assert (ddAB : d * (d * (A * B)) <= / 16 * (d * (A * B))) by (apply Rmult_le_compat_r; lra).
  set (s := A + B) in *. assert (S0 : 0 <= s) by (unfold s; lra). assert (es : 0 <= e * s) by (apply Rmult_le_pos; lra). assert (des : d * (e * s) <= / 16 * (e * s)) by (apply Rmult_le_compat_r; lra). assert (ee : e * e <= / 16 * e) by (apply Rmult_le_compat_r; lra). assert (ee0 : 0 <= e * e) by (apply Rmult_le_pos; lra).
  assert (X : (A + (d * A + e)) * (B + (d * B + e)) = A * B + 2 * (d * (A * B)) + d * (d * (A * B)) + e * s + d * (e * s) + e * e) by (unfold s; ring).
  assert (Y : (d * A + e) * B + A * (d * B + e) + (d * A + e) * (d * B + e) = 2 * (d * (A * B)) + d * (d * (A * B)) + e * s + d * (e * s) + e * e) by (unfold s; ring).
  assert (X2 : (A + (d * A + e)) * (B + (d * B + e)) <= 73 / 64 * (A * B) + 17 / 16 * (e * s) + / 16 * e). { rewrite X. assert (d * (A * B) <= / 16 * (A * B)) by (apply Rmult_le_compat_r; lra). lra. }
  assert (X3 : 6 * u * ((A + (d * A + e)) * (B + (d * B + e))) <= 6 * u * (73 / 64 * (A * B) + 17 / 16 * (e * s) + / 16 * e)) by (apply Rmult_le_compat_l; lra).
  assert (U1 : u * (e * s) <= / 1000 * (e * s)) by (apply Rmult_le_compat_r; lra). assert (U2 : u * e <= / 1000 * e) by (apply Rmult_le_compat_r; lra). assert (U3 : 0 <= u * (A * B)) by (apply Rmult_le_pos; lra).
  rewrite Y. replace (3 / 2 * e * s) with (3 / 2 * (e * s)) by ring. lra.
Qed.
Lemma times_err F z d e fc gc k : (1 <= length fc)%nat -> length gc = length fc -> (forall t, In t fc -> is_double t) -> (forall t, In t gc -> is_double t) ->
  fft_within F (2 * length fc - 1) d e -> 0 <= d <= / 16 -> 0 <= e <= / 16 -> (k < length fc)%nat ->
  length (fcoeff_times F z fc gc) = length fc /\
  Rabs (nth k (fcoeff_times F z fc gc) 0 - nth k (coeff_times1 fc gc) 0) <= 20 * (d + uro) * (lasum fc * lasum gc) + 4 * e * (1 + lasum fc + lasum gc) + 16 * eta.
Proof.
  intros H1 Lg Df Dg (HF & HI) Hd He Hk. pose proof tiny_uro as U1. destruct uro_small as [U0 _]. pose proof eta_pos as E0.
  set (a := even_ext fc). set (b := even_ext gc). set (n := (2 * length fc - 1)%nat) in *.
  assert (La : length a = n) by (apply even_ext_length; exact H1). assert (Lb : length b = n) by (unfold b; rewrite even_ext_length by lia; unfold n; lia).
  assert (SA : lasum a = 2 * lasum fc) by (apply even_ext_lasum; exact H1). assert (SB : lasum b = 2 * lasum gc) by (apply even_ext_lasum; lia).
  destruct (HF a La (even_ext_doubles fc Df)) as [LA EA]. destruct (HF b Lb (even_ext_doubles gc Dg)) as [LB EB].
  unfold fcoeff_times. rewrite !feven_exact by assumption. fold a b. rewrite LA.
  set (p := fun k => fcmul (z k) (nth k (lfft F a) C0) (nth k (lfft F b) C0)). set (q := fun k => (nth k (fft (map RtoC a)) C0 * nth k (fft (map RtoC b)) C0)%C).
  assert (DP : cdoubles (mk n p)). { intros w I. apply in_map_iff in I. destruct I as (i & <- & _). unfold p, fcmul. cbn [fst snd]. unfold ftwo. destruct (z i); split; apply fl_is_double. }
  destruct (HI (mk n p) (mk_length n p) DP) as [LT ET]. rewrite LT. set (A := lasum a) in *. set (B := lasum b) in *.
  assert (A0 : 0 <= A) by apply lasum_pos. assert (B0 : 0 <= B) by apply lasum_pos. set (Q := A * B). assert (Q0 : 0 <= Q) by (apply Rmult_le_pos; assumption).
  set (pe := (33 / 16 * d + 7 * uro) * Q + 3 / 2 * e * (A + B) + / 8 * e + 8 * eta).
  assert (PQ : forall i, (i < n)%nat -> Cmod (p i - q i)%C <= pe).
  { intros i Hi. specialize (EA i Hi). specialize (EB i Hi). pose proof (fft_bound a i ltac:(lia)) as FA. pose proof (fft_bound b i ltac:(lia)) as FB. fold A in FA. fold B in FB. unfold p, q.
    set (x := nth i (lfft F a) C0) in *. set (y := nth i (lfft F b) C0) in *. set (x0 := nth i (fft (map RtoC a)) C0) in *. set (y0 := nth i (fft (map RtoC b)) C0) in *.
    pose proof (fcmul_err (z i) x y) as FM.
    assert (MX : Cmod x <= A + (d * A + e)). { replace x with (x0 + (x - x0))%C by ring. eapply Rle_trans; [apply Cmod_triangle|]. lra. }
    assert (MY : Cmod y <= B + (d * B + e)). { replace y with (y0 + (y - y0))%C by ring. eapply Rle_trans; [apply Cmod_triangle|]. lra. }
    replace (fcmul (z i) x y - x0 * y0)%C with ((fcmul (z i) x y - x * y) + ((x - x0) * y0 + x0 * (y - y0) + (x - x0) * (y - y0)))%C by ring.
    eapply Rle_trans; [apply Cmod_triangle|]. assert (T1 := Cmod_triangle ((x - x0) * y0 + x0 * (y - y0))%C ((x - x0) * (y - y0))%C). assert (T2 := Cmod_triangle ((x - x0) * y0)%C (x0 * (y - y0))%C).
    rewrite !Cmod_mult in *. 
    assert (P1 : Cmod (x - x0)%C * Cmod y0 <= (d * A + e) * B) by (apply Rmult_le_compat; try apply Cmod_ge_0; assumption).
    assert (P2 : Cmod x0 * Cmod (y - y0)%C <= A * (d * B + e)) by (apply Rmult_le_compat; try apply Cmod_ge_0; assumption).
    assert (P3 : Cmod (x - x0)%C * Cmod (y - y0)%C <= (d * A + e) * (d * B + e)) by (apply Rmult_le_compat; try apply Cmod_ge_0; assumption).
    assert (P4 : Cmod x * Cmod y <= (A + (d * A + e)) * (B + (d * B + e))) by (apply Rmult_le_compat; try apply Cmod_ge_0; assumption).
    assert (P5 : 6 * uro * (Cmod x * Cmod y) <= 6 * uro * ((A + (d * A + e)) * (B + (d * B + e)))) by (apply Rmult_le_compat_l; lra).
    pose proof (bound_product d e A B uro eta Hd He A0 B0 ltac:(lra) ltac:(lra)) as BP. fold Q in BP. fold pe in BP. lra. }
  assert (PE0 : 0 <= pe). { eapply Rle_trans; [apply Cmod_ge_0|apply (PQ 0%nat)]. unfold n. lia. }
  assert (Np : (0 < INR n)%R) by (apply lt_0_INR; unfold n; lia).
  assert (MP : / INR n * rsum n (fun k => Cmod (nth k (mk n p) C0)) <= Q + pe).
  { assert (S1 : rsum n (fun k => Cmod (nth k (mk n p) C0)) <= INR n * (Q + pe)).
    { rewrite <- rsum_const. apply rsum_le. intros i Hi. rewrite nth_mk by exact Hi. replace (p i) with (q i + (p i - q i))%C by ring. eapply Rle_trans; [apply Cmod_triangle|]. apply Rplus_le_compat; [|apply PQ, Hi].
      unfold q. rewrite Cmod_mult. apply Rmult_le_compat; try apply Cmod_ge_0; apply fft_bound; lia. }
    apply (Rmult_le_compat_l (/ INR n)) in S1; [|apply Rlt_le, Rinv_0_lt_compat, Np]. rewrite <- Rmult_assoc, Rinv_l, Rmult_1_l in S1 by lra. exact S1. }
  set (te := (13 / 4 * d + 15 / 2 * uro) * Q + 8 / 5 * e * (A + B) + 5 / 4 * e + 17 / 2 * eta).
  assert (dQ : 0 <= d * Q) by (apply Rmult_le_pos; lra). assert (uQ : 0 <= uro * Q) by (apply Rmult_le_pos; lra). assert (eS : 0 <= e * (A + B)) by (apply Rmult_le_pos; lra).
  assert (TE : forall j, (j < n)%nat -> Rabs (Re (nth j (lifft F (mk n p)) C0) - nth j (circ a b) 0) <= te).
  { intros j Hj. specialize (ET j Hj). pose proof (ifft_diff n p q pe j Hj PQ) as DI. assert (CT := conv_theorem a b j ltac:(lia) ltac:(lia)). rewrite La in CT. fold q in CT. rewrite CT in DI.
    set (t := nth j (lifft F (mk n p)) C0) in *. set (s := nth j (ifft (mk n p)) C0) in *. set (c := nth j (circ a b) 0) in *.
    replace (Re t - c) with (fst (t - RtoC c)%C) by reflexivity. eapply Rle_trans; [apply re_mod|]. replace (t - RtoC c)%C with ((t - s) + (s - RtoC c))%C by ring. eapply Rle_trans; [apply Cmod_triangle|].
    assert (D1 : d * (/ INR n * rsum n (fun k => Cmod (nth k (mk n p) C0))) <= d * (Q + pe)) by (apply Rmult_le_compat_l; lra). assert (D2 : d * pe <= / 16 * pe) by (apply Rmult_le_compat_r; lra).
    unfold te. assert (PE : pe = 33 / 16 * (d * Q) + 7 * (uro * Q) + 3 / 2 * (e * (A + B)) + / 8 * e + 8 * eta) by (unfold pe; ring). replace ((13 / 4 * d + 15 / 2 * uro) * Q + 8 / 5 * e * (A + B)) with (13 / 4 * (d * Q) + 15 / 2 * (uro * Q) + 8 / 5 * (e * (A + B))) by ring. lra. }
  assert (TEx : te = 13 / 4 * (d * Q) + 15 / 2 * (uro * Q) + 8 / 5 * (e * (A + B)) + 5 / 4 * e + 17 / 2 * eta) by (unfold te; ring).
  assert (CB : forall j, (j < n)%nat -> Rabs (nth j (circ a b) 0) <= Q) by (intros j Hj; unfold Q, A, B; apply circ_bound; lia).
  assert (kn : (k < n)%nat) by (unfold n; lia). split; [rewrite firstn_length, mk_length; unfold n; lia|].
  assert (NF : forall (l : list R), nth k (firstn (length fc) l) 0 = nth k l 0) by (intros l; apply nth_firstn'; exact Hk).
  unfold coeff_times1. fold a b. assert (Lc : length (circ a b) = n) by (unfold circ; rewrite mk_length; exact La). rewrite Lc. rewrite !NF, !nth_mk by exact kn. unfold fmul.
  set (s1 := match k with O => Re (nth 0 (lifft F (mk n p)) C0) | S _ => fadd (Re (nth k (lifft F (mk n p)) C0)) (Re (nth (n - k) (lifft F (mk n p)) C0)) end).
  set (s2 := match k with O => nth 0 (circ a b) 0 | S _ => nth k (circ a b) 0 + nth (n - k) (circ a b) 0 end).
  assert (S2 : Rabs s2 <= 2 * Q /\ Rabs (s1 - s2) <= 2 * te + uro * (2 * Q + 2 * te) + eta).
  { assert (te0 : 0 <= te) by (eapply Rle_trans; [apply Rabs_pos|apply (TE k kn)]). assert (0 <= uro * (2 * Q + 2 * te)) by (apply Rmult_le_pos; lra). unfold s1, s2. destruct k as [|k'].
    - split; [pose proof (CB 0%nat kn); lra|]. pose proof (TE 0%nat kn). lra.
    - assert (nk : (n - S k' < n)%nat) by lia. pose proof (CB _ kn). pose proof (CB _ nk). pose proof (TE _ kn) as T1. pose proof (TE _ nk) as T2. set (c1 := nth (S k') (circ a b) 0) in *. set (c2 := nth (n - S k') (circ a b) 0) in *.
      pose proof (Rabs_triang c1 c2). split; [lra|]. unfold fadd. assert (D : Rabs (Re (nth (S k') (lifft F (mk n p)) C0) + Re (nth (n - S k') (lifft F (mk n p)) C0) - (c1 + c2)) <= 2 * te).
      { set (r1 := Re (nth (S k') _ C0)) in *. set (r2 := Re (nth (n - S k') _ C0)) in *. replace (r1 + r2 - (c1 + c2)) with ((r1 - c1) + (r2 - c2)) by ring. eapply Rle_trans; [apply Rabs_triang|]. lra. }
      eapply Rle_trans; [apply fl_dist; exact D|]. assert (uro * (Rabs (c1 + c2) + 2 * te) <= uro * (2 * Q + 2 * te)) by (apply Rmult_le_compat_l; lra). lra. }
  destruct S2 as [S2 S3]. set (se := 2 * te + uro * (2 * Q + 2 * te) + eta) in *.
  assert (D : Rabs (/ 4 * s1 - / 4 * s2) <= / 4 * se). { replace (/ 4 * s1 - / 4 * s2) with (/ 4 * (s1 - s2)) by ring. rewrite Rabs_mult, (Rabs_right (/ 4)) by lra. lra. }
  eapply Rle_trans; [apply fl_dist; exact D|]. rewrite Rabs_mult, (Rabs_right (/ 4)) by lra.
  assert (V1 : uro * (/ 4 * Rabs s2 + / 4 * se) <= uro * (/ 4 * (2 * Q) + / 4 * se)) by (apply Rmult_le_compat_l; lra).
  assert (te0 : 0 <= te) by (eapply Rle_trans; [apply Rabs_pos|apply (TE k kn)]). assert (V2 : uro * te <= / 1000 * te) by (apply Rmult_le_compat_r; lra).
  assert (SE : se = 2 * te + 2 * (uro * Q) + 2 * (uro * te) + eta) by (unfold se; ring). assert (se0 : 0 <= se) by (assert (0 <= uro * te) by (apply Rmult_le_pos; lra); lra). assert (V3 : uro * se <= / 1000 * se) by (apply Rmult_le_compat_r; lra).
  assert (QQ : Q = 4 * (lasum fc * lasum gc)) by (unfold Q; rewrite SA, SB; ring). assert (AB2 : A + B = 2 * (lasum fc + lasum gc)) by (rewrite SA, SB; ring).
  replace (20 * (d + uro) * (lasum fc * lasum gc)) with (5 * (d * Q) + 5 * (uro * Q)) by (rewrite QQ; ring).
  replace (4 * e * (1 + lasum fc + lasum gc)) with (4 * e + 2 * (e * (A + B))) by (rewrite AB2; ring).
  lra.
Qed.
