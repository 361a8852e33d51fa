(** C192: norms of periodic functions (model in PNormModel.v). *)
From Coq Require Import Reals ZArith List Arith Bool Lia Lra.
From Coquelicot Require Import Coquelicot.
From Verif Require Import Base ChebModel TrigSpec TrigBase TrigModel TrigTrans TrigEval TrigCalc TrigCalc2 TrigModel2 TrigObj TrigObj2 TrigCons TrigConsProofs TrigConsEx PropTCons TrigUfunc PropTUf FunModel FunTrig FunTrigProofs PropPer NormModel NormProofs PNormModel.
Import ListNotations.
Open Scope R_scope.

Lemma trig_poly_mul d e (f g : R -> C) : trig_poly d f -> trig_poly e g -> trig_poly (d + e) (fun x => f x * g x)%C.
Proof.
  intros (c & Lc & Hc) (c' & Lc' & Hc'). exists (prodc c c'). split; [unfold prodc; rewrite mk_length; lia|]. intros x. rewrite Hc, Hc', prodc_eval; [reflexivity| |]; apply Nat.odd_spec; [exists d|exists e]; lia.
Qed.
Lemma evalF_const1 c x : evalF [c] x = c.
Proof. unfold evalF. cbn [length csum nth]. unfold mode. cbn. rewrite Rmult_0_r, Rmult_0_l, cis_0. apply injective_projections; cbn; ring. Qed.
Lemma trig_poly_pow d (f : R -> C) p : trig_poly d f -> trig_poly (p * d) (fun x => cpow (f x) p).
Proof.
  intros H. induction p as [|p IH].
  - exists [RtoC 1]. split; [reflexivity|]. intros x. cbn [cpow]. rewrite evalF_const1. reflexivity.
  - cbn [cpow]. exact (trig_poly_mul d (p * d) _ _ H IH).
Qed.
Lemma cpow_real r p : cpow (RtoC r) p = RtoC (r ^ p).
Proof. induction p as [|p IH]; cbn [cpow pow]; [reflexivity|]. rewrite IH. apply injective_projections; cbn; ring. Qed.
Lemma teps_range : 0 < teps < 1.
Proof. unfold teps. split; [apply Rinv_0_lt_compat; lra|]. rewrite <- Rinv_1. apply Rinv_lt_contravar; lra. Qed.

(** the sum of a real function *)
Lemma psum_herm f : pa f < pb f -> (1 <= length (tco (pt f)))%nat -> hermitian (tco (pt f)) ->
  psum f = RtoC (Re (psum f)) /\ is_RInt (fun x => Re (pfn f x)) (pa f) (pb f) (Re (psum f)).
Proof.
  intros Hab Hn Hh. assert (H := trig_sum_correct (tco (pt f)) Hn). assert (R := cint_real _ _ _ _ H Hh).
  assert (E : psum f = (tsum_col (tco (pt f)) * RtoC (phalf f))%C) by (unfold psum; destruct (tre (pt f)); [rewrite <- R|]; reflexivity).
  assert (Q : cint (pfn f) (pa f) (pb f) (psum f)) by (rewrite E; apply cint_dom; assumption).
  split; [|apply Q]. apply (cint_real _ _ _ _ Q). intros x. apply Hh.
Qed.
(** the integral of a constructed real function of low degree *)
Lemma construct_sum f (op : R -> C) (q : R -> R) d : pa f < pb f -> (d <= 15)%nat -> trig_poly d op -> (forall x, op x = RtoC (q x)) ->
  exists h g, tconstruct [op] teps = Some (h, [g]) /\ psum (pset f g) = RtoC (Re (psum (pset f g))) /\ hermitian (tco g) /\ (1 <= length (tco g))%nat /\
    forall I, is_RInt (fun x => q (map_bwd (pa f) (pb f) x)) (pa f) (pb f) I -> Rabs (Re (psum (pset f g)) - I) <= (pb f - pa f) * (INR (2 * d) * Rpower teps (2 / 5)).
Proof.
  intros Hab Hd Hp Hq. destruct (low_degree op teps d Hd teps_range Hp) as (h & g & E & H & Hh & L); [intros x _; rewrite Hq; reflexivity|].
  exists h, g. split; [exact E|]. destruct (psum_herm (pset f g) Hab L Hh) as [S1 S2]. split; [exact S1|]. split; [exact Hh|]. split; [exact L|]. intros I HI.
  apply (int_near (fun x => q (map_bwd (pa f) (pb f) x)) (fun x => Re (pfn (pset f g) x))); [lra|exact HI|exact S2|].
  intros x _. unfold pfn. cbn [pt pset pa pb]. set (y := map_bwd (pa f) (pb f) x). specialize (H y). rewrite tcall_herm, Hq in H by assumption.
  eapply Rle_trans; [|exact H]. rewrite <- Cmod_opp. eapply Rle_trans; [|apply re_le_Cmod]. right. unfold Re, RtoC. cbn. f_equal. ring.
Qed.
(** the same for an even power of a function flagged real *)
Lemma pow_sum f d p (q : R -> R) : pa f < pb f -> trig_ok (pt f) -> trig_poly d (evalF (tco (pt f))) -> (forall x, evalF (tco (pt f)) x = RtoC (q x)) -> (p * d <= 15)%nat ->
  exists r, ppow f p = Some r /\ psum r = RtoC (Re (psum r)) /\
    forall I, is_RInt (fun x => q (map_bwd (pa f) (pb f) x) ^ p) (pa f) (pb f) I -> Rabs (Re (psum r) - I) <= (pb f - pa f) * (INR (2 * (p * d)) * Rpower teps (2 / 5)).
Proof.
  intros Hab Hok Hp Hq Hd.
  destruct (construct_sum f (tpow_samples (pt f) p) (fun x => q x ^ p) (p * d) Hab Hd) as (h & g & E & S & _ & _ & H).
  - destruct (trig_poly_pow d _ p Hp) as (c & Lc & Hc). exists c. split; [exact Lc|]. intros x. unfold tpow_samples. rewrite (trig_call_correct (pt f) x Hok). apply Hc.
  - intros x. unfold tpow_samples. rewrite (trig_call_correct (pt f) x Hok), Hq. apply cpow_real.
  - unfold ppow. rewrite E. eexists. split; [reflexivity|]. split; [exact S|exact H].
Qed.
Lemma own_degree c : Nat.odd (length c) = true -> trig_poly (length c / 2) (evalF c).
Proof. intros H. exists c. split; [|reflexivity]. assert (A := odd_half _ H). lia. Qed.
Lemma zero_pow_sum f p : pa f < pb f -> trig_ok (pt f) -> (forall x, evalF (tco (pt f)) x = RtoC 0) -> (1 <= p)%nat -> exists r, ppow f p = Some r /\ psum r = RtoC 0.
Proof.
  intros Hab Hok Hz Hp. destruct (pow_sum f 0 p (fun _ => 0) Hab Hok) as (r & E & Sr & H); [exists [RtoC 0]; split; [reflexivity|intros x; rewrite Hz, evalF_const1; reflexivity]|exact Hz|lia|].
  exists r. split; [exact E|]. rewrite Sr. f_equal. specialize (H 0). rewrite Nat.mul_0_r in H. cbn [INR] in H.
  assert (Q : is_RInt (fun _ : R => 0 ^ p) (pa f) (pb f) 0).
  { rewrite pow_i by lia. refine (eq_rect _ (fun w : R => is_RInt (V := R_NormedModule) (fun _ => 0) (pa f) (pb f) w) (is_RInt_const (V := R_NormedModule) (pa f) (pb f) 0) _ _). unfold scal; cbn. unfold mult; cbn. ring. }
  specialize (H Q). rewrite Nat.mul_0_r in H. cbn [INR] in H. rewrite Rmult_0_l, Rmult_0_r, Rminus_0_r in H. assert (B := Rabs_pos (Re (psum r))). apply Rabs_eq_0. lra.
Qed.

(** C192: for even p and a function flagged real whose length is odd, norm2 is the integral of |f|^p and norm its p-th root, up to the
    tolerance of the construction of f^p, as long as f^p has degree at most 15. *)
Theorem C192_real_partial : forall f F p, real_odd f -> calls f F -> (2 <= p)%nat -> Nat.even p = true -> let d := (length (tco (pt f)) / 2)%nat in (p * d <= 15)%nat ->
  exists s, pnorm2 f p = Some s /\ pnorm f p = nroot p (Rabs s) /\
    forall I, is_RInt (fun x => Cmod (F x) ^ p) (pa f) (pb f) I -> Rabs (s - I) <= (pb f - pa f) * (INR (2 * (p * d)) * Rpower (/ 10 ^ 10) (2 / 5)).
Proof.
  intros f F p (Hok & Hre & Hodd) HF Hp Hev d Hd. destruct Hok as [Hab Hok]. assert (EF := calls_unique f F (conj Hab Hok) HF).
  assert (Hh := proj2 (proj2 Hok) Hre). assert (Hq : forall x, evalF (tco (pt f)) x = RtoC (Re (evalF (tco (pt f)) x))) by (intros x; specialize (Hh x); apply injective_projections; cbn; [reflexivity|exact Hh]).
  destruct (pow_sum f d p (fun x => Re (evalF (tco (pt f)) x)) Hab Hok (own_degree _ Hodd) Hq Hd) as (r & E & Sr & H).
  assert (Hi : trig_ok (timag_part (pt f)) /\ forall x, evalF (tco (timag_part (pt f))) x = RtoC 0).
  { destruct (trig_imag_correct (pt f) Hok) as (_ & A & B & _). split; [apply B; exact I|]. intros x. rewrite A, Hh. reflexivity. }
  destruct (zero_pow_sum (pimag f) p Hab (proj1 Hi) (proj2 Hi) ltac:(lia)) as (z & Ez & Sz).
  assert (Er : preal f = f) by (unfold preal, treal_part; rewrite Hre; destruct f; reflexivity).
  assert (Ho : Nat.odd p = false) by (rewrite <- Nat.negb_even, Hev; reflexivity).
  destruct p as [|[|p]]; [lia|lia|]. set (P := S (S p)) in *.
  exists (Re (psum r)). unfold pnorm2, pnorm, pnorm_detail, pnorm2_detail. change (Nat.eqb P 0) with false. change (Nat.eqb P 1) with false. rewrite Ho, Er, E, Ez. cbv iota. cbn [option_map oplus].
  rewrite Sz. cbn [Re RtoC fst]. rewrite Cmod_0, !Rplus_0_r. split; [reflexivity|]. split; [rewrite Sr, Cmod_R; reflexivity|].
  intros I HI. apply H. eapply is_RInt_ext; [|exact HI]. intros x _. cbv beta. rewrite EF. unfold pfn. rewrite (Hq (map_bwd (pa f) (pb f) x)), Cmod_R. change (Re (RtoC ?z)) with z.
  rewrite RPow_abs. apply Rabs_pos_eq. apply Nat.even_spec in Hev. destruct Hev as [m ->]. rewrite pow_mult. apply pow_le. apply pow2_ge_0.
Qed.
Print Assumptions C192_real_partial.

Lemma trig_poly_int d (op : R -> C) (q : R -> R) a b : a < b -> trig_poly d op -> (forall x, op x = RtoC (q x)) -> exists I, is_RInt (fun x => q (map_bwd a b x)) a b I.
Proof.
  intros Hab (c & Lc & Hc) Hq. assert (H := trig_sum_correct c ltac:(lia)). apply (cint_dom _ a b) in H; [|exact Hab]. destruct H as [H _]. eexists. eapply is_RInt_ext; [|exact H].
  intros x _. cbv beta. rewrite <- Hc, Hq. reflexivity.
Qed.
Lemma teps_pow : Rpower teps (2 / 5) = / 10 ^ 4.
Proof.
  unfold teps. replace (/ 10 ^ 10) with (Rpower (/ 10) 10).
  - rewrite Rpower_mult. replace (10 * (2 / 5)) with (INR 4) by (cbn; lra). rewrite Rpower_pow by lra. rewrite pow_inv. reflexivity.
  - replace 10 with (INR 10) at 2 by (cbn; lra). rewrite Rpower_pow by lra. rewrite pow_inv. reflexivity.
Qed.
(** real and imaginary part of a complex function *)
Definition rich (t : trig) : Prop := exists j, (j < length (tva t))%nat /\ teps <= Re (nth j (tva t) C0).
Lemma part_re f : pok f -> tre (pt f) = false -> rich (pt f) -> pa f < pb f /\ trig_ok (pt (preal f)) /\ length (tco (pt (preal f))) = length (tco (pt f)) /\
  forall x, evalF (tco (pt (preal f))) x = RtoC (Re (evalF (tco (pt f)) x)).
Proof.
  intros [Hab Hok] Hre Hr. split; [exact Hab|]. destruct (trig_real_correct (pt f) Hok (or_intror Hr)) as (_ & A & B & _). split; [apply B; exact I|]. split; [|exact A].
  unfold preal, treal_part. rewrite Hre. cbn [pt pset]. destruct (forallb _ _); cbn [mk_trig tco]; [apply repeat_length|]. rewrite vals2coeffs1_length, map_length. apply ok_len, Hok.
Qed.
Lemma part_im f : pok f -> tre (pt f) = false -> pa f < pb f /\ trig_ok (pt (pimag f)) /\ length (tco (pt (pimag f))) = length (tco (pt f)) /\
  forall x, evalF (tco (pt (pimag f))) x = RtoC (Im (evalF (tco (pt f)) x)).
Proof.
  intros [Hab Hok] Hre. split; [exact Hab|]. destruct (trig_imag_correct (pt f) Hok) as (_ & A & B & _). split; [apply B; exact I|]. split; [|exact A].
  unfold pimag, timag_part. rewrite Hre. cbn [pt pset mk_trig tco]. rewrite vals2coeffs1_length, map_length. apply ok_len, Hok.
Qed.
(** what is computed for a complex function and even p: the integral of |Re f|^p + |Im f|^p *)
Lemma complex_sum f p : pok f -> tre (pt f) = false -> rich (pt f) -> Nat.odd (length (tco (pt f))) = true -> (2 <= p)%nat -> Nat.even p = true ->
  let d := (length (tco (pt f)) / 2)%nat in (p * d <= 15)%nat ->
  exists s t J, pnorm2 f p = Some s /\ pnorm f p = nroot p t /\ is_RInt (fun x => Re (pfn f x) ^ p + Im (pfn f x) ^ p) (pa f) (pb f) J /\
    let B := 2 * ((pb f - pa f) * (INR (2 * (p * d)) * Rpower teps (2 / 5))) in Rabs (s - J) <= B /\ Rabs (t - J) <= B.
Proof.
  intros Hok Hre Hr Hodd Hp Hev d Hd. destruct (part_re f Hok Hre Hr) as (Hab & Ok1 & L1 & E1). destruct (part_im f Hok Hre) as (_ & Ok2 & L2 & E2).
  assert (D1 : trig_poly d (evalF (tco (pt (preal f))))) by (unfold d; rewrite <- L1; apply own_degree; rewrite L1; exact Hodd).
  assert (D2 : trig_poly d (evalF (tco (pt (pimag f))))) by (unfold d; rewrite <- L2; apply own_degree; rewrite L2; exact Hodd).
  destruct (pow_sum (preal f) d p _ Hab Ok1 D1 E1 Hd) as (r1 & F1 & S1 & H1). destruct (pow_sum (pimag f) d p _ Hab Ok2 D2 E2 Hd) as (r2 & F2 & S2 & H2).
  destruct (trig_poly_int (p * d) _ (fun x => Re (evalF (tco (pt f)) x) ^ p) (pa f) (pb f) Hab (trig_poly_pow d _ p D1)) as (J1 & G1); [intros x; rewrite E1; apply cpow_real|].
  destruct (trig_poly_int (p * d) _ (fun x => Im (evalF (tco (pt f)) x) ^ p) (pa f) (pb f) Hab (trig_poly_pow d _ p D2)) as (J2 & G2); [intros x; rewrite E2; apply cpow_real|].
  specialize (H1 J1 G1). specialize (H2 J2 G2). change (pa (preal f)) with (pa f) in H1. change (pb (preal f)) with (pb f) in H1. change (pa (pimag f)) with (pa f) in H2. change (pb (pimag f)) with (pb f) in H2.
  set (B := (pb f - pa f) * (INR (2 * (p * d)) * Rpower teps (2 / 5))) in *.
  assert (Ev : forall z : R, 0 <= z ^ p) by (apply Nat.even_spec in Hev; destruct Hev as [m ->]; intros z; rewrite pow_mult; apply pow_le, pow2_ge_0).
  assert (P1 : 0 <= J1) by (apply (is_RInt_ge_0 _ (pa f) (pb f) J1 ltac:(lra) G1); intros; apply Ev).
  assert (P2 : 0 <= J2) by (apply (is_RInt_ge_0 _ (pa f) (pb f) J2 ltac:(lra) G2); intros; apply Ev).
  assert (Ho : Nat.odd p = false) by (rewrite <- Nat.negb_even, Hev; reflexivity).
  exists (Re (psum r1) + Re (psum r2)), (Rabs (Re (psum r1)) + Rabs (Re (psum r2))), (J1 + J2).
  destruct p as [|[|p]]; [lia|lia|]. set (P := S (S p)) in *.
  unfold pnorm2, pnorm, pnorm_detail, pnorm2_detail. change (Nat.eqb P 0) with false. change (Nat.eqb P 1) with false. rewrite Ho, F1, F2. cbv iota. cbn [option_map oplus].
  split; [reflexivity|]. split; [rewrite S1, S2, !Cmod_R; reflexivity|]. split; [apply (is_RInt_plus (V := R_NormedModule)); assumption|]. cbv zeta.
  assert (T1 := Rabs_triang_inv2 (Re (psum r1)) J1). assert (T2 := Rabs_triang_inv2 (Re (psum r2)) J2). rewrite (Rabs_pos_eq J1) in T1 by exact P1. rewrite (Rabs_pos_eq J2) in T2 by exact P2.
  split.
  - replace (Re (psum r1) + Re (psum r2) - (J1 + J2)) with ((Re (psum r1) - J1) + (Re (psum r2) - J2)) by ring. eapply Rle_trans; [apply Rabs_triang|]. lra.
  - replace (Rabs (Re (psum r1)) + Rabs (Re (psum r2)) - (J1 + J2)) with ((Rabs (Re (psum r1)) - J1) + (Rabs (Re (psum r2)) - J2)) by ring. eapply Rle_trans; [apply Rabs_triang|]. lra.
Qed.

(** C192: for p = 2 and a complex function of degree at most 7 with some value of real part at least 1e-10, norm2 is the integral of |f|^2
    and norm its root, up to the tolerance *)
Theorem C192_complex_partial : forall f F, pok f -> calls f F -> tre (pt f) = false -> Nat.odd (length (tco (pt f))) = true -> rich (pt f) ->
  let d := (length (tco (pt f)) / 2)%nat in (d <= 7)%nat ->
  exists s t, pnorm2 f 2 = Some s /\ pnorm f 2 = nroot 2 t /\ forall I, is_RInt (fun x => Cmod (F x) ^ 2) (pa f) (pb f) I ->
    Rabs (s - I) <= 8 * INR d * (pb f - pa f) * / 10 ^ 4 /\ Rabs (t - I) <= 8 * INR d * (pb f - pa f) * / 10 ^ 4.
Proof.
  intros f F Hok HF Hre Hodd Hr d Hd. destruct (complex_sum f 2 Hok Hre Hr Hodd ltac:(lia) eq_refl ltac:(fold d; lia)) as (s & t & J & E1 & E2 & HJ & B1 & B2). fold d in B1, B2.
  exists s, t. split; [exact E1|]. split; [exact E2|]. intros I HI. assert (EI : I = J).
  { assert (Q : is_RInt (fun x => Re (pfn f x) ^ 2 + Im (pfn f x) ^ 2) (pa f) (pb f) I).
    { eapply is_RInt_ext; [|exact HI]. intros x _. cbv beta. rewrite (calls_unique f F Hok HF). unfold Cmod. rewrite pow2_sqrt; [reflexivity|]. assert (A1 := pow2_ge_0 (fst (pfn f x))). assert (A2 := pow2_ge_0 (snd (pfn f x))). lra. }
    apply (is_RInt_unique (V := R_CompleteNormedModule)) in Q. apply (is_RInt_unique (V := R_CompleteNormedModule)) in HJ. congruence. }
  subst I. rewrite teps_pow in B1, B2. rewrite !mult_INR in B1, B2. change (INR 2) with 2 in B1, B2. split; (eapply Rle_trans; [eassumption|]; right; ring).
Qed.
Print Assumptions C192_complex_partial.

(** e^(i pi x) on [-1,1] *)
Definition e1 : trig := trig_of_coeffs [C0; C0; RtoC 1].
Definition wave1 : pfun := {| pa := -1; pb := 1; pt := e1 |}.
Lemma e1_eval x : evalF [C0; C0; RtoC 1] x = cis (PI * x).
Proof.
  unfold evalF. cbn [length csum nth]. unfold mode. cbn [length Nat.even andb]. change (freq 3 2) with 1%Z. replace (PI * 1 * x) with (PI * x) by ring. unfold C0. ring.
Qed.
Lemma e1_vals j : (j < 3)%nat -> nth j (coeffs2vals1 [C0; C0; RtoC 1]) C0 = cis (PI * gridpt 3 j).
Proof. intros Hj. rewrite trig_values_correct by exact Hj. apply e1_eval. Qed.
Lemma e1_ok : trig_ok e1 /\ tre e1 = false /\ rich e1.
Proof.
  assert (LV : length (coeffs2vals1 [C0; C0; RtoC 1]) = 3%nat) by (rewrite coeffs2vals1_length; reflexivity).
  assert (G : PI * gridpt 3 2 = PI / 3) by (unfold gridpt; cbn; field).
  assert (S3 : 1 < sqrt 3) by (rewrite <- sqrt_1; apply sqrt_lt_1; lra). assert (P := teps_pos). assert (E : teps <= / 100) by (unfold teps; apply Rinv_le_contravar; lra).
  assert (F : tre e1 = false).
  { unfold e1, trig_of_coeffs, mk_trig. cbn [tre]. apply Bool.not_true_is_false. intros H. unfold isrealb in H. rewrite forallb_forall in H.
    assert (I : In (nth 2 (coeffs2vals1 [C0; C0; RtoC 1]) C0) (coeffs2vals1 [C0; C0; RtoC 1])) by (apply nth_In; rewrite LV; lia).
    specialize (H _ I). apply Rleb_true in H. rewrite e1_vals, G in H by lia. unfold cis in H. cbn [Im snd] in H. rewrite sin_PI3, Rabs_pos_eq in H by lra.
    assert (S1 : tvscale [C0; C0; RtoC 1] <= 1).
    { unfold tvscale. apply maxmod_le; [lra|]. intros a Ha. destruct (In_nth _ _ C0 Ha) as [i [Hi1 <-]]. rewrite LV in Hi1. rewrite e1_vals by exact Hi1. right. apply cis_mod. }
    assert (Rmax teps (tvscale [C0; C0; RtoC 1]) <= 1) by (apply Rmax_lub; lra). nra. }
  assert (V : tva e1 = coeffs2vals1 [C0; C0; RtoC 1]) by (unfold e1, trig_of_coeffs, mk_trig in *; cbn [tva tre] in *; rewrite F; reflexivity).
  split; [|split; [exact F|]].
  - split; [cbn; lia|]. split; [exact V|rewrite F; discriminate].
  - exists 2%nat. rewrite V. split; [rewrite LV; lia|]. rewrite e1_vals, G by lia. unfold cis. cbn [Re fst]. rewrite cos_PI3. lra.
Qed.
Lemma wave1_calls : pok wave1 /\ calls wave1 (fun x => cis (PI * x)).
Proof.
  destruct e1_ok as (A & B & _). assert (Hok : pok wave1) by (split; [cbn; lra|exact A]). split; [exact Hok|].
  destruct (is_fun_pfn wave1 Hok (or_intror B)) as (H1 & _ & H3).
  assert (E : forall x, pfn wave1 x = cis (PI * x)) by (intros x; unfold pfn; cbn [wave1 pt pa pb e1 trig_of_coeffs mk_trig tco]; rewrite e1_eval; f_equal; unfold map_bwd; field).
  split; [intros x Hx; exists wave1; rewrite H1 by exact Hx; rewrite E; reflexivity|]. intros x. rewrite <- !E. apply H3.
Qed.

Lemma trig4 y : 3 / 4 + cos (4 * y) / 4 = cos y ^ 4 + sin y ^ 4.
Proof.
  replace (4 * y) with (2 * (2 * y)) by ring. rewrite (cos_2a (2 * y)), cos_2a, sin_2a. assert (E := sin2_cos2 y). unfold Rsqr in E. assert (Ec : sin y * sin y = 1 - cos y * cos y) by lra.
  replace (sin y ^ 4) with ((sin y * sin y) * (sin y * sin y)) by ring.
  replace ((cos y * cos y - sin y * sin y) * (cos y * cos y - sin y * sin y) - 2 * sin y * cos y * (2 * sin y * cos y)) with ((cos y * cos y - sin y * sin y) * (cos y * cos y - sin y * sin y) - 4 * (sin y * sin y) * (cos y * cos y)) by ring.
  rewrite Ec. field.
Qed.
(** C192 REFUTED: the modulus of e^(i pi x) is 1, so the integral of its 4th power over [-1,1] is 2; the result is below 1.6. *)
Theorem C192_complex_refuted : pok wave1 /\ calls wave1 (fun x => cis (PI * x)) /\ is_RInt (fun x => Cmod (cis (PI * x)) ^ 4) (-1) 1 2 /\
  exists s, pnorm2 wave1 4 = Some s /\ s < 16 / 10.
Proof.
  destruct wave1_calls as [Hok HF]. destruct e1_ok as (_ & B & Hr). split; [exact Hok|]. split; [exact HF|]. split.
  - apply (is_RInt_ext (V := R_NormedModule) (fun _ => 1)); [intros x _; rewrite cis_mod, pow1; reflexivity|].
    refine (eq_rect _ (fun w : R => is_RInt (V := R_NormedModule) (fun _ => 1) (-1) 1 w) (is_RInt_const (V := R_NormedModule) (-1) 1 1) _ _). unfold scal; cbn. unfold mult; cbn. lra.
  - destruct (complex_sum wave1 4 Hok B Hr eq_refl ltac:(lia) eq_refl ltac:(cbn; lia)) as (s & t & J & E1 & _ & HJ & B1 & _). exists s. split; [exact E1|].
    assert (EJ : J = 3 / 2).
    { assert (Q : is_RInt (fun x => 3 / 4 + cos (4 * (PI * x)) / 4) (-1) 1 (3 / 2)).
      { assert (PP := PI_RGT_0). assert (D := is_RInt_derive (V := R_CompleteNormedModule) (fun x => 3 / 4 * x + sin (4 * (PI * x)) / (16 * PI)) (fun x => 3 / 4 + cos (4 * (PI * x)) / 4) (-1) 1).
        assert (Q := D ltac:(intros x _; auto_derive; [lra|field; lra]) ltac:(intros x _; apply continuity_pt_filterlim; reg)).
        refine (eq_rect _ (fun w : R => is_RInt (V := R_NormedModule) (fun x => 3 / 4 + cos (4 * (PI * x)) / 4) (-1) 1 w) Q _ _).
        assert (S4 : sin (4 * (PI * 1)) = 0) by (replace (4 * (PI * 1)) with (0 + 2 * INR 2 * PI) by (cbn; ring); rewrite sin_period; apply sin_0).
        assert (S5 : sin (4 * (PI * -1)) = 0) by (replace (4 * (PI * -1)) with (- (4 * (PI * 1))) by ring; rewrite sin_neg, S4; ring).
        unfold minus, plus, opp; cbn. rewrite S4, S5. field. lra. }
      apply (is_RInt_ext (V := R_NormedModule) _ (fun x => Re (pfn wave1 x) ^ 4 + Im (pfn wave1 x) ^ 4)) in Q.
      2:{ intros x _. rewrite <- (calls_unique wave1 _ Hok HF x). unfold cis. cbn [Re Im fst snd]. exact (trig4 (PI * x)). }
      change (pa wave1) with (-1) in HJ. change (pb wave1) with 1 in HJ. apply (is_RInt_unique (V := R_CompleteNormedModule)) in Q. apply (is_RInt_unique (V := R_CompleteNormedModule)) in HJ. congruence. }
    subst J. rewrite teps_pow in B1. change (pa wave1) with (-1) in B1. change (pb wave1) with 1 in B1. change (2 * (4 * (length (tco (pt wave1)) / 2)))%nat with 8%nat in B1.
    apply Rabs_le_between in B1. cbn [INR] in B1. lra.
Qed.
Print Assumptions C192_complex_refuted.

(** C192 REFUTED: -1 + i has modulus sqrt 2; the integral of its square over [-1,1] is 4, norm2 gives 2: the real part is lost. *)
Definition corner : pfun := {| pa := -1; pb := 1; pt := tmi |}.
Theorem C192_real_part_refuted : pok corner /\ (forall x, pfn corner x = (-1, 1)) /\ is_RInt (fun x => Cmod (pfn corner x) ^ 2) (-1) 1 4 /\ pnorm2 corner 2 = Some 2.
Proof.
  destruct tmi_ok as (A & B & E). assert (Hok : pok corner) by (split; [cbn; lra|exact A]). split; [exact Hok|]. split; [intros x; apply E|]. split.
  - apply (is_RInt_ext (V := R_NormedModule) (fun _ => 2)); [intros x _; unfold pfn; cbn [corner pt pa pb]; rewrite E; unfold Cmod; cbn [fst snd]; rewrite pow2_sqrt by lra; enough (Z : @eq R 2 ((-1) ^ 2 + 1 ^ 2)) by exact Z; ring|].
    refine (eq_rect _ (fun w : R => is_RInt (V := R_NormedModule) (fun _ => 2) (-1) 1 w) (is_RInt_const (V := R_NormedModule) (-1) 1 2) _ _). unfold scal; cbn. unfold mult; cbn. lra.
  - assert (Z : forall x, evalF (tco (treal_part tmi)) x = RtoC 0 /\ trig_ok (treal_part tmi)).
    { assert (V : tva tmi = [((-1), 1)]) by (unfold tmi, mk_trig in *; cbn [tva tre] in *; rewrite B; reflexivity).
      unfold treal_part. rewrite B, V. cbn [map forallb]. assert (T : Rltb (Re (RtoC (Re ((-1), 1)))) teps = true) by (apply Rltb_true; change (Re (RtoC (Re ((-1), 1)))) with (-1); assert (Q := teps_pos); lra). rewrite T. cbn [andb].
      destruct (zeros_rep 1 (fun _ => RtoC 0) ltac:(lia) ltac:(reflexivity)) as (_ & Z1 & Z2 & _). intros x. split; [apply Z1|apply Z2; exact I]. }
    destruct (zero_pow_sum (preal corner) 2 ltac:(cbn; lra) (proj2 (Z 0)) (fun x => proj1 (Z x)) ltac:(lia)) as (r1 & F1 & S1).
    destruct (part_im corner Hok B) as (_ & Ok2 & L2 & E2).
    assert (E3 : forall x, evalF (tco (pt (pimag corner))) x = RtoC 1) by (intros x; rewrite E2; cbn [corner pt]; rewrite E; reflexivity).
    destruct (pow_sum (pimag corner) 0 2 (fun _ => 1) ltac:(cbn; lra) Ok2) as (r2 & F2 & S2 & H2); [exists [RtoC 1]; split; [reflexivity|intros x; rewrite E3, evalF_const1; reflexivity]|exact E3|lia|].
    unfold pnorm2, pnorm2_detail. change (Nat.eqb 2 0) with false. change (Nat.eqb 2 1) with false. change (Nat.odd 2) with false. cbv iota. rewrite F1, F2. cbn [option_map oplus]. rewrite S1. f_equal.
    assert (Q : is_RInt (fun _ : R => 1 ^ 2) (pa (pimag corner)) (pb (pimag corner)) 2).
    { refine (eq_rect _ (fun w : R => is_RInt (V := R_NormedModule) (fun _ => 1 ^ 2) (-1) 1 w) (is_RInt_const (V := R_NormedModule) (-1) 1 (1 ^ 2)) _ _). unfold scal; cbn. unfold mult; cbn. lra. }
    specialize (H2 2 Q). change (2 * (2 * 0))%nat with 0%nat in H2. cbn [INR] in H2. rewrite Rmult_0_l, Rmult_0_r in H2. assert (P := Rabs_pos (Re (psum r2) - 2)). assert (Z0 : Re (psum r2) - 2 = 0) by (apply Rabs_eq_0; lra). change (Re (RtoC 0)) with 0. lra.
Qed.
Print Assumptions C192_real_part_refuted.

(** C192: norm(f, 1) of a function that takes only values >= 0 *)
Theorem C192_one_partial : forall f F d, real_odd f -> calls f F -> d = (length (tco (pt f)) / 2)%nat -> (d <= 15)%nat -> (forall x, 0 <= Re (F x)) ->
  exists s, pnorm f 1 = Some s /\ pnorm2 f 1 = Some s /\ forall I, is_RInt (fun x => Cmod (F x)) (pa f) (pb f) I -> Rabs (s - I) <= (pb f - pa f) * (INR (2 * d) * / 10 ^ 4).
Proof.
  intros f F d (Hok & Hre & Hodd) HF Ed Hd Hpos. destruct Hok as [Hab Hok]. assert (EF := calls_unique f F (conj Hab Hok) HF).
  assert (Hh := proj2 (proj2 Hok) Hre). assert (Hq : forall x, evalF (tco (pt f)) x = RtoC (Re (evalF (tco (pt f)) x))) by (intros x; specialize (Hh x); apply injective_projections; cbn; [reflexivity|exact Hh]).
  assert (Pz : forall y, 0 <= Re (evalF (tco (pt f)) y)).
  { intros y. assert (P := Hpos (map_fwd (pa f) (pb f) y)). rewrite EF in P. unfold pfn in P. replace (map_bwd (pa f) (pb f) (map_fwd (pa f) (pb f) y)) with y in P; [exact P|]. unfold map_bwd, map_fwd. field. lra. }
  assert (Ab : forall x, RtoC (Cmod (evalF (tco (pt f)) x)) = evalF (tco (pt f)) x) by (intros x; rewrite (Hq x), Cmod_R, Rabs_pos_eq by apply Pz; reflexivity).
  destruct (construct_sum f (fun x => RtoC (Cmod (fst (tcall (pt f) x)))) (fun x => Re (evalF (tco (pt f)) x)) d Hab Hd) as (h & g & E & S1 & _ & _ & H).
  { destruct (own_degree _ Hodd) as (c & Lc & Hc). exists c. split; [lia|]. intros x. rewrite (trig_call_correct (pt f) x Hok), Ab. apply Hc. }
  { intros x. rewrite (trig_call_correct (pt f) x Hok), Ab. apply Hq. }
  assert (Hi : trig_ok (timag_part (pt f)) /\ forall x, evalF (tco (timag_part (pt f))) x = RtoC 0).
  { destruct (trig_imag_correct (pt f) Hok) as (_ & A & B & _). split; [apply B; exact I|]. intros x. rewrite A, Hh. reflexivity. }
  destruct (construct_sum f (fun x => RtoC (Cmod (fst (tcall (timag_part (pt f)) x)))) (fun _ => 0) 0 Hab ltac:(lia)) as (h' & g' & E' & _ & _ & _ & H').
  { exists [RtoC 0]. split; [reflexivity|]. intros x. rewrite (trig_call_correct _ x (proj1 Hi)), (proj2 Hi), Cmod_0, evalF_const1. reflexivity. }
  { intros x. rewrite (trig_call_correct _ x (proj1 Hi)), (proj2 Hi), Cmod_0. reflexivity. }
  assert (Er : preal f = f) by (unfold preal, treal_part; rewrite Hre; destruct f; reflexivity).
  assert (Z : Re (psum (pset f g')) = 0).
  { assert (Q : is_RInt (fun _ : R => 0) (pa f) (pb f) 0).
    { refine (eq_rect _ (fun w : R => is_RInt (V := R_NormedModule) (fun _ => 0) (pa f) (pb f) w) (is_RInt_const (V := R_NormedModule) (pa f) (pb f) 0) _ _). unfold scal; cbn. unfold mult; cbn. ring. }
    specialize (H' 0 Q). cbn [Nat.mul INR] in H'. rewrite Rmult_0_l, Rmult_0_r, Rminus_0_r in H'. assert (B := Rabs_pos (Re (psum (pset f g')))). apply Rabs_eq_0. lra. }
  assert (V : pnorm2_detail f 1 = Some (Re (psum (pset f g)))) by (unfold pnorm2_detail, pabs, tufunc; cbn [Nat.eqb]; rewrite E; reflexivity).
  assert (V' : pnorm2_detail (pimag f) 1 = Some 0) by (unfold pnorm2_detail, pabs, tufunc, pimag; cbn [Nat.eqb pt pset]; rewrite E'; cbn [option_map]; f_equal; exact Z).
  exists (Re (psum (pset f g))). unfold pnorm, pnorm2, pnorm_detail. cbn [Nat.eqb]. change (Nat.odd 1) with true. cbv iota. rewrite Er, V, V'. cbn [oplus]. rewrite Rplus_0_r. split; [reflexivity|]. split; [reflexivity|].
  intros I HI. rewrite <- teps_pow. apply H. eapply is_RInt_ext; [|exact HI]. intros x _. cbv beta. rewrite EF. unfold pfn. rewrite (Hq (map_bwd (pa f) (pb f) x)), Cmod_R, Rabs_pos_eq by apply Pz. reflexivity.
Qed.
Print Assumptions C192_one_partial.

(** 2 + cos(pi x) meets the hypotheses for p = 1, 2, ... *)
Definition hill : pfun := {| pa := -1; pb := 1; pt := trig_of_coeffs [RtoC (/ 2); RtoC 2; RtoC (/ 2)] |}.
Example ex_C192 : real_odd hill /\ calls hill (fun x => RtoC (2 + cos (PI * x))) /\ (14 * (length (tco (pt hill)) / 2) <= 15)%nat /\ (forall x, 0 <= Re (RtoC (2 + cos (PI * x)))) /\
  pok wave1 /\ tre (pt wave1) = false /\ rich (pt wave1) /\ Nat.odd (length (tco (pt wave1))) = true.
Proof.
  assert (E : forall x, evalF [RtoC (/ 2); RtoC 2; RtoC (/ 2)] x = RtoC (2 + cos (PI * x))).
  { intros x. unfold evalF. cbn [length csum nth]. unfold mode. cbn [length Nat.even andb]. change (freq 3 0) with (-1)%Z. change (freq 3 1) with 0%Z. change (freq 3 2) with 1%Z.
    replace (PI * -1 * x) with (- (PI * x)) by ring. replace (PI * 0 * x) with 0 by ring. replace (PI * 1 * x) with (PI * x) by ring. unfold cis. rewrite cos_neg, sin_neg, cos_0, sin_0. apply injective_projections; cbn; field. }
  destruct (mk_trig_ok [RtoC (/ 2); RtoC 2; RtoC (/ 2)] ltac:(cbn; lia)) as [A B]; [intros x; rewrite E; reflexivity|].
  assert (Hok : pok hill) by (split; [cbn; lra|exact A]). split; [split; [exact Hok|split; [exact B|reflexivity]]|]. split.
  - destruct (is_fun_pfn hill Hok (or_introl eq_refl)) as (H1 & _ & H3).
    assert (E' : forall x, pfn hill x = RtoC (2 + cos (PI * x))) by (intros x; unfold pfn; cbn [hill pt pa pb trig_of_coeffs mk_trig tco]; rewrite E; do 4 f_equal; unfold map_bwd; field).
    split; [intros x Hx; exists hill; rewrite H1 by exact Hx; rewrite E'; reflexivity|]. intros x. rewrite <- !E'. apply H3.
  - split; [cbn; lia|]. split; [intros x; change (Re (RtoC ?z)) with z; assert (Q := COS_bound (PI * x)); lra|]. split; [apply wave1_calls|]. destruct e1_ok as (_ & B1 & R1). split; [exact B1|]. split; [exact R1|reflexivity].
Qed.
