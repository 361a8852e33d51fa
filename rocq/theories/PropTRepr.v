(** C208: periodic functions from arrays of values, and reading back repr. *)
From Coq Require Import Reals ZArith List Arith Bool Lia Lra.
From Coquelicot Require Import Coquelicot.
From Verif Require Import Base ToolsProofs ChebModel FunModel DivModel TrigSpec TrigBase TrigModel TrigTrans TrigEval TrigCalc TrigCalc2 TrigModel2 TrigObj TrigObj2 FunTrig FunTrigProofs TrigConsProofs EqModel PropEq FlFft PropFlF TReprModel.
Import ListNotations.
Open Scope R_scope.

(** P(x) = y *)
Definition pvalue (P : pfun) (x : R) (y : C) : Prop := exists P', pcall P x = Some (y, P').
(** point j of n equispaced points of [a, b) *)
Definition ept (a b : R) (n j : nat) : R := a + (b - a) * INR j / INR n.
(** the numbers are all real *)
Definition all_real (v : list C) : Prop := forall z, In z v -> Im z = 0.
(** some number has an imaginary part that is not negligible *)
Definition has_imag (v : list C) : Prop := exists z m, In z v /\ (forall u, In u v -> Cmod u <= m) /\ 3 * / 10 ^ 10 * Rmax (/ 10 ^ 10) m < Rabs (Im z).

Lemma ept_fwd a b n j : (1 <= n)%nat -> a < b -> map_bwd a b (ept a b n j) = gridpt n j.
Proof. intros Hn H. unfold map_bwd, ept, gridpt. assert (0 < INR n) by (apply lt_0_INR; lia). field. split; lra. Qed.
Lemma ept_in a b n j : (j < n)%nat -> a < b -> a <= ept a b n j <= b.
Proof.
  intros Hj H. unfold ept. assert (0 < INR n) by (apply lt_0_INR; lia). assert (INR j <= INR n) by (apply le_INR; lia). assert (0 <= INR j) by apply pos_INR.
  assert (0 <= INR j / INR n <= 1).
  { split; [apply Rmult_le_pos; [lra|left; apply Rinv_0_lt_compat; lra]|]. apply (Rmult_le_reg_r (INR n)); [lra|]. unfold Rdiv. rewrite Rmult_assoc, Rinv_l by lra. lra. }
  replace ((b - a) * INR j / INR n) with ((b - a) * (INR j / INR n)) by (unfold Rdiv; ring). split; nra.
Qed.

Lemma maxmod_ge l z : In z l -> Cmod z <= maxmod l.
Proof.
  induction l as [|a l IH]; [intros []|]. intros [->|H]; cbn [maxmod fold_right]; [apply Rmax_l|]. eapply Rle_trans; [apply IH; exact H|apply Rmax_r].
Qed.
Lemma maxmod_le l m : 0 <= m -> (forall u, In u l -> Cmod u <= m) -> maxmod l <= m.
Proof.
  intros Hm. induction l as [|a l IH]; intros H; cbn [maxmod fold_right]; [exact Hm|]. apply Rmax_lub; [apply H; now left|apply IH; intros; apply H; now right].
Qed.

(** what the constructor makes of real numbers, and of numbers that are not nearly real *)
Lemma of_real v : (1 <= length v)%nat -> all_real v -> trig_ok (trig_of_values v) /\ tre (trig_of_values v) = true /\ tva (trig_of_values v) = v /\ tco (trig_of_values v) = vals2coeffs1 v.
Proof.
  intros Hn Hr. set (c := vals2coeffs1 v). assert (Lc : length c = length v) by apply vals2coeffs1_length.
  assert (Hh : hermitian c).
  { apply symm_herm; [lia|]. apply herm_symm; [lia|]. rewrite Lc. intros j Hj. unfold c. rewrite trig_interpolates by exact Hj. apply Hr. now apply nth_In. }
  destruct (mk_trig_ok c ltac:(lia) Hh) as [X Y]. unfold c in X, Y. rewrite trig_v2c_c2v in X, Y. split; [exact X|]. split; [exact Y|].
  split; [|reflexivity]. destruct X as [_ [X _]]. unfold trig_of_values. rewrite X. change (tco (mk_trig v (vals2coeffs1 v))) with (vals2coeffs1 v). apply trig_v2c_c2v.
Qed.
Lemma of_imag v : (1 <= length v)%nat -> has_imag v -> trig_ok (trig_of_values v) /\ tre (trig_of_values v) = false /\ tva (trig_of_values v) = v /\ tco (trig_of_values v) = vals2coeffs1 v.
Proof.
  intros Hn [z [m [Hz [Hm Hi]]]]. assert (E : isrealb v (vals2coeffs1 v) = false).
  { apply not_true_is_false. intros H. unfold isrealb in H. rewrite forallb_forall in H. specialize (H z Hz). apply Rleb_true in H.
    unfold tvscale in H. rewrite trig_v2c_c2v in H. assert (M0 : 0 <= m) by (eapply Rle_trans; [apply Cmod_ge_0|apply (Hm z Hz)]).
    assert (ML := maxmod_le v m M0 Hm). unfold teps in H. assert (T0 : 0 < / 10 ^ 10) by (apply Rinv_0_lt_compat; apply pow_lt; lra).
    set (t := / 10 ^ 10) in *. clearbody t. assert (Rmax t (maxmod v) <= Rmax t m) by (apply Rle_max_compat_l; exact ML). nra. }
  unfold trig_of_values, mk_trig. rewrite E. cbn [tco tva tre realvals]. repeat split; cbn [tco tva tre].
  - rewrite vals2coeffs1_length. exact Hn.
  - symmetry. apply trig_v2c_c2v.
  - discriminate.
Qed.
Lemma of_both v : (1 <= length v)%nat -> all_real v \/ has_imag v -> trig_ok (trig_of_values v) /\ tva (trig_of_values v) = v /\ tco (trig_of_values v) = vals2coeffs1 v.
Proof. intros Hn [H|H]; [destruct (of_real v Hn H) as (A & _ & B)|destruct (of_imag v Hn H) as (A & _ & B)]; auto. Qed.
Lemma pvalue_pfn P x : pok P -> pa P <= x <= pb P -> pvalue P x (pfn P x).
Proof. intros H Hx. destruct (proj1 (pcall_correct P x H) Hx) as [P' [E _]]. exists P'. exact E. Qed.
Lemma eval_some v a b : (1 <= length v)%nat -> pfun_of_values v a b = Some {| pa := a; pb := b; pt := trig_of_values v |}.
Proof. destruct v; [cbn; lia|reflexivity]. Qed.

(** C208: a periodic function built from n values on [a, b], all of them real or one of them clearly not,
    takes the given values at the n equispaced points and the first of them again at b *)
Theorem C208_interpolates : forall v a b, (1 <= length v)%nat -> a < b -> all_real v \/ has_imag v ->
  exists P, pfun_of_values v a b = Some P /\ pok P /\ pa P = a /\ pb P = b /\ length (tco (pt P)) = length v /\
    (forall j, (j < length v)%nat -> pvalue P (ept a b (length v) j) (nth j v 0%C)) /\ pvalue P b (nth 0 v 0%C).
Proof.
  intros v a b Hn Hab Hv. destruct (of_both v Hn Hv) as (OK & EV & EC). eexists. split; [apply eval_some; exact Hn|].
  set (P := {| pa := a; pb := b; pt := trig_of_values v |}). assert (HP : pok P) by (split; assumption).
  split; [exact HP|]. split; [reflexivity|]. split; [reflexivity|]. split; [cbn [pt P]; rewrite EC; apply vals2coeffs1_length|].
  assert (Q : forall j, (j < length v)%nat -> pfn P (ept a b (length v) j) = nth j v 0%C).
  { intros j Hj. unfold pfn. cbn [pt pa pb P]. rewrite EC, ept_fwd by assumption. now apply trig_interpolates. }
  split.
  - intros j Hj. rewrite <- Q by exact Hj. apply pvalue_pfn; [exact HP|]. now apply ept_in.
  - rewrite <- (Q 0%nat) by lia. replace (pfn P (ept a b (length v) 0)) with (pfn P b).
    + apply pvalue_pfn; [exact HP|]. cbn. lra.
    + unfold pfn. cbn [pt pa pb P]. rewrite ept_fwd by assumption.
      replace (map_bwd a b b) with (gridpt (length v) 0 + 2)%R; [apply evalF_period2|].
      unfold gridpt, map_bwd. cbn [INR]. assert (0 < INR (length v)) by (apply lt_0_INR; lia). field. split; lra.
Qed.
Print Assumptions C208_interpolates.

(** C208: values of a trigonometric polynomial (frequencies -n/2 .. (n-1)/2, for even n the highest one as a cosine) give it back everywhere *)
Theorem C208_polynomials : forall v a b h, (1 <= length v)%nat -> a < b -> all_real v \/ has_imag v -> length h = length v ->
  (forall j, (j < length v)%nat -> nth j v 0%C = evalF h (-1 + 2 * INR j / INR (length v))) ->
  exists P, pfun_of_values v a b = Some P /\ forall x, a <= x <= b -> pvalue P x (evalF h (2 * (x - a) / (b - a) - 1)).
Proof.
  intros v a b h Hn Hab Hv Lh H. destruct (of_both v Hn Hv) as (OK & EV & EC). eexists. split; [apply eval_some; exact Hn|].
  intros x Hx. set (P := {| pa := a; pb := b; pt := trig_of_values v |}). assert (HP : pok P) by (split; assumption).
  replace (evalF h (2 * (x - a) / (b - a) - 1)) with (pfn P x); [now apply pvalue_pfn|].
  unfold pfn. cbn [pt pa pb P]. rewrite EC. rewrite (interp_unique v h); [f_equal; unfold map_bwd; field; lra|lia|].
  intros j Hj. rewrite Lh in *. apply H. exact Hj.
Qed.
Print Assumptions C208_polynomials.

Lemma v2c_close w v d k : length w = length v -> (1 <= length v)%nat -> 0 <= d -> (forall j, (j < length v)%nat -> Cmod (nth j w C0 - nth j v C0)%C <= d) -> (k < length v)%nat ->
  Cmod (nth k (vals2coeffs1 w) C0 - nth k (vals2coeffs1 v) C0)%C <= d.
Proof.
  intros L Hn Hd H Hk. destruct (Nat.eq_dec (length v) 1) as [E1|N1].
  - assert (E : forall u : list C, length u = 1%nat -> nth 0 (vals2coeffs1 u) C0 = nth 0 u C0).
    { intros u Lu. rewrite <- (trig_v2c_c2v u) at 2. rewrite (trig_values_correct (vals2coeffs1 u) 0) by (rewrite vals2coeffs1_length; lia).
      unfold evalF. rewrite vals2coeffs1_length, Lu. cbn [csum]. unfold mode. cbn [Nat.even andb]. unfold freq. cbn.
      replace (PI * 0 * gridpt 1 0) with 0 by ring. unfold cis. rewrite cos_0, sin_0. change (RtoC 0) with C0. change (1, 0) with (RtoC 1).
      replace (C0 + nth 0 (vals2coeffs1 u) C0 * RtoC 1)%C with (nth 0 (vals2coeffs1 u) C0); [reflexivity|]. unfold C0. ring. }
    replace k with 0%nat by lia. rewrite !E by lia. apply H. lia.
  - rewrite !vals2coeffs1_Usum by lia. rewrite (Usum_minus v w k) by lia. apply Usum_mod; rewrite mk_length; [lia|]. intros j Hj. rewrite nth_mk by exact Hj. apply H. lia.
Qed.

(** C208: repr read back: it works for at most 1000 values, and if every printed value is within d of the value and is real when the
    function is real (or one of them is clearly not real), the result is within n d of the function on the whole domain *)
Theorem C208_read_back : forall rnd P d, pok P -> (length (tco (pt P)) <= 1000)%nat -> 0 <= d ->
  (forall z, In z (tva (pt P)) -> Cmod (rnd z - z)%C <= d) ->
  all_real (map rnd (tva (pt P))) \/ has_imag (map rnd (tva (pt P))) ->
  exists Q, pfun_eval (pfun_repr rnd P) = Some Q /\ pok Q /\ pa Q = pa P /\ pb Q = pb P /\ length (tco (pt Q)) = length (tco (pt P)) /\
    forall x, pa P <= x <= pb P -> exists y z, pvalue P x y /\ pvalue Q x z /\ Cmod (z - y)%C <= INR (length (tco (pt P))) * d.
Proof.
  intros rnd P d HP Hs Hd Hr Hv. destruct (proj2 HP) as [H1 [EV _]]. set (c := tco (pt P)) in *. set (v := tva (pt P)) in *.
  assert (Lv : length v = length c) by (rewrite EV; apply coeffs2vals1_length).
  assert (Lw : length (map rnd v) = length c) by (rewrite map_length; exact Lv).
  destruct (of_both (map rnd v) ltac:(lia) Hv) as (OK & EW & EC).
  unfold pfun_eval, pfun_repr. fold v. replace (Nat.leb (length v) 1000) with true by (symmetry; apply Nat.leb_le; lia). cbn [fst snd].
  eexists. split; [apply eval_some; lia|]. set (Q := {| pa := pa P; pb := pb P; pt := trig_of_values (map rnd v) |}).
  assert (HQ : pok Q) by (split; [exact (proj1 HP)|exact OK]).
  split; [exact HQ|]. split; [reflexivity|]. split; [reflexivity|]. split; [cbn [pt Q]; rewrite EC, vals2coeffs1_length; exact Lw|].
  intros x Hx. exists (pfn P x), (pfn Q x). split; [now apply pvalue_pfn|]. split; [apply pvalue_pfn; [exact HQ|exact Hx]|].
  unfold pfn. cbn [pt pa pb Q]. rewrite EC. fold c. set (z := map_bwd (pa P) (pb P) x).
  assert (E0 : vals2coeffs1 v = c) by (rewrite EV; apply trig_c2v_v2c).
  set (e := vals2coeffs1 (map rnd v)). assert (Le : length e = length c) by (unfold e; rewrite vals2coeffs1_length; exact Lw).
  assert (ED : evalF (zipc (fun u w => RtoC 1 * u + RtoC (-1) * w)%C e c) z = (evalF e z - evalF c z)%C).
  { rewrite evalF_lin; [|symmetry; exact Le]. change (RtoC (-1)) with (RtoC (Ropp 1)). rewrite (RtoC_opp 1). ring. }
  rewrite <- ED. clear ED.
  assert (Lz : length (zipc (fun u w => RtoC 1 * u + RtoC (-1) * w)%C e c) = length c) by (unfold zipc; rewrite ?mk_length, ?map_length, ?combine_length; lia).
  rewrite <- Lz. apply evalF_bound. rewrite Lz. intros k Hk.
  replace (nth k (zipc (fun u w => RtoC 1 * u + RtoC (-1) * w)%C e c) C0) with (nth k e C0 - nth k c C0)%C.
  - rewrite <- E0. unfold e. apply v2c_close; [rewrite map_length; reflexivity|lia|exact Hd| |lia].
    intros j Hj. rewrite (nth_indep _ C0 (rnd C0)) by (rewrite map_length; exact Hj). rewrite map_nth. apply Hr. now apply nth_In.
  - unfold zipc. rewrite nth_mk by lia. change (RtoC (-1)) with (RtoC (Ropp 1)). rewrite (RtoC_opp 1). ring.
Qed.
Print Assumptions C208_read_back.

(** C208: printed exactly, a real function or one with a value that is clearly not real compares equal to what is read back *)
Theorem C208_equal : forall P, pok P -> (length (tco (pt P)) <= 1000)%nat -> tre (pt P) = true \/ has_imag (tva (pt P)) ->
  exists Q, pfun_eval (pfun_repr (fun z => z) P) = Some Q /\ geq (GT P) (GT Q) = true.
Proof.
  intros P HP Hs Hv. destruct (proj2 HP) as [H1 [EV HH]]. set (c := tco (pt P)) in *. set (v := tva (pt P)) in *.
  assert (Lv : length v = length c) by (rewrite EV; apply coeffs2vals1_length).
  assert (Hv' : all_real v \/ has_imag v).
  { destruct Hv as [T|T]; [left|right; exact T]. intros z Hz. apply (In_nth _ _ C0) in Hz. destruct Hz as [j [Hj <-]].
    rewrite EV, trig_values_correct by lia. apply HH. exact T. }
  destruct (of_both v ltac:(lia) Hv') as (_ & EW & EC).
  unfold pfun_eval, pfun_repr. fold v. replace (Nat.leb (length v) 1000) with true by (symmetry; apply Nat.leb_le; lia). cbn [fst snd]. rewrite map_id.
  eexists. split; [apply eval_some; lia|]. apply geq_trig. cbn [pa pb pt]. rewrite EC, EW. repeat split.
  fold c. rewrite EV. symmetry. apply trig_c2v_v2c.
Qed.
Print Assumptions C208_equal.

(** not so: repr can be read back for every periodic function *)
Theorem C208_long_refuted : forall rnd P, pok P -> (1000 < length (tco (pt P)))%nat -> pfun_eval (pfun_repr rnd P) = None.
Proof.
  intros rnd P HP H. destruct (proj2 HP) as [_ [EV _]]. unfold pfun_eval, pfun_repr. rewrite EV, coeffs2vals1_length.
  replace (Nat.leb (length (tco (pt P))) 1000) with false by (symmetry; apply Nat.leb_gt; exact H). reflexivity.
Qed.
Print Assumptions C208_long_refuted.

(** not so: what is read back is equal to the function that was printed, or calls to the same values: for a real function with an even
    number of values that has been called, repr still tells the function before the call *)
Theorem C208_called_refuted : exists P y P' Q, pok P /\ pvalue P 0 y /\ pcall P 0 = Some (y, P') /\ pfun_eval (pfun_repr (fun z => z) P') = Some Q /\
  geq (GT P) (GT Q) = true /\ geq (GT P') (GT Q) = false.
Proof.
  set (c := [RtoC 1; RtoC 0]).
  assert (Hh : hermitian c).
  { intros x. unfold evalF, c. cbn [length csum nth]. unfold mode. cbn. ring. }
  destruct (mk_trig_ok c ltac:(cbn; lia) Hh) as [X Y].
  set (P := {| pa := -1; pb := 1; pt := mk_trig (coeffs2vals1 c) c |}).
  assert (HP : pok P) by (split; [cbn; lra|exact X]).
  assert (Z : map_bwd (pa P) (pb P) 0 = 0) by (cbn; unfold map_bwd; field).
  set (P' := {| pa := -1; pb := 1; pt := {| tco := touch c; tva := tva (pt P); tre := true |} |}).
  assert (EP : pcall P 0 = Some (RtoC (horner_real c 0), P')).
  { unfold pcall. rewrite Z. unfold ChebModel.Rleb, Rleb. destruct (Rle_dec (-1) 0); [|lra]. destruct (Rle_dec 0 1); [|lra]. cbn [andb].
    unfold tcall. change (pt P) with (mk_trig (coeffs2vals1 c) c). rewrite Y. reflexivity. }
  destruct (C208_equal P HP) as [Q [EQ GQ]]; [cbn; lia|left; exact Y|].
  exists P, (RtoC (horner_real c 0)), P', Q. split; [exact HP|]. split; [exists P'; exact EP|]. split; [exact EP|]. split; [exact EQ|]. split; [exact GQ|].
  apply not_true_is_false. intros H. apply geq_trig in GQ. apply geq_trig in H. destruct GQ as [_ [_ [G _]]]. destruct H as [_ [_ [H _]]].
  rewrite <- G in H. change (tco (pt P)) with c in H. change (tco (pt P')) with (touch c) in H.
  apply (f_equal (fun l => Re (nth 0 l C0))) in H. cbn in H. lra.
Qed.
Print Assumptions C208_called_refuted.

(** not so: the given values are always taken: an imaginary part that is small but not zero is dropped from the values *)
Theorem C208_nearly_real_refuted : exists v P, (1 <= length v)%nat /\ pfun_of_values v 0 1 = Some P /\ exists y, pvalue P 0 y /\ nth 0 v 0%C <> y.
Proof.
  set (z := (1, / 10 ^ 10) : C). exists [z]. eexists. split; [cbn; lia|]. split; [reflexivity|].
  set (P := {| pa := 0; pb := 1; pt := trig_of_values [z] |}). assert (T0 : 0 < / 10 ^ 10) by (apply Rinv_0_lt_compat; apply pow_lt; lra).
  assert (E : tre (trig_of_values [z]) = true).
  { unfold trig_of_values, mk_trig. cbn [tre]. unfold isrealb. cbn [forallb]. rewrite andb_true_r. apply Rleb_true.
    unfold tvscale. rewrite trig_v2c_c2v. unfold teps. cbn [maxmod fold_right]. unfold Im, z. cbn [snd].
    assert (C1 : 1 <= Cmod (1, / 10 ^ 10)). { pose proof (Rmax_Cmod (1, / 10 ^ 10)) as M. cbn [fst snd] in M. pose proof (Rmax_l (Rabs 1) (Rabs (/ 10 ^ 10))) as M1. rewrite Rabs_R1 in M1 at 1. exact (Rle_trans _ _ _ M1 M). }
    set (m := Cmod (1, / 10 ^ 10)) in *. set (t := / 10 ^ 10) in *. clearbody t m. rewrite Rabs_right by lra.
    pose proof (Rmax_r t (Rmax m 0)) as A1. pose proof (Rmax_l m 0) as A2. nra. }
  assert (Hz : map_bwd 0 1 0 = -1) by (unfold map_bwd; field).
  exists (RtoC (horner_real (tco (trig_of_values [z])) (-1))). split.
  - eexists. unfold pcall. cbn [pa pb P pt]. rewrite Hz. unfold ChebModel.Rleb, Rleb. destruct (Rle_dec (-1) (-1)); [|lra]. destruct (Rle_dec (-1) 1); [|lra]. cbn [andb].
    unfold tcall. rewrite E. reflexivity.
  - cbn [nth]. intros H. apply (f_equal Im) in H. unfold z, Im in H. cbn [snd RtoC] in H. lra.
Qed.
Print Assumptions C208_nearly_real_refuted.

(** the case of the values 1, 2, 3 on [0, 6] *)
Theorem C208_case : exists P, pfun_of_values [RtoC 1; RtoC 2; RtoC 3] 0 6 = Some P /\ pvalue P 0 (RtoC 1) /\ pvalue P 2 (RtoC 2) /\ pvalue P 4 (RtoC 3) /\ pvalue P 6 (RtoC 1) /\
  exists Q, pfun_eval (pfun_repr (fun z => z) P) = Some Q /\ geq (GT P) (GT Q) = true.
Proof.
  set (v := [RtoC 1; RtoC 2; RtoC 3]).
  assert (HV : all_real v) by (intros z [<-|[<-|[<-|[]]]]; reflexivity).
  destruct (C208_interpolates v 0 6) as [P [E [HP [_ [_ [L [H HB]]]]]]]; [cbn; lia|lra|left; exact HV|]. exists P. split; [exact E|].
  assert (E0 : ept 0 6 (length v) 0 = 0) by (unfold ept; cbn; field). assert (E1 : ept 0 6 (length v) 1 = 2) by (unfold ept; cbn; field). assert (E2 : ept 0 6 (length v) 2 = 4) by (unfold ept; cbn; field).
  split; [rewrite <- E0 at 1; apply (H 0%nat); cbn; lia|]. split; [rewrite <- E1 at 1; apply (H 1%nat); cbn; lia|]. split; [rewrite <- E2; apply (H 2%nat); cbn; lia|]. split; [exact HB|].
  apply C208_equal; [exact HP|rewrite L; cbn; lia|]. left. rewrite eval_some in E by (cbn; lia). apply (f_equal (fun o => match o with Some p => tre (pt p) | None => true end)) in E.
  cbn [pt] in E. rewrite <- E. apply of_real; [cbn; lia|exact HV].
Qed.
Print Assumptions C208_case.
