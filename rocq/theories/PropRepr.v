(** C207: functions from arrays of values, and reading back repr. *)
From Coq Require Import Reals ZArith List Arith Bool Lia Lra.
From Verif Require Import Base ToolsProofs ChebSpec ChebMath ChebModel ChebModel2 ChebEval ChebDct ChebChop ChebObj ChebOps ChebOps2 ChebArith ChebConstr ChebRefute FunModel NormThm DivModel DivProofs TrigModel FunTrig PropCheb EqModel PropEq ReprModel.
Import ListNotations.
Open Scope R_scope.

(** the number below which the last coefficients may be dropped *)
Definition small : R := Rpower eps_default (2 / 5).
Lemma small_pos : 0 < small. Proof. apply exp_pos. Qed.

(** the value of column j of F at the point x of its domain *)
Definition value (F : Fun) (j : nat) (x y : R) : Prop := exists A, fun_call F [x] = Some A /\ nth 0 (nth j A []) 0 = y.

(** point i of n Chebyshev points on [a, b], from left to right *)
Definition cpt (a b : R) (n i : nat) : R :=
  if Nat.eqb n 1 then (a + b) / 2 else (a + b) / 2 - (b - a) / 2 * cos (PI * INR i / INR (n - 1)).

Lemma rect_polyfit n V : rect n V -> rect n (polyfit V).
Proof. intros H. apply (ChebObj.rect_map n n polyfit1 V H); [apply H|]. intros c Hc. rewrite polyfit1_length. exact Hc. Qed.
Lemma rect_polyval n V : rect n V -> rect n (polyval V).
Proof. intros H. apply (ChebObj.rect_map n n polyval1 V H); [apply H|]. intros c Hc. rewrite polyval1_length by (destruct H; lia). exact Hc. Qed.

Lemma init_simp n A h : rect n A -> exists K f, (1 <= K <= n + 1)%nat /\
  cheb_init A eps_default h maxLength_default false true = Some f /\ coeffs f = prolong A (Z.of_nat K) /\ eps f = eps_default /\ hscale f = h /\
  (forall j k, (K <= k)%nat -> Rabs (nth k (nth j A []) 0) <= small).
Proof.
  intros HR. unfold cheb_init. assert (H1 := rect_nrows n A HR). assert (H2 := rect_cols n A HR).
  destruct (Nat.eqb_spec (nrows A * length A) 0) as [E|E]; [destruct HR as [Hn _]; nia|].
  destruct (happy_total A eps_default h) as [[b k] Eh]; [apply HR|]. rewrite Eh. cbn [option_map fst andb].
  destruct b.
  - destruct (simplify_coeffs_spec n A eps_default HR) as [K [HK [EK HT]]]. rewrite EK. cbn [option_map].
    exists K. eexists. split; [exact HK|]. split; [reflexivity|]. cbn [coeffs eps hscale]. repeat split. intros j q Hq. now apply HT; [apply eps_default_range|].
  - exists n. eexists. destruct HR as [Hn [HA F]]. split; [lia|]. split; [reflexivity|]. cbn [coeffs eps hscale]. repeat split.
    + unfold prolong. rewrite <- (map_id A) at 1. apply map_ext_in. intros c Hc.
      rewrite Forall_forall in F. specialize (F c Hc). symmetry. apply list_ext with 0; [rewrite prolong1_length, Nat2Z.id; lia|].
      intros i Hi. rewrite prolong1_length, Nat2Z.id in Hi. apply prolong1_nth. rewrite Nat2Z.id; lia.
    + intros j q Hq. rewrite nth_overflow; [rewrite Rabs_R0; left; apply small_pos|].
      destruct (Nat.lt_ge_cases j (length A)) as [Hj|Hj]; [|rewrite (nth_overflow A) by exact Hj; simpl; lia].
      rewrite Forall_forall in F. rewrite (F (nth j A [])); [exact Hq|apply nth_In; exact Hj].
Qed.

Lemma cpt_fwd a b n i : (1 <= n)%nat -> (i < n)%nat -> cpt a b n i = map_fwd a b (nth i (chebpts_type2_compute n) 0).
Proof.
  intros Hn Hi. unfold cpt. destruct (Nat.eqb_spec n 1) as [->|N1].
  - replace i with 0%nat by lia. unfold map_fwd. replace (nth 0 (chebpts_type2_compute 1) 0) with 0; [field|reflexivity].
  - rewrite chebpts_chebnode by lia. unfold chebnode, map_fwd. field.
Qed.
Lemma bwd_fwd a b y : a < b -> map_bwd a b (map_fwd a b y) = y.
Proof. intros H. unfold map_bwd, map_fwd. field. lra. Qed.
Lemma fwd_bwd a b x : a < b -> map_fwd a b (map_bwd a b x) = x.
Proof. intros H. unfold map_bwd, map_fwd. field. lra. Qed.

(** what the constructor makes of an array, on the reference interval *)
Lemma of_values_spec n V a b : rect n V -> exists F, fun_of_values V a b = Some F /\ wf (onefun F) /\ dom0 F = a /\ dom1 F = b /\
  ncols (onefun F) = length V /\ (1 <= len (onefun F) <= n + 1)%nat /\ eps (onefun F) = eps_default /\
  coeffs (onefun F) = prolong (polyfit V) (Z.of_nat (len (onefun F))) /\
  (forall j x, (j < length V)%nat -> -1 <= x <= 1 -> Rabs (ev (onefun F) j x - evalT (polyfit1 (nth j V [])) x) <= INR (n - len (onefun F)) * small).
Proof.
  intros HR. assert (HP := rect_polyfit n V HR).
  destruct (init_simp n (polyfit V) (fun_hscale a b) HP) as [K [f [HK [E [EC [Ee [_ HT]]]]]]].
  unfold fun_of_values, cheb_of_values. rewrite E. cbn [option_map]. eexists. split; [reflexivity|]. cbn [onefun dom0 dom1].
  assert (RC : rect K (coeffs f)) by (rewrite EC; apply (rect_prolong n); [exact HP|lia]).
  assert (LK : len f = K) by (apply rect_len; exact RC).
  assert (LP : length (polyfit V) = length V) by (unfold polyfit; apply map_length).
  split; [eexists; exact RC|]. split; [reflexivity|]. split; [reflexivity|].
  split; [unfold ncols; rewrite EC; unfold prolong, polyfit; rewrite !map_length; reflexivity|].
  rewrite LK. split; [exact HK|]. split; [exact Ee|]. split; [exact EC|]. intros j x Hj Hx.
  unfold ev. rewrite EC, nth_prolong by lia.
  assert (EN : nth j (polyfit V) [] = polyfit1 (nth j V [])).
  { unfold polyfit. rewrite (nth_indep _ [] (polyfit1 [])) by (rewrite map_length; exact Hj). apply map_nth. }
  assert (LN : length (nth j (polyfit V) []) = n) by (apply (rect_nth n); [exact HP|lia]).
  rewrite <- EN, Rabs_minus_sym, <- LN at 1. apply evalT_trunc_err; [exact Hx|left; apply small_pos|]. intros k Hk. now apply HT.
Qed.

Lemma of_values_value F j x : wf (onefun F) -> dom0 F < dom1 F -> dom0 F <= x <= dom1 F -> (j < ncols (onefun F))%nat ->
  value F j x (ev (onefun F) j (map_bwd (dom0 F) (dom1 F) x)).
Proof. intros. now apply fun_call_one. Qed.
Lemma value_fun F j x y z : value F j x y -> value F j x z -> y = z.
Proof. intros [A [E1 <-]] [B [E2 <-]]. congruence. Qed.

(** C207: a function built from n values on [a, b] takes the given values at the n Chebyshev points of [a, b],
    exactly if it kept n coefficients, otherwise up to [small] for each coefficient that was dropped *)
Theorem C207_interpolates : forall n V a b, rect n V -> a < b ->
  exists F, fun_of_values V a b = Some F /\ wf (onefun F) /\ dom0 F = a /\ dom1 F = b /\ ncols (onefun F) = length V /\ (1 <= len (onefun F) <= n + 1)%nat /\
    forall i j, (i < n)%nat -> (j < length V)%nat ->
      exists y, value F j (cpt a b n i) y /\ Rabs (y - nth i (nth j V []) 0) <= INR (n - len (onefun F)) * small.
Proof.
  intros n V a b HR Hab. destruct (of_values_spec n V a b HR) as [F [E [W [D0 [D1 [NC [L [_ [_ H]]]]]]]]].
  exists F. do 6 (split; [assumption|]). intros i j Hi Hj.
  assert (Hn : (1 <= n)%nat) by apply HR. set (t := nth i (chebpts_type2_compute n) 0). assert (Ht : -1 <= t <= 1) by apply chebpts_range.
  exists (ev (onefun F) j t). split.
  - replace t with (map_bwd (dom0 F) (dom1 F) (cpt a b n i)) by (rewrite D0, D1, cpt_fwd by lia; apply bwd_fwd; exact Hab).
    apply of_values_value; [exact W|lra| |lia]. rewrite D0, D1, cpt_fwd by lia. apply fwd_in; assumption.
  - replace (nth i (nth j V []) 0) with (evalT (polyfit1 (nth j V [])) t); [apply H; assumption|].
    assert (LN := rect_nth n V j HR Hj). transitivity (nth i (polyval1 (polyfit1 (nth j V []))) 0).
    + rewrite polyval1_spec by (rewrite polyfit1_length; lia). rewrite polyfit1_length, LN. reflexivity.
    + rewrite polyval_polyfit by lia. reflexivity.
Qed.
Print Assumptions C207_interpolates.

Lemma spanT_powx k n : (k < n)%nat -> spanT n (fun x => x ^ k).
Proof.
  intros H. apply (spanT_mono (k * (2 - 1) + 1)); [lia|]. apply (ChebMath.spanT_ext _ (fun x => T 1 x ^ k)); [intros x; f_equal; reflexivity|].
  apply spanT_pow; [lia|]. apply spanT_T. lia.
Qed.

(** C207: values of polynomials of degree below n (one per column, q j k the coefficient of x^k) give the polynomials back *)
Theorem C207_polynomials : forall n V a b (q : nat -> nat -> R), rect n V -> a < b ->
  (forall i j, (i < n)%nat -> (j < length V)%nat -> nth i (nth j V []) 0 = rsum n (fun k => q j k * cpt a b n i ^ k)) ->
  exists F, fun_of_values V a b = Some F /\
    forall j x, (j < length V)%nat -> a <= x <= b -> exists y, value F j x y /\ Rabs (y - rsum n (fun k => q j k * x ^ k)) <= INR (n - len (onefun F)) * small.
Proof.
  intros n V a b q HR Hab HV. destruct (of_values_spec n V a b HR) as [F [E [W [D0 [D1 [NC [L [_ [_ H]]]]]]]]].
  exists F. split; [exact E|]. intros j x Hj Hx. assert (Hn : (1 <= n)%nat) by apply HR.
  set (t := map_bwd a b x). assert (Ht : -1 <= t <= 1) by (apply (FunTrigProofs.bwd_in a b x Hab); exact Hx).
  exists (ev (onefun F) j t). split.
  - unfold t. rewrite <- D0, <- D1. apply of_values_value; [exact W|lra|lra|lia].
  - set (p := fun z => rsum n (fun k => q j k * map_fwd a b z ^ k)).
    assert (SP : spanT n p).
    { unfold p. apply (spanT_rsum n n (fun k z => q j k * map_fwd a b z ^ k)). intros k Hk. apply spanT_scal.
      apply (ChebMath.spanT_ext _ (fun z => (fun u => u ^ k) ((b - a) / 2 * z + (a + b) / 2))); [intros z; cbv beta; f_equal; unfold map_fwd; field|].
      apply (spanT_affine n (fun u => u ^ k)). now apply spanT_powx. }
    replace (rsum n (fun k => q j k * x ^ k)) with (evalT (polyfit1 (nth j V [])) t); [apply H; assumption|].
    replace (nth j V []) with (mk n (fun i => p (nth i (chebpts_type2_compute n) 0))).
    + rewrite (polyfit_span n p Hn SP). unfold p, t. rewrite fwd_bwd by exact Hab. reflexivity.
    + apply list_ext with 0; [rewrite mk_length; symmetry; now apply rect_nth|]. rewrite mk_length. intros i Hi. rewrite nth_mk by exact Hi.
      rewrite HV by assumption. unfold p. apply rsum_ext. intros k _. now rewrite cpt_fwd by lia.
Qed.
Print Assumptions C207_polynomials.

(** the case where a coefficient of the last place is not small: nothing is dropped *)
Theorem C207_exact : forall n V a b j (q : nat -> R), rect n V -> (2 <= n)%nat -> a < b -> (j < length V)%nat ->
  (forall i, (i < n)%nat -> nth i (nth j V []) 0 = rsum n (fun k => q k * cos (INR k * (PI * INR (n - 1 - i) / INR (n - 1))))) ->
  Rabs (q (n - 1)%nat) > small ->
  exists F, fun_of_values V a b = Some F /\ (n <= len (onefun F))%nat /\
    forall i j, (i < n)%nat -> (j < length V)%nat -> value F j (cpt a b n i) (nth i (nth j V []) 0).
Proof.
  intros n V a b j q HR Hn Hab Hj HV Hq.
  destruct (of_values_spec n V a b HR) as [F [E [W [D0 [D1 [NC [L [_ [EC H]]]]]]]]].
  destruct (init_simp n (polyfit V) (fun_hscale a b) (rect_polyfit n V HR)) as [K [f [HK [E' [EC' [_ [_ HT]]]]]]].
  assert (EF : onefun F = f).
  { unfold fun_of_values, cheb_of_values in E. rewrite E' in E. cbn [option_map] in E. now injection E as <-. }
  assert (LK : len f = K).
  { apply rect_len. rewrite EC'. apply (rect_prolong n); [now apply rect_polyfit|lia]. }
  assert (LL : (n <= len (onefun F))%nat).
  { rewrite EF, LK. destruct (Nat.le_gt_cases n K) as [G|G]; [exact G|exfalso].
    specialize (HT j (n - 1)%nat ltac:(lia)).
    assert (EN : nth j (polyfit V) [] = polyfit1 (nth j V [])).
    { unfold polyfit. rewrite (nth_indep _ [] (polyfit1 [])) by (rewrite map_length; exact Hj). apply map_nth. }
    rewrite EN in HT.
    assert (EV : nth j V [] = polyval1 (mk n q)).
    { assert (PL : length (polyval1 (mk n q)) = n) by (rewrite polyval1_length; rewrite mk_length; lia).
      apply list_ext with 0; [rewrite PL; now apply rect_nth|]. rewrite (rect_nth n V j HR Hj). intros i Hi. rewrite HV by exact Hi.
      rewrite polyval1_spec by (rewrite mk_length; lia). rewrite mk_length. unfold evalT. rewrite mk_length. apply rsum_ext. intros k Hk.
      rewrite nth_mk by exact Hk. f_equal. rewrite chebpts_nth by lia. now rewrite T_cos. }
    rewrite EV, polyfit_polyval in HT by (rewrite mk_length; lia). rewrite nth_mk in HT by lia. lra. }
  exists F. split; [exact E|]. split; [exact LL|]. intros i l Hi Hl.
  destruct (C207_interpolates n V a b HR Hab) as [F' [E2 [_ [_ [_ [_ [_ HI]]]]]]]. assert (F' = F) by congruence. subst F'.
  destruct (HI i l Hi Hl) as [y [Vy By]]. replace (n - len (onefun F))%nat with 0%nat in By by lia. cbn [INR] in By. rewrite Rmult_0_l in By.
  assert (Z := Rabs_pos (y - nth i (nth l V []) 0)). assert (Z1 : Rabs (y - nth i (nth l V []) 0) = 0) by lra.
  destruct (Req_dec (y - nth i (nth l V []) 0) 0) as [Z2|Z2]; [|apply Rabs_no_R0 in Z2; lra].
  replace (nth i (nth l V []) 0) with y by lra. exact Vy.
Qed.
Print Assumptions C207_exact.

Lemma np_repr_some rnd A : (nrows A * length A <= 1000)%nat -> np_repr rnd A = Some (map (map rnd) A).
Proof. intros H. unfold np_repr. apply Nat.leb_le in H. now rewrite H. Qed.
Lemma rect_rnd n (rnd : R -> R) A : rect n A -> rect n (map (map rnd) A).
Proof. intros H. apply (ChebObj.rect_map n n (map rnd) A H); [apply H|]. intros c Hc. now rewrite map_length. Qed.

(** C207: repr can be read back exactly if the function has at most 1000 coefficients *)
Theorem C207_readable : forall rnd F, wf (onefun F) ->
  ((exists G, fun_eval (fun_repr rnd F) = Some G) <-> (len (onefun F) * ncols (onefun F) <= 1000)%nat).
Proof.
  intros rnd F W. assert (HR := rect_polyval _ _ (wf_rect _ W)). assert (N1 := rect_nrows _ _ HR).
  assert (N2 : length (polyval (coeffs (onefun F))) = ncols (onefun F)) by (unfold polyval; apply map_length).
  split.
  - intros [G E]. unfold fun_eval, fun_repr, np_repr in E. cbn [fst snd] in E. rewrite N1, N2 in E.
    destruct (Nat.leb_spec (len (onefun F) * ncols (onefun F)) 1000) as [H|H]; [exact H|discriminate].
  - intros H. unfold fun_eval, fun_repr. cbn [fst snd]. rewrite np_repr_some by (rewrite N1, N2; exact H).
    destruct (of_values_spec _ _ (rnd (dom0 F)) (rnd (dom1 F)) (rect_rnd _ rnd _ HR)) as [G [E _]]. exists G. exact E.
Qed.
Print Assumptions C207_readable.

(** C207: what is read back when every printed value is within d of the value, and the ends of the domain are printed exactly:
    the same shape up to the number of coefficients, and close to F on the whole domain *)
Theorem C207_read_back : forall rnd F d, wf (onefun F) -> dom0 F < dom1 F -> (len (onefun F) * ncols (onefun F) <= 1000)%nat ->
  rnd (dom0 F) = dom0 F -> rnd (dom1 F) = dom1 F -> 0 <= d ->
  (forall i j v, (i < len (onefun F))%nat -> (j < ncols (onefun F))%nat -> value F j (cpt (dom0 F) (dom1 F) (len (onefun F)) i) v -> Rabs (rnd v - v) <= d) ->
  exists G, fun_eval (fun_repr rnd F) = Some G /\ wf (onefun G) /\ dom0 G = dom0 F /\ dom1 G = dom1 F /\ ncols (onefun G) = ncols (onefun F) /\
    (len (onefun G) <= len (onefun F) + 1)%nat /\
    forall j x, (j < ncols (onefun F))%nat -> dom0 F <= x <= dom1 F ->
      exists y z, value F j x y /\ value G j x z /\ Rabs (z - y) <= INR (len (onefun F)) * (2 * d) + INR (len (onefun F) - len (onefun G)) * small.
Proof.
  intros rnd F d W Hab Hs R0 R1 Hd Hr. assert (HRc := wf_rect _ W). assert (HR := rect_polyval _ _ HRc). assert (N1 := rect_nrows _ _ HR).
  assert (Hn := len_pos _ W). set (n := len (onefun F)) in *.
  assert (N2 : length (polyval (coeffs (onefun F))) = ncols (onefun F)) by (unfold polyval; apply map_length).
  unfold fun_eval, fun_repr. cbn [fst snd]. rewrite np_repr_some by (rewrite N1, N2; exact Hs). rewrite R0, R1.
  set (V := map (map rnd) (polyval (coeffs (onefun F)))).
  assert (LV : length V = ncols (onefun F)) by (unfold V; rewrite map_length; exact N2).
  destruct (of_values_spec n V (dom0 F) (dom1 F)) as [G [E [WG [D0 [D1 [NC [L [_ [_ H]]]]]]]]]; [apply rect_rnd; exact HR|].
  exists G. split; [exact E|]. split; [exact WG|]. split; [exact D0|]. split; [exact D1|]. split; [lia|]. split; [lia|].
  intros j x Hj Hx. set (t := map_bwd (dom0 F) (dom1 F) x).
  assert (Ht : -1 <= t <= 1) by (apply (FunTrigProofs.bwd_in _ _ x Hab); exact Hx).
  exists (ev (onefun F) j t), (ev (onefun G) j t). split; [now apply of_values_value|]. split.
  { unfold t. rewrite <- D0, <- D1. apply of_values_value; [exact WG|lra|lra|lia]. }
  set (c := nth j (coeffs (onefun F)) []). assert (Lc : length c = n) by (unfold c; apply col_len; assumption).
  assert (Ej : nth j V [] = map rnd (polyval1 c)).
  { unfold V, polyval. rewrite map_map. unfold c. rewrite (nth_indep _ [] (map rnd (polyval1 []))) by (rewrite map_length; exact Hj).
    apply (map_nth (fun c => map rnd (polyval1 c))). }
  assert (PL : length (polyval1 c) = n) by (rewrite polyval1_length; lia).
  assert (HS : Rabs (evalT (polyfit1 (nth j V [])) t - ev (onefun F) j t) <= INR n * (2 * d)).
  { apply (small_at_nodes n (fun z => evalT (polyfit1 (nth j V [])) z - ev (onefun F) j z)); [exact Hn| |exact Hd| |exact Ht].
    - apply (ChebMath.spanT_ext _ (fun z => evalT (polyfit1 (nth j V [])) z + -1 * evalT c z)); [intros z; unfold ev, c; ring|].
      apply spanT_plus; [apply spanT_evalT; rewrite polyfit1_length, Ej, map_length; lia|]. apply spanT_scal. apply spanT_evalT. lia.
    - intros i Hi. set (u := nth i (chebpts_type2_compute n) 0).
      assert (E1 : evalT (polyfit1 (nth j V [])) u = rnd (ev (onefun F) j u)).
      { rewrite Ej. transitivity (nth i (polyval1 (polyfit1 (map rnd (polyval1 c)))) 0).
        - rewrite polyval1_spec by (rewrite polyfit1_length, map_length; lia). rewrite polyfit1_length, map_length, PL. reflexivity.
        - rewrite polyval_polyfit by (rewrite map_length; lia). rewrite nth_map_R by lia. f_equal.
          rewrite polyval1_spec by lia. rewrite Lc. reflexivity. }
      rewrite E1. apply (Hr i j); [exact Hi|exact Hj|].
      replace u with (map_bwd (dom0 F) (dom1 F) (cpt (dom0 F) (dom1 F) n i)) by (rewrite cpt_fwd by lia; apply bwd_fwd; exact Hab).
      apply of_values_value; [exact W|exact Hab| |exact Hj]. rewrite cpt_fwd by lia. apply fwd_in; [exact Hab|apply chebpts_range]. }
  specialize (H j t ltac:(lia) Ht).
  replace (ev (onefun G) j t - ev (onefun F) j t) with ((evalT (polyfit1 (nth j V [])) t - ev (onefun F) j t) + (ev (onefun G) j t - evalT (polyfit1 (nth j V [])) t)) by ring.
  eapply Rle_trans; [apply Rabs_triang|]. lra.
Qed.
Print Assumptions C207_read_back.

(** C207: values printed exactly: the function read back compares equal to F if and only if it has as many coefficients *)
Theorem C207_equal : forall F, wf (onefun F) -> (len (onefun F) * ncols (onefun F) <= 1000)%nat ->
  exists G, fun_eval (fun_repr (fun v => v) F) = Some G /\ (geq (GC F) (GC G) = true <-> len (onefun G) = len (onefun F)).
Proof.
  intros F W Hs. assert (HRc := wf_rect _ W). assert (HR := rect_polyval _ _ HRc). assert (N1 := rect_nrows _ _ HR). assert (Hn := len_pos _ W).
  assert (N2 : length (polyval (coeffs (onefun F))) = ncols (onefun F)) by (unfold polyval; apply map_length).
  unfold fun_eval, fun_repr. cbn [fst snd]. rewrite np_repr_some by (rewrite N1, N2; exact Hs).
  destruct (of_values_spec _ _ (dom0 F) (dom1 F) (rect_rnd _ (fun v => v) _ HR)) as [G [E [WG [D0 [D1 [_ [_ [_ [EC _]]]]]]]]].
  exists G. split; [exact E|]. rewrite geq_cheb, D0, D1. split.
  - intros [_ [_ H]]. unfold len. now rewrite H.
  - intros H. split; [reflexivity|]. split; [reflexivity|]. rewrite EC, H. set (n := len (onefun F)) in *.
    rewrite (map_ext _ (fun l : list R => l)) by apply map_id. rewrite map_id.
    assert (EP : polyfit (polyval (coeffs (onefun F))) = coeffs (onefun F)).
    { unfold polyfit, polyval. rewrite map_map. rewrite <- (map_id (coeffs (onefun F))) at 2. apply map_ext_in. intros c Hc. apply polyfit_polyval.
      destruct HRc as [_ [_ FA]]. rewrite Forall_forall in FA. rewrite (FA c Hc). exact Hn. }
    rewrite EP. unfold prolong. rewrite <- (map_id (coeffs (onefun F))) at 1. apply map_ext_in. intros c Hc.
    destruct HRc as [_ [_ FA]]. rewrite Forall_forall in FA. specialize (FA c Hc).
    apply list_ext with 0; [rewrite prolong1_length, Nat2Z.id; exact FA|]. intros k Hk. symmetry. apply prolong1_nth. rewrite Nat2Z.id. lia.
Qed.
Print Assumptions C207_equal.

(** not so: reading back the exact text always gives an equal function *)
Theorem C207_equal_refuted : exists F, wf (onefun F) /\ dom0 F < dom1 F /\ eps (onefun F) = eps_default /\
  exists G, fun_eval (fun_repr (fun v => v) F) = Some G /\ geq (GC F) (GC G) = false.
Proof.
  set (F := mkFun (mkCheb [[0; 0]] eps_default 1 maxLength_default true) (-1) 1). exists F.
  assert (HR : rect 2 [[0; 0]]) by (split; [lia|]; split; [discriminate|]; repeat constructor).
  assert (W : wf (onefun F)) by (eexists; exact HR).
  split; [exact W|]. split; [cbn; lra|]. split; [reflexivity|].
  destruct (C207_equal F W) as [G [E H]]; [cbn; lia|]. exists G. split; [exact E|].
  destruct (geq (GC F) (GC G)) eqn:Q; [exfalso|reflexivity]. destruct H as [H _]. specialize (H eq_refl).
  assert (PV : polyval [[0; 0]] = [[0; 0]]).
  { unfold polyval. cbn [map]. f_equal. apply list_ext with 0; [reflexivity|]. intros k Hk. rewrite polyval1_spec by (cbn in *; lia).
    unfold evalT. cbn [length rsum nth]. destruct k as [|[|[|]]]; cbn [nth]; ring. }
  assert (PF : polyfit [[0; 0]] = [[0; 0]]).
  { rewrite <- PV at 1. unfold polyfit, polyval. cbn [map]. now rewrite polyfit_polyval by (cbn; lia). }
  assert (SC : forall c tol, (17 <= length c)%nat -> (forall k, nth k c 0 = 0) -> standardChop c tol = Some 0%nat) by exact standardChop_zero.
  assert (Z : forall N k, nth k (prolong1 [0; 0] (Z.of_nat N)) 0 = 0).
  { intros N k. destruct (Nat.lt_ge_cases k N) as [G1|G1].
    - rewrite prolong1_nth by (rewrite Nat2Z.id; lia). destruct k as [|[|k]]; [reflexivity|reflexivity|]. cbn. now destruct k.
    - apply nth_overflow. rewrite prolong1_length, Nat2Z.id. exact G1. }
  unfold fun_eval, fun_repr in E. cbn [fst snd onefun F coeffs dom0 dom1] in E. rewrite PV in E. rewrite np_repr_some in E by (cbn; lia).
  rewrite (map_ext _ (fun l : list R => l)) in E by apply map_id. rewrite map_id in E.
  unfold fun_of_values, cheb_of_values in E. rewrite PF in E. unfold cheb_init in E. change (Nat.eqb (nrows [[0; 0]] * length [[0; 0]]) 0) with false in E. cbv iota in E.
  assert (HH : exists k, happy [[0; 0]] eps_default (fun_hscale (-1) 1) = Some (true, k)).
  { unfold happy, happiness_check. change (nrows [[0; 0]]) with 2%nat. change (Nat.ltb 2 17) with true. cbv iota zeta.
    change 17%Z with (Z.of_nat 17). rewrite polyfit_polyval_prolong by lia. cbn [map prolong happy_loop].
    rewrite SC; [|rewrite prolong1_length, Nat2Z.id; lia|apply Z]. cbn [Nat.ltb Nat.leb]. eexists. reflexivity. }
  destruct HH as [k HH]. rewrite HH in E. cbn [option_map fst andb] in E.
  unfold simplify_coeffs in E. change (nrows [[0; 0]]) with 2%nat in E.
  rewrite polyfit_polyval_prolong in E by lia.
  cbn [map prolong chop_max] in E. rewrite SC in E; [|rewrite prolong1_length, Nat2Z.id; lia|apply Z]. cbn [Nat.max Nat.min] in E. cbv zeta in E. cbn [option_map map] in E.
  assert (LG : len (onefun G) = 1%nat).
  { assert (EG := f_equal (fun o : option Fun => match o with Some g => nrows (coeffs (onefun g)) | None => 0%nat end) E).
    cbv beta iota in EG. unfold len. rewrite <- EG. reflexivity. }
  rewrite LG in H. unfold len, F in H. cbn in H. lia.
Qed.
Print Assumptions C207_equal_refuted.

(** not so: what repr says is the whole function: the tolerance is not part of it *)
Theorem C207_tolerance_refuted : exists F, wf (onefun F) /\ dom0 F < dom1 F /\ 0 < eps (onefun F) < 1 /\
  exists G, fun_eval (fun_repr (fun v => v) F) = Some G /\ eps (onefun G) < eps (onefun F).
Proof.
  set (F := mkFun (mkCheb [[0; 0]] (/ 2) 1 maxLength_default true) (-1) 1). exists F.
  assert (HR : rect 2 [[0; 0]]) by (split; [lia|]; split; [discriminate|]; repeat constructor).
  assert (W : wf (onefun F)) by (eexists; exact HR). split; [exact W|]. split; [cbn; lra|]. split; [cbn [eps onefun F]; lra|].
  assert (HR' := rect_polyval _ _ (wf_rect _ W)). assert (N1 := rect_nrows _ _ HR').
  unfold fun_eval, fun_repr. cbn [fst snd]. rewrite np_repr_some by (rewrite N1; cbn; lia).
  destruct (of_values_spec _ _ (dom0 F) (dom1 F) (rect_rnd _ (fun v => v) _ HR')) as [G [E [_ [_ [_ [_ [_ [Ee _]]]]]]]].
  exists G. split; [exact E|]. rewrite Ee. unfold F. cbn [eps onefun]. unfold eps_default. apply Rinv_lt_contravar.
  - apply Rmult_lt_0_compat; [lra|]. apply pow_lt. lra.
  - rewrite <- (pow_1 2) at 1. apply Rlt_pow; [lra|lia].
Qed.
Print Assumptions C207_tolerance_refuted.

(** the case n = 2, values 1 and 5 on [0, 2]: the straight line *)
Theorem C207_case : exists F, fun_of_values [[1; 5]] 0 2 = Some F /\ (2 <= len (onefun F))%nat /\ value F 0 0 1 /\ value F 0 2 5.
Proof.
  assert (S1 : small < 1) by (unfold small; apply rpow_eps_lt1; apply eps_default_range).
  destruct (C207_exact 2 [[1; 5]] 0 2 0 (fun k => match k with 0%nat => 3 | _ => 2 end)) as [F [E [L H]]].
  - split; [lia|]. split; [discriminate|]. repeat constructor.
  - lia.
  - lra.
  - cbn. lia.
  - intros i Hi. assert (C1 : cos (1 * (PI * 1 / 1)) = -1) by (replace (1 * (PI * 1 / 1)) with PI by field; apply cos_PI).
    assert (C0 : cos (1 * (PI * 0 / 1)) = 1) by (replace (1 * (PI * 0 / 1)) with 0 by field; apply cos_0).
    destruct i as [|[|i]]; [| |lia]; cbn [rsum nth Nat.sub INR]; rewrite Rmult_0_l, cos_0; [rewrite C1|rewrite C0]; ring.
  - cbn [Nat.sub]. rewrite Rabs_right by lra. lra.
  - exists F. split; [exact E|]. split; [exact L|]. split.
    + replace 0 with (cpt 0 2 2 0) at 1; [apply (H 0%nat 0%nat); cbn; lia|].
      unfold cpt. cbn [Nat.eqb INR Nat.sub]. replace (PI * 0 / 1) with 0 by field. rewrite cos_0. field.
    + replace 2 with (cpt 0 2 2 1) at 1; [apply (H 1%nat 0%nat); cbn; lia|].
      unfold cpt. cbn [Nat.eqb INR Nat.sub]. replace (PI * 1 / 1) with PI by field. rewrite cos_PI. field.
Qed.
Print Assumptions C207_case.
