(** Correctness of chebtech multiplication and hstack. *)
From Coq Require Import Reals ZArith List Arith Lia Lra Bool.
From Coquelicot Require Import Coquelicot.
From Verif Require Import Base ChebSpec ChebMath ChebModel ChebEval CosSums ChebDct ChebCalc ChebMul ChebChop ChebObj ChebOps ChebOps2 ChebArith.
Import ListNotations.
Open Scope R_scope.

Lemma bcast_spec n m A B : rect n A -> rect m B ->
  (length A = length B \/ length A = 1%nat \/ length B = 1%nat) ->
  exists F G, bcast A B = Some (F, G) /\ rect n F /\ rect m G /\
    length F = Nat.max (length A) (length B) /\ length G = Nat.max (length A) (length B) /\
    forall j, (j < Nat.max (length A) (length B))%nat ->
      nth j F [] = nth (bc A j) A [] /\ nth j G [] = nth (bc B j) B [].
Proof.
  intros RA RB Hl. assert (PA := rect_cols n A RA). assert (PB := rect_cols m B RB).
  unfold bcast. destruct (Nat.eqb_spec (length A) (length B)) as [E|E].
  - exists A, B. split; [reflexivity|]. rewrite <- E, Nat.max_id. split; [exact RA|]. split; [exact RB|].
    split; [reflexivity|]. split; [reflexivity|]. intros j Hj. unfold bc. rewrite <- E.
    destruct (Nat.eqb_spec (length A) 1) as [E1|E1]; [|split; reflexivity].
    assert (j = 0)%nat as -> by lia. split; reflexivity.
  - destruct A as [|c [|c' A]].
    + simpl in PA. lia.
    + exists (map (fun _ => c) B), B. split; [reflexivity|].
      assert (Lc : length c = n) by (apply (rect_nth n [c] 0 RA); simpl; lia).
      split; [apply (rect_map m n (fun _ => c)); [exact RB|apply RA|intros; exact Lc]|].
      split; [exact RB|]. rewrite map_length. cbn [length]. rewrite Nat.max_r by lia.
      split; [reflexivity|]. split; [reflexivity|]. intros j Hj.
      rewrite (nth_map_col (fun _ => c)) by exact Hj. unfold bc. cbn [length Nat.eqb nth]. split; [reflexivity|].
      destruct (Nat.eqb_spec (length B) 1) as [E1|E1]; [|reflexivity]. simpl in E. lia.
    + destruct B as [|d [|d' B]].
      * simpl in PB. lia.
      * exists (c :: c' :: A), (map (fun _ => d) (c :: c' :: A)). split; [reflexivity|].
        assert (Ld : length d = m) by (apply (rect_nth m [d] 0 RB); simpl; lia).
        split; [exact RA|]. split; [apply (rect_map n m (fun _ => d)); [exact RA|apply RB|intros; exact Ld]|].
        rewrite map_length. cbn [length]. rewrite Nat.max_l by lia. split; [reflexivity|]. split; [reflexivity|].
        intros j Hj. rewrite (nth_map_col (fun _ => d)) by exact Hj. split; reflexivity.
      * cbn [length] in *. lia.
Qed.

Lemma coeff_times_main_spec n m F G : rect n F -> rect m G -> length F = length G ->
  let '(C, pos) := coeff_times_main F G in
  rect (n + m - 1) C /\ length C = length F /\
  (forall j, (j < length F)%nat -> forall x, evalT (nth j C []) x = evalT (nth j F []) x * evalT (nth j G []) x) /\
  (pos = true -> forall j, (j < length F)%nat -> forall x, evalT (nth j F []) x = evalT (nth j G []) x).
Proof.
  intros RF RG HL. unfold coeff_times_main. rewrite (rect_nrows n F RF), (rect_nrows m G RG).
  assert (Pn : (1 <= n)%nat) by apply RF. assert (Pm : (1 <= m)%nat) by apply RG.
  set (F' := map (pad (m - 1)) F). set (G' := map (pad (n - 1)) G).
  set (C := map (fun '(a, b) => coeff_times1 a b) (combine F' G')).
  assert (LF' : length F' = length F) by apply map_length.
  assert (LG' : length G' = length F) by (unfold G'; rewrite map_length; symmetry; exact HL).
  assert (HC : forall j, (j < length F)%nat ->
     nth j C [] = coeff_times1 (pad (length (nth j G []) - 1) (nth j F [])) (pad (length (nth j F []) - 1) (nth j G []))).
  { intros j Hj. unfold C. rewrite (nth_map_combine_gen coeff_times1 F' G' [] []) by lia.
    unfold F', G'. rewrite !nth_map_col by lia. rewrite (rect_nth n F j RF Hj), (rect_nth m G j RG) by lia. reflexivity. }
  assert (LC : length C = length F) by (unfold C; rewrite map_length, combine_length; lia).
  split; [|split; [exact LC|split]].
  - split; [lia|]. split.
    + intros H. rewrite H in LC. assert (H1 := rect_cols n F RF). simpl in LC. lia.
    + apply List.Forall_forall. intros c Hc. apply In_nth with (d := []) in Hc. destruct Hc as [j [Hj <-]].
      rewrite LC in Hj. rewrite HC by exact Hj.
      assert (L1 := rect_nth n F j RF Hj). assert (L2 := rect_nth m G j RG ltac:(lia)).
      rewrite product_length by lia. lia.
  - intros j Hj x. rewrite HC by exact Hj.
    apply product_correct; [rewrite (rect_nth n F j RF Hj)|rewrite (rect_nth m G j RG) by lia]; lia.
  - intros Hpos j Hj x. apply arr_eqb_true in Hpos.
    rewrite <- (pad_eval (m - 1) (nth j F [])), <- (pad_eval (n - 1) (nth j G [])).
    rewrite <- (nth_map_col (pad (m - 1)) F) by exact Hj. rewrite <- (nth_map_col (pad (n - 1)) G) by lia.
    fold F' G'. rewrite Hpos. reflexivity.
Qed.

Lemma polyfit1_polyval_abs c : (1 <= length c)%nat ->
  (forall i, (i < length c)%nat -> 0 <= evalT c (nth i (chebpts_type2_compute (length c)) 0)) ->
  polyfit1 (map Rabs (polyval1 c)) = c.
Proof.
  intros Hc H. rewrite <- (polyfit_polyval c Hc) at 2. f_equal.
  apply list_ext with 0; [apply map_length|]. intros k Hk. rewrite map_length, polyval1_length in Hk.
  rewrite nth_map_R by (rewrite polyval1_length; exact Hk). apply Rabs_right.
  rewrite polyval1_spec by lia. apply Rle_ge, H. exact Hk.
Qed.

Lemma multiply_correct f g : wf f -> wf g -> (2 <= len f)%nat -> (2 <= len g)%nat ->
  (ncols f = ncols g \/ ncols f = 1%nat \/ ncols g = 1%nat) ->
  exists h (p : nat -> list R), multiply f g = Some h /\ wf h /\ ncols h = Nat.max (ncols f) (ncols g) /\
    eps h = Rmax (eps f) (eps g) /\ (1 <= len h <= len f + len g)%nat /\
    forall j, (j < ncols h)%nat ->
      let F := ev f (bc (coeffs f) j) in
      let G := ev g (bc (coeffs g) j) in
      length (p j) = (len f + len g - 1)%nat /\
      (forall x, evalT (p j) x = F x * G x) /\
      (0 < eps h < 1 -> forall k, (len h <= k)%nat -> Rabs (nth k (p j) 0) <= Rpower (eps h) (2 / 5)) /\
      ((len f + len g - 1 <= len h)%nat -> forall x, ev h j x = F x * G x) /\
      ((forall x, ev h j x = rsum (len h) (fun k => nth k (p j) 0 * T k x)) \/
       ((forall x, F x = G x) /\
        forall i, (i < len h)%nat -> let xi := nth i (chebpts_type2_compute (len h)) 0 in
          ev h j xi = Rabs (rsum (len h) (fun k => nth k (p j) 0 * T k xi)))).
Proof.
  intros Hf Hg Lf Lg Hm. unfold multiply. fold (len f) (len g).
  destruct (Nat.eqb_spec (len f) 1) as [E|_]; [lia|]. destruct (Nat.eqb_spec (len g) 1) as [E|_]; [lia|].
  destruct (bcast_spec (len f) (len g) (coeffs f) (coeffs g) (wf_rect f Hf) (wf_rect g Hg) Hm)
    as [F [G [Eb [RF [RG [LF [LG HFG]]]]]]]. rewrite Eb.
  fold (ncols f) (ncols g) in LF, LG, HFG. set (m := Nat.max (ncols f) (ncols g)) in *.
  assert (H := coeff_times_main_spec (len f) (len g) F G RF RG ltac:(lia)).
  destruct (coeff_times_main F G) as [C pos]. destruct H as [RC [LC [HC Hpos]]].
  set (L := (len f + len g - 1)%nat) in *. set (e := Rmax (eps f) (eps g)).
  destruct (simplify_coeffs_spec L C e RC) as [K [HK [Es HT]]]. rewrite Es.
  set (C' := prolong C (Z.of_nat K)).
  assert (RC' : rect K C') by (apply (rect_prolong L); [exact RC|lia]).
  assert (LC' : length C' = m) by (unfold C', prolong; rewrite map_length; lia).
  set (D := if pos then polyfit (map (map Rabs) (polyval C')) else C').
  assert (RD : rect K D).
  { unfold D. destruct pos; [|exact RC']. unfold polyfit, polyval. rewrite !map_map.
    apply (rect_map K); [exact RC'|lia|]. intros c Hc. rewrite polyfit1_length, map_length, polyval1_length. exact Hc. }
  assert (LD : length D = m).
  { unfold D. destruct pos; [unfold polyfit, polyval; rewrite !map_length|]; exact LC'. }
  destruct (cheb_init_some K D e 1 maxLength_default (ishappy f && ishappy g) RD) as [hp [Ei _]].
  exists (mkCheb D e 1 maxLength_default hp), (fun j => nth j C []).
  split; [exact Ei|]. split; [exists K; exact RD|]. split; [exact LD|]. split; [reflexivity|].
  assert (Lh : len (mkCheb D e 1 maxLength_default hp) = K) by (apply (rect_nrows K); exact RD).
  rewrite Lh. unfold ncols at 1. cbn [coeffs eps]. rewrite LD. split; [unfold L in HK; lia|].
  intros j Hj. destruct (HFG j Hj) as [EF EG]. cbv zeta.
  assert (Lj : length (nth j C []) = L) by (apply (rect_nth L C j RC); lia).
  assert (EP : forall x, evalT (nth j C []) x = ev f (bc (coeffs f) j) x * ev g (bc (coeffs g) j) x).
  { intros x. rewrite HC by lia. rewrite EF, EG. reflexivity. }
  assert (EC' : nth j C' [] = prolong1 (nth j C []) (Z.of_nat K)) by (apply nth_prolong; lia).
  assert (LCj : length (nth j C' []) = K) by (apply (rect_nth K C' j RC'); lia).
  assert (ET : forall x, evalT (nth j C' []) x = rsum K (fun k => nth k (nth j C []) 0 * T k x)).
  { intros x. rewrite EC'. apply evalT_prolong_trunc. }
  assert (EFG : pos = true -> forall x, ev f (bc (coeffs f) j) x = ev g (bc (coeffs g) j) x).
  { intros Hp x. assert (Q := Hpos Hp j ltac:(lia) x). rewrite EF, EG in Q. exact Q. }
  split; [exact Lj|]. split; [exact EP|].
  split; [intros He k Hk; apply (HT He j k Hk)|].
  assert (EDj : pos = true -> nth j D [] = polyfit1 (map Rabs (polyval1 (nth j C' [])))).
  { intros ->. unfold D, polyfit, polyval. rewrite !map_map.
    rewrite (nth_map_col (fun c => polyfit1 (map Rabs (polyval1 c)))) by lia. reflexivity. }
  split.
  - intros HKL x. unfold ev at 1. cbn [coeffs].
    assert (Efull : forall y, evalT (nth j C' []) y = ev f (bc (coeffs f) j) y * ev g (bc (coeffs g) j) y).
    { intros y. rewrite EC', prolong1_eval by lia. apply EP. }
    destruct pos eqn:Ep; [|unfold D; apply Efull].
    rewrite (EDj eq_refl), polyfit1_polyval_abs; [apply Efull|lia|].
    intros i Hi. rewrite Efull, (EFG eq_refl). apply Rle_0_sqr.
  - destruct pos eqn:Ep.
    + right. split; [apply EFG; reflexivity|]. intros i Hi. unfold ev. cbn [coeffs].
      rewrite (EDj eq_refl).
      set (v := map Rabs (polyval1 (nth j C' []))).
      assert (Lv : length v = K) by (unfold v; rewrite map_length, polyval1_length; exact LCj).
      replace (evalT (polyfit1 v) (nth i (chebpts_type2_compute K) 0)) with (nth i (polyval1 (polyfit1 v)) 0).
      * rewrite polyval_polyfit by lia. unfold v. rewrite nth_map_R by (rewrite polyval1_length; lia).
        rewrite polyval1_spec by lia. rewrite LCj, ET. reflexivity.
      * rewrite polyval1_spec by (rewrite polyfit1_length; lia). rewrite polyfit1_length, Lv. reflexivity.
    + left. intros x. unfold ev, D. cbn [coeffs]. apply ET.
Qed.

(** error at the grid points, and everywhere unless the operands are equal *)
Lemma multiply_error f g : wf f -> wf g -> (2 <= len f)%nat -> (2 <= len g)%nat ->
  (ncols f = ncols g \/ ncols f = 1%nat \/ ncols g = 1%nat) -> 0 < eps f < 1 -> 0 < eps g < 1 ->
  exists h, multiply f g = Some h /\ ncols h = Nat.max (ncols f) (ncols g) /\
    forall j, (j < ncols h)%nat ->
      let F := ev f (bc (coeffs f) j) in
      let G := ev g (bc (coeffs g) j) in
      let t := INR (len f + len g - 1 - len h) * Rpower (Rmax (eps f) (eps g)) (2 / 5) in
      (forall i, (i < len h)%nat -> let xi := nth i (chebpts_type2_compute (len h)) 0 in
         Rabs (F xi * G xi - ev h j xi) <= t) /\
      ((exists x, F x <> G x) -> forall x, -1 <= x <= 1 -> Rabs (F x * G x - ev h j x) <= t).
Proof.
  intros Hf Hg Lf Lg Hm Ef Eg.
  destruct (multiply_correct f g Hf Hg Lf Lg Hm) as [h [p [E [Wh [Nh [Eh [Lh H]]]]]]].
  exists h. split; [exact E|]. split; [exact Nh|]. intros j Hj. destruct (H j Hj) as [Lp [EP [HT [_ HD]]]].
  cbv zeta. rewrite <- Eh.
  assert (He : 0 < eps h < 1) by (rewrite Eh; unfold Rmax; destruct (Rle_dec _ _); lra).
  assert (ERR : forall x, -1 <= x <= 1 ->
    Rabs (ev f (bc (coeffs f) j) x * ev g (bc (coeffs g) j) x - rsum (len h) (fun k => nth k (p j) 0 * T k x))
      <= INR (len f + len g - 1 - len h) * Rpower (eps h) (2 / 5)).
  { intros x Hx. rewrite <- EP, <- evalT_prolong_trunc, <- Lp.
    apply evalT_trunc_err; [exact Hx|left; apply exp_pos|]. apply HT. exact He. }
  split.
  - intros i Hi. destruct HD as [HD|[HFG HD]].
    + rewrite HD. apply ERR. apply chebpts_range.
    + rewrite HD by exact Hi.
      assert (Q := ERR (nth i (chebpts_type2_compute (len h)) 0) (chebpts_range _ _)).
      rewrite HFG in *. eapply Rle_trans; [|exact Q].
      set (a := rsum _ _). set (b := ev g _ _). assert (Hb : 0 <= b * b) by apply Rle_0_sqr.
      unfold Rabs. repeat destruct Rcase_abs; lra.
  - intros [x0 Hx0] x Hx. destruct HD as [HD|[HFG _]]; [rewrite HD; apply ERR; exact Hx|].
    exfalso. apply Hx0. apply HFG.
Qed.

Lemma hd_col (A : arr) : hd [] A = nth 0 A [].
Proof. destruct A; reflexivity. Qed.

(** multiplication by a constant function *)
Lemma multiply_const_l f g : wf f -> wf g -> len f = 1%nat -> ncols f = 1%nat ->
  exists h, multiply f g = Some h /\ wf h /\ ncols h = ncols g /\ len h = len g /\
    forall j x, (j < ncols g)%nat -> ev h j x = ev f 0 x * ev g j x.
Proof.
  intros Hf Hg Lf Nf. unfold multiply. fold (len f). rewrite Lf, Nat.eqb_refl.
  unfold multiply_array. fold (len f) (ncols f). rewrite Lf, Nf. cbn [Nat.eqb Nat.mul Nat.add].
  destruct (multiply_number_correct g (nth 0 (hd [] (coeffs f)) 0) Hg) as [r [E [H1 [H2 [H3 [_ H4]]]]]].
  exists r. repeat split; try assumption. intros j x Hj. rewrite H4 by exact Hj. f_equal.
  assert (L0 := col_len f 0 Hf ltac:(lia)). unfold ev. rewrite hd_col. unfold evalT. rewrite L0, Lf. cbn [rsum T]. ring.
Qed.

Lemma multiply_const_r f g : wf f -> wf g -> (2 <= len f)%nat -> len g = 1%nat -> ncols g = 1%nat ->
  exists h, multiply f g = Some h /\ wf h /\ ncols h = ncols f /\ len h = len f /\
    forall j x, (j < ncols f)%nat -> ev h j x = ev f j x * ev g 0 x.
Proof.
  intros Hf Hg Lf Lg Ng. unfold multiply. fold (len f) (len g).
  destruct (Nat.eqb_spec (len f) 1); [lia|]. rewrite Lg, Nat.eqb_refl.
  unfold multiply_array. fold (len g) (ncols g). rewrite Lg, Ng. cbn [Nat.eqb Nat.mul Nat.add].
  destruct (multiply_number_correct f (nth 0 (hd [] (coeffs g)) 0) Hf) as [r [E [H1 [H2 [H3 [_ H4]]]]]].
  exists r. repeat split; try assumption. intros j x Hj. rewrite H4 by exact Hj. rewrite Rmult_comm. f_equal.
  assert (L0 := col_len g 0 Hg ltac:(lia)). unfold ev. rewrite hd_col. unfold evalT. rewrite L0, Lg. cbn [rsum T]. ring.
Qed.

(** a constant function with several columns times a non-constant one: always an exception *)
Lemma multiply_const_multi f g : (2 <= len f)%nat -> len g = 1%nat -> (2 <= ncols g)%nat ->
  multiply f g = None /\ multiply g f = None.
Proof.
  intros Lf Lg Ng. unfold multiply, multiply_array, same_shape. fold (len f) (len g) (ncols f) (ncols g).
  destruct (Nat.eqb_spec (len f) 1); [lia|]. rewrite Lg, Nat.eqb_refl.
  destruct (Nat.eqb_spec (1 * ncols g) 1); [lia|]. destruct (Nat.eqb_spec (len f) 1); [lia|].
  rewrite andb_false_r. split; reflexivity.
Qed.

(** ** hstack *)
Definition total_cols (fs : list chebtech) : nat := fold_right (fun f a => (ncols f + a)%nat) 0%nat fs.

Lemma list_max_ge l a : In a l -> (a <= list_max l)%nat.
Proof.
  induction l as [|b l IH]; intros H; [contradiction|]. cbn [list_max fold_right]. fold (list_max l).
  destruct H as [->|H]; [lia|]. specialize (IH H). lia.
Qed.

Lemma hstack_nth fs1 f fs2 n j : (j < ncols f)%nat ->
  nth (total_cols fs1 + j) (flat_map (fun f => prolong (coeffs f) (Z.of_nat n)) (fs1 ++ f :: fs2)) []
  = prolong1 (nth j (coeffs f) []) (Z.of_nat n).
Proof.
  intros Hj. induction fs1 as [|g fs1 IH].
  - cbn [app flat_map total_cols fold_right Nat.add].
    rewrite app_nth1 by (unfold prolong; rewrite map_length; exact Hj). apply nth_prolong. exact Hj.
  - cbn [app flat_map total_cols fold_right]. fold (total_cols fs1).
    rewrite app_nth2 by (unfold prolong; rewrite map_length; unfold ncols; lia).
    unfold prolong at 1. rewrite map_length. fold (ncols g).
    replace (ncols g + total_cols fs1 + j - ncols g)%nat with (total_cols fs1 + j)%nat by lia. exact IH.
Qed.

Lemma hstack_correct fs : fs <> [] -> List.Forall wf fs ->
  exists h, cheb_hstack fs = Some h /\ wf h /\ ncols h = total_cols fs /\
    (forall f, In f fs -> (len f <= len h)%nat) /\
    forall fs1 f fs2, fs = fs1 ++ f :: fs2 -> forall j x, (j < ncols f)%nat ->
      ev h (total_cols fs1 + j) x = ev f j x.
Proof.
  intros Hne HW. rewrite List.Forall_forall in HW. set (n := list_max (map (fun f => nrows (coeffs f)) fs)).
  assert (Hlen : forall f, In f fs -> (len f <= n)%nat).
  { intros f Hf. apply list_max_ge. apply in_map_iff. exists f. split; [reflexivity|exact Hf]. }
  set (C := flat_map (fun f => prolong (coeffs f) (Z.of_nat n)) fs).
  assert (Hn : (1 <= n)%nat).
  { destruct fs as [|f fs']; [congruence|]. assert (H := Hlen f (or_introl eq_refl)).
    assert (H2 := len_pos f (HW f (or_introl eq_refl))). lia. }
  assert (LC : length C = total_cols fs).
  { unfold C. clearbody n. clear. induction fs as [|f fs IH]; [reflexivity|]. cbn [flat_map total_cols fold_right].
    rewrite app_length, IH. unfold prolong. rewrite map_length. reflexivity. }
  assert (RC : rect n C).
  { split; [exact Hn|]. split.
    - intros H. rewrite H in LC. destruct fs as [|f fs']; [congruence|]. cbn [total_cols fold_right length] in LC.
      assert (H2 := ncols_wf f (HW f (or_introl eq_refl))). lia.
    - apply List.Forall_forall. intros c Hc. apply in_flat_map in Hc. destruct Hc as [f [Hf Hc]].
      unfold prolong in Hc. apply in_map_iff in Hc. destruct Hc as [d [<- _]]. rewrite prolong1_length, Nat2Z.id. reflexivity. }
  unfold cheb_hstack. destruct fs as [|f0 fs0]; [congruence|]. cbv zeta.
  match goal with |- context [cheb_init ?A ?e ?h ?ml ?hp false] =>
    destruct (cheb_init_some n A e h ml hp RC) as [hp' [E _]] end.
  eexists. split; [exact E|]. split; [exists n; exact RC|]. split; [exact LC|].
  assert (Lh := rect_nrows n C RC).
  split; [intros f Hf; change (len f <= nrows C)%nat; rewrite Lh; apply Hlen; exact Hf|].
  intros fs1 f fs2 Es j x Hj. change (evalT (nth (total_cols fs1 + j) C []) x = ev f j x). unfold C. rewrite Es.
  rewrite hstack_nth by exact Hj. rewrite <- evK_full with (K := n).
  - apply evK_prolong.
  - apply HW. rewrite Es. apply in_or_app. right. left. reflexivity.
  - apply Hlen. rewrite Es. apply in_or_app. right. left. reflexivity.
Qed.
