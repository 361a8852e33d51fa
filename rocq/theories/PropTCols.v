(** C188: periodic functions with several columns. *)
From Coq Require Import Reals ZArith List Arith Bool Lra Lia.
From Coquelicot Require Import Coquelicot.
From Verif Require Import Base ChebModel UconvModel TrigSpec TrigModel TrigModel2 TrigBase TrigTrans TrigEval TrigCalc TrigCalc2 TrigObj TrigObj2 TrigCons TrigConsProofs PropTCons TrigUfunc PropTUf TrigCols.
Import ListNotations.
Open Scope R_scope.

(** an object of m columns of n coefficients *)
Definition tno : trig := {| tco := []; tva := []; tre := false |}.
Definition cols (n m : nat) (fs : list trig) : Prop := length fs = m /\ forall f, In f fs -> trig_ok f /\ length (tco f) = n.
(** column i, where one column counts for all *)
Definition bcol (fs : list trig) (i : nat) : trig := nth (if Nat.eqb (length fs) 1 then 0 else i) fs tno.

Lemma allreal_in fs f : allreal fs = true -> In f fs -> tre f = true.
Proof. unfold allreal. rewrite forallb_forall. auto. Qed.
Lemma nrow_cols n m fs : cols n m fs -> (1 <= m)%nat -> nrow fs = n.
Proof. intros [L H] Hm. destruct fs as [|f fs]; [cbn in L; lia|]. unfold nrow. cbn [hd]. apply H. now left. Qed.
Lemma cols_nth n m fs i : cols n m fs -> (i < m)%nat -> trig_ok (nth i fs tno) /\ length (tco (nth i fs tno)) = n.
Proof. intros [L H] Hi. apply H. apply nth_In. lia. Qed.

(** C188: evaluation is columnwise. *)
Theorem C188_call : forall n m fs x, cols n m fs ->
  length (tcols_eval fs x) = m /\ forall i, (i < m)%nat -> nth i (tcols_eval fs x) (RtoC 0) = evalF (tco (nth i fs tno)) x.
Proof.
  intros n m fs x H. assert (L := proj1 H). unfold tcols_eval. destruct (_ || _).
  - rewrite map_length. split; [exact L|]. intros i Hi. rewrite (nth_indep _ _ (fst (tcall tno x))) by (rewrite map_length; lia).
    rewrite (map_nth (fun f => fst (tcall f x))). apply trig_call_correct. apply (cols_nth n m fs i H Hi).
  - rewrite map_length. split; [exact L|]. intros i Hi. destruct (cols_nth n m fs i H Hi) as [[N [_ R]] _].
    set (u := fun f => if tre f then RtoC (Re (horner_cmplx (tco f) x)) else horner_cmplx (tco f) x).
    rewrite (nth_indep _ _ (u tno)) by (rewrite map_length; lia). rewrite (map_nth u). unfold u.
    rewrite horner_cmplx_correct by exact N. destruct (tre (nth i fs tno)) eqn:E; [|reflexivity].
    specialize (R eq_refl x). unfold RtoC. destruct (evalF _ x) as [a b]. cbn in *. now rewrite R.
Qed.
Print Assumptions C188_call.

Lemma after_id n m fs : cols n m fs -> Nat.odd n = true -> forall k, Nat.iter k tcols_after fs = fs.
Proof.
  intros H Ho. assert (Q : tcols_after fs = fs).
  { unfold tcols_after. destruct (allreal fs); [|reflexivity]. rewrite <- (map_id fs) at 2. apply map_ext_in. intros f Hf. apply trig_call_stable. left.
    destruct H as [_ H]. rewrite (proj2 (H f Hf)). exact Ho. }
  induction k as [|k IH]; [reflexivity|]. change (tcols_after (Nat.iter k tcols_after fs) = fs). rewrite IH. exact Q.
Qed.

Lemma nth_combine' fs gs i : length gs = length fs -> nth i (combine fs gs) (tno, tno) = (nth i fs tno, nth i gs tno).
Proof. intros L. apply combine_nth. now symmetry. Qed.
Lemma nth_repeat' (g : trig) m i : (i < m)%nat -> nth i (repeat g m) tno = g.
Proof. revert i. induction m as [|m IH]; intros [|i] H; cbn; try lia; [reflexivity|]. apply IH. lia. Qed.

(** one column of a sum *)
Lemma add_col_spec f g : trig_ok f -> trig_ok g -> exists h, add_col (f, g) = Some (coeffs2vals1 h) /\ (1 <= length h)%nat /\ vals2coeffs1 (coeffs2vals1 h) = h /\
  (forall x, evalF h x = (evalF (tco f) x + evalF (tco g) x)%C) /\ (tre f = true -> tre g = true -> hermitian h).
Proof.
  intros Hf Hg. destruct Hf as [Nf [Vf Rf]]. destruct Hg as [Ng [Vg Rg]].
  assert (K : exists c d, length d = length c /\ (1 <= length c)%nat /\ (forall x, evalF c x = evalF (tco f) x) /\ (forall x, evalF d x = evalF (tco g) x) /\
    add_values f g = Some (coeffs2vals1 c, coeffs2vals1 d)).
  { unfold add_values. destruct (Nat.ltb_spec (length (tco g)) (length (tco f))) as [H1|H1].
    - destruct (prolong2_up (tco g) (length (tco f)) (tre g) ltac:(lia) Rg) as [d [E [L Hx]]]. rewrite E. exists (tco f), d. rewrite Vf. repeat split; auto.
    - destruct (Nat.ltb_spec (length (tco f)) (length (tco g))) as [H2|H2].
      + destruct (prolong2_up (tco f) (length (tco g)) (tre f) ltac:(lia) Rf) as [d [E [L Hx]]]. rewrite E. exists d, (tco g). rewrite Vg. repeat split; auto; lia.
      + exists (tco f), (tco g). rewrite Vf, Vg. repeat split; auto; lia. }
  destruct K as [c [d [L [Nc [Ec [Ed Ea]]]]]].
  destruct (tadd_core c d (tre f && tre g) Nc L) as [h [Lh [Eh [Ev [Ehv Hh]]]]].
  { intros B. apply andb_prop in B. destruct B as [B1 B2]. split; intros x; [rewrite Ec|rewrite Ed]; auto; [apply Rf, B1|apply Rg, B2]. }
  exists h. unfold add_col. cbn [fst snd]. rewrite Ea, Ev. split; [reflexivity|]. split; [lia|]. split; [rewrite <- Ev; exact Ehv|]. split.
  - intros x. now rewrite Eh, Ec, Ed.
  - intros H1 H2. apply Hh. now rewrite H1, H2.
Qed.
Lemma allzero_v2c v : allzero v = true -> forall j, nth j (vals2coeffs1 v) C0 = C0.
Proof.
  intros Ez. assert (Zv := allzero_nth v Ez). intros j. destruct (Nat.lt_ge_cases j (length v)) as [Hj|Hj].
  2:{ apply nth_overflow. rewrite vals2coeffs1_length. exact Hj. }
  destruct (Nat.le_gt_cases (length v) 1) as [H1|H1].
  - unfold vals2coeffs1. destruct (Nat.leb_spec (length v) 1); [|lia]. apply Zv.
  - rewrite vals2coeffs1_Usum by lia. unfold Usum. rewrite (csum_zero (length v)); [unfold C0; ring|]. intros k _. rewrite Zv. unfold C0. ring.
Qed.

(** C188: f + g has the columns f_i + g_i, when the numbers of columns are equal or g has one. *)
Theorem C188_add_partial : forall nf ng m mg fs gs, cols nf m fs -> cols ng mg gs -> (mg = m \/ mg = 1)%nat -> (1 <= m)%nat ->
  exists rs, tadd_cols fs gs = Some rs /\ length rs = m /\
  forall i, (i < m)%nat -> represents (nth i rs tno) (fun x => (evalF (tco (nth i fs tno)) x + evalF (tco (bcol gs i)) x)%C) (tre (nth i fs tno) = true /\ tre (bcol gs i) = true).
Proof.
  intros nf ng m mg fs gs Hf Hg Hm H1. unfold tadd_cols.
  assert (B : exists gs', bcast fs gs = Some gs' /\ cols ng m gs' /\ forall i, (i < m)%nat -> nth i gs' tno = bcol gs i).
  { destruct Hf as [Lf Hf], Hg as [Lg Hg]. unfold bcast, bcol. destruct (Nat.eqb_spec (length gs) (length fs)) as [E|E].
    - exists gs. split; [reflexivity|]. split; [split; [lia|exact Hg]|]. intros i Hi. destruct (Nat.eqb_spec (length gs) 1); [|reflexivity]. f_equal. lia.
    - destruct Hm as [Hm|Hm]; [lia|]. destruct gs as [|g [|]]; [cbn in Lg; lia| |cbn in Lg; lia]. exists (repeat g (length fs)). split; [reflexivity|]. split.
      + split; [rewrite repeat_length; exact Lf|]. intros f Hin. apply repeat_spec in Hin. subst. apply Hg. now left.
      + intros i Hi. rewrite nth_repeat' by lia. reflexivity. }
  destruct B as [gs' [-> [Hg' Eg]]]. assert (Lf := proj1 Hf). assert (Lg := proj1 Hg').
  assert (Lc : length (combine fs gs') = m) by (rewrite combine_length; lia).
  destruct (map_option_spec add_col (combine fs gs')) as [V [EV [LV HV]]].
  { intros p Hp. destruct (In_nth _ _ (tno, tno) Hp) as [i [Hi <-]]. rewrite nth_combine' by lia.
    destruct (add_col_spec (nth i fs tno) (nth i gs' tno)) as [h [E _]]; [apply (cols_nth nf m); [exact Hf|lia]|apply (cols_nth ng m); [exact Hg'|lia]|]. eexists. exact E. }
  rewrite EV. rewrite Lc in LV, HV.
  assert (K : forall i, (i < m)%nat -> exists h, nth i V [] = coeffs2vals1 h /\ (1 <= length h)%nat /\ vals2coeffs1 (coeffs2vals1 h) = h /\
    (forall x, evalF h x = (evalF (tco (nth i fs tno)) x + evalF (tco (bcol gs i)) x)%C) /\ (tre (nth i fs tno) = true -> tre (bcol gs i) = true -> hermitian h)).
  { intros i Hi. specialize (HV i (tno, tno) [] Hi). rewrite nth_combine' in HV by lia.
    destruct (add_col_spec (nth i fs tno) (nth i gs' tno)) as [h [E R]]; [apply (cols_nth nf m); assumption|apply (cols_nth ng m); assumption|].
    rewrite E in HV. rewrite Eg in R by exact Hi. exists h. split; [|exact R]. congruence. }
  destruct (forallb allzero V || forallb allzero (map vals2coeffs1 V)) eqn:Ez.
  - eexists. split; [reflexivity|]. rewrite repeat_length. split; [exact Lf|]. intros i Hi. rewrite nth_repeat' by lia.
    destruct (K i Hi) as [h [E1 [N1 [E2 [E3 _]]]]]. apply zero_rep. intros x. rewrite <- E3. symmetry. apply evalF_zero. apply orb_prop in Ez. destruct Ez as [Ez|Ez].
    + rewrite forallb_forall in Ez. rewrite <- E2, <- E1. apply allzero_v2c. apply Ez. apply nth_In. lia.
    + rewrite forallb_forall in Ez. apply allzero_nth. rewrite <- E2, <- E1. apply Ez. apply in_map, nth_In. lia.
  - eexists. split; [reflexivity|]. rewrite map_length. split; [exact LV|]. intros i Hi.
    rewrite (nth_indep _ tno (mk_trig [] (vals2coeffs1 []))) by (rewrite map_length; lia). rewrite (map_nth (fun v => mk_trig v (vals2coeffs1 v))).
    destruct (K i Hi) as [h [E1 [N1 [E2 [E3 E4]]]]]. rewrite E1, E2. apply represents_mk; [exact N1|exact E3|]. intros [R1 R2]. apply E4; assumption.
Qed.
Print Assumptions C188_add_partial.

(** C188 is false: one column plus several columns raises, as do different numbers of columns. *)
Theorem C188_add_refuted : forall fs gs, length gs <> length fs -> length gs <> 1%nat -> tadd_cols fs gs = None.
Proof.
  intros fs gs H1 H2. unfold tadd_cols, bcast. destruct (Nat.eqb_spec (length gs) (length fs)); [lia|]. destruct gs as [|g [|]]; try reflexivity. cbn in H2. lia.
Qed.
Print Assumptions C188_add_refuted.

(** C188: f * g has the columns f_i g_i, one column counting for all, up to dropped coefficients (values agreeing with coefficients, real for real operands): odd lengths above one, operands neither
    equal nor np.conj of each other; the first operand is unchanged, the second has the same columns, repeated. *)
Theorem C188_multiply_partial : forall k nf ng mf mg fs gs, cols nf mf fs -> cols ng mg gs -> (1 <= mf)%nat -> (1 <= mg)%nat -> (mf = mg \/ mf = 1 \/ mg = 1)%nat ->
  Nat.odd nf = true -> Nat.odd ng = true -> (2 <= nf)%nat -> (2 <= ng)%nat ->
  teqb_cols fs (mk (Nat.max mf mg) (bcol gs)) = false -> conj_is_cols fs (mk (Nat.max mf mg) (bcol gs)) = false ->
  exists rs gs' K, tmul_cols k fs gs = Some (rs, fs, gs') /\ length rs = Nat.max mf mg /\ (forall i, (i < length gs')%nat -> nth i gs' tno = bcol gs i) /\
  forall i, (i < Nat.max mf mg)%nat -> exists h, (forall x, evalF h x = (evalF (tco (bcol fs i)) x * evalF (tco (bcol gs i)) x)%C) /\ truncation K (tco (nth i rs tno)) h /\
    (forall z, (Z.of_nat K <= Z.abs z)%Z -> Cmod (coef h z) + Cmod (coef h (- z)) <= Rpower (/ 10 ^ 14) (2 / 5)) /\
    near (nth i rs tno) /\ (allreal fs = true -> allreal gs = true -> trig_ok (nth i rs tno) /\ tre (nth i rs tno) = true).
Proof.
  intros k nf ng mf mg fs gs Hf Hg Mf Mg Hm Of Og Nf Ng Hne Hco. unfold tmul_cols.
  rewrite (nrow_cols nf mf fs Hf Mf), (nrow_cols ng mg gs Hg Mg). destruct (Nat.eqb_spec nf 1); [lia|]. destruct (Nat.eqb_spec ng 1); [lia|].
  set (m := Nat.max mf mg) in *.
  assert (BF : forall i, (i < m)%nat -> trig_ok (bcol fs i) /\ length (tco (bcol fs i)) = nf).
  { intros i Hi. unfold bcol. apply (cols_nth nf mf fs); [exact Hf|]. rewrite (proj1 Hf). destruct (Nat.eqb_spec mf 1); lia. }
  assert (BG : forall i, (i < m)%nat -> trig_ok (bcol gs i) /\ length (tco (bcol gs i)) = ng).
  { intros i Hi. unfold bcol. apply (cols_nth ng mg gs); [exact Hg|]. rewrite (proj1 Hg). destruct (Nat.eqb_spec mg 1); lia. }
  assert (B : exists fs' gs', (if Nat.eqb (length fs) (length gs) then Some (fs, gs)
           else match fs, gs with
                | [f], _ => Some (repeat f (length gs), gs)
                | _, [g] => Some (fs, repeat g (length fs))
                | _, _ => None
                end) = Some (fs', gs') /\ fs' = mk m (bcol fs) /\ length gs' = m /\ gs' = mk m (bcol gs)).
  { assert (Lf := proj1 Hf). assert (Lg := proj1 Hg).
    assert (I : forall hs, length hs = m -> hs = mk m (bcol hs)).
    { intros hs L. apply (list_ext _ _ tno); [now rewrite mk_length|]. intros i Hi. rewrite nth_mk by lia. unfold bcol. destruct (Nat.eqb_spec (length hs) 1); [f_equal; lia|reflexivity]. }
    assert (Rp : forall (f : trig) hs, hs = [f] -> repeat f m = mk m (bcol hs)).
    { intros f hs ->. apply (list_ext _ _ tno); [now rewrite mk_length, repeat_length|]. rewrite repeat_length. intros i Hi. rewrite nth_mk, nth_repeat' by lia. reflexivity. }
    destruct (Nat.eqb_spec (length fs) (length gs)) as [E|E].
    - exists fs, gs. split; [reflexivity|]. split; [apply I; lia|]. split; [lia|]. apply I. lia.
    - destruct Hm as [Hm|[Hm|Hm]]; [lia| |].
      + destruct fs as [|f [|]]; [cbn in Lf; lia| |cbn in Lf; lia]. exists (repeat f (length gs)), gs. split; [destruct gs as [|g [|]]; reflexivity|].
        split; [|split; [lia|apply I; lia]]. replace (length gs) with m by lia. now apply Rp.
      + destruct gs as [|g [|]]; [cbn in Lg; lia| |cbn in Lg; lia]. exists fs, (repeat g (length fs)). split; [destruct fs as [|f [|]]; [reflexivity|cbn in E; lia|reflexivity]|].
        split; [apply I; lia|]. split; [rewrite repeat_length; lia|]. replace (length fs) with m by lia. now apply Rp. }
  destruct B as [fs' [gs' [-> [Ef [Lg' Eg]]]]]. rewrite <- Eg in Hne, Hco. rewrite Hne, Hco. cbn [orb].
  assert (Lf' : length fs' = m) by (rewrite Ef, mk_length; reflexivity).
  assert (Lc : length (combine fs' gs') = m) by (rewrite combine_length; lia).
  assert (Nth : forall i, (i < m)%nat -> nth i (combine fs' gs') (tno, tno) = (bcol fs i, bcol gs i)).
  { intros i Hi. rewrite nth_combine' by lia. rewrite Ef, Eg, !nth_mk by exact Hi. reflexivity. }
  assert (T : forall i, (i < m)%nat -> exists h, tmul_col (tco (bcol fs i)) (tco (bcol gs i)) = Some h /\ length h = (nf + ng - 1)%nat /\
    forall x, evalF h x = (evalF (tco (bcol fs i)) x * evalF (tco (bcol gs i)) x)%C).
  { intros i Hi. destruct (BF i Hi) as [F1 F2], (BG i Hi) as [G1 G2]. destruct (trig_mul_correct (tco (bcol fs i)) (tco (bcol gs i))) as [h [E1 [E2 E3]]]; [now rewrite F2|now rewrite G2|lia|lia|].
    exists h. split; [exact E1|]. split; [lia|exact E3]. }
  destruct (map_option_spec (fun p => tmul_col (tco (fst p)) (tco (snd p))) (combine fs' gs')) as [H [EH [LH HH]]].
  { intros p Hp. destruct (In_nth _ _ (tno, tno) Hp) as [i [Hi <-]]. rewrite Nth by lia. cbn [fst snd]. destruct (T i ltac:(lia)) as [h [E _]]. eexists. exact E. }
  rewrite EH. rewrite Lc in LH, HH.
  assert (HN : forall i, (i < m)%nat -> length (nth i H []) = (nf + ng - 1)%nat /\ forall x, evalF (nth i H []) x = (evalF (tco (bcol fs i)) x * evalF (tco (bcol gs i)) x)%C).
  { intros i Hi. specialize (HH i (tno, tno) [] Hi). rewrite Nth in HH by exact Hi. cbn [fst snd] in HH. destruct (T i Hi) as [h [E [L X]]]. rewrite E in HH.
    assert (Q : h = nth i H []) by congruence. rewrite <- Q. split; assumption. }
  destruct (simplify_cols_spec H (/ 10 ^ 14) (nf + ng - 1)) as [Bs [K [EB [LB HB]]]].
  { intros ->. cbn in LH. lia. }
  { lia. }
  { intros c Hc. destruct (In_nth _ _ [] Hc) as [i [Hi <-]]. apply HN. lia. }
  rewrite EB. rewrite (after_id nf mf fs Hf Of k).
  exists (map (fun c => mk_trig (realvals (allreal fs && allreal gs) (coeffs2vals1 c)) c) Bs), gs', K. split; [reflexivity|]. rewrite map_length. split; [lia|]. split.
  - intros i Hi. rewrite Eg, nth_mk by lia. reflexivity.
  - intros i Hi. exists (nth i H []). destruct (HN i Hi) as [L X]. split; [exact X|]. destruct (HB i ltac:(lia)) as [Tr D].
    set (u := fun c => mk_trig (realvals (allreal fs && allreal gs) (coeffs2vals1 c)) c).
    rewrite (nth_indep _ tno (u [])) by (rewrite map_length; lia). rewrite (map_nth u). split; [exact Tr|].
    assert (Hb : allreal fs && allreal gs = true -> hermitian (nth i Bs [])).
    { intros B. apply andb_prop in B. destruct B as [B1 B2]. apply (herm_trunc K _ (nth i H [])); [lia|exact Tr|]. intros x. rewrite X.
      assert (I1 : In (bcol fs i) fs) by (apply nth_In; rewrite (proj1 Hf); destruct (Nat.eqb_spec mf 1); lia).
      assert (I2 : In (bcol gs i) gs) by (apply nth_In; rewrite (proj1 Hg); destruct (Nat.eqb_spec mg 1); lia).
      assert (Y1 := proj2 (proj2 (proj1 (BF i Hi))) (allreal_in _ _ B1 I1) x). assert (Y2 := proj2 (proj2 (proj1 (BG i Hi))) (allreal_in _ _ B2 I2) x).
      unfold Im in *. cbn. rewrite Y1, Y2. ring. }
    destruct (prod_near (allreal fs && allreal gs) (nth i Bs [])) as [N1 N2]; [destruct Tr as [LT [P _]]; lia|exact Hb|].
    split; [|split; [exact N1|intros B1 B2; apply N2; now rewrite B1, B2]]. apply D.
    split; [apply Rinv_0_lt_compat; lra|]. rewrite <- Rinv_1. apply Rinv_lt_contravar; lra.
Qed.
Print Assumptions C188_multiply_partial.

(** C188: a constant with one column multiplies all columns. *)
Theorem C188_multiply_constant : forall k n m f gs, trig_ok f -> length (tco f) = 1%nat -> cols n m gs -> (2 <= n)%nat ->
  (exists rs, tmul_cols k [f] gs = Some (rs, [f], gs) /\ length rs = m /\
     forall i, (i < m)%nat -> represents (nth i rs tno) (fun x => (evalF (tco f) x * evalF (tco (nth i gs tno)) x)%C) (tre f = true /\ tre (nth i gs tno) = true)) /\
  ((1 <= m)%nat -> exists rs, tmul_cols k gs [f] = Some (rs, gs, [f]) /\ length rs = m /\
     forall i, (i < m)%nat -> represents (nth i rs tno) (fun x => (evalF (tco f) x * evalF (tco (nth i gs tno)) x)%C) (tre f = true /\ tre (nth i gs tno) = true)).
Proof.
  intros k n m f gs Hf L1 Hg Hn. assert (Lg := proj1 Hg). set (rs := map (fun g => tmul_num g (nth 0 (tco f) C0)) gs).
  assert (Q : length rs = m /\ forall i, (i < m)%nat -> represents (nth i rs tno) (fun x => (evalF (tco f) x * evalF (tco (nth i gs tno)) x)%C) (tre f = true /\ tre (nth i gs tno) = true)).
  { unfold rs. rewrite map_length. split; [exact Lg|]. intros i Hi. rewrite (nth_indep _ tno (tmul_num tno (nth 0 (tco f) C0))) by (rewrite map_length; lia).
    rewrite (map_nth (fun g => tmul_num g (nth 0 (tco f) C0))). destruct (trig_product_const f (nth i gs tno) Hf (proj1 (cols_nth n m gs i Hg Hi)) L1) as [r [E R]].
    unfold tmul in E. rewrite L1 in E. cbn [Nat.eqb] in E. assert (E' : tmul_num (nth i gs tno) (nth 0 (tco f) C0) = r) by congruence. now rewrite E'. }
  split; [exists rs|intros Hm; exists rs].
  - split; [|exact Q]. unfold tmul_cols, nrow. cbn [hd]. rewrite L1. reflexivity.
  - split; [|exact Q]. unfold tmul_cols. rewrite (nrow_cols n m gs Hg Hm). destruct (Nat.eqb_spec n 1); [lia|]. unfold nrow. cbn [hd]. rewrite L1. reflexivity.
Qed.
Print Assumptions C188_multiply_constant.

(** C188 is false: a constant with several columns times a non-constant of as many columns raises; *)
Theorem C188_constants_refuted : forall k n m fs gs, cols 1 m fs -> cols n m gs -> (2 <= m)%nat -> (2 <= n)%nat -> tmul_cols k fs gs = None /\ tmul_cols k gs fs = None.
Proof.
  intros k n m fs gs Hf Hg Hm Hn. unfold tmul_cols. rewrite (nrow_cols 1 m fs Hf), (nrow_cols n m gs Hg) by lia. destruct (Nat.eqb_spec n 1); [lia|]. cbn [Nat.eqb].
  destruct Hf as [Lf _]. destruct fs as [|f [|f' fs]]; [cbn in Lf; lia|cbn in Lf; lia|]. rewrite andb_false_r. split; reflexivity.
Qed.
Print Assumptions C188_constants_refuted.
(** two constants with several columns: the product is right, but it is also what becomes of the second operand; *)
Theorem C188_constants_operand_refuted : forall k m fs gs, cols 1 m fs -> cols 1 m gs -> (2 <= m)%nat ->
  exists rs gs', tmul_cols k fs gs = Some (rs, fs, gs') /\
  forall i x, (i < m)%nat -> evalF (tco (nth i rs tno)) x = (evalF (tco (nth i fs tno)) x * evalF (tco (nth i gs tno)) x)%C /\
    evalF (tco (nth i gs' tno)) x = (evalF (tco (nth i fs tno)) x * evalF (tco (nth i gs tno)) x)%C.
Proof.
  intros k m fs gs Hf Hg Hm. unfold tmul_cols. rewrite (nrow_cols 1 m fs Hf), (nrow_cols 1 m gs Hg) by lia. cbn [Nat.eqb].
  assert (Lf := proj1 Hf). assert (Lg := proj1 Hg).
  exists (map (fun t => mk_trig (tva t) (tco t)) (scale_cols fs gs)), (scale_cols fs gs). split.
  { destruct fs as [|f [|f' fs]]; [cbn in Lf; lia|cbn in Lf; lia|]. destruct (Nat.eqb_spec (length (f :: f' :: fs)) (length gs)); [reflexivity|lia]. }
  intros i x Hi. assert (Ls : length (scale_cols fs gs) = m) by (unfold scale_cols; rewrite map_length, combine_length; lia).
  assert (E : tco (nth i (scale_cols fs gs) tno) = map (fun a => (a * nth 0 (tco (nth i fs tno)) C0)%C) (tco (nth i gs tno))).
  { unfold scale_cols. set (u := fun p : trig * trig => _). rewrite (nth_indep _ tno (u (tno, tno))) by (rewrite map_length, combine_length; lia). rewrite (map_nth u), nth_combine' by lia. reflexivity. }
  assert (C : forall t, length (tco t) = 1%nat -> evalF (tco t) x = nth 0 (tco t) C0).
  { intros t L. unfold evalF. rewrite L. cbn [csum]. unfold mode, freq. cbn. rewrite Rmult_0_r, Rmult_0_l, cis_0. unfold C0. ring. }
  assert (G : evalF (tco (nth i (scale_cols fs gs) tno)) x = (evalF (tco (nth i fs tno)) x * evalF (tco (nth i gs tno)) x)%C).
  { rewrite E, evalF_map_scal. rewrite (C (nth i fs tno)) by (apply (cols_nth 1 m); assumption). ring. }
  split; [|exact G].
  set (u := fun t => mk_trig (tva t) (tco t)). rewrite (nth_indep _ tno (u tno)) by (rewrite map_length; lia). rewrite (map_nth u). exact G.
Qed.
Print Assumptions C188_constants_operand_refuted.
(** the second operand of a product gets as many columns as the first one. *)
Theorem C188_operand_refuted : forall k nf m fs g rs fs' gs', cols nf m fs -> (2 <= m)%nat -> (2 <= nf)%nat -> (2 <= length (tco g))%nat ->
  tmul_cols k fs [g] = Some (rs, fs', gs') -> gs' = repeat g m.
Proof.
  intros k nf m fs g rs fs' gs' Hf Hm Hn Hg. unfold tmul_cols. rewrite (nrow_cols nf m fs Hf) by lia. destruct (Nat.eqb_spec nf 1); [lia|].
  unfold nrow. cbn [hd]. destruct (Nat.eqb_spec (length (tco g)) 1); [lia|]. destruct Hf as [Lf _].
  destruct (Nat.eqb_spec (length fs) (length [g])) as [E|E]; [cbn in E; lia|].
  destruct fs as [|f [|f' fs]]; [cbn in Lf; lia|cbn in Lf; lia|]. set (gg := repeat g (length (f :: f' :: fs))).
  destruct (_ || _); [discriminate|]. destruct (map_option _ _); [|discriminate]. destruct (tsimplify_cols _ _); [|discriminate].
  intros E2. assert (Q : gg = gs') by congruence. rewrite <- Q. unfold gg. now rewrite Lf.
Qed.
Print Assumptions C188_operand_refuted.

(** When the first operand has one column and the second several, neither test applies: the hypotheses of C188_multiply_partial are met,
    for cos(pi x) times (cos(pi x), e^(i pi x)) for instance. *)
Lemma no_conj f gs : length gs <> 1%nat -> teqb_cols [f] gs = false /\ conj_is_cols [f] gs = false.
Proof.
  intros H. split.
  - unfold teqb_cols. destruct (Nat.eqb_spec (length [f]) (length gs)) as [E|E]; [cbn in E; lia|reflexivity].
  - unfold conj_is_cols, np_conj_cols. destruct (tconstruct_spec (mk (length [f]) (fun i x => Cconj (nth i (tcols_eval [f] x) C0))) teps ltac:(discriminate)) as [h [hs [N [K [E [L _]]]]]].
    rewrite E. rewrite mk_length in L. unfold teqb_cols. destruct (Nat.eqb_spec (length hs) (length gs)) as [Q|Q]; [cbn in L; lia|reflexivity].
Qed.
Definition c188_e : trig := {| tco := [RtoC 0; RtoC 0; RtoC 1]; tva := coeffs2vals1 [RtoC 0; RtoC 0; RtoC 1]; tre := false |}.
Example ex_C188 : cols 3 1 [c187_f] /\ cols 3 2 [c187_f; c188_e] /\ teqb_cols [c187_f] (mk 2 (bcol [c187_f; c188_e])) = false /\
  conj_is_cols [c187_f] (mk 2 (bcol [c187_f; c188_e])) = false /\ cols 1 2 [mk_trig [RtoC 2] [RtoC 2]; mk_trig [RtoC 3] [RtoC 3]].
Proof.
  assert (H1 : trig_ok c187_f) by apply ex_C187.
  assert (H2 : trig_ok c188_e) by (split; [cbn; lia|]; split; [reflexivity|discriminate]).
  split; [split; [reflexivity|]; intros f [<-|[]]; split; [exact H1|reflexivity]|].
  split; [split; [reflexivity|]; intros f [<-|[<-|[]]]; split; [exact H1|reflexivity|exact H2|reflexivity]|].
  destruct (no_conj c187_f (mk 2 (bcol [c187_f; c188_e]))) as [A B]; [rewrite mk_length; lia|]. split; [exact A|]. split; [exact B|].
  split; [reflexivity|].
  assert (Q : forall a : R, trig_ok (mk_trig [RtoC a] [RtoC a])).
  { intros a. assert (Hh : hermitian [RtoC a]).
    { intros x. assert (E : evalF [RtoC a] x = RtoC a); [|rewrite E; reflexivity].
      unfold evalF, mode, freq. cbn [length csum nth Nat.even andb]. change (Z.of_nat 0 - Z.of_nat (1 / 2))%Z with 0%Z. rewrite Rmult_0_r, Rmult_0_l, cis_0. unfold C0. ring. }
    change [RtoC a] with (coeffs2vals1 [RtoC a]) at 1. apply mk_trig_ok; [cbn; lia|exact Hh]. }
  intros f [<-|[<-|[]]]; split; [apply Q|reflexivity|apply Q|reflexivity].
Qed.
