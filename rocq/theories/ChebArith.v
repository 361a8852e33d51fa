(** Correctness of the chebtech arithmetic. *)
From Coq Require Import Reals ZArith List Arith Lia Lra Bool.
From Coquelicot Require Import Coquelicot.
From Verif Require Import Base ChebSpec ChebMath ChebModel ChebEval CosSums ChebDct ChebCalc ChebMul ChebChop ChebObj ChebOps ChebOps2.
Import ListNotations.
Open Scope R_scope.

(** ** vertical scale *)
Lemma fmax_abs_ge l a : In a l -> Rabs a <= fmax_abs l.
Proof.
  induction l as [|b l IH]; intros H; [contradiction|]. cbn [fmax_abs fold_right].
  destruct H as [->|H]; [apply Rmax_l|]. eapply Rle_trans; [apply IH; exact H|]. apply Rmax_r.
Qed.
Lemma fmax_abs_nonneg l : 0 <= fmax_abs l.
Proof.
  destruct l as [|b l]; [simpl; lra|]. cbn [fmax_abs fold_right].
  eapply Rle_trans; [apply (Rabs_pos b)|apply Rmax_l].
Qed.
Lemma fmax_abs_attained l : l <> [] -> exists a, In a l /\ fmax_abs l = Rabs a.
Proof.
  induction l as [|b l IH]; intros H; [congruence|]. cbn [fmax_abs fold_right].
  destruct l as [|c l].
  - exists b. split; [left; reflexivity|]. simpl. apply Rmax_left. apply Rabs_pos.
  - destruct IH as [a [Ha E]]; [discriminate|]. fold (fmax_abs (c :: l)). rewrite E.
    unfold Rmax. destruct (Rle_dec _ _); [exists a; split; [right; exact Ha|reflexivity]|exists b; split; [left|]; reflexivity].
Qed.

Lemma chebpts_range N j : -1 <= nth j (chebpts_type2_compute N) 0 <= 1.
Proof.
  destruct (Nat.lt_ge_cases j N) as [Hj|Hj].
  - destruct N as [|[|N]]; [lia|simpl; destruct j; [lra|lia]|].
    unfold chebpts_type2_compute. rewrite nth_mk by exact Hj. apply SIN_bound.
  - rewrite nth_overflow by (rewrite chebpts_length; exact Hj). lra.
Qed.

Lemma vscale_col_attained c : (1 <= length c)%nat ->
  exists x, -1 <= x <= 1 /\ vscale_col c = Rabs (evalT c x).
Proof.
  intros Hc. unfold vscale_col. destruct (Nat.eqb_spec (length c) 1) as [E|E].
  - exists 0. split; [lra|]. unfold evalT. rewrite E. cbn [rsum T]. f_equal. ring.
  - destruct (fmax_abs_attained (polyval1 c)) as [a [Ha Ea]].
    { intros H. apply (f_equal (@length R)) in H. rewrite polyval1_length in H. simpl in H. lia. }
    apply In_nth with (d := 0) in Ha. destruct Ha as [i [Hi Ei]]. rewrite polyval1_length in Hi.
    exists (nth i (chebpts_type2_compute (length c)) 0). split; [apply chebpts_range|].
    rewrite Ea, <- Ei. f_equal. apply polyval1_spec; lia.
Qed.
Lemma vscale_col_grid c i : (1 <= length c)%nat -> (i < length c)%nat ->
  Rabs (evalT c (nth i (chebpts_type2_compute (length c)) 0)) <= vscale_col c.
Proof.
  intros Hc Hi. unfold vscale_col. destruct (Nat.eqb_spec (length c) 1) as [E|E].
  - unfold evalT. rewrite E. cbn [rsum T]. right. f_equal. ring.
  - rewrite <- polyval1_spec by lia. apply fmax_abs_ge. apply nth_In. rewrite polyval1_length. exact Hi.
Qed.

Lemma vscale_col_nonneg c : 0 <= vscale_col c.
Proof. unfold vscale_col. destruct (Nat.eqb _ _); [apply Rabs_pos|apply fmax_abs_nonneg]. Qed.

(** the scale never exceeds the maximum modulus, is attained, and dominates the grid values *)
Lemma vscl_attained f : wf f -> exists j x, (j < ncols f)%nat /\ -1 <= x <= 1 /\ vscl (coeffs f) = Rabs (ev f j x).
Proof.
  intros Hw. unfold vscl. destruct (fmax_abs_attained (map vscale_col (coeffs f))) as [a [Ha Ea]].
  { destruct Hw as [n [_ [HA _]]]. destruct (coeffs f); [congruence|discriminate]. }
  apply in_map_iff in Ha. destruct Ha as [c [<- Hc]].
  apply In_nth with (d := []) in Hc. destruct Hc as [j [Hj Ej]].
  assert (L := col_len f j Hw Hj). assert (Lp := len_pos f Hw).
  destruct (vscale_col_attained c) as [x [Hx Ex]]; [rewrite <- Ej, L; exact Lp|].
  exists j, x. split; [exact Hj|]. split; [exact Hx|]. rewrite Ea, Ex, Rabs_Rabsolu. unfold ev. rewrite Ej. reflexivity.
Qed.
Lemma vscl_grid f i j : wf f -> (j < ncols f)%nat -> (i < len f)%nat ->
  Rabs (ev f j (nth i (chebpts_type2_compute (len f)) 0)) <= vscl (coeffs f).
Proof.
  intros Hw Hj Hi. assert (L := col_len f j Hw Hj). unfold ev, vscl.
  eapply Rle_trans.
  - rewrite <- L. apply vscale_col_grid; rewrite L; [apply len_pos; exact Hw|exact Hi].
  - rewrite <- (Rabs_right (vscale_col (nth j (coeffs f) []))) by (apply Rle_ge, vscale_col_nonneg).
    apply fmax_abs_ge. apply in_map. apply nth_In. exact Hj.
Qed.
Lemma vscl_le_bound f M : wf f -> (forall j x, (j < ncols f)%nat -> -1 <= x <= 1 -> Rabs (ev f j x) <= M) ->
  vscl (coeffs f) <= M.
Proof. intros Hw H. destruct (vscl_attained f Hw) as [j [x [Hj [Hx E]]]]. rewrite E. apply H; assumption. Qed.

Lemma nth_map_combine_gen {A B C} (g : A -> B -> C) (l1 : list A) (l2 : list B) da db dc j :
  length l1 = length l2 -> (j < length l1)%nat ->
  nth j (map (fun '(a, b) => g a b) (combine l1 l2)) dc = g (nth j l1 da) (nth j l2 db).
Proof.
  revert l2 j. induction l1 as [|a l1 IH]; intros [|b l2] j H Hj; try discriminate; [simpl in Hj; lia|].
  destruct j as [|j]; [reflexivity|]. cbn [combine map nth]. apply IH; simpl in *; lia.
Qed.

(** ** addition *)
Definition addl (c d : list R) : list R := map (fun '(a, b) => a + b) (combine c d).
Lemma addl_length c d : length c = length d -> length (addl c d) = length c.
Proof. intros H. unfold addl. rewrite map_length, combine_length. lia. Qed.
Lemma addl_nth c d k : length c = length d -> nth k (addl c d) 0 = nth k c 0 + nth k d 0.
Proof.
  intros H. unfold addl. destruct (Nat.lt_ge_cases k (length c)) as [Hk|Hk].
  - apply (nth_map_combine_gen (fun a b => a + b)); assumption.
  - rewrite !nth_overflow by (rewrite ?map_length, ?combine_length; lia). ring.
Qed.
Lemma addl_eval c d x : length c = length d -> evalT (addl c d) x = evalT c x + evalT d x.
Proof.
  intros H. unfold evalT. rewrite addl_length by exact H. rewrite <- H, <- rsum_plus.
  apply rsum_ext. intros k _. rewrite addl_nth by exact H. ring.
Qed.

(** column of the second operand that meets column j of the first *)
Definition bc (B : arr) (j : nat) : nat := if Nat.eqb (length B) 1 then 0%nat else j.

Lemma nth_map_combine (g : list R -> list R -> list R) (A B : arr) j :
  length A = length B -> (j < length A)%nat ->
  nth j (map (fun '(c, d) => g c d) (combine A B)) [] = g (nth j A []) (nth j B []).
Proof.
  intros H Hj. apply nth_map_combine_gen; assumption.
Qed.

Lemma add_cols_spec n A B : rect n A -> rect n B -> (length B = length A \/ length B = 1%nat) ->
  exists C, add_cols A B = Some C /\ rect n C /\ length C = length A /\
    forall j, (j < length A)%nat -> nth j C [] = addl (nth j A []) (nth j B []) \/
                                     (length B = 1%nat /\ nth j C [] = addl (nth j A []) (nth 0 B [])).
Proof.
  intros RA RB Hl. unfold add_cols. destruct (Nat.eqb_spec (length A) (length B)) as [E|E].
  - eexists. split; [reflexivity|].
    assert (LC : length (map (fun '(c, d) => map (fun '(a, b) => a + b) (combine c d)) (combine A B)) = length A)
      by (rewrite map_length, combine_length; lia).
    assert (HN : forall j, (j < length A)%nat ->
      nth j (map (fun '(c, d) => map (fun '(a, b) => a + b) (combine c d)) (combine A B)) [] = addl (nth j A []) (nth j B []))
      by (intros j Hj; apply (nth_map_combine addl); assumption).
    split; [|split; [exact LC|intros j Hj; left; apply HN; exact Hj]].
    split; [apply RA|]. split.
    + intros H. apply (f_equal (@length (list R))) in H. rewrite LC in H. assert (H2 := rect_cols n A RA). simpl in H. lia.
    + apply List.Forall_forall. intros c Hc. apply In_nth with (d := []) in Hc. destruct Hc as [j [Hj <-]].
      rewrite LC in Hj. rewrite HN by exact Hj. rewrite addl_length; rewrite ?(rect_nth n A j RA Hj); [reflexivity|].
      symmetry. apply (rect_nth n B j RB). lia.
  - destruct Hl as [Hl|Hl]; [lia|]. destruct B as [|d [|]]; try discriminate.
    eexists. split; [reflexivity|].
    assert (Ld : length d = n) by (apply (rect_nth n [d] 0 RB); simpl; lia).
    split; [|split; [apply map_length|]].
    + apply (rect_map n); [exact RA|apply RA|]. intros c Hc. fold (addl c d). rewrite addl_length; lia.
    + intros j Hj. right. split; [reflexivity|]. rewrite (nth_map_col (fun c => map (fun '(a, b) => a + b) (combine c d))) by exact Hj.
      reflexivity.
Qed.

Lemma prolong_id n A : rect n A -> prolong A (Z.of_nat n) = A.
Proof.
  intros [_ [_ HF]]. rewrite List.Forall_forall in HF. unfold prolong. rewrite <- (map_id A) at 2.
  apply map_ext_in. intros c Hc. unfold prolong1. rewrite (HF c Hc), Z.sub_diag. reflexivity.
Qed.

Lemma add_coeffs_spec f g : wf f -> wf g -> (ncols g = ncols f \/ ncols g = 1%nat) ->
  exists C, add_coeffs (coeffs f) (coeffs g) = Some C /\ rect (Nat.max (len f) (len g)) C /\
    length C = ncols f /\
    forall j, (j < ncols f)%nat ->
      (forall k, nth k (nth j C []) 0 = coef f j k + coef g (bc (coeffs g) j) k) /\
      (forall x, evalT (nth j C []) x = ev f j x + ev g (bc (coeffs g) j) x).
Proof.
  intros Hf Hg Hm. set (N := Nat.max (len f) (len g)).
  assert (Rf := wf_rect f Hf). assert (Rg := wf_rect g Hg).
  assert (Lf := len_pos f Hf). assert (Lg := len_pos g Hg).
  unfold add_coeffs. fold (len f) (len g).
  assert (EA : (if Nat.ltb (len f) (len g) then prolong (coeffs f) (Z.of_nat (len g)) else coeffs f)
               = prolong (coeffs f) (Z.of_nat N)).
  { destruct (Nat.ltb_spec (len f) (len g)).
    - unfold N. rewrite Nat.max_r by lia. reflexivity.
    - unfold N. rewrite Nat.max_l by lia. symmetry. apply prolong_id. exact Rf. }
  assert (EB : (if Nat.ltb (len g) (len f) then prolong (coeffs g) (Z.of_nat (len f)) else coeffs g)
               = prolong (coeffs g) (Z.of_nat N)).
  { destruct (Nat.ltb_spec (len g) (len f)).
    - unfold N. rewrite Nat.max_l by lia. reflexivity.
    - unfold N. rewrite Nat.max_r by lia. symmetry. apply prolong_id. exact Rg. }
  cbv zeta. rewrite EA, EB.
  assert (RA : rect N (prolong (coeffs f) (Z.of_nat N))) by (apply (rect_prolong (len f)); [exact Rf|unfold N; lia]).
  assert (RB : rect N (prolong (coeffs g) (Z.of_nat N))) by (apply (rect_prolong (len g)); [exact Rg|unfold N; lia]).
  destruct (add_cols_spec N _ _ RA RB) as [C [E [RC [LC HC]]]].
  { unfold prolong. rewrite !map_length. exact Hm. }
  unfold prolong in LC. rewrite map_length in LC. fold (ncols f) in LC.
  exists C. split; [exact E|]. split; [exact RC|]. split; [exact LC|].
  intros j Hj.
  assert (HCj : nth j C [] = addl (prolong1 (nth j (coeffs f) []) (Z.of_nat N))
                                  (prolong1 (nth (bc (coeffs g) j) (coeffs g) []) (Z.of_nat N))).
  { assert (J : (j < length (prolong (coeffs f) (Z.of_nat N)))%nat) by (unfold prolong; rewrite map_length; exact Hj).
    assert (G1 : ncols g = 1%nat -> bc (coeffs g) j = 0%nat).
    { intros H. unfold bc. unfold ncols in H. rewrite H. reflexivity. }
    destruct (HC j J) as [H|[H1 H]]; rewrite H, nth_prolong by exact Hj.
    - destruct Hm as [Hm|Hm].
      + unfold bc. destruct (Nat.eqb_spec (length (coeffs g)) 1) as [E1|E1].
        * assert (j = 0)%nat as -> by (unfold ncols in *; lia). rewrite nth_prolong by (unfold ncols in *; lia). reflexivity.
        * rewrite nth_prolong by (unfold ncols in *; lia). reflexivity.
      + rewrite (G1 Hm). destruct (Nat.eq_dec j 0) as [->|Hj0]; [rewrite nth_prolong by (unfold ncols in *; lia); reflexivity|].
        exfalso. (* lengths differ, so add_cols took the broadcasting branch *)
        assert (Hlen := rect_nth N C j RC ltac:(lia)). rewrite H in Hlen.
        unfold addl in Hlen. rewrite map_length, combine_length in Hlen.
        rewrite (nth_overflow (prolong (coeffs g) (Z.of_nat N))) in Hlen
          by (unfold prolong; rewrite map_length; unfold ncols in Hm; lia).
        simpl in Hlen. rewrite Nat.min_0_r in Hlen. unfold N in Hlen. lia.
    - assert (Hm1 : ncols g = 1%nat) by (unfold prolong in H1; rewrite map_length in H1; exact H1).
      rewrite (G1 Hm1). rewrite nth_prolong by (unfold ncols in *; lia). reflexivity. }
  assert (Hbc : (bc (coeffs g) j < ncols g)%nat).
  { unfold bc. fold (ncols g). destruct (Nat.eqb_spec (ncols g) 1); lia. }
  assert (LL : length (prolong1 (nth j (coeffs f) []) (Z.of_nat N)) = length (prolong1 (nth (bc (coeffs g) j) (coeffs g) []) (Z.of_nat N)))
    by (rewrite !prolong1_length; reflexivity).
  split.
  - intros k. rewrite HCj, addl_nth by exact LL. rewrite !prolong1_mk, Nat2Z.id. unfold coef.
    destruct (Nat.lt_ge_cases k N) as [Hk|Hk]; [rewrite !nth_mk by exact Hk; reflexivity|].
    rewrite !nth_mk_out by exact Hk.
    rewrite !nth_overflow; [ring| |]; rewrite col_len by assumption; unfold N in Hk; lia.
  - intros x. rewrite HCj, addl_eval by exact LL. rewrite !prolong1_eval; [reflexivity| |];
      rewrite col_len by assumption; unfold N; lia.
Qed.

Lemma forallb_map_true {A} (p : A -> bool) l : forallb p l = true <-> forall a, In a l -> p a = true.
Proof. apply forallb_forall. Qed.

Lemma add_correct f g : wf f -> wf g -> (ncols g = ncols f \/ ncols g = 1%nat) ->
  exists h, add f g = Some h /\ wf h /\ ncols h = ncols f /\ eps h = Rmax (eps f) (eps g) /\
   ((len h = Nat.max (len f) (len g) /\
     forall j x, (j < ncols f)%nat -> ev h j x = ev f j x + ev g (bc (coeffs g) j) x)
    \/
    ((forall j k, (j < ncols f)%nat -> (k < Nat.max (len f) (len g))%nat ->
        Rabs (coef f j k + coef g (bc (coeffs g) j) k)
          < 2/10 * (eps f * Rmax (vscl (coeffs f)) (vscl (coeffs g)))) /\
     len h = 1%nat /\ forall j x, (j < ncols f)%nat -> ev h j x = 0)).
Proof.
  intros Hf Hg Hm. destruct (add_coeffs_spec f g Hf Hg Hm) as [C [E [RC [LC HC]]]].
  unfold add. rewrite E. destruct (forallb _ C) eqn:Es.
  - assert (RZ : rect 1 (map (fun _ : list R => [0]) (coeffs f))).
    { apply (rect_map (len f) 1 (fun _ => [0])); [apply wf_rect; exact Hf|lia|reflexivity]. }
    destruct (cheb_init_some 1 _ (Rmax (eps f) (eps g)) 1 maxLength_default (ishappy f && ishappy g) RZ) as [hp [Ei _]].
    eexists. split; [exact Ei|]. split; [eexists; exact RZ|]. split; [unfold ncols; cbn [coeffs]; apply map_length|].
    split; [reflexivity|]. right. split; [|split].
    + intros j k Hj Hk. destruct (HC j Hj) as [HC1 _]. rewrite <- HC1.
      rewrite forallb_forall in Es. specialize (Es (nth j C []) ltac:(apply nth_In; lia)).
      rewrite forallb_forall in Es. specialize (Es (nth k (nth j C []) 0)).
      apply Rltb_true. apply Es. apply nth_In. rewrite (rect_nth _ C j RC) by lia. exact Hk.
    + unfold len. apply (rect_nrows 1). exact RZ.
    + intros j x Hj. unfold ev. cbn [coeffs]. rewrite (nth_map_col (fun _ => [0])) by exact Hj.
      unfold evalT. simpl. ring.
  - destruct (cheb_init_some _ C (Rmax (eps f) (eps g)) 1 maxLength_default (ishappy f && ishappy g) RC) as [hp [Ei _]].
    eexists. split; [exact Ei|]. split; [eexists; exact RC|]. split; [exact LC|]. split; [reflexivity|].
    left. split; [apply (rect_nrows _ C RC)|]. intros j x Hj. unfold ev at 1. cbn [coeffs]. apply HC. exact Hj.
Qed.

(** error of the snap on [-1,1] *)
Lemma add_error f g M : wf f -> wf g -> (ncols g = ncols f \/ ncols g = 1%nat) -> 0 <= eps f ->
  (forall j x, (j < ncols f)%nat -> -1 <= x <= 1 -> Rabs (ev f j x) <= M) ->
  (forall j x, (j < ncols g)%nat -> -1 <= x <= 1 -> Rabs (ev g j x) <= M) ->
  exists h, add f g = Some h /\ forall j x, (j < ncols f)%nat -> -1 <= x <= 1 ->
    Rabs (ev h j x - (ev f j x + ev g (bc (coeffs g) j) x))
      <= INR (Nat.max (len f) (len g)) * (2/10 * (eps f * M)).
Proof.
  intros Hf Hg Hm He HMf HMg.
  assert (HM0 : 0 <= M).
  { eapply Rle_trans; [|apply (HMf 0%nat 0); [apply ncols_wf; exact Hf|lra]]. apply Rabs_pos. }
  assert (HV : Rmax (vscl (coeffs f)) (vscl (coeffs g)) <= M).
  { apply Rmax_lub; [apply (vscl_le_bound f)|apply (vscl_le_bound g)]; assumption. }
  destruct (add_correct f g Hf Hg Hm) as [h [E [_ [_ [_ H]]]]]. exists h. split; [exact E|].
  intros j x Hj Hx.
  assert (Hpos : 0 <= INR (Nat.max (len f) (len g)) * (2/10 * (eps f * M))).
  { apply Rmult_le_pos; [apply pos_INR|]. apply Rmult_le_pos; [lra|]. apply Rmult_le_pos; lra. }
  destruct H as [[_ H]|[H1 [_ H2]]].
  - rewrite (H j x Hj), Rminus_diag_eq, Rabs_R0 by reflexivity. exact Hpos.
  - rewrite (H2 j x Hj).
    destruct (add_coeffs_spec f g Hf Hg Hm) as [C [_ [RC [LC HC]]]].
    destruct (HC j Hj) as [HC1 HC2]. rewrite <- HC2.
    rewrite Rminus_0_l, Rabs_Ropp. unfold evalT. rewrite (rect_nth _ C j RC) by lia.
    eapply Rle_trans; [apply rsum_Rabs|]. rewrite <- rsum_const. apply rsum_le. intros k Hk.
    rewrite Rabs_mult, HC1. specialize (H1 j k Hj Hk). assert (HT := T_bound k x Hx).
    assert (Q : 2 / 10 * (eps f * Rmax (vscl (coeffs f)) (vscl (coeffs g))) <= 2 / 10 * (eps f * M)).
    { apply Rmult_le_compat_l; [lra|]. apply Rmult_le_compat_l; [exact He|exact HV]. }
    assert (P1 := Rabs_pos (T k x)). assert (P2 := Rabs_pos (coef f j k + coef g (bc (coeffs g) j) k)). nra.
Qed.

(** ** in-place addition f += g *)
Lemma add_prolonged_spec f g : wf f -> wf g ->
  let '(f', g') := add_prolonged f g in
  rect (Nat.max (len f) (len g)) (coeffs f') /\ rect (Nat.max (len f) (len g)) (coeffs g') /\
  ncols f' = ncols f /\ ncols g' = ncols g /\
  (forall j x, ev f' j x = ev f j x) /\ (forall j x, ev g' j x = ev g j x) /\
  coeffs f' = prolong (coeffs f) (Z.of_nat (Nat.max (len f) (len g))) /\
  coeffs g' = prolong (coeffs g) (Z.of_nat (Nat.max (len f) (len g))).
Proof.
  intros Hf Hg. set (N := Nat.max (len f) (len g)). unfold add_prolonged. fold (len f) (len g).
  assert (G : forall h (o : nat), wf h -> N = Nat.max (len h) o ->
    let h' := if Nat.ltb (len h) o then with_coeffs h (prolong (coeffs h) (Z.of_nat o)) else h in
    rect N (coeffs h') /\ ncols h' = ncols h /\ (forall j x, ev h' j x = ev h j x) /\
    coeffs h' = prolong (coeffs h) (Z.of_nat N)).
  { intros h o Hh HN. assert (Rh := wf_rect h Hh). destruct (Nat.ltb_spec (len h) o).
    - cbv zeta. unfold with_coeffs, ncols, ev. cbn [coeffs]. replace N with o by lia.
      split; [apply (rect_prolong (len h)); [exact Rh|lia]|].
      split; [unfold prolong; apply map_length|]. split; [|reflexivity].
      intros j x. destruct (Nat.lt_ge_cases j (ncols h)) as [Hj|Hj].
      + rewrite nth_prolong by exact Hj. apply prolong1_eval. rewrite col_len by assumption. lia.
      + rewrite !nth_overflow; [reflexivity|exact Hj|unfold prolong; rewrite map_length; exact Hj].
    - cbv zeta. replace N with (len h) by lia. split; [exact Rh|]. split; [reflexivity|].
      split; [reflexivity|]. symmetry. apply prolong_id. exact Rh. }
  destruct (G f (len g) Hf eq_refl) as [A1 [A2 [A3 A4]]].
  destruct (G g (len f) Hg (Nat.max_comm _ _)) as [B1 [B2 [B3 B4]]].
  cbv zeta in *. repeat split; try assumption; try apply A1; try apply B1.
Qed.

Lemma iadd_correct f g : wf f -> wf g -> (ncols g = ncols f \/ ncols g = 1%nat) ->
  exists f' g', iadd f g = Some (f', g') /\ wf f' /\ wf g' /\ ncols f' = ncols f /\ ncols g' = ncols g /\
    (forall j x, (j < ncols f)%nat -> ev f' j x = ev f j x + ev g (bc (coeffs g) j) x) /\
    (forall j x, ev g' j x = ev g j x).
Proof.
  intros Hf Hg Hm. unfold iadd. assert (H := add_prolonged_spec f g Hf Hg).
  destruct (add_prolonged f g) as [f' g']. destruct H as [R1 [R2 [N1 [N2 [E1 [E2 [P1 P2]]]]]]].
  destruct (add_coeffs_spec f g Hf Hg Hm) as [C [E [RC [LC HC]]]].
  assert (EC : add_cols (coeffs f') (coeffs g') = Some C).
  { rewrite <- E. unfold add_coeffs. fold (len f) (len g). cbv zeta. rewrite P1, P2.
    assert (Rf := wf_rect f Hf). assert (Rg := wf_rect g Hg).
    destruct (Nat.ltb_spec (len f) (len g)); destruct (Nat.ltb_spec (len g) (len f)); try lia.
    - rewrite Nat.max_r by lia. rewrite (prolong_id (len g) (coeffs g) Rg). reflexivity.
    - rewrite Nat.max_l by lia. rewrite (prolong_id (len f) (coeffs f) Rf). reflexivity.
    - assert (EE : len f = len g) by lia. rewrite Nat.max_l by lia. rewrite (prolong_id (len f) (coeffs f) Rf).
      rewrite EE, (prolong_id (len g) (coeffs g) Rg). reflexivity. }
  rewrite EC. eexists _, g'. split; [reflexivity|]. split; [eexists; exact RC|]. split; [eexists; exact R2|].
  split; [exact LC|]. split; [exact N2|]. split; [|exact E2].
  intros j x Hj. unfold ev at 1. cbn [coeffs]. apply HC. exact Hj.
Qed.

(** ** negation, scaling, constants *)
Definition scall (a : R) (c : list R) : list R := map (fun b => b * a) c.
Lemma evalT_map_scal (s : R -> R) a c x : (forall b, s b = a * b) -> evalT (map s c) x = a * evalT c x.
Proof.
  intros H. unfold evalT. rewrite map_length, <- rsum_scal. apply rsum_ext. intros k Hk.
  rewrite nth_map_R by exact Hk. rewrite H. ring.
Qed.

Lemma init_map_correct f (g : list R -> list R) e h ml hp (G : nat -> R -> R) :
  wf f -> (forall c, length (g c) = length c) ->
  (forall j x, (j < ncols f)%nat -> evalT (g (nth j (coeffs f) [])) x = G j x) ->
  exists r, cheb_init (map g (coeffs f)) e h ml hp false = Some r /\ wf r /\ ncols r = ncols f /\
    len r = len f /\ eps r = e /\ hscale r = h /\ maxLength r = ml /\ (hp = true -> ishappy r = true) /\
    forall j x, (j < ncols f)%nat -> ev r j x = G j x.
Proof.
  intros Hw Hg HG.
  assert (R1 : rect (len f) (map g (coeffs f))).
  { apply (rect_map (len f)); [apply wf_rect; exact Hw|apply len_pos; exact Hw|]. intros c Hc. rewrite Hg. exact Hc. }
  destruct (cheb_init_some (len f) _ e h ml hp R1) as [hp' [E Hhp]].
  eexists. split; [exact E|]. split; [eexists; exact R1|]. split; [unfold ncols; cbn [coeffs]; apply map_length|].
  split; [unfold len at 1; cbn [coeffs]; apply rect_nrows; exact R1|].
  repeat split; [exact Hhp|]. intros j x Hj. unfold ev. cbn [coeffs]. rewrite nth_map_col by exact Hj. apply HG. exact Hj.
Qed.

Lemma negative_correct f : wf f -> exists r, negative f = Some r /\ wf r /\ ncols r = ncols f /\
  len r = len f /\ eps r = eps f /\ forall j x, (j < ncols f)%nat -> ev r j x = - ev f j x.
Proof.
  intros Hw. unfold negative.
  destruct (init_map_correct f (map (fun a => -1 * a)) (eps f) 1 (maxLength f) (ishappy f) (fun j x => - ev f j x) Hw)
    as [r [E [H1 [H2 [H3 [H4 [_ [_ [_ H5]]]]]]]]].
  - intros c. apply map_length.
  - intros j x Hj. rewrite (evalT_map_scal _ (-1)) by (intros; ring). unfold ev. ring.
  - exists r. repeat split; assumption.
Qed.

Lemma multiply_number_correct f a : wf f -> exists r, multiply_number f a = Some r /\ wf r /\ ncols r = ncols f /\
  len r = len f /\ eps r = eps f /\ forall j x, (j < ncols f)%nat -> ev r j x = a * ev f j x.
Proof.
  intros Hw. unfold multiply_number.
  destruct (init_map_correct f (map (fun c => c * a)) (eps f) 1 maxLength_default (ishappy f) (fun j x => a * ev f j x) Hw)
    as [r [E [H1 [H2 [H3 [H4 [_ [_ [_ H5]]]]]]]]].
  - intros c. apply map_length.
  - intros j x Hj. rewrite (evalT_map_scal _ a) by (intros; ring). reflexivity.
  - exists r. repeat split; assumption.
Qed.

Lemma add_row_correct f row : wf f -> length row = ncols f -> exists r, add_row f row = Some r /\ wf r /\
  ncols r = ncols f /\ len r = len f /\ eps r = eps f /\
  forall j x, (j < ncols f)%nat -> ev r j x = ev f j x + nth j row 0.
Proof.
  intros Hw Hl. unfold add_row. fold (ncols f). rewrite Hl, Nat.eqb_refl.
  set (B := map (fun '(c, a) => upd c 0 (nth 0 c 0 + a)) (combine (coeffs f) row)).
  assert (LB : length B = ncols f) by (unfold B; rewrite map_length, combine_length, Hl; apply Nat.min_id).
  assert (HB : forall j, (j < ncols f)%nat -> nth j B [] = upd (nth j (coeffs f) []) 0 (nth 0 (nth j (coeffs f) []) 0 + nth j row 0)).
  { intros j Hj. unfold B.
    apply (nth_map_combine_gen (fun c a => upd c 0 (nth 0 c 0 + a))); [symmetry; exact Hl|exact Hj]. }
  assert (RB : rect (len f) B).
  { split; [apply len_pos; exact Hw|]. split.
    - intros H. rewrite H in LB. assert (H1 := ncols_wf f Hw). simpl in LB. lia.
    - apply List.Forall_forall. intros c Hc. apply In_nth with (d := []) in Hc. destruct Hc as [j [Hj <-]].
      rewrite LB in Hj. rewrite HB by exact Hj. rewrite upd_length. apply col_len; assumption. }
  destruct (cheb_init_some (len f) B (eps f) 1 maxLength_default (ishappy f) RB) as [hp [E _]].
  eexists. split; [exact E|]. split; [eexists; exact RB|]. split; [exact LB|].
  split; [apply (rect_nrows (len f) B RB)|]. split; [reflexivity|].
  intros j x Hj. unfold ev. cbn [coeffs]. rewrite HB by exact Hj.
  rewrite evalT_upd0 by (rewrite col_len by assumption; apply len_pos; exact Hw). ring.
Qed.

Lemma add_number_correct f a : wf f -> exists r, add_number f a = Some r /\ wf r /\
  ncols r = ncols f /\ len r = len f /\ eps r = eps f /\
  forall j x, (j < ncols f)%nat -> ev r j x = ev f j x + a.
Proof.
  intros Hw. unfold add_number.
  destruct (add_row_correct f (map (fun _ => a) (coeffs f)) Hw) as [r [E [H1 [H2 [H3 [H4 H5]]]]]]; [apply map_length|].
  exists r. repeat split; try assumption. intros j x Hj. rewrite H5 by exact Hj.
  rewrite (nth_indep _ 0 a) by (rewrite map_length; exact Hj).
  f_equal. rewrite (map_nth (fun _ : list R => a) (coeffs f) [] j). reflexivity.
Qed.

Lemma subtract_correct f g : wf f -> wf g -> (ncols g = ncols f \/ ncols g = 1%nat) ->
  exists h, subtract f g = Some h /\ wf h /\ ncols h = ncols f /\
   ((forall j x, (j < ncols f)%nat -> ev h j x = ev f j x - ev g (bc (coeffs g) j) x)
    \/
    ((forall j k, (j < ncols f)%nat -> (k < Nat.max (len f) (len g))%nat ->
        Rabs (coef f j k - coef g (bc (coeffs g) j) k)
          < 2/10 * (eps f * Rmax (vscl (coeffs f)) (vscl (coeffs g)))) /\
     len h = 1%nat /\ forall j x, (j < ncols f)%nat -> ev h j x = 0)).
Proof.
  intros Hf Hg Hm. unfold subtract.
  assert (Rg : rect (len g) (map (map (fun a => -1 * a)) (coeffs g))).
  { apply (rect_map (len g)); [apply wf_rect; exact Hg|apply len_pos; exact Hg|]. intros c Hc. rewrite map_length. exact Hc. }
  unfold negative.
  destruct (cheb_init_some (len g) _ (eps g) 1 (maxLength g) (ishappy g) Rg) as [hp [E _]]. rewrite E.
  set (g' := mkCheb (map (map (fun a => -1 * a)) (coeffs g)) (eps g) 1 (maxLength g) hp).
  assert (Wg : wf g') by (exists (len g); exact Rg).
  assert (Ng : ncols g' = ncols g) by (unfold ncols, g'; cbn [coeffs]; apply map_length).
  assert (Lg : len g' = len g) by (apply (rect_nrows (len g)); exact Rg).
  assert (Bg : forall j, bc (coeffs g') j = bc (coeffs g) j).
  { intros j. unfold bc. fold (ncols g') (ncols g). rewrite Ng. reflexivity. }
  assert (Hbc : forall j, (j < ncols f)%nat -> (bc (coeffs g) j < ncols g)%nat).
  { intros j Hj. unfold bc. fold (ncols g). destruct (Nat.eqb_spec (ncols g) 1); lia. }
  assert (Cg : forall j k, (j < ncols g)%nat -> coef g' j k = - coef g j k).
  { intros j k Hj. unfold coef, g'. cbn [coeffs]. rewrite nth_map_col by exact Hj.
    destruct (Nat.lt_ge_cases k (length (nth j (coeffs g) []))) as [Hk|Hk].
    - rewrite nth_map_R by exact Hk. ring.
    - rewrite !nth_overflow by (rewrite ?map_length; exact Hk). ring. }
  assert (Eg : forall j x, (j < ncols g)%nat -> ev g' j x = - ev g j x).
  { intros j x Hj. unfold ev, g'. cbn [coeffs]. rewrite nth_map_col by exact Hj.
    rewrite (evalT_map_scal _ (-1)) by (intros; ring). ring. }
  assert (Vg : vscl (coeffs g') = vscl (coeffs g)).
  { unfold vscl, g'. cbn [coeffs]. rewrite map_map. f_equal. apply map_ext_in. intros c Hc.
    unfold vscale_col. rewrite map_length. destruct (Nat.eqb_spec (length c) 1) as [E1|E1].
    - rewrite nth_map_R by lia. replace (-1 * nth 0 c 0) with (- nth 0 c 0) by ring. apply Rabs_Ropp.
    - assert (L : length c = len g).
      { destruct (wf_rect g Hg) as [_ [_ HF]]. rewrite List.Forall_forall in HF. apply HF. exact Hc. }
      assert (Lp := len_pos g Hg).
      assert (EP : polyval1 (map (fun a => -1 * a) c) = map Ropp (polyval1 c)).
      { apply list_ext with 0; [rewrite map_length, !polyval1_length, map_length; reflexivity|].
        intros k Hk. rewrite polyval1_length, map_length in Hk.
        rewrite nth_map_R by (rewrite polyval1_length; exact Hk).
        rewrite !polyval1_spec by (rewrite ?map_length; lia). rewrite map_length.
        rewrite (evalT_map_scal _ (-1)) by (intros; ring). ring. }
      rewrite EP. unfold fmax_abs. generalize (polyval1 c). intros l.
      induction l as [|a l IH]; [reflexivity|]. cbn [map fold_right]. rewrite IH, Rabs_Ropp. reflexivity. }
  destruct (add_correct f g' Hf Wg) as [h [Eh [Wh [Nh [_ H]]]]]; [rewrite Ng; exact Hm|].
  exists h. split; [exact Eh|]. split; [exact Wh|]. split; [exact Nh|].
  rewrite Lg, Vg in H. destruct H as [[_ H]|[H1 [H2 H3]]].
  - left. intros j x Hj. rewrite (H j x Hj), Bg, Eg by (apply Hbc; exact Hj). ring.
  - right. split; [|split; [exact H2|exact H3]]. intros j k Hj Hk. specialize (H1 j k Hj Hk).
    rewrite Bg, Cg in H1 by (apply Hbc; exact Hj). exact H1.
Qed.

(** ** reflection, columns, copies *)
Lemma flipud_correct f : wf f -> exists r, flipud f = Some r /\ wf r /\ ncols r = ncols f /\ len r = len f /\
  same_params f r /\ forall j x, (j < ncols f)%nat -> ev r j x = ev f j (- x).
Proof.
  intros Hw. unfold flipud.
  destruct (init_map_correct f flip_signs (eps f) (hscale f) (maxLength f) (ishappy f) (fun j x => ev f j (- x)) Hw)
    as [r [E [H1 [H2 [H3 [H4 [H5 [H6 [_ H7]]]]]]]]].
  - apply flip_signs_length.
  - intros j x Hj. apply flip_signs_eval.
  - exists r. repeat split; assumption.
Qed.

Lemma lval_correct f j : (j < ncols f)%nat -> nth j (lval f) 0 = ev f j (-1).
Proof.
  intros Hj. unfold lval. rewrite (nth_indep _ 0 (lval1 [])) by (rewrite map_length; exact Hj).
  rewrite map_nth. apply lval1_eval.
Qed.
Lemma rval_correct f j : (j < ncols f)%nat -> nth j (rval f) 0 = ev f j 1.
Proof.
  intros Hj. unfold rval. rewrite (nth_indep _ 0 (rval1 [])) by (rewrite map_length; exact Hj).
  rewrite map_nth. apply rval1_eval.
Qed.

Lemma fliplr_correct f : wf f -> exists r, fliplr f = Some r /\ wf r /\ ncols r = ncols f /\ same_params f r /\
  forall j x, (j < ncols f)%nat -> ev r j x = ev f (ncols f - 1 - j) x.
Proof.
  intros Hw. unfold fliplr. assert (Rf := wf_rect f Hw).
  assert (RR : rect (len f) (rev (coeffs f))).
  { destruct Rf as [H1 [H2 H3]]. split; [exact H1|]. split.
    - intros H. apply H2. rewrite <- (rev_involutive (coeffs f)), H. reflexivity.
    - rewrite List.Forall_forall in *. intros c Hc. apply H3. apply in_rev. exact Hc. }
  destruct (cheb_init_some (len f) _ (eps f) (hscale f) (maxLength f) (ishappy f) RR) as [hp [E _]].
  eexists. split; [exact E|]. split; [eexists; exact RR|]. split; [unfold ncols; cbn [coeffs]; apply rev_length|].
  split; [repeat split|]. intros j x Hj. unfold ev. cbn [coeffs]. rewrite rev_nth by exact Hj.
  unfold ncols. replace (length (coeffs f) - S j)%nat with (length (coeffs f) - 1 - j)%nat by lia. reflexivity.
Qed.

Lemma getitem_correct f i : wf f ->
  (forall idx, (0 <= idx)%Z -> Z.to_nat idx = i -> (i < ncols f)%nat ->
     exists r, getitem f idx = Some r /\ wf r /\ ncols r = 1%nat /\ len r = len f /\ eps r = eps f /\ forall x, ev r 0 x = ev f i x) /\
  (forall idx, (idx < 0 \/ Z.of_nat (ncols f) <= idx)%Z -> getitem f idx = None).
Proof.
  intros Hw. split.
  - intros idx H0 Hi Hlt. unfold getitem. fold (ncols f).
    destruct (Z.ltb_spec idx 0); [lia|]. destruct (Z.leb_spec (Z.of_nat (ncols f)) idx); [lia|]. cbn [orb].
    rewrite Hi.
    assert (RR : rect (len f) [nth i (coeffs f) []]).
    { split; [apply len_pos; exact Hw|]. split; [discriminate|]. constructor; [apply col_len; assumption|constructor]. }
    destruct (cheb_init_some (len f) _ (eps f) 1 (maxLength f) (ishappy f) RR) as [hp [E _]].
    eexists. split; [exact E|]. split; [eexists; exact RR|]. split; [reflexivity|].
    split; [apply (rect_nrows (len f)); exact RR|]. split; [reflexivity|]. reflexivity.
  - intros idx H. unfold getitem. fold (ncols f).
    destruct (Z.ltb_spec idx 0); [reflexivity|]. destruct (Z.leb_spec (Z.of_nat (ncols f)) idx); [reflexivity|lia].
Qed.

Lemma deepcopy_correct f : wf f -> exists r, deepcopy f = Some r /\ coeffs r = coeffs f /\ eps r = eps f /\
  maxLength r = maxLength f /\ (ishappy f = true -> ishappy r = true) /\ hscale r = eps f.
Proof.
  intros Hw. unfold deepcopy.
  destruct (cheb_init_some (len f) (coeffs f) (eps f) (eps f) (maxLength f) (ishappy f) (wf_rect f Hw)) as [hp [E H]].
  eexists. split; [exact E|]. repeat split. exact H.
Qed.

Lemma divide_number_correct_len f a : wf f -> a <> 0 -> exists r, divide_number f a = Some r /\ wf r /\ ncols r = ncols f /\
  (1 <= len r <= len f + 1)%nat /\ eps r = eps f /\
  (forall j x, (j < ncols f)%nat -> ev r j x = evK f j (len r) x / a) /\
  (0 < eps f < 1 -> forall j k, (len r <= k)%nat -> Rabs (coef f j k / a) <= Rpower (eps f) (2 / 5)).
Proof.
  intros Hw Ha. set (d := mkCheb (map (map (fun c => c / a)) (coeffs f)) (eps f) 1 maxLength_default (ishappy f)).
  assert (Rd : rect (len f) (coeffs d)).
  { apply (rect_map (len f)); [apply wf_rect; exact Hw|apply len_pos; exact Hw|]. intros c Hc. rewrite map_length. exact Hc. }
  assert (Wd : wf d) by (exists (len f); exact Rd).
  assert (Ld : len d = len f) by (apply (rect_nrows (len f)); exact Rd).
  assert (Cd : forall j k, coef d j k = coef f j k / a).
  { intros j k. unfold coef, d. cbn [coeffs].
    destruct (Nat.lt_ge_cases j (length (coeffs f))) as [Hj|Hj].
    - rewrite nth_map_col by exact Hj. destruct (Nat.lt_ge_cases k (length (nth j (coeffs f) []))) as [Hk|Hk].
      + apply nth_map_R. exact Hk.
      + rewrite !nth_overflow by (rewrite ?map_length; exact Hk). field. exact Ha.
    - rewrite (nth_overflow (coeffs f)) by exact Hj. rewrite (nth_overflow (map _ _)) by (rewrite map_length; exact Hj).
      destruct k; simpl; field; exact Ha. }
  assert (Ed : forall j K x, evK d j K x = evK f j K x / a).
  { intros j K x. unfold evK, Rdiv. rewrite <- rsum_scal_r. apply rsum_ext. intros k _. rewrite Cd. field. exact Ha. }
  unfold divide_number, cheb_init. fold (coeffs d). change (map (map (fun c => c / a)) (coeffs f)) with (coeffs d).
  assert (H1 := rect_nrows _ _ Rd). assert (H2 := rect_cols _ _ Rd). assert (Lp := len_pos f Hw).
  destruct (Nat.eqb_spec (nrows (coeffs d) * length (coeffs d)) 0) as [E|E]; [nia|].
  assert (Hhp : exists hp, (if ishappy f then Some true else option_map fst (happy (coeffs d) (eps f) 1)) = Some hp).
  { destruct (ishappy f); [eexists; reflexivity|]. destruct (happy_total (coeffs d) (eps f) 1) as [[b k] Eh]; [apply Rd|].
    rewrite Eh. eexists; reflexivity. }
  destruct Hhp as [hp ->]. cbn [andb]. destruct hp.
  - destruct (simplify_spec d (eps f) Wd) as [K [Es HK]]. rewrite Es. cbn [option_map].
    eexists. split; [reflexivity|].
    assert (RK : rect K (prolong (coeffs d) (Z.of_nat K))) by (apply (rect_prolong (len f)); [exact Rd|apply HK]).
    split; [eexists; exact RK|]. match goal with |- context [len ?r] => replace (len r) with K by (symmetry; apply (rect_nrows K); exact RK) end. split; [unfold ncols, prolong, d; cbn [coeffs]; rewrite !map_length; reflexivity|].
    split; [destruct HK as [HK _]; rewrite Ld in HK; exact HK|]. split; [reflexivity|]. split.
    + intros j x Hj. unfold ev. cbn [coeffs]. rewrite nth_prolong by (unfold d; cbn [coeffs]; rewrite map_length; exact Hj).
      rewrite evK_prolong. apply Ed.
    + intros He j k Hk. rewrite <- Cd. apply (proj2 HK He). exact Hk.
  - eexists. split; [reflexivity|]. split; [eexists; exact Rd|]. fold d. change (len (mkCheb (coeffs d) (eps f) 1 maxLength_default false)) with (len d). rewrite Ld.
    split; [unfold ncols, d; cbn [coeffs]; apply map_length|]. split; [lia|]. split; [reflexivity|]. split.
    + intros j x Hj. rewrite <- Ed, evK_full; [reflexivity|exact Wd|lia].
    + intros He j k Hk. rewrite <- Cd. unfold coef.
      assert (HZ : nth k (nth j (coeffs d) []) 0 = 0).
      { destruct (Nat.lt_ge_cases j (ncols d)) as [Hj|Hj].
        - apply nth_overflow. rewrite col_len by assumption. lia.
        - rewrite (nth_overflow (coeffs d)) by exact Hj. destruct k; reflexivity. }
      rewrite HZ, Rabs_R0. left. apply exp_pos.
Qed.
Lemma divide_number_correct f a : wf f -> a <> 0 -> exists r K, divide_number f a = Some r /\ wf r /\ ncols r = ncols f /\
  (1 <= K <= len f + 1)%nat /\ eps r = eps f /\
  (forall j x, (j < ncols f)%nat -> ev r j x = evK f j K x / a) /\
  (0 < eps f < 1 -> forall j k, (K <= k)%nat -> Rabs (coef f j k / a) <= Rpower (eps f) (2 / 5)).
Proof. intros Hw Ha. destruct (divide_number_correct_len f a Hw Ha) as [r H]. exists r, (len r). exact H. Qed.
