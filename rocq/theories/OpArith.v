(** Operator arithmetic, constraints, adjoint. *)
From Coq Require Import Reals ZArith List Arith Bool Lra Lia.
From Coquelicot Require Import Coquelicot.
From Verif Require Import Base ChebSpec ChebMath ChebModel CosSums ChebDct ChebCalc ChebBary UltraSpec UltraModel UltraBasis UltraProofs UltraMult FunModel FunProofs ToolsProofs FnlModel FnlProofs OpSpec OpModel OpProofs OpSys.
Import ListNotations.
Open Scope R_scope.

Lemma evalT_cadd c d x : evalT (cadd c d) x = evalT c x + evalT d x.
Proof.
  unfold cadd. rewrite evalT_mk. rewrite (evalT_ge c x (Nat.max (length c) (length d))), (evalT_ge d x (Nat.max (length c) (length d))) by lia.
  rewrite <- rsum_plus. apply rsum_ext. intros; ring.
Qed.
Lemma evalT_cneg c x : evalT (cneg c) x = - evalT c x.
Proof.
  unfold cneg, evalT. rewrite map_length, <- rsum_opp. apply rsum_ext. intros k _. replace 0 with (- 0) at 1 by ring. rewrite (map_nth Ropp). ring.
Qed.
Lemma lin_op_split a b cs ics ints u x : lin_op a b cs ics ints u x = lin_op a b cs [] [] u x + lin_op a b [] ics ints u x.
Proof. unfold lin_op. cbn [length rsum]. ring. Qed.

Lemma q_add_correct a b q r s u x : q_add q r = Some s ->
  length (q_coeffs q) = length (q_coeffs r) -> q_ics q = [] \/ q_ics r = [] ->
  lin_op a b (q_coeffs s) (q_ics s) (q_ints s) u x =
  lin_op a b (q_coeffs q) (q_ics q) (q_ints q) u x + lin_op a b (q_coeffs r) (q_ics r) (q_ints r) u x.
Proof.
  intros E LC H. unfold q_add, loop_add in E. rewrite LC, Nat.leb_refl in E.
  assert (D : forall cs', cs' = mk (length (q_coeffs r)) (fun i => cadd (nth i (q_coeffs q) []) (nth i (q_coeffs r) [])) ->
    lin_op a b cs' [] [] u x = lin_op a b (q_coeffs q) [] [] u x + lin_op a b (q_coeffs r) [] [] u x).
  { intros cs' ->. unfold lin_op. cbn [length rsum]. rewrite mk_length, LC. rewrite !Rplus_0_r, <- rsum_plus. apply rsum_ext. intros j Hj.
    rewrite nth_mk by exact Hj. unfold ufun. rewrite evalT_cadd. ring. }
  assert (Z : forall l, lin_op a b [] [] l u x = 0) by (intros; unfold lin_op; cbn [length rsum]; ring).
  rewrite (lin_op_split a b (q_coeffs s)), (lin_op_split a b (q_coeffs q)), (lin_op_split a b (q_coeffs r)).
  destruct (Nat.eqb (length (q_info q)) (length (q_info r))); [|discriminate].
  destruct (q_ics q) as [|c1 l1] eqn:E1.
  - injection E as <-. cbn [q_coeffs q_ics q_ints]. rewrite (D _ eq_refl), Z. ring.
  - destruct H as [H|H]; [discriminate|]. rewrite H in *. injection E as <-. cbn [q_coeffs q_ics q_ints]. rewrite (D _ eq_refl), Z. ring.
Qed.
Lemma q_add_defined q r : length (q_coeffs q) = length (q_coeffs r) -> length (q_info q) = length (q_info r) -> q_ics q = [] \/ q_ics r = [] ->
  exists s, q_add q r = Some s.
Proof.
  intros L LI H. unfold q_add, loop_add. rewrite L, Nat.leb_refl, LI, Nat.eqb_refl.
  destruct (q_ics q) eqn:E; [eexists; reflexivity|]. destruct H as [H|H]; [discriminate|]. rewrite H. eexists; reflexivity.
Qed.
Lemma q_add_flags q r s : q_add q r = Some s -> length (q_coeffs q) = length (q_coeffs r) -> length (q_info q) = S (length (q_coeffs q)) ->
  q_ics q = [] \/ q_ics r = [] ->
  flags_ok (q_info q) (q_coeffs q) (q_ics q) (q_ints q) -> flags_ok (q_info r) (q_coeffs r) (q_ics r) (q_ints r) ->
  flags_ok (q_info s) (q_coeffs s) (q_ics s) (q_ints s).
Proof.
  intros E LC Lq H [F1 F2] [G1 G2]. unfold q_add, loop_add in E. rewrite LC, Nat.leb_refl in E.
  destruct (Nat.eqb_spec (length (q_info q)) (length (q_info r))) as [LI|]; [|discriminate].
  assert (La : last (mk (length (q_info q)) (fun i => nth i (q_info q) false || nth i (q_info r) false)) false = last (q_info q) false || last (q_info r) false).
  { assert (W : forall l : list bool, last l false = nth (length l - 1) l false).
    { induction l as [|y l IH]; [reflexivity|]. destruct l as [|z l]; [reflexivity|]. change (last (y :: z :: l) false) with (last (z :: l) false). rewrite IH.
      cbn [length]. replace (S (S (length l)) - 1)%nat with (S (S (length l) - 1)) by lia. reflexivity. }
    rewrite !W, mk_length. rewrite nth_mk by lia. rewrite LI. reflexivity. }
  assert (D : forall j, (j < length (q_coeffs r))%nat -> nth j (mk (length (q_info q)) (fun i => nth i (q_info q) false || nth i (q_info r) false)) false = false ->
     forall x, evalT (nth j (mk (length (q_coeffs r)) (fun i => cadd (nth i (q_coeffs q) []) (nth i (q_coeffs r) []))) []) x = 0).
  { intros j Hj Ej x. rewrite nth_mk in Ej by lia. apply orb_false_iff in Ej. destruct Ej as [E1 E2]. rewrite nth_mk by exact Hj. rewrite evalT_cadd.
    rewrite (F1 j ltac:(lia) E1), (G1 j Hj E2). ring. }
  destruct (q_ics q) as [|c1 l1] eqn:E1.
  - injection E as <-. cbn [q_info q_coeffs q_ics q_ints]. split; [rewrite mk_length; exact D|]. rewrite La. intros El. apply orb_false_iff in El. destruct El as [_ El]. exact (G2 El).
  - destruct H as [H|H]; [discriminate|]. rewrite H in *. injection E as <-. cbn [q_info q_coeffs q_ics q_ints]. split; [rewrite mk_length; exact D|].
    rewrite La. intros El. apply orb_false_iff in El. destruct El as [El _]. exact (F2 El).
Qed.
Lemma q_neg_correct a b q u x : q_ics q = [] -> lin_op a b (q_coeffs (q_neg q)) (q_ics (q_neg q)) (q_ints (q_neg q)) u x = - lin_op a b (q_coeffs q) (q_ics q) (q_ints q) u x.
Proof.
  intros H. unfold q_neg. cbn [q_coeffs q_ics q_ints]. rewrite H. unfold lin_op. cbn [length rsum]. rewrite map_length, !Rplus_0_r, <- rsum_opp.
  apply rsum_ext. intros j Hj. unfold ufun. replace (nth j (map cneg (q_coeffs q)) []) with (cneg (nth j (q_coeffs q) [])).
  - rewrite evalT_cneg. ring.
  - rewrite <- (map_nth cneg). reflexivity.
Qed.
(** a single integral term with constant functions, on the function 1 *)
Lemma lin_op_mean a b al be x : lin_op a b [] [[al]] [[be]] (fun _ => 1) x = al * (be * (b - a)).
Proof.
  unfold lin_op. cbn [length rsum nth]. unfold ufun, evalT. cbn [length rsum nth T].
  rewrite (RInt_ext _ (fun _ : R => be)); [|intros y _; change ((0 + be * 1) * 1 = be); ring]. rewrite RInt_const. unfold scal; cbn. unfold mult; cbn. ring.
Qed.
Definition qmean : qblock := mkQ [false; true] [[0]] [[1]] [[1]].
Lemma lin_op_q0 a b q u x : q_coeffs q = [[0]] -> lin_op a b (q_coeffs q) (q_ics q) (q_ints q) u x = lin_op a b [] (q_ics q) (q_ints q) u x.
Proof. intros ->. unfold lin_op. cbn [length rsum nth]. unfold ufun, evalT. cbn [length rsum nth]. ring. Qed.
Lemma q_add_integral : exists s, q_add qmean qmean = Some s /\
  lin_op 0 1 (q_coeffs qmean) (q_ics qmean) (q_ints qmean) (fun _ => 1) 0 = 1 /\
  lin_op 0 1 (q_coeffs s) (q_ics s) (q_ints s) (fun _ => 1) 0 = 4.
Proof.
  eexists. split; [reflexivity|]. split.
  - rewrite lin_op_q0 by reflexivity. cbn [qmean q_ics q_ints]. rewrite lin_op_mean. ring.
  - cbn [q_coeffs q_ics q_ints]. match goal with |- lin_op _ _ ?cs ?ics ?ints _ _ = _ => replace cs with [[0]]; [replace ics with [[2]]; [replace ints with [[2]]|]|] end.
    + unfold lin_op. cbn [length rsum nth]. assert (E := lin_op_mean 0 1 2 2 0). unfold lin_op in E. cbn [length rsum nth] in E. unfold ufun at 1, evalT at 1. cbn [length rsum nth]. lra.
    + unfold mk. cbn. repeat f_equal; lra.
    + unfold mk. cbn. repeat f_equal; lra.
    + unfold mk. cbn. repeat f_equal; lra.
Qed.
Lemma q_neg_integral :
  lin_op 0 1 (q_coeffs qmean) (q_ics qmean) (q_ints qmean) (fun _ => 1) 0 = 1 /\
  lin_op 0 1 (q_coeffs (q_neg qmean)) (q_ics (q_neg qmean)) (q_ints (q_neg qmean)) (fun _ => 1) 0 = 1.
Proof.
  split; [rewrite lin_op_q0 by reflexivity; cbn [qmean q_ics q_ints]; rewrite lin_op_mean; ring|].
  cbn [qmean q_neg q_coeffs q_ics q_ints map last cneg]. rewrite lin_op_split, lin_op_mean. unfold lin_op, ufun, evalT. cbn [length rsum nth]. ring.
Qed.
(** the same with two integral terms: negation keeps only the last *)
Lemma q_neg_forgets c1 c2 d1 d2 : length (q_ics (q_neg (mkQ [true] [] [c1; c2] [d1; d2]))) = 1%nat.
Proof. reflexivity. Qed.

(** ** systems *)
Lemma all_some_nth {A} (l : list (option A)) r : all_some l = Some r -> length r = length l /\ forall i d e, (i < length l)%nat -> nth i l d = Some (nth i r e).
Proof.
  revert r. induction l as [|[a|] l IH]; intros r E; cbn [all_some] in E.
  - injection E as <-. split; [reflexivity|]. intros i d e Hi. cbn in Hi. lia.
  - destruct (all_some l) as [r'|] eqn:E'; [|discriminate]. injection E as <-. destruct (IH r' eq_refl) as [L H]. split; [cbn; lia|].
    intros [|i] d e Hi; [reflexivity|]. cbn [nth]. apply H. cbn in Hi. lia.
  - discriminate.
Qed.
Lemma sys_add_block S T X : sys_add S T = Some X -> length S = length T /\
  forall e q d, (e < length S)%nat -> (q < length (nth e S []))%nat ->
    length (nth e S []) = length (nth e T []) /\ q_add (nth q (nth e S []) d) (nth q (nth e T []) d) = Some (nth q (nth e X []) d).
Proof.
  unfold sys_add, zip_blocks. destruct (Nat.eqb_spec (length S) (length T)) as [L|L]; [|discriminate]. cbn [andb].
  destruct (forallb _ (combine S T)) eqn:F; [|discriminate]. intros E. split; [exact L|]. intros e q d He Hq.
  destruct (all_some_nth _ _ E) as [LX HX]. rewrite map_length, combine_length in LX, HX.
  rewrite forallb_forall in F. assert (Fe := F (nth e S [], nth e T [])). cbn [fst snd] in Fe.
  assert (I : In (nth e S [], nth e T []) (combine S T)).
  { rewrite <- (combine_nth S T e [] [] L). apply nth_In. rewrite combine_length. lia. }
  specialize (Fe I). apply Nat.eqb_eq in Fe. split; [exact Fe|].
  specialize (HX e None [] ltac:(lia)).
  set (f := fun p : list qblock * list qblock => all_some (map (fun x => q_add (fst x) (snd x)) (combine (fst p) (snd p)))) in HX.
  rewrite (nth_indep _ None (f ([], []))) in HX by (rewrite map_length, combine_length; lia). rewrite (map_nth f) in HX.
  rewrite combine_nth in HX by exact L. unfold f in HX. cbn [fst snd] in HX. destruct (all_some_nth _ _ HX) as [LY HY]. rewrite map_length, combine_length in HY.
  specialize (HY q None d ltac:(lia)). set (g := fun x : qblock * qblock => q_add (fst x) (snd x)) in HY.
  rewrite (nth_indep _ None (g (d, d))) in HY by (rewrite map_length, combine_length; lia). rewrite (map_nth g) in HY. rewrite combine_nth in HY by exact Fe. exact HY.
Qed.

(** ** constraints *)
Lemma unit_dot n l j : (j < n)%nat -> length l = n -> dotl l (unit_vec n j) = nth j l 0.
Proof.
  intros Hj L. unfold dotl. rewrite L. rewrite (rsum_single n _ j Hj).
  - unfold unit_vec. rewrite nth_mk, Nat.eqb_refl by exact Hj. ring.
  - intros k Hk Hne. unfold unit_vec. rewrite nth_mk by exact Hk. destruct (Nat.eqb_spec k j); [lia|ring].
Qed.
Lemma dotl_zero n l : dotl l (mk n (fun _ => 0)) = 0.
Proof. unfold dotl. apply rsum_zero. intros k _. destruct (Nat.lt_ge_cases k n); [rewrite nth_mk by assumption; ring|rewrite nth_mk_out by assumption; ring]. Qed.
Lemma cons_row_entry n l k0 v j : (j < n)%nat -> length l = n ->
  nth j (cons_row n (fun u => dotl l u + k0) v) 0 = nth j l 0 + v.
Proof. intros Hj L. unfold cons_row, cons_residual. rewrite nth_mk by exact Hj. rewrite unit_dot, dotl_zero by assumption. ring. Qed.
Lemma dotl_add_r l u d : length u = length l -> dotl l (mk (length l) (fun i => nth i u 0 + nth i d 0)) = dotl l u + dotl l d.
Proof. intros L. unfold dotl. rewrite <- rsum_plus. apply rsum_ext. intros k Hk. rewrite nth_mk by exact Hk. ring. Qed.
Lemma cons_newton n l k0 u d : length l = n -> length u = n -> length d = n ->
  dotl (cons_row n (fun u => dotl l u + k0) 0) d = - cons_residual (fun u => dotl l u + k0) 0 u ->
  cons_residual (fun u => dotl l u + k0) 0 (mk n (fun i => nth i u 0 + nth i d 0)) = 0.
Proof.
  intros L Lu Ld H. assert (E : cons_row n (fun u => dotl l u + k0) 0 = l).
  { apply (list_ext _ _ 0); [unfold cons_row; rewrite mk_length; auto|]. unfold cons_row at 1. rewrite mk_length. intros j Hj. rewrite cons_row_entry by assumption. ring. }
  rewrite E in H. unfold cons_residual in *. rewrite <- L at 1. rewrite dotl_add_r by lia. lra.
Qed.

(** ** adjoint *)
Lemma adjoint_ref a b cs ics ints c x : a < b -> (forall j, (1 <= j < length cs)%nat -> length (nth j cs []) = 1%nat) -> length ics = length ints ->
  adjoint_op a b cs ics ints (ufun a b c) x = refop true (b - a) cs ints ics c (phi a b x).
Proof.
  intros H HC LI. unfold adjoint_op, refop. rewrite LI. f_equal; apply rsum_ext; intros k Hk.
  - assert (Sg : sgn true k = (-1) ^ k).
    { unfold sgn. cbn [andb]. rewrite <- Nat.negb_even. clear. induction k as [k IH] using (well_founded_induction lt_wf). destruct k as [|[|k]]; [reflexivity|cbn; ring|].
      cbn [Nat.even pow]. rewrite (IH k) by lia. ring. }
    rewrite Sg. unfold dterm. destruct k as [|k].
    + cbn [Derive_n pow]. unfold ufun. ring.
    + assert (L1 := HC (S k) ltac:(lia)). destruct (nth (S k) cs []) as [|al [|]] eqn:E; try discriminate.
      rewrite (Derive_n_ext _ (fun y => al * ufun a b c y)) by (intros t; unfold ufun, evalT; cbn [length rsum nth T]; ring).
      rewrite Derive_n_scal_l, Derive_n_ufun by exact H. replace (evalT [al] (phi a b x)) with al by (unfold evalT; cbn [length rsum nth T]; ring). reflexivity.
  - rewrite RInt_ufun by exact H. reflexivity.
Qed.
