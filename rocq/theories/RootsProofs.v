(** Root finding: proofs. *)
From Coq Require Import Reals ZArith List Arith Bool Lra Lia Permutation Sorted.
From Coquelicot Require Import Coquelicot.
From Verif Require Import CosSums Base ChebSpec ChebMath ChebModel ChebEval ChebDct ChebCalc ChebChop ChebObj TrigSpec TrigBase RootsSpec RootsModel RootsColl ToolsProofs.
Import ListNotations.
Open Scope R_scope.

Lemma TC_real k x : TC k (RtoC x) = RtoC (T k x).
Proof.
  induction k as [| |k IH0 IH1] using nat_ind2; [reflexivity|reflexivity|]. rewrite TC_SS, T_SS, IH0, IH1.
  rewrite RtoC_minus, !RtoC_mult. reflexivity.
Qed.
Lemma csum_RtoC n f : csum n (fun k => RtoC (f k)) = RtoC (rsum n f).
Proof. apply injective_projections; [change fst with Re | change snd with Im]; [rewrite csum_Re|rewrite csum_Im]; cbn; [apply rsum_ext; reflexivity|]. apply rsum_zero. reflexivity. Qed.
Lemma evalTC_real c x : evalTC c (RtoC x) = RtoC (evalT c x).
Proof.
  unfold evalTC, evalT. rewrite <- csum_RtoC. apply csum_ext. intros k _. rewrite TC_real, RtoC_mult. reflexivity.
Qed.

(** ** the colleague pencil of the code *)
Lemma fmax_abs_ge l k : Rabs (nth k l 0) <= fmax_abs l.
Proof.
  revert k. induction l as [|a l IH]; intros k; [destruct k; cbn; rewrite Rabs_R0; lra|].
  destruct k; cbn [nth fmax_abs fold_right]; [apply Rmax_l|]. eapply Rle_trans; [apply IH|apply Rmax_r].
Qed.
Lemma cscaled_nth c k : fmax_abs c <> 0 -> nth k (cscaled c) 0 = nth k c 0 / fmax_abs c.
Proof.
  intros H. unfold cscaled. destruct (Nat.lt_ge_cases k (length c)) as [L|L].
  - rewrite (nth_indep _ 0 (0 / fmax_abs c)) by (rewrite map_length; exact L). rewrite (map_nth (fun x => x / fmax_abs c)). reflexivity.
  - rewrite !nth_overflow by (rewrite ?map_length; exact L). field. exact H.
Qed.
Lemma collA_pA c i j : (3 <= length c)%nat -> (i < length c - 1)%nat -> (j < length c - 1)%nat ->
  RtoC (collA c i j) = pA (length c) (fun k => RtoC (coll_a c k)) i j.
Proof.
  intros Hn Hi Hj. unfold collA, pA. destruct (Nat.eqb_spec j 0) as [->|J0].
  - cbn [Nat.eqb negb]. rewrite Bool.andb_false_r. replace (length c - 2 - i)%nat with (length c - 1 - 1 - i)%nat by lia. ring.
  - cbn [negb]. rewrite Bool.andb_true_r. replace (length c - 1 - 2)%nat with (length c - 3)%nat by lia.
    destruct (Nat.eqb_spec i (length c - 3)) as [I|I], (Nat.eqb_spec j (length c - 2)) as [J|J], (Nat.eqb_spec j (i + 1)), (Nat.eqb_spec j (S i)), (Nat.ltb_spec j (length c - 2)), (Nat.eqb_spec i (j + 1)), (Nat.eqb_spec i (S j)); cbn [andb]; try lia; ring.
Qed.
Lemma collB_pB c i j : RtoC (collB c i j) = pB (RtoC (nth (length c - 1) (cscaled c) 0)) i j.
Proof. unfold collB, pB. destruct (Nat.eqb i j), (Nat.eqb i 0); reflexivity. Qed.
Lemma coll_char c z : (3 <= length c)%nat -> fmax_abs c <> 0 ->
  (csum (length c - 1) (fun k => RtoC (coll_a c k) * TC k z) - z * RtoC (nth (length c - 1) (cscaled c) 0%R) * TC (length c - 1 - 1) z)%C = (RtoC (- / (2 * fmax_abs c)) * evalTC c z)%C.
Proof.
  intros Hn HM. set (M := fmax_abs c) in *. set (n := length c) in *.
  rewrite (csum_ext (n - 1) _ (fun k => (RtoC (- / (2 * M)) * (RtoC (nth k c 0%R) * TC k z) + (if Nat.eqb k (n - 3) then RtoC (nth (n - 1) c 0%R / (2 * M)) else RtoC 0) * TC k z)%C)).
  - rewrite csum_plus, csum_scal, csum_delta. destruct (Nat.ltb_spec (n - 3) (n - 1)); [|lia].
    rewrite cscaled_nth by exact HM. fold M.
    set (q := csum (n - 1) (fun k => (RtoC (nth k c 0%R) * TC k z)%C)).
    assert (EV : evalTC c z = (q + RtoC (nth (n - 1) c 0%R) * TC (S (S (n - 3))) z)%C).
    { unfold evalTC. fold n. assert (En : n = S (n - 1)) by lia. rewrite En at 1. cbn [csum]. fold q. replace (S (S (n - 3))) with (n - 1)%nat by lia. reflexivity. }
    rewrite EV, TC_SS.
    replace (S (n - 3)) with (n - 1 - 1)%nat by lia. set (p := TC (n - 1 - 1) z). set (r := TC (n - 3) z). set (l := nth (n - 1) c 0%R).
    replace (RtoC (l / (2 * M))) with (RtoC (/ (2 * M)) * RtoC l)%C by (rewrite <- RtoC_mult; f_equal; field; exact HM).
    replace (RtoC (l / M)) with (RtoC (/ (2 * M)) * RtoC 2 * RtoC l)%C by (rewrite <- !RtoC_mult; f_equal; field; exact HM).
    replace (RtoC (- / (2 * M))) with (- RtoC (/ (2 * M)))%C by (rewrite <- RtoC_opp; reflexivity). ring.
  - intros k _. unfold coll_a. fold n. rewrite !cscaled_nth by exact HM. fold M. destruct (Nat.eqb k (n - 3)).
    + replace (- / 2 * (nth k c 0 / M) + / 2 * (nth (n - 1) c 0 / M))%R with (- / (2 * M) * nth k c 0 + nth (n - 1) c 0 / (2 * M))%R by (field; exact HM).
      rewrite RtoC_plus, RtoC_mult. ring.
    + replace (- / 2 * (nth k c 0 / M) + 0)%R with (- / (2 * M) * nth k c 0)%R by (field; exact HM). rewrite RtoC_mult. ring.
Qed.
Lemma colleague c z : (3 <= length c)%nat -> nth (length c - 1) c 0 <> 0 ->
  gen_eig (length c - 1) (collA c) (collB c) z <-> evalTC c z = RtoC 0.
Proof.
  intros Hn Hl. assert (HM : fmax_abs c <> 0).
  { assert (G := fmax_abs_ge c (length c - 1)). assert (P := Rabs_pos_lt _ Hl). lra. }
  assert (HS : (RtoC (- / (2 * fmax_abs c)) <> RtoC 0)%C).
  { intros E. apply (f_equal Re) in E. cbn in E. assert (- / (2 * fmax_abs c) <> 0) by (apply Ropp_neq_0_compat, Rinv_neq_0_compat; lra). contradiction. }
  assert (RA : forall v i, (i < length c - 1)%nat -> csum (length c - 1) (fun j => (RtoC (collA c i j) * v j)%C) = csum (length c - 1) (fun j => (pA (length c) (fun k => RtoC (coll_a c k)) i j * v j)%C)).
  { intros v i Hi. apply csum_ext. intros j Hj. rewrite collA_pA by assumption. reflexivity. }
  assert (RB : forall v i, csum (length c - 1) (fun j => (RtoC (collB c i j) * v j)%C) = csum (length c - 1) (fun j => (pB (RtoC (nth (length c - 1) (cscaled c) 0%R)) i j * v j)%C)).
  { intros v i. apply csum_ext. intros j Hj. rewrite collB_pB. reflexivity. }
  split.
  - intros (v & Hv & E). assert (X := eig_root (length c) (fun k => RtoC (coll_a c k)) (RtoC (nth (length c - 1) (cscaled c) 0)) Hn z v Hv).
    rewrite coll_char in X by assumption. apply (cmul_reg (RtoC (- / (2 * fmax_abs c)))); [exact HS|]. rewrite X; [ring|].
    intros i Hi. unfold res. rewrite <- RA, <- RB, E by exact Hi. ring.
  - intros E. destruct (root_eig (length c) (fun k => RtoC (coll_a c k)) (RtoC (nth (length c - 1) (cscaled c) 0)) Hn z) as (v & Hv & R).
    + rewrite coll_char by assumption. rewrite E. ring.
    + exists v. split; [exact Hv|]. intros i Hi. specialize (R i Hi). unfold res in R. rewrite <- RA, <- RB in R by exact Hi.
      match type of R with (?x - ?y)%C = _ => transitivity (x - y + y)%C; [ring|] end. rewrite R. ring.
Qed.

(** ** cleaning up the eigenvalues *)
Lemma insertR_perm a l : Permutation (insertR a l) (a :: l).
Proof.
  induction l as [|b l IH]; cbn [insertR]; [reflexivity|]. destruct (Rleb a b); [reflexivity|].
  transitivity (b :: a :: l); [constructor; exact IH|]. constructor.
Qed.
Lemma sortR_perm l : Permutation (sortR l) l.
Proof. induction l as [|a l IH]; cbn; [constructor|]. transitivity (a :: sortR l); [apply insertR_perm|]. constructor. exact IH. Qed.
Lemma sortR_in x l : In x (sortR l) <-> In x l.
Proof. split; apply Permutation_in; [apply sortR_perm|apply Permutation_sym, sortR_perm]. Qed.
Lemma insertR_sorted a l : StronglySorted Rle l -> StronglySorted Rle (insertR a l).
Proof.
  induction l as [|b l IH]; intros H; cbn [insertR]; [repeat constructor|]. inversion H as [|? ? Hs Hf]; subst.
  destruct (Rleb a b) eqn:E.
  - apply Rleb_true in E. constructor; [exact H|]. constructor; [exact E|]. eapply List.Forall_impl; [|exact Hf]. intros y Hy. cbn in *. lra.
  - constructor; [apply IH, Hs|]. apply List.Forall_forall. intros y Hy. apply (Permutation_in _ (insertR_perm a l)) in Hy. destruct Hy as [<-|Hy].
    + unfold Rleb in E. destruct (Rle_dec a b); [discriminate|lra].
    + rewrite List.Forall_forall in Hf. apply Hf, Hy.
Qed.
Lemma sortR_sorted l : StronglySorted Rle (sortR l).
Proof. induction l as [|a l IH]; cbn; [constructor|]. apply insertR_sorted, IH. Qed.
Lemma clip_keep x l : In x l -> -1 <= x <= 1 -> In x (clip l).
Proof.
  intros H B. destruct l as [|a t]; [contradiction|]. unfold clip. set (r := Rmax a (-1) :: t).
  assert (Hr : In x r). { destruct H as [<-|H]; [left; apply Rmax_left; lra|right; exact H]. }
  rewrite (app_removelast_last 0 (l := r)) in Hr by discriminate. apply in_app_or in Hr. apply in_or_app. destruct Hr as [Hr|[Hr|[]]]; [left; exact Hr|right].
  left. rewrite Hr. apply Rmin_left. lra.
Qed.
Lemma clip_from y l : In y (clip l) -> exists x, In x l /\ (y = x \/ (y = -1 /\ x <= -1) \/ (y = 1 /\ 1 <= x)).
Proof.
  intros H. destruct l as [|a t]; [contradiction|]. unfold clip in H. set (r := Rmax a (-1) :: t) in H.
  assert (Hr : forall z, In z r -> exists x, In x (a :: t) /\ (z = x \/ (z = -1 /\ x <= -1))).
  { intros z [<-|Hz]; [|exists z; split; [right; exact Hz|left; reflexivity]]. exists a. split; [left; reflexivity|].
    destruct (Rle_dec a (-1)); [right; split; [apply Rmax_right; lra|lra]|left; apply Rmax_left; lra]. }
  apply in_app_or in H. destruct H as [H|[H|[]]].
  - destruct (Hr y) as (x & Hx & Q). { rewrite (app_removelast_last 0 (l := r)) by discriminate. apply in_or_app. left. exact H. }
    exists x. split; [exact Hx|]. destruct Q as [Q|Q]; auto.
  - destruct (Hr (last r 0)) as (x & Hx & Q). { rewrite (app_removelast_last 0 (l := r)) at 2 by discriminate. apply in_or_app. right. left. reflexivity. }
    exists x. split; [exact Hx|]. subst y. destruct (Rle_dec (last r 0) 1) as [L|L].
    + rewrite Rmin_left by lra. destruct Q as [Q|[Q1 Q2]]; [left; exact Q|right; left; split; assumption].
    + rewrite Rmin_right by lra. right. right. split; [reflexivity|]. destruct Q as [Q|[Q1 Q2]]; lra.
Qed.
Lemma clip_in_range l : (forall x, In x l -> -1 <= x <= 1) -> clip l = l.
Proof.
  intros H. destruct l as [|a t]; [reflexivity|]. unfold clip. rewrite Rmax_left by (specialize (H a (or_introl eq_refl)); lra).
  assert (La : In (last (a :: t) 0) (a :: t)). { rewrite (app_removelast_last 0 (l := a :: t)) at 2 by discriminate. apply in_or_app. right. left. reflexivity. }
  rewrite Rmin_left by (specialize (H _ La); lra). symmetry. apply app_removelast_last. discriminate.
Qed.
Lemma clean_complete htol E x : 0 < htol -> -1 <= x <= 1 -> In (RtoC x) E -> In x (clean htol E).
Proof.
  intros Hh Hx HE. unfold clean. apply clip_keep; [|exact Hx]. apply sortR_in. apply filter_In. split.
  - apply in_map_iff. exists (RtoC x). split; [reflexivity|]. apply filter_In. split; [exact HE|]. apply Rltb_true. cbn. rewrite Rabs_R0. exact Hh.
  - apply Rleb_true. apply Rabs_le. lra.
Qed.
Lemma clean_sound htol E y : In y (clean htol E) -> exists z, In z E /\ Rabs (Im z) < htol /\ Rabs (Re z) <= 1 + htol /\
  (y = Re z \/ (y = -1 /\ Re z <= -1) \/ (y = 1 /\ 1 <= Re z)).
Proof.
  intros H. unfold clean in H. apply clip_from in H. destruct H as (x & Hx & Q). apply (proj1 (sortR_in x _)) in Hx. apply filter_In in Hx. destruct Hx as [Hx B].
  apply in_map_iff in Hx. destruct Hx as (z & <- & Hz). apply filter_In in Hz. destruct Hz as [Hz I]. apply Rltb_true in I. apply Rleb_true in B.
  exists z. repeat split; assumption.
Qed.
(** ** truncation of the coefficients *)
Definition la_step (tail : R) (c : list R) (best : option nat) (k : nat) : option nat := if Rltb tail (Rabs (nth k c 0)) then Some k else best.
Lemma last_above_gen tail c n : match fold_left (la_step tail c) (seq 0 n) None with
  | None => forall k, (k < n)%nat -> Rabs (nth k c 0) <= tail
  | Some i => (i < n)%nat /\ tail < Rabs (nth i c 0) /\ forall k, (i < k < n)%nat -> Rabs (nth k c 0) <= tail end.
Proof.
  induction n as [|n IH]; [cbn; intros; lia|]. rewrite seq_S, fold_left_app. cbn [fold_left Nat.add].
  set (o := fold_left _ _ _) in *. unfold la_step at 1. destruct (Rltb tail (Rabs (nth n c 0))) eqn:E.
  - apply Rltb_true in E. repeat split; [lia|exact E|intros; lia].
  - assert (L : Rabs (nth n c 0) <= tail) by (unfold Rltb in E; destruct (Rlt_dec tail (Rabs (nth n c 0))); [discriminate|lra]).
    destruct o as [i|].
    + destruct IH as (I1 & I2 & I3). repeat split; [lia|exact I2|]. intros k Hk. destruct (Nat.eq_dec k n) as [->|]; [exact L|apply I3; lia].
    + intros k Hk. destruct (Nat.eq_dec k n) as [->|]; [exact L|apply IH; lia].
Qed.
Lemma last_above_spec tail c : match last_above tail c with
  | None => forall k, (k < length c)%nat -> Rabs (nth k c 0) <= tail
  | Some i => (i < length c)%nat /\ tail < Rabs (nth i c 0) /\ forall k, (i < k < length c)%nat -> Rabs (nth k c 0) <= tail end.
Proof. exact (last_above_gen tail c (length c)). Qed.
Lemma norm1_pos c : 0 <= norm1 c. Proof. apply rsum_nonneg. intros. apply Rabs_pos. Qed.
Lemma trunc_len_some eps c n : trunc_len eps c = Some n -> (2 <= length c)%nat -> 0 <= eps ->
  (1 <= n <= length c)%nat /\ nth (n - 1) c 0 <> 0 /\ (forall k, (n <= k < length c)%nat -> Rabs (nth k c 0) <= 5 * eps * norm1 c).
Proof.
  intros E L He. unfold trunc_len in E. destruct (Nat.ltb_spec 1 (length c)); [|lia]. assert (S := last_above_spec (5 * eps * norm1 c) c).
  destruct (last_above _ c) as [i|]; [|discriminate]. cbn in E. injection E as <-. destruct S as (S1 & S2 & S3). replace (S i - 1)%nat with i by lia.
  repeat split; [lia|lia| |intros k Hk; apply S3; lia]. intros Z. rewrite Z, Rabs_R0 in S2. assert (N := norm1_pos c). nra.
Qed.
Lemma trunc_len_full eps c : (2 <= length c)%nat -> 5 * eps * norm1 c < Rabs (nth (length c - 1) c 0) -> trunc_len eps c = Some (length c).
Proof.
  intros L H. unfold trunc_len. destruct (Nat.ltb_spec 1 (length c)); [|lia]. assert (S := last_above_spec (5 * eps * norm1 c) c).
  destruct (last_above _ c) as [i|].
  - destruct S as (S1 & S2 & S3). cbn. f_equal. destruct (Nat.eq_dec i (length c - 1)) as [->|Ne]; [lia|]. exfalso. specialize (S3 (length c - 1)%nat ltac:(lia)). lra.
  - exfalso. specialize (S (length c - 1)%nat ltac:(lia)). lra.
Qed.
Lemma trunc_c_eval_bound eps c n x : trunc_len eps c = Some n -> (2 <= length c)%nat -> (2 <= n)%nat -> 0 <= eps -> -1 <= x <= 1 ->
  Rabs (evalT c x - evalT (trunc_c n c) x) <= INR (length c - n) * (5 * eps * norm1 c).
Proof.
  intros E L Hn He Hx. destruct (trunc_len_some eps c n E L He) as ((N1 & N2) & _ & B). unfold trunc_c.
  destruct (Nat.ltb_spec 1 n); [|lia]. cbn [andb]. destruct (Nat.ltb_spec n (length c)) as [Hlt|Hge].
  - replace (evalT c x - evalT (firstn n c) x) with (rsum (length c - n) (fun k => nth (n + k) c 0 * T (n + k) x)).
    + eapply Rle_trans; [apply rsum_Rabs|]. rewrite <- rsum_const. apply rsum_le. intros k Hk. rewrite Rabs_mult.
      assert (TB := T_bound (n + k) x Hx). assert (BK := B (n + k)%nat ltac:(lia)). assert (P := Rabs_pos (nth (n + k) c 0)). assert (P2 := Rabs_pos (T (n + k) x)). nra.
    + unfold evalT. rewrite firstn_length_le by lia. replace (length c) with (n + (length c - n))%nat at 2 by lia. rewrite rsum_app.
      rewrite (rsum_ext n (fun k => nth k (firstn n c) 0 * T k x) (fun k => nth k c 0 * T k x)); [ring|].
      intros k Hk. rewrite nth_firstn_lt by exact Hk. reflexivity.
  - replace (length c - n)%nat with 0%nat by lia. rewrite Rminus_diag_eq by reflexivity. rewrite Rabs_R0. cbn. lra.
Qed.

(** ** splitting is exact *)
Definition aff (a b y : R) : R := / 2 * (b * (y + 1) + a * (1 - y)).
Lemma chebpts2_length n : length (chebpts_type2_compute n) = n.
Proof. unfold chebpts_type2_compute. destruct n as [|[|n]]; [reflexivity|reflexivity|]. apply mk_length. Qed.
Lemma chebptsAB_length n a b : length (chebptsAB n a b) = n.
Proof. unfold chebptsAB. rewrite map_length. apply chebpts2_length. Qed.
Lemma chebptsAB_map (f : R -> R) n a b : map f (chebptsAB n a b) = mk n (fun j => f (aff a b (nth j (chebpts_type2_compute n) 0))).
Proof.
  apply list_ext with 0; [rewrite map_length, chebptsAB_length, mk_length; reflexivity|]. intros k Hk. rewrite map_length, chebptsAB_length in Hk. rewrite nth_mk by exact Hk.
  rewrite (nth_indep _ 0 (f 0)) by (rewrite map_length, chebptsAB_length; exact Hk). rewrite map_nth. f_equal. unfold chebptsAB.
  change (fun x : R => / 2 * (b * (x + 1) + a * (1 - x))) with (aff a b).
  rewrite (nth_indep _ 0 (aff a b 0)) by (rewrite map_length, chebpts2_length; exact Hk). rewrite map_nth. reflexivity.
Qed.
Lemma aff_lin a b y : aff a b y = ((b - a) / 2) * y + (a + b) / 2. Proof. unfold aff. field. Qed.
Lemma cl_apply_length a b c : length (cl_apply a b c) = length c.
Proof. unfold cl_apply. rewrite polyfit1_length, map_length, chebptsAB_length. reflexivity. Qed.
Lemma cl_apply_correct a b c y : (1 <= length c)%nat -> evalT (cl_apply a b c) y = evalT c (aff a b y).
Proof.
  intros Hc. unfold cl_apply. rewrite chebptsAB_map. rewrite (mk_ext _ _ (fun j => evalT c (aff a b (nth j (chebpts_type2_compute (length c)) 0)))).
  - apply (polyfit_span (length c) (fun y => evalT c (aff a b y)) Hc). apply (spanT_ext _ (fun y => evalT c ((b - a) / 2 * y + (a + b) / 2))).
    + intros x. rewrite aff_lin. reflexivity.
    + apply (spanT_affine (length c) (evalT c)). apply spanT_evalT. lia.
  - intros k _. apply clenshaw_pt_correct, Hc.
Qed.
Lemma t_weights_col a b i : (i < 513)%nat -> exists d, length d = S i /\ (forall y, evalT d y = T i (aff a b y)) /\
  forall k, t_weights a b k i = nth k d 0.
Proof.
  intros Hi. destruct (spanT_affine_T i ((b - a) / 2) ((a + b) / 2)) as (d & Ld & Ed). exists d. split; [exact Ld|]. split.
  { intros y. rewrite aff_lin. symmetry. apply Ed. }
  intros k. unfold t_weights. destruct (Nat.leb_spec k i) as [Hk|Hk]; [|symmetry; apply nth_overflow; lia].
  rewrite chebptsAB_map. set (N := 513%nat) in *. set (D := mk N (fun j => nth j d 0)).
  assert (LD : length D = N) by apply mk_length.
  replace (mk N (fun j => T i (aff a b (nth j (chebpts_type2_compute N) 0)))) with (polyval1 D).
  - rewrite polyfit_polyval by (rewrite LD; unfold N; lia). unfold D. rewrite nth_mk by lia. reflexivity.
  - apply list_ext with 0; [rewrite polyval1_length, mk_length; exact LD|]. intros j Hj. rewrite polyval1_length, LD in Hj. rewrite nth_mk by exact Hj.
    rewrite polyval1_spec by (rewrite LD; unfold N in *; lia). rewrite LD. unfold D. rewrite evalT_mk, aff_lin, Ed.
    symmetry. apply evalT_ge. lia.
Qed.
Lemma tw_apply_length a b c : length (tw_apply a b c) = length c. Proof. apply mk_length. Qed.
Lemma tw_apply_correct a b c y : (length c <= 513)%nat -> evalT (tw_apply a b c) y = evalT c (aff a b y).
Proof.
  intros Hc. unfold tw_apply. rewrite evalT_mk. rewrite (rsum_ext _ _ (fun k => rsum (length c) (fun i => nth i c 0 * (t_weights a b k i * T k y)))).
  2: { intros k _. rewrite <- rsum_scal_r. apply rsum_ext. intros i _. ring. }
  rewrite rsum_swap. unfold evalT. apply rsum_ext. intros i Hi. rewrite rsum_scal. f_equal.
  destruct (t_weights_col a b i ltac:(lia)) as (d & Ld & Ed & W). rewrite <- Ed.
  rewrite (rsum_ext _ _ (fun k => nth k d 0 * T k y)) by (intros k _; rewrite W; reflexivity). symmetry. apply evalT_ge. lia.
Qed.

(** ** completeness *)
Lemma left_range (s x : R) : -1 < s < 1 -> -1 <= x <= s -> -1 <= (x - (s - 1) / 2) / ((s + 1) / 2) <= 1.
Proof.
  intros Hs Hx. assert (E : (x - (s - 1) / 2) / ((s + 1) / 2) * ((s + 1) / 2) = x - (s - 1) / 2) by (field; lra).
  split; apply Rmult_le_reg_r with ((s + 1) / 2); try lra; rewrite E; lra.
Qed.
Lemma right_range (s x : R) : -1 < s < 1 -> s <= x <= 1 -> -1 <= (x - (s + 1) / 2) / ((1 - s) / 2) <= 1.
Proof.
  intros Hs Hx. assert (E : (x - (s + 1) / 2) / ((1 - s) / 2) * ((1 - s) / 2) = x - (s + 1) / 2) by (field; lra).
  split; apply Rmult_le_reg_r with ((1 - s) / 2); try lra; rewrite E; lra.
Qed.

Section complete.
  Context (eigs : nat -> (nat -> nat -> R) -> (nat -> nat -> R) -> list C).
  Definition eig_ok (c : list R) : Prop := forall z, In z (eigs (length c - 1)%nat (collA c) (collB c)) <-> gen_eig (length c - 1) (collA c) (collB c) z.
  Definition halves (c : list R) : list R * list R :=
    if Nat.leb (length c) 513 then (tw_apply (-1) splitPoint c, tw_apply splitPoint 1 c) else (cl_apply (-1) splitPoint c, cl_apply splitPoint 1 c).
  Lemma halves_correct c y : (1 <= length c)%nat -> evalT (fst (halves c)) y = evalT c (map_left splitPoint y) /\ evalT (snd (halves c)) y = evalT c (map_right splitPoint y).
  Proof.
    intros Hc. assert (L : map_left splitPoint y = aff (-1) splitPoint y) by (unfold map_left, aff; field).
    assert (R : map_right splitPoint y = aff splitPoint 1 y) by (unfold map_right, aff; field). rewrite L, R. unfold halves.
    destruct (Nat.leb_spec (length c) 513); cbn [fst snd]; split; first [apply tw_apply_correct; lia|apply cl_apply_correct; lia].
  Qed.
  Lemma split_range : -1 < splitPoint < 0.
  Proof. unfold splitPoint. lra. Qed.
  Lemma trunc_c_full c : trunc_c (length c) c = c.
  Proof. unfold trunc_c. rewrite Nat.ltb_irrefl, Bool.andb_false_r. reflexivity. Qed.
  Lemma roots_main_eq fuel htol eps c : roots_main eigs (S fuel) htol eps c =
      match trunc_len eps c with
      | None => None
      | Some n =>
        let c := trunc_c n c in
        if Nat.eqb n 0 then Some [0]
        else if Nat.eqb n 1 then (if Reqb (nth 0 c 0) 0 then Some [0] else Some [])
        else if Nat.eqb n 2 then Some [- nth 0 c 0 / nth 1 c 0]
        else if Nat.leb n 50 then Some (clean htol (eigs (n - 1)%nat (collA c) (collB c)))
        else
          let '(cl, cr) := if Nat.leb n 513 then (tw_apply (-1) splitPoint c, tw_apply splitPoint 1 c)
                           else (cl_apply (-1) splitPoint c, cl_apply splitPoint 1 c) in
          match roots_main eigs fuel (2 * htol) eps0 cl, roots_main eigs fuel (2 * htol) eps0 cr with
          | Some rl, Some rr => Some (map (map_left splitPoint) rl ++ map (map_right splitPoint) rr)
          | _, _ => None
          end
      end.
  Proof. reflexivity. Qed.
  (** ** the last coefficient is not negligible: every root is found *)
  Lemma roots_main_complete fuel htol eps c K : 0 < htol -> 0 <= eps -> (2 <= K <= 50)%nat -> (K <= length c)%nat ->
    5 * eps * norm1 c < Rabs (nth (K - 1) c 0) -> (forall k, (K <= k)%nat -> nth k c 0 = 0) ->
    ((3 <= K)%nat -> eig_ok (firstn K c)) ->
    exists r, roots_main eigs (S fuel) htol eps c = Some r /\ forall x, -1 <= x <= 1 -> evalT c x = 0 -> In x r.
  Proof.
    intros Hh He HK LK HT HZ HE. rewrite roots_main_eq.
    assert (N := norm1_pos c).
    assert (Hl : nth (K - 1) c 0 <> 0). { intros Z. rewrite Z, Rabs_R0 in HT. nra. }
    assert (TL : trunc_len eps c = Some K).
    { unfold trunc_len. destruct (Nat.ltb_spec 1 (length c)); [|lia]. assert (S := last_above_spec (5 * eps * norm1 c) c).
      destruct (last_above _ c) as [i|].
      - destruct S as (S1 & S2 & S3). cbn. f_equal. destruct (le_lt_dec K i) as [Hi|Hi].
        + rewrite HZ, Rabs_R0 in S2 by exact Hi. nra.
        + destruct (Nat.eq_dec i (K - 1)) as [->|Ne]; [lia|]. exfalso. specialize (S3 (K - 1)%nat ltac:(lia)). lra.
      - exfalso. specialize (S (K - 1)%nat ltac:(lia)). lra. }
    rewrite TL. cbv zeta.
    assert (EC : trunc_c K c = firstn K c).
    { unfold trunc_c. destruct (Nat.ltb_spec 1 K); [|lia]. cbn [andb]. destruct (Nat.ltb_spec K (length c)); [reflexivity|].
      rewrite firstn_all2 by lia. reflexivity. }
    rewrite EC. set (q := firstn K c) in *.
    assert (Lq : length q = K) by (apply firstn_length_le; lia).
    assert (Nq : forall k, (k < K)%nat -> nth k q 0 = nth k c 0) by (intros k Hk; apply nth_firstn_lt; exact Hk).
    assert (Eq : forall x, evalT c x = evalT q x).
    { intros x. rewrite (evalT_ge c x (length c)) by lia. rewrite (evalT_ge q x (length c)) by lia. apply rsum_ext. intros k Hk.
      destruct (le_lt_dec K k) as [G|G]; [rewrite HZ by exact G; rewrite (nth_overflow q) by lia; reflexivity|rewrite Nq by exact G; reflexivity]. }
    destruct (Nat.eqb_spec K 0); [lia|]. destruct (Nat.eqb_spec K 1); [lia|].
    destruct (Nat.eqb_spec K 2) as [E2|N2].
    { eexists. split; [reflexivity|]. intros x Hx Hr. left. rewrite Eq in Hr. unfold evalT in Hr. rewrite Lq, E2 in Hr. cbn [rsum T] in Hr.
      assert (Hl' : nth 1 q 0 <> 0) by (rewrite Nq by lia; replace 1%nat with (K - 1)%nat by lia; exact Hl).
      apply Rmult_eq_reg_r with (nth 1 q 0); [|exact Hl']. field_simplify; [lra|exact Hl']. }
    destruct (Nat.leb_spec K 50) as [L50|G50]; [|lia].
    eexists. split; [reflexivity|]. intros x Hx Hr. apply clean_complete; [exact Hh|exact Hx|].
    assert (HE' := HE ltac:(lia)). unfold eig_ok in HE'. rewrite Lq in HE'. apply HE'. rewrite <- Lq. apply colleague.
    - lia.
    - rewrite Lq, Nq by lia. exact Hl.
    - rewrite evalTC_real, <- Eq, Hr. reflexivity.
  Qed.
End complete.

(** ** coefficients are bounded by twice the maximum of the function *)
Lemma trap_bound M (f : nat -> R) B : (forall j, (j <= M)%nat -> Rabs (f j) <= B) -> Rabs (trap M f) <= INR M * B.
Proof.
  intros H. unfold trap. eapply Rle_trans; [apply rsum_Rabs|]. rewrite <- rsum_const. apply rsum_le. intros k Hk.
  assert (A1 := H k ltac:(lia)). assert (A2 := H (S k) ltac:(lia)). revert A1 A2. unfold Rabs. repeat destruct (Rcase_abs _); lra.
Qed.
Lemma coef_bound c S k : (forall x, -1 <= x <= 1 -> Rabs (evalT c x) <= S) -> Rabs (nth k c 0) <= 2 * S.
Proof.
  intros H. assert (S0 : 0 <= S). { eapply Rle_trans; [apply Rabs_pos|apply (H 0)]. lra. }
  destruct (le_lt_dec (length c) k) as [G|G]; [rewrite nth_overflow, Rabs_R0 by exact G; lra|].
  rewrite <- (polyfit_polyval c) by lia. set (v := polyval1 c).
  assert (Lv : length v = length c) by apply polyval1_length.
  assert (Hv : forall j, (j < length c)%nat -> Rabs (nth j v 0) <= S).
  { intros j Hj. unfold v. rewrite polyval1_spec by lia. apply H. destruct (Nat.eq_dec (length c) 1) as [E1|N1].
    - rewrite E1. assert (j = 0)%nat as -> by lia. cbn. lra.
    - rewrite chebpts_nth by lia. apply COS_bound. }
  destruct (Nat.eq_dec (length c) 1) as [E1|N1].
  - unfold polyfit1. rewrite Lv, E1. cbn [Nat.eqb]. assert (X := Hv k G). lra.
  - rewrite (polyfit1_nth v (length c - 1)) by lia. rewrite !Rabs_mult.
    assert (HM : 0 < INR (length c - 1)) by (apply lt_0_INR; lia).
    assert (B := trap_bound (length c - 1) (fun j => nth (length c - 1 - j) v 0 * cos (PI * INR k * INR j / INR (length c - 1))) S).
    assert (BB : Rabs (trap (length c - 1) (fun j => nth (length c - 1 - j) v 0 * cos (PI * INR k * INR j / INR (length c - 1)))) <= INR (length c - 1) * S).
    { apply B. intros j Hj. rewrite Rabs_mult. assert (A := Hv (length c - 1 - j)%nat ltac:(lia)).
      assert (CB := COS_bound (PI * INR k * INR j / INR (length c - 1))). assert (CA : Rabs (cos (PI * INR k * INR j / INR (length c - 1))) <= 1) by (apply Rabs_le; lra).
      assert (P1 := Rabs_pos (nth (length c - 1 - j) v 0)). assert (P2 := Rabs_pos (cos (PI * INR k * INR j / INR (length c - 1)))). nra. }
    clear B. set (t := Rabs (trap _ _)) in *. assert (T0 : 0 <= t) by apply Rabs_pos.
    assert (E1 : Rabs (2 / INR (length c - 1)) = 2 / INR (length c - 1)) by (apply Rabs_pos_eq; apply Rlt_le, Rdiv_lt_0_compat; lra). rewrite E1.
    assert (W : 0 <= Rabs (ew (length c - 1) k) <= 1) by (split; [apply Rabs_pos|]; unfold ew; destruct (_ || _)%bool; rewrite Rabs_pos_eq; lra).
    assert (Q : 2 / INR (length c - 1) * t <= 2 * S).
    { apply Rmult_le_reg_r with (INR (length c - 1)); [exact HM|]. replace (2 / INR (length c - 1) * t * INR (length c - 1)) with (2 * t) by (field; lra). lra. }
    assert (Q0 : 0 <= 2 / INR (length c - 1) * t) by (apply Rmult_le_pos; [apply Rlt_le, Rdiv_lt_0_compat; lra|exact T0]).
    replace (2 / INR (length c - 1) * Rabs (ew (length c - 1) k) * t) with (Rabs (ew (length c - 1) k) * (2 / INR (length c - 1) * t)) by ring. nra.
Qed.
Lemma norm1_bound c S : (forall x, -1 <= x <= 1 -> Rabs (evalT c x) <= S) -> norm1 c <= INR (length c) * (2 * S).
Proof. intros H. unfold norm1. rewrite <- rsum_const. apply rsum_le. intros k Hk. apply coef_bound. exact H. Qed.

(** ** sign changes are found, also after splitting and truncation *)
Lemma trunc_firstn_bound eps c n x : trunc_len eps c = Some n -> (1 <= length c)%nat -> 0 <= eps -> -1 <= x <= 1 ->
  (1 <= n <= length c)%nat /\ Rabs (evalT c x - evalT (firstn n c) x) <= INR (length c) * (5 * eps * norm1 c).
Proof.
  intros E L He Hx. assert (NP := norm1_pos c). assert (XP : 0 <= 5 * eps * norm1 c) by nra.
  assert (B : (1 <= n <= length c)%nat /\ forall k, (n <= k < length c)%nat -> Rabs (nth k c 0) <= 5 * eps * norm1 c).
  { destruct (Nat.eq_dec (length c) 1) as [E1|N1].
    - unfold trunc_len in E. rewrite E1 in E. cbn in E. injection E as <-. rewrite E1. split; [lia|]. intros k Hk. lia.
    - destruct (trunc_len_some eps c n E ltac:(lia) He) as (B1 & _ & B2). split; assumption. }
  destruct B as ((N1 & N2) & B). split; [lia|].
  replace (evalT c x - evalT (firstn n c) x) with (rsum (length c - n) (fun k => nth (n + k) c 0 * T (n + k) x)).
  - eapply Rle_trans; [apply rsum_Rabs|]. apply Rle_trans with (INR (length c - n) * (5 * eps * norm1 c)).
    + rewrite <- rsum_const. apply rsum_le. intros k Hk. rewrite Rabs_mult.
      assert (TB := T_bound (n + k) x Hx). assert (BK := B (n + k)%nat ltac:(lia)). assert (P := Rabs_pos (nth (n + k) c 0)). assert (P2 := Rabs_pos (T (n + k) x)). nra.
    + apply Rmult_le_compat_r; [exact XP|]. apply le_INR. lia.
  - unfold evalT. rewrite firstn_length_le by lia. replace (length c) with (n + (length c - n))%nat at 2 by lia. rewrite rsum_app.
    rewrite (rsum_ext n (fun k => nth k (firstn n c) 0 * T k x) (fun k => nth k c 0 * T k x)); [ring|].
    intros k Hk. rewrite nth_firstn_lt by exact Hk. reflexivity.
Qed.
Lemma evalT_cont c : continuity (evalT c).
Proof. intros x. apply continuity_pt_filterlim. exact (continuous_evalT c x). Qed.
Lemma sign_change c x1 x2 : x1 <= x2 -> evalT c x1 * evalT c x2 < 0 -> exists y, x1 <= y <= x2 /\ evalT c y = 0.
Proof.
  intros Hx H. destruct (IVT_gen (evalT c) x1 x2 0 (evalT_cont c)) as (y & Hy & E).
  - unfold Rmin, Rmax. destruct (Rle_dec (evalT c x1) (evalT c x2)); split; nra.
  - exists y. rewrite Rmin_left, Rmax_right in Hy by exact Hx. split; assumption.
Qed.
(** all points where a run of depth [d] may split the interval *)
Fixpoint split_pts (d : nat) : list R :=
  match d with
  | O => []
  | S d => splitPoint :: map (map_left splitPoint) (split_pts d) ++ map (map_right splitPoint) (split_pts d)
  end.
Lemma same_sign (a b t E : R) : Rabs (a - b) <= t -> t + E < Rabs a -> 0 <= t -> 0 <= E -> E < Rabs b /\ 0 < a * b.
Proof.
  intros H1 H2 H3 H4. revert H1 H2. unfold Rabs. destruct (Rcase_abs (a - b)), (Rcase_abs a), (Rcase_abs b); intros; split; try lra; try nra.
Qed.
Lemma sign3 (a b d : R) : b <> 0 -> 0 <= a * b -> a * d < 0 -> b * d < 0.
Proof.
  intros Hb H1 H2. destruct (Rtotal_order a 0) as [A|[A|A]].
  - assert (b < 0) by (destruct (Rdichotomy b 0 Hb); [assumption|nra]). assert (0 < d) by nra. nra.
  - subst a. lra.
  - assert (0 < b) by (destruct (Rdichotomy b 0 Hb); [nra|assumption]). assert (d < 0) by nra. nra.
Qed.
Section signs.
  Context (eigs : nat -> (nat -> nat -> R) -> (nat -> nat -> R) -> list C).
  Context (HE : forall c, (3 <= length c <= 50)%nat -> nth (length c - 1) c 0 <> 0 -> eig_ok eigs c).
  Context (N : nat).
  Let kap := 10 * INR N ^ 2 * eps0.
  Lemma roots_main_sign fuel : forall htol eps c r S, 0 < htol -> 0 <= eps <= eps0 -> (length c <= N)%nat ->
    (forall x, -1 <= x <= 1 -> Rabs (evalT c x) <= S) -> roots_main eigs fuel htol eps c = Some r ->
    forall x1 x2, -1 <= x1 <= x2 -> x2 <= 1 -> evalT c x1 * evalT c x2 < 0 ->
      (forall p, p = x1 \/ p = x2 \/ (In p (split_pts fuel) /\ x1 < p < x2) -> S * ((1 + kap) ^ fuel - 1) < Rabs (evalT c p)) ->
      exists y, In y r /\ x1 <= y <= x2.
  Proof.
    induction fuel as [|fuel IH]; intros htol eps c r S Hh He Hn HS HR x1 x2 Hx1 Hx2 Hp Hm; [discriminate|].
    rewrite roots_main_eq in HR. destruct (trunc_len eps c) as [n|] eqn:ET; [|discriminate]. cbv zeta in HR.
    assert (S0 : 0 <= S). { eapply Rle_trans; [apply Rabs_pos|apply (HS 0)]. lra. }
    assert (K0 : 0 <= kap) by (unfold kap, eps0; assert (0 <= INR N ^ 2) by (apply pow_le, pos_INR); lra).
    destruct (Nat.eq_dec (length c) 0) as [E0|N0].
    { exfalso. destruct c; [|discriminate]. rewrite evalT_nil in Hp. lra. }
    assert (P1 : 1 <= (1 + kap) ^ fuel) by (apply pow_R1_Rle; lra).
    set (q := firstn n c) in *.
    assert (NB := norm1_bound c S HS). assert (NP := norm1_pos c).
    assert (T0 : INR (length c) * (5 * eps * norm1 c) <= kap * S).
    { assert (L1 : 0 <= INR (length c) <= INR N) by (split; [apply pos_INR|apply le_INR; exact Hn]).
      unfold kap. set (l := INR (length c)) in *. set (m := INR N) in *. set (w := norm1 c) in *.
      assert (A1 : w <= m * (2 * S)) by nra. assert (A2 : eps * w <= eps0 * (m * (2 * S))) by (apply Rmult_le_compat; lra).
      assert (A3 : 0 <= eps * w) by nra. assert (A4 : l * (eps * w) <= m * (eps0 * (m * (2 * S)))) by (apply Rmult_le_compat; lra). nra. }
    assert (NR : (1 <= n <= length c)%nat) by (apply (trunc_firstn_bound eps c n 0); [exact ET|lia|lra|lra]).
    assert (DQ : forall x, -1 <= x <= 1 -> Rabs (evalT c x - evalT q x) <= kap * S).
    { intros x Hx. destruct (trunc_firstn_bound eps c n x ET ltac:(lia) ltac:(lra) Hx) as [_ B]. fold q in B. lra. }
    set (E' := S * (1 + kap) * ((1 + kap) ^ fuel - 1)).
    assert (E'0 : 0 <= E') by (unfold E'; apply Rmult_le_pos; [nra|lra]).
    assert (EE : S * ((1 + kap) ^ Datatypes.S fuel - 1) = kap * S + E') by (unfold E'; cbn [pow]; ring).
    assert (KS : 0 <= kap * S) by nra.
    assert (QQ : forall p, -1 <= p <= 1 -> S * ((1 + kap) ^ Datatypes.S fuel - 1) < Rabs (evalT c p) -> E' < Rabs (evalT q p) /\ 0 < evalT c p * evalT q p).
    { intros p Hpp Hb. rewrite EE in Hb. apply same_sign with (t := kap * S); [apply DQ; exact Hpp|exact Hb|exact KS|exact E'0]. }
    destruct (QQ x1 ltac:(lra) (Hm x1 ltac:(auto))) as [M1 S1]. destruct (QQ x2 ltac:(lra) (Hm x2 ltac:(auto))) as [M2 S2].
    assert (HQ : evalT q x1 * evalT q x2 < 0).
    { assert (X : 0 < (evalT c x1 * evalT q x1) * (evalT c x2 * evalT q x2)) by (apply Rmult_lt_0_compat; assumption).
      replace ((evalT c x1 * evalT q x1) * (evalT c x2 * evalT q x2)) with ((evalT c x1 * evalT c x2) * (evalT q x1 * evalT q x2)) in X by ring. nra. }
    assert (Lq : length q = n) by (apply firstn_length_le; lia).
    destruct (Nat.eqb_spec n 0); [lia|].
    destruct (Nat.eqb_spec n 1) as [E1|N1].
    { exfalso. unfold evalT in HQ. rewrite Lq, E1 in HQ. cbn [rsum T] in HQ. nra. }
    assert (EC : trunc_c n c = q).
    { unfold trunc_c, q. destruct (Nat.ltb_spec 1 n); [|lia]. cbn [andb]. destruct (Nat.ltb_spec n (length c)); [reflexivity|]. rewrite firstn_all2 by lia. reflexivity. }
    rewrite EC in HR.
    destruct (trunc_len_some eps c n ET ltac:(lia) ltac:(lra)) as (_ & HL & _).
    assert (HLq : nth (n - 1) q 0 <> 0) by (unfold q; rewrite nth_firstn_lt by lia; exact HL).
    destruct (sign_change q x1 x2 ltac:(lra) HQ) as (y & Hy & Ey).
    destruct (Nat.eqb_spec n 2) as [E2|N2].
    { injection HR as <-. exists (- nth 0 q 0 / nth 1 q 0). split; [left; reflexivity|]. rewrite E2 in HLq. cbn [Nat.sub] in HLq.
      unfold evalT in Ey. rewrite Lq, E2 in Ey. cbn [rsum T] in Ey.
      replace (- nth 0 q 0 / nth 1 q 0) with y; [exact Hy|]. apply Rmult_eq_reg_r with (nth 1 q 0); [|exact HLq]. field_simplify; [lra|exact HLq]. }
    destruct (Nat.leb_spec n 50) as [L50|G50].
    { injection HR as <-. exists y. split; [|exact Hy]. apply clean_complete; [exact Hh|lra|].
      assert (HE' := HE q ltac:(lia) ltac:(rewrite Lq; exact HLq)). unfold eig_ok in HE'. rewrite Lq in HE'. apply HE'. rewrite <- Lq. apply colleague.
      - lia.
      - rewrite Lq. exact HLq.
      - rewrite evalTC_real, Ey. reflexivity. }
    clear y Hy Ey.
    assert (HV : (if Nat.leb n 513 then (tw_apply (-1) splitPoint q, tw_apply splitPoint 1 q) else (cl_apply (-1) splitPoint q, cl_apply splitPoint 1 q)) = halves q) by (unfold halves; rewrite Lq; reflexivity).
    rewrite HV in HR. clear HV.
    assert (HC := fun z => halves_correct q z ltac:(lia)).
    assert (HLen : length (fst (halves q)) = n /\ length (snd (halves q)) = n).
    { unfold halves. destruct (Nat.leb _ _); cbn [fst snd]; rewrite ?tw_apply_length, ?cl_apply_length; split; exact Lq. }
    destruct (halves q) as [cl cr]. cbn [fst snd] in HC, HLen.
    destruct (roots_main eigs fuel (2 * htol) eps0 cl) as [rl|] eqn:Rl; [|discriminate].
    destruct (roots_main eigs fuel (2 * htol) eps0 cr) as [rr|] eqn:Rr; [|discriminate]. injection HR as <-.
    assert (SR := split_range). set (s := splitPoint) in *.
    assert (ML : forall z, -1 <= z <= 1 -> -1 <= map_left s z <= s) by (intros z Hz; unfold map_left; split; nra).
    assert (MR : forall z, -1 <= z <= 1 -> s <= map_right s z <= 1) by (intros z Hz; unfold map_right; split; nra).
    assert (SQ : forall x, -1 <= x <= 1 -> Rabs (evalT q x) <= S * (1 + kap)).
    { intros x Hx. assert (A := DQ x Hx). assert (B := HS x Hx). revert A B. unfold Rabs. repeat destruct (Rcase_abs _); lra. }
    assert (SL : forall x, -1 <= x <= 1 -> Rabs (evalT cl x) <= S * (1 + kap)) by (intros x Hx; rewrite (proj1 (HC x)); apply SQ; assert (A := ML x Hx); lra).
    assert (SRR : forall x, -1 <= x <= 1 -> Rabs (evalT cr x) <= S * (1 + kap)) by (intros x Hx; rewrite (proj2 (HC x)); apply SQ; assert (A := MR x Hx); lra).
    (* the two recursive calls *)
    assert (GL : forall a b, -1 <= a <= b -> b <= s -> evalT q a * evalT q b < 0 -> E' < Rabs (evalT q a) -> E' < Rabs (evalT q b) -> x1 <= a -> b <= x2 ->
      exists y, In y (map (map_left s) rl ++ map (map_right s) rr) /\ a <= y <= b).
    { intros a b Ha Hb Hab Ma Mb Hxa Hbx.
      set (inv := fun x => (x - (s - 1) / 2) / ((s + 1) / 2)).
      assert (EI : forall x, map_left s (inv x) = x) by (intros x; unfold map_left, inv; field; lra).
      assert (RI : forall x, -1 <= x <= s -> -1 <= inv x <= 1) by (intros x Hx; apply left_range; [split; [apply SR|apply Rlt_trans with 0; [apply SR|lra]]|exact Hx]).
      assert (MON : forall u v, map_left s u <= map_left s v -> u <= v) by (intros u v Huv; unfold map_left in Huv; nra).
      destruct (IH (2 * htol) eps0 cl rl (S * (1 + kap)) ltac:(lra) ltac:(unfold eps0; lra) ltac:(lia) SL Rl (inv a) (inv b)) as (y & Iy & By).
      - assert (A := RI a ltac:(lra)). split; [lra|]. apply MON. rewrite !EI. lra.
      - assert (A := RI b ltac:(lra)). lra.
      - rewrite !(proj1 (HC _)), !EI. exact Hab.
      - intros p Hpp. rewrite (proj1 (HC p)). destruct Hpp as [->|[->|(Ip & B1 & B2)]]; [rewrite EI; exact Ma|rewrite EI; exact Mb|].
        assert (A1 := RI a ltac:(lra)). assert (A2 := RI b ltac:(lra)).
        assert (C1 : a < map_left s p) by (rewrite <- (EI a); unfold map_left; nra).
        assert (C2 : map_left s p < b) by (rewrite <- (EI b); unfold map_left; nra).
        apply QQ; [split; lra|]. apply Hm. right. right. split; [|lra]. cbn [split_pts]. right. apply in_or_app. left. apply in_map. exact Ip.
      - exists (map_left s y). split; [apply in_or_app; left; apply in_map; exact Iy|]. rewrite <- (EI a), <- (EI b). unfold map_left. nra. }
    assert (GR : forall a b, s <= a <= b -> b <= 1 -> evalT q a * evalT q b < 0 -> E' < Rabs (evalT q a) -> E' < Rabs (evalT q b) -> x1 <= a -> b <= x2 ->
      exists y, In y (map (map_left s) rl ++ map (map_right s) rr) /\ a <= y <= b).
    { intros a b Ha Hb Hab Ma Mb Hxa Hbx.
      set (inv := fun x => (x - (s + 1) / 2) / ((1 - s) / 2)).
      assert (EI : forall x, map_right s (inv x) = x) by (intros x; unfold map_right, inv; field; lra).
      assert (RI : forall x, s <= x <= 1 -> -1 <= inv x <= 1) by (intros x Hx; apply right_range; [split; [apply SR|apply Rlt_trans with 0; [apply SR|lra]]|exact Hx]).
      assert (MON : forall u v, map_right s u <= map_right s v -> u <= v) by (intros u v Huv; unfold map_right in Huv; nra).
      destruct (IH (2 * htol) eps0 cr rr (S * (1 + kap)) ltac:(lra) ltac:(unfold eps0; lra) ltac:(lia) SRR Rr (inv a) (inv b)) as (y & Iy & By).
      - assert (A := RI a ltac:(lra)). split; [lra|]. apply MON. rewrite !EI. lra.
      - assert (A := RI b ltac:(lra)). lra.
      - rewrite !(proj2 (HC _)), !EI. exact Hab.
      - intros p Hpp. rewrite (proj2 (HC p)). destruct Hpp as [->|[->|(Ip & B1 & B2)]]; [rewrite EI; exact Ma|rewrite EI; exact Mb|].
        assert (A1 := RI a ltac:(lra)). assert (A2 := RI b ltac:(lra)).
        assert (C1 : a < map_right s p) by (rewrite <- (EI a); unfold map_right; nra).
        assert (C2 : map_right s p < b) by (rewrite <- (EI b); unfold map_right; nra).
        apply QQ; [split; lra|]. apply Hm. right. right. split; [|lra]. cbn [split_pts]. right. apply in_or_app. right. apply in_map. exact Ip.
      - exists (map_right s y). split; [apply in_or_app; right; apply in_map; exact Iy|]. rewrite <- (EI a), <- (EI b). unfold map_right. nra. }
    destruct (Rle_dec x2 s) as [C1|C1]; [apply GL; try assumption; lra|].
    destruct (Rle_dec s x1) as [C2|C2]; [apply GR; try assumption; lra|].
    assert (Hs : E' < Rabs (evalT q s) /\ 0 < evalT c s * evalT q s).
    { apply QQ; [lra|]. apply Hm. right. right. split; [left; reflexivity|lra]. }
    destruct Hs as [Ms _].
    destruct (Rlt_dec (evalT q x1 * evalT q s) 0) as [D|D].
    - destruct (GL x1 s) as (y & Iy & By); try assumption; try lra. exists y. split; [exact Iy|lra].
    - destruct (GR s x2) as (y & Iy & By); try assumption; try lra.
      + assert (Zs : evalT q s <> 0) by (intros Z; rewrite Z, Rabs_R0 in Ms; lra).
        apply Rnot_lt_le in D. exact (sign3 _ _ _ Zs D HQ).
      + exists y. split; [exact Iy|lra].
  Qed.
End signs.
