(** Round trips of functionals; refutations. *)
From Coq Require Import Reals ZArith List Arith Bool Lra Lia.
From Coquelicot Require Import Coquelicot.
From Verif Require Import Base ChebSpec ChebMath ChebModel CosSums ChebDct ChebCalc ChebObj ChebOps2 ChebBary FunModel FunProofs ToolsProofs FnlModel FnlProofs.
Import ListNotations.
Open Scope R_scope.

Definition sc (s : R) (l : list R) : list R := map (fun x => x * s) l.
Lemma sc_length s l : length (sc s l) = length l.
Proof. apply map_length. Qed.
Lemma nth_sc s l k : nth k (sc s l) 0 = nth k l 0 * s.
Proof.
  unfold sc. destruct (Nat.lt_ge_cases k (length l)) as [H|H].
  - rewrite (nth_indep _ 0 (0 * s)) by (rewrite map_length; exact H). apply (map_nth (fun x => x * s)).
  - rewrite !nth_overflow by (rewrite ?map_length; exact H). ring.
Qed.
Lemma rev_sc s l : rev (sc s l) = sc s (rev l).
Proof. unfold sc. symmetry. apply map_rev. Qed.
Lemma sc_sc s t l : sc s (sc t l) = sc (t * s) l.
Proof. unfold sc. rewrite map_map. apply map_ext. intros; ring. Qed.
Lemma sc_1 l : sc 1 l = l.
Proof. unfold sc. rewrite <- (map_id l) at 2. apply map_ext. intros; ring. Qed.
Lemma polyval1_sc s c : polyval1 (sc s c) = sc s (polyval1 c).
Proof.
  destruct (Nat.eq_dec (length c) 1) as [E|E].
  - unfold polyval1. rewrite sc_length, E. reflexivity.
  - destruct (Nat.eq_dec (length c) 0) as [E0|E0]; [destruct c; [reflexivity|discriminate]|].
    apply list_ext with 0; [rewrite polyval1_length, !sc_length, polyval1_length; reflexivity|].
    intros k Hk. rewrite polyval1_length, sc_length in Hk. rewrite nth_sc.
    rewrite !(polyval1_nth _ (length c - 1)) by (rewrite ?sc_length; lia).
    rewrite <- rsum_scal_r. apply rsum_ext. intros i Hi. rewrite nth_sc. ring.
Qed.
Lemma polyfit1_sc s v : (1 <= length v)%nat -> polyfit1 (sc s v) = sc s (polyfit1 v).
Proof.
  intros H. rewrite <- (polyval_polyfit v) at 1 by exact H. rewrite <- polyval1_sc.
  apply polyfit_polyval. rewrite sc_length, polyfit1_length. exact H.
Qed.
Lemma val2coef_sc s r : val2coef_row (sc s r) = sc s (val2coef_row r).
Proof. unfold val2coef_row. now rewrite rev_sc, polyval1_sc, rev_sc. Qed.
Lemma coef2val_sc s w r : (1 <= length r)%nat -> coef2val_col w (sc s r) = sc s (coef2val_col w r).
Proof.
  intros H. unfold coef2val_col. rewrite rev_sc, polyfit1_sc by (rewrite rev_length; exact H).
  rewrite sc_length, <- rev_sc. f_equal.
  apply list_ext with 0; [rewrite sc_length, !mk_length; reflexivity|].
  intros i Hi. rewrite mk_length in Hi. rewrite nth_sc, !nth_mk by exact Hi. rewrite nth_sc. unfold Rdiv. ring.
Qed.
Lemma coef2val_length w r : length (coef2val_col w r) = length r.
Proof. unfold coef2val_col. now rewrite rev_length, mk_length, polyfit1_length, rev_length. Qed.

(** blocks *)
Lemma blocks_concat n m (r : list R) : length r = (n * m)%nat ->
  concat (mk m (fun k => firstn n (skipn (k * n) r))) = r.
Proof.
  revert r. induction m as [|m IH]; intros r Lr.
  - destruct r; [reflexivity|]. cbn in Lr. lia.
  - assert (E : mk (S m) (fun k => firstn n (skipn (k * n) r)) =
                firstn n r :: mk m (fun k => firstn n (skipn (k * n) (skipn n r)))).
    { apply list_ext with []; [rewrite mk_length; cbn [length]; now rewrite mk_length|]. intros k Hk. rewrite mk_length in Hk.
      destruct k as [|k]; rewrite nth_mk by lia; [reflexivity|]. cbn [nth]. rewrite nth_mk by lia.
      rewrite skipn_skipn. f_equal. }
    rewrite E. cbn [concat]. rewrite IH by (rewrite skipn_length; lia). apply firstn_skipn.
Qed.
Lemma concat_blocks n (A : arr) : List.Forall (fun c => length c = n) A ->
  forall k, (k < length A)%nat -> firstn n (skipn (k * n) (concat A)) = nth k A [].
Proof.
  induction A as [|a A IH]; intros F k Hk; [cbn in Hk; lia|]. inversion F as [|? ? La FA]; subst.
  destruct k as [|k]; cbn [concat nth Nat.mul].
  - cbn [skipn]. rewrite firstn_app, Nat.sub_diag, firstn_O, app_nil_r. apply firstn_all.
  - rewrite <- skipn_skipn, skipn_app, Nat.sub_diag, skipn_all. cbn [app skipn]. apply IH; [exact FA|cbn in Hk; lia].
Qed.
Lemma map_concat_sc s A : sc s (concat A) = concat (map (sc s) A).
Proof. unfold sc. apply concat_map. Qed.

Definition mkF (A : arr) (a b : R) : Fun := mkFun (mkCheb A 0 0 0 false) a b.

Theorem to_function_row n m a b r : (1 <= n)%nat -> (1 <= m)%nat -> a < b -> length r = (n * m)%nat ->
  exists A, to_function_coeffs n m a b r = Some A /\ rect n A /\ length A = m /\
    functional_row (mkF A a b) = Some r.
Proof.
  intros Hn Hm Hab Lr. destruct (quadwts_some n Hn) as [w [Hw Lw]].
  unfold to_function_coeffs, to_function_values. rewrite Hw. cbn [option_map]. eexists. split; [reflexivity|].
  assert (Lk : forall k, (k < m)%nat -> length (firstn n (skipn (k * n) r)) = n).
  { intros k Hk. rewrite firstn_length, skipn_length. apply Nat.min_l. nia. }
  set (A := polyfit _).
  assert (LA : length A = m) by (unfold A, polyfit; rewrite map_length; apply mk_length).
  set (s := / 2 * (b - a)). assert (Hs : s <> 0) by (unfold s; lra).
  assert (NA : forall k, (k < m)%nat -> nth k A [] = polyfit1 (sc (/ s) (coef2val_col w (firstn n (skipn (k * n) r))))).
  { intros k Hk. unfold A, polyfit. rewrite nth_map_arr by (rewrite mk_length; exact Hk). rewrite nth_mk by exact Hk.
    f_equal. }
  assert (RA : rect n A).
  { split; [exact Hn|]. split; [intros E; rewrite E in LA; cbn in LA; lia|].
    rewrite List.Forall_forall. intros c Hc. apply (In_nth _ _ []) in Hc. destruct Hc as [k [Hk <-]]. rewrite LA in Hk.
    rewrite NA by exact Hk. rewrite polyfit1_length, sc_length, coef2val_length. apply Lk, Hk. }
  split; [exact RA|]. split; [exact LA|].
  unfold functional_row, mkF. cbn [onefun coeffs dom0 dom1]. rewrite (rect_nrows n A RA), Hw. f_equal.
  fold s. change (map (fun x => x * s) (concat (map (functional_row1 w) A))) with (sc s (concat (map (functional_row1 w) A))).
  rewrite map_concat_sc. rewrite <- (blocks_concat n m r Lr) at 1. f_equal.
  apply list_ext with []; [rewrite !map_length, mk_length; exact LA|].
  intros k Hk. rewrite !map_length, LA in Hk. rewrite nth_mk by exact Hk.
  rewrite nth_map_arr by (rewrite map_length; lia). rewrite nth_map_arr by lia. rewrite NA by exact Hk.
  set (rk := firstn n (skipn (k * n) r)) in *. assert (Lrk : length rk = n) by (apply Lk; exact Hk).
  unfold functional_row1. rewrite polyval_polyfit by (rewrite sc_length, coef2val_length; lia).
  rewrite sc_length, coef2val_length, Lrk.
  transitivity (val2coef_row (mk n (fun i => nth i w 0 * nth i (coef2val_col w rk) 0))); [|apply (coef2val_col_back n w rk Hn Hw Lrk)]. rewrite <- val2coef_sc. f_equal.
  apply list_ext with 0; [rewrite sc_length, !mk_length; reflexivity|].
  intros i Hi. rewrite sc_length, mk_length in Hi. rewrite nth_sc, !nth_mk by exact Hi. rewrite nth_sc. field. exact Hs.
Qed.

Theorem row_to_function F n : fwf F -> len (onefun F) = n ->
  exists row, functional_row F = Some row /\
    to_function_coeffs n (fcols F) (dom0 F) (dom1 F) row = Some (coeffs (onefun F)).
Proof.
  intros [[n' Rf] Df] Ln. assert (n' = n) by (rewrite <- Ln; symmetry; apply rect_nrows, Rf). subst n'.
  assert (Hn : (1 <= n)%nat) by apply Rf.
  destruct (quadwts_some n Hn) as [w [Hw Lw]].
  unfold functional_row. change (nrows (coeffs (onefun F))) with (len (onefun F)). rewrite Ln, Hw.
  eexists. split; [reflexivity|]. unfold to_function_coeffs, to_function_values. rewrite Hw. cbn [option_map]. f_equal.
  set (s := / 2 * (dom1 F - dom0 F)). assert (Hs : s <> 0) by (unfold s; lra).
  set (A := coeffs (onefun F)) in *.
  change (map (fun x => x * s) (concat (map (functional_row1 w) A))) with (sc s (concat (map (functional_row1 w) A))).
  rewrite map_concat_sc. unfold fcols, ncols. fold A.
  assert (FA : List.Forall (fun c => length c = n) (map (sc s) (map (functional_row1 w) A))).
  { rewrite !List.Forall_map. destruct Rf as [_ [_ Rf]]. eapply List.Forall_impl; [|exact Rf].
    intros c Hc. now rewrite sc_length, row1_length. }
  unfold polyfit, mk. rewrite map_map. apply list_ext with []; [rewrite map_length, seq_length; reflexivity|].
  intros k Hk. rewrite map_length, seq_length in Hk.
  set (g := fun k => _). rewrite (nth_indep _ [] (g 0%nat)) by (rewrite map_length, seq_length; exact Hk).
  rewrite map_nth, seq_nth by exact Hk. cbn [Nat.add]. unfold g.
  rewrite (concat_blocks n) by (try exact FA; rewrite !map_length; exact Hk).
  rewrite nth_map_arr by (rewrite map_length; exact Hk). rewrite nth_map_arr by exact Hk.
  assert (Lc : length (nth k A []) = n) by (apply rect_nth; [exact Rf|exact Hk]).
  set (c := nth k A []) in *.
  rewrite coef2val_sc by (rewrite row1_length; lia).
  change (map (fun x => x / s) (sc s (coef2val_col w (functional_row1 w c)))) with (sc (/ s) (sc s (coef2val_col w (functional_row1 w c)))).
  rewrite sc_sc, Rinv_r, sc_1 by exact Hs.
  transitivity (polyfit1 (polyval1 c)); [|apply polyfit_polyval; lia]. f_equal.
  unfold coef2val_col, functional_row1, val2coef_row. rewrite rev_involutive.
  rewrite polyfit_polyval by (rewrite rev_length, mk_length, polyval1_length; lia).
  rewrite rev_length, mk_length, polyval1_length, Lc.
  apply list_ext with 0; [rewrite rev_length, mk_length, polyval1_length; lia|].
  intros i Hi. rewrite rev_length, mk_length in Hi. rewrite rev_nth by (rewrite mk_length; exact Hi). rewrite mk_length, nth_mk by lia.
  rewrite rev_nth by (rewrite mk_length; lia). rewrite mk_length, nth_mk by lia.
  replace (n - S (n - S i))%nat with i by lia. replace (n - S i)%nat with (n - 1 - i)%nat by lia.
  rewrite (quadwts_sym n w i Hw Hi). pose proof (quadwts_pos n w i Hn Hw Hi). field. lra.
Qed.

(** ** Weighted rows *)
Theorem weighted_one F G : fwf F -> fwf G -> fcols F = 1%nat -> fcols G = 1%nat -> len (onefun G) = len (onefun F) ->
  is_RInt (fun t => ev (onefun F) 0 (cos t) * ev (onefun G) 0 (cos t)) 0 PI (dotl (functional_weighted F) (fun_flatten G)).
Proof.
  intros [WF _] [WG _] CF CG L.
  evar_last; [apply (innerw_correct (onefun F) (onefun G) 0 WF WG); unfold fcols in *; lia|].
  unfold cheb_innerw. rewrite nth_mk by (unfold fcols, ncols in CF; lia).
  destruct WF as [n RF]. destruct WG as [n' RG].
  assert (n' = n) by (rewrite <- (rect_nrows n _ RF), <- (rect_nrows n' _ RG); exact L). subst n'.
  unfold functional_weighted, fun_flatten, dotl.
  unfold fcols, ncols in CF, CG.
  destruct (coeffs (onefun F)) as [|c [|? ?]]; try (cbn in CF; discriminate).
  destruct (coeffs (onefun G)) as [|d [|? ?]]; try (cbn in CG; discriminate).
  cbn [concat nth]. rewrite !app_nil_r, mk_length.
  destruct RF as [Hn [_ RF]]. destruct RG as [_ [_ RG]]. inversion RF as [|? ? Lc _]; subst. inversion RG as [|? ? Ld _]; subst.
  unfold innerw1. rewrite Ld, Nat.min_id.
  assert (P : forall l, length l = length c -> prolong1 l (Z.of_nat (length c)) = l).
  { intros l Hl. unfold prolong1. rewrite Hl, Z.sub_diag. reflexivity. }
  rewrite !P by (rewrite ?Ld; reflexivity).
  destruct (length c) as [|p] eqn:Ec; [lia|]. rewrite !rsum_S_l. rewrite !nth_mk by lia. cbn [Nat.eqb].
  rewrite (rsum_ext p (fun k => nth (S k) (mk (S p) _) 0 * nth (S k) d 0) (fun k => (nth (S k) c 0 * nth (S k) d 0) * (/ 2 * PI))).
  2:{ intros k Hk. rewrite nth_mk by lia. cbn [Nat.eqb]. ring. }
  rewrite rsum_scal_r. field.
Qed.

(** f = g = the columns (1, 1) on [-1,1]: the integral is 2 pi, the row gives
    3/2 pi. *)
Lemma ex_weighted : let F := mkF [[1]; [1]] (-1) 1 in
  dotl (functional_weighted F) (fun_flatten F) = 3 / 2 * PI /\
  is_RInt (fun t => rsum 2 (fun j => ev (onefun F) j (cos t) * ev (onefun F) j (cos t))) 0 PI (2 * PI).
Proof.
  split.
  - unfold functional_weighted, fun_flatten, mkF, dotl. cbn. field.
  - evar_last.
    + eapply is_RInt_ext; [|apply (is_RInt_const (V := R_NormedModule) 0 PI 2)].
      intros t _. unfold ev, evalT. cbn. ring.
    + unfold scal; cbn; unfold mult; cbn. ring.
Qed.

(** f = u = x on two points: the row gives 2, the integral is 2/3. *)
Lemma w2 : quadwts 2 = Some [1; 1].
Proof.
  destruct (quadwts_some 2 ltac:(lia)) as [w [Hw Lw]]. rewrite Hw. f_equal.
  apply list_ext with 0; [exact Lw|]. intros k Hk. rewrite Lw in Hk.
  rewrite (quadwts_nth 2 w k) by (auto; lia). cbn [Nat.sub rsum].
  unfold ew, moment. destruct k as [|[|k]]; [| |lia]; cbn; rewrite ?Rmult_0_r; unfold Rdiv; rewrite ?Rmult_0_l, ?Rmult_0_r, ?Rmult_0_l, cos_0; field.
Qed.
Lemma ex_row : let F := mkF [[0; 1]] (-1) 1 in
  functional_row F = Some [0; 2] /\ dotl [0; 2] (fun_flatten F) = 2 /\
  is_RInt (fun x => fev F 0 x * fev F 0 x) (-1) 1 (2 / 3).
Proof.
  cbn zeta. split; [|split].
  - unfold functional_row, mkF. cbn [onefun coeffs dom0 dom1 nrows hd length]. rewrite w2. f_equal.
    assert (V : polyval1 [0; 1] = [-1; 1]).
    { unfold polyval1, dct1. cbn -[sgn]. rewrite !Rmult_0_r, !Rplus_0_r. unfold sgn. cbn. repeat f_equal; ring. }
    assert (V2 : polyval1 [1; -1] = [2; 0]).
    { unfold polyval1, dct1. cbn -[sgn]. rewrite !Rmult_0_r, !Rplus_0_r. unfold sgn. cbn. repeat f_equal; ring. }
    cbn [map concat app]. unfold functional_row1. rewrite V. unfold val2coef_row, mk. cbn [length seq map rev app nth].
    replace (1 * 1) with 1 by ring. replace (1 * -1) with (-1) by ring. rewrite V2. cbn [rev app map]. f_equal; [ring|]. f_equal. field.
  - unfold dotl, fun_flatten, mkF. cbn. ring.
  - evar_last.
    + eapply is_RInt_ext; [|apply (is_RInt_derive (V := R_CompleteNormedModule) (fun x : R => x ^ 3 / 3) (fun x : R => x * x))].
      * intros x _. unfold fev, ev, evalT, mkF. cbn. field.
      * intros x _. auto_derive; [exact I|field].
      * intros x _. apply (continuous_mult (fun x : R => x) (fun x : R => x)); apply continuous_id.
    + unfold minus, plus, opp; cbn. field.
Qed.
