(** The assembled matrix represents the operator. *)
From Coq Require Import Reals ZArith List Arith Bool Lra Lia.
From Coquelicot Require Import Coquelicot.
From Verif Require Import Base ChebSpec ChebMath ChebModel CosSums ChebDct ChebCalc ChebBary UltraSpec UltraModel UltraBasis UltraProofs UltraMult FunModel FunProofs ToolsProofs FnlModel FnlProofs OpSpec OpModel.
Import ListNotations.
Open Scope R_scope.

(** ** uniqueness of expansions *)
Lemma evalT_inj c d : length c = length d -> (forall x, evalT c x = evalT d x) -> c = d.
Proof.
  intros L E. destruct (Nat.eq_dec (length c) 0) as [Z|Z].
  { destruct c; [|discriminate]. destruct d; [reflexivity|discriminate]. }
  rewrite <- (polyfit_polyval c), <- (polyfit_polyval d) by lia. f_equal.
  assert (PL : forall c : list R, (1 <= length c)%nat -> length (polyval1 c) = length c) by (intros; apply polyval1_length; auto).
  apply (list_ext _ _ 0); [rewrite !PL by lia; exact L|]. rewrite PL by lia. intros k Hk.
  rewrite !polyval1_spec by lia. rewrite L. apply E.
Qed.
Lemma evalU_ge lam c x N : (length c <= N)%nat -> evalU lam c x = rsum N (fun k => nth k c 0 * ubasis lam k x).
Proof.
  intros H. unfold evalU. symmetry. apply rsum_extend; [exact H|]. intros k Hk. rewrite nth_overflow by lia. lra.
Qed.
Definition padto (N : nat) (c : list R) : list R := mk N (fun i => nth i c 0).
Lemma padto_length N c : length (padto N c) = N. Proof. apply mk_length. Qed.
Lemma padto_nth N c i : (length c <= N)%nat -> nth i (padto N c) 0 = nth i c 0.
Proof.
  intros H. unfold padto. destruct (Nat.lt_ge_cases i N) as [G|G]; [rewrite nth_mk by exact G; reflexivity|]. rewrite nth_mk_out by exact G. rewrite nth_overflow by lia. reflexivity.
Qed.
Lemma evalU_pad lam N c x : (length c <= N)%nat -> evalU lam (padto N c) x = evalU lam c x.
Proof. intros H. rewrite (evalU_ge lam c x N H). unfold padto. apply evalU_mk. Qed.

Lemma evalU_toT n lam c : (2 <= n)%nat -> length c = n -> exists t, length t = n /\ (forall x, evalT t x = evalU lam c x) /\
  c = match lam with O => t | S q => matvec n (convertmat n 0 q) t end.
Proof.
  intros Hn L. destruct lam as [|q].
  - exists c. split; [exact L|]. split; [reflexivity|reflexivity].
  - exists (matvec n (convertmat_inv n 0 q) c). split; [apply matvec_length|]. split.
    + intros x. destruct (convertmat_correct n 0 q (matvec n (convertmat_inv n 0 q) c) x Hn (matvec_length _ _ _)) as [_ E].
      rewrite convertmat_inv_r in E by assumption. replace (Nat.max 0 (q + 1)) with (S q) in E by lia. rewrite E. reflexivity.
    + symmetry. apply convertmat_inv_r; assumption.
Qed.
Lemma evalU_inj lam c d : length c = length d -> (2 <= length c)%nat -> (forall x, evalU lam c x = evalU lam d x) -> c = d.
Proof.
  intros L H E. destruct (evalU_toT (length c) lam c H eq_refl) as (t & Lt & Et & Ec).
  destruct (evalU_toT (length c) lam d H (eq_sym L)) as (t' & Lt' & Et' & Ed).
  assert (t = t') by (apply evalT_inj; [congruence|intros x; rewrite Et, Et'; apply E]). subst t'. rewrite Ec, Ed. reflexivity.
Qed.
Lemma spanU n lam f : (2 <= n)%nat -> spanT n f -> exists t, length t = n /\ forall x, f x = evalU lam t x.
Proof.
  intros Hn (c & L & E). destruct lam as [|q]; [exists c; split; [exact L|exact E]|].
  exists (matvec n (convertmat n 0 q) c). split; [apply matvec_length|]. intros x.
  destruct (convertmat_correct n 0 q c x Hn L) as [_ Q]. replace (Nat.max 0 (q + 1)) with (S q) in Q by lia. rewrite Q. apply E.
Qed.
Lemma spanT_evalU n lam c : (2 <= n)%nat -> (length c <= n)%nat -> spanT n (evalU lam c).
Proof.
  intros Hn L. destruct (evalU_toT n lam (padto n c) Hn (padto_length _ _)) as (t & Lt & Et & _).
  exists t. split; [exact Lt|]. intros x. rewrite Et. symmetry. apply evalU_pad. exact L.
Qed.
Lemma leading_exact lam n f g r : (2 <= n)%nat -> length r = n -> leading_product lam f g r ->
  spanT n (fun x => f x * evalU lam g x) -> forall x, evalU lam r x = f x * evalU lam g x.
Proof.
  intros Hn L (h & F & E) Sp x. destruct (spanU n lam _ Hn Sp) as (t & Lt & Et).
  assert (Lh : (n <= length h)%nat). { rewrite <- L at 1. rewrite <- F, firstn_length. lia. }
  assert (h = padto (length h) t).
  { apply (evalU_inj lam); [rewrite padto_length; reflexivity|lia|]. intros y. rewrite evalU_pad by lia. rewrite E, Et. reflexivity. }
  assert (r = t).
  { apply (list_ext _ _ 0); [congruence|]. intros k Hk. rewrite <- F, L. rewrite nth_firstn' by lia. rewrite H. apply padto_nth. lia. }
  subst r. rewrite Et. reflexivity.
Qed.

(** ** agreement of leading coefficients *)
(** [r] agrees with the C^(K) coefficients of [F] in its first [p] entries *)
Definition agrees (K p : nat) (F : R -> R) (r : list R) : Prop :=
  exists h, (forall i, (i < p)%nat -> nth i h 0 = nth i r 0) /\ forall x, evalU K h x = F x.
(** [r] are the coefficients *)
Definition exactly (K : nat) (F : R -> R) (r : list R) : Prop := forall x, evalU K r x = F x.

Lemma agrees_ext K p F G r : (forall x, F x = G x) -> agrees K p F r -> agrees K p G r.
Proof. intros E (h & A & B). exists h. split; [exact A|]. intros x. rewrite B. apply E. Qed.
Lemma agrees_mono K p q F r : (q <= p)%nat -> agrees K p F r -> agrees K q F r.
Proof. intros H (h & A & B). exists h. split; [intros i Hi; apply A; lia|exact B]. Qed.
Lemma exactly_agrees K p F r : exactly K F r -> agrees K p F r.
Proof. intros E. exists r. split; [reflexivity|exact E]. Qed.
Definition ladd (n : nat) (r s : list R) : list R := mk n (fun i => nth i r 0 + nth i s 0).
Lemma agrees_add K p n F G r s : (p <= n)%nat -> agrees K p F r -> agrees K p G s -> agrees K p (fun x => F x + G x) (ladd n r s).
Proof.
  intros Hp (h & A & B) (k & C & D). set (N := Nat.max (length h) (length k)).
  exists (ladd (Nat.max n N) h k). split.
  - intros i Hi. unfold ladd. rewrite !nth_mk by lia. rewrite A, C by exact Hi. reflexivity.
  - intros x. unfold ladd. rewrite evalU_mk. rewrite <- B, <- D. rewrite (evalU_ge K h x (Nat.max n N)), (evalU_ge K k x (Nat.max n N)) by lia.
    rewrite <- rsum_plus. apply rsum_ext. intros j _. ring.
Qed.
Lemma exactly_add K n F G r s : length r = n -> length s = n -> exactly K F r -> exactly K G s -> exactly K (fun x => F x + G x) (ladd n r s).
Proof.
  intros Lr Ls A B x. unfold ladd. rewrite evalU_mk. rewrite <- A, <- B. unfold evalU. rewrite Lr, Ls, <- rsum_plus. apply rsum_ext. intros j _. ring.
Qed.
Lemma agrees_scal K p n t F r : (p <= n)%nat -> agrees K p F r -> agrees K p (fun x => t * F x) (mk n (fun i => t * nth i r 0)).
Proof.
  intros Hp (h & A & B). exists (mk (Nat.max n (length h)) (fun i => t * nth i h 0)). split.
  - intros i Hi. rewrite !nth_mk by lia. rewrite A by exact Hi. reflexivity.
  - intros x. rewrite evalU_mk, <- B, (evalU_ge K h x (Nat.max n (length h))) by lia. rewrite <- rsum_scal. apply rsum_ext. intros j _. ring.
Qed.
Lemma exactly_scal K n t F r : length r = n -> exactly K F r -> exactly K (fun x => t * F x) (mk n (fun i => t * nth i r 0)).
Proof. intros L A x. rewrite evalU_mk, <- A. unfold evalU. rewrite L, <- rsum_scal. apply rsum_ext. intros j _. ring. Qed.

Lemma agrees_spconvert lam p n F r : (2 <= n)%nat -> length r = n -> (p <= n)%nat -> agrees lam p F r -> agrees (S lam) (p - 2) F (matvec n (spconvert n lam) r).
Proof.
  intros Hn L Hp (h & A & B). set (N := Nat.max n (length h)).
  exists (matvec N (spconvert N lam) (padto N h)). split.
  - intros i Hi. rewrite !spconvert_row; try (rewrite ?padto_length; lia). rewrite !padto_nth by lia. rewrite !A by lia. reflexivity.
  - intros x. rewrite spconvert_eval; [|lia|apply padto_length]. rewrite evalU_pad by lia. apply B.
Qed.
Lemma agrees_us_convert n K j p F r : (2 <= n)%nat -> length r = n -> (p <= n)%nat -> (j <= K)%nat -> agrees j p F r ->
  agrees K (p - 2 * (K - j)) F (matvec n (us_convert n K j) r).
Proof.
  intros Hn L Hp Hj A. destruct K as [|q].
  { replace j with 0%nat in * by lia. cbn [us_convert]. rewrite matvec_eye by exact L. cbn [Nat.sub Nat.mul]. rewrite Nat.sub_0_r. exact A. }
  cbn [us_convert]. destruct (Nat.le_gt_cases j q) as [H|H].
  2:{ replace j with (S q) in * by lia. unfold convertmat. replace (q + 1 - S q)%nat with 0%nat by lia. cbn [seq fold_left]. rewrite matvec_eye by exact L.
      rewrite Nat.sub_diag. cbn [Nat.mul]. rewrite Nat.sub_0_r. exact A. }
  replace q with (j + (q - j))%nat by lia. generalize (q - j)%nat. intros d. clear H Hj q. induction d as [|d IH].
  - rewrite convertmat_S, (matvec_eye n r L). rewrite Nat.add_0_r. replace (S j - j)%nat with 1%nat by lia. apply agrees_spconvert; try assumption.
  - rewrite convertmat_S. replace (p - 2 * (S (j + S d) - j))%nat with (p - 2 * (S (j + d) - j) - 2)%nat by lia.
    replace (j + S d)%nat with (S (j + d)) by lia. apply agrees_spconvert; [exact Hn|apply matvec_length|lia|]. exact IH.
Qed.
Lemma exactly_us_convert n K j F r : (2 <= n)%nat -> length r = n -> (j <= K)%nat -> exactly j F r -> exactly K F (matvec n (us_convert n K j) r).
Proof.
  intros Hn L Hj A x. destruct K as [|q].
  { replace j with 0%nat in * by lia. cbn [us_convert]. rewrite matvec_eye by exact L. apply A. }
  cbn [us_convert]. destruct (convertmat_correct n j q r x Hn L) as [_ Q]. replace (Nat.max j (q + 1)) with (S q) in Q by lia. rewrite Q. apply A.
Qed.

(** ** multiplication *)
Lemma mult_leading n lam eps f g : (3 <= n)%nat -> length g = n -> representable n lam eps f ->
  leading_product lam (evalT f) g (matvec n (multmat n f lam eps) g).
Proof.
  intros Hn Lg [H1|[Hl [[H G]|[H G]]]].
  - destruct f as [|a [|b f]]; try discriminate. unfold multmat. cbn [length Nat.eqb nth]. rewrite <- Lg. apply leading_product_const.
  - apply multmat_product; try assumption; lia.
  - destruct (multmat_product_high n f lam eps g) as (b & K & Lb & Eb & HK & Sm & LP); try assumption; try lia.
    assert (Z : forall p, (K <= p < n)%nat -> nth p b 0 = 0).
    { intros p Hp. destruct (G b Lb Eb p) as [?|Q]; [assumption|]. specialize (Sm p Hp). lra. }
    destruct LP as (h & F & E). exists h. split; [exact F|]. intros x. rewrite E. f_equal. rewrite <- Eb.
    unfold evalU. rewrite firstn_length, Lb. replace (Nat.min K n) with K by lia. symmetry. rewrite (rsum_extend K n); [|exact HK|].
    + apply rsum_ext. intros k Hk. rewrite nth_firstn' by exact Hk. reflexivity.
    + intros k Hk. rewrite Z by exact Hk. ring.
Qed.

(** ** derivatives *)
Lemma matvec_mscal n t A c : matvec n (mscal t A) c = mk n (fun i => t * nth i (matvec n A c) 0).
Proof. apply mk_ext. intros i Hi. rewrite matvec_nth by exact Hi. rewrite <- rsum_scal. apply rsum_ext. intros j _. unfold mscal. ring. Qed.
Lemma matvec_madd n A B c : matvec n (madd A B) c = ladd n (matvec n A c) (matvec n B c).
Proof. apply mk_ext. intros i Hi. rewrite !matvec_nth by exact Hi. rewrite <- rsum_plus. apply rsum_ext. intros j _. unfold madd. ring. Qed.
Lemma us_diff_exact n len j c : length c = n -> exactly j (fun t => (2 / len) ^ j * Derive_n (evalT c) j t) (matvec n (us_diff n len j) c).
Proof.
  intros L. destruct j as [|j].
  - intros x. unfold us_diff. rewrite matvec_eye by exact L. cbn [pow Derive_n]. rewrite Rmult_1_l. reflexivity.
  - unfold us_diff. rewrite matvec_mscal. apply exactly_scal; [apply matvec_length|]. intros x.
    destruct (diffmat_correct n (S j) c x L) as [_ D]. symmetry. apply is_derive_n_unique. exact D.
Qed.
Lemma supported_shift n f d c : supported d c -> supported (d - 1) (matvec n (spdiags [(1%Z, f)]) c).
Proof.
  intros S i Hi. destruct (Nat.lt_ge_cases i n) as [G|G]; [|apply nth_overflow; rewrite matvec_length; exact G].
  rewrite matvec_nth by exact G. apply rsum_zero. intros j _. rewrite spdiags1. destruct (Z.eqb_spec (Z.of_nat j - Z.of_nat i) 1) as [E|E]; [|ring].
  rewrite S by lia. ring.
Qed.
Lemma supported_diffmat n d c j : length c = n -> supported d c -> supported (d - j) (matvec n (diffmat n j) c).
Proof.
  intros L S. induction j as [|j IH].
  - unfold diffmat. rewrite matvec_eye, Nat.sub_0_r by exact L. exact S.
  - rewrite diffmat_S by exact L. replace (d - Datatypes.S j)%nat with (d - j - 1)%nat by lia. unfold diffstep. destruct j; apply supported_shift; exact IH.
Qed.
Lemma supported_us_diff n len d c j : length c = n -> supported d c -> supported (d - j) (matvec n (us_diff n len j) c).
Proof.
  intros L S. destruct j as [|j]; unfold us_diff; [rewrite matvec_eye, Nat.sub_0_r by exact L; exact S|].
  rewrite matvec_mscal. intros i Hi. destruct (Nat.lt_ge_cases i n) as [G|G]; [|apply nth_overflow; rewrite mk_length; exact G].
  rewrite nth_mk by exact G. rewrite (supported_diffmat n d c (Datatypes.S j) L S i Hi). ring.
Qed.
Lemma spanT_supported n lam d c : (2 <= n)%nat -> length c = n -> supported d c -> spanT (Nat.min d n) (evalU lam c).
Proof.
  intros Hn L S.
  assert (B : forall m x, (d <= m <= n)%nat -> evalU lam c x = evalU lam (padto m c) x).
  { intros m x Hm. unfold padto. rewrite evalU_mk. unfold evalU. rewrite L. apply rsum_extend; [lia|]. intros k Hk. rewrite S by lia. ring. }
  destruct (Nat.le_gt_cases n d) as [H|H].
  { replace (Nat.min d n) with n by lia. apply spanT_evalU; lia. }
  replace (Nat.min d n) with d by lia. destruct (Nat.le_gt_cases 2 d) as [H2|H2].
  { apply (spanT_ext d (evalU lam (padto d c))); [intros x; symmetry; apply B; lia|]. apply spanT_evalU; [exact H2|rewrite padto_length; lia]. }
  exists (padto d c). split; [apply padto_length|]. intros x. rewrite (B d) by lia. unfold padto. rewrite evalU_mk, evalT_mk.
  apply rsum_ext. intros k Hk. replace k with 0%nat by lia. rewrite ubasis_0. reflexivity.
Qed.

(** ** one derivative term *)
Definition dterm (len : R) (a c : list R) (j : nat) (t : R) : R := evalT a t * ((2 / len) ^ j * Derive_n (evalT c) j t).
Lemma us_term_vec n K len eps a j c : matvec n (us_term n K len eps a j) c = matvec n (us_convert n K j) (matvec n (multmat n a j eps) (matvec n (us_diff n len j) c)).
Proof. unfold us_term. rewrite !matvec_matmul. reflexivity. Qed.
Lemma us_term_agrees n K len eps a j c : (3 <= n)%nat -> length c = n -> (j <= K)%nat -> representable n j eps a ->
  agrees K (n - 2 * (K - j)) (dterm len a c j) (matvec n (us_term n K len eps a j) c).
Proof.
  intros Hn L Hj R. rewrite us_term_vec. apply agrees_us_convert; [lia|apply matvec_length|lia|exact Hj|].
  destruct (mult_leading n j eps a (matvec n (us_diff n len j) c) Hn (matvec_length _ _ _) R) as (h & F & E).
  exists h. split.
  - intros i Hi. rewrite <- F, matvec_length. rewrite nth_firstn' by exact Hi. reflexivity.
  - intros x. rewrite E. unfold dterm. f_equal. apply (us_diff_exact n len j c L).
Qed.
Lemma rep_len n lam eps a : (1 <= n)%nat -> representable n lam eps a -> (1 <= length a <= n)%nat.
Proof. intros H [E|[E _]]; lia. Qed.
Lemma us_term_exact n K len eps a j c d : (3 <= n)%nat -> length c = n -> (j <= K)%nat -> representable n j eps a ->
  supported d c -> (length a + (d - j) <= n + 1)%nat ->
  exactly K (dterm len a c j) (matvec n (us_term n K len eps a j) c).
Proof.
  intros Hn L Hj R Sd Hd. pose proof (rep_len n j eps a ltac:(lia) R) as La. rewrite us_term_vec. apply exactly_us_convert; [lia|apply matvec_length|exact Hj|].
  intros x. rewrite (leading_exact j n (evalT a) (matvec n (us_diff n len j) c)); [|lia|apply matvec_length|apply mult_leading; try assumption; apply matvec_length|].
  - unfold dterm. f_equal. apply (us_diff_exact n len j c L).
  - apply spanT_mul with (n := length a) (m := Nat.min (d - j) n); [lia|apply spanT_evalT; lia|].
    apply spanT_supported; [lia|apply matvec_length|apply supported_us_diff; assumption].
Qed.

(** ** one integral term *)
Definition iterm (len : R) (f g c : list R) (t : R) : R := evalT f t * (/ 2 * len * RInt (fun y => evalT g y * evalT c y) (-1) 1).
Lemma us_iterm_vec n K len eps f g c : matvec n (us_iterm n K len eps f g) c =
  matvec n (us_convert n K 0) (matvec n (multmat n f 0 eps) (matvec n (us_int n len) (matvec n (multmat n g 0 eps) c))).
Proof. unfold us_iterm. rewrite !matvec_matmul. reflexivity. Qed.
Lemma us_iterm_exact n K len eps f g c d : (3 <= n)%nat -> length c = n -> representable n 0 eps f -> representable n 0 eps g ->
  supported d c -> (length g + d <= n + 1)%nat ->
  exactly K (iterm len f g c) (matvec n (us_iterm n K len eps f g) c).
Proof.
  intros Hn L Rf Rg Sd Hd. pose proof (rep_len n 0 eps f ltac:(lia) Rf) as Lf. pose proof (rep_len n 0 eps g ltac:(lia) Rg) as Lg.
  rewrite us_iterm_vec. apply exactly_us_convert; [lia|apply matvec_length|lia|].
  set (r := matvec n (multmat n g 0 eps) c).
  assert (Er : forall x, evalT r x = evalT g x * evalT c x).
  { intros x. apply (leading_exact 0 n (evalT g) c r); [lia|apply matvec_length|apply mult_leading; assumption|].
    apply spanT_mul with (n := length g) (m := Nat.min d n); [lia|apply spanT_evalT; lia|]. apply (spanT_supported n 0); [lia|exact L|exact Sd]. }
  destruct (intmat_correct n r ltac:(lia) (matvec_length _ _ _)) as [I0 I1].
  set (I := RInt (fun y => evalT g y * evalT c y) (-1) 1).
  assert (EI : nth 0 (matvec n (intmat n) r) 0 = I).
  { symmetry. apply (is_RInt_unique (V := R_CompleteNormedModule)). apply (is_RInt_ext (evalT r)); [intros x _; apply Er|exact I0]. }
  set (w := matvec n (us_int n len) r).
  assert (Ew : forall x, evalT w x = / 2 * len * I).
  { intros x. unfold w, us_int. rewrite matvec_mscal, evalT_mk. rewrite (rsum_single n _ 0); [rewrite EI; cbn [T]; ring|lia|].
    intros k Hk Hne. rewrite I1 by lia. ring. }
  intros x. rewrite (leading_exact 0 n (evalT f) w); [|lia|apply matvec_length|apply mult_leading; try assumption; apply matvec_length|].
  - unfold iterm. fold I. f_equal. apply Ew.
  - apply (spanT_ext n (fun y => (/ 2 * len * I) * evalT f y)).
    + intros y. change (evalU 0 w y) with (evalT w y). rewrite Ew. ring.
    + apply spanT_scal. apply spanT_evalT. lia.
Qed.

(** ** a block *)
Lemma fold_terms (P : (R -> R) -> list R -> Prop) n c (st : mat -> nat -> mat) (G : nat -> R -> R) L0 F0 N :
  (forall F1 F2 r s, length r = n -> length s = n -> P F1 r -> P F2 s -> P (fun x => F1 x + F2 x) (ladd n r s)) ->
  (forall F1 F2 r, (forall x, F1 x = F2 x) -> P F1 r -> P F2 r) ->
  P F0 (matvec n L0 c) ->
  (forall L j, (j < N)%nat -> (exists X, P (G j) (matvec n X c) /\ st L j = madd L X) \/ (st L j = L /\ forall x, G j x = 0)) ->
  P (fun x => F0 x + rsum N (fun j => G j x)) (matvec n (fold_left st (seq 0 N) L0) c).
Proof.
  intros PA PE P0 H. induction N as [|N IH].
  - cbn [seq fold_left]. apply (PE F0); [intros x; cbn [rsum]; ring|exact P0].
  - rewrite seq_S, fold_left_app. cbn [fold_left]. rewrite Nat.add_0_l.
    assert (Q := IH (fun L j Hj => H L j ltac:(lia))).
    destruct (H (fold_left st (seq 0 N) L0) N ltac:(lia)) as [(X & PX & E)|[E Z]]; rewrite E.
    + rewrite matvec_madd. apply (PE (fun x => (F0 x + rsum N (fun j => G j x)) + G N x)); [intros x; cbn [rsum]; ring|].
      apply PA; try apply matvec_length; assumption.
    + apply (PE (fun x => F0 x + rsum N (fun j => G j x))); [intros x; cbn [rsum]; rewrite Z; ring|exact Q].
Qed.

Definition sgn (adj : bool) (j : nat) : R := if adj && Nat.odd j then -1 else 1.
(** the operator in the variable of [-1,1] *)
Definition refop (adj : bool) (len : R) (cs ics ints : list (list R)) (c : list R) (t : R) : R :=
  rsum (length cs) (fun j => sgn adj j * dterm len (nth j cs []) c j t) +
  rsum (length ics) (fun k => iterm len (nth k ics []) (nth k ints []) c t).

Lemma iterm_zero len f g c t : (forall x, evalT f x = 0) \/ (forall x, evalT g x = 0) -> iterm len f g c t = 0.
Proof.
  intros [H|H]; unfold iterm; [rewrite H; ring|]. rewrite (RInt_ext _ (fun _ : R => 0)); [|intros x _; rewrite H; apply Rmult_0_l].
  rewrite RInt_const. unfold scal; cbn. unfold mult; cbn. ring.
Qed.
Lemma block_general (P : (R -> R) -> list R -> Prop) (adj : bool) n K len eps q c :
  (forall F1 F2 r s, length r = n -> length s = n -> P F1 r -> P F2 s -> P (fun x => F1 x + F2 x) (ladd n r s)) ->
  (forall F1 F2 r, (forall x, F1 x = F2 x) -> P F1 r -> P F2 r) ->
  (forall t F r, length r = n -> P F r -> P (fun x => t * F x) (mk n (fun i => t * nth i r 0))) ->
  P (fun _ => 0) (matvec n zeromat c) ->
  flags_ok (q_info q) (q_coeffs q) (q_ics q) (q_ints q) -> length (q_ics q) = length (q_ints q) ->
  (forall j, (j < length (q_coeffs q))%nat -> P (dterm len (nth j (q_coeffs q) []) c j) (matvec n (us_term n K len eps (nth j (q_coeffs q) []) j) c)) ->
  let fs := if adj then q_ints q else q_ics q in let gs := if adj then q_ics q else q_ints q in
  (forall k, (k < length (q_ics q))%nat -> P (iterm len (nth k fs []) (nth k gs []) c) (matvec n (us_iterm n K len eps (nth k fs []) (nth k gs [])) c)) ->
  P (refop adj len (q_coeffs q) fs gs c) (matvec n (us_block adj n K len eps q) c).
Proof.
  intros PA PE PS P0 [Fl1 Fl2] LI HD fs gs HI.
  assert (Lf : length fs = length (q_ics q)) by (unfold fs; destruct adj; congruence).
  assert (Q : P (fun x => 0 + rsum (length (q_coeffs q)) (fun j => sgn adj j * dterm len (nth j (q_coeffs q) []) c j x))
     (matvec n (fold_left (fun L j => if nth j (q_info q) false
                                 then (if adj && Nat.odd j then madd L (mscal (-1) (us_term n K len eps (nth j (q_coeffs q) []) j))
                                       else madd L (us_term n K len eps (nth j (q_coeffs q) []) j))
                                 else L) (seq 0 (length (q_coeffs q))) zeromat) c)).
  { apply (fold_terms P n c _ (fun j x => sgn adj j * dterm len (nth j (q_coeffs q) []) c j x) zeromat (fun _ => 0)); try assumption.
    intros L j Hj. destruct (nth j (q_info q) false) eqn:E.
    - left. unfold sgn. destruct (adj && Nat.odd j).
      + exists (mscal (-1) (us_term n K len eps (nth j (q_coeffs q) []) j)). split; [|reflexivity]. rewrite matvec_mscal. apply (PS (-1)); [apply matvec_length|apply HD; exact Hj].
      + exists (us_term n K len eps (nth j (q_coeffs q) []) j). split; [|reflexivity]. apply (PE (dterm len (nth j (q_coeffs q) []) c j)); [intros x; ring|apply HD; exact Hj].
    - right. split; [reflexivity|]. intros x. unfold dterm. rewrite (Fl1 j Hj E). ring. }
  unfold us_block. fold fs gs. unfold refop. rewrite Lf. destruct (last (q_info q) false) eqn:E.
  - apply (PE (fun x => (0 + rsum (length (q_coeffs q)) (fun j => sgn adj j * dterm len (nth j (q_coeffs q) []) c j x)) + rsum (length (q_ics q)) (fun k => iterm len (nth k fs []) (nth k gs []) c x))); [intros x; ring|].
    apply (fold_terms P n c (fun L k => madd L (us_iterm n K len eps (nth k fs []) (nth k gs [])))); try assumption.
    intros L k Hk. left. exists (us_iterm n K len eps (nth k fs []) (nth k gs [])). split; [apply HI; exact Hk|reflexivity].
  - apply (PE (fun x => 0 + rsum (length (q_coeffs q)) (fun j => sgn adj j * dterm len (nth j (q_coeffs q) []) c j x))); [|exact Q].
    intros x. rewrite (rsum_zero (length (q_ics q))); [ring|]. intros k Hk. apply iterm_zero. specialize (Fl2 eq_refl k Hk). unfold fs, gs. destruct adj; tauto.
Qed.
Lemma matvec_zeromat n c : matvec n zeromat c = mk n (fun _ => 0).
Proof. apply mk_ext. intros i _. apply rsum_zero. intros j _. unfold zeromat. ring. Qed.
Lemma exactly_zero K n c : exactly K (fun _ => 0) (matvec n zeromat c).
Proof. intros x. rewrite matvec_zeromat, evalU_mk. apply rsum_zero. intros; ring. Qed.

Lemma block_agrees (adj : bool) n K len eps q c d : (3 <= n)%nat -> length c = n ->
  flags_ok (q_info q) (q_coeffs q) (q_ics q) (q_ints q) -> op_representable n K eps (q_coeffs q) (q_ics q) (q_ints q) ->
  supported d c -> (forall k, (k < length (q_ics q))%nat -> (length (nth k (if adj then q_ics q else q_ints q) []) + d <= n + 1)%nat) ->
  agrees K (n - 2 * K) (refop adj len (q_coeffs q) (if adj then q_ints q else q_ics q) (if adj then q_ics q else q_ints q) c) (matvec n (us_block adj n K len eps q) c).
Proof.
  intros Hn L Fl (Rd & LI & Ri) Sd Hi. apply (block_general (agrees K (n - 2 * K))); try assumption.
  - intros F1 F2 r s Lr Ls. apply agrees_add. lia.
  - intros F1 F2 r. apply agrees_ext.
  - intros t F r Lr. apply agrees_scal. lia.
  - apply exactly_agrees, exactly_zero.
  - intros j Hj. destruct (Rd j Hj) as [HK Rj]. apply agrees_mono with (n - 2 * (K - j))%nat; [lia|]. apply us_term_agrees; assumption.
  - intros k Hk. destruct (Ri k Hk) as [Rc Rg]. apply exactly_agrees. destruct adj; apply us_iterm_exact with d; try assumption; apply Hi; exact Hk.
Qed.
Lemma block_exact (adj : bool) n K len eps q c d : (3 <= n)%nat -> length c = n ->
  flags_ok (q_info q) (q_coeffs q) (q_ics q) (q_ints q) -> op_representable n K eps (q_coeffs q) (q_ics q) (q_ints q) ->
  supported d c -> (forall j, (j < length (q_coeffs q))%nat -> (length (nth j (q_coeffs q) []) + (d - j) <= n + 1)%nat) ->
  (forall k, (k < length (q_ics q))%nat -> (length (nth k (if adj then q_ics q else q_ints q) []) + d <= n + 1)%nat) ->
  exactly K (refop adj len (q_coeffs q) (if adj then q_ints q else q_ics q) (if adj then q_ics q else q_ints q) c) (matvec n (us_block adj n K len eps q) c).
Proof.
  intros Hn L Fl (Rd & LI & Ri) Sd Hd Hi. apply (block_general (exactly K)); try assumption.
  - intros F1 F2 r s Lr Ls. apply exactly_add; assumption.
  - intros F1 F2 r E A x. rewrite A. apply E.
  - intros t F r Lr. apply exactly_scal; assumption.
  - apply exactly_zero.
  - intros j Hj. destruct (Rd j Hj) as [HK Rj]. apply us_term_exact with d; try assumption. apply Hd; exact Hj.
  - intros k Hk. destruct (Ri k Hk) as [Rc Rg]. destruct adj; apply us_iterm_exact with d; try assumption; apply Hi; exact Hk.
Qed.

(** ** back to [a,b] *)
Lemma phi_ends a b : a < b -> phi a b a = -1 /\ phi a b b = 1.
Proof. intros H. unfold phi. split; field; lra. Qed.
Lemma Derive_n_ufun a b c j x : a < b -> Derive_n (ufun a b c) j x = (2 / (b - a)) ^ j * Derive_n (evalT c) j (phi a b x).
Proof.
  intros H. apply is_derive_n_unique. assert (S : spanT (length c) (evalT c)) by (apply spanT_evalT; lia).
  assert (Q := is_derive_n_bwd (length c) (evalT c) j a b x (Derive_n (evalT c) j (phi a b x)) H S).
  replace ((2 / (b - a)) ^ j * Derive_n (evalT c) j (phi a b x)) with (Derive_n (evalT c) j (phi a b x) / (/ 2 * (b - a)) ^ j).
  - apply Q. apply Derive_n_correct. apply (ex_derive_n_spanT (length c)). exact S.
  - unfold Rdiv. rewrite !Rpow_mult_distr, Rinv_mult, !pow_inv, Rinv_inv. ring.
Qed.
Lemma RInt_ufun a b g c : a < b -> RInt (fun y => ufun a b g y * ufun a b c y) a b = / 2 * (b - a) * RInt (fun y => evalT g y * evalT c y) (-1) 1.
Proof.
  intros H. apply (is_RInt_unique (V := R_CompleteNormedModule)). rewrite Rmult_comm. unfold ufun. destruct (phi_ends a b H) as [E1 E2].
  apply (is_RInt_bwd (fun t => evalT g t * evalT c t) a b a b); [exact H|]. fold (phi a b a) (phi a b b). rewrite E1, E2.
  apply (RInt_correct (V := R_CompleteNormedModule)).
  destruct (spanT_mul (length g) (length c) (length g + length c) (evalT g) (evalT c)) as (p & Lp & Ep); try (apply spanT_evalT; lia); [lia|].
  apply (ex_RInt_ext (evalT p)); [intros y _; symmetry; apply Ep|]. eexists. apply is_RInt_evalT.
Qed.
Lemma lin_op_ref a b cs ics ints c x : a < b -> lin_op a b cs ics ints (ufun a b c) x = refop false (b - a) cs ics ints c (phi a b x).
Proof.
  intros H. unfold lin_op, refop. f_equal; apply rsum_ext; intros k _.
  - rewrite Derive_n_ufun by exact H. unfold sgn, dterm. cbn [andb]. rewrite Rmult_1_l. reflexivity.
  - rewrite RInt_ufun by exact H. reflexivity.
Qed.
