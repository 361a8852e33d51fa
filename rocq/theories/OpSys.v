(** Systems: the stacked matrix and its right hand side. *)
From Coq Require Import Reals ZArith List Arith Bool Lra Lia.
From Coquelicot Require Import Coquelicot.
From Verif Require Import Base ChebSpec ChebMath ChebModel CosSums ChebDct ChebCalc ChebBary UltraSpec UltraModel UltraBasis UltraProofs UltraMult FunModel FunProofs ToolsProofs FnlModel FnlProofs OpSpec OpModel OpProofs.
Import ListNotations.
Open Scope R_scope.

Lemma filter_ltb m n : (m <= n)%nat -> filter (fun r => Nat.ltb r m) (seq 0 n) = seq 0 m.
Proof.
  intros H. replace n with (m + (n - m))%nat by lia. rewrite seq_app, filter_app.
  assert (A : forall l, (forall r, In r l -> (r < m)%nat) -> filter (fun r => Nat.ltb r m) l = l).
  { intros l. induction l as [|r l IH]; intros Hl; [reflexivity|]. cbn [filter]. destruct (Nat.ltb_spec r m); [|specialize (Hl r (or_introl eq_refl)); lia].
    f_equal. apply IH. intros s Hs. apply Hl. right. exact Hs. }
  assert (B : forall l, (forall r, In r l -> (m <= r)%nat) -> filter (fun r => Nat.ltb r m) l = []).
  { intros l. induction l as [|r l IH]; intros Hl; [reflexivity|]. cbn [filter]. destruct (Nat.ltb_spec r m); [specialize (Hl r (or_introl eq_refl)); lia|].
    apply IH. intros s Hs. apply Hl. right. exact Hs. }
  rewrite A, B, app_nil_r; [reflexivity| |]; intros r Hr; apply in_seq in Hr; lia.
Qed.
Lemma filter_ext_in' {A} (f g : A -> bool) l : (forall a, In a l -> f a = g a) -> filter f l = filter g l.
Proof.
  induction l as [|a l IH]; intros H; [reflexivity|]. cbn [filter]. rewrite (H a) by (left; reflexivity). rewrite IH by (intros b Hb; apply H; right; exact Hb). reflexivity.
Qed.
Lemma drop_rows_last n p (f : nat -> list R) : (p <= n)%nat -> drop_rows (map (fun k => (n - k)%nat) (seq 1 p)) (mk n f) = mk (n - p) f.
Proof.
  intros Hp. unfold drop_rows. rewrite mk_length.
  rewrite (filter_ext_in' _ (fun r => Nat.ltb r (n - p))).
  - rewrite filter_ltb by lia. unfold mk at 2. apply map_ext_in. intros r Hr. apply in_seq in Hr. apply nth_mk. lia.
  - intros r Hr. apply in_seq in Hr. destruct (Nat.ltb_spec r (n - p)) as [G|G].
    + apply negb_true_iff. apply not_true_is_false. intros E. apply existsb_exists in E. destruct E as (k & Hk & Ek). apply Nat.eqb_eq in Ek. subst k.
      apply in_map_iff in Hk. destruct Hk as (s & Es & Hs). apply in_seq in Hs. lia.
    + apply negb_false_iff. apply existsb_exists. exists r. split; [|apply Nat.eqb_refl]. apply in_map_iff. exists (n - r)%nat. split; [lia|]. apply in_seq. lia.
Qed.
Lemma assemble_rows n m p blk : (p <= n)%nat ->
  assemble n m p blk = concat (mk m (fun e => mk (n - p) (fun r => concat (mk m (fun q => mk n (fun c => blk e q r c)))))).
Proof. intros Hp. unfold assemble. f_equal. apply mk_ext. intros e _. apply drop_rows_last. exact Hp. Qed.

(** equation [e] of the system applied to the blocks [A] *)
Definition eqn_vec (n m : nat) (blk : nat -> nat -> mat) (A : list (list R)) (e : nat) : list R :=
  mk n (fun r => rsum m (fun q => nth r (matvec n (blk e q) (nth q A [])) 0)).
Lemma dotl_blocks n m (f : nat -> nat -> R) A : length A = m -> List.Forall (fun c => length c = n) A ->
  dotl (concat (mk m (fun q => mk n (f q)))) (concat A) = rsum m (fun q => rsum n (fun c => f q c * nth c (nth q A []) 0)).
Proof.
  revert f A. induction m as [|m IH]; intros f A LA FA.
  - destruct A; [reflexivity|discriminate].
  - destruct A as [|a A]; [discriminate|]. inversion FA; subst. rewrite rsum_S_l. cbn [nth].
    replace (mk (S m) (fun q => mk (length a) (f q))) with (mk (length a) (f 0%nat) :: mk m (fun q => mk (length a) (f (S q)))).
    2:{ unfold mk at 4. cbn [seq map]. f_equal. rewrite <- seq_shift, map_map. reflexivity. }
    cbn [concat]. rewrite dotl_app by apply mk_length. f_equal.
    + unfold dotl. rewrite mk_length. apply rsum_ext. intros k Hk. rewrite nth_mk by exact Hk. reflexivity.
    + apply (IH (fun q => f (S q))); [cbn in LA; lia|assumption].
Qed.
Lemma rows_assemble n m p blk A : (p <= n)%nat -> length A = m -> List.Forall (fun c => length c = n) A ->
  rows_apply (assemble n m p blk) (concat A) = concat (mk m (fun e => firstn (n - p) (eqn_vec n m blk A e))).
Proof.
  intros Hp LA FA. rewrite assemble_rows by exact Hp. unfold rows_apply. rewrite concat_map. f_equal. unfold mk at 1. rewrite map_map. fold (mk (A := list R) m (fun x => map (fun r => dotl r (concat A)) (mk (n - p) (fun r => concat (mk m (fun q => mk n (fun c => blk x q r c))))))).
  apply mk_ext. intros e He. unfold mk at 1. rewrite map_map. apply (list_ext _ _ 0).
  - rewrite map_length, seq_length, firstn_length. unfold eqn_vec. rewrite mk_length. lia.
  - rewrite map_length, seq_length. intros r Hr. rewrite nth_map_seq by exact Hr. rewrite nth_firstn' by exact Hr. unfold eqn_vec. rewrite nth_mk by lia.
    rewrite Nat.add_0_l. rewrite (dotl_blocks n m (fun q c => blk e q r c) A LA FA). apply rsum_ext. intros q _. rewrite matvec_nth by lia. reflexivity.
Qed.
Lemma concat_inj m k (f g : nat -> list R) : (forall e, (e < m)%nat -> length (f e) = k /\ length (g e) = k) ->
  concat (mk m f) = concat (mk m g) -> forall e, (e < m)%nat -> f e = g e.
Proof.
  revert f g. induction m as [|m IH]; intros f g L E e He; [lia|].
  assert (U : forall h : nat -> list R, mk (S m) h = h 0%nat :: mk m (fun q => h (S q))).
  { intros h. unfold mk. cbn [seq map]. f_equal. rewrite <- seq_shift, map_map. reflexivity. }
  rewrite !U in E. cbn [concat] in E. destruct (L 0%nat ltac:(lia)) as [L1 L2].
  assert (E0 : f 0%nat = g 0%nat). { apply (f_equal (firstn k)) in E. rewrite !firstn_app, L1, L2, Nat.sub_diag in E. cbn [firstn] in E. rewrite !app_nil_r in E. rewrite !firstn_all2 in E by lia. exact E. }
  rewrite E0 in E. apply app_inv_head in E. destruct e as [|e]; [exact E0|]. apply (IH (fun q => f (S q)) (fun q => g (S q))); [|exact E|lia].
  intros q Hq. apply L. lia.
Qed.

(** the basis conversion of the right hand side *)
Lemma conv_eqn n m K F e : (2 <= n)%nat -> (e < m)%nat -> length (nth e F []) = n ->
  exactly K (evalT (nth e F [])) (eqn_vec n m (fun e q => us_conv_block false n K (Nat.eqb e q)) F e).
Proof.
  intros Hn He LF. assert (E : eqn_vec n m (fun e q => us_conv_block false n K (Nat.eqb e q)) F e = matvec n (us_convert n K 0) (nth e F [])).
  { apply (list_ext _ _ 0); [unfold eqn_vec; rewrite mk_length, matvec_length; reflexivity|]. unfold eqn_vec at 1. rewrite mk_length. intros r Hr.
    unfold eqn_vec. rewrite nth_mk by exact Hr. rewrite (rsum_single m _ e He); [rewrite Nat.eqb_refl; reflexivity|].
    intros q _ Hq. destruct (Nat.eqb_spec e q); [lia|]. unfold us_conv_block. rewrite matvec_zeromat, nth_mk by exact Hr. reflexivity. }
  rewrite E. apply exactly_us_convert; [exact Hn|exact LF|lia|]. intros x. reflexivity.
Qed.
Lemma eqn_general (P : (R -> R) -> list R -> Prop) n m blk A e (G : nat -> R -> R) :
  (forall F1 F2 r s, length r = n -> length s = n -> P F1 r -> P F2 s -> P (fun x => F1 x + F2 x) (ladd n r s)) ->
  P (fun _ => 0) (mk n (fun _ => 0)) ->
  (forall q, (q < m)%nat -> P (G q) (matvec n (blk e q) (nth q A []))) ->
  P (fun x => rsum m (fun q => G q x)) (eqn_vec n m blk A e).
Proof.
  intros PA P0 H. induction m as [|m IH]; [exact P0|].
  replace (eqn_vec n (S m) blk A e) with (ladd n (eqn_vec n m blk A e) (matvec n (blk e m) (nth m A []))).
  - apply (PA (fun x => rsum m (fun q => G q x)) (G m)); [apply mk_length|apply matvec_length|apply IH; intros; apply H; lia|apply H; lia].
  - unfold ladd, eqn_vec. apply mk_ext. intros r Hr. rewrite nth_mk by exact Hr. reflexivity.
Qed.

(** the e-th equation of the system, applied to functions with coefficients A *)
Definition sys_op (a b : R) (m : nat) (Q : nat -> nat -> qblock) (A : list (list R)) (e : nat) (x : R) : R :=
  rsum m (fun q => lin_op a b (q_coeffs (Q e q)) (q_ics (Q e q)) (q_ints (Q e q)) (ufun a b (nth q A [])) x).
Definition sys_ok (n m K : nat) (eps : R) (Q : nat -> nat -> qblock) : Prop :=
  forall e q, (e < m)%nat -> (q < m)%nat -> flags_ok (q_info (Q e q)) (q_coeffs (Q e q)) (q_ics (Q e q)) (q_ints (Q e q)) /\
    op_representable n K eps (q_coeffs (Q e q)) (q_ics (Q e q)) (q_ints (Q e q)).
(** integrands times solution fit into n coefficients *)
Definition ints_fit (n m : nat) (Q : nat -> nat -> qblock) (d : nat -> nat) : Prop :=
  forall e q k, (e < m)%nat -> (q < m)%nat -> (k < length (q_ics (Q e q)))%nat -> (length (nth k (q_ints (Q e q)) []) + d q <= n + 1)%nat.
(** coefficient functions times derivatives of the solution fit into n coefficients *)
Definition terms_fit (n m : nat) (Q : nat -> nat -> qblock) (d : nat -> nat) : Prop :=
  forall e q j, (e < m)%nat -> (q < m)%nat -> (j < length (q_coeffs (Q e q)))%nat -> (length (nth j (q_coeffs (Q e q)) []) + (d q - j) <= n + 1)%nat.

Lemma nth_Forall_len (A : list (list R)) n q : List.Forall (fun c => length c = n) A -> (q < length A)%nat -> length (nth q A []) = n.
Proof. intros H Hq. rewrite List.Forall_forall in H. apply H. apply nth_In. exact Hq. Qed.

Lemma phi_onto a b t : a < b -> phi a b (((b - a) * t + a + b) / 2) = t.
Proof. intros H. unfold phi. field. lra. Qed.

Definition refsys (len : R) (m : nat) (Q : nat -> nat -> qblock) (A : list (list R)) (e : nat) (t : R) : R :=
  rsum m (fun q => refop false len (q_coeffs (Q e q)) (q_ics (Q e q)) (q_ints (Q e q)) (nth q A []) t).
Lemma sys_op_ref a b m Q A e x : a < b -> sys_op a b m Q A e x = refsys (b - a) m Q A e (phi a b x).
Proof. intros H. apply rsum_ext. intros q _. apply lin_op_ref. exact H. Qed.

Lemma split_system n m K len eps Q fs cts A F : (1 <= n)%nat -> (K <= n)%nat -> length A = m -> length F = m ->
  List.Forall (fun c => length c = n) A -> List.Forall (fun c => length c = n) F ->
  List.Forall (fun r => length r = (n * m)%nat) fs -> length cts = length fs ->
  (rows_apply (us_matrix n m K len eps Q fs) (concat A) = us_project n m K cts (concat F) <->
   (forall i, (i < length fs)%nat -> dotl (nth i fs []) (concat (polyval A)) = nth i cts 0) /\
   (forall e i, (e < m)%nat -> (i < n - K)%nat ->
      nth i (eqn_vec n m (fun e q => us_block false n K len eps (Q e q)) A e) 0 =
      nth i (eqn_vec n m (fun e q => us_conv_block false n K (Nat.eqb e q)) F e) 0)).
Proof.
  intros Hn HK LA LF FA FF Ffs Lc. unfold us_matrix, us_project. unfold rows_apply at 1. rewrite map_app. fold (rows_apply (assemble n m K (fun e q => us_block false n K len eps (Q e q))) (concat A)).
  rewrite !rows_assemble by assumption. rewrite map_map.
  assert (LL : length (map (fun x => dotl (convert_functional n m x) (concat A)) fs) = length cts) by (rewrite map_length; lia).
  assert (EV : forall blk B e, length (eqn_vec n m blk B e) = n) by (intros; apply mk_length).
  assert (CF : forall i, (i < length fs)%nat -> nth i (map (fun x => dotl (convert_functional n m x) (concat A)) fs) 0 = dotl (nth i fs []) (concat (polyval A))).
  { intros i Hi. rewrite (nth_indep _ 0 (dotl (convert_functional n m []) (concat A))) by (rewrite map_length; exact Hi).
    rewrite (map_nth (fun x => dotl (convert_functional n m x) (concat A))). apply convert_functional_dot; try assumption.
    rewrite List.Forall_forall in Ffs. apply Ffs. apply nth_In. exact Hi. }
  split.
  - intros E. assert (E1 : map (fun x => dotl (convert_functional n m x) (concat A)) fs = cts).
    { apply (f_equal (firstn (length cts))) in E. rewrite !firstn_app, LL, Nat.sub_diag in E. cbn [firstn] in E. rewrite !app_nil_r, !firstn_all2 in E by lia. exact E. }
    rewrite E1 in E. apply app_inv_head in E. split.
    + intros i Hi. rewrite <- E1. symmetry. apply CF. exact Hi.
    + intros e i He Hi. assert (E2 := concat_inj m (n - K) (fun e => firstn (n - K) (eqn_vec n m (fun e q => us_block false n K len eps (Q e q)) A e))
        (fun e => firstn (n - K) (eqn_vec n m (fun e q => us_conv_block false n K (Nat.eqb e q)) F e))). cbv beta in E2.
      assert (E3 : forall blk B e, (length (firstn (n - K) (eqn_vec n m blk B e)) = n - K)%nat) by (intros; rewrite firstn_length, EV; lia).
      specialize (E2 (fun q _ => conj (E3 _ _ _) (E3 _ _ _)) E e He).
      assert (X := f_equal (fun l => nth i l 0) E2). cbv beta in X. rewrite !nth_firstn' in X by exact Hi. exact X.
  - intros [E1 E2]. f_equal.
    + apply (list_ext _ _ 0); [exact LL|]. rewrite map_length. intros i Hi. rewrite CF by exact Hi. apply E1. exact Hi.
    + f_equal. apply mk_ext. intros e He. apply (list_ext _ _ 0); [rewrite !firstn_length, !EV; reflexivity|]. rewrite firstn_length, EV. intros i Hi.
      rewrite !nth_firstn' by lia. apply E2; lia.
Qed.

Lemma sys_eqn_exact n m K a b eps Q A e d : a < b -> (3 <= n)%nat -> length A = m -> List.Forall (fun c => length c = n) A -> sys_ok n m K eps Q ->
  (forall q, (q < m)%nat -> supported (d q) (nth q A [])) -> ints_fit n m Q d -> terms_fit n m Q d -> (e < m)%nat ->
  exactly K (refsys (b - a) m Q A e) (eqn_vec n m (fun e q => us_block false n K (b - a) eps (Q e q)) A e).
Proof.
  intros Hab Hn LA FA Ok Sd If Tf He. apply (eqn_general (exactly K)).
  - intros. apply exactly_add; assumption.
  - intros x. rewrite evalU_mk. apply rsum_zero. intros; ring.
  - intros q Hq. destruct (Ok e q He Hq) as [Fl Rp]. apply (block_exact false n K (b - a) eps (Q e q) (nth q A []) (d q)); try assumption.
    + apply nth_Forall_len; [exact FA|lia].
    + apply Sd. exact Hq.
    + intros j Hj. apply (Tf e q j); assumption.
    + intros k Hk. apply (If e q k); assumption.
Qed.
Lemma sys_eqn_agrees n m K a b eps Q A e d : a < b -> (3 <= n)%nat -> length A = m -> List.Forall (fun c => length c = n) A -> sys_ok n m K eps Q ->
  (forall q, (q < m)%nat -> supported (d q) (nth q A [])) -> ints_fit n m Q d -> (e < m)%nat ->
  agrees K (n - 2 * K) (refsys (b - a) m Q A e) (eqn_vec n m (fun e q => us_block false n K (b - a) eps (Q e q)) A e).
Proof.
  intros Hab Hn LA FA Ok Sd If He. apply (eqn_general (agrees K (n - 2 * K))).
  - intros F1 F2 r s _ _. apply agrees_add. lia.
  - apply exactly_agrees. intros x. rewrite evalU_mk. apply rsum_zero. intros; ring.
  - intros q Hq. destruct (Ok e q He Hq) as [Fl Rp]. apply (block_agrees false n K (b - a) eps (Q e q) (nth q A []) (d q)); try assumption.
    + apply nth_Forall_len; [exact FA|lia].
    + apply Sd. exact Hq.
    + intros k Hk. apply (If e q k); assumption.
Qed.

Lemma exactly_sub K n F G r s : length r = n -> length s = n -> exactly K F r -> exactly K G s -> exactly K (fun x => F x - G x) (mk n (fun i => nth i r 0 - nth i s 0)).
Proof.
  intros Lr Ls A B x. rewrite evalU_mk. rewrite <- A, <- B. unfold evalU. rewrite Lr, Ls, <- rsum_minus. apply rsum_ext. intros j _. ring.
Qed.
Lemma system_exact a b n m K eps Q fs cts A F d : a < b -> (3 <= n)%nat -> (K <= n)%nat -> length A = m -> length F = m ->
  List.Forall (fun c => length c = n) A -> List.Forall (fun c => length c = n) F ->
  List.Forall (fun r => length r = (n * m)%nat) fs -> length cts = length fs -> sys_ok n m K eps Q ->
  (forall q, (q < m)%nat -> supported (d q) (nth q A [])) -> ints_fit n m Q d -> terms_fit n m Q d ->
  (rows_apply (us_matrix n m K (b - a) eps Q fs) (concat A) = us_project n m K cts (concat F) <->
   (forall i, (i < length fs)%nat -> dotl (nth i fs []) (concat (polyval A)) = nth i cts 0) /\
   (forall e, (e < m)%nat -> exists h, length h = n /\ (forall i, (i < n - K)%nat -> nth i h 0 = 0) /\
      forall x, sys_op a b m Q A e x - ufun a b (nth e F []) x = evalU K h (phi a b x))).
Proof.
  intros Hab Hn HK LA LF FA FF Ffs Lc Ok Sd If Tf. rewrite split_system by (try assumption; lia).
  set (E := fun e => eqn_vec n m (fun e q => us_block false n K (b - a) eps (Q e q)) A e).
  set (G := fun e => eqn_vec n m (fun e q => us_conv_block false n K (Nat.eqb e q)) F e).
  assert (EE : forall e, (e < m)%nat -> exactly K (fun t => refsys (b - a) m Q A e t - evalT (nth e F []) t) (mk n (fun i => nth i (E e) 0 - nth i (G e) 0))).
  { intros e He. apply exactly_sub; [apply mk_length|apply mk_length|apply (sys_eqn_exact n m K a b eps Q A e d); assumption|].
    apply conv_eqn; [lia|exact He|]. apply nth_Forall_len; [exact FF|lia]. }
  split; intros [C D]; (split; [exact C|]).
  - intros e He. exists (mk n (fun i => nth i (E e) 0 - nth i (G e) 0)). split; [apply mk_length|]. split.
    + intros i Hi. rewrite nth_mk by lia. fold (E e) in D. pose proof (D e i He Hi) as Q1. fold (E e) (G e) in Q1. lra.
    + intros x. rewrite (EE e He). rewrite sys_op_ref by exact Hab. reflexivity.
  - intros e i He Hi. fold (E e) (G e). destruct (D e He) as (h & Lh & Hz & Eh).
    assert (Q1 : h = mk n (fun i => nth i (E e) 0 - nth i (G e) 0)).
    { apply (evalU_inj K); [rewrite mk_length; exact Lh|lia|]. intros t. rewrite (EE e He). rewrite <- (phi_onto a b t Hab). rewrite <- Eh. rewrite sys_op_ref by exact Hab. reflexivity. }
    specialize (Hz i Hi). rewrite Q1, nth_mk in Hz by lia. lra.
Qed.
Lemma system_leading a b n m K eps Q fs cts A F d : a < b -> (3 <= n)%nat -> (K <= n)%nat -> length A = m -> length F = m ->
  List.Forall (fun c => length c = n) A -> List.Forall (fun c => length c = n) F ->
  List.Forall (fun r => length r = (n * m)%nat) fs -> length cts = length fs -> sys_ok n m K eps Q ->
  (forall q, (q < m)%nat -> supported (d q) (nth q A [])) -> ints_fit n m Q d ->
  rows_apply (us_matrix n m K (b - a) eps Q fs) (concat A) = us_project n m K cts (concat F) ->
   (forall i, (i < length fs)%nat -> dotl (nth i fs []) (concat (polyval A)) = nth i cts 0) /\
   (forall e, (e < m)%nat -> exists h, (forall i, (i + 2 * K < n)%nat -> nth i h 0 = 0) /\
      forall x, sys_op a b m Q A e x - ufun a b (nth e F []) x = evalU K h (phi a b x)).
Proof.
  intros Hab Hn HK LA LF FA FF Ffs Lc Ok Sd If M. rewrite split_system in M by (try assumption; lia). destruct M as [C D]. split; [exact C|].
  intros e He. set (G := eqn_vec n m (fun e q => us_conv_block false n K (Nat.eqb e q)) F e).
  assert (X1 := sys_eqn_agrees n m K a b eps Q A e d Hab Hn LA FA Ok Sd If He).
  assert (X2 : exactly K (evalT (nth e F [])) G) by (apply conv_eqn; [lia|exact He|]; apply nth_Forall_len; [exact FF|lia]).
  assert (X3 : agrees K (n - 2 * K) (fun t => refsys (b - a) m Q A e t + -1 * evalT (nth e F []) t)
     (ladd n (eqn_vec n m (fun e q => us_block false n K (b - a) eps (Q e q)) A e) (mk n (fun i => -1 * nth i G 0)))).
  { apply agrees_add; [lia|exact X1|]. apply (agrees_scal K (n - 2 * K) n (-1)); [lia|]. apply exactly_agrees. exact X2. }
  destruct X3 as (h & H1 & H2). exists h. split.
  - intros i Hi. rewrite H1 by lia. unfold ladd. rewrite nth_mk by lia. rewrite nth_mk by lia. rewrite (D e i He) by lia. fold G. ring.
  - intros x. rewrite H2, sys_op_ref by exact Hab. unfold ufun. ring.
Qed.
