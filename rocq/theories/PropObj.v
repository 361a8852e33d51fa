(** The life cycle of a ChebOp object (C158-C161). *)
From Coq Require Import String List Reals Arith Bool ZArith Lra Lia.
From Verif Require Import Base ChebSpec ChebModel ChebMath ChebEval ObjModel.
Import ListNotations.
Open Scope R_scope.

(** ** C158: copies *)
Theorem C158_copy_partial : forall o, let c := deepcopy o in
  a_functions c = a_functions o /\ a_cfuns c = a_cfuns o /\ a_kernels c = a_kernels o /\ a_pars c = a_pars o /\ a_colloc c = a_colloc o /\ a_domain c = a_domain o /\
  a_eqn c = a_eqn o /\ a_cts c = a_cts o /\ a_bcs c = a_bcs o /\ a_ftype c = a_ftype o /\ a_cpar c = a_cpar o /\ a_tol c = a_tol o /\ a_order c = a_order o /\ a_linear c = a_linear o /\ a_debug c = a_debug o.
Proof. intros o. cbn. repeat split. Qed.
Print Assumptions C158_copy_partial.
Theorem C158_equal_iff_partial : forall o, deepcopy o = o <-> a_ops o = [] /\ a_n o = 15%nat /\ a_nmin o = (if String.eqb (a_ftype o) "cheb" then 1 else 9)%nat /\ a_eps o = eps_default /\ a_sdebug o = false.
Proof.
  intros o. split.
  - intros H. rewrite <- H at 1 2 3 5 6. repeat split.
  - intros (H1 & H2 & H3 & H4 & H5). destruct o. unfold deepcopy. cbn in *. rewrite H1, H2, H3, H4, H5. reflexivity.
Qed.
Print Assumptions C158_equal_iff_partial.
Theorem C158_refuted : exists o, deepcopy o <> o /\ a_ops (deepcopy o) <> a_ops o /\ option_map c_n (o_sys (op_discretize (fresh o))) = Some 40%nat /\ option_map c_n (o_sys (op_discretize (fresh (deepcopy o)))) = Some 15%nat.
Proof.
  exists (mkA ["u"%string] [] ["G"%string] [] [] "ultraS" (-1, 1) 40 1 ["u"%string] [] [] "cheb" [] eps_default (/ 100 * eps_default) 2 false false false).
  split; [intros H; apply (f_equal a_n) in H; discriminate|]. split; [discriminate|]. split; reflexivity.
Qed.
Print Assumptions C158_refuted.
Example C158_ex : deepcopy blank = blank. Proof. apply C158_equal_iff_partial. cbn. repeat split. Qed.

(** ** C159: what is compiled after a history of calls *)
(** position of the first call satisfying P *)
Fixpoint first (P : call -> bool) (h : list call) : option nat :=
  match h with [] => None | c :: r => if P c then Some 0%nat else option_map S (first P r) end.
(** does the call ask for compilation, and with parameter derivatives *)
Definition asks (c : call) : bool := match c with CCompile _ _ _ | CDisc => true | _ => false end.
Definition asks_par (cont : bool) (c : call) : bool := match c with CCompile p _ _ => p | CDisc => cont | _ => false end.
Definition continuation (a : attrs) : bool := match a_cpar a with [] => false | _ => true end.
(** the call whose compilation is in force: the first one with parameter derivatives, otherwise the first one *)
Definition in_force (cont : bool) (h : list call) : option nat := match first (asks_par cont) h with Some k => Some k | None => first asks h end.
Definition flags_of (cont : bool) (c : call) : bool * bool * bool := match c with CCompile p f b => (p, f, b) | _ => (cont, false, false) end.

Lemma first_app P h r : first P (h ++ r) = match first P h with Some k => Some k | None => option_map (fun k => (length h + k)%nat) (first P r) end.
Proof.
  induction h as [|c h IH]; cbn [app first length]; [destruct (first P r); reflexivity|]. destruct (P c); [reflexivity|]. rewrite IH. destruct (first P h); [reflexivity|]. destruct (first P r); reflexivity.
Qed.
Lemma first_lt P h k : first P h = Some k -> (k < length h)%nat /\ exists c, nth_error h k = Some c /\ P c = true.
Proof.
  revert k. induction h as [|c h IH]; cbn [first]; intros k H; [discriminate|]. destruct (P c) eqn:E; [injection H as <-; split; [cbn; lia|]; exists c; split; [reflexivity|exact E]|].
  destruct (first P h) as [j|] eqn:F; [|discriminate]. injection H as <-. destruct (IH j eq_refl) as [L [d [N Pd]]]. split; [cbn; lia|]. exists d. split; assumption.
Qed.
Lemma run_app o h c : run o (h ++ [c]) = step (run o h) c.
Proof. unfold run. rewrite fold_left_app. reflexivity. Qed.
Lemma cpar_step o c : a_cpar (o_attrs (step o c)) = a_cpar (o_attrs o).
Proof. destruct c; cbn [step]; try reflexivity; unfold op_compile, op_discretize, op_compile; destruct (_ && _); reflexivity. Qed.
Lemma cpar_run a h : a_cpar (o_attrs (run (fresh a) h)) = a_cpar a.
Proof. induction h as [|c h IH] using rev_ind; [reflexivity|]. rewrite run_app, cpar_step. exact IH. Qed.
Definition sys_at (a : attrs) (h : list call) (k : nat) (c : csys) : Prop :=
  c_src c = o_attrs (run (fresh a) (firstn k h)) /\ exists d, nth_error h k = Some d /\ (c_par c, c_fold c, c_bif c) = flags_of (continuation a) d.
Lemma sys_at_app a h r k c : (k < length h)%nat -> sys_at a h k c -> sys_at a (h ++ r) k c.
Proof.
  intros Hk [A [d [N F]]]. split; [rewrite firstn_app; replace (k - length h)%nat with 0%nat by lia; cbn [firstn]; rewrite app_nil_r; exact A|]. exists d. split; [rewrite nth_error_app1 by exact Hk; exact N|exact F].
Qed.
Lemma sys_at_n a h k c n : sys_at a h k c -> sys_at a h k (mkC (c_src c) (c_par c) (c_fold c) (c_bif c) n).
Proof. intros [A B]. split; assumption. Qed.
Lemma sys_at_new a h d n : sys_at a (h ++ [d]) (length h) (mkC (o_attrs (run (fresh a) h)) (fst (fst (flags_of (continuation a) d))) (snd (fst (flags_of (continuation a) d))) (snd (flags_of (continuation a) d)) n).
Proof.
  split; [cbn [c_src]; rewrite firstn_app, Nat.sub_diag, firstn_all; cbn [firstn]; rewrite app_nil_r; reflexivity|]. exists d. split; [rewrite nth_error_app2, Nat.sub_diag by lia; reflexivity|]. cbn [c_par c_fold c_bif]. destruct (flags_of _ d) as [[p f] b]. reflexivity.
Qed.
(** the invariant *)
Definition inv (a : attrs) (h : list call) (o : ostate) : Prop :=
  match in_force (continuation a) h with
  | None => o_sys o = None /\ o_par o = false
  | Some k => (exists c, o_sys o = Some c /\ sys_at a h k c) /\ (o_par o = match first (asks_par (continuation a)) h with Some _ => true | None => false end)
  end.
Lemma asks_par_asks cont c : asks_par cont c = true -> asks c = true. Proof. destruct c; cbn; congruence. Qed.
Lemma first_none_par cont h : first asks h = None -> first (asks_par cont) h = None.
Proof.
  intros H. destruct (first (asks_par cont) h) as [k|] eqn:E; [|reflexivity]. exfalso. apply first_lt in E. destruct E as [_ [c [N P]]]. apply asks_par_asks in P. revert k N H. induction h as [|d h IH]; intros k N H; [destruct k; discriminate|].
  cbn [first] in H. destruct (asks d) eqn:D; [discriminate|]. destruct k as [|k]; [cbn in N; congruence|]. apply (IH k N). destruct (first asks h); [discriminate|reflexivity].
Qed.
Lemma compile_inv a h d p f b : inv a h (run (fresh a) h) -> asks d = true -> flags_of (continuation a) d = (p, f, b) -> asks_par (continuation a) d = p ->
  let o := op_compile p f b (run (fresh a) h) in inv a (h ++ [d]) o /\ o_attrs o = o_attrs (run (fresh a) h).
Proof.
  intros H A F P. cbn zeta. set (cn := continuation a) in *. unfold inv in *. fold cn in H |- *. unfold in_force in *. rewrite !first_app. cbn [first]. rewrite A, P. cbn [option_map].
  assert (NEW : sys_at a (h ++ [d]) (length h) (mkC (o_attrs (run (fresh a) h)) p f b (a_n (o_attrs (run (fresh a) h))))).
  { assert (X := sys_at_new a h d (a_n (o_attrs (run (fresh a) h)))). fold cn in X. rewrite F in X. exact X. }
  unfold op_compile. destruct (first (asks_par cn) h) as [k|] eqn:E1.
  - destruct H as [[c [Sc At]] Pr]. rewrite Sc, Pr. cbn [andb orb]. split; [|reflexivity]. split; [|exact Pr]. exists c. split; [exact Sc|]. apply sys_at_app; [apply (first_lt _ _ _ E1)|exact At].
  - destruct (first asks h) as [k|] eqn:E2.
    + destruct H as [[c [Sc At]] Pr]. rewrite Sc, Pr. cbn [andb orb]. destruct p; cbn [Bool.eqb].
      * split; [|reflexivity]. cbn [option_map]; rewrite ?Nat.add_0_r. split; [|reflexivity]. eexists. split; [reflexivity|]. rewrite ?Nat.add_0_r; exact NEW.
      * split; [|reflexivity]. split; [|exact Pr]. exists c. split; [exact Sc|]. apply sys_at_app; [apply (first_lt _ _ _ E2)|exact At].
    + destruct H as [Sc Pr]. rewrite Sc. cbn [andb]. cbn [option_map]; rewrite ?Nat.add_0_r. split; [|reflexivity]. destruct p; (split; [|reflexivity]); (eexists; split; [reflexivity|]); rewrite ?Nat.add_0_r; exact NEW.
Qed.
Lemma other_inv a h d o' n : inv a h (run (fresh a) h) -> asks d = false -> o_par o' = o_par (run (fresh a) h) -> (o_sys o' = o_sys (run (fresh a) h) \/ o_sys o' = set_sysn (o_sys (run (fresh a) h)) n) -> inv a (h ++ [d]) o'.
Proof.
  intros H A Pr S. set (cn := continuation a) in *. unfold inv in *. fold cn in H |- *. unfold in_force in *. rewrite !first_app. cbn [first]. rewrite A. assert (AP : asks_par cn d = false) by (destruct (asks_par cn d) eqn:X; [apply asks_par_asks in X; congruence|reflexivity]). rewrite AP. cbn [option_map].
  assert (G : forall k, (k < length h)%nat -> (exists c, o_sys (run (fresh a) h) = Some c /\ sys_at a h k c) -> exists c, o_sys o' = Some c /\ sys_at a (h ++ [d]) k c).
  { intros k Hk [c [Sc At]]. destruct S as [S|S]; rewrite S, Sc; cbn [set_sysn]; eexists; (split; [reflexivity|]); apply sys_at_app; try exact Hk; [exact At|apply sys_at_n, At]. }
  destruct (first (asks_par cn) h) as [k|] eqn:E1.
  - destruct H as [X Y]. split; [apply G; [apply (first_lt _ _ _ E1)|exact X]|]. rewrite Pr. exact Y.
  - destruct (first asks h) as [k|] eqn:E2.
    + destruct H as [X Y]. split; [apply G; [apply (first_lt _ _ _ E2)|exact X]|]. rewrite Pr. exact Y.
    + destruct H as [X Y]. rewrite Pr. split; [|exact Y]. destruct S as [S|S]; rewrite S, X; reflexivity.
Qed.
Lemma history_inv a h : inv a h (run (fresh a) h).
Proof.
  induction h as [|d h IH] using rev_ind; [split; reflexivity|]. rewrite run_app. destruct d; cbn [step].
  - apply (other_inv a h _ _ 0); [exact IH|reflexivity|reflexivity|left; reflexivity].
  - apply (compile_inv a h (CCompile par fold bif) par fold bif IH); reflexivity.
  - apply (other_inv a h _ _ n); [exact IH|reflexivity|reflexivity|right; reflexivity].
  - apply (other_inv a h _ _ n); [exact IH|reflexivity|reflexivity|right; reflexivity].
  - unfold op_discretize. rewrite cpar_run. fold (continuation a). destruct (compile_inv a h CDisc (continuation a) false false IH) as [H _]; try reflexivity.
    set (o := op_compile (continuation a) false false (run (fresh a) h)) in *. unfold inv in *. destruct (in_force (continuation a) (h ++ [CDisc])) as [k|].
    + destruct H as [[c [Sc At]] Pr]. cbn [o_sys o_par]. split; [|exact Pr]. rewrite Sc. cbn [set_sysn]. eexists. split; [reflexivity|]. apply sys_at_n, At.
    + cbn [o_sys o_par]. destruct H as [X Y]. rewrite X. split; [reflexivity|exact Y].
Qed.
(** for every history: there is a compiled system iff compilation was asked for, and it is the one of the first call with parameter derivatives, or else of the first call; later calls change nothing *)
Theorem C159_history : forall a h, match in_force (continuation a) h with
  | None => o_sys (run (fresh a) h) = None
  | Some k => exists c d, o_sys (run (fresh a) h) = Some c /\ nth_error h k = Some d /\ c_src c = o_attrs (run (fresh a) (firstn k h)) /\ (c_par c, c_fold c, c_bif c) = flags_of (continuation a) d
  end.
Proof.
  intros a h. assert (H := history_inv a h). unfold inv in H. destruct (in_force (continuation a) h) as [k|]; [|apply H]. destruct H as [[c [Sc [At [d [N F]]]]] _]. exists c, d. repeat split; assumption.
Qed.
Print Assumptions C159_history.
(** compile brings the system up to date if there is none yet, or if it is the first call with parameter derivatives *)
Theorem C159_current_partial : forall a h p f b, first (asks_par (continuation a)) h = None -> (first asks h = None \/ p = true) ->
  exists c, o_sys (run (fresh a) (h ++ [CCompile p f b])) = Some c /\ c_src c = o_attrs (run (fresh a) h) /\ (c_par c, c_fold c, c_bif c) = (p, f, b).
Proof.
  intros a h p f b H1 H2. assert (H := C159_history a (h ++ [CCompile p f b])). unfold in_force in H. rewrite !first_app, H1 in H. cbn [first asks_par asks option_map] in H.
  assert (X : match (match (if p then Some 0%nat else None) with Some k => Some (length h + k)%nat | None => None end) with Some k => Some k | None => match first asks h with Some k => Some k | None => Some (length h + 0)%nat end end = Some (length h)).
  { rewrite Nat.add_0_r. destruct H2 as [->| ->]; [destruct p; rewrite ?Nat.add_0_r; reflexivity|]. rewrite Nat.add_0_r. reflexivity. }
  assert (Y : match match option_map (fun k => (length h + k)%nat) (if p then Some 0%nat else None) with Some k => Some k | None => match first asks h with Some k => Some k | None => Some (length h + 0)%nat end end with
    | Some k => exists c d, o_sys (run (fresh a) (h ++ [CCompile p f b])) = Some c /\ nth_error (h ++ [CCompile p f b]) k = Some d /\ c_src c = o_attrs (run (fresh a) (firstn k (h ++ [CCompile p f b]))) /\ (c_par c, c_fold c, c_bif c) = flags_of (continuation a) d
    | None => o_sys (run (fresh a) (h ++ [CCompile p f b])) = None end) by exact H.
  unfold option_map in Y. rewrite X in Y. destruct Y as (c & d & Sc & N & At & F). rewrite nth_error_app2, Nat.sub_diag in N by lia. cbn in N. injection N as <-. rewrite firstn_app, Nat.sub_diag, firstn_all in At. cbn [firstn] in At. rewrite app_nil_r in At. exists c. repeat split; assumption.
Qed.
Print Assumptions C159_current_partial.
(** editing the equation and compiling again keeps the old equation; asking for the fold system after compiling with parameters gives none *)
Theorem C159_edit_refuted : exists a l, l <> a_eqn a /\ exists c, o_sys (run (fresh a) [CCompile false false false; CSetEqn l; CCompile false false false]) = Some c /\ a_eqn (c_src c) = a_eqn a.
Proof. exists blank, ["diff(u, x, 2)"%string]. split; [discriminate|]. eexists. split; [reflexivity|]. reflexivity. Qed.
Print Assumptions C159_edit_refuted.
Theorem C159_fold_refuted : forall a, exists c, o_sys (run (fresh a) [CCompile true false false; CCompile true true false]) = Some c /\ c_fold c = false.
Proof. intros a. eexists. split; reflexivity. Qed.
Print Assumptions C159_fold_refuted.
Example C159_ex : in_force false [CSetDisc 20; CCompile false false false; CSetEqn ["u"%string]; CDisc; CCompile true true false; CCompile true false true] = Some 4%nat. Proof. reflexivity. Qed.

(** ** C160: the size of the residual *)
(** the value of residual() is computed from the whole residual when the compiled size is large enough *)
Theorem C160_residual_partial : forall o c F, o_sys o = Some c -> List.Forall (fun f => (length f <= c_n c)%nat) F ->
  exists V, op_residual F o = Some V /\ forall e x, (e < length F)%nat -> evalT (nth e V []) x = evalT (nth e F []) x.
Proof.
  intros o c F Sc H. unfold op_residual. rewrite Sc. eexists. split; [reflexivity|]. intros e x He. rewrite (nth_indep _ [] (prolong1 [] (Z.of_nat (c_n c)))) by (rewrite map_length; exact He). rewrite (map_nth (fun f => prolong1 f (Z.of_nat (c_n c)))).
  rewrite List.Forall_forall in H. specialize (H _ (nth_In F [] He)). rewrite (evalT_ge (prolong1 _ _) x (c_n c)) by (rewrite prolong1_length, Nat2Z.id; lia). rewrite (evalT_ge (nth e F []) x (c_n c)) by exact H. apply rsum_ext. intros j Hj. rewrite prolong1_nth by (rewrite Nat2Z.id; exact Hj). reflexivity.
Qed.
Print Assumptions C160_residual_partial.
(** after discretize, and after setDisc(n) with n >= n_min, object and compiled system have the same size *)
Theorem C160_sizes_partial : forall a h, (exists c, o_sys (run (fresh a) (h ++ [CDisc])) = Some c /\ c_n c = a_n (o_attrs (run (fresh a) (h ++ [CDisc])))) /\
  (forall n c, (a_nmin a <= n)%nat -> o_sys (run (fresh a) (h ++ [CSetDisc n])) = Some c -> c_n c = n /\ a_n (o_attrs (run (fresh a) (h ++ [CSetDisc n]))) = n).
Proof.
  intros a h. assert (NM : a_nmin (o_attrs (run (fresh a) h)) = a_nmin a).
  { induction h as [|d h IH] using rev_ind; [reflexivity|]. rewrite run_app, <- IH. destruct d; cbn [step]; try reflexivity; unfold op_compile, op_discretize, op_compile; destruct (_ && _); reflexivity. }
  split.
  - rewrite run_app. cbn [step]. unfold op_discretize. cbn [o_sys o_attrs]. set (o := op_compile _ false false (run (fresh a) h)). destruct (o_sys o) as [c|] eqn:E; [eexists; split; reflexivity|]. exfalso. unfold o, op_compile in E. destruct (o_sys (run (fresh a) h)) eqn:S; cbn [andb] in E; [destruct (_ || _) in E; cbn in E; congruence|discriminate].
  - intros n c Hn. rewrite run_app. cbn [step op_setdisc o_sys o_attrs with_n a_n]. rewrite NM. destruct (o_sys (run (fresh a) h)); cbn [set_sysn]; [|discriminate]. intros X. injection X as <-. split; [reflexivity|lia].
Qed.
Print Assumptions C160_sizes_partial.
Lemma nth_0_zero n i : nth i (repeat 0 n) 0 = 0. Proof. revert i. induction n as [|n IH]; intros [|i]; cbn; try reflexivity. apply IH. Qed.
Lemma prolong_unit n k : (n <= k)%nat -> (0 < n)%nat -> forall i, nth i (prolong1 (repeat 0 k ++ [1]) (Z.of_nat n)) 0 = 0.
Proof.
  intros H Hn i. destruct (Nat.lt_ge_cases i n) as [Hi|Hi].
  - rewrite prolong1_nth by (rewrite Nat2Z.id; exact Hi). rewrite app_nth1 by (rewrite repeat_length; lia). apply nth_0_zero.
  - apply nth_overflow. rewrite prolong1_length, Nat2Z.id. exact Hi.
Qed.
Lemma eval_unit k : evalT (repeat 0 k ++ [1]) 1 = 1.
Proof.
  unfold evalT. rewrite app_length, repeat_length. cbn [length]. replace (k + 1)%nat with (S k) by lia. cbn [rsum]. rewrite rsum_zero.
  - rewrite app_nth2, repeat_length, Nat.sub_diag by (rewrite repeat_length; lia). cbn [nth]. rewrite T_1. ring.
  - intros j Hj. rewrite app_nth1 by (rewrite repeat_length; exact Hj). rewrite nth_0_zero. ring.
Qed.
(** a residual of T_15 is reported as zero by a freshly compiled operator of the default size *)
Theorem C160_residual_refuted : exists F V, op_residual F (run (fresh blank) [CCompile false false false]) = Some V /\ length V = 1%nat /\ (forall i, nth i (nth 0 V []) 0 = 0) /\ evalT (nth 0 F []) 1 = 1.
Proof.
  exists [repeat 0 15 ++ [1]]. eexists. split; [reflexivity|]. split; [reflexivity|]. split; [|apply (eval_unit 15)].
  intros i. cbn [map nth]. change (c_n _) with 15%nat. apply prolong_unit; lia.
Qed.
Print Assumptions C160_residual_refuted.
(** evaluating the operator at another function changes the residual reported afterwards *)
Theorem C160_history_refuted : exists F V W, op_residual F (run (fresh blank) [CCompile false false false]) = Some V /\ op_residual F (run (fresh blank) [CCompile false false false; CCall 1]) = Some W /\
  evalT (nth 0 V []) 1 = 1 /\ (forall i, nth i (nth 0 W []) 0 = 0).
Proof.
  exists [repeat 0 1 ++ [1]]. eexists. eexists. split; [reflexivity|]. split; [reflexivity|]. cbn [map nth]. split.
  - change (c_n _) with 15%nat. rewrite (evalT_ge _ 1 15) by (rewrite prolong1_length; cbn; lia). rewrite (rsum_single 15 _ 1); [|lia|].
    + rewrite prolong1_nth by (cbn; lia). cbn. ring.
    + intros j Hj Nj. rewrite prolong1_nth by (cbn; lia). destruct j as [|[|j]]; [cbn; ring|congruence|]. rewrite nth_overflow by (cbn; lia). ring.
  - intros i. change (c_n _) with 1%nat. apply prolong_unit; lia.
Qed.
Print Assumptions C160_history_refuted.
(** below n_min the object and its compiled system disagree *)
Theorem C160_nmin_refuted : exists a n c, o_sys (run (fresh a) [CCompile false false false; CSetDisc n]) = Some c /\ c_n c = 3%nat /\ a_n (o_attrs (run (fresh a) [CCompile false false false; CSetDisc n])) = 9%nat.
Proof.
  exists (mkA [] [] [] [] [] "trigspec" (-1, 1) 15 9 [] [] [] "trig" [] eps_default (/ 100 * eps_default) 2 false false false), 3%nat. eexists. split; [reflexivity|]. split; reflexivity.
Qed.
Print Assumptions C160_nmin_refuted.
Example C160_ex : exists c, o_sys (run (fresh blank) [CCompile false false false; CCall 1; CSetDisc 33]) = Some c /\ List.Forall (fun f => (length f <= c_n c)%nat) [repeat 1 20].
Proof. eexists. split; [reflexivity|]. constructor; [cbn; lia|constructor]. Qed.

(** ** C161: saving and loading *)
Lemma cut_id k s : (String.length s <= k)%nat -> cut k s = s.
Proof. unfold cut. revert k. induction s as [|c s IH]; intros k H; [destruct k; reflexivity|]. cbn [String.length] in H. destruct k as [|k]; [lia|]. cbn [substring]. rewrite IH by lia. reflexivity. Qed.
Lemma map_cut k l : List.Forall (fun s => (String.length s <= k)%nat) l -> map (cut k) l = l.
Proof. induction 1 as [|s l Hs Hl IH]; [reflexivity|]. cbn [map]. rewrite IH, cut_id by exact Hs. reflexivity. Qed.
Lemma set_pars_app q : forall p, NoDup (map fst (p ++ q)) -> set_pars p q = p ++ q.
Proof.
  unfold set_pars. induction q as [|kv q IH]; intros p N; cbn [fold_left]; [symmetry; apply app_nil_r|].
  assert (X : filter (fun e => negb (String.eqb (fst e) (fst kv))) p = p).
  { rewrite map_app in N. cbn [map] in N. apply NoDup_remove_2 in N. assert (Y : ~ In (fst kv) (map fst p)) by (intros I; apply N, in_or_app; left; exact I). clear - Y. induction p as [|e p IH]; [reflexivity|]. cbn [filter map] in *. destruct (String.eqb_spec (fst e) (fst kv)) as [E|E]; [exfalso; apply Y; left; exact E|]. cbn [negb]. rewrite IH; [reflexivity|]. intros I. apply Y. right. exact I. }
  rewrite X, IH; [rewrite <- app_assoc; reflexivity|]. rewrite <- app_assoc. exact N.
Qed.
Theorem C161_roundtrip_partial : forall o p, a_cpar o = [p] -> a_ops o = [] -> a_cfuns o = [] -> NoDup (map fst (a_pars o)) ->
  List.Forall (fun s => (String.length s <= 30)%nat) (a_colloc o :: a_functions o ++ a_kernels o) -> List.Forall (fun s => (String.length s <= 250)%nat) (a_eqn o ++ a_cts o ++ a_bcs o) ->
  exists h, write_h5 o = Some h /\ read_h5 h blank = Some o.
Proof.
  intros o p C O CF N S30 S250. destruct o. cbn in *. subst. inversion S30 as [|? ? SC S30']; subst. apply Forall_app in S30'. destruct S30' as [SF SK]. apply Forall_app in S250. destruct S250 as [SE S2]. apply Forall_app in S2. destruct S2 as [ST SB].
  assert (SP : set_pars [] a_pars = a_pars) by (apply (set_pars_app a_pars []); exact N).
  eexists. split; [unfold write_h5; cbn [ObjModel.a_cpar]; reflexivity|]. unfold read_h5. cbn -[set_pars cut map]. change (map (cut 30) []) with (@nil string). cbv iota. rewrite (map_cut 30 a_functions SF), (map_cut 30 a_kernels SK), (map_cut 250 a_eqn SE), (map_cut 250 a_cts ST), (map_cut 250 a_bcs SB), (cut_id 30 a_colloc SC), SP. reflexivity.
Qed.
Print Assumptions C161_roundtrip_partial.
Example C161_ex : exists o p, a_cpar o = [p] /\ a_ops o = [] /\ a_cfuns o = [] /\ NoDup (map fst (a_pars o)) /\ List.Forall (fun s => (String.length s <= 30)%nat) (a_colloc o :: a_functions o ++ a_kernels o) /\ List.Forall (fun s => (String.length s <= 250)%nat) (a_eqn o ++ a_cts o ++ a_bcs o) /\ a_eqn o <> [] /\ a_n o = 33%nat.
Proof.
  exists (mkA ["u"%string] [] [] [] [("a"%string, 2); ("b"%string, 3)] "ultraS" (0, 2) 33 1 ["a * diff(u, x, 2) + b * sin(u)"%string] [] ["u(0)"%string] "cheb" ["a"%string] eps_default 1 2 false false false), "a"%string.
  cbn. repeat split; try (repeat constructor; cbn; lia); try discriminate. repeat constructor; cbn; intuition discriminate.
Qed.
(** equations of more than 250 bytes are cut; operators come back with the name of the last function; constant functions and all but the first continuation parameter are lost; without continuation parameters saving raises *)
Fixpoint long (n : nat) : string := match n with O => EmptyString | S n => String (Ascii.ascii_of_nat 117) (long n) end.
Definition with_ (o : attrs) (f g : list string) (e c : list string) : attrs :=
  mkA ["u"%string; "v"%string] f g [] [] "ultraS" (-1, 1) 15 1 e [] [] "cheb" c eps_default (/ 100 * eps_default) 2 false false false.
Theorem C161_equation_refuted : exists o h o', a_cpar o = ["a"%string] /\ write_h5 o = Some h /\ read_h5 h blank = Some o' /\ map String.length (a_eqn o) = [251%nat] /\ map String.length (a_eqn o') = [250%nat].
Proof. exists (with_ blank [] [] [long 251] ["a"%string]). eexists. eexists. split; [reflexivity|]. split; [reflexivity|]. split; [reflexivity|]. split; reflexivity. Qed.
Print Assumptions C161_equation_refuted.
Theorem C161_names_refuted : exists o h o', write_h5 o = Some h /\ read_h5 h blank = Some o' /\ a_ops o = ["G"%string] /\ a_ops o' = ["v"%string] /\ a_cfuns o = ["w"%string] /\ a_cfuns o' = [] /\ a_cpar o = ["a"%string; "b"%string] /\ a_cpar o' = ["a"%string].
Proof. exists (with_ blank ["w"%string] ["G"%string] ["u"%string] ["a"%string; "b"%string]). eexists. eexists. split; [reflexivity|]. split; [reflexivity|]. repeat split. Qed.
Print Assumptions C161_names_refuted.
Theorem C161_raises_refuted : exists o, a_cpar o = [] /\ write_h5 o = None.
Proof. exists blank. split; reflexivity. Qed.
Print Assumptions C161_raises_refuted.
