(** C164: an operator is evaluated with the parameters of the state it is given. *)
From Coq Require Import String List Reals Arith Bool Lra Lia.
From Verif Require Import Base ChebModel VsModel VsSpec VsProofs VsMore ParModel.
Import ListNotations.
Open Scope R_scope.

(** the value given to k by a list of assignments, the last one counting *)
Fixpoint last_value (l : list (string * R)) (k : string) : option R :=
  match l with [] => None | (q, v) :: t => match last_value t k with Some w => Some w | None => if String.eqb q k then Some v else None end end.
Lemma assign_get : forall l d k, ns_get (assign d l) k = match last_value l k with Some v => Some v | None => ns_get d k end.
Proof.
  induction l as [|[q v] l IH]; intros d k; [reflexivity|]. unfold assign in *. cbn [fold_left fst snd last_value]. rewrite IH. destruct (last_value l k); [reflexivity|]. rewrite ns_get_set. destruct (String.eqb q k); reflexivity.
Qed.
Lemma last_app l m k : last_value (l ++ m) k = match last_value m k with Some v => Some v | None => last_value l k end.
Proof. induction l as [|[q v] l IH]; cbn; [destruct (last_value m k); reflexivity|]. rewrite IH. destruct (last_value m k); [reflexivity|]. reflexivity. Qed.
(** the parameters of the state: continuation parameters first, then its namespace *)
Definition value_in {F} (h : heap) (x : state F) (k : string) : option R :=
  match last_value (map (fun p => (pname p, pval p)) (s_reals x)) k with Some v => Some v | None => last_value (hget h (s_ns x)) k end.
Definition is_reals {F} (x : state F) (k : string) : Prop := In k (map pname (s_reals x)).
Lemma last_none l k : last_value l k = None <-> ~ In k (map fst l).
Proof.
  induction l as [|[q v] l IH]; cbn; [tauto|]. destruct (last_value l k) as [w|] eqn:E.
  - split; [discriminate|]. intros H. exfalso. apply H. right. destruct (in_dec string_dec k (map fst l)) as [J|J]; [exact J|]. apply IH in J. discriminate.
  - assert (J : ~ In k (map fst l)) by (apply IH; reflexivity). destruct (String.eqb_spec q k) as [->|N]; split; try discriminate; try tauto.
Qed.
Lemma compiled par o : op_ns (p_compile par o) <> None.
Proof. unfold p_compile. destruct (op_ns o) eqn:E; cbn; [|discriminate]. destruct (op_parset o || Bool.eqb par (op_parset o)); [rewrite E|cbn]; discriminate. Qed.
Lemma disc_used u o k : exists d, op_ns (p_compile (op_cpar o) o) = Some d /\ p_used (p_discretize u o) k = ns_get (update d u) k.
Proof.
  pose proof (compiled (op_cpar o) o) as C. destruct (op_ns (p_compile (op_cpar o) o)) as [d|] eqn:E; [|contradiction]. exists d. split; [reflexivity|]. unfold p_used, p_discretize. cbn [op_ns]. rewrite E. reflexivity.
Qed.

(** C164: discretising at a state uses the value the state has for each parameter, whatever happened before. *)
Theorem C164_discretize : forall F pars cpar hist (h : heap) (x : state F) k v,
  value_in h x k = Some v -> p_used (p_discretize (arg_of h x) (p_run (pop_new pars cpar) hist)) k = Some v.
Proof.
  intros F pars cpar hist h x k v H. destruct (disc_used (arg_of h x) (p_run (pop_new pars cpar) hist) k) as (d & _ & ->).
  unfold update, update_partial, set_partial, set_parameters, arg_of, items. rewrite !assign_get, last_app. unfold value_in in H.
  destruct (last_value (map (fun p => (pname p, pval p)) (s_reals x)) k); [exact H|]. rewrite H. reflexivity.
Qed.
Print Assumptions C164_discretize.
(** C164: evaluating op(u) or op.residual(u) uses the state's values of its continuation parameters only; every other parameter keeps the value it had. *)
Theorem C164_call_partial : forall F (o : pop) (h : heap) (x : state F) k, op_ns o <> None ->
  (is_reals x k -> p_used (p_call (arg_of h x) o) k = value_in h x k) /\ (~ is_reals x k -> p_used (p_call (arg_of h x) o) k = p_used o k).
Proof.
  intros F o h x k HO. unfold p_used, p_call. cbn [op_ns]. destruct (op_ns o) as [d|]; [|contradiction]. cbn [option_map]. unfold update_partial, set_partial, arg_of. rewrite assign_get.
  assert (M : map fst (map (fun p => (pname p, pval p)) (s_reals x)) = map pname (s_reals x)) by (rewrite map_map; reflexivity).
  unfold value_in, is_reals. rewrite <- M. destruct (last_value (map (fun p => (pname p, pval p)) (s_reals x)) k) as [v|] eqn:E.
  - split; [reflexivity|]. intros J. apply last_none in J. congruence.
  - apply last_none in E. split; [contradiction|reflexivity].
Qed.
Print Assumptions C164_call_partial.
(** C164: so after discretising at a state with k = v, the residual at a state with k = w is computed with k = v, for every parameter that is not a continuation parameter; and likewise for op(f) of a plain function. *)
Theorem C164_stale_refuted : forall F pars cpar hist (h : heap) (x y : state F) k v,
  value_in h x k = Some v -> ~ is_reals y k ->
  p_used (p_run (pop_new pars cpar) (hist ++ [PDisc (arg_of h x); PCall (arg_of h y)])) k = Some v /\
  p_used (p_run (pop_new pars cpar) (hist ++ [PDisc (arg_of h x); PDisc AFun])) k = Some v.
Proof.
  intros F pars cpar hist h x y k v HX HY. unfold p_run. rewrite !fold_left_app. fold (p_run (pop_new pars cpar) hist). cbn [fold_left p_step]. set (o := p_run (pop_new pars cpar) hist).
  pose proof (C164_discretize F pars cpar hist h x k v HX) as D. fold o in D. destruct (disc_used (arg_of h x) o k) as (d & E & U). split.
  - rewrite (proj2 (C164_call_partial F (p_discretize (arg_of h x) o) h y k ltac:(unfold p_discretize; cbn [op_ns]; rewrite E; discriminate)) HY). exact D.
  - set (o1 := p_discretize (arg_of h x) o) in *. destruct (disc_used AFun o1 k) as (d2 & E2 & ->). cbn [update update_partial set_partial set_parameters].
    assert (K : p_compile (op_cpar o1) o1 = o1).
    { subst o1. unfold p_discretize. cbn [op_cpar op_pars op_ns op_parset]. rewrite E. cbn [option_map]. unfold p_compile at 1. cbn [op_ns op_parset andb].
      unfold p_compile in *. cbn [op_ns op_parset op_cpar op_pars] in *. destruct ((match op_ns o with Some _ => true | None => false end) && (op_parset o || Bool.eqb (op_cpar o) (op_parset o))) eqn:B.
      - apply andb_true_iff in B. destruct B as [_ B]. rewrite B. reflexivity.
      - cbn [op_ns op_parset op_cpar op_pars]. rewrite Bool.eqb_reflx, orb_true_r. reflexivity. }
    rewrite K in E2. unfold p_used in D. rewrite E2 in D. exact D.
Qed.
Print Assumptions C164_stale_refuted.
(** C164: assigning to op.parameter_names after compilation has no effect on any later computation (unless the system is compiled anew). *)
Theorem C164_edit_refuted : forall (o : pop) k v u q, op_ns o <> None ->
  p_used (p_call u (p_edit k v o)) q = p_used (p_call u o) q /\
  ((op_parset o || Bool.eqb (op_cpar o) (op_parset o)) = true -> p_used (p_discretize u (p_edit k v o)) q = p_used (p_discretize u o) q).
Proof.
  intros o k v u q H. split; [reflexivity|]. intros B. unfold p_used, p_discretize, p_edit, p_compile. cbn [op_ns op_parset op_cpar op_pars]. destruct (op_ns o) as [d|] eqn:E; [|contradiction]. cbn [andb]. rewrite B. cbn [op_ns]. rewrite ?E. reflexivity.
Qed.
Print Assumptions C164_edit_refuted.

(** what a command writes under k *)
Definition writes (c : pcmd) (k : string) : option R :=
  match c with
  | PDisc (AState its upd) => match last_value upd k with Some v => Some v | None => last_value its k end
  | PCall (AState _ upd) => last_value upd k
  | _ => None
  end.
(** the attribute parameter_names after a history *)
Definition pars_after (pars : nspace) (hist : list pcmd) : nspace := fold_left (fun d c => match c with PEdit k v => ns_set d k v | _ => d end) hist pars.
(** the commands that compile: the first one, and one that asks for parameter derivatives when the present system has none *)
Definition asks (cpar : bool) (c : pcmd) : option bool := match c with PCompile par => Some par | PDisc _ => Some cpar | _ => None end.
Fixpoint par_of (cpar : bool) (past : list pcmd) : option bool :=  (* past: latest first; Some: compiled, with or without *)
  match past with
  | [] => None
  | c :: past => match asks cpar c, par_of cpar past with
                 | None, s => s
                 | Some p, None => Some p
                 | Some p, Some s => Some (s || p)
                 end
  end.
Definition builds (cpar : bool) (c : pcmd) (past : list pcmd) : bool :=
  match asks cpar c, par_of cpar past with Some _, None => true | Some true, Some false => true | _, _ => false end.
(** the value in force: the last write, or the attribute's value at the last compilation, whichever is later *)
Fixpoint in_force (pars : nspace) (cpar : bool) (past : list pcmd) (k : string) : option R :=
  match past with
  | [] => None
  | c :: past => match writes c k with
                 | Some v => if match par_of cpar (c :: past) with Some _ => true | None => false end then Some v else None
                 | None => if builds cpar c past then last_value (pars_after pars (rev past)) k else in_force pars cpar past k
                 end
  end.
(** C164: for every history, the value in force is the last one written by a command that writes it since the last compilation, otherwise the attribute's value at that compilation. *)
Lemma run_snoc o h c : p_run o (h ++ [c]) = p_step (p_run o h) c.
Proof. unfold p_run. rewrite fold_left_app. reflexivity. Qed.
Lemma last_is_get l k : last_value l k = ns_get (assign [] l) k.
Proof. rewrite assign_get. destruct (last_value l k); reflexivity. Qed.
Theorem C164_history : forall pars cpar past k, p_used (p_run (pop_new pars cpar) (rev past)) k = in_force pars cpar past k.
Proof.
  intros pars cpar past k.
  assert (G : let o := p_run (pop_new pars cpar) (rev past) in op_cpar o = cpar /\ op_pars o = pars_after pars (rev past) /\
     (match op_ns o with Some _ => Some (op_parset o) | None => None end = par_of cpar past) /\ (op_ns o = None -> op_parset o = false) /\ p_used o k = in_force pars cpar past k); [|apply G].
  induction past as [|c past IH]; [cbn; repeat split|]. cbn [rev] in *. cbn zeta in *. rewrite run_snoc. set (o := p_run (pop_new pars cpar) (rev past)) in *. destruct IH as (I1 & I2 & I3 & I5 & I4).
  assert (PA : pars_after pars (rev past ++ [c]) = match c with PEdit k v => ns_set (op_pars o) k v | _ => op_pars o end).
  { unfold pars_after. rewrite fold_left_app. cbn [fold_left]. fold (pars_after pars (rev past)). rewrite <- I2. reflexivity. }
  assert (KC : forall par, asks cpar c = Some par -> let o1 := p_compile par o in
     op_cpar o1 = cpar /\ op_pars o1 = op_pars o /\ op_ns o1 <> None /\ Some (op_parset o1) = par_of cpar (c :: past) /\ p_used o1 k = (if builds cpar c past then last_value (op_pars o) k else p_used o k)).
  { intros par HA. cbn zeta. unfold builds. cbn [par_of]. rewrite HA. unfold p_compile, p_used. destruct (op_ns o) as [d|] eqn:EN; rewrite <- I3; cbn [andb].
    - destruct (op_parset o) eqn:EP; cbn [orb].
      + rewrite EN, EP. destruct par; repeat split; try assumption; discriminate.
      + destruct par; cbn [Bool.eqb].
        * cbn [op_cpar op_pars op_ns op_parset]. repeat split; try assumption; try discriminate. symmetry. apply last_is_get.
        * rewrite EN, EP. repeat split; try assumption; discriminate.
    - cbn [op_cpar op_pars op_ns op_parset]. repeat split; try assumption; try discriminate. destruct par; symmetry; apply last_is_get. }
  destruct c as [par|u|u|q v]; cbn [p_step].
  - destruct (KC par eq_refl) as (K1 & K2 & K3 & K4 & K5). split; [exact K1|]. split; [rewrite PA; exact K2|]. split; [destruct (op_ns (p_compile par o)); [exact K4|contradiction]|]. split; [intros Z; contradiction|]. rewrite K5. cbn [in_force writes]. rewrite I4, I2. reflexivity.
  - destruct (KC cpar eq_refl) as (K1 & K2 & K3 & K4 & K5). unfold p_discretize. rewrite I1. cbn [op_cpar op_pars op_ns op_parset]. split; [exact K1|]. split; [rewrite PA; exact K2|].
    unfold p_used. cbn [op_ns]. unfold p_used in K5. destruct (op_ns (p_compile cpar o)) as [d|]; [|contradiction]. cbn [option_map]. split; [exact K4|]. split; [discriminate|]. cbn [in_force]. rewrite <- K4. unfold update, update_partial, set_partial, set_parameters. destruct u as [its upd|]; cbn [writes].
    + rewrite !assign_get. destruct (last_value upd k); [reflexivity|]. destruct (last_value its k); [reflexivity|]. rewrite K5, I2. destruct (builds cpar (PDisc (AState its upd)) past); [reflexivity|exact I4].
    + rewrite K5, I2. destruct (builds cpar (PDisc AFun) past); [reflexivity|exact I4].
  - unfold p_call. cbn [op_cpar op_pars op_ns op_parset]. split; [exact I1|]. split; [rewrite PA; reflexivity|]. cbn [par_of asks in_force]. unfold p_used in *. cbn [op_ns]. destruct (op_ns o) as [d|]; cbn [option_map]; (split; [exact I3|]).
    + split; [discriminate|]. rewrite <- I3. unfold update_partial, set_partial, builds. cbn [asks]. destruct u as [its upd|]; cbn [writes]; [|exact I4]. rewrite assign_get. destruct (last_value upd k); [reflexivity|exact I4].
    + split; [intros _; apply I5; reflexivity|]. rewrite <- I3. unfold builds. cbn [asks]. destruct (writes (PCall u) k); [reflexivity|exact I4].
  - unfold p_edit. cbn [op_cpar op_pars op_ns op_parset]. split; [exact I1|]. split; [rewrite PA; reflexivity|]. cbn [par_of asks in_force writes]. unfold builds. cbn [asks]. split; [exact I3|]. split; [exact I5|]. exact I4.
Qed.
Print Assumptions C164_history.
(** a case: two states with continuation parameter "q" and a further parameter "p" *)
Example C164_ex : exists (h : heap) (x y : state R), value_in h x "p" = Some 1 /\ value_in h y "p" = Some 2 /\ ~ is_reals y "p" /\
  p_used (p_run (pop_new [("p"%string, 0); ("q"%string, 0)] true) [PDisc (arg_of h x); PCall (arg_of h y)]) "p" = Some 1 /\
  p_used (p_run (pop_new [("p"%string, 0); ("q"%string, 0)] true) [PDisc (arg_of h x); PCall (arg_of h y)]) "q" = Some 6.
Proof.
  exists [[("p"%string, 1)]; [("p"%string, 2)]], (mkSt Cont [mkPar "q" 5] [0] [1; 1] 0), (mkSt Cont [mkPar "q" 6] [0] [1; 1] 1). repeat split; try reflexivity. intros [H|[]]. discriminate.
Qed.
