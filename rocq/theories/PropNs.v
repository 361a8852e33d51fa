(** C167: the names of the generated functions and of the user's. *)
From Coq Require Import String Ascii Decimal DecimalString DecimalNat List Arith Lia Bool.
From Verif Require Import NsModel.
Import ListNotations.
Open Scope string_scope.

(** ** Specification *)
Definition digit (c : ascii) : Prop := 48 <= nat_of_ascii c <= 57.
Definition ends_in_digit (s : string) : Prop := exists a c, s = a ++ String c EmptyString /\ digit c.
(** The handles a block of an operator must hold. *)
Definition right_block (op : string) (order ints i j : nat) : blockh :=
  mkB (map (fun k => Some (NGen (GCoef op i j k))) (seq 0 (S order))) (Some (NGen (GInfo op i j)))
      (map (fun t => Some (NGen (GFactor op i j t))) (seq 0 ints)) (map (fun t => Some (NGen (GIntegrand op i j t))) (seq 0 ints)).
Definition right_vec (vec : string) (n : nat) : list (option nval) := map (fun i => Some (NGen (GComp vec i))) (seq 0 n).
Definition right_op (op : string) (rows cols order : nat) (ints : nat -> nat -> nat) : list blockh :=
  map (fun p => right_block op order (ints (fst p) (snd p)) (fst p) (snd p)) (list_prod (seq 0 rows) (seq 0 cols)).

(** ** Strings *)
Lemma app_cancel (a b c : string) : a ++ b = a ++ c -> b = c.
Proof. induction a; cbn; [auto|]. intros H. injection H as H. auto. Qed.
Lemma app_assoc_s (a b c : string) : (a ++ b) ++ c = a ++ (b ++ c).
Proof. induction a; cbn; [reflexivity|]. now rewrite IHa. Qed.
Lemma dec_inj n m : dec n = dec m -> n = m.
Proof.
  unfold dec. intros H. apply (f_equal NilEmpty.uint_of_string) in H. rewrite !NilEmpty.usu in H. injection H as H.
  apply (f_equal Nat.of_uint) in H. now rewrite !Unsigned.of_to in H.
Qed.
Fixpoint all_digits (s : string) : Prop := match s with EmptyString => True | String c r => digit c /\ all_digits r end.
Lemma uint_digits u : all_digits (NilEmpty.string_of_uint u).
Proof. induction u; cbn [NilEmpty.string_of_uint all_digits]; try exact I; (split; [unfold digit; cbn; lia|assumption]). Qed.
Lemma dec_nonempty n : dec n <> "".
Proof.
  intros H. assert (E : dec n = NilEmpty.string_of_uint Nil) by (rewrite H; reflexivity). unfold dec in E.
  apply (f_equal NilEmpty.uint_of_string) in E. rewrite !NilEmpty.usu in E. injection E as E.
  destruct n as [|n]; [discriminate|]. pose proof (Unsigned.of_to (S n)) as Q. rewrite E in Q. discriminate.
Qed.
Lemma dec_head n : exists c r, dec n = String c r /\ digit c.
Proof.
  pose proof (uint_digits (Nat.to_uint n)) as D. pose proof (dec_nonempty n) as N. unfold dec in *.
  destruct (NilEmpty.string_of_uint (Nat.to_uint n)) as [|c r]; [contradiction|]. exists c, r. split; [reflexivity|]. exact (proj1 D).
Qed.
Lemma all_digits_end s : all_digits s -> s <> "" -> ends_in_digit s.
Proof.
  induction s as [|c r IH]; intros D N; [contradiction|]. destruct D as [D1 D2]. destruct r as [|c' r'].
  - exists "", c. split; [reflexivity|exact D1].
  - destruct IH as (a & x & E & Dx); [exact D2|discriminate|]. exists (String c a), x. split; [cbn; now rewrite E|exact Dx].
Qed.
Lemma dec_end n : ends_in_digit (dec n).
Proof. apply all_digits_end; [apply uint_digits|apply dec_nonempty]. Qed.
Fixpoint lastc (s : string) : option ascii := match s with EmptyString => None | String c r => match r with EmptyString => Some c | _ => lastc r end end.
Lemma lastc_app a d : lastc (a ++ String d "") = Some d.
Proof. induction a as [|h a IH]; [reflexivity|]. cbn [append lastc]. destruct (a ++ String d "") eqn:Q; [destruct a; discriminate|exact IH]. Qed.
Lemma app_end a s : ends_in_digit s -> ends_in_digit (a ++ s).
Proof. intros (b & c & E & D). exists (a ++ b), c. split; [rewrite E; now rewrite app_assoc_s|exact D]. Qed.
Lemma dec_not_i n r s : dec n ++ r = String "i" s -> False.
Proof. destruct (dec_head n) as (c & t & E & D). rewrite E. cbn. intros H. injection H as H _. rewrite H in D. unfold digit in D. cbn in D. lia. Qed.
Lemma dec_app_not_i n s : dec n = String "i" s -> False.
Proof. intros H. apply (dec_not_i n "" s). assert (Q : forall a, a ++ "" = a) by (induction a; cbn; congruence). now rewrite Q. Qed.

(** ** Namespaces *)
Lemma nexec_app ns a b : nexec ns (a ++ b)%list = nexec (nexec ns a) b.
Proof. apply fold_left_app. Qed.
Lemma nget_exec_out code ns s : ~ In s (map fst code) -> nget (nexec ns code) s = nget ns s.
Proof.
  revert ns. induction code as [|[k v] r IH]; intros ns H; [reflexivity|]. cbn [nexec fold_left] in *. fold (nexec (nset ns k v) r).
  unfold nexec in IH |- *. cbn [fold_left fst snd]. rewrite IH; [|intros Q; apply H; now right]. cbn. destruct (String.eqb_spec k s) as [E|E]; [|reflexivity].
  exfalso. apply H. left. exact E.
Qed.
Lemma nget_exec_in code ns s v : NoDup (map fst code) -> In (s, v) code -> nget (nexec ns code) s = Some v.
Proof.
  revert ns. induction code as [|[k w] r IH]; intros ns N H; [contradiction|]. inversion N as [|? ? N1 N2]; subst.
  unfold nexec. cbn [fold_left fst snd]. change (nget (nexec (nset ns k w) r) s = Some v). destruct H as [H|H].
  - injection H as -> ->. rewrite nget_exec_out by exact N1. cbn. now rewrite String.eqb_refl.
  - apply IH; assumption.
Qed.
Lemma nget_exec_some code ns s : In s (map fst code) -> exists v, In (s, v) code /\ nget (nexec ns code) s = Some v.
Proof.
  revert ns. induction code as [|[k w] r IH]; intros ns H; [contradiction|].
  change (exists v, In (s, v) ((k, w) :: r) /\ nget (nexec (nset ns k w) r) s = Some v).
  destruct (in_dec string_dec s (map fst r)) as [Q|Q].
  - destruct (IH (nset ns k w) Q) as (v & I1 & I2). exists v. split; [now right|exact I2].
  - destruct H as [H|H]; [|contradiction]. cbn in H. subst k. exists w. split; [now left|]. rewrite nget_exec_out by exact Q. cbn. now rewrite String.eqb_refl.
Qed.

(** ** Names within one unit of code are different *)
Lemma NoDup_map_inj {A B} (f : A -> B) (l : list A) : NoDup l -> (forall x y, In x l -> In y l -> f x = f y -> x = y) -> NoDup (map f l).
Proof.
  induction l as [|a l IH]; intros N H; [constructor|]. inversion N; subst. cbn. constructor.
  - intros Q. apply in_map_iff in Q. destruct Q as (y & E & I1). rewrite (H y a) in I1; [contradiction|now right|now left|exact E].
  - apply IH; [assumption|]. intros x y Hx Hy. apply H; now right.
Qed.
Lemma NoDup_app' {A} (a b : list A) : NoDup a -> NoDup b -> (forall x, In x a -> In x b -> False) -> NoDup (a ++ b)%list.
Proof.
  induction a as [|x a IH]; intros Na Nb D; [exact Nb|]. inversion Na; subst. cbn. constructor.
  - intros Q. apply in_app_or in Q. destruct Q as [Q|Q]; [contradiction|]. apply (D x); [now left|exact Q].
  - apply IH; auto. intros y Hy. apply D. now right.
Qed.
Lemma NoDup_l {A} (a b : list A) : NoDup (a ++ b)%list -> NoDup a.
Proof. induction a; intros H; [constructor|]. inversion H; subst. constructor; [intros Q; apply H2, in_or_app; now left|auto]. Qed.
Lemma NoDup_r {A} (a b : list A) : NoDup (a ++ b)%list -> NoDup b.
Proof. induction a; intros H; [exact H|]. inversion H; subst. auto. Qed.
Lemma block_map o i j : map fst (emit_block o i j) =
  (map (coef_name o i j) (seq 0 (S (o_order o))) ++ flat_map (fun t => [factor_name o i j t; integrand_name o i j t]) (seq 0 (o_ints o i j)) ++ [info_name o i j])%list.
Proof.
  unfold emit_block. rewrite !map_app, map_map. f_equal. f_equal.
  induction (seq 0 (o_ints o i j)) as [|t l IH]; [reflexivity|]. cbn [flat_map map app fst]. now rewrite IH.
Qed.
Lemma flat_names o i j n : NoDup (flat_map (fun t => [factor_name o i j t; integrand_name o i j t]) (seq 0 n)).
Proof.
  assert (G : forall l, NoDup l -> NoDup (flat_map (fun t => [factor_name o i j t; integrand_name o i j t]) l)).
  { induction l as [|t l IH]; intros N; [constructor|]. inversion N; subst.
    change (NoDup ([factor_name o i j t; integrand_name o i j t] ++ flat_map (fun t => [factor_name o i j t; integrand_name o i j t]) l)%list).
    apply NoDup_app'; [|auto|].
    - constructor; [|constructor; [intros []|constructor]]. intros [Q|[]]. unfold factor_name, integrand_name in Q. do 3 apply app_cancel in Q. discriminate.
    - intros s Hs Hl. apply in_flat_map in Hl. destruct Hl as (u & Hu & Hl). assert (D : t <> u) by (intros ->; contradiction).
      unfold factor_name, integrand_name in *. destruct Hs as [Hs|[Hs|[]]]; destruct Hl as [Hl|[Hl|[]]]; subst s; do 3 apply app_cancel in Hl; cbn in Hl; injection Hl as Hl; try (apply D; symmetry; apply dec_inj; exact Hl); discriminate. }
  apply G, seq_NoDup.
Qed.
Lemma block_nodup o i j : NoDup (map fst (emit_block o i j)).
Proof.
  rewrite block_map. apply NoDup_app'; [| |].
  - apply NoDup_map_inj; [apply seq_NoDup|]. intros x y _ _ H. unfold coef_name in H. do 3 apply app_cancel in H. now apply dec_inj.
  - apply NoDup_app'; [apply flat_names|constructor; [intros []|constructor]|].
    intros s Hs [Hi|[]]. subst s. apply in_flat_map in Hs. destruct Hs as (t & _ & [Hs|[Hs|[]]]); unfold factor_name, integrand_name, info_name in Hs; apply app_cancel in Hs; cbn in Hs;
      match type of Hs with dec ?a ++ _ = _ => exact (dec_not_i a _ _ Hs) end.
  - intros s Hs Hl. apply in_map_iff in Hs. destruct Hs as (k & E & _). subst s. apply in_app_or in Hl. destruct Hl as [Hl|[Hl|[]]].
    + apply in_flat_map in Hl. destruct Hl as (t & _ & [Hl|[Hl|[]]]); unfold factor_name, integrand_name, coef_name in Hl; do 3 apply app_cancel in Hl; symmetry in Hl; exact (dec_app_not_i _ _ Hl).
    + unfold info_name, coef_name in Hl. apply app_cancel in Hl. symmetry in Hl. cbn in Hl. exact (dec_not_i _ _ _ Hl).
Qed.
Lemma comp_nodup name n : NoDup (map fst (emit_vec name n)).
Proof. unfold emit_vec. rewrite map_map. apply NoDup_map_inj; [apply seq_NoDup|]. intros x y _ _ H. cbn in H. unfold comp_name in H. apply app_cancel in H. now apply dec_inj. Qed.
Lemma bc_nodup n : NoDup (map fst (emit_bcs n)).
Proof. unfold emit_bcs. rewrite map_map. apply NoDup_map_inj; [apply seq_NoDup|]. intros x y _ _ H. cbn in H. unfold bc_name in H. injection H as H. now apply dec_inj. Qed.

(** ** The builds *)
Lemma block_right ns o i j : block_build (nexec ns (emit_block o i j)) o i j = right_block (o_name o) (o_order o) (o_ints o i j) i j.
Proof.
  unfold block_build, right_block. f_equal.
  - apply map_ext_in. intros k Hk. apply nget_exec_in; [apply block_nodup|]. unfold emit_block. apply in_or_app. left. apply in_map_iff. exists k. auto.
  - apply nget_exec_in; [apply block_nodup|]. unfold emit_block. apply in_or_app. right. apply in_or_app. right. now left.
  - apply map_ext_in. intros t Ht. apply nget_exec_in; [apply block_nodup|]. unfold emit_block. apply in_or_app. right. apply in_or_app. left. apply in_flat_map. exists t. split; [exact Ht|now left].
  - apply map_ext_in. intros t Ht. apply nget_exec_in; [apply block_nodup|]. unfold emit_block. apply in_or_app. right. apply in_or_app. left. apply in_flat_map. exists t. split; [exact Ht|right; now left].
Qed.
Definition op_code (o : opsrc) : list (string * nval) := flat_map (fun p => emit_block o (fst p) (snd p)) (list_prod (seq 0 (o_rows o)) (seq 0 (o_cols o))).
Lemma linop_spec ns o : linop_build ns o = (nexec ns (op_code o), right_op (o_name o) (o_rows o) (o_cols o) (o_order o) (o_ints o)).
Proof.
  unfold linop_build, op_code, right_op. set (l := list_prod _ _). clearbody l.
  assert (G : forall ns acc, fold_left (fun st p => let ns' := nexec (fst st) (emit_block o (fst p) (snd p)) in (ns', (snd st ++ [block_build ns' o (fst p) (snd p)])%list)) l (ns, acc)
     = (nexec ns (flat_map (fun p => emit_block o (fst p) (snd p)) l), (acc ++ map (fun p => right_block (o_name o) (o_order o) (o_ints o (fst p) (snd p)) (fst p) (snd p)) l)%list)).
  { induction l as [|p l IH]; intros n acc; cbn [fold_left flat_map map].
    - now rewrite app_nil_r.
    - cbn zeta. cbn [fst snd]. rewrite IH. rewrite nexec_app, block_right, <- app_assoc. reflexivity. }
  apply G.
Qed.
Lemma vec_spec ns name n : vec_build ns name n = (nexec ns (emit_vec name n), right_vec name n).
Proof.
  unfold vec_build. cbn zeta. f_equal. unfold right_vec. apply map_ext_in. intros i Hi. apply nget_exec_in; [apply comp_nodup|].
  unfold emit_vec. apply in_map_iff. exists i. auto.
Qed.
Definition dict_code (name : string) (pars : list string) (n : string -> nat) : list (string * nval) := flat_map (fun p => emit_vec (name ++ "_" ++ p) (n p)) pars.
Lemma dict_spec ns name pars n : dict_build ns name pars n = (nexec ns (dict_code name pars n), map (fun p => right_vec (name ++ "_" ++ p) (n p)) pars).
Proof.
  unfold dict_build, dict_code.
  assert (G : forall ns acc, fold_left (fun st p => let r := vec_build (fst st) (name ++ "_" ++ p) (n p) in (fst r, (snd st ++ [snd r])%list)) pars (ns, acc)
     = (nexec ns (flat_map (fun p => emit_vec (name ++ "_" ++ p) (n p)) pars), (acc ++ map (fun p => right_vec (name ++ "_" ++ p) (n p)) pars)%list)).
  { induction pars as [|p l IH]; intros m acc; cbn [fold_left flat_map map].
    - now rewrite app_nil_r.
    - rewrite vec_spec. cbn zeta. cbn [fst snd]. rewrite IH. rewrite nexec_app, <- app_assoc. reflexivity. }
  apply G.
Qed.
Definition gen_code (c : csrc) : list (string * nval) :=
  (op_code (lin_src c) ++ emit_vec "f" (c_eqns c)
  ++ (if has_fold c then emit_vec "df" (c_eqns c) ++ emit_vec "ddf" (c_funs c) ++ dict_code "dxdp" (c_cpars c) (fun _ => c_eqns c) ++ emit_vec "dd_adjf" (c_funs c) else [])
  ++ (if c_par c then dict_code "dp" (c_cpars c) (c_dpn c) else [])
  ++ match c_cts c with Some m => op_code (cts_src c m) ++ emit_vec "c" m | None => [] end
  ++ emit_bcs (c_bcs c))%list.
Lemma sys_ns c : fst (sys_build c) = nexec (nexec [] (common c)) (gen_code c).
Proof.
  unfold sys_build, gen_code. rewrite linop_spec. cbn [fst snd]. rewrite vec_spec. cbn [fst snd].
  destruct (has_fold c); rewrite ?vec_spec; cbn [fst snd]; rewrite ?vec_spec; cbn [fst snd]; rewrite ?dict_spec; cbn [fst snd]; rewrite ?vec_spec; cbn [fst snd];
  destruct (c_par c); rewrite ?dict_spec; cbn [fst snd]; destruct (c_cts c); rewrite ?linop_spec; cbn [fst snd]; rewrite ?vec_spec; cbn [fst snd]; rewrite ?nexec_app; reflexivity.
Qed.

(** C167, the proved part: with any number of equations, blocks, orders, integral terms, parameters, constraints and boundary conditions every handle the operator holds is the function emitted for it, although names may be used twice. *)
Theorem C167_handles : forall c, let H := snd (compiled c) in
  s_lin H = right_op "f" (c_eqns c) (c_funs c) (c_order c) (c_ints c) /\
  s_rhs H = right_vec "f" (c_eqns c) /\
  s_clin H = match c_cts c with Some m => right_op "c" m (c_funs c) (c_order c) (c_cints c) | None => [] end /\
  s_crhs H = match c_cts c with Some m => right_vec "c" m | None => [] end /\
  s_bcs H = map (fun i => Some (NGen (GBc i))) (seq 0 (c_bcs c)) /\
  (c_par c = true -> s_dp H = map (fun p => right_vec ("dp_" ++ p) (c_dpn c p)) (c_cpars c)) /\
  (c_par c = true -> c_fold c = true -> c_cpars c <> [] ->
    s_df H = right_vec "df" (c_eqns c) /\ s_ddx H = right_vec "ddf" (c_funs c) /\ s_ddx_adj H = right_vec "dd_adjf" (c_funs c) /\
    s_dxdp H = map (fun p => right_vec ("dxdp_" ++ p) (c_eqns c)) (c_cpars c)).
Proof.
  intros c H. subst H. unfold compiled. cbn [snd]. unfold sys_build. cbn [snd s_lin s_rhs s_clin s_crhs s_bcs s_dp s_df s_ddx s_ddx_adj s_dxdp].
  split; [now rewrite linop_spec|]. split; [now rewrite vec_spec|].
  split. { destruct (c_cts c); [now rewrite linop_spec|reflexivity]. }
  split. { destruct (c_cts c); [now rewrite vec_spec|reflexivity]. }
  split. { apply map_ext_in. intros i Hi. apply nget_exec_in; [apply bc_nodup|]. unfold emit_bcs. apply in_map_iff. exists i. auto. }
  split. { intros ->. now rewrite dict_spec. }
  intros P F N. assert (HF : has_fold c = true). { unfold has_fold. rewrite P, F. destruct (c_cpars c); [contradiction|reflexivity]. }
  rewrite HF. repeat split; now rewrite ?vec_spec, ?dict_spec.
Qed.
Print Assumptions C167_handles.

Lemma op_code_names o : map fst (op_code o) = block_names o.
Proof.
  unfold op_code, block_names. induction (list_prod _ _) as [|p l IH]; [reflexivity|]. cbn [flat_map]. rewrite map_app, IH. reflexivity.
Qed.
Lemma vec_names name n : map fst (emit_vec name n) = map (comp_name name) (seq 0 n).
Proof. unfold emit_vec. now rewrite map_map. Qed.
Lemma dict_names name pars n : map fst (dict_code name pars n) = flat_map (fun p => map (comp_name (name ++ "_" ++ p)) (seq 0 (n p))) pars.
Proof. unfold dict_code. induction pars as [|p l IH]; [reflexivity|]. cbn [flat_map]. now rewrite map_app, IH, vec_names. Qed.
Lemma gen_code_names c : map fst (gen_code c) = gen_names c.
Proof.
  unfold gen_code, gen_names. rewrite !map_app, op_code_names, vec_names. f_equal. f_equal. f_equal.
  - destruct (has_fold c); [|reflexivity]. now rewrite !map_app, !vec_names, dict_names.
  - f_equal; [destruct (c_par c); [apply dict_names|reflexivity]|]. f_equal; [|unfold emit_bcs; now rewrite map_map].
    destruct (c_cts c); [|reflexivity]. now rewrite map_app, op_code_names, vec_names.
Qed.
Lemma op_code_gen o p : In p (op_code o) -> exists g, snd p = NGen g.
Proof.
  unfold op_code. intros H. apply in_flat_map in H. destruct H as (q & _ & H). unfold emit_block in H.
  apply in_app_or in H. destruct H as [H|H]. { apply in_map_iff in H. destruct H as (k & <- & _). cbn [snd]. eauto. }
  apply in_app_or in H. destruct H as [H|[H|[]]]. { apply in_flat_map in H. destruct H as (t & _ & [H|[H|[]]]); subst p; cbn [snd]; eauto. } subst p; cbn [snd]; eauto.
Qed.
Lemma vec_gen name n p : In p (emit_vec name n) -> exists g, snd p = NGen g.
Proof. unfold emit_vec. intros H. apply in_map_iff in H. destruct H as (k & <- & _). cbn [snd]. eauto. Qed.
Lemma dict_gen name pars n p : In p (dict_code name pars n) -> exists g, snd p = NGen g.
Proof. unfold dict_code. intros H. apply in_flat_map in H. destruct H as (q & _ & H). eapply vec_gen; eauto. Qed.
Lemma gen_code_gen c p : In p (gen_code c) -> exists g, snd p = NGen g.
Proof.
  unfold gen_code. intros H.
  repeat (apply in_app_or in H; destruct H as [H|H]); eauto using op_code_gen, vec_gen.
  - destruct (has_fold c); [|contradiction]. repeat (apply in_app_or in H; destruct H as [H|H]); eauto using vec_gen, dict_gen.
  - destruct (c_par c); [eauto using dict_gen|contradiction].
  - destruct (c_cts c); [|contradiction]. repeat (apply in_app_or in H; destruct H as [H|H]); eauto using op_code_gen, vec_gen.
  - unfold emit_bcs in H. apply in_map_iff in H. destruct H as (k & <- & _). cbn [snd]. eauto.
Qed.
(** C167: every generated name ends in a digit. *)
Theorem C167_digits : forall c s, In s (gen_names c) -> ends_in_digit s.
Proof.
  intros c s H.
  assert (V : forall name l, In s (map (comp_name name) l) -> ends_in_digit s).
  { intros name l Q. apply in_map_iff in Q. destruct Q as (i & <- & _). apply app_end, dec_end. }
  assert (B : forall o, In s (block_names o) -> ends_in_digit s).
  { intros o Q. unfold block_names in Q. apply in_flat_map in Q. destruct Q as (p & _ & Q). rewrite block_map in Q.
    apply in_app_or in Q. destruct Q as [Q|Q].
    - apply in_map_iff in Q. destruct Q as (k & <- & _). unfold coef_name. do 3 apply app_end. apply dec_end.
    - apply in_app_or in Q. destruct Q as [Q|[Q|[]]].
      + apply in_flat_map in Q. destruct Q as (t & _ & [<-|[<-|[]]]); unfold factor_name, integrand_name; do 4 apply app_end; apply dec_end.
      + subst s. unfold info_name. do 3 apply app_end. apply dec_end. }
  assert (D : forall name n pars, In s (flat_map (fun p => map (comp_name (name ++ "_" ++ p)) (seq 0 (n p))) pars) -> ends_in_digit s).
  { intros name n pars Q. apply in_flat_map in Q. destruct Q as (p & _ & Q). eauto. }
  unfold gen_names in H. repeat (apply in_app_or in H; destruct H as [H|H]); eauto.
  - destruct (has_fold c); [|contradiction]. repeat (apply in_app_or in H; destruct H as [H|H]); eauto. exact (D "dxdp" (fun _ => c_eqns c) _ H).
  - destruct (c_par c); [exact (D "dp" (c_dpn c) _ H)|contradiction].
  - destruct (c_cts c); [|contradiction]. apply in_app_or in H; destruct H as [H|H]; eauto.
Qed.
Print Assumptions C167_digits.

Definition reserved : list string := (lib_names ++ ["domain"; "x"; "print_pars"])%list.
Lemma lib_nodup : NoDup reserved.
Proof. unfold reserved, lib_names. cbn [app]. repeat (constructor; [cbn; intuition discriminate|]). constructor. Qed.
Lemma common_names c : map fst (common c) = (lib_names ++ ["domain"; "x"] ++ map fst (c_consts c) ++ ["print_pars"])%list.
Proof. unfold common. rewrite !map_app, !map_map, map_id. reflexivity. Qed.
Lemma pars_names ps : map fst (map (fun p : string * nat => (fst p, NPar (snd p))) ps) = map fst ps.
Proof. now rewrite map_map. Qed.
Lemma common_get c s v : NoDup (map fst (c_consts c)) -> (forall p, In p (map fst (c_consts c)) -> ~ In p reserved) -> In (s, v) (common c) -> nget (nexec [] (common c)) s = Some v.
Proof.
  intros N R. apply nget_exec_in. rewrite common_names. pose proof lib_nodup as L.
  rewrite app_assoc. apply NoDup_app'.
  - unfold reserved in L. change ["domain"; "x"; "print_pars"] with (["domain"; "x"] ++ ["print_pars"])%list in L. rewrite app_assoc in L. apply NoDup_remove_1 in L. now rewrite app_nil_r in L.
  - apply NoDup_app'; [exact N|constructor; [intros []|constructor]|]. intros x Hx [E|[]]. apply (R x Hx). unfold reserved. apply in_or_app. right. cbn. auto.
  - intros x Hx Hy. apply in_app_or in Hy. destruct Hy as [Hy|[Hy|[]]].
    + apply (R x Hy). unfold reserved. apply in_app_or in Hx. apply in_or_app. destruct Hx as [Hx|[Hx|[Hx|[]]]]; [now left|right; cbn; auto|right; cbn; auto].
    + subst x. apply in_app_or in Hx. destruct Hx as [Hx|[Hx|[Hx|[]]]]; [|discriminate|discriminate]. unfold lib_names in Hx. cbn in Hx. intuition discriminate.
Qed.

(** C167: what the code of the operator finds under the user's names.  A parameter always has its value; a constant function is the user's exactly if no generated function has its name. *)
Theorem C167_names_partial : forall c,
  NoDup (map fst (c_consts c) ++ map fst (c_pars c))%list ->
  (forall s, In s (map fst (c_consts c) ++ map fst (c_pars c))%list -> ~ In s reserved) ->
  let ns := fst (compiled c) in
  (forall p v, In (p, v) (c_pars c) -> nget ns p = Some (NPar v)) /\
  (forall f v, In (f, v) (c_consts c) -> (nget ns f = Some (NConst v) <-> ~ In f (gen_names c))) /\
  (forall s, In s lib_names -> nget ns s = Some (NLib s)) /\ nget ns "x" = Some NX /\ nget ns "domain" = Some NDomain.
Proof.
  intros c N R ns. subst ns. unfold compiled. cbn [fst]. rewrite sys_ns.
  assert (Nc : NoDup (map fst (c_consts c))) by (exact (NoDup_l _ _ N)).
  assert (Np : NoDup (map fst (c_pars c))) by (exact (NoDup_r _ _ N)).
  assert (Rc : forall p, In p (map fst (c_consts c)) -> ~ In p reserved) by (intros p Hp; apply R, in_or_app; now left).
  assert (LIB : forall s v, In s reserved -> In (s, v) (common c) -> ~ In s (gen_names c) -> nget (set_pars (nexec (nexec [] (common c)) (gen_code c)) (c_pars c)) s = Some v).
  { intros s v Hs Hv Hg. unfold set_pars. rewrite nget_exec_out; [|rewrite pars_names; intros Q; apply (R s); [apply in_or_app; now right|exact Hs]].
    rewrite nget_exec_out; [|rewrite gen_code_names; exact Hg]. now apply common_get. }
  assert (ND : forall s, In s reserved -> ~ In s (gen_names c)).
  { intros s Hs Hg. apply C167_digits in Hg. destruct Hg as (a & d & E & D).
    unfold reserved, lib_names in Hs. cbn [app In] in Hs.
    apply (f_equal lastc) in E. rewrite lastc_app in E.
    repeat (destruct Hs as [Hs|Hs]; [subst s; cbn in E; injection E as <-; unfold digit in D; cbn in D; lia|]). contradiction. }
  split; [|split; [|split; [|split]]].
  - intros p v Hp. unfold set_pars. apply nget_exec_in; [now rewrite pars_names|]. apply in_map_iff. exists (p, v). auto.
  - intros f v Hf. assert (Kf : In f (map fst (c_consts c))) by (apply in_map_iff; exists (f, v); auto).
    unfold set_pars. rewrite nget_exec_out.
    2:{ rewrite pars_names. intros Q. clear - N Kf Q. apply in_split in Kf. destruct Kf as (l1 & l2 & E). rewrite E in N. rewrite <- app_assoc in N. cbn in N. apply NoDup_remove_2 in N. apply N. apply in_or_app. right. apply in_or_app. now right. }
    split.
    + intros G Q. rewrite <- gen_code_names in Q. destruct (nget_exec_some (gen_code c) (nexec [] (common c)) f Q) as (w & I1 & I2). rewrite I2 in G. injection G as ->.
      destruct (gen_code_gen c _ I1) as (g & Eg). discriminate.
    + intros Q. rewrite nget_exec_out by (rewrite gen_code_names; exact Q). apply common_get; auto. unfold common. apply in_or_app. right. apply in_or_app. right. apply in_or_app. left. apply in_map_iff. exists (f, v). auto.
  - intros s Hs. assert (Hr : In s reserved) by (apply in_or_app; now left). apply LIB; [exact Hr| |apply ND; exact Hr]. unfold common. apply in_or_app. left. apply in_map_iff. eauto.
  - assert (Hr : In "x" reserved) by (apply in_or_app; right; cbn; auto). apply LIB; [exact Hr| |apply ND; exact Hr]. unfold common. apply in_or_app. right. cbn. auto.
  - assert (Hr : In "domain" reserved) by (apply in_or_app; right; cbn; auto). apply LIB; [exact Hr| |apply ND; exact Hr]. unfold common. apply in_or_app. right. cbn. auto.
Qed.
Print Assumptions C167_names_partial.
(** so a constant function whose name does not end in a digit is safe *)
Theorem C167_safe_partial : forall c f v,
  NoDup (map fst (c_consts c) ++ map fst (c_pars c))%list ->
  (forall s, In s (map fst (c_consts c) ++ map fst (c_pars c))%list -> ~ In s reserved) ->
  In (f, v) (c_consts c) -> ~ ends_in_digit f -> nget (fst (compiled c)) f = Some (NConst v).
Proof.
  intros c f v N R H D. apply (proj1 (proj2 (C167_names_partial c N R))); [exact H|]. intros Q. apply D. eapply C167_digits. exact Q.
Qed.
Print Assumptions C167_safe_partial.
(** C167: a constant function called f0 (an initial profile, say) is lost in every operator: its name stands for the first residual. *)
Theorem C167_clash_refuted : forall c, (0 < c_eqns c)%nat -> has_fold c = false -> c_par c = false -> c_cts c = None -> c_bcs c = 0 ->
  ~ In "f0" (map fst (c_pars c)) -> nget (fst (compiled c)) "f0" = Some (NGen (GComp "f" 0)).
Proof.
  intros c E F P C B NP. unfold compiled. cbn [fst]. rewrite sys_ns. unfold set_pars. rewrite nget_exec_out by (now rewrite pars_names).
  unfold gen_code. rewrite F, P, C, B. cbn [emit_bcs map seq app]. rewrite nexec_app. apply nget_exec_in. { rewrite app_nil_r. apply comp_nodup. }
  rewrite app_nil_r. unfold emit_vec. apply in_map_iff. exists 0. split; [reflexivity|]. apply in_seq. lia.
Qed.
Print Assumptions C167_clash_refuted.

(** a case: two equations with a constraint and two boundary conditions, the constant function w and the parameters a and c1 *)
Example C167_ex : let c := mkC [("w", 7)] [("a", 1); ("c1", 2)] ["a"] 2 2 (Some 1) 2 2 (fun i j => if Nat.eqb i j then 1 else 0) (fun _ _ => 1) (fun _ => 2) true true in
  NoDup (map fst (c_consts c) ++ map fst (c_pars c))%list /\
  (forall s, In s (map fst (c_consts c) ++ map fst (c_pars c))%list -> ~ In s reserved) /\ ~ ends_in_digit "w" /\
  nget (fst (compiled c)) "w" = Some (NConst 7) /\ nget (fst (compiled c)) "c1" = Some (NPar 2) /\
  nget (fst (compiled c)) "f112" = Some (NGen (GCoef "f" 1 1 2)).
Proof.
  cbn zeta. split. { cbn. repeat (constructor; [cbn; intuition discriminate|]). constructor. }
  split. { cbn. intros s [<-|[<-|[<-|[]]]]; intuition discriminate. }
  split. { intros (a & d & E & D). destruct a as [|h a]; cbn in E; [injection E as <-; unfold digit in D; cbn in D; lia|]. injection E as _ E. destruct a; discriminate. }
  vm_compute. repeat split.
Qed.
(** and names do coincide: block (1, 11) and block (11, 1) of a large system *)
Example C167_same_name : let o := mkOp "f" 12 12 0 (fun _ _ => 0) in coef_name o 1 11 0 = coef_name o 11 1 0.
Proof. reflexivity. Qed.
Example C167_clash_ex : let c := mkC [("f0", 7)] [("a", 1)] [] 1 1 None 0 2 (fun _ _ => 0) (fun _ _ => 0) (fun _ => 1) false false in
  (0 < c_eqns c)%nat /\ has_fold c = false /\ In ("f0", 7) (c_consts c) /\ ~ In "f0" (map fst (c_pars c)) /\ nget (nexec [] (common c)) "f0" = Some (NConst 7).
Proof. cbn zeta. split; [cbn; lia|]. split; [reflexivity|]. split; [now left|]. split; [cbn; intuition discriminate|reflexivity]. Qed.
