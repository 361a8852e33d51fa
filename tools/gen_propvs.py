exec(open('/verif/tools/genprop.py').read())
items=[
("C46_cont_namespace_partial","cont_ctor_ns","C46: a new continuation state has in its namespace exactly the other keyword names, each once, with their last values; the other namespaces are untouched."),
("C46_sync_any_number_partial","sync_ns_spec","C46: what sync_ns removes for any number of parameters with distinct names: the k-th name goes exactly when all names up to the k-th are present."),
("C46_history_nodup","history_nodup","C46: in every history no namespace lists a name twice."),
("C46_history_synced_partial","history_synced","C46: in every history a state with one parameter does not list its parameter in the namespace, unless x[name] = value assigned that name."),
("C46_twopar_refuted","twopar_sync_refuted","C46: with two parameters a missing first name leaves a stale entry of the second, with its old value."),
("C46_items_dict","items_dict","C46: dict(x.items()) nevertheless has the current value of every parameter, and the namespace value of every other name."),
("C47_binary","st_binary_componentwise","C47: binary arithmetic is componentwise."),
("C47_unary","st_unary_componentwise","C47: so is arithmetic with a number."),
("C47_mismatch","st_binary_mismatch","C47: states of different type are rejected."),
("C47_dot","st_dot_spec","C47: dot and inner are the weighted sum over the components."),
("C47_dot_symmetric","st_dot_sym","C47: with the default weights the inner product is symmetric."),
("C47_dot_additive_partial","st_dot_add","C47: and additive."),
("C47_dot_weights_refuted","st_dot_weights_refuted","C47: with other weights it is not: the sum of two states forgets the weights."),
("C47_norm","st_norm_dot","C47: the norm is the square root of the inner product of the state with itself."),
("C47_normalize","st_normalize_spec","C47: normalize."),
("C47_real_partial","st_part_square","C47: numpy.real, imag and conj act componentwise if there are as many parameters as functions."),
("C47_real_refuted","st_part_refuted","C47: for deflation states and two-parameter continuation states they raise."),
("C47_innerw_refuted","st_innerw_refuted","C47: the weighted inner product of two states raises."),
("C47_flatten_from_coeffs_partial","flatten_round_trip","C47: from_coeffs(flatten(x)) has the parameters and the first function of x."),
("C47_from_coeffs_flatten","from_coeffs_flatten_trip","C47: flatten(from_coeffs(v)) = v."),
("C47_flatten_phi_refuted","flatten_phi_refuted","C47: the second function of a two-parameter state is lost."),
("C47_size_partial","st_size_cont","C47: size is the number of unknowns of a continuation state."),
("C47_size_refuted","st_size_refuted","C47: for deflation and two-parameter continuation states it is off by one."),
("C82_inplace","st_ibinary_componentwise","C82: when no function operation raises."),
("C82_atomic_refuted","iadd_not_atomic_refuted","C82: when the function domains differ the parameter is changed and then the exception comes."),
("C83_loop","for_loop_spec","C83: one loop."),
("C83_nested_partial","nested_loops_spec","C83: what two nested loops over the same object visit: the pairs (0, j) only."),
("C83_nested_refuted","nested_loops_refuted","C83: so some pair is missed as soon as there are two columns."),
("C84_deepcopy","deepcopy_independent","C84: a deep copy."),
("C84_deepcopy_content","deepcopy_content","C84: the copy has the parameters, the weights, the namespace (after syncing) and copies of the functions."),
("C84_const_like","const_like_independent","C84: zeros_like and ones_like start with an empty namespace of their own."),
("C84_arithmetic_refuted","shared_ns_refuted","C84: the result of an addition shares the namespace of its first operand."),
("C85_from_state_partial","from_state_items","C85: ContinuationState.from_state, when it returns."),
("C85_from_state_two_partial","from_state_two_names","C85: the two-parameter states."),
("C85_name_clash_refuted","from_state_name_clash_refuted","C85: a state with a parameter called a has no from_state."),
("C86_tangent","mp_binary_tangent","C86."),
("C87_fun_file","fun_file_round_trip","C87: functions."),
("C87_cont_file","cont_file_round_trip","C87: continuation states."),
]
hdr='''(** Properties of funpy/vectorspaces.  Vocabulary: VsSpec.v; the model with its
    heap of namespaces and its command histories is VsModel.v. *)
From Coq Require Import Reals List Arith Bool String Lra Lia ZArith.
From Verif Require Import Base ChebModel ChebObj VsModel FunModel FunProofs VsSpec VsProofs VsMore VsInner VsIo.
Import ListNotations.
Open Scope R_scope.
'''
ex='''
(** ** The hypotheses are met by concrete, non-trivial cases *)
(** A history over functions that are numbers: two states with namespaces, a
    sum, an in-place sum, an assignment, a copy, a change of parameter. *)
Definition ex_cmds : list (cmd R) :=
  [New Cont [mkPar "lam" 1] [2] None [("mu", 5); ("lam", 7); ("mu", 6)]%string;
   New Cont [mkPar "lam" 3] [4] None [("mu", 8)]%string;
   Binary 0 1; IBinary 0 1; SetItem 2 "nu" 9; Copy 2; FromState Cont 3 [mkPar "mu" 1]]%string.
Definition ex_run := run Rplus (fun a b => Some (a + b)) (Rmult 2) (fun a => Some (2 * a)) (fun a => Some a) (fun _ => Some 0) ex_cmds.
Example ex_history :
  map (fun x => map fst (items (w_heap ex_run) x)) (w_states ex_run) =
  [["mu"; "nu"; "lam"]; ["mu"; "lam"]; ["mu"; "nu"; "lam"]; ["mu"; "nu"; "lam"]; ["nu"; "lam"; "mu"]]%string /\\
  (forall i v, ~ In (SetItem i "lam" v) ex_cmds)%string.
Proof.
  split; [reflexivity|]. intros i v H. repeat (destruct H as [H|H]; [discriminate|]). destruct H.
Qed.
Example ex_names : names_ok TwoPar [mkPar "a" 1; mkPar "b" 2] = true.
Proof. reflexivity. Qed.
(** numbers with the product are an inner product space *)
Example ex_ip : (forall f g k r : R, Some (f + g) = Some r -> r * k = f * k + g * k) /\\
  (forall f c r : R, c <> 0 -> Some (f / c) = Some r -> r * r = f * f / (c * c)) /\\
  st_norm (fun f : R => Some (f * f)) (mkSt Cont [mkPar "a" 3] [4] [1; 1] 0%nat) = Some (sqrt (1 * (4 * 4) + 0 + (1 * (3 * 3) + 0))) /\\
  default_weights (mkSt Cont [mkPar "a" 3] [4] [1; 1] 0%nat).
Proof.
  split; [intros f g k r [= <-]; ring|]. split; [intros f c r Hc [= <-]; field; exact Hc|]. split; reflexivity.
Qed.
(** a well-formed continuation state in a heap *)
Definition ex_st : state Fun := mkSt Cont [mkPar "lam" 2] [mkFun (mkCheb [[1; 2]; [3; 4]] eps_default 1 maxLength_default true) 0 1] [1; 1] 0%nat.
Definition ex_heap : heap := [[("mu"%string, 5)]].
Example ex_st_ok : st_ok ex_st /\\ nodup_heap ex_heap /\\ (s_ns ex_st < List.length ex_heap)%nat /\\ ~ In "lam"%string (keys ex_heap ex_st).
Proof.
  split; [|split; [|split; [cbn; lia|]]].
  - split; [reflexivity|]. split; [reflexivity|]. split; [reflexivity|]. apply Forall_cons; [|apply Forall_nil].
    split; [exists 2%nat; repeat split; cbn; try lia; try discriminate; repeat constructor|cbn; lra].
  - intros [|[|a]]; cbn; repeat constructor; intros [].
  - cbn. intros [H|[]]. discriminate.
Qed.
Example ex_from_state : exists h' y, from_state fun_deepcopy fun_zeros_like ex_heap Cont ex_st [mkPar "mu" 7] = Some (h', y).
Proof.
  unfold from_state. cbn [s_funcs ex_st]. replace (existsb _ _) with false by reflexivity.
  destruct ex_st_ok as [(_ & _ & _ & W) _]. cbn [s_funcs ex_st] in W. apply Forall_cons_iff in W. destruct W as [W _].
  unfold fun_deepcopy, deepcopy. destruct (wrap_init_same _ (eps (onefun (mkFun (mkCheb [[1; 2]; [3; 4]] eps_default 1 maxLength_default true) 0 1)))
    (eps (onefun (mkFun (mkCheb [[1; 2]; [3; 4]] eps_default 1 maxLength_default true) 0 1))) maxLength_default true W) as (g & G & _).
  cbn [eps onefun maxLength ishappy] in *. rewrite G. eexists. eexists. reflexivity.
Qed.
'''
gen('PropVs.v',hdr,items,ex)
