(** Properties of funpy/vectorspaces.  Vocabulary: VsSpec.v; the model with its
    heap of namespaces and its command histories is VsModel.v. *)
From Coq Require Import Reals List Arith Bool String Lra Lia ZArith.
From Verif Require Import Base ChebModel ChebObj VsModel FunModel FunProofs VsSpec VsProofs VsMore VsInner VsIo.
Import ListNotations.
Open Scope R_scope.

(** C46: a new continuation state has in its namespace exactly the other keyword names, each once, with their last values; the other namespaces are untouched. *)
Theorem C46_cont_namespace_partial :
  forall F h p (fs : list F) w kw h' x,
  ctor h Cont [p] fs w None kw = Some (h', x) ->
  NoDup (keys h' x) /\
  (forall q, In q (keys h' x) <-> In q (map fst kw) /\ q <> pname p) /\
  (forall q, q <> pname p -> ns_get (hget h' (s_ns x)) q = ns_get (rev kw) q) /\
  (forall a, (a < List.length h)%nat -> hget h' a = hget h a).
Proof. exact cont_ctor_ns. Qed.
Print Assumptions C46_cont_namespace_partial.

(** C46: what sync_ns removes for any number of parameters with distinct names: the k-th name goes exactly when all names up to the k-th are present. *)
Theorem C46_sync_any_number_partial :
  forall F h (x : state F) q,
  (s_ns x < List.length h)%nat -> NoDup (keys h x) -> NoDup (map pname (s_reals x)) ->
  (In q (keys (sync_ns h x) x) <->
   In q (keys h x) /\
   ~ (exists k, (k < List.length (s_reals x))%nat /\ nth k (map pname (s_reals x)) EmptyString = q /\
        forall j, (j <= k)%nat -> In (nth j (map pname (s_reals x)) EmptyString) (keys h x))).
Proof. exact sync_ns_spec. Qed.
Print Assumptions C46_sync_any_number_partial.

(** C46: in every history no namespace lists a name twice. *)
Theorem C46_history_nodup :
  forall F rop fop rsc fsc fcopy fzero (cs : list (cmd F)) x,
  In x (w_states (run rop fop rsc fsc fcopy fzero cs)) ->
  NoDup (keys (w_heap (run rop fop rsc fsc fcopy fzero cs)) x).
Proof. exact history_nodup. Qed.
Print Assumptions C46_history_nodup.

(** C46: in every history a state with one parameter does not list its parameter in the namespace, unless x[name] = value assigned that name. *)
Theorem C46_history_synced_partial :
  forall F rop fop rsc fsc fcopy fzero (cs : list (cmd F)) x p,
  In x (w_states (run rop fop rsc fsc fcopy fzero cs)) -> s_reals x = [p] ->
  (forall i v, ~ In (SetItem i (pname p) v) cs) ->
  ~ In (pname p) (keys (w_heap (run rop fop rsc fsc fcopy fzero cs)) x).
Proof. exact history_synced. Qed.
Print Assumptions C46_history_synced_partial.

(** C46: with two parameters a missing first name leaves a stale entry of the second, with its old value. *)
Theorem C46_twopar_refuted :
  exists h (x : state R), ctor [] TwoParCont [mkPar "a" 1; mkPar "b" 2] [0] None None [("b"%string, 5)] = Some (h, x) /\
    In "b"%string (keys h x) /\ items h x = [("b", 5); ("a", 1); ("b", 2)]%string.
Proof. exact twopar_sync_refuted. Qed.
Print Assumptions C46_twopar_refuted.

(** C46: dict(x.items()) nevertheless has the current value of every parameter, and the namespace value of every other name. *)
Theorem C46_items_dict :
  forall F h (x : state F), NoDup (map pname (s_reals x)) ->
  (forall p, In p (s_reals x) -> ns_get (dict_of (items h x)) (pname p) = Some (pval p)) /\
  (NoDup (keys h x) -> forall q, ~ In q (map pname (s_reals x)) -> ns_get (dict_of (items h x)) q = ns_get (hget h (s_ns x)) q).
Proof. exact items_dict. Qed.
Print Assumptions C46_items_dict.

(** C47: binary arithmetic is componentwise. *)
Theorem C47_binary :
  forall F (d : F) rop fop h (x y : state F),
  s_kind x = s_kind y -> names_ok (s_kind x) (s_reals x) = true ->
  List.length (s_reals x) = List.length (s_reals y) -> List.length (s_funcs x) = List.length (s_funcs y) ->
  (forall i, (i < List.length (s_funcs x))%nat -> fop (nth i (s_funcs x) d) (nth i (s_funcs y) d) <> None) ->
  exists h' z, st_binary rop fop h x y = Some (h', z) /\ s_kind z = s_kind x /\
    List.length (s_reals z) = List.length (s_reals x) /\ List.length (s_funcs z) = List.length (s_funcs x) /\
    (forall i, (i < List.length (s_reals x))%nat ->
       nth i (s_reals z) dpar = mkPar (pname (nth i (s_reals x) dpar)) (rop (pval (nth i (s_reals x) dpar)) (pval (nth i (s_reals y) dpar)))) /\
    (forall i, (i < List.length (s_funcs x))%nat ->
       fop (nth i (s_funcs x) d) (nth i (s_funcs y) d) = Some (nth i (s_funcs z) d)).
Proof. exact st_binary_componentwise. Qed.
Print Assumptions C47_binary.

(** C47: so is arithmetic with a number. *)
Theorem C47_unary :
  forall F (d : F) rop fop h (x : state F),
  names_ok (s_kind x) (s_reals x) = true ->
  (forall i, (i < List.length (s_funcs x))%nat -> fop (nth i (s_funcs x) d) <> None) ->
  exists h' z, st_unary rop fop h x = Some (h', z) /\ s_kind z = s_kind x /\
    List.length (s_reals z) = List.length (s_reals x) /\ List.length (s_funcs z) = List.length (s_funcs x) /\
    (forall i, (i < List.length (s_reals x))%nat ->
       nth i (s_reals z) dpar = mkPar (pname (nth i (s_reals x) dpar)) (rop (pval (nth i (s_reals x) dpar)))) /\
    (forall i, (i < List.length (s_funcs x))%nat -> fop (nth i (s_funcs x) d) = Some (nth i (s_funcs z) d)).
Proof. exact st_unary_componentwise. Qed.
Print Assumptions C47_unary.

(** C47: states of different type are rejected. *)
Theorem C47_mismatch :
  forall F rop fop h (x y : state F), s_kind x <> s_kind y -> st_binary rop fop h x y = None.
Proof. exact st_binary_mismatch. Qed.
Print Assumptions C47_mismatch.

(** C47: dot and inner are the weighted sum over the components. *)
Theorem C47_dot :
  forall F (d : F) ip (x y : state F),
  List.length (s_funcs x) = List.length (s_funcs y) -> List.length (s_reals x) = List.length (s_reals y) ->
  List.length (s_weights x) = (List.length (s_funcs x) + List.length (s_reals x))%nat ->
  st_dot (fun f g => Some (ip f g)) x y =
    Some (rsum (List.length (s_funcs x)) (fun i => nth i (s_weights x) 0 * ip (nth i (s_funcs x) d) (nth i (s_funcs y) d))
        + rsum (List.length (s_reals x)) (fun i => nth (List.length (s_funcs x) + i) (s_weights x) 0 *
             (pval (nth i (s_reals x) dpar) * pval (nth i (s_reals y) dpar)))).
Proof. exact st_dot_spec. Qed.
Print Assumptions C47_dot.

(** C47: with the default weights the inner product is symmetric. *)
Theorem C47_dot_symmetric :
  forall F (d : F) ip (x y : state F), same_shape x y -> default_weights x -> default_weights y ->
  (forall f g, ip f g = ip g f) ->
  st_dot (fun f g => Some (ip f g)) x y = st_dot (fun f g => Some (ip f g)) y x.
Proof. exact st_dot_sym. Qed.
Print Assumptions C47_dot_symmetric.

(** C47: and additive. *)
Theorem C47_dot_additive_partial :
  forall F (d : F) ip fop h (x y z s : state F) h' a b,
  same_shape x y -> same_shape x z -> default_weights x -> default_weights y ->
  (List.length (s_funcs x) + List.length (s_reals x) = sig_len (s_kind x))%nat ->
  (forall f g k r, fop f g = Some r -> ip r k = ip f k + ip g k) ->
  st_binary Rplus fop h x y = Some (h', s) ->
  st_dot (fun f g => Some (ip f g)) x z = Some a -> st_dot (fun f g => Some (ip f g)) y z = Some b ->
  st_dot (fun f g => Some (ip f g)) s z = Some (a + b).
Proof. exact st_dot_add. Qed.
Print Assumptions C47_dot_additive_partial.

(** C47: with other weights it is not: the sum of two states forgets the weights. *)
Theorem C47_dot_weights_refuted :
  exists (x y s : state R) h h' a b c,
    s_weights x = [2; 2] /\ s_weights y = [2; 2] /\
    st_binary Rplus (fun f g => Some (f + g)) h x y = Some (h', s) /\
    st_dot (fun f g => Some (f * g)) x x = Some a /\ st_dot (fun f g => Some (f * g)) y x = Some b /\
    st_dot (fun f g => Some (f * g)) s x = Some c /\ c <> a + b.
Proof. exact st_dot_weights_refuted. Qed.
Print Assumptions C47_dot_weights_refuted.

(** C47: the norm is the square root of the inner product of the state with itself. *)
Theorem C47_norm :
  forall F ip (x : state F) v, st_dot (fun f g => Some (ip f g)) x x = Some v ->
  st_norm (fun f => Some (ip f f)) x = Some (sqrt v).
Proof. exact st_norm_dot. Qed.
Print Assumptions C47_norm.

(** C47: normalize. *)
Theorem C47_normalize :
  forall F ip fdiv (x : state F) v,
  st_norm (fun f => Some (ip f f)) x = Some v ->
  (forall f c r, c <> 0 -> fdiv f c = Some r -> ip r r = ip f f / (c * c)) ->
  (forall f c, c <> 0 -> fdiv f c <> None) ->
  exists y, st_normalize (fun f => Some (ip f f)) fdiv x = Some y /\
    s_kind y = s_kind x /\ s_weights y = s_weights x /\ s_ns y = s_ns x /\ map pname (s_reals y) = map pname (s_reals x) /\
    (/ 10 ^ 14 < v -> st_norm (fun f => Some (ip f f)) y = Some 1) /\
    (v <= / 10 ^ 14 -> y = x).
Proof. exact st_normalize_spec. Qed.
Print Assumptions C47_normalize.

(** C47: numpy.real, imag and conj act componentwise if there are as many parameters as functions. *)
Theorem C47_real_partial :
  forall F rop fop h (x : state F),
  List.length (s_reals x) = List.length (s_funcs x) ->
  st_part rop fop h x = st_unary rop fop h x.
Proof. exact st_part_square. Qed.
Print Assumptions C47_real_partial.

(** C47: for deflation states and two-parameter continuation states they raise. *)
Theorem C47_real_refuted :
  forall F rop fop h (x : state F),
  (s_kind x = Deflation \/ s_kind x = TwoParCont) ->
  List.length (s_reals x) = n_reals (s_kind x) -> List.length (s_funcs x) = n_funcs (s_kind x) ->
  st_part rop fop h x = None.
Proof. exact st_part_refuted. Qed.
Print Assumptions C47_real_refuted.

(** C47: the weighted inner product of two states raises. *)
Theorem C47_innerw_refuted :
  forall F (x y : state F), List.length (s_funcs x) = n_funcs (s_kind x) -> st_innerw x y = None.
Proof. exact st_innerw_refuted. Qed.
Print Assumptions C47_innerw_refuted.

(** C47: from_coeffs(flatten(x)) has the parameters and the first function of x. *)
Theorem C47_flatten_from_coeffs_partial :
  forall h x, st_ok x ->
  exists v h' y, st_flatten x = Some v /\
    let u := nth 0 (s_funcs x) nofun in
    st_from_coeffs h (s_kind x) v (map pname (s_reals x)) (fcols u) (dom0 u) (dom1 u) = Some (h', y) /\
    s_kind y = s_kind x /\ s_reals y = s_reals x /\
    coeffs (onefun (nth 0 (s_funcs y) nofun)) = coeffs (onefun u) /\ same_dom u (nth 0 (s_funcs y) nofun).
Proof. exact flatten_round_trip. Qed.
Print Assumptions C47_flatten_from_coeffs_partial.

(** C47: flatten(from_coeffs(v)) = v. *)
Theorem C47_from_coeffs_flatten :
  forall h k v names nf a b h' y,
  a < b -> (List.length names < List.length v)%nat ->
  st_from_coeffs h k v names nf a b = Some (h', y) -> st_flatten y = Some v /\ map pname (s_reals y) = names.
Proof. exact from_coeffs_flatten_trip. Qed.
Print Assumptions C47_from_coeffs_flatten.

(** C47: the second function of a two-parameter state is lost. *)
Theorem C47_flatten_phi_refuted :
  exists x v, st_ok x /\ st_flatten x = Some v /\
    forall h k names nf a b h' y, a < b -> st_from_coeffs h k v names nf a b = Some (h', y) ->
      s_kind y = TwoPar -> coeffs (onefun (nth 1 (s_funcs y) nofun)) <> coeffs (onefun (nth 1 (s_funcs x) nofun)).
Proof. exact flatten_phi_refuted. Qed.
Print Assumptions C47_flatten_phi_refuted.

(** C47: size is the number of unknowns of a continuation state. *)
Theorem C47_size_partial :
  forall x, st_ok x -> s_kind x = Cont -> st_size x = Some (List.length (st_array x)).
Proof. exact st_size_cont. Qed.
Print Assumptions C47_size_partial.

(** C47: for deflation and two-parameter continuation states it is off by one. *)
Theorem C47_size_refuted :
  forall x, st_ok x -> s_kind x = Deflation \/ s_kind x = TwoParCont ->
  st_size x <> Some (List.length (st_array x)).
Proof. exact st_size_refuted. Qed.
Print Assumptions C47_size_refuted.

(** C82: when no function operation raises. *)
Theorem C82_inplace :
  forall F (d : F) rop fop h (x y : state F),
  s_kind x = s_kind y ->
  List.length (s_reals x) = List.length (s_reals y) -> List.length (s_funcs x) = List.length (s_funcs y) ->
  (forall i, (i < List.length (s_funcs x))%nat -> fop (nth i (s_funcs x) d) (nth i (s_funcs y) d) <> None) ->
  exists h' z, st_ibinary rop fop h x y = (h', z, true) /\ s_kind z = s_kind x /\ s_weights z = s_weights x /\ s_ns z = s_ns x /\
    List.length (s_reals z) = List.length (s_reals x) /\ List.length (s_funcs z) = List.length (s_funcs x) /\
    (forall i, (i < List.length (s_reals x))%nat ->
       nth i (s_reals z) dpar = mkPar (pname (nth i (s_reals x) dpar)) (rop (pval (nth i (s_reals x) dpar)) (pval (nth i (s_reals y) dpar)))) /\
    (forall i, (i < List.length (s_funcs x))%nat ->
       fop (nth i (s_funcs x) d) (nth i (s_funcs y) d) = Some (nth i (s_funcs z) d)).
Proof. exact st_ibinary_componentwise. Qed.
Print Assumptions C82_inplace.

(** C82: when the function domains differ the parameter is changed and then the exception comes. *)
Theorem C82_atomic_refuted :
  exists h (x y : state Fun) h' x', st_ibinary Rplus fun_add h x y = (h', x', false) /\
    fwf (nth 0 (s_funcs x) (mkFun (mkCheb [] 0 0 0 false) 0 0)) /\ fwf (nth 0 (s_funcs y) (mkFun (mkCheb [] 0 0 0 false) 0 0)) /\
    s_reals x' <> s_reals x /\ s_funcs x' = s_funcs x.
Proof. exact iadd_not_atomic_refuted. Qed.
Print Assumptions C82_atomic_refuted.

(** C83: one loop. *)
Theorem C83_loop :
  forall cols, for_loop cols = seq 0 cols.
Proof. exact for_loop_spec. Qed.
Print Assumptions C83_loop.

(** C83: what two nested loops over the same object visit: the pairs (0, j) only. *)
Theorem C83_nested_partial :
  forall cols fuel, (1 <= cols)%nat -> (2 <= fuel)%nat ->
  nested_loops cols fuel = map (fun j => (0%nat, j)) (seq 0 cols).
Proof. exact nested_loops_spec. Qed.
Print Assumptions C83_nested_partial.

(** C83: so some pair is missed as soon as there are two columns. *)
Theorem C83_nested_refuted :
  forall cols fuel, (2 <= cols)%nat ->
  exists i j, (i < cols)%nat /\ (j < cols)%nat /\ ~ In (i, j) (nested_loops cols fuel).
Proof. exact nested_loops_refuted. Qed.
Print Assumptions C83_nested_refuted.

(** C84: a deep copy. *)
Theorem C84_deepcopy :
  forall F fcopy h (x : state F) h1 y, nodup_heap h -> (s_ns x < List.length h)%nat ->
  st_deepcopy fcopy h x = Some (h1, y) ->
  items h1 x = items h x /\
  (forall q v, items (setitem h1 y q v) x = items h1 x) /\
  (forall q v, items (setitem h1 x q v) y = items h1 y).
Proof. exact deepcopy_independent. Qed.
Print Assumptions C84_deepcopy.

(** C84: the copy has the parameters, the weights, the namespace (after syncing) and copies of the functions. *)
Theorem C84_deepcopy_content :
  forall F fcopy h (x : state F) h1 y, (s_ns x < List.length h)%nat ->
  st_deepcopy fcopy h x = Some (h1, y) ->
  s_kind y = s_kind x /\ s_reals y = s_reals x /\ s_weights y = s_weights x /\ map_opt fcopy (s_funcs x) = Some (s_funcs y) /\
  hget h1 (s_ns y) = hget (sync_ns h x) (s_ns x).
Proof. exact deepcopy_content. Qed.
Print Assumptions C84_deepcopy_content.

(** C84: zeros_like and ones_like start with an empty namespace of their own. *)
Theorem C84_const_like :
  forall F c fc h (x : state F) h1 y, (s_ns x < List.length h)%nat ->
  st_const_like c fc h x = Some (h1, y) ->
  keys h1 y = [] /\ items h1 x = items h x /\ (forall q v, items (setitem h1 y q v) x = items h1 x).
Proof. exact const_like_independent. Qed.
Print Assumptions C84_const_like.

(** C84: the result of an addition shares the namespace of its first operand. *)
Theorem C84_arithmetic_refuted :
  exists h (x y z : state R) h1, st_binary Rplus (fun a b => Some (a + b)) h x y = Some (h1, z) /\
    items h1 x = items h x /\ items (setitem h1 z "p" 3) x <> items h1 x.
Proof. exact shared_ns_refuted. Qed.
Print Assumptions C84_arithmetic_refuted.

(** C85: ContinuationState.from_state, when it returns. *)
Theorem C85_from_state_partial :
  forall F fcopy fzero h (x : state F) p h' y,
  nodup_heap h -> (s_ns x < List.length h)%nat -> NoDup (map pname (s_reals x)) ->
  from_state fcopy fzero h Cont x [p] = Some (h', y) ->
  s_reals y = [p] /\
  (forall q, ns_get (dict_of (items h' y)) q = if String.eqb q (pname p) then Some (pval p) else ns_get (dict_of (items h x)) q) /\
  NoDup (map fst (items h' y)) /\ items h' x = items h x.
Proof. exact from_state_items. Qed.
Print Assumptions C85_from_state_partial.

(** C85: the two-parameter states. *)
Theorem C85_from_state_two_partial :
  forall F fcopy fzero h (x : state F) k p1 p2 h' y,
  nodup_heap h -> (s_ns x < List.length h)%nat -> (k = TwoParCont \/ k = TwoPar) ->
  from_state fcopy fzero h k x [p1; p2] = Some (h', y) ->
  pname p1 <> pname p2 /\ s_reals y = [p1; p2] /\
  ns_get (dict_of (items h' y)) (pname p1) = Some (pval p1) /\ ns_get (dict_of (items h' y)) (pname p2) = Some (pval p2).
Proof. exact from_state_two_names. Qed.
Print Assumptions C85_from_state_two_partial.

(** C85: a state with a parameter called a has no from_state. *)
Theorem C85_name_clash_refuted :
  exists h (x : state R), ctor [] Cont [mkPar "b" 1] [0] None None [("a"%string, 2)] = Some (h, x) /\
    forall fcopy fzero p, from_state fcopy fzero h Cont x [p] = None.
Proof. exact from_state_name_clash_refuted. Qed.
Print Assumptions C85_name_clash_refuted.

(** C86. *)
Theorem C86_tangent :
  forall F ip fop fdiv h (x y z : mp_state F) h',
  (forall f c r, c <> 0 -> fdiv f c = Some r -> ip r r = ip f f / (c * c)) ->
  (forall f c, c <> 0 -> fdiv f c <> None) ->
  mp_binary Rplus fop (fun f => Some (ip f f)) fdiv h x y = Some (h', z) ->
  (exists h1, st_binary Rplus fop h (mp_u x) (mp_u y) = Some (h1, mp_u z)) /\
  exists h1 s v, st_binary Rplus fop h1 (mp_v x) (mp_v y) = Some (h', s) /\
    st_norm (fun f => Some (ip f f)) s = Some v /\
    (/ 10 ^ 14 < v -> st_norm (fun f => Some (ip f f)) (mp_v z) = Some 1) /\
    (v <= / 10 ^ 14 -> mp_v z = s).
Proof. exact mp_binary_tangent. Qed.
Print Assumptions C86_tangent.

(** C87: functions. *)
Theorem C87_fun_file :
  forall f, fwf f ->
  exists g, fun_read (fun_write f) = Some g /\ coeffs (onefun g) = coeffs (onefun f) /\ eps (onefun g) = eps (onefun f) /\
    hscale (onefun g) = hscale (onefun f) /\ maxLength (onefun g) = maxLength (onefun f) /\
    (ishappy (onefun f) = true -> ishappy (onefun g) = true) /\ same_dom f g.
Proof. exact fun_file_round_trip. Qed.
Print Assumptions C87_fun_file.

(** C87: continuation states. *)
Theorem C87_cont_file :
  forall h x, st_ok x -> s_kind x = Cont -> nodup_heap h -> (s_ns x < List.length h)%nat ->
  ~ In (nth 0 (map pname (s_reals x)) EmptyString) (keys h x) ->
  exists h' y, cont_read h (st_write h x) = Some (h', y) /\
    s_kind y = Cont /\ s_reals y = s_reals x /\ s_weights y = s_weights x /\
    (forall q, ns_get (hget h' (s_ns y)) q = ns_get (hget h (s_ns x)) q) /\
    coeffs (onefun (nth 0 (s_funcs y) nofun)) = coeffs (onefun (nth 0 (s_funcs x) nofun)) /\
    same_dom (nth 0 (s_funcs x) nofun) (nth 0 (s_funcs y) nofun) /\ items h' x = items h x.
Proof. exact cont_file_round_trip. Qed.
Print Assumptions C87_cont_file.


(** ** The hypotheses are met by concrete, non-trivial cases *)
(** A history over functions that are numbers: two states with namespaces, a
    sum, an in-place sum, an assignment, a copy, a change of parameter. *)
Definition ex_cmds : list (cmd R) :=
  [New Cont [mkPar "lam" 1] [2] None [("mu", 5); ("lam", 7); ("mu", 6)]%string;
   New Cont [mkPar "lam" 3] [4] None [("mu", 8)]%string;
   Binary 0 1; IBinary 0 1; SetItem 2 "nu" 9; Copy 2; FromState Cont 3 [mkPar "mu" 1]]%string.
Definition ex_run := run Rplus (fun a b => Some (a + b)) (Rmult 2) (fun a => Some (2 * a)) (fun a => Some a) (fun _ => Some 0) ex_cmds.
Example ex_history :
  map (fun x => map fst (items (w_heap ex_run) x)) (w_states ex_run) =
  [["mu"; "nu"; "lam"]; ["mu"; "lam"]; ["mu"; "nu"; "lam"]; ["mu"; "nu"; "lam"]; ["nu"; "lam"; "mu"]]%string /\
  (forall i v, ~ In (SetItem i "lam" v) ex_cmds)%string.
Proof.
  split; [reflexivity|]. intros i v H. repeat (destruct H as [H|H]; [discriminate|]). destruct H.
Qed.
Example ex_names : names_ok TwoPar [mkPar "a" 1; mkPar "b" 2] = true.
Proof. reflexivity. Qed.
(** numbers with the product are an inner product space *)
Example ex_ip : (forall f g k r : R, Some (f + g) = Some r -> r * k = f * k + g * k) /\
  (forall f c r : R, c <> 0 -> Some (f / c) = Some r -> r * r = f * f / (c * c)) /\
  st_norm (fun f : R => Some (f * f)) (mkSt Cont [mkPar "a" 3] [4] [1; 1] 0%nat) = Some (sqrt (1 * (4 * 4) + 0 + (1 * (3 * 3) + 0))) /\
  default_weights (mkSt Cont [mkPar "a" 3] [4] [1; 1] 0%nat).
Proof.
  split; [intros f g k r [= <-]; ring|]. split; [intros f c r Hc [= <-]; field; exact Hc|]. split; reflexivity.
Qed.
(** a well-formed continuation state in a heap *)
Definition ex_st : state Fun := mkSt Cont [mkPar "lam" 2] [mkFun (mkCheb [[1; 2]; [3; 4]] eps_default 1 maxLength_default true) 0 1] [1; 1] 0%nat.
Definition ex_heap : heap := [[("mu"%string, 5)]].
Example ex_st_ok : st_ok ex_st /\ nodup_heap ex_heap /\ (s_ns ex_st < List.length ex_heap)%nat /\ ~ In "lam"%string (keys ex_heap ex_st).
Proof.
  split; [|split; [|split; [cbn; lia|]]].
  - split; [reflexivity|]. split; [reflexivity|]. split; [reflexivity|]. apply Forall_cons; [|apply Forall_nil].
    split; [exists 2%nat; repeat split; cbn; try lia; try discriminate; repeat constructor|cbn; lra].
  - intros [|[|a]]; cbn; repeat constructor; intros [].
  - cbn. intros [H|[]]. discriminate.
Qed.
Example ex_from_state : exists h' y, from_state fun_deepcopy fun_zeros_like ex_heap Cont ex_st [mkPar "mu" 7] = Some (h', y).
Proof.
  unfold from_state. cbn [s_funcs ex_st]. replace (existsb _ _) with false by reflexivity.
  destruct ex_st_ok as [(_ & _ & _ & W) _]. cbn [s_funcs ex_st] in W. apply Forall_cons_iff in W. destruct W as [W _].
  unfold fun_deepcopy, deepcopy. destruct (wrap_init_same _ (eps (onefun (mkFun (mkCheb [[1; 2]; [3; 4]] eps_default 1 maxLength_default true) 0 1)))
    (eps (onefun (mkFun (mkCheb [[1; 2]; [3; 4]] eps_default 1 maxLength_default true) 0 1))) maxLength_default true W) as (g & G & _).
  cbn [eps onefun maxLength ishappy] in *. rewrite G. eexists. eexists. reflexivity.
Qed.
