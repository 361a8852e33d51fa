(** The namespace into which an operator's generated functions are executed and
    from which its handles are looked up.  Read with /repo/funpy/colloc. *)
From Coq Require Import String Ascii Decimal DecimalString DecimalNat List Arith Lia.
Import ListNotations.
From Coq Require Import Bool.
Open Scope string_scope.

(** Python's "{:d}".format of a natural number. *)
Definition dec (n : nat) : string := NilEmpty.string_of_uint (Nat.to_uint n).

(** The functions the compiler emits, by what they compute: a coefficient of the
    block (i, j) of an operator for the derivative of order k, the factor and the
    integrand of its t-th integral term, its information, a component of a vector
    function (residual, its derivatives, ...), a boundary condition. *)
Inductive gfun :=
  | GCoef (op : string) (i j k : nat)
  | GFactor (op : string) (i j t : nat)
  | GIntegrand (op : string) (i j t : nat)
  | GInfo (op : string) (i j : nat)
  | GComp (vec : string) (i : nat)
  | GBc (i : nat).
(** What a name in the namespace can be bound to. *)
Inductive nval :=
  | NLib (name : string)     (* what the imports bind: np, asfun, ones, ... *)
  | NX                       (* the coordinate function of the domain *)
  | NDomain | NPrintPars
  | NConst (code : nat)      (* a constant function given by the user *)
  | NPar (value : nat)       (* the current value of a parameter *)
  | NGen (g : gfun).

(** vectorspaces/namespace.py 5: a dict. *)
Definition nspace := list (string * nval).
Fixpoint nget (ns : nspace) (s : string) : option nval :=
  match ns with [] => None | (k, v) :: r => if String.eqb k s then Some v else nget r s end.
Definition nset (ns : nspace) (s : string) (v : nval) : nspace := (s, v) :: ns.
(** exec of assignments and of function definitions, one after another
    (source/support.py, execute_pycode). *)
Definition nexec (ns : nspace) (code : list (string * nval)) : nspace :=
  fold_left (fun n p => nset n (fst p) (snd p)) code ns.

(** What is compiled of an operator matrix: its name, its shape, the highest
    order of derivative and the number of integral terms of each block
    (compiler.py 482-555, linearize). *)
Record opsrc := mkOp { o_name : string; o_rows : nat; o_cols : nat; o_order : nat; o_ints : nat -> nat -> nat }.
(** DiffOperatorSource.py 45-56, IntegralOperatorSource.py 44-72 and
    OperatorSourceBlock.py 74-108: the functions of one block and their names. *)
Definition coef_name (o : opsrc) (i j k : nat) : string := o_name o ++ dec i ++ dec j ++ dec k.
Definition factor_name (o : opsrc) (i j t : nat) : string := o_name o ++ dec i ++ dec j ++ "ic" ++ dec t.
Definition integrand_name (o : opsrc) (i j t : nat) : string := o_name o ++ dec i ++ dec j ++ "ii" ++ dec t.
Definition info_name (o : opsrc) (i j : nat) : string := o_name o ++ "info" ++ dec i ++ dec j.
Definition emit_block (o : opsrc) (i j : nat) : list (string * nval) :=
  map (fun k => (coef_name o i j k, NGen (GCoef (o_name o) i j k))) (seq 0 (S (o_order o)))
  ++ flat_map (fun t => [(factor_name o i j t, NGen (GFactor (o_name o) i j t)); (integrand_name o i j t, NGen (GIntegrand (o_name o) i j t))]) (seq 0 (o_ints o i j))
  ++ [(info_name o i j, NGen (GInfo (o_name o) i j))].

(** linBlock.py 52-84, LinBlock.build: the handles of one block. *)
Record blockh := mkB { h_coef : list (option nval); h_info : option nval; h_factor : list (option nval); h_integrand : list (option nval) }.
Definition block_build (ns : nspace) (o : opsrc) (i j : nat) : blockh :=
  mkB (map (fun k => nget ns (coef_name o i j k)) (seq 0 (S (o_order o))))
      (nget ns (info_name o i j))
      (map (fun t => nget ns (factor_name o i j t)) (seq 0 (o_ints o i j)))
      (map (fun t => nget ns (integrand_name o i j t)) (seq 0 (o_ints o i j))).
(** linOp.py 18-36, LinOp.build: block by block, execute and look up. *)
Definition linop_build (ns : nspace) (o : opsrc) : nspace * list blockh :=
  fold_left (fun st p => let ns' := nexec (fst st) (emit_block o (fst p) (snd p)) in (ns', (snd st ++ [block_build ns' o (fst p) (snd p)])%list))
    (list_prod (seq 0 (o_rows o)) (seq 0 (o_cols o))) (ns, []).

(** NonlinearOperatorSource.py 44-49, NonlinearVectorFunctionSource.py 43-54. *)
Definition comp_name (name : string) (i : nat) : string := name ++ dec i.
Definition emit_vec (name : string) (n : nat) : list (string * nval) :=
  map (fun i => (comp_name name i, NGen (GComp name i))) (seq 0 n).
(** rhs.py 30-47, Residual.build; linearFunctional.py 49-67 and bilinearForm the same. *)
Definition vec_build (ns : nspace) (name : string) (n : nat) : nspace * list (option nval) :=
  let ns' := nexec ns (emit_vec name n) in (ns', map (fun i => nget ns' (comp_name name i)) (seq 0 n)).
(** linearFunctional.py 31-47 and pDerivative.py 23-40: one vector function for
    each parameter. *)
Definition dict_build (ns : nspace) (name : string) (pars : list string) (n : string -> nat) : nspace * list (list (option nval)) :=
  fold_left (fun st p => let r := vec_build (fst st) (name ++ "_" ++ p) (n p) in (fst r, (snd st ++ [snd r])%list)) pars (ns, []).
(** BoundaryConditionsSource.py 22-39. *)
Definition bc_name (i : nat) : string := "bc" ++ dec i.
Definition emit_bcs (n : nat) : list (string * nval) := map (fun i => (bc_name i, NGen (GBc i))) (seq 0 n).

(** What the user gives: constant functions, parameters, continuation
    parameters, equations, constraints and boundary conditions, and whether the
    derivatives in the parameters are compiled (compile(par=True, fold=True)). *)
Record csrc := mkC {
  c_consts : list (string * nat); c_pars : list (string * nat); c_cpars : list string;
  c_funs : nat; c_eqns : nat; c_cts : option nat; c_bcs : nat; c_order : nat;
  c_ints : nat -> nat -> nat; c_cints : nat -> nat -> nat;
  c_dpn : string -> nat;   (* components of the derivative in a parameter: those of the equations, or of the constraints if the equations do not have it (compiler.py 460-465) *)
  c_par : bool; c_fold : bool }.
(** LinSys.py 92: src.deqn is compiled if fold is asked for and there are
    continuation parameters (compiler.py 204-210). *)
Definition has_fold (c : csrc) : bool := c_par c && c_fold c && negb (Nat.eqb (length (c_cpars c)) 0).
Definition lin_src (c : csrc) : opsrc := mkOp "f" (c_eqns c) (c_funs c) (c_order c) (c_ints c).
Definition cts_src (c : csrc) (m : nat) : opsrc := mkOp "c" m (c_funs c) (c_order c) (c_cints c).

(** compiler.py 577-645: the names the emitted programs use of what is imported,
    then the domain, x, the constant functions and print_pars. *)
Definition lib_names : list string := ["numpy"; "scipy"; "np"; "fp"; "array"; "pi"; "Fun"; "asfun"; "ones"; "zeros"].
Definition common (c : csrc) : list (string * nval) :=
  (map (fun s => (s, NLib s)) lib_names ++ [("domain", NDomain); ("x", NX)]
  ++ map (fun p => (fst p, NConst (snd p))) (c_consts c) ++ [("print_pars", NPrintPars)])%list.

Record syshandles := mkH {
  s_lin : list blockh; s_rhs : list (option nval);
  s_df : list (option nval); s_ddx : list (option nval); s_dxdp : list (list (option nval)); s_ddx_adj : list (option nval);
  s_dp : list (list (option nval));
  s_clin : list blockh; s_crhs : list (option nval); s_bcs : list (option nval) }.
(** LinSys.py 79-139, LinSys.build. *)
Definition sys_build (c : csrc) : nspace * syshandles :=
  let n0 := nexec [] (common c) in
  let r1 := linop_build n0 (lin_src c) in
  let r2 := vec_build (fst r1) "f" (c_eqns c) in
  let r3 := if has_fold c then vec_build (fst r2) "df" (c_eqns c) else (fst r2, []) in
  let r4 := if has_fold c then vec_build (fst r3) "ddf" (c_funs c) else (fst r3, []) in
  let r5 := if has_fold c then dict_build (fst r4) "dxdp" (c_cpars c) (fun _ => c_eqns c) else (fst r4, []) in
  let r6 := if has_fold c then vec_build (fst r5) "dd_adjf" (c_funs c) else (fst r5, []) in
  let r7 := if c_par c then dict_build (fst r6) "dp" (c_cpars c) (c_dpn c) else (fst r6, []) in
  let r8 := match c_cts c with Some m => linop_build (fst r7) (cts_src c m) | None => (fst r7, []) end in
  let r9 := match c_cts c with Some m => vec_build (fst r8) "c" m | None => (fst r8, []) end in
  let nb := nexec (fst r9) (emit_bcs (c_bcs c)) in
  (nb, mkH (snd r1) (snd r2) (snd r3) (snd r4) (snd r5) (snd r6) (snd r7) (snd r8) (snd r9)
        (map (fun i => nget nb (bc_name i)) (seq 0 (c_bcs c)))).
(** LinSysBase.py 48-55, setParameters; chebOp.py 279-283: after the build, the parameters. *)
Definition set_pars (ns : nspace) (ps : list (string * nat)) : nspace := nexec ns (map (fun p => (fst p, NPar (snd p))) ps).
Definition compiled (c : csrc) : nspace * syshandles := let r := sys_build c in (set_pars (fst r) (c_pars c), snd r).

(** The names of all the generated functions. *)
Definition block_names (o : opsrc) : list string :=
  flat_map (fun p => map fst (emit_block o (fst p) (snd p))) (list_prod (seq 0 (o_rows o)) (seq 0 (o_cols o))).
Definition gen_names (c : csrc) : list string :=
  (block_names (lin_src c) ++ map (comp_name "f") (seq 0 (c_eqns c))
  ++ (if has_fold c then map (comp_name "df") (seq 0 (c_eqns c)) ++ map (comp_name "ddf") (seq 0 (c_funs c))
        ++ flat_map (fun p => map (comp_name ("dxdp" ++ "_" ++ p)) (seq 0 (c_eqns c))) (c_cpars c)
        ++ map (comp_name "dd_adjf") (seq 0 (c_funs c)) else [])
  ++ (if c_par c then flat_map (fun p => map (comp_name ("dp" ++ "_" ++ p)) (seq 0 (c_dpn c p))) (c_cpars c) else [])
  ++ match c_cts c with Some m => block_names (cts_src c m) ++ map (comp_name "c") (seq 0 m) | None => [] end
  ++ map bc_name (seq 0 (c_bcs c)))%list.
