(** The life cycle of a ChebOp object (colloc/chebOp.py): construction, copying, compilation, discretisation size, saving. *)
From Coq Require Import String List Reals Arith Bool ZArith.
From Verif Require Import Base ChebModel.
Import ListNotations.
Open Scope R_scope.

(** the attributes set by __init__ (chebOp.py 90-156). Simplified: the values of constant functions are dropped (their names
    kept), proj is empty, run_debug is dropped, the compiled systems and the stored Newton solver are not attributes but part of [ostate] below;
    strings are lists of bytes. *)
Record attrs := mkA { a_functions : list string; a_cfuns : list string; a_ops : list string; a_kernels : list string; a_pars : list (string * R);
  a_colloc : string; a_domain : R * R; a_n : nat; a_nmin : nat; a_eqn : list string; a_cts : list string; a_bcs : list string; a_ftype : string; a_cpar : list string;
  a_eps : R; a_tol : R; a_order : nat; a_linear : bool; a_debug : bool; a_sdebug : bool }.

(** chebOp.py 114-115: the default of n_min *)
Definition nmin_default (ftype : string) : nat := if String.eqb ftype "cheb" then 1 else 9.
(** chebOp.py 131: the default of eps, 2e3 * np.finfo(float).eps *)
Definition eps_default : R := 2000 * / 2 ^ 52.
(** chebOp.py 225-249, __deepcopy__: operator= and n_disc= are not keywords of __init__ (it looks for operators and n), and
    n_min, eps, solver_debug are not passed *)
Definition deepcopy (o : attrs) : attrs :=
  mkA (a_functions o) (a_cfuns o) [] (a_kernels o) (a_pars o) (a_colloc o) (a_domain o) 15 (nmin_default (a_ftype o)) (a_eqn o) (a_cts o) (a_bcs o) (a_ftype o) (a_cpar o)
    eps_default (a_tol o) (a_order o) (a_linear o) (a_debug o) false.

(** ** compilation and size *)
(** what Source and LinSys were built from (chebOp.py 263-283), the requested extras, and the current size of the residual *)
Record csys := mkC { c_src : attrs; c_par : bool; c_fold : bool; c_bif : bool; c_n : nat }.
Record ostate := mkO { o_attrs : attrs; o_sys : option csys; o_par : bool }.
Definition fresh (a : attrs) : ostate := mkO a None false.
Definition with_eqn (a : attrs) (l : list string) : attrs :=
  mkA (a_functions a) (a_cfuns a) (a_ops a) (a_kernels a) (a_pars a) (a_colloc a) (a_domain a) (a_n a) (a_nmin a) l (a_cts a) (a_bcs a) (a_ftype a) (a_cpar a) (a_eps a) (a_tol a) (a_order a) (a_linear a) (a_debug a) (a_sdebug a).
Definition with_n (a : attrs) (n : nat) : attrs :=
  mkA (a_functions a) (a_cfuns a) (a_ops a) (a_kernels a) (a_pars a) (a_colloc a) (a_domain a) n (a_nmin a) (a_eqn a) (a_cts a) (a_bcs a) (a_ftype a) (a_cpar a) (a_eps a) (a_tol a) (a_order a) (a_linear a) (a_debug a) (a_sdebug a).
Definition set_sysn (s : option csys) (n : nat) : option csys := match s with Some c => Some (mkC (c_src c) (c_par c) (c_fold c) (c_bif c) n) | None => None end.
(** chebOp.py 251-287, compile(par, fold, bif): nothing happens if prepared and (par_set or par == par_set).
    Simplified: the update of the attribute diffOrder (line 275) is dropped, and so is discretize's self.ftype = u0.type (line 444). *)
Definition op_compile (par fold bif : bool) (o : ostate) : ostate :=
  if (match o_sys o with Some _ => true | None => false end) && (o_par o || Bool.eqb par (o_par o)) then o
  else mkO (o_attrs o) (Some (mkC (o_attrs o) par fold bif (a_n (o_attrs o)))) par.
(** chebOp.py 206-211, setDisc: the object gets max(n, n_min), the compiled system n *)
Definition op_setdisc (n : nat) (o : ostate) : ostate := mkO (with_n (o_attrs o) (Nat.max n (a_nmin (o_attrs o)))) (set_sysn (o_sys o) n) (o_par o).
(** chebOp.py 394-398, __call__(u): the compiled system is resized to u *)
Definition op_call (n : nat) (o : ostate) : ostate := mkO (o_attrs o) (set_sysn (o_sys o) n) (o_par o).
(** chebOp.py 417-451, discretize: compile with par = whether cpar is non-empty, then linSys.setDisc(n_disc) *)
Definition op_discretize (o : ostate) : ostate :=
  let o1 := op_compile (match a_cpar (o_attrs o) with [] => false | _ => true end) false false o in
  mkO (o_attrs o1) (set_sysn (o_sys o1) (a_n (o_attrs o1))) (o_par o1).
Inductive call := CSetEqn (l : list string) | CCompile (par fold bif : bool) | CSetDisc (n : nat) | CCall (n : nat) | CDisc.
Definition step (o : ostate) (c : call) : ostate :=
  match c with
  | CSetEqn l => mkO (with_eqn (o_attrs o) l) (o_sys o) (o_par o)
  | CCompile p f b => op_compile p f b o
  | CSetDisc n => op_setdisc n o
  | CCall n => op_call n o
  | CDisc => op_discretize o
  end.
Definition run (o : ostate) (h : list call) : ostate := fold_left step h o.
(** chebOp.py 400-408, residual(u), and rhs.py 44-53: the values whose norm is returned; F are the coefficients of the residual
    functions of the compiled equations at u. Without a compiled system the call raises. Simplified: no constraints. *)
Definition op_residual (F : list (list R)) (o : ostate) : option (list (list R)) := match o_sys o with Some c => Some (map (fun f => prolong1 f (Z.of_nat (c_n c))) F) | None => None end.

(** ** HDF5 *)
(** np.asarray(..., dtype=h5.string_dtype('utf-8', k)): fixed-length strings, silently cut to k bytes *)
Definition cut (k : nat) (s : string) : string := substring 0 k s.
(** the file written by chebOp.py 454-488; cpar[0] raises IndexError if there is none *)
Record h5 := mkH { h_functions : list string; h_cfuns : list string; h_ops : list string; h_kernels : list string; h_pars : list (string * R); h_colloc : string;
  h_eqn : list string; h_cts : list string; h_bcs : list string; h_debug : bool; h_sdebug : bool; h_n : nat; h_nmin : nat; h_ftype : string; h_cpar : string; h_domain : R * R; h_eps : R; h_tol : R; h_order : nat; h_linear : bool }.
Definition write_h5 (o : attrs) : option h5 :=
  match a_cpar o with
  | [] => None
  | p :: _ => Some (mkH (map (cut 30) (a_functions o)) (map (cut 30) (a_cfuns o)) (map (cut 30) (a_ops o)) (map (cut 30) (a_kernels o)) (a_pars o) (cut 30 (a_colloc o))
      (map (cut 250) (a_eqn o)) (map (cut 250) (a_cts o)) (map (cut 250) (a_bcs o)) (a_debug o) (a_sdebug o) (a_n o) (a_nmin o) (a_ftype o) p (a_domain o) (a_eps o) (a_tol o) (a_order o) (a_linear o))
  end.
(** chebOp.py 490-538, readHDF5 into the object o: names are appended; the loop over the operators appends the last function
    name; constant functions are not read. None: the loop variable fname is undefined, i.e. there are operators but no functions.
    Simplified: the strings colloc, cpar and ftype are read back as strings (h5py 2; newer versions give bytes); line 529 wraps
    colloc in a list, which the model drops, and colloc_type, which readHDF5 does not update, is not an attribute of the model. *)
Definition set_pars (p q : list (string * R)) : list (string * R) := fold_left (fun acc kv => filter (fun e => negb (String.eqb (fst e) (fst kv))) acc ++ [kv]) q p.
Definition read_h5 (h : h5) (o : attrs) : option attrs :=
  match h_ops h, rev (h_functions h) with
  | _ :: _, [] => None
  | ops, fs => Some (mkA (a_functions o ++ h_functions h) (a_cfuns o) (a_ops o ++ map (fun _ => hd EmptyString fs) ops) (a_kernels o ++ h_kernels h) (set_pars (a_pars o) (h_pars h)) (h_colloc h) (h_domain h) (h_n h) (h_nmin h)
      (a_eqn o ++ h_eqn h) (a_cts o ++ h_cts h) (a_bcs o ++ h_bcs h) (h_ftype h) [h_cpar h] (h_eps h) (h_tol h) (h_order h) (h_linear h) (h_debug h) (h_sdebug h))
  end.
(** ChebOp(), chebOp.py 90-156 without arguments *)
Definition blank : attrs := mkA [] [] [] [] [] "ultraS" (-1, 1) 15 1 [] [] [] "cheb" [] eps_default (/ 100 * eps_default) 2 false false false.
