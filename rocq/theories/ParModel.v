(** Which parameter values an operator computes with: colloc/chebOp.py compile, discretize, __call__, residual and the
    parameter handling of colloc/LinSysBase.py and LinSys.py. *)
From Coq Require Import String List Reals Arith Bool.
From Verif Require Import Base ChebModel VsModel.
Import ListNotations.
Open Scope R_scope.

(** The argument of an operator: a state, through its items() and update_items() (base_state.py 185-194), or a plain
    function, which has neither (AttributeError, caught). *)
Inductive arg := AState (its upd : list (string * R)) | AFun.
(** the argument made of a state of VsModel *)
Definition arg_of {F} (h : heap) (x : state F) : arg := AState (items h x) (map (fun p => (pname p, pval p)) (s_reals x)).
(** a dict used as argument (chebOp.py 282: setParameters(self.parameter_names)) has items() only *)
Definition assign (d : nspace) (l : list (string * R)) : nspace := fold_left (fun d kv => ns_set d (fst kv) (snd kv)) l d.
(** LinSysBase.py 47-54, setParameters *)
Definition set_parameters (d : nspace) (u : arg) : nspace := match u with AState its _ => assign d its | AFun => d end.
(** LinSysBase.py 38-45, setParametersPartial *)
Definition set_partial (d : nspace) (u : arg) : nspace := match u with AState _ upd => assign d upd | AFun => d end.
(** LinSys.py 141-145 and 162-165: the parameters in force when the residual is computed by update_partial(u), resp. update(u) *)
Definition update_partial (d : nspace) (u : arg) : nspace := set_partial d u.
Definition update (d : nspace) (u : arg) : nspace := update_partial (set_parameters d u) u.

(** An operator: its attribute parameter_names, whether cpar is non-empty, the parameters in the namespace of the compiled
    system (if compiled) and par_set.  Simplified: the namespace holds parameters only. *)
Record pop := mkPop { op_pars : nspace; op_cpar : bool; op_ns : option nspace; op_parset : bool }.
Definition pop_new (pars : nspace) (cpar : bool) : pop := mkPop pars cpar None false.
(** chebOp.py 251-286, compile: a new system gets the values of parameter_names *)
Definition p_compile (par : bool) (o : pop) : pop :=
  if (match op_ns o with Some _ => true | None => false end) && (op_parset o || Bool.eqb par (op_parset o)) then o
  else mkPop (op_pars o) (op_cpar o) (Some (assign [] (op_pars o))) par.
(** chebOp.py 434-451 and 418-422, discretize(u): compile, then quasi(u), which calls update(u) (LinSys.py 47-49) *)
Definition p_discretize (u : arg) (o : pop) : pop :=
  let o1 := p_compile (op_cpar o) o in
  mkPop (op_pars o1) (op_cpar o1) (option_map (fun d => update d u) (op_ns o1)) (op_parset o1).
(** chebOp.py 394-397, __call__, and 400-401, residual: update_partial(u); nothing if not compiled (AttributeError) *)
Definition p_call (u : arg) (o : pop) : pop := mkPop (op_pars o) (op_cpar o) (option_map (fun d => update_partial d u) (op_ns o)) (op_parset o).
(** op.parameter_names[k] = v *)
Definition p_edit (k : string) (v : R) (o : pop) : pop := mkPop (ns_set (op_pars o) k v) (op_cpar o) (op_ns o) (op_parset o).
Inductive pcmd := PCompile (par : bool) | PDisc (u : arg) | PCall (u : arg) | PEdit (k : string) (v : R).
Definition p_step (o : pop) (c : pcmd) : pop :=
  match c with PCompile par => p_compile par o | PDisc u => p_discretize u o | PCall u => p_call u o | PEdit k v => p_edit k v o end.
Definition p_run (o : pop) (h : list pcmd) : pop := fold_left p_step h o.
(** the value the compiled functions find under the name k *)
Definition p_used (o : pop) (k : string) : option R := match op_ns o with Some d => ns_get d k | None => None end.
