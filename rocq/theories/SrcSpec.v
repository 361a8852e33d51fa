(** Meaning of the symbolic expressions: functions of the space variable. *)
From Coq Require Import Reals List Arith Bool.
From Coquelicot Require Import Coquelicot.
From Verif Require Import Base SrcModel.
Import ListNotations.
Open Scope R_scope.

(** values of the symbols: parameters, constant functions, unknowns, perturbations (by level), increment *)
Record env := mkEnv { e_par : nat -> R; e_cf : nat -> R -> R; e_fun : nat -> R -> R; e_pert : nat -> nat -> R -> R; e_eps : R }.
Definition den_fn1 (f : fn1) : R -> R := match f with FSin => sin | FCos => cos | FExp => exp end.
Fixpoint den (E : env) (s : sexp) (x : R) : R :=
  match s with
  | SNum r => r
  | SX => x
  | SPar p => e_par E p
  | SCFun j k => Derive_n (e_cf E j) k x
  | SFun j k => Derive_n (e_fun E j) k x
  | SPert l j k => Derive_n (e_pert E l j) k x
  | SEps => e_eps E
  | SAdd a b => den E a x + den E b x
  | SMul a b => den E a x * den E b x
  | SPow a n => den E a x ^ n
  | SInv a => / den E a x
  | SApp f a => den_fn1 f (den E a x)
  | SD a => Derive (den E a) x
  end.
Definition smooth (f : R -> R) : Prop := forall k x, ex_derive_n f k x.
Definition smoothE (E : env) : Prop := (forall j, smooth (e_cf E j)) /\ (forall j, smooth (e_fun E j)) /\ (forall l j, smooth (e_pert E l j)).
(** no division by zero for x in (a,b) *)
Fixpoint defined (E : env) (a b : R) (s : sexp) : Prop :=
  match s with
  | SAdd p q | SMul p q => defined E a b p /\ defined E a b q
  | SPow p _ | SApp _ p | SD p => defined E a b p
  | SInv p => defined E a b p /\ forall x, a < x < b -> den E p x <> 0
  | _ => True
  end.
(** what a user can write: unknowns with index below nf, no increment, no perturbations *)
Fixpoint user (nf : nat) (s : sexp) : Prop :=
  match s with
  | SFun j _ => (j < nf)%nat
  | SPert _ _ _ | SEps => False
  | SAdd p q | SMul p q => user nf p /\ user nf q
  | SPow p _ | SApp _ p | SD p | SInv p => user nf p
  | _ => True
  end.
(** the unknowns moved by t in direction v; the parameter p set to q *)
Definition move (E : env) (v : nat -> R -> R) (t : R) : env := mkEnv (e_par E) (e_cf E) (fun j y => e_fun E j y + t * v j y) (e_pert E) (e_eps E).
Definition set_par (E : env) (p : nat) (q : R) : env := mkEnv (fun i => if Nat.eqb i p then q else e_par E i) (e_cf E) (e_fun E) (e_pert E) (e_eps E).
