(** Model of funpy/newton/newton_seeker.py: searching for several solutions, deflating the ones already known.
    Function objects live in a heap, since known_solutions keeps references to the objects the caller holds.
    Simplified: a state is identified with its function u; the Newton solver is a parameter (GIANT-GBIT is GbitModel.giant_gbit). *)
From Coq Require Import Reals List Arith Bool.
From Verif Require Import Base GbitModel.
Import ListNotations.

Section Seeker.
Variable X : Type.
Variable dflt : X.

(** what the solver returns: the contents of the returned state, success, iterations, and whether the returned state is
    the initial guess itself *)
Record outcome := { o_val : X; o_succ : bool; o_iter : nat; o_same : bool }.
(** the solver: its iteration limit, the known solutions, the initial guess; None if it raises *)
Variable run : nat -> list X -> X -> option outcome.

(** entries of known_solutions: a function, or a state whose function is the given object *)
Inductive kitem := KFun (l : nat) | KState (l : nat).
Record sk := { heap : list X; known : list kitem }.
Definition obj (s : sk) (l : nat) : X := nth l (heap s) dflt.
Fixpoint put (h : list X) (l : nat) (x : X) : list X :=
  match h, l with [], _ => [] | _ :: t, O => x :: t | y :: t, S m => y :: put t m x end.

Inductive method := MGiant | MNleq | MOther.
(** what happens to a seeker: the caller makes a function object, changes one in place, calls append with a state or with
    a list, calls solve *)
Inductive event :=
  | ENew (x : X) | EWrite (l : nat) (x : X) | EAppend (l : nat) | EAppendList (ks : list kitem)
  | ESolve (g : nat) (m : method) (miter : nat) (learn : bool).
(** what the caller sees; [given] are the known solutions the solver works with *)
Inductive reply := RNothing | RRaise | RSolved (given : list X) (ret : nat) (succ : bool) (iter : nat).

Definition is_state (k : kitem) : bool := match k with KState _ => true | KFun _ => false end.
Definition kloc (k : kitem) : nat := match k with KState l => l | KFun l => l end.

(** newton_seeker.py 35-75, solve.  GIANT-GBIT is called with the keyword miter, which it does not know (giant.py 17-23):
    the limit is its own max_iter = 50.  nleq_err returns six values, five are unpacked (line 59): ValueError.  A state among
    the known solutions: u.u - state is a TypeError (deflation.py 9-10).  The solution is stored by reference (line 71). *)
Definition sk_solve (s : sk) (g : nat) (m : method) (miter : nat) (learn : bool) : sk * reply :=
  match m with
  | MGiant =>
      if existsb is_state (known s) then (s, RRaise)
      else
        let given := map (fun k => obj s (kloc k)) (known s) in
        match run 50 given (obj s g) with
        | None => (s, RRaise)
        | Some o =>
            let ret := if o_same o then g else length (heap s) in
            let h := if o_same o then put (heap s) g (o_val o) else heap s ++ [o_val o] in
            let ks := if o_succ o && learn then known s ++ [KFun ret] else known s in
            ({| heap := h; known := ks |}, RSolved given ret (o_succ o) (o_iter o))
        end
  | _ => (s, RRaise)
  end.

(** newton_seeker.py 29-33, append: a list is taken as it is, of a state the function *)
Definition sk_step (s : sk) (e : event) : sk * reply :=
  match e with
  | ENew x => ({| heap := heap s ++ [x]; known := known s |}, RNothing)
  | EWrite l x => ({| heap := put (heap s) l x; known := known s |}, RNothing)
  | EAppend l => ({| heap := heap s; known := known s ++ [KFun l] |}, RNothing)
  | EAppendList ks => ({| heap := heap s; known := known s ++ ks |}, RNothing)
  | ESolve g m miter learn => sk_solve s g m miter learn
  end.
(** newton_seeker.py 15-27: no known solutions at the start *)
Definition sk_new : sk := {| heap := []; known := [] |}.
Fixpoint sk_steps (s : sk) (es : list event) : sk :=
  match es with [] => s | e :: t => sk_steps (fst (sk_step s e)) t end.
End Seeker.
Arguments o_val {X}. Arguments o_succ {X}. Arguments o_iter {X}. Arguments o_same {X}.
Arguments heap {X}. Arguments known {X}.
Arguments ENew {X}. Arguments EWrite {X}. Arguments EAppend {X}. Arguments EAppendList {X}. Arguments ESolve {X}.
Arguments RNothing {X}. Arguments RRaise {X}. Arguments RSolved {X}.

(** the outcome of a run of GIANT-GBIT.  During the first pass of the main loop x is the caller's object (giant.py 79-228):
    it is returned if the run ends there, that is with k = 0, or with success and k = 1 *)
Definition giant_outcome {X : Type} (r : gres X) : option (outcome X) :=
  match r with
  | GRet x succ k _ _ _ arg => Some {| o_val := x; o_succ := succ; o_iter := k; o_same := Nat.eqb k 0 || (succ && Nat.eqb k 1) |}
  | _ => None
  end.
