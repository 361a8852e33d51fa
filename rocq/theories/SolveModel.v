(** Model of ChebOp.solve (colloc/chebOp.py 319-392), the entry point for solving an equation. *)
From Coq Require Import Reals List Arith Bool.
From Verif Require Import Base AdaptModel.
Import ListNotations.
Open Scope nat_scope.

(** adapt.py 18-19: SolverAdaptive reads the keyword tol; chebOp.py 343 passes ntol, so that the default stays *)
Definition adapt_tol : R := (/ 10 ^ 8)%R.

(** the argument p: an integer, or a float such as np.inf *)
Inductive index := PInt (p : nat) | PFloat.

Section solve.
  (** [U]: functions, [S]: states; [mk u]: DeflationState(u=u, parameters), which copies u; [fn s]: s.u; [set_fn]: s with another u;
      [size s]: s.shape[0]; [prolong], [dist]: as in AdaptModel; [newton tol k n s]: as in AdaptModel, with the keyword tol of
      nw.solve (None: not given, newton.py 27-74 leaves the default of the solver); [residual n p u]: op.residual(u, p) with
      the compiled system at size n (chebOp.py 400-408); [simp u]: u.simplify(eps=2^-52), in place (fun.py 97-99). *)
  Context {U S : Type} (zero : U) (mk : U -> S) (fn : S -> U) (set_fn : S -> U -> S) (size : S -> nat)
    (prolong : nat -> S -> S) (dist : S -> S -> R) (newton : option R -> nat -> nat -> S -> S * S * bool)
    (residual : nat -> nat -> U -> R) (simp : U -> U).

  (** chebOp.py 335-336: f is None, a function or a state; it is where the iteration starts *)
  Inductive guess := GNone | GFun (u : U) | GState (s : S).
  Definition start (f : guess) : S := match f with GNone => mk zero | GFun u => mk u | GState s => s end.

  (** chebOp.py 342-351: the state found, the flag, the size of the compiled system afterwards, the size n_disc of the
      operator afterwards (setDisc, chebOp.py 206-211: at least n_min).  adapt.py: n_max 14, up_steps 12, max_fail_steps 3.
      The tolerance eps given to Newton's constructor (chebOp.py 330) is not read by it (newton_base.py 24-46). *)
  Definition core_solve (adaptive : bool) (eps : R) (n_op n_min : nat) (f : guess) : option (S * bool * nat * nat) :=
    if adaptive then
      match adapt_solve prolong dist (newton (Some adapt_tol)) n_min 14 12 3 (100 * eps)%R false (size (start f)) (start f) with
      | None => None
      | Some (s, ok, tr) => let n := match last tr (n_op, start f, start f, start f, ok) with (n, _, _, _, _) => n end in Some (s, ok, n, Nat.max n n_min)
      end
    else let '(_, s, ok) := newton None 0 n_op (prolong n_op (start f)) in Some (s, ok, n_op, n_op).

  (** chebOp.py 356-392: the answer and the operator's n_disc.  The residual is that of the state found, before it is
      simplified (369), with p = 2 whatever the argument; the message printed uses p with the format code d, in the try
      and in the except branch, which raises ValueError for floats (382-387).  Printing is otherwise not modelled. *)
  Inductive answer := Raises | Gives (x : U + S) (ok : bool) (res : R).
  Definition op_solve (f : guess) (p : index) (state adaptive : bool) (eps : R) (n_op n_min : nat) : answer * nat :=
    match core_solve adaptive eps n_op n_min f with
    | None => (Raises, n_op)
    | Some (s, ok, n, n') =>
        let res := residual n 2 (fn s) in
        let u := simp (fn s) in
        match p with
        | PFloat => (Raises, n')
        | PInt _ => (Gives (if state then inr (set_fn s u) else inl u) ok res, n')
        end
    end.
End solve.
