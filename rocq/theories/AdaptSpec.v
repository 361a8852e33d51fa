(** Vocabulary for the adaptive solver: what a list of Newton calls says. *)
From Coq Require Import Reals List Arith Bool.
From Verif Require Import Base.
Import ListNotations.
Open Scope nat_scope.
Section spec.
  Context {S : Type} (prolong : nat -> S -> S) (dist : S -> S -> R) (newton : nat -> nat -> S -> S * S * bool).
  (** a call: size, guess, value of the guess object after the call, returned state, success *)
  Definition c_size (c : nat * S * S * S * bool) : nat := let '(n, _, _, _, _) := c in n.
  Definition c_ok (c : nat * S * S * S * bool) : bool := let '(_, _, _, _, ok) := c in ok.
  (** the best state after a call: the returned state if it succeeded, otherwise the guess object *)
  Definition c_best (c : nat * S * S * S * bool) : S := let '(_, _, g', x, ok) := c in if ok then x else g'.
  (** a successful call changed the guess by less than eps *)
  Definition c_small (eps : R) (c : nat * S * S * S * bool) : Prop := let '(_, _, g', x, ok) := c in ok = true /\ (dist g' x < eps)%R.
  Definition c_guess_after (c : nat * S * S * S * bool) : S := let '(_, _, g', _, _) := c in g'.
  (** the calls form a run from [st]: every guess is the prolonged best state of the previous call *)
  Fixpoint run_from (k : nat) (st : S) (tr : list (nat * S * S * S * bool)) : Prop :=
    match tr with
    | [] => True
    | (n, g, g', x, ok) :: t => g = prolong n st /\ newton k n g = (g', x, ok) /\ run_from (k + 1) (if ok then x else g') t
    end.
End spec.
