(** Model of colloc/adapt.py (SolverAdaptive). *)
From Coq Require Import Reals List Arith ZArith Bool Lia.
From Verif Require Import Base ToolsModel ChebModel.
Import ListNotations.
Open Scope nat_scope.

(** np.unique: sorted, without repetitions *)
Fixpoint insert_uniq (a : nat) (l : list nat) : list nat :=
  match l with
  | [] => [a]
  | b :: l' => if Nat.ltb a b then a :: l else if Nat.eqb a b then l else b :: insert_uniq a l'
  end.
Definition np_unique (l : list nat) : list nat := fold_right insert_uniq [] l.
(** np.arange(a, b) *)
Definition arange (a b : nat) : list nat := seq a (b - a).

(** adapt.py 20-22 (the attributes) and 25-39, n_disc: [n_min] is the constructor's
    argument, the attribute is min(7, n_min).  Simplification: n_min, n_max are
    naturals (numpy raises for 2**negative). *)
Definition n_disc (n_min n_max lower upper : nat) (constant : bool) : list nat :=
  if constant then [1]
  else np_unique (map (fun k => Nat.max lower (Nat.min upper (1 + 2 ^ k))) (arange (Nat.min 7 n_min) (1 + n_max))).

(** adapt.py 48-49: upper_bd = 2**int(log2(findNextPowerOf2(lower)) + max(up_steps-1, 0));
    log2 of a power of two is taken as exact. *)
Definition upper_bd (lower up_steps : nat) : nat :=
  match findNextPowerOf2 (Z.of_nat lower) with
  | Some p => 2 ^ (Nat.log2 (Z.to_nat p) + (up_steps - 1))
  | None => 0
  end.

(** adapt.py 41-82, solve.  [S]: states; [prolong n s]: the state after
    state.prolong(n); [dist s t] = (s - t).norm(); [newton k n s]: the k-th call
    of nw.solve, with discretisation size n and the state object of value s:
    the value of that object after the call (the solvers of funpy/newton may
    update it in place), the returned state, and the success flag.
    Result: the returned state, the flag, and the list of the calls
    (size, guess, guess object afterwards, returned state, flag);
    None: the loop body never ran, success[k] raises UnboundLocalError. *)
Section adapt.
  Context {S : Type} (prolong : nat -> S -> S) (dist : S -> S -> R) (newton : nat -> nat -> S -> S * S * bool).
  Definition call := (nat * S * S * S * bool)%type.
  Fixpoint adapt_loop (eps : R) (max_fail : nat) (k : nat) (ns : list nat) (st : S) (anys : bool) (last : option bool) (tr : list call) : option (S * bool * list call) :=
    match ns with
    | [] => match last with None => None | Some b => Some (st, b, tr) end
    | n :: ns' =>
        let st := prolong n st in
        let '(st', nst, ok) := newton k n st in
        let tr := tr ++ [(n, st, st', nst, ok)] in
        if ok then
          if Rltb (dist st' nst) eps && Nat.ltb 0 k then Some (st', true, tr)
          else adapt_loop eps max_fail (k + 1) ns' nst true (Some true) tr
        else if Nat.leb max_fail (k + 1) && negb anys then Some (st', false, tr)
        else adapt_loop eps max_fail (k + 1) ns' st' anys (Some false) tr
    end.
  (** [size]: state.shape[0] *)
  Definition adapt_solve (n_min n_max up_steps max_fail : nat) (eps : R) (constant : bool) (size : nat) (st : S) : option (S * bool * list call) :=
    adapt_loop eps max_fail 0 (n_disc n_min n_max size (upper_bd size up_steps) constant) st false None [].
End adapt.
