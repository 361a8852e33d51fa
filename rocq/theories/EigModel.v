(** eigs, funpy/colloc/eig.py 47-82.
    The QZ decomposition itself (scipy.linalg.ordqz, LAPACK) is not modelled:
    [qz_ok] is its contract, [eigs] what the code does with its output. *)
From Coq Require Import Reals List Arith Bool Lra Lia.
From Coquelicot Require Import Coquelicot.
From Verif Require Import Base ChebModel TrigSpec OpModel.
Import ListNotations.
Open Scope R_scope.

(** eig.py 60-64: Md = M.todense(), Bd = B.todense().  The latter applies
    GeneralizedEigenvalueOp (eig_rhs in OpModel.v) to the unit vectors. *)
Definition dense (M : list (list R)) (i j : nat) : C := RtoC (nth j (nth i M []) 0).
Definition eig_B (n m K : nat) (i j : nat) : C := RtoC (nth i (eig_rhs n m K (unit_vec (n * m) j)) 0).

(** ordqz(A, B, sort='lhp', output='complex'): unitary Q, Z, upper triangular
    AA, BB with A = Q AA Z^H, B = Q BB Z^H; alpha, beta are the diagonals;
    the pairs with beta <> 0 and Re (alpha / beta) < 0 come first. *)
Record qz := mkQZ { qz_AA : nat -> nat -> C; qz_BB : nat -> nat -> C; qz_Q : nat -> nat -> C; qz_Z : nat -> nat -> C }.
Definition alpha (d : qz) (k : nat) : C := qz_AA d k k.
Definition beta (d : qz) (k : nat) : C := qz_BB d k k.
Definition delta (i j : nat) : C := if Nat.eqb i j then RtoC 1 else RtoC 0.
Definition unitary (N : nat) (U : nat -> nat -> C) : Prop :=
  (forall i j, (i < N)%nat -> (j < N)%nat -> csum N (fun k => Cmult (Cconj (U k i)) (U k j)) = delta i j) /\
  (forall i j, (i < N)%nat -> (j < N)%nat -> csum N (fun k => Cmult (U i k) (Cconj (U j k))) = delta i j).
Definition upper (N : nat) (U : nat -> nat -> C) : Prop := forall i j, (j < i)%nat -> (i < N)%nat -> U i j = RtoC 0.
Definition lhp (d : qz) (k : nat) : Prop := beta d k <> RtoC 0 /\ Re (Cdiv (alpha d k) (beta d k)) < 0.
Definition qz_ok (N : nat) (A B : nat -> nat -> C) (d : qz) : Prop :=
  unitary N (qz_Q d) /\ unitary N (qz_Z d) /\ upper N (qz_AA d) /\ upper N (qz_BB d) /\
  (forall i j, (i < N)%nat -> (j < N)%nat ->
     A i j = csum N (fun k => csum N (fun l => Cmult (Cmult (qz_Q d i k) (qz_AA d k l)) (Cconj (qz_Z d j l)))) /\
     B i j = csum N (fun k => csum N (fun l => Cmult (Cmult (qz_Q d i k) (qz_BB d k l)) (Cconj (qz_Z d j l))))) /\
  (exists p, forall k, (k < N)%nat -> (k < p)%nat <-> lhp d k).

(** eig.py 71-82; [None]: ordqz raises ValueError.  np.hypot of real and
    imaginary part is the modulus. *)
Definition eigs (N : nat) (tol : R) (r : option qz) : bool * list C :=
  match r with
  | None => (false, [RtoC 0])
  | Some d => (true, map (fun k => Cdiv (alpha d k) (beta d k)) (filter (fun k => Rltb tol (Cmod (beta d k))) (seq 0 N)))
  end.

(** Vocabulary of the statements: matrix times vector, eigenvectors. *)
Definition cmv (N : nat) (A : nat -> nat -> C) (x : nat -> C) (i : nat) : C := csum N (fun j => Cmult (A i j) (x j)).
Definition eigenvector (N : nat) (A B : nat -> nat -> C) (lam : C) (x : nat -> C) : Prop :=
  (exists j, (j < N)%nat /\ x j <> RtoC 0) /\ forall i, (i < N)%nat -> cmv N A x i = Cmult lam (cmv N B x i).
Definition eigenvalue (N : nat) (A B : nat -> nat -> C) (lam : C) : Prop := exists x, eigenvector N A B lam x.
(** the pencil A - lam B is regular: some number is not an eigenvalue *)
Definition regular (N : nat) (A B : nat -> nat -> C) : Prop := exists mu, ~ eigenvalue N A B mu.
