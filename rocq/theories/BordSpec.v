(** Specification vocabulary for the bordered solvers. *)
From Coq Require Import Reals List Arith.
From Verif Require Import Base LASpec BordModel.
Import ListNotations.
Open Scope R_scope.

(** the inner solver is exact for the n x n matrix A that is not singular *)
Definition exact_solver (n : nat) (A : rmat) (s : solver) : Prop :=
  s_sing s = false /\
  (forall f, length f = n -> solves n A (s_solve s f) f) /\
  (forall f, length f = n -> solves n (transp A) (s_adj s f) f).
(** the inner solver is exact for a singular A: phi and psi are nonzero right
    and left null vectors, and the two methods for particular solutions solve
    every system that satisfies the solvability condition *)
Definition exact_singular (n : nat) (A : rmat) (s : solver) : Prop :=
  s_sing s = true /\
  let '(phi, psi) := s_null s in
  length phi = n /\ length psi = n /\ phi <> zeros n /\ psi <> zeros n /\
  mv n n A phi = zeros n /\ mv n n (transp A) psi = zeros n /\
  (forall f, length f = n -> dotp psi f = 0 -> solves n A (s_part s f) f) /\
  (forall f, length f = n -> dotp phi f = 0 -> solves n (transp A) (s_part_adj s f) f).
(** the first n rows of the bordered matrix *)
Definition toprows (n : nat) (A : rmat) (c : list R) : rmat := fun i j => if Nat.ltb j n then A i j else nth i c 0.
(** updates of a border *)
Inductive upd_op := Row (b : list R) (d : R) | Col (c : list R) (d : R).
Definition run_op (e : bem) (o : upd_op) : bem := match o with Row b d => update_row e b d | Col c d => update_col e c d end.
(** the borders after the updates *)
Definition data_op (p : list R * list R * R) (o : upd_op) : list R * list R * R :=
  match o with Row b d => (b, snd (fst p), d) | Col c d => (fst (fst p), c, d) end.
(** the data of m borders *)
Definition borders (n : nat) (A : rmat) (bs cs : list (list R)) (ds : list R) : rmat :=
  bords n A (fun k => nth k bs []) (fun k => nth k cs []) (fun k => nth k ds 0) (length bs).
(** lengths as required by the constructor, and every leading bordered matrix nonsingular *)
Definition good_borders (n : nat) (A : rmat) (bs cs : list (list R)) (ds : list R) : Prop :=
  length cs = length bs /\ length ds = length bs /\
  forall k, (k < length bs)%nat -> length (nth k bs []) = (n + k)%nat /\ length (nth k cs []) = (n + k)%nat /\
    nonsingular (n + S k) (bords n A (fun k => nth k bs []) (fun k => nth k cs []) (fun k => nth k ds 0) (S k)).
(** updates of border j; each allocates an array with arbitrary contents *)
Inductive w_op := WRow (j : nat) (b : list R) (d : R) (st : nat -> nat -> R) | WCol (j : nat) (c : list R) (d : R) (st : nat -> nat -> R).
Definition w_run (e : bemw) (o : w_op) : bemw := match o with WRow j b d st => bemw_update_row e j b d st | WCol j c d st => bemw_update_col e j c d st end.
(** replace entry j of a list *)
Definition put {A} (l : list A) (j : nat) (a dflt : A) : list A := map (fun i => if Nat.eqb i j then a else nth i l dflt) (seq 0 (length l)).
(** the borders (rows, columns, corners) after an update *)
Definition w_data (p : list (list R) * list (list R) * list R) (o : w_op) : list (list R) * list (list R) * list R :=
  let '(bs, cs, ds) := p in
  match o with WRow j b d _ => (put bs j b [], cs, put ds j d 0) | WCol j c d _ => (bs, put cs j c [], put ds j d 0) end.
Definition w_index (o : w_op) : nat := match o with WRow j _ _ _ => j | WCol j _ _ _ => j end.
