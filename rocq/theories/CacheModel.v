(** The cached grids and who may write to them. *)
From Coq Require Import Reals List Arith Bool.
From Verif Require Import Base ChebModel FunModel.
Import ListNotations.
Open Scope R_scope.

(** Arrays live at addresses; [lru] is the cache of chebpts_type2_compute, most
    recently used first; [res] is what each earlier event returned to the user. *)
Record world := mkW { mem : nat -> list R; next : nat; lru : list (nat * nat); res : list (option nat) }.
Definition start : world := mkW (fun _ => []) 0 [] [].
Definition store (m : nat -> list R) (p : nat) (l : list R) : nat -> list R := fun q => if Nat.eqb q p then l else m q.

(** cheb/pts.py 88-95 with functools.lru_cache(maxsize=25): a hit returns the
    same array object, a miss computes one and drops the least recently used. *)
Definition points (w : world) (n : nat) : world * nat :=
  match find (fun e => Nat.eqb (fst e) n) (lru w) with
  | Some (_, p) => (mkW (mem w) (next w) ((n, p) :: filter (fun e => negb (Nat.eqb (fst e) n)) (lru w)) (res w), p)
  | None => (mkW (store (mem w) (next w) (chebpts_type2_compute n)) (S (next w)) (firstn 25 ((n, next w) :: lru w)) (res w), next w)
  end.
(** A numpy expression makes a new array. *)
Definition fresh (w : world) (l : list R) : world * nat := (mkW (store (mem w) (next w) l) (S (next w)) (lru w) (res w), next w).
Definition ret (w : world) (r : option nat) : world := mkW (mem w) (next w) (lru w) (res w ++ [r]).
Definition write (w : world) (p : nat) (g : list R -> list R) : world := mkW (store (mem w) p (g (mem w p))) (next w) (lru w) (res w).

(** x[1:-1:2], a view: writing to it writes to x. *)
Definition odds (l : list R) : list R := map (fun i => nth (2 * i + 1) l 0) (seq 0 ((length l - 1) / 2)).
Definition put_odds (l o : list R) : list R :=
  mk (length l) (fun i => if Nat.odd i && (i <? length l - 1)%nat then nth (i / 2) o 0 else nth i l 0).

(** What the user may do.  [g] is what an operation, or the user's callable, does
    to the array it is given (the identity if it does not modify its argument).
    - TechX: chebtech.x, chebtech.chebpts (cheb/chebtech.py 243-261), the points
      of cheb.pts.chebpts on [-1, 1] (scaleNodes returns its argument)
    - FunX: Fun.x (fun.py 85-88)
    - Write: an in-place operation on the array returned by the k-th event
    - SampleTech, NestTech: chebtech(op) samples its callable (cheb/refine.py 79-80, 98-107)
    - SampleFun, NestFun: the same for Fun(op, domain), where the callable is
      composed with the map (fun.py 43-53). *)
Inductive event :=
| TechX (n : nat) | FunX (a b : R) (n : nat) | Write (k : nat) (g : list R -> list R)
| SampleTech (n : nat) (g : list R -> list R) | NestTech (n : nat) (g : list R -> list R)
| SampleFun (a b : R) (n : nat) (g : list R -> list R) | NestFun (a b : R) (n : nat) (g : list R -> list R).
(** What is seen: the points returned or handed to the callable, an exception, nothing. *)
Inductive seen := Points (l : list R) | Raises | Nothing.

(** For n <= 1 the grid is a Python list: adding 1 to it (mapping.py 28) raises,
    and so does slicing arithmetic on it. *)
Definition step (w : world) (e : event) : world * seen :=
  match e with
  | TechX n => let '(w, p) := points w n in (ret w (Some p), Points (mem w p))
  | FunX a b n => let '(w, p) := points w n in
      if (n <=? 1)%nat then (ret w None, Raises)
      else let '(w, q) := fresh w (map (map_fwd a b) (mem w p)) in (ret w (Some q), Points (mem w q))
  | Write k g => match nth k (res w) None with Some p => (ret (write w p g) None, Nothing) | None => (ret w None, Nothing) end
  | SampleTech n g => let '(w, p) := points w n in let x := mem w p in (ret (write w p g) None, Points x)
  | NestTech n g => let '(w, p) := points w n in let x := odds (mem w p) in (ret (write w p (fun l => put_odds l (g (odds l)))) None, Points x)
  | SampleFun a b n g => let '(w, p) := points w n in
      if (n <=? 1)%nat then (ret w None, Raises)
      else let '(w, q) := fresh w (map (map_fwd a b) (mem w p)) in let x := mem w q in (ret (write w q g) None, Points x)
  | NestFun a b n g => let '(w, p) := points w n in
      if (n <=? 1)%nat then (ret w None, Raises)
      else let '(w, q) := fresh w (map (map_fwd a b) (odds (mem w p))) in let x := mem w q in (ret (write w q g) None, Points x)
  end.
Fixpoint run (w : world) (h : list event) : list seen :=
  match h with [] => [] | e :: h => let '(w, s) := step w e in s :: run w h end.
