(** Model of funpy/support/reflection.py for one column and one evaluation point. *)
From Coq Require Import Reals List Arith Bool.
From Verif Require Import Base.
Import ListNotations.
Open Scope R_scope.

(** np.clip(y, a, b) = minimum(maximum(y, a), b) *)
Definition clip (y a b : R) : R := Rmin (Rmax y a) b.
(** reflection.py 12-13 and 15-16, _even_functor and _odd_functor *)
Definition even_tile (f : R -> R) (a b : R) (n i : nat) (x : R) : R := f (clip (INR n * (x - INR i / INR n)) a b).
Definition odd_tile (f : R -> R) (a b : R) (n i : nat) (x : R) : R := f (clip (INR n * (1 / INR n - (x - INR i / INR n))) a b).
Definition in_tile (n k : nat) (x : R) : bool := if Rle_dec (INR (k - 1) / INR n) x then if Rle_dec x (INR k / INR n) then true else false else false.
(** reflection.py 18-30, __call__: values = np.empty (None: the entry is not written), then for k in range(1, n + 1) the
    entries in the closed tile k are written *)
Definition reflect_loop (f : R -> R) (a b : R) (n m : nat) (x : R) : option R :=
  fold_left (fun v k => if in_tile n k x then Some (if Nat.odd k then odd_tile f a b n (k - 1) x else even_tile f a b n (k - 1) x) else v) (seq 1 m) None.
Definition reflect (f : R -> R) (a b : R) (n : nat) (x : R) : option R :=
  if Nat.eqb n 1 then Some (f x) else reflect_loop f a b n n x.
