(** Specification: sorting an array by exchanging two entries at a time. *)
From Coq Require Import List Arith.
From Verif Require Import Base.
Import ListNotations.

(** exchange the entries at positions i and j *)
Definition swap_at (l : list nat) (i j : nat) : list nat :=
  mk (length l) (fun k => nth (if Nat.eqb k i then j else if Nat.eqb k j then i else k) l 0).
Definition apply_swaps (sw : list (nat * nat)) (l : list nat) : list nat :=
  fold_left (fun l p => swap_at l (fst p) (snd p)) sw l.
(** [sw] sorts the permutation [l] of 0..n-1 by exchanges within the array *)
Definition sorts (sw : list (nat * nat)) (l : list nat) : Prop :=
  List.Forall (fun p => fst p < length l /\ snd p < length l) sw /\ apply_swaps sw l = seq 0 (length l).
