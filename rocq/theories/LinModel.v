(** Model of funpy/linalg/helpers.py and funpy/linalg/lucp.py.

    Matrices are functions of two indices together with their shape; numbers
    are exact reals. *)
From Coq Require Import Reals ZArith List Arith Bool.
From Verif Require Import Base.
Import ListNotations.
Open Scope R_scope.

(** helpers.py 11-26, minimumSwaps.  The dictionaries a (keys 0..n-1) and b;
    [None] is a KeyError.  Iterating over a while assigning to existing keys
    is allowed in Python. *)
Definition upd {A} (f : nat -> A) (k : nat) (v : A) : nat -> A := fun x => if Nat.eqb x k then v else f x.
Definition inv_dict (arr : list nat) : nat -> option nat :=
  fold_left (fun b kv => upd b (snd kv) (Some (fst kv))) (combine (seq 0 (length arr)) arr) (fun _ => None).
Fixpoint swaps_loop (todo : list nat) (a : nat -> nat) (b : nat -> option nat) (count : nat) : option nat :=
  match todo with
  | [] => Some count
  | i :: rest =>
      let x := a i in
      if Nat.eqb x i then swaps_loop rest a b count
      else match b i with
           | None => None
           | Some y => swaps_loop rest (upd a y x) (upd b x (Some y)) (count + 1)
           end
  end.
Definition minimumSwaps (arr : list nat) : option nat :=
  swaps_loop (seq 0 (length arr)) (fun k => nth k arr 0%nat) (inv_dict arr) 0.

(** helpers.py 72-136, givensAlgorithm; eps is np.finfo(double).eps.  The
    two [while True] loops get fuel ([None] = still running). *)
Definition feps : R := / 2 ^ 52.
Fixpoint shrink (fuel : nat) (f1 g1 : R) (count : nat) : option (R * R * nat) :=
  match fuel with
  | O => None
  | S fu => let f2 := f1 * feps in let g2 := g1 * feps in
            if Rlt_dec (Rmax (Rabs f2) (Rabs g2)) (/ feps) then Some (f2, g2, S count) else shrink fu f2 g2 (S count)
  end.
Fixpoint grow (fuel : nat) (f1 g1 : R) (count : nat) : option (R * R * nat) :=
  match fuel with
  | O => None
  | S fu => let f2 := f1 * / feps in let g2 := g1 * / feps in
            if Rlt_dec feps (Rmax (Rabs f2) (Rabs g2)) then Some (f2, g2, S count) else grow fu f2 g2 (S count)
  end.
Definition givens_flip (f g : R) (csr : R * R * R) : R * R * R :=
  let '(cs, sn, r) := csr in
  if Rlt_dec (Rabs g) (Rabs f) then if Rlt_dec cs 0 then (- cs, - sn, - r) else csr else csr.
Definition givens (fuel : nat) (f g : R) : option (R * R * R) :=
  if Req_EM_T g 0 then Some (1, 0, f)
  else if Req_EM_T f 0 then Some (0, 1, g)
  else
    let scale := Rmax (Rabs f) (Rabs g) in
    if Rle_dec (/ feps) scale then
      match shrink fuel f g 0 with
      | None => None
      | Some (f1, g1, count) => let r := sqrt (f1 * f1 + g1 * g1) in
          Some (givens_flip f g (f1 / r, g1 / r, r * (/ feps) ^ count))
      end
    else if Rle_dec scale feps then
      match grow fuel f g 0 with
      | None => None
      | Some (f1, g1, count) => let r := sqrt (f1 * f1 + g1 * g1) in
          Some (givens_flip f g (f1 / r, g1 / r, r * feps ^ count))
      end
    else let r := sqrt (f * f + g * g) in Some (givens_flip f g (f / r, g / r, r)).

(** np.sign *)
Definition sgn (x : R) : R := if Rlt_dec x 0 then -1 else if Rlt_dec 0 x then 1 else 0.

(** helpers.py 139-171, slogdet_hessenberg of a real n x n matrix.  math.log
    raises ValueError at 0 (outcome [Raises]); [Running] = the fuel given to
    givensAlgorithm was too small.  k runs from n-1 down to 1; the vector g is
    only read at indices below the current k + 1, all assigned before. *)
Inductive outcome (A : Type) := Done (a : A) | Raises | Running.
Arguments Done {A}. Arguments Raises {A}. Arguments Running {A}.
Fixpoint hess_loop (fuel : nat) (M : nat -> nat -> R) (k : nat) (g : nat -> R) (P logdet : R) : outcome (R * R) :=
  match k with
  | O => if Req_EM_T (g 0%nat) 0 then Raises else Done (P * sgn (g 0%nat), logdet + ln (Rabs (g 0%nat)))
  | S k' =>
      match givens fuel (g k) (M k k') with
      | None => Running
      | Some (c, s, r) =>
          if Req_EM_T r 0 then Raises
          else hess_loop fuel M k' (fun j => if Nat.leb j k' then c * M j k' - s * g j else g j) (P * sgn r) (logdet + ln (Rabs r))
      end
  end.
Definition slogdet_hessenberg (fuel n : nat) (M : nat -> nat -> R) : outcome (R * R) :=
  match n with
  | O => Done (1, 0)
  | S k => hess_loop fuel M k (fun i => M i k) 1 0
  end.

(** helpers.py 174-201, detH.  p and d as functions; n = 0: A[0,0] raises
    IndexError; n = 1: the loop does not run and the final d[k+1] reads the
    unbound k. *)
Fixpoint detH_loop (A : nat -> nat -> R) (k cnt : nat) (p d : nat -> R) : nat -> R :=
  match cnt with
  | O => d
  | S c =>
      let p' := fun j => if Nat.ltb j k then p j * (d j * A k (k - 1)%nat) else p j in
      let d' := upd d (k + 1) (A k k * d k + rsum k (fun j => (-1) ^ (k - j) * A j k * p' j)) in
      detH_loop A (k + 1) c p' d'
  end.
Definition detH (n : nat) (A : nat -> nat -> R) : option R :=
  if Nat.leb n 1 then None
  else Some (detH_loop A 1 (n - 1) (fun _ => 1) (upd (fun _ => 1) 1 (A 0%nat 0%nat)) n).

(** lucp.py 21-86.  argmax returns the first maximum. *)
Fixpoint argmax_from (f : nat -> R) (best cur cnt : nat) : nat :=
  match cnt with
  | O => best
  | S c => if Rlt_dec (f best) (f cur) then argmax_from f cur (S cur) c else argmax_from f best (S cur) c
  end.
Definition argmax (f : nat -> R) (lo hi : nat) : nat := argmax_from f lo (S lo) (hi - S lo).
Definition swapf {A} (f : nat -> A) (a b : nat) : nat -> A := fun x => if Nat.eqb x a then f b else if Nat.eqb x b then f a else f x.
Record lustate := mkLu { luA : nat -> nat -> R; lup : nat -> nat; luq : nat -> nat }.
(** lines 45-66: pivot search and the two swaps *)
Definition lu_pivot (n m k : nat) (s : lustate) : lustate :=
  let A := luA s in
  let ri := fun j => argmax (fun i => Rabs (A i j)) k n in
  let cp := argmax (fun j => Rabs (A (ri j) j)) k m in
  let rp := ri cp in
  let A1 := swapf A k rp in
  let A2 := fun i => swapf (A1 i) k cp in
  mkLu A2 (swapf (lup s) k rp) (swapf (luq s) k cp).
(** lines 68-77 *)
Definition lu_elim (n m k : nat) (s : lustate) : lustate :=
  let A := luA s in
  let A1 := fun i j => if Nat.ltb k i && Nat.ltb i n && Nat.eqb j k then A i k / A k k else A i j in
  let A2 := fun i j => if Nat.ltb k i && Nat.ltb i n && Nat.ltb k j && Nat.ltb j m then A1 i j - A1 i k * A1 k j else A1 i j in
  mkLu A2 (lup s) (luq s).
(** the loop; the second component is the index at which the small pivot
    stopped it, if any *)
Fixpoint lu_loop (n m : nat) (tol : R) (k cnt : nat) (s : lustate) : lustate * option nat :=
  match cnt with
  | O => (s, None)
  | S c =>
      let s1 := lu_pivot n m k s in
      if Rle_dec tol (Rabs (luA s1 k k)) then lu_loop n m tol (S k) c (lu_elim n m k s1)
      else (s1, Some k)
  end.
Record luresult := mkLuR { luL : nat -> nat -> R; luU : nat -> nat -> R; resp : nat -> nat; resq : nat -> nat }.
(** lines 82-89: L is n x l1, U is l1 x m *)
Definition lucp (n m : nat) (tol : R) (A : nat -> nat -> R) : luresult * option nat :=
  let '(s, stop) := lu_loop n m tol 0 (Nat.min (n - 1) m) (mkLu A (fun i => i) (fun j => j)) in
  (mkLuR (fun i j => if Nat.ltb j i then luA s i j else if Nat.eqb i j then 1 else 0)
         (fun i j => if Nat.leb i j then luA s i j else 0) (lup s) (luq s), stop).
