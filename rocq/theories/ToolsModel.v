(** Model of funpy/colloc/tools.py and funpy/support/tools.py. *)
From Coq Require Import Reals ZArith List Arith Bool.
From Verif Require Import Base.
Import ListNotations.

(** colloc/tools.py 7-15 = support/tools.py 12-20, findNextPowerOf2: Python
    integers are unbounded.  The [while] loop gets fuel; [None] = out of fuel
    (the proofs show it never happens). *)
Fixpoint strip_bits (fuel : nat) (n : Z) : option Z :=
  if Z.eqb (Z.land n (n - 1)) 0 then Some n
  else match fuel with O => None | S fu => strip_bits fu (Z.land n (n - 1)) end.
Definition findNextPowerOf2 (n : Z) : option Z :=
  if Z.leb n 1 then Some 2%Z
  else option_map (fun m => Z.shiftl m 1) (strip_bits (Z.to_nat n) (n - 1)).

Open Scope R_scope.

(** a write out[idx] = v into a numpy array (None: IndexError) *)
Definition np_set {A} (l : list A) (i : nat) (v : A) : option (list A) :=
  if Nat.ltb i (length l) then Some (firstn i l ++ v :: skipn (S i) l) else None.
Definition np_get {A} (l : list A) (i : nat) : option A := nth_error l i.

(** a loop [for k in range(cnt)] over the loop state, stopping on an exception *)
Fixpoint for_range {S} (body : nat -> S -> option S) (start cnt : nat) (s : S) : option S :=
  match cnt with
  | O => Some s
  | Datatypes.S c => match body start s with None => None | Some s' => for_range body (Datatypes.S start) c s' end
  end.

(** reshape((r, c), order='F') of a flat vector of r*c entries: the list of
    its columns. *)
Fixpoint reshape_F {A} (r c : nat) (v : list A) : list (list A) :=
  match c with O => [] | S c' => firstn r v :: reshape_F r c' (skipn r v) end.

(** colloc/tools.py 18-28, remove_bc (size // n_eqn needs n_eqn > 0;
    np.empty of a negative size raises: n >= bw).  np.empty is filled with 0
    here: the proofs show every entry is overwritten. *)
Definition remove_bc (iar : list R) (n_eqn bw : nat) : option (list (list R)) :=
  if Nat.eqb n_eqn 0 then None else
  let n := (length iar / n_eqn)%nat in
  if Nat.ltb n bw then None else
  let out := repeat 0 (n_eqn * (n - bw)) in
  match for_range (fun i o =>
          for_range (fun j o' =>
             match np_get iar (i * n + j + bw) with
             | None => None | Some v => np_set o' (i * (n - bw) + j) v end) 0 (n - bw) o)
        0 n_eqn out with
  | None => None
  | Some o => Some (reshape_F (n - bw) n_eqn o)
  end.

(** colloc/tools.py 31-44, replace_bc (reshape=False); for n < bw the inner
    range is empty. *)
Definition replace_bc (iar : list R) (n_eqn bw : nat) : option (list R) :=
  if Nat.eqb n_eqn 0 then None else
  let n := (length iar / n_eqn)%nat in
  for_range (fun i o =>
      for_range (fun j o' =>
         match np_get iar (i * n + j + bw) with
         | None => None | Some v => np_set o' (i * n + j) v end) 0 (n - bw) o)
    0 n_eqn (repeat 0 (length iar)).

(** colloc/tools.py 47-55, get_bc. *)
Definition get_bc (iar : list R) (n_eqn bw : nat) : option (list R) :=
  if Nat.eqb n_eqn 0 then None else
  let n := (length iar / n_eqn)%nat in
  for_range (fun i o =>
      for_range (fun j o' =>
         match np_get iar (i * n + j) with
         | None => None | Some v => np_set o' (i * bw + j) v end) 0 bw o)
    0 n_eqn (repeat 0 (n_eqn * bw)).

(** support/tools.py 23-24, round_up: num/divisor as a real, then ceil. *)
Definition round_up (num divisor : R) : option R :=
  if Req_EM_T divisor 0 then None else Some (IZR (- (Int_part (- (num / divisor)))) * divisor).

(** support/tools.py 27-43, secant. *)
Definition secant (s1 d1 s2 d2 : R) : option R :=
  if Req_EM_T (d2 - d1) 0 then None else Some (s2 - d2 * (s2 - s1) / (d2 - d1)).

(** np.cumsum *)
Fixpoint cumsum_from (acc : R) (l : list R) : list R :=
  match l with [] => [] | x :: r => (acc + x) :: cumsum_from (acc + x) r end.

(** support/tools.py 82-85, moving_average, n >= 1.  ret[n:] has
    max(0, size - n) entries and so does ret[:-n]. *)
Definition moving_average (a : list R) (n : nat) : list R :=
  let ret := cumsum_from 0 a in
  let tail := map (fun p => fst p - snd p) (combine (skipn n ret) (firstn (length ret - n) ret)) in
  let ret' := firstn n ret ++ tail in
  map (fun v => v / INR n) (skipn (n - 1) ret').

(** support/tools.py 46-54, find_nearest_idx: np.argmin returns the first
    position of the minimum; an empty array raises. *)
Fixpoint argmin_from (best : R) (bi : nat) (i : nat) (l : list R) : nat :=
  match l with
  | [] => bi
  | x :: r => if Rlt_dec x best then argmin_from x i (S i) r else argmin_from best bi (S i) r
  end.
Definition find_nearest_idx (l : list R) (v : R) : option nat :=
  match map (fun x => Rabs (x - v)) l with
  | [] => None
  | d :: r => Some (argmin_from d 0 1 r)
  end.
Definition find_nearest (l : list R) (v : R) : option R :=
  match find_nearest_idx l v with None => None | Some i => nth_error l i end.
