(** Model of funpy/colloc/realDiscretization.py: the discretisation chosen for one coefficient (chebOp.py 427-429). *)
From Coq Require Import Reals List Arith Bool ZArith.
From Verif Require Import Base ChebModel OpModel OpArith SrcModel.
Import ListNotations.
Open Scope R_scope.

(** np.asarray(f).item() of a function: the coefficient if there is one only, otherwise ValueError *)
Definition item (c : list R) : option R := match c with [x] => Some x | _ => None end.
(** the loop of realDiscretization.py 32-34: for i in range(numNonLocal), numNonLocal = icoeffs.size *)
Fixpoint real_loop (acc : R) (ics ints : list (list R)) : option R :=
  match ics with
  | [] => Some acc
  | c :: ics => match ints with
                | d :: ints => match item c, item d with Some x, Some y => real_loop (acc + x * y) ics ints | _, _ => None end
                | [] => None
                end
  end.
(** realDiscretization.py 28-36, quasi2diffmat: the coefficient of order 0 cut to one coefficient *)
Definition real_entry (q : qblock) : option R :=
  match item (prolong1 (nth 0 (q_coeffs q) []) 1) with
  | Some x => real_loop x (q_ics q) (q_ints q)
  | None => None
  end.
(** ... and Fun.prolong works in place (fun.py 101-103): the block afterwards *)
Definition real_after (q : qblock) : qblock :=
  mkQ (q_info q) (match q_coeffs q with [] => [] | c :: cs => prolong1 c 1 :: cs end) (q_ics q) (q_ints q).
(** realDiscretization.py 38-46, instantiate, and 48-55, matrix (csr_array(M), the other two results being identities) *)
Definition real_row (r : list qblock) : option (list R) := all_some (map real_entry r).
Definition real_matrix (X : sysop) : option (list (list R)) := all_some (map real_row X).
(** realDiscretization.py 57-64, linop: M and its transpose (m equations and unknowns) *)
Definition real_linop (X : sysop) : option (list (list R) * list (list R)) :=
  match real_matrix X with
  | Some M => Some (M, mk (length M) (fun q => mk (length M) (fun e => nth q (nth e M []) 0)))
  | None => None
  end.
