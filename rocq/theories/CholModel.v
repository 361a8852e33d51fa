(** linalg/qr_chol.py, class QRCholesky for a dense m x n matrix, m <= n.  The
    factorisation is linalg/qr.py (geqp3 and orgqr; contract [qr_fact], product
    with Q^T modelled by the reflectors, k = the number counted there). *)
From Coq Require Import Reals List Arith Bool.
From Verif Require Import Base LASpec BordModel LinModel QRModel.
Import ListNotations.
Open Scope R_scope.

(** the object: [k_C] is argsort of the permutation (35), [k_L] the upper
    Cholesky factor (numpy / scipy convention M = L^T L) *)
Record qrc := { k_m : nat; k_n : nat; k_h : list hh; k_R : rmat; k_C : list nat; k_rank : nat; k_L : rmat }.
(** 141-146, pseudo_rank of the absolute diagonal r: the first place where
    r[i]/r[0] <= r[0] eps.  (0 <= 0 holds for a zero division 0/0? no: nan, False) *)
Fixpoint first_small (r : list R) (r0 eps : R) (i : nat) : option nat :=
  match r with [] => None | x :: r' => if Rle_dec (x / r0) (r0 * eps) then Some i else first_small r' r0 eps (S i) end.
Definition pseudo_rank (r : list R) (eps : R) : nat :=
  match r with [] => 0%nat | r0 :: r' => match first_small r' r0 eps 0 with None => length r | Some i => S i end end.
(** 48-58: jbar = R^-1 S as columns q = 0..n-rank-1; entry (i, q) *)
Definition jbar (s : qrc) : rmat := fun i q => nth i (usolve (k_rank s) (k_R s) (fun i => k_R s i (k_rank s + q)%nat)) 0.
Definition defi (s : qrc) : nat := (k_n s - k_rank s)%nat.
(** M = I + jbar^T jbar (57) *)
Definition chol_M (s : qrc) : rmat := fun a b => (if Nat.eqb a b then 1 else 0) + rsum (k_rank s) (fun i => jbar s i a * jbar s i b).
(** 148-159 *)
Definition chol_solve_nonsing (s : qrc) (b : list R) : list R :=
  gather (usolve (k_n s) (k_R s) (fun i => nth i (ormqr_T (k_h s) b) 0)) (k_C s).
(** 173-197 *)
Definition chol_solve_sing (s : qrc) (b : list R) : list R :=
  let r := k_rank s in let p := defi s in
  let c := ormqr_T (k_h s) b in
  let Pyk := vscal (-1) (usolve r (k_R s) (fun i => nth i c 0)) in
  let Qyk := mv p r (transp (jbar s)) Pyk in
  let tmp := usolve p (k_L s) (fun i => nth i Qyk 0) in
  let Qxk := utsolve p (k_L s) (fun i => nth i tmp 0) in
  let Pxk := vsub Pyk (mv r p (jbar s) Qxk) in
  gather (vscal (-1) (Pxk ++ Qxk)) (k_C s).
(** 125-131, tangent_vector (rank deficiency one) *)
Definition chol_tangent (s : qrc) : list R :=
  let w := mk (k_rank s) (fun i => jbar s i 0%nat) in
  gather (vscal (/ sqrt (1 + dotp w w)) (vscal (-1) w ++ [1])) (k_C s).
(** 90-105, det: the same computation as QR.det of qr_solve.py (there
    modelled); complex logarithms only change the imaginary part dropped here *)
Definition chol_det (m n : nat) (h : list hh) (Rm : rmat) (C : list nat) : option R := qr_det (qr_new m n h Rm C 0).
(** 107-123, detH for m < n: leave out the column of R in place C[-1]; the
    permutation loses that value and closes up.  [Raises]: KeyError in
    minimumSwaps or ValueError in math.log *)
Definition close_up (td c : nat) : nat := if Nat.ltb td c then (c - 1)%nat else c.
Definition detH_perm (C : list nat) : list nat :=
  let td := last C 0%nat in map (close_up td) (filter (fun c => negb (Nat.eqb c td)) C).
Definition chol_detH (fuel m : nat) (h : list hh) (Rm : rmat) (C0 : list nat) : outcome R :=
  let C := argsort C0 in
  let td := last C 0%nat in
  match minimumSwaps (detH_perm C) with
  | None => Raises
  | Some sw =>
      match slogdet_hessenberg fuel m (fun i j => Rm i (if Nat.ltb j td then j else S j)) with
      | Done (sg, ld) => Done ((-1) ^ (sw + length (filter tau_nz (removelast h))) * sg * exp ld)
      | Raises => Raises
      | Running => Running
      end
  end.
