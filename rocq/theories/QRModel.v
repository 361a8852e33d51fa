(** linalg/qr_solve.py, class QR with pivoting.  The factorisation itself is
    LAPACK's geqp3 through scipy.linalg.qr(mode='raw') (its contract is
    [qr_fact] in QRSpec.v); its application ormqr, the triangular solves trtrs
    and everything the class does with them are modelled.  One dimensional
    right hand sides. *)
From Coq Require Import Reals List Arith Bool.
From Verif Require Import Base LASpec BordModel LinModel.
Import ListNotations.
Open Scope R_scope.

(** the object: elementary reflectors (tau_i, v_i), R, C and P (69-79), tol *)
(** (tau, v) *)
Definition hh : Type := (R * list R)%type.
Record qrobj := { q_rows : nat; q_cols : nat; q_h : list hh; q_R : rmat; q_C : list nat; q_P : list nat; q_tol : R }.
(** np.argsort of a permutation: where each value stands *)
Fixpoint index_of (c : nat) (C : list nat) : nat := match C with [] => 0%nat | x :: C' => if Nat.eqb x c then 0%nat else S (index_of c C') end.
Definition argsort (C : list nat) : list nat := map (fun c => index_of c C) (seq 0 (length C)).
(** 32-97, __init__ *)
Definition qr_new (rows cols : nat) (h : list hh) (Rm : rmat) (C : list nat) (tol : R) : qrobj :=
  {| q_rows := rows; q_cols := cols; q_h := h; q_R := Rm; q_C := C; q_P := argsort C; q_tol := tol |}.
(** 82 *)
Definition qr_sing (s : qrobj) : bool := if Rlt_dec (Rabs (q_R s (q_rows s - 1)%nat (q_cols s - 1)%nat)) (q_tol s) then true else false.
(** 73-74: k, the number of reflectors that are not the identity *)
Definition tau_nz (h : hh) : bool := if Req_EM_T (fst h) 0 then false else true.
Definition qr_k (s : qrobj) : nat := length (filter tau_nz (if Nat.leb (q_rows s) (q_cols s) then removelast (q_h s) else q_h s)).
(** ormqr: H = I - tau v v^T; Q = H_1 H_2 ... *)
Definition hstep (h : hh) (x : list R) : list R := vsub x (vscal (fst h * dotp (snd h) x) (snd h)).
Definition ormqr_N (hs : list hh) (x : list R) : list R := fold_right hstep x hs.
Definition ormqr_T (hs : list hh) (x : list R) : list R := fold_left (fun y h => hstep h y) hs x.
(** trtrs with an upper triangular matrix of order n: trans=0 ... *)
Fixpoint usolve (n : nat) (U : rmat) (b : nat -> R) : list R :=
  match n with
  | O => []
  | S k => let xk := b k / U k k in usolve k U (fun i => b i - U i k * xk) ++ [xk]
  end.
(** ... and trans=1 *)
Fixpoint utsolve (n : nat) (U : rmat) (b : nat -> R) : list R :=
  match n with
  | O => []
  | S k => let x := utsolve k U b in x ++ [(b k - rsum k (fun j => U j k * nth j x 0)) / U k k]
  end.
(** with a zero on the diagonal the right hand side comes back unchanged *)
Definition diag_ok (n : nat) (U : rmat) : bool := forallb (fun i => if Req_EM_T (U i i) 0 then false else true) (seq 0 n).
Definition trtrs (n : nat) (U : rmat) (trans : bool) (b : list R) : list R :=
  if diag_ok n U then (if trans then utsolve n U (fun i => nth i b 0) else usolve n U (fun i => nth i b 0)) else b.
(** b[idx] *)
Definition gather (b : list R) (idx : list nat) : list R := map (fun p => nth p b 0) idx.

(** 105-137 *)
Definition qr_null (s : qrobj) : list R * list R :=
  let n := q_cols s in
  let y1 := trtrs (q_rows s - 1) (q_R s) false (mk (q_rows s - 1) (fun i => q_R s i (n - 1)%nat)) in
  (gather (y1 ++ [-1]) (q_P s), ormqr_N (q_h s) (zeros (n - 1) ++ [1])).
(** 164-184; None: RuntimeWarning raised *)
Definition qr_particular (s : qrobj) (b : list R) : option (list R) :=
  let c := ormqr_T (q_h s) b in
  if Rlt_dec (q_tol s) (Rabs (last c 0)) then None
  else Some (gather (trtrs (q_rows s - 1) (q_R s) false (removelast c) ++ [0]) (q_P s)).
(** 186-208 *)
Definition qr_particular_adj (s : qrobj) (b : list R) : option (list R) :=
  let b := gather b (q_C s) in
  let x := trtrs (q_rows s - 1) (q_R s) true (removelast b) in
  if Rlt_dec (q_tol s) (Rabs (dotp (mk (q_rows s - 1) (fun i => q_R s i (q_cols s - 1)%nat)) x - last b 0)) then None
  else Some (ormqr_N (q_h s) (x ++ [0])).
(** 210-218 *)
Definition qr_solve (s : qrobj) (b : list R) : list R := gather (trtrs (q_rows s) (q_R s) false (ormqr_T (q_h s) b)) (q_P s).
(** 220-228 *)
Definition qr_solve_adj (s : qrobj) (b : list R) : list R := ormqr_N (q_h s) (trtrs (q_rows s) (q_R s) true (gather b (q_C s))).
(** 136-148, 150-162: np.delete(P, np.argmax(P)); sign and determinant.
    None: KeyError in minimumSwaps *)
Fixpoint argmax (l : list nat) : nat * nat :=
  match l with
  | [] => (0, 0)%nat
  | x :: l' => match l' with [] => (0, x)%nat | _ => let '(i, m) := argmax l' in if Nat.leb m x then (0, x)%nat else (S i, m) end
  end.
Definition delete_at {A} (l : list A) (i : nat) : list A := firstn i l ++ skipn (S i) l.
Definition qr_swaps (s : qrobj) : option nat :=
  minimumSwaps (if Nat.ltb (q_rows s) (q_cols s) then delete_at (q_P s) (fst (argmax (q_P s))) else q_P s).
Fixpoint prodn (n : nat) (f : nat -> R) : R := match n with O => 1 | S k => prodn k f * f k end.
Definition diag_len (s : qrobj) : nat := Nat.min (q_rows s) (q_cols s).
Definition qr_det_sign (s : qrobj) : option R :=
  match qr_swaps s with
  | None => None
  | Some m => Some ((-1) ^ (qr_k s + m) * prodn (diag_len s) (fun i => sgn (q_R s i i)))
  end.
(** np.log(0) = -inf: the exponential of the sum is 0 then *)
Definition exp_sum_log (n : nat) (f : nat -> R) : R :=
  if forallb (fun i => if Req_EM_T (f i) 0 then false else true) (seq 0 n) then exp (rsum n (fun i => ln (f i))) else 0.
Definition qr_det (s : qrobj) : option R :=
  match qr_det_sign s with
  | None => None
  | Some sg => Some (sg * exp_sum_log (diag_len s) (fun i => Rabs (q_R s i i)))
  end.
(** the methods BEM uses; a raised warning ([None]) as the empty vector *)
Definition qr_solver (s : qrobj) : solver :=
  {| s_solve := qr_solve s; s_adj := qr_solve_adj s; s_null := qr_null s;
     s_part := fun f => match qr_particular s f with Some x => x | None => [] end;
     s_part_adj := fun f => match qr_particular_adj s f with Some x => x | None => [] end;
     s_sing := qr_sing s; s_det := match qr_det s with Some d => d | None => 0 end |}.
