(** linalg/brd_solve.py (functions solve, solve_null_nonsing, solve_nonsing,
    class BMatrix), linalg/nullspace.py and logdet_detail_superlu of
    linalg/helpers.py.  SuperLU's splu is described by its contract
    ([splu_fact] in BrdSpec.v); lucp is the model of LinModel.v.  One
    dimensional real vectors. *)
From Coq Require Import Reals List Arith Bool.
From Verif Require Import Base LASpec BordModel LinModel QRModel.
Import ListNotations.
Open Scope R_scope.

(** brd_solve.py 20-25, permutation: oarr[p[i]] = arr[i]; entries of the fresh
    array that are not assigned as 0 (none when p is a permutation) *)
Definition setnth (o : list R) (k : nat) (x : R) : list R := mk (length o) (fun i => if Nat.eqb i k then x else nth i o 0).
Fixpoint scatter_at (o : list R) (p : list nat) (arr : list R) : list R :=
  match p, arr with k :: p', x :: arr' => scatter_at (setnth o k x) p' arr' | _, _ => o end.
Definition scatter (arr : list R) (p : list nat) : list R := scatter_at (zeros (length arr)) p arr.
(** spsolve_triangular with a lower triangular L: forward substitution; with
    the transpose of an upper triangular U: [utsolve]; with an upper one: [usolve] *)
Definition lsolve (n : nat) (L : rmat) (b : list R) : list R := utsolve n (transp L) (fun i => nth i b 0).

Record luobj := { o_n : nat; o_L : rmat; o_U : rmat; o_r : list nat; o_c : list nat }.
(** 160-195, solve; the factorisation lu = splu(A) is passed in *)
Definition brd_solve (o : luobj) (b c : list R) (d : R) (f : list R) : list R :=
  let n := o_n o in
  let gamma := lsolve n (o_L o) (scatter c (o_r o)) in
  let beta := utsolve n (o_U o) (fun i => nth i (scatter b (o_c o)) 0) in
  let delta := d - dotp beta gamma in
  let fhat := lsolve n (o_L o) (scatter (removelast f) (o_r o)) in
  let hhat := last f 0 - dotp beta fhat in
  let z := hhat / delta in
  gather (usolve n (o_U o) (fun i => nth i (vsub fhat (vscal z gamma)) 0)) (o_c o) ++ [z].
(** 360-397, solve_nonsing *)
Definition solve_nonsing (o : luobj) (b c : list R) (d : R) : list R :=
  let n := o_n o in
  let gamma := lsolve n (o_L o) (scatter c (o_r o)) in
  let beta := utsolve n (o_U o) (fun i => nth i (scatter b (o_c o)) 0) in
  let delta := d - dotp beta gamma in
  let z := 1 / delta in
  gather (usolve n (o_U o) (fun i => nth i (vscal (- z) gamma) 0)) (o_c o) ++ [z].
(** 541-593, solve_null_nonsing *)
Definition solve_null_nonsing (o : luobj) (b c : list R) (d : R) : list R * list R :=
  let n := o_n o in
  let v := solve_nonsing o b c d in
  let gamma := utsolve n (o_U o) (fun i => nth i (scatter b (o_c o)) 0) in
  let beta := lsolve n (o_L o) (scatter c (o_r o)) in
  let delta := d - dotp beta gamma in
  let z := 1 / delta in
  (v, gather (usolve n (transp (o_L o)) (fun i => nth i (vscal (- z) gamma) 0)) (o_r o) ++ [z]).
(** 479-490, LUCP: the factors and the permutations lucp returns *)
Definition LUCP (n : nat) (F : luresult) : luobj :=
  {| o_n := n; o_L := luL F; o_U := luU F; o_r := map (resp F) (seq 0 n); o_c := map (resq F) (seq 0 n) |}.
(** 519-538, brd_null_simp, the branch for a non-singular A (None: |U[n-1,n-1]| < eps) *)
Definition brd_null_simp (n : nat) (A : rmat) (b c : list R) (d eps : R) : option (list R) :=
  let F := fst (lucp n n (/ 10 ^ 8) A) in
  if Rlt_dec (Rabs (luU F (n - 1)%nat (n - 1)%nat)) eps then None else Some (solve_nonsing (LUCP n F) b c d).

(** nullspace.py 14-46: the right null vector.  spsolve_triangular works in
    place on the leading part of phi (overwrite_b=True) *)
Definition null_right (n : nat) (F : luresult) : list R :=
  let U := luU F in
  let phi := gather (usolve (n - 1) U (fun i => U i (n - 1)%nat) ++ [-1]) (map (resq F) (seq 0 n)) in
  vscal (/ sqrt (dotp phi phi)) phi.
Definition right_null_vector (n : nat) (A : rmat) : list R := null_right n (fst (lucp n n (/ 10 ^ 8) A)).
(** lucp.py 54-77 works on the array it is given: what a caller's float array
    holds afterwards (integer arrays are copied first, 26-29) *)
Definition lucp_caller (n m : nat) (tol : R) (A : rmat) : rmat :=
  luA (fst (lu_loop n m tol 0 (Nat.min (n - 1) m) (mkLu A (fun i => i) (fun j => j)))).

(** helpers.py 39-48, logdet_detail_superlu.  np.log of the complex diagonal:
    only the real part ln|.| is returned; None: KeyError in minimumSwaps *)
Definition logdet_superlu (o : luobj) : option (R * R) :=
  match minimumSwaps (o_r o) with
  | None => None
  | Some m => Some ((-1) ^ m * prodn (o_n o) (fun i => sgn (o_L o i i)) * prodn (o_n o) (fun i => sgn (o_U o i i)),
                    rsum (o_n o) (fun i => ln (Rabs (o_L o i i))) + rsum (o_n o) (fun i => ln (Rabs (o_U o i i))))
  end.

(** BMatrix, 28-157: n x n matrix A with the factors of [qr_fact] (C the column
    permutation, P = argsort C) *)
Record bmat := { m_n : nat; m_h : list hh; m_R : rmat; m_C : list nat; m_b : list R; m_c : list R; m_d : R }.
(** 83-91 *)
Definition bm_null (s : bmat) : list R * list R :=
  let n := m_n s in
  (gather (usolve (n - 1) (m_R s) (fun i => m_R s i (n - 1)%nat) ++ [-1]) (argsort (m_C s)), ormqr_N (m_h s) (zeros (n - 1) ++ [1])).
(** 99-102 *)
Definition bm_part (s : bmat) (b : list R) : list R :=
  gather (usolve (m_n s - 1) (m_R s) (fun i => nth i (ormqr_T (m_h s) b) 0) ++ [0]) (argsort (m_C s)).
(** 104-120 *)
Definition bm_solve_singular (s : bmat) (r : list R) : list R :=
  let '(phi, psi) := bm_null s in
  let f := removelast r in let h := last r 0 in
  let z := dotp psi f / dotp psi (m_c s) in
  let xp := bm_part s (vsub f (vscal z (m_c s))) in
  let al := (h - m_d s * z - dotp (m_b s) xp) / dotp (m_b s) phi in
  vadd xp (vscal al phi) ++ [z].
(** 122-139 *)
Definition bm_solve_nonsingular (s : bmat) (r : list R) : list R :=
  let n := m_n s in
  let beta := utsolve n (m_R s) (fun i => nth i (gather (m_b s) (m_C s)) 0) in
  let gamma := ormqr_T (m_h s) (m_c s) in
  let delta := m_d s - dotp beta gamma in
  let fhat := ormqr_T (m_h s) (removelast r) in
  let hhat := last r 0 - dotp beta fhat in
  let z := hhat / delta in
  gather (usolve n (m_R s) (fun i => nth i (vsub fhat (vscal z gamma)) 0)) (argsort (m_C s)) ++ [z].
(** 141-144 and 146-157 *)
Definition bm_solve_null_singular (s : bmat) : list R := fst (bm_null s) ++ [0].
Definition bm_solve_null_nonsingular (s : bmat) : list R :=
  let n := m_n s in
  let beta := utsolve n (m_R s) (fun i => nth i (gather (m_b s) (m_C s)) 0) in
  let gamma := ormqr_T (m_h s) (m_c s) in
  let delta := m_d s - dotp beta gamma in
  let z := 1 / delta in
  gather (usolve n (m_R s) (fun i => nth i (vscal (- z) gamma) 0)) (argsort (m_C s)) ++ [z].
