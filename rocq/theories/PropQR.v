(** Properties of the QR solver (qr_solve.py).  Vocabulary in QRSpec.v: [qr_fact]
    is what LAPACK's pivoted QR factorisation promises; LASpec.v: [mv], [solves];
    DetSpec.v: [det] (Laplace expansion), [dropcol] (leave out a column). *)
From Coq Require Import Reals List Arith Lia Lra Bool Permutation.
From Verif Require Import Base LASpec BordModel BordSpec LABase BordProofs DetSpec LinModel QRModel QRSpec QRProofs QRDet.
Import ListNotations.
Open Scope R_scope.

(** C72: solve. *)
Theorem C72_solve : forall n A h Rm C tol b,
  qr_fact n n A h Rm C -> (forall i, (i < n)%nat -> Rm i i <> 0) -> length b = n ->
  solves n A (qr_solve (qr_new n n h Rm C tol) b) b.
Proof. exact qr_solve_thm. Qed.
Print Assumptions C72_solve.

(** C72: solve_adj. *)
Theorem C72_solve_adj : forall n A h Rm C tol b,
  qr_fact n n A h Rm C -> (forall i, (i < n)%nat -> Rm i i <> 0) -> length b = n ->
  solves n (transp A) (qr_solve_adj (qr_new n n h Rm C tol) b) b.
Proof. exact qr_solve_adj_thm. Qed.
Print Assumptions C72_solve_adj.

(** C72: the right null vector: A phi = -r psi with r the last diagonal entry of R (below tol in size when the matrix is reported singular), and phi is not zero. *)
Theorem C72_null_right : forall m A h Rm C tol,
  let n := S m in qr_fact n n A h Rm C -> (forall i, (i < m)%nat -> Rm i i <> 0) ->
  let '(phi, psi) := qr_null (qr_new n n h Rm C tol) in length phi = n /\ phi <> zeros n /\ mv n n A phi = vscal (- Rm m m) psi.
Proof. exact qr_null_right_thm. Qed.
Print Assumptions C72_null_right.

(** C72: the left null vector has length one; A^T psi is r at one place and zero elsewhere. *)
Theorem C72_null_left : forall m A h Rm C tol,
  let n := S m in qr_fact n n A h Rm C ->
  let '(phi, psi) := qr_null (qr_new n n h Rm C tol) in length psi = n /\ dotp psi psi = 1 /\
    forall i, (i < n)%nat -> nth i (mv n n (transp A) psi) 0 = if Nat.eqb i (nth m C 0%nat) then Rm m m else 0.
Proof. exact qr_null_left_thm. Qed.
Print Assumptions C72_null_left.

(** C72: particular raises exactly when |psi.b| > tol; otherwise A x = b - (psi.b) psi. *)
Theorem C72_particular : forall m A h Rm C tol b,
  let n := S m in let s := qr_new n n h Rm C tol in qr_fact n n A h Rm C -> (forall i, (i < m)%nat -> Rm i i <> 0) -> length b = n ->
  let psi := snd (qr_null s) in let r := dotp psi b in
  (tol < Rabs r -> qr_particular s b = None) /\
  (Rabs r <= tol -> exists x, qr_particular s b = Some x /\ length x = n /\ mv n n A x = vsub b (vscal r psi)).
Proof. exact qr_particular_thm. Qed.
Print Assumptions C72_particular.

(** C72: particular_adj raises exactly when |phi.b| > tol; otherwise A^T y = b except for one entry, off by phi.b. *)
Theorem C72_particular_adj : forall m A h Rm C tol b,
  let n := S m in let s := qr_new n n h Rm C tol in qr_fact n n A h Rm C -> (forall i, (i < m)%nat -> Rm i i <> 0) -> length b = n ->
  let r := dotp (fst (qr_null s)) b in
  (tol < Rabs r -> qr_particular_adj s b = None) /\
  (Rabs r <= tol -> exists y, qr_particular_adj s b = Some y /\ length y = n /\
    forall i, (i < n)%nat -> nth i (mv n n (transp A) y) 0 = nth i b 0 + (if Nat.eqb i (nth m C 0%nat) then r else 0)).
Proof. exact qr_particular_adj_thm. Qed.
Print Assumptions C72_particular_adj.

(** C72: hence QR is an exact inner solver for BEM and BEMW when the last (smallest) diagonal entry is not below tol, *)
Theorem C72_bem_on_qr : forall n A h Rm C tol,
  qr_fact n n A h Rm C -> 0 < tol -> (1 <= n)%nat -> (forall i, (i < n)%nat -> Rabs (Rm (n - 1)%nat (n - 1)%nat) <= Rabs (Rm i i)) ->
  tol <= Rabs (Rm (n - 1)%nat (n - 1)%nat) -> exact_solver n A (qr_solver (qr_new n n h Rm C tol)) /\ s_det (qr_solver (qr_new n n h Rm C tol)) = det n A.
Proof. exact qr_exact. Qed.
Print Assumptions C72_bem_on_qr.

(** C72: and an exact singular one when that entry is zero. *)
Theorem C72_bem_on_singular_qr : forall m A h Rm C tol,
  let n := S m in qr_fact n n A h Rm C -> 0 < tol -> (forall i, (i < m)%nat -> Rm i i <> 0) -> Rm m m = 0 ->
  exact_singular n A (qr_solver (qr_new n n h Rm C tol)).
Proof. exact qr_exact_singular. Qed.
Print Assumptions C72_bem_on_singular_qr.

(** C73: det() is the determinant. *)
Theorem C73_det : forall n A h Rm C tol,
  qr_fact n n A h Rm C -> qr_det (qr_new n n h Rm C tol) = Some (det n A).
Proof. exact qr_det_square. Qed.
Print Assumptions C73_det.

(** C73: with one column more than rows, the determinant without column C[-1]. *)
Theorem C73_det_rectangular : forall m A h Rm C tol,
  qr_fact m (S m) A h Rm C -> qr_det (qr_new m (S m) h Rm C tol) = Some (det m (dropcol A (nth m C 0%nat))).
Proof. exact qr_det_rect. Qed.
Print Assumptions C73_det_rectangular.

(** C74: BEM.det is the determinant of the bordered matrix. *)
Theorem C74_bem_det : forall n A s b c d,
  exact_solver n A s -> s_det s = det n A -> length b = n -> length c = n -> bem_det (bem_new s b c d) = det (S n) (bord n A b c d).
Proof. exact bem_det_correct. Qed.
Print Assumptions C74_bem_det.


(** ** The hypotheses are met by concrete, non-trivial cases *)
(** A = (3 0; 1 2): columns exchanged, then A[:,C] = Q (2 1; 0 3) with the
    reflection Q exchanging the coordinates *)
Definition exA : rmat := fun i j => match i, j with 0%nat, 0%nat => 3 | 0%nat, _ => 0 | _, 0%nat => 1 | _, _ => 2 end.
Definition exR : rmat := fun i j => match i, j with 0%nat, 0%nat => 2 | 0%nat, _ => 1 | _, 0%nat => 0 | _, _ => 3 end.
Definition exh : list hh := [(1, [1; -1]); (0, [0; 0])].
Lemma exh_refl : Forall (reflector 2) exh.
Proof.
  constructor; [split; [reflexivity|right; unfold dotp; cbn; ring]|]. constructor; [split; [reflexivity|left; reflexivity]|constructor].
Qed.
Example ex_fact : qr_fact 2 2 exA exh exR [1; 0]%nat /\ (forall i, (i < 2)%nat -> exR i i <> 0).
Proof.
  split; [|intros [|[|i]] Hi; cbn; lra]. split; [reflexivity|]. split.
  - exact exh_refl.
  - split; [reflexivity|]. split; [intros [|[|i]] [|[|j]] Hi Hj; try lia; reflexivity|]. split; [apply perm_swap|].
    intros [|[|j]] Hj; [| |lia]; unfold column, mk, ormqr_N, hstep, vsub, vscal, dotp; cbn; repeat (apply f_equal2; [ring|]); reflexivity.
Qed.
Example ex_det : qr_det (qr_new 2 2 exh exR [1; 0]%nat (/ 2)) = Some 6.
Proof. rewrite (qr_det_square 2 exA) by apply ex_fact. f_equal. cbn. unfold dropcol. cbn. ring. Qed.
(** one column more than rows: A = (3 0 5; 1 2 7), C = [1, 0, 2] *)
Definition exA3 : rmat := fun i j => match j with 2%nat => (match i with 0%nat => 5 | _ => 7 end) | _ => exA i j end.
Definition exR3 : rmat := fun i j => match j with 2%nat => (match i with 0%nat => 7 | _ => 5 end) | _ => exR i j end.
Example ex_rect : qr_fact 2 3 exA3 exh exR3 [1; 0; 2]%nat.
Proof.
  split; [reflexivity|]. split; [exact exh_refl|].
  split; [reflexivity|]. split; [intros [|[|i]] [|[|[|j]]] Hi Hj; try lia; reflexivity|]. split; [apply perm_swap|].
  intros [|[|[|j]]] Hj; [| | |lia]; unfold column, mk, ormqr_N, hstep, vsub, vscal, dotp; cbn; repeat (apply f_equal2; [ring|]); reflexivity.
Qed.
(** a singular matrix (0 0; 2 1) with the same Q: R = (2 1; 0 0) *)
Definition exAs : rmat := fun i j => match i, j with 0%nat, _ => 0 | _, 0%nat => 1 | _, _ => 2 end.
Definition exRs : rmat := fun i j => match i, j with 0%nat, 0%nat => 2 | 0%nat, _ => 1 | _, _ => 0 end.
Example ex_sing : qr_fact 2 2 exAs exh exRs [1; 0]%nat /\ (forall i, (i < 1)%nat -> exRs i i <> 0) /\ exRs 1%nat 1%nat = 0.
Proof.
  split; [|split; [intros [|i] Hi; [cbn; lra|lia]|reflexivity]]. split; [reflexivity|]. split.
  - exact exh_refl.
  - split; [reflexivity|]. split; [intros [|[|i]] [|[|j]] Hi Hj; try lia; reflexivity|]. split; [apply perm_swap|].
    intros [|[|j]] Hj; [| |lia]; unfold column, mk, ormqr_N, hstep, vsub, vscal, dotp; cbn; repeat (apply f_equal2; [ring|]); reflexivity.
Qed.
