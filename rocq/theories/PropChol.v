(** Properties of QRCholesky (qr_chol.py).  Vocabulary: QRSpec.v ([qr_fact], what
    LAPACK promises), LASpec.v ([mv], [dotp], [solves]), DetSpec.v ([det]). *)
From Coq Require Import Reals List Arith Lia Lra Bool Permutation.
From Verif Require Import Base LASpec BordModel BordSpec LABase BordProofs DetSpec LinModel QRModel QRSpec QRProofs QRDet CholModel CholProofs CholDet PropQR.
Import ListNotations.
Open Scope R_scope.

(** C75: square matrices. *)
Theorem C75_solve_square : forall n A h Rm C L b,
  qr_fact n n A h Rm C -> (forall i, (i < n)%nat -> Rm i i <> 0) -> length b = n ->
  solves n A (chol_solve_nonsing (chol_new n n h Rm C n L) b) b.
Proof. exact chol_nonsing_ok. Qed.
Print Assumptions C75_solve_square.

(** C75: any number p of extra columns: the result solves the system. *)
Theorem C75_solves : forall r p A h Rm C L b,
  qr_fact r (r + p) A h Rm C -> (forall i, (i < r)%nat -> Rm i i <> 0) -> length b = r ->
  length (chol_solve_sing (chol_new r (r + p) h Rm C r L) b) = (r + p)%nat /\ mv r (r + p) A (chol_solve_sing (chol_new r (r + p) h Rm C r L) b) = b.
Proof. exact chol_solves_thm. Qed.
Print Assumptions C75_solves.

(** C75: one extra column: it is the shortest solution (L the Cholesky factor of M, a number here). *)
Theorem C75_min_norm_partial : forall r A h Rm C L b,
  qr_fact r (r + 1) A h Rm C -> (forall i, (i < r)%nat -> Rm i i <> 0) ->
  let s := chol_new r (r + 1) h Rm C r L in 0 < L 0%nat 0%nat -> L 0%nat 0%nat * L 0%nat 0%nat = chol_M s 0%nat 0%nat -> length b = r ->
  let x := chol_solve_sing s b in
  length x = (r + 1)%nat /\ mv r (r + 1) A x = b /\ forall v, length v = (r + 1)%nat -> mv r (r + 1) A v = b -> dotp x x <= dotp v v.
Proof. exact chol_min_norm. Qed.
Print Assumptions C75_min_norm_partial.

(** C75: two extra columns: a shorter solution exists, although L is the Cholesky factor numpy promises. *)
Theorem C75_min_norm_refuted :
  exists A h Rm C L, let s := chol_new 1 (1 + 2) h Rm C 1 L in
  qr_fact 1 (1 + 2) A h Rm C /\ Rm 0%nat 0%nat <> 0 /\
  (forall a c, (a < 2)%nat -> (c < a)%nat -> L a c = 0) /\ (forall a, (a < 2)%nat -> 0 < L a a) /\
  (forall a c, (a < 2)%nat -> (c < 2)%nat -> rsum 2 (fun k => L k a * L k c) = chol_M s a c) /\
  exists v, length v = 3%nat /\ mv 1 3 A v = [1] /\ dotp v v < dotp (chol_solve_sing s [1]) (chol_solve_sing s [1]).
Proof. exact chol_not_min_norm. Qed.
Print Assumptions C75_min_norm_refuted.

(** C75: the tangent. *)
Theorem C75_tangent : forall r A h Rm C L,
  qr_fact r (r + 1) A h Rm C -> (forall i, (i < r)%nat -> Rm i i <> 0) ->
  let t := chol_tangent (chol_new r (r + 1) h Rm C r L) in
  length t = (r + 1)%nat /\ dotp t t = 1 /\ mv r (r + 1) A t = zeros r.
Proof. exact chol_tangent_ok. Qed.
Print Assumptions C75_tangent.

(** C76: what pseudo_rank computes. *)
Theorem C76_pseudo_rank_partial : forall r eps,
  r <> [] -> 0 < nth 0 r 0 -> let k := pseudo_rank r eps in
  (1 <= k <= length r)%nat /\ (forall i, (1 <= i < k)%nat -> eps * (nth 0 r 0 * nth 0 r 0) < nth i r 0) /\
  ((k < length r)%nat -> nth k r 0 <= eps * (nth 0 r 0 * nth 0 r 0)).
Proof. exact pseudo_rank_spec. Qed.
Print Assumptions C76_pseudo_rank_partial.

(** C76: the diagonals of a matrix and of a multiple of it. *)
Theorem C76_pseudo_rank_refuted :
  pseudo_rank [1000000; 1] (/ 10000000000) = 1%nat /\ pseudo_rank [1; / 1000000] (/ 10000000000) = 2%nat.
Proof. exact pseudo_rank_scale. Qed.
Print Assumptions C76_pseudo_rank_refuted.

(** C77: det. *)
Theorem C77_det : forall n A h Rm C,
  qr_fact n n A h Rm C -> chol_det n n h Rm C = Some (det n A).
Proof. exact chol_det_square. Qed.
Print Assumptions C77_det.

(** C77: detH; [det m A] only looks at the first m columns of A. *)
Theorem C77_detH : forall m A h Rm C,
  qr_fact m (S m) A h Rm C ->
  exists N, forall fuel, (N <= fuel)%nat ->
    (det m A <> 0 -> chol_detH fuel m h Rm C = Done (det m A)) /\ (det m A = 0 -> chol_detH fuel m h Rm C = Raises).
Proof. exact chol_detH_correct. Qed.
Print Assumptions C77_detH.


(** ** The hypotheses are met by concrete, non-trivial cases *)
Example ex_rect_diag : forall i, (i < 2)%nat -> exR3 i i <> 0.
Proof. intros [|[|i]] Hi; cbn; lra || lia. Qed.
(** A = (3 0 5; 1 2 7): detH is 6 although columns were exchanged *)
Example ex_detH : exists N, forall fuel, (N <= fuel)%nat -> chol_detH fuel 2 exh exR3 [1; 0; 2]%nat = Done 6.
Proof.
  destruct (chol_detH_correct 2 exA3 exh exR3 [1; 0; 2]%nat ex_rect) as [N HN]. exists N. intros fuel Hf.
  assert (E : det 2 exA3 = 6) by (cbn; unfold dropcol; cbn; ring). rewrite <- E. apply HN; [exact Hf|rewrite E; lra].
Qed.
(** one extra column, jbar = 3/4, Cholesky factor 5/4: A = (1 3/4) *)
Definition exA12 : rmat := fun i j => match j with 0%nat => 1 | _ => 3 / 4 end.
Example ex_chol : qr_fact 1 (1 + 1) exA12 [(0, [0])] exA12 [0; 1]%nat /\ exA12 0%nat 0%nat <> 0 /\
  5 / 4 * (5 / 4) = chol_M (chol_new 1 (1 + 1) [(0, [0])] exA12 [0; 1]%nat 1 (fun _ _ => 5 / 4)) 0%nat 0%nat.
Proof.
  split; [|split; [cbn; lra|unfold chol_M, jbar; cbn; field]]. split; [reflexivity|]. split; [constructor; [split; [reflexivity|left; reflexivity]|constructor]|]. split; [reflexivity|]. split; [intros [|i] j Hi Hj; lia|]. split; [reflexivity|].
  intros [|[|j]] Hj; [| |lia]; unfold column, mk, ormqr_N, hstep, vsub, vscal, dotp; cbn; repeat (apply f_equal2; [ring|]); reflexivity.
Qed.
