(** Properties of the bordered solvers.  Vocabulary in LASpec.v and BordSpec.v:
    [mv m n A x] matrix times vector, [bord n A b c d] the bordered matrix,
    [bords] several borders, [solves n M x f] means M x = f, [nonsingular]:
    trivial kernel.  [exact_solver], [exact_singular] say that
    the inner solver is exact. *)
From Coq Require Import Reals List Arith Lia Lra Bool.
From Verif Require Import Base LASpec BordModel BordSpec LABase BordProofs BordW BordEx.
Import ListNotations.
Open Scope R_scope.

(** C40: one border, A singular or not. *)
Theorem C40_bem_solve : forall n A s b c d r,
  (exact_solver n A s \/ exact_singular n A s) -> length b = n -> length c = n -> length r = S n ->
  nonsingular (S n) (bord n A b c d) -> solves (S n) (bord n A b c d) (bem_solve (bem_new s b c d) r) r.
Proof. exact bem_solve_correct. Qed.
Print Assumptions C40_bem_solve.

(** C40: the transposed system. *)
Theorem C40_bem_solve_adj : forall n A s b c d r,
  (exact_solver n A s \/ exact_singular n A s) -> length b = n -> length c = n -> length r = S n ->
  nonsingular (S n) (bord n A b c d) -> solves (S n) (transp (bord n A b c d)) (bem_solve_adj (bem_new s b c d) r) r.
Proof. exact bem_solve_adj_correct. Qed.
Print Assumptions C40_bem_solve_adj.

(** C40: right hand side (f, 0). *)
Theorem C40_bem_solve_zero : forall n A s b c d f,
  (exact_solver n A s \/ exact_singular n A s) -> length b = n -> length c = n -> length f = n ->
  nonsingular (S n) (bord n A b c d) -> solves (S n) (bord n A b c d) (bem_solve_zero (bem_new s b c d) f) (f ++ [0]).
Proof. exact bem_solve_zero_correct. Qed.
Print Assumptions C40_bem_solve_zero.

(** C40: right hand side (0, 1), inner matrix not singular. *)
Theorem C40_bem_solve_null_partial : forall n A s b c d,
  exact_solver n A s -> length b = n -> length c = n ->
  nonsingular (S n) (bord n A b c d) -> solves (S n) (bord n A b c d) (bem_solve_null (bem_new s b c d)) (zeros n ++ [1]).
Proof. exact bem_null_nonsing. Qed.
Print Assumptions C40_bem_solve_null_partial.

(** C40: the same for the transposed system. *)
Theorem C40_bem_solve_null_adj_partial : forall n A s b c d,
  exact_solver n A s -> length b = n -> length c = n ->
  nonsingular (S n) (bord n A b c d) -> solves (S n) (transp (bord n A b c d)) (bem_solve_null_adj (bem_new s b c d)) (zeros n ++ [1]).
Proof. exact bem_null_nonsing_adj. Qed.
Print Assumptions C40_bem_solve_null_adj_partial.

(** C40 is false for solve_null with a singular inner matrix: there the last entry of the image is b.phi, not 1. *)
Theorem C40_bem_solve_null_refuted :
  exists n A s b c d, exact_singular n A s /\ length b = n /\ length c = n /\ nonsingular (S n) (bord n A b c d) /\
  ~ solves (S n) (bord n A b c d) (bem_solve_null (bem_new s b c d)) (zeros n ++ [1]).
Proof. exact bem_null_sing_wrong. Qed.
Print Assumptions C40_bem_solve_null_refuted.

(** C40: min_norm is the shortest solution of the first n equations. *)
Theorem C40_bem_min_norm : forall n A s b c d f,
  (exact_solver n A s \/ exact_singular n A s) -> length b = n -> length c = n -> length f = n ->
  nonsingular (S n) (bord n A b c d) ->
  let r := bem_min_norm (bem_new s b c d) f in
  length r = S n /\ mv n (S n) (toprows n A c) r = f /\ forall v, length v = S n -> mv n (S n) (toprows n A c) v = f -> dotp r r <= dotp v v.
Proof. exact bem_min_norm_correct. Qed.
Print Assumptions C40_bem_min_norm.

(** C40: m borders. *)
Theorem C40_bemw_solve : forall s n A bs cs ds st0 r,
  exact_solver n A s -> good_borders n A bs cs ds -> length r = (n + length bs)%nat ->
  solves (n + length bs) (borders n A bs cs ds) (bemw_solve (bemw_new s n bs cs ds st0) r) r.
Proof. exact bemw_solve_correct. Qed.
Print Assumptions C40_bemw_solve.

(** C40: m borders, the transposed system. *)
Theorem C40_bemw_solve_adj : forall s n A bs cs ds st0 r,
  exact_solver n A s -> good_borders n A bs cs ds -> length r = (n + length bs)%nat ->
  solves (n + length bs) (transp (borders n A bs cs ds)) (bemw_solve_adj (bemw_new s n bs cs ds st0) r) r.
Proof. exact bemw_solve_adj_correct. Qed.
Print Assumptions C40_bemw_solve_adj.

(** C40: m borders, right hand side (0, 1). *)
Theorem C40_bemw_solve_null : forall s n A bs cs ds st0,
  exact_solver n A s -> good_borders n A bs cs ds -> (1 <= length bs)%nat ->
  solves (n + length bs) (borders n A bs cs ds) (bemw_solve_null (bemw_new s n bs cs ds st0)) (zeros (n + length bs - 1) ++ [1]).
Proof. exact bemw_null_correct. Qed.
Print Assumptions C40_bemw_solve_null.

(** C40: m borders, right hand side (f, 0). *)
Theorem C40_bemw_solve_zero : forall s n A bs cs ds st0 f,
  exact_solver n A s -> good_borders n A bs cs ds -> (1 <= length bs)%nat -> length f = (n + length bs - 1)%nat ->
  solves (n + length bs) (borders n A bs cs ds) (bemw_solve_zero (bemw_new s n bs cs ds st0) f) (f ++ [0]).
Proof. exact bemw_zero_correct. Qed.
Print Assumptions C40_bemw_solve_zero.

(** C40: the adjoint counterparts. *)
Theorem C40_bemw_solve_null_adj : forall s n A bs cs ds st0,
  exact_solver n A s -> good_borders n A bs cs ds -> (1 <= length bs)%nat ->
  solves (n + length bs) (transp (borders n A bs cs ds)) (bemw_solve_null_adj (bemw_new s n bs cs ds st0)) (zeros (n + length bs - 1) ++ [1]).
Proof. intros s n A bs cs ds st0 Hs G L. unfold bemw_solve_null_adj. apply bemw_solve_adj_correct; try assumption. rewrite app_length, zeros_length. cbn. lia. Qed.
Print Assumptions C40_bemw_solve_null_adj.
Theorem C40_bemw_solve_zero_adj : forall s n A bs cs ds st0 f,
  exact_solver n A s -> good_borders n A bs cs ds -> (1 <= length bs)%nat -> length f = (n + length bs - 1)%nat ->
  solves (n + length bs) (transp (borders n A bs cs ds)) (bemw_solve_zero_adj (bemw_new s n bs cs ds st0) f) (f ++ [0]).
Proof. intros s n A bs cs ds st0 f Hs G L Lf. unfold bemw_solve_zero_adj. apply bemw_solve_adj_correct; try assumption. rewrite app_length, Lf. cbn. lia. Qed.
Print Assumptions C40_bemw_solve_zero_adj.

(** C40: m borders, the shortest solution of all equations but the last. *)
Theorem C40_bemw_min_norm : forall s n A bs cs ds st0 f,
  exact_solver n A s -> good_borders n A bs cs ds -> (1 <= length bs)%nat -> length f = (n + length bs - 1)%nat ->
  let N := (n + length bs)%nat in let B := borders n A bs cs ds in let r := bemw_min_norm (bemw_new s n bs cs ds st0) f in
  length r = N /\ mv (N - 1) N B r = f /\ forall v, length v = N -> mv (N - 1) N B v = f -> dotp r r <= dotp v v.
Proof. exact bemw_min_norm_correct. Qed.
Print Assumptions C40_bemw_min_norm.

(** C41 is false: for a regular bordered matrix nullspace returns the zero vector. *)
Theorem C41_nullspace_refuted : forall n A s b c d,
  exact_solver n A s -> length b = n -> length c = n -> nonsingular n A ->
  nonsingular (S n) (bord n A b c d) -> nullspace (bem_new s b c d) = zeros (S n).
Proof. exact bem_nullspace_zero. Qed.
Print Assumptions C41_nullspace_refuted.

(** C41: for a singular bordered matrix it divides by zero. *)
Theorem C41_nullspace_singular_refuted : forall n A s b c d,
  exact_solver n A s -> length b = n -> length c = n -> nonsingular n A ->
  ~ nonsingular (S n) (bord n A b c d) -> e_delta (bem_new s b c d) = 0.
Proof. exact bem_nullspace_pivot. Qed.
Print Assumptions C41_nullspace_singular_refuted.

(** C71: after any sequence of updates the object is the one built from the current borders. *)
Theorem C71_bem_history : forall s ops,
  forall b c d, fold_left run_op ops (bem_new s b c d) = let '(b', c', d') := fold_left data_op ops (b, c, d) in bem_new s b' c' d'.
Proof. exact bem_history. Qed.
Print Assumptions C71_bem_history.

(** C71: m borders: after any sequence of updates solve and solve_adj solve the current system, whatever the memory of the arrays held. *)
Theorem C71_bemw_history : forall s n A ops bs cs ds st0 r,
  exact_solver n A s -> length cs = length bs -> length ds = length bs -> (forall o, In o ops -> (w_index o < length bs)%nat) ->
  let e := fold_left w_run ops (bemw_new s n bs cs ds st0) in
  let '(bs', cs', ds') := fold_left w_data ops (bs, cs, ds) in
  good_borders n A bs' cs' ds' -> length r = (n + length bs')%nat ->
  solves (n + length bs') (borders n A bs' cs' ds') (bemw_solve e r) r /\ solves (n + length bs') (transp (borders n A bs' cs' ds')) (bemw_solve_adj e r) r.
Proof. exact bemw_history_solve. Qed.
Print Assumptions C71_bemw_history.


(** ** The hypotheses are met by concrete, non-trivial cases *)
Example ex_regular_hyp : exact_solver 2 A1 s1 /\ length [1; 0] = 2%nat /\ length [0; 1] = 2%nat /\ nonsingular 2 A1 /\ nonsingular 3 (bord 2 A1 [1; 0] [0; 1] 3).
Proof. split; [exact s1_exact|]. repeat split; [exact A1_nonsing|exact B1_nonsing]. Qed.
Example ex_singular_hyp : exact_singular 2 A2 s2 /\ nonsingular 3 (bord 2 A2 [2; 0] [1; 0] 0).
Proof. split; [exact s2_exact|exact B2_nonsing]. Qed.
Example ex_borders_hyp : exact_solver 2 A1 s1 /\ good_borders 2 A1 [[1; 0]; [0; 0; 1]] [[0; 1]; [1; 0; 0]] [3; 1].
Proof. split; [exact s1_exact|exact good1]. Qed.
Example ex_singular_border : ~ nonsingular 3 (bord 2 A1 [1; 0] [0; 1] (-1)).
Proof. exact B3_sing. Qed.
