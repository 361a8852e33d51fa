(** Properties of brd_solve.py, nullspace.py and logdet (helpers.py).
    Vocabulary: BrdSpec.v ([splu_fact], what SuperLU promises), QRSpec.v
    ([qr_fact]), LASpec.v ([mv], [solves], [bord], [nonsingular]), DetSpec.v. *)
From Coq Require Import Reals List Arith Lia Lra Bool Permutation.
From Verif Require Import Base LASpec BordModel BordSpec LABase BordProofs DetSpec LinModel LinProofs QRModel QRSpec QRProofs QRDet BrdModel BrdSpec BrdProofs BrdMore BrdRefute PropQR.
Import ListNotations.
Open Scope R_scope.

(** C78: when the column exchanges form a permutation of order two, right_null_vector is a unit vector of the kernel. *)
Theorem C78_right_null_partial : forall m tol A,
  let n := S m in 0 < tol -> let '(F, stop) := lucp n n tol A in
  stop = None -> (forall i, (i < m)%nat -> luU F i i <> 0) -> luU F m m = 0 -> (forall j, (j < n)%nat -> resq F (resq F j) = j) ->
  let v := null_right n F in length v = n /\ dotp v v = 1 /\ mv n n A v = zeros n.
Proof. exact null_right_involutive. Qed.
Print Assumptions C78_right_null_partial.

(** C78: otherwise not: for (0 4 0; 0 0 2; 0 0 0) the answer is -e_1, the kernel is spanned by e_0. *)
Theorem C78_right_null_refuted :
  right_null_vector 3 (cyc 0) = [0; -1; 0] /\ mv 3 3 (cyc 0) [0; -1; 0] = [-4; 0; 0] /\ mv 3 3 (cyc 0) [1; 0; 0] = [0; 0; 0].
Proof. exact null_right_wrong. Qed.
Print Assumptions C78_right_null_refuted.

(** C78: and the caller's float array is overwritten by the factorisation. *)
Theorem C78_argument_kept_refuted :
  lucp_caller 3 3 (/ 10 ^ 8) (cyc 0) 0%nat 0%nat = 4 /\ cyc 0 0%nat 0%nat = 0.
Proof. exact lucp_overwrites. Qed.
Print Assumptions C78_argument_kept_refuted.

(** C79: the function solve. *)
Theorem C79_solve : forall n A L U pr pc b c d f,
  splu_fact n A L U pr pc -> (forall i, (i < n)%nat -> U i i <> 0) -> length b = n -> length c = n -> length f = S n ->
  nonsingular (S n) (bord n A b c d) -> solves (S n) (bord n A b c d) (brd_solve (lu_of n L U pr pc) b c d f) f.
Proof. exact brd_solve_thm. Qed.
Print Assumptions C79_solve.

(** C79: solve_null_nonsing, both systems. *)
Theorem C79_solve_null : forall n A L U pr pc b c d,
  splu_fact n A L U pr pc -> (forall i, (i < n)%nat -> U i i <> 0) -> length b = n -> length c = n ->
  nonsingular (S n) (bord n A b c d) -> let '(v, w) := solve_null_nonsing (lu_of n L U pr pc) b c d in
    solves (S n) (bord n A b c d) v (zeros n ++ [1]) /\ solves (S n) (transp (bord n A b c d)) w (zeros n ++ [1]).
Proof. exact brd_null_thm. Qed.
Print Assumptions C79_solve_null.

(** C79: BMatrix with a non-singular A, solve and solve_null. *)
Theorem C79_bmatrix : forall n A h Rm C b c d r,
  qr_fact n n A h Rm C -> (forall i, (i < n)%nat -> Rm i i <> 0) -> length b = n -> length c = n -> length r = S n ->
  nonsingular (S n) (bord n A b c d) -> let s := bm_new n h Rm C b c d in
  solves (S n) (bord n A b c d) (bm_solve_nonsingular s r) r /\ solves (S n) (bord n A b c d) (bm_solve_null_nonsingular s) (zeros n ++ [1]).
Proof. exact bm_nonsing_thm. Qed.
Print Assumptions C79_bmatrix.

(** C79: BMatrix with a singular A, solve. *)
Theorem C79_bmatrix_singular : forall m A h Rm C b c d r,
  let n := S m in let s := bm_new n h Rm C b c d in
  qr_fact n n A h Rm C -> (forall i, (i < m)%nat -> Rm i i <> 0) -> Rm m m = 0 -> length b = n -> length c = n -> length r = S n ->
  nonsingular (S n) (bord n A b c d) ->
  solves (S n) (bord n A b c d) (bm_solve_singular s r) r.
Proof. exact bm_sing_ok. Qed.
Print Assumptions C79_bmatrix_singular.

(** C79: BMatrix with a singular A, solve_null: the last equation gives b.phi, not 1. *)
Theorem C79_bmatrix_null_partial : forall m A h Rm C b c d,
  let n := S m in let s := bm_new n h Rm C b c d in
  qr_fact n n A h Rm C -> (forall i, (i < m)%nat -> Rm i i <> 0) -> Rm m m = 0 -> length b = n -> length c = n ->
  solves (S n) (bord n A b c d) (bm_solve_null_singular s) (zeros n ++ [dotp b (fst (bm_null s))]).
Proof. exact bm_null_sing_ok. Qed.
Print Assumptions C79_bmatrix_null_partial.

(** C80: right when both permutations of the factorisation are of order two. *)
Theorem C80_brd_null_simp_partial : forall n A b c d eps,
  let '(F, stop) := lucp n n (/ 10 ^ 8) A in
  stop = None -> (forall i, (i < n)%nat -> luU F i i <> 0) -> (forall i, (i < n)%nat -> resp F (resp F i) = i) -> (forall j, (j < n)%nat -> resq F (resq F j) = j) ->
  length b = n -> length c = n -> nonsingular (S n) (bord n A b c d) -> eps <= Rabs (luU F (n - 1)%nat (n - 1)%nat) ->
  exists x, brd_null_simp n A b c d eps = Some x /\ solves (S n) (bord n A b c d) x (zeros n ++ [1]).
Proof. exact brd_null_simp_involutive. Qed.
Print Assumptions C80_brd_null_simp_partial.

(** C80: brd_null_simp with the LUCP factorisation. *)
Theorem C80_brd_null_simp_refuted :
  exists x, brd_null_simp 3 (cyc 1) [1; 0; 0] [1; 0; 0] 1 (/ 10 ^ 8) = Some x /\
  nonsingular 4 (bord 3 (cyc 1) [1; 0; 0] [1; 0; 0] 1) /\ ~ solves 4 (bord 3 (cyc 1) [1; 0; 0] [1; 0; 0] 1) x [0; 0; 0; 1].
Proof. exact brd_null_simp_wrong. Qed.
Print Assumptions C80_brd_null_simp_refuted.

(** C81: the logarithm is right; the sign is right exactly when the column permutation perm_c is even. *)
Theorem C81_logdet_partial : forall n A L U pr pc,
  splu_fact n A L U pr pc -> (forall i, (i < n)%nat -> U i i <> 0) ->
  exists sg ld k, logdet_superlu (lu_of n L U pr pc) = Some (sg, ld) /\ minimumSwaps pc = Some k /\ ld = ln (Rabs (det n A)) /\ (sg = 1 \/ sg = -1) /\ sg * exp ld = (-1) ^ k * det n A.
Proof. exact logdet_spec. Qed.
Print Assumptions C81_logdet_partial.

(** C81: the sign is wrong when it is odd. *)
Theorem C81_logdet_refuted :
  exists A L U pr pc, splu_fact 2 A L U pr pc /\ (forall i, (i < 2)%nat -> U i i <> 0) /\ det 2 A = -1 /\ logdet_superlu (lu_of 2 L U pr pc) = Some (1, 0).
Proof. exact logdet_wrong. Qed.
Print Assumptions C81_logdet_refuted.


(** ** The hypotheses are met by concrete, non-trivial cases *)
(** A = (0 2; 3 1) with rows exchanged: L U = (3 1; 0 2) *)
Definition exB : rmat := fun i j => match i, j with 0%nat, 0%nat => 0 | 0%nat, _ => 2 | _, 0%nat => 3 | _, _ => 1 end.
Definition exU : rmat := fun i j => match i, j with 0%nat, 0%nat => 3 | 0%nat, _ => 1 | _, 0%nat => 0 | _, _ => 2 end.
Definition exI : rmat := fun i j => if Nat.eqb i j then 1 else 0.
Example ex_splu : splu_fact 2 exB exI exU [1; 0]%nat [0; 1]%nat /\ (forall i, (i < 2)%nat -> exU i i <> 0).
Proof.
  split; [|intros [|[|i]] Hi; cbn; lra || lia]. split; [intros i j _ Hj; unfold exI; destruct (Nat.eqb_spec i j); [lia|reflexivity]|]. split; [intros i _; unfold exI; rewrite Nat.eqb_refl; reflexivity|].
  split; [intros [|[|i]] [|[|j]] Hi Hj; try lia; reflexivity|]. split; [apply perm_swap|]. split; [reflexivity|]. intros [|[|i]] [|[|k]] Hi Hk; try lia; cbn; unfold exI; cbn; ring.
Qed.
Example ex_bord : nonsingular 3 (bord 2 exB [1; 0] [0; 1] 1).
Proof.
  intros x Lx H. do 3 (destruct x as [|? x]; try discriminate). destruct x; [|discriminate]. unfold mv, mk, bord, zeros, mk in *. cbn in H.
  assert (H0 := f_equal (fun l => nth 0 l 0) H). assert (H1 := f_equal (fun l => nth 1 l 0) H). assert (H2 := f_equal (fun l => nth 2 l 0) H). cbn in *. repeat (apply f_equal2; [lra|]). reflexivity.
Qed.
(** the singular matrix of PropQR, bordered *)
Example ex_bord_sing : nonsingular 3 (bord 2 exAs [1; 0] [1; 0] 0).
Proof.
  intros x Lx H. do 3 (destruct x as [|? x]; try discriminate). destruct x; [|discriminate]. unfold mv, mk, bord, zeros, mk in *. cbn in H.
  assert (H0 := f_equal (fun l => nth 0 l 0) H). assert (H1 := f_equal (fun l => nth 1 l 0) H). assert (H2 := f_equal (fun l => nth 2 l 0) H). cbn in *. repeat (apply f_equal2; [lra|]). reflexivity.
Qed.
(** lucp of diag(1,0) runs through with the identity permutation: a kernel vector is found *)
Definition exD : rmat := fun i j => match i, j with 0%nat, 0%nat => 1 | _, _ => 0 end.
Example ex_null : let '(F, stop) := lucp 2 2 (/ 10 ^ 8) exD in stop = None /\ (forall i, (i < 1)%nat -> luU F i i <> 0) /\ luU F 1%nat 1%nat = 0 /\ (forall j, (j < 2)%nat -> resq F (resq F j) = j).
Proof.
  unfold lucp. cbn [Nat.min Nat.sub lu_loop]. rewrite (pivot_unique 2 2 0 _ 0 0) by (try lia; intros [|[|i]] [|[|j]] Hi Hj Hne; try lia; try congruence; cbn; rabs).
  assert (/ 10 ^ 8 <= 1) by (apply Rmult_le_reg_l with (10 ^ 8); [lra|]; rewrite Rinv_r; lra).
  match goal with |- context [Rle_dec ?x ?y] => destruct (Rle_dec x y) as [_|N] end; [|exfalso; apply N; cbn -[pow]; rabs]. cbn [luA lup luq luU resq]. split; [reflexivity|].
  split; [intros [|i] Hi; [cbn; lra|lia]|]. split; [cbn; field|]. intros [|[|j]] Hj; try lia; reflexivity.
Qed.
(** the same for diag(1,2): both columns and rows are exchanged, and the bordered matrix is non-singular *)
Definition exE : rmat := fun i j => match i, j with 0%nat, 0%nat => 1 | 1%nat, 1%nat => 2 | _, _ => 0 end.
Example ex_null_simp : (let '(F, stop) := lucp 2 2 (/ 10 ^ 8) exE in stop = None /\ (forall i, (i < 2)%nat -> luU F i i <> 0) /\ (forall i, (i < 2)%nat -> resp F (resp F i) = i) /\ (forall j, (j < 2)%nat -> resq F (resq F j) = j) /\ resq F 0%nat = 1%nat) /\
  nonsingular 3 (bord 2 exE [1; 0] [0; 1] 1).
Proof.
  split.
  - unfold lucp. cbn [Nat.min Nat.sub lu_loop]. rewrite (pivot_unique 2 2 0 _ 1 1) by (try lia; intros [|[|i]] [|[|j]] Hi Hj Hne; try lia; try congruence; cbn; rabs).
    assert (/ 10 ^ 8 <= 1) by (apply Rmult_le_reg_l with (10 ^ 8); [lra|]; rewrite Rinv_r; lra).
    match goal with |- context [Rle_dec ?x ?y] => destruct (Rle_dec x y) as [_|N] end; [|exfalso; apply N; cbn -[pow]; rabs]. cbn [luA lup luq luU resp resq]. split; [reflexivity|].
    split; [intros [|[|i]] Hi; [cbn; lra|cbn; lra|lia]|]. split; [intros [|[|j]] Hj; try lia; reflexivity|]. split; [intros [|[|j]] Hj; try lia; reflexivity|reflexivity].
  - intros x Lx H. do 3 (destruct x as [|? x]; try discriminate). destruct x; [|discriminate]. unfold mv, mk, bord, zeros, mk in *. cbn in H.
    assert (H0 := f_equal (fun l => nth 0 l 0) H). assert (H1 := f_equal (fun l => nth 1 l 0) H). assert (H2 := f_equal (fun l => nth 2 l 0) H). cbn in *. repeat (apply f_equal2; [lra|]). reflexivity.
Qed.
