exec(open('/verif/tools/genprop.py').read())
items=[
("C78_right_null_partial","null_right_involutive","C78: when the column exchanges form a permutation of order two, right_null_vector is a unit vector of the kernel."),
("C78_right_null_refuted","null_right_wrong","C78: otherwise not: for (0 4 0; 0 0 2; 0 0 0) the answer is -e_1, the kernel is spanned by e_0."),
("C78_argument_kept_refuted","lucp_overwrites","C78: and the caller's float array is overwritten by the factorisation."),
("C79_solve","brd_solve_thm","C79: the function solve."),
("C79_solve_null","brd_null_thm","C79: solve_null_nonsing, both systems."),
("C79_bmatrix","bm_nonsing_thm","C79: BMatrix with a non-singular A, solve and solve_null."),
("C79_bmatrix_singular","bm_sing_ok","C79: BMatrix with a singular A, solve."),
("C79_bmatrix_null_partial","bm_null_sing_ok","C79: BMatrix with a singular A, solve_null: the last equation gives b.phi, not 1."),
("C80_brd_null_simp_partial","brd_null_simp_involutive","C80: right when both permutations of the factorisation are of order two."),
("C80_brd_null_simp_refuted","brd_null_simp_wrong","C80: brd_null_simp with the LUCP factorisation."),
("C81_logdet_partial","logdet_spec","C81: the logarithm is right; the sign is right exactly when the column permutation perm_c is even."),
("C81_logdet_refuted","logdet_wrong","C81: the sign is wrong when it is odd."),
]
hdr='''(** Properties of brd_solve.py, nullspace.py and logdet (helpers.py).
    Vocabulary: BrdSpec.v ([splu_fact], what SuperLU promises), QRSpec.v
    ([qr_fact]), LASpec.v ([mv], [solves], [bord], [nonsingular]), DetSpec.v. *)
From Coq Require Import Reals List Arith Lia Lra Bool Permutation.
From Verif Require Import Base LASpec BordModel BordSpec LABase BordProofs DetSpec LinModel LinProofs QRModel QRSpec QRProofs QRDet BrdModel BrdSpec BrdProofs BrdMore BrdRefute PropQR.
Import ListNotations.
Open Scope R_scope.
'''
ex='''
(** ** The hypotheses are met by concrete, non-trivial cases *)
(** A = (0 2; 3 1) with rows exchanged: L U = (3 1; 0 2) *)
Definition exB : rmat := fun i j => match i, j with 0%nat, 0%nat => 0 | 0%nat, _ => 2 | _, 0%nat => 3 | _, _ => 1 end.
Definition exU : rmat := fun i j => match i, j with 0%nat, 0%nat => 3 | 0%nat, _ => 1 | _, 0%nat => 0 | _, _ => 2 end.
Definition exI : rmat := fun i j => if Nat.eqb i j then 1 else 0.
Example ex_splu : splu_fact 2 exB exI exU [1; 0]%nat [0; 1]%nat /\\ (forall i, (i < 2)%nat -> exU i i <> 0).
Proof.
  split; [|intros [|[|i]] Hi; cbn; lra || lia]. split; [intros i j _ Hj; unfold exI; destruct (Nat.eqb_spec i j); [lia|reflexivity]|]. split; [intros i _; unfold exI; rewrite Nat.eqb_refl; reflexivity|].
  split; [intros [|[|i]] [|[|j]] Hi Hj; try lia; reflexivity|]. split; [apply perm_swap|]. split; [reflexivity|]. intros [|[|i]] [|[|k]] Hi Hk; try lia; cbn; unfold exI; cbn; ring.
Qed.
Example ex_bord : nonsingular 3 (bord 2 exB [1; 0] [0; 1] 1).
Proof.
  intros x Lx H. do 3 (destruct x as [|? x]; try discriminate). destruct x; [|discriminate]. unfold mv, mk, bord, zeros, mk in *. cbn in H.
  assert (H0 := f_equal (fun l => nth 0 l 0) H). assert (H1 := f_equal (fun l => nth 1 l 0) H). assert (H2 := f_equal (fun l => nth 2 l 0) H). cbn in *. repeat (apply f_equal2; [lra|]). reflexivity.
Qed.
(** the singular matrix of PropQR, bordered *)
Example ex_bord_sing : nonsingular 3 (bord 2 exAs [1; 0] [1; 0] 0).
Proof.
  intros x Lx H. do 3 (destruct x as [|? x]; try discriminate). destruct x; [|discriminate]. unfold mv, mk, bord, zeros, mk in *. cbn in H.
  assert (H0 := f_equal (fun l => nth 0 l 0) H). assert (H1 := f_equal (fun l => nth 1 l 0) H). assert (H2 := f_equal (fun l => nth 2 l 0) H). cbn in *. repeat (apply f_equal2; [lra|]). reflexivity.
Qed.
(** lucp of diag(1,0) runs through with the identity permutation: a kernel vector is found *)
Definition exD : rmat := fun i j => match i, j with 0%nat, 0%nat => 1 | _, _ => 0 end.
Example ex_null : let '(F, stop) := lucp 2 2 (/ 10 ^ 8) exD in stop = None /\\ (forall i, (i < 1)%nat -> luU F i i <> 0) /\\ luU F 1%nat 1%nat = 0 /\\ (forall j, (j < 2)%nat -> resq F (resq F j) = j).
Proof.
  unfold lucp. cbn [Nat.min Nat.sub lu_loop]. rewrite (pivot_unique 2 2 0 _ 0 0) by (try lia; intros [|[|i]] [|[|j]] Hi Hj Hne; try lia; try congruence; cbn; rabs).
  assert (/ 10 ^ 8 <= 1) by (apply Rmult_le_reg_l with (10 ^ 8); [lra|]; rewrite Rinv_r; lra).
  match goal with |- context [Rle_dec ?x ?y] => destruct (Rle_dec x y) as [_|N] end; [|exfalso; apply N; cbn -[pow]; rabs]. cbn [luA lup luq luU resq]. split; [reflexivity|].
  split; [intros [|i] Hi; [cbn; lra|lia]|]. split; [cbn; field|]. intros [|[|j]] Hj; try lia; reflexivity.
Qed.
(** the same for diag(1,2): both columns and rows are exchanged, and the bordered matrix is non-singular *)
Definition exE : rmat := fun i j => match i, j with 0%nat, 0%nat => 1 | 1%nat, 1%nat => 2 | _, _ => 0 end.
Example ex_null_simp : (let '(F, stop) := lucp 2 2 (/ 10 ^ 8) exE in stop = None /\\ (forall i, (i < 2)%nat -> luU F i i <> 0) /\\ (forall i, (i < 2)%nat -> resp F (resp F i) = i) /\\ (forall j, (j < 2)%nat -> resq F (resq F j) = j) /\\ resq F 0%nat = 1%nat) /\\
  nonsingular 3 (bord 2 exE [1; 0] [0; 1] 1).
Proof.
  split.
  - unfold lucp. cbn [Nat.min Nat.sub lu_loop]. rewrite (pivot_unique 2 2 0 _ 1 1) by (try lia; intros [|[|i]] [|[|j]] Hi Hj Hne; try lia; try congruence; cbn; rabs).
    assert (/ 10 ^ 8 <= 1) by (apply Rmult_le_reg_l with (10 ^ 8); [lra|]; rewrite Rinv_r; lra).
    match goal with |- context [Rle_dec ?x ?y] => destruct (Rle_dec x y) as [_|N] end; [|exfalso; apply N; cbn -[pow]; rabs]. cbn [luA lup luq luU resp resq]. split; [reflexivity|].
    split; [intros [|[|i]] Hi; [cbn; lra|cbn; lra|lia]|]. split; [intros [|[|j]] Hj; try lia; reflexivity|]. split; [intros [|[|j]] Hj; try lia; reflexivity|reflexivity].
  - intros x Lx H. do 3 (destruct x as [|? x]; try discriminate). destruct x; [|discriminate]. unfold mv, mk, bord, zeros, mk in *. cbn in H.
    assert (H0 := f_equal (fun l => nth 0 l 0) H). assert (H1 := f_equal (fun l => nth 1 l 0) H). assert (H2 := f_equal (fun l => nth 2 l 0) H). cbn in *. repeat (apply f_equal2; [lra|]). reflexivity.
Qed.
'''
gen('PropBrd.v',hdr,items,ex)
