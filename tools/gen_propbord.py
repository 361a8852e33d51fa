exec(open('/verif/tools/genprop.py').read())
items=[
("C40_bem_solve","bem_solve_correct","C40: one border, A singular or not."),
("C40_bem_solve_adj","bem_solve_adj_correct","C40: the transposed system."),
("C40_bem_solve_zero","bem_solve_zero_correct","C40: right hand side (f, 0)."),
("C40_bem_solve_null_partial","bem_null_nonsing","C40: right hand side (0, 1), inner matrix not singular."),
("C40_bem_solve_null_adj_partial","bem_null_nonsing_adj","C40: the same for the transposed system."),
("C40_bem_solve_null_refuted","bem_null_sing_wrong","C40 is false for solve_null with a singular inner matrix: there the last entry of the image is b.phi, not 1."),
("C40_bem_min_norm","bem_min_norm_correct","C40: min_norm is the shortest solution of the first n equations."),
("C40_bemw_solve","bemw_solve_correct","C40: m borders."),
("C40_bemw_solve_adj","bemw_solve_adj_correct","C40: m borders, the transposed system."),
("C40_bemw_solve_null","bemw_null_correct","C40: m borders, right hand side (0, 1)."),
("C40_bemw_solve_zero","bemw_zero_correct","C40: m borders, right hand side (f, 0)."),
("C40_bemw_min_norm","bemw_min_norm_correct","C40: m borders, the shortest solution of all equations but the last."),
("C41_nullspace_refuted","bem_nullspace_zero","C41 is false: for a regular bordered matrix nullspace returns the zero vector."),
("C41_nullspace_singular_refuted","bem_nullspace_pivot","C41: for a singular bordered matrix it divides by zero."),
("C71_bem_history","bem_history","C71: after any sequence of updates the object is the one built from the current borders."),
("C71_bemw_history","bemw_history_solve","C71: m borders: after any sequence of updates solve and solve_adj solve the current system, whatever the memory of the arrays held."),
]
hdr='''(** Properties of the bordered solvers.  Vocabulary in LASpec.v and BordSpec.v:
    [mv m n A x] matrix times vector, [bord n A b c d] the bordered matrix,
    [bords] several borders, [solves n M x f] means M x = f, [nonsingular]:
    trivial kernel.  [exact_solver], [exact_singular] say that
    the inner solver is exact. *)
From Coq Require Import Reals List Arith Lia Lra Bool.
From Verif Require Import Base LASpec BordModel BordSpec LABase BordProofs BordW BordEx.
Import ListNotations.
Open Scope R_scope.
'''
ex='''
(** ** The hypotheses are met by concrete, non-trivial cases *)
Example ex_regular_hyp : exact_solver 2 A1 s1 /\\ length [1; 0] = 2%nat /\\ length [0; 1] = 2%nat /\\ nonsingular 2 A1 /\\ nonsingular 3 (bord 2 A1 [1; 0] [0; 1] 3).
Proof. split; [exact s1_exact|]. repeat split; [exact A1_nonsing|exact B1_nonsing]. Qed.
Example ex_singular_hyp : exact_singular 2 A2 s2 /\\ nonsingular 3 (bord 2 A2 [2; 0] [1; 0] 0).
Proof. split; [exact s2_exact|exact B2_nonsing]. Qed.
Example ex_borders_hyp : exact_solver 2 A1 s1 /\\ good_borders 2 A1 [[1; 0]; [0; 0; 1]] [[0; 1]; [1; 0; 0]] [3; 1].
Proof. split; [exact s1_exact|exact good1]. Qed.
Example ex_singular_border : ~ nonsingular 3 (bord 2 A1 [1; 0] [0; 1] (-1)).
Proof. exact B3_sing. Qed.
'''
gen('PropBord.v',hdr,items,ex)
