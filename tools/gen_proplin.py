exec(open('/verif/tools/genprop.py').read())
items=[
("C26_next_power_of_two","next_pow2_correct","C26."),
("C26_small","next_pow2_small","C26: below 2 the answer is 2."),
("C26_fixed_points","next_pow2_fix","C26: powers of two are their own answer."),
("C27_delete_col","delete_col_correct","C27: delete_col_csc gives a well-formed matrix, the dense matrix without line i."),
("C27_delete_col_out_of_range","delete_col_out","C27: an index past the end is rejected."),
("C27_delete_cols","delete_cols_correct","C27: deleting several distinct columns."),
("C27_delete_rows","delete_rows_correct","C27: delete_rows_csr, indices in any order, repeated or negative."),
("C27_delete_rows_out_of_range","delete_rows_bad","C27: one index out of range and the call is rejected."),
("C27_vappend","vappend_correct","C27: csr_vappend stacks the rows of b under those of a."),
("C28_delete_row_refuted","delete_row_refuted","C28 is false: removing row 1 of the 3x3 identity changes row 0 and leaves malformed arrays."),
("C28_delete_row_malformed_refuted","delete_row_malformed","C28 is false whenever the row has n > 0 stored entries and n is not i+1: the index and value arrays of the result have different lengths."),
("C28_delete_empty_row_partial","delete_row_empty","C28 holds for a row without stored entries."),
("C36_givens","givens_correct","C36.  [fuel] bounds the two scaling loops; they always end."),
("C37_slogdet_hessenberg","slogdet_hessenberg_correct","C37: sign and log of the determinant; a singular matrix raises (log of zero)."),
("C37_detH_refuted","detH_refuted","C37 is false for detH: a 4x4 matrix with determinant 4 gets 6; a 1x1 matrix raises."),
("C37_detH_partial","detH_small","C37: detH is right for orders two and three."),
("C39_lucp","lucp_correct","C39: P A Q = L U, exactly if no small pivot stopped the elimination (stop = None), else up to tol + min(n,m) tol^2."),
("C56_remove_bc","remove_bc_correct","C56: remove_bc drops the leading bw entries of every block."),
("C56_get_bc","get_bc_correct","C56: get_bc returns the leading bw entries of every block."),
("C56_replace_bc","replace_bc_correct","C56: replace_bc shifts every block up by bw and fills with zeros."),
("C57_round_up","round_up_correct","C57: round_up gives the least multiple of the divisor not below num."),
("C57_secant","secant_correct","C57: secant gives the zero of the line through the two points."),
("C57_moving_average","moving_average_correct","C57: entry i of the moving average is the mean of n consecutive entries from i."),
("C57_find_nearest","find_nearest_correct","C57: find_nearest returns an entry of least distance."),
("C57_find_nearest_empty","find_nearest_empty","C57: an empty array is rejected."),
("C58_eliminate_zeros","eliminate_zeros_correct","C58: entries smaller than e become 0, all others are unchanged, no zero stays stored."),
("C58_flip_rows","flip_rows_correct","C58: flip_rows with order p puts row p[k] in position k."),
]
hdr='''(** Properties of the discrete helpers: index tools, compressed sparse
    matrices and dense linear algebra.  Vocabulary: [entry M i j] the dense
    entry and [csm_ok] the format invariant (SparseSpec.v), [kept]/[kept_nat]
    the lines that stay; [det], [hessenberg], [bij] in DetSpec.v; [sorts] in
    SwapSpec.v. *)
From Coq Require Import Reals ZArith List Arith Lia Lra Bool Permutation.
From Verif Require Import Base ToolsModel ToolsProofs SparseModel SparseSpec SparseProofs DetSpec LinModel LinProofs SwapSpec Swaps.
Import ListNotations.
Open Scope R_scope.

(** C38: minimumSwaps returns the least number of exchanges that sort a
    permutation, and every sorting by proper exchanges has its parity. *)
Theorem C38_minimumSwaps : forall l : list nat, Permutation (seq 0 (length l)) l ->
  exists c, minimumSwaps l = Some c /\\
    (exists sw, length sw = c /\\ sorts sw l) /\\
    (forall sw, sorts sw l -> (c <= length sw)%nat) /\\
    (forall sw, sorts sw l -> List.Forall (fun p => fst p <> snd p) sw -> Nat.odd (length sw) = Nat.odd c).
Proof. exact minimumSwaps_correct. Qed.
Print Assumptions C38_minimumSwaps.
'''
ex='''
(** ** The hypotheses are met by concrete, non-trivial objects *)
Example ex_perm : Permutation (seq 0 (length [2; 0; 1; 4; 3]%nat)) [2; 0; 1; 4; 3]%nat /\\ minimumSwaps [2; 0; 1; 4; 3]%nat = Some 3%nat.
Proof.
  split; [|reflexivity]. apply NoDup_Permutation.
  - apply seq_NoDup.
  - repeat constructor; cbn; lia.
  - intros x. cbn. lia.
Qed.
Example ex_pow2 : findNextPowerOf2 100 = Some 128%Z. Proof. reflexivity. Qed.
(** [[5,0,7],[0,0,0],[0,2,3]] *)
Definition ex_csm : csm := mkCsm [5; 7; 2; 3] [0; 2; 1; 2]%nat [0; 2; 2; 4]%nat 3 3.
Example ex_csm_ok : csm_ok ex_csm /\\ no_dup ex_csm /\\ entry ex_csm 0 2 = 7 /\\ entry ex_csm 2 1 = 2.
Proof.
  split; [|split; [|unfold entry; cbn; lra]].
  - unfold csm_ok, ex_csm. cbn. repeat split; try lia; [|repeat constructor]. intros [|[|[|i]]] Hi; cbn; lia.
  - intros i p q Hi H1 H2 H3. cbn in *. destruct i as [|[|[|i]]]; try lia;
    destruct p as [|[|[|[|p]]]], q as [|[|[|[|q]]]]; cbn in *; try lia.
Qed.
Example ex_empty_row : nth 2 (indptr ex_csm) 0%nat = nth 1 (indptr ex_csm) 0%nat. Proof. reflexivity. Qed.
Example ex_delete_rows : (forall i, In i [-1; 0; 2]%Z -> (- Z.of_nat (nmaj ex_csm) <= i < Z.of_nat (nmaj ex_csm))%Z) /\\ kept 3 [-1; 0; 2]%Z = [1%nat].
Proof. split; [|reflexivity]. intros i [<-|[<-|[<-|[]]]]; cbn; lia. Qed.
Example ex_flip : Permutation (seq 0 (nmaj ex_csm)) [2; 0; 1]%nat.
Proof. apply NoDup_Permutation; [apply seq_NoDup|repeat constructor; cbn; lia|intros x; cbn; lia]. Qed.
Definition ex_hess (i j : nat) : R := if Nat.leb i (S j) then INR (i + 2 * j + 1) else 0.
Example ex_hess_ok : hessenberg 3 ex_hess /\\ det 3 ex_hess <> 0.
Proof. split; [intros i j _ H; unfold ex_hess; destruct (Nat.leb_spec i (S j)); [lia|reflexivity]|]. unfold det, dropcol, ex_hess. cbn. lra. Qed.
Example ex_blocks : List.Forall (fun c => length c = 3%nat) [[1; 2; 3]; [4; 5; 6]].
Proof. repeat constructor. Qed.
'''
gen('PropLin.v',hdr,items,ex)
