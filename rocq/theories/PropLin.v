(** Properties of the discrete helpers: index tools, compressed sparse
    matrices and dense linear algebra.  Vocabulary: [entry M i j] the dense
    entry and [csm_ok] the format invariant (SparseSpec.v), [kept]/[kept_nat]
    the lines that stay; [det], [hessenberg], [bij] in DetSpec.v; [sorts] in
    SwapSpec.v. *)
From Coq Require Import Reals ZArith List Arith Lia Lra Bool Permutation.
From Verif Require Import Base ToolsModel ToolsProofs SparseModel SparseSpec SparseProofs DetSpec LinModel LinProofs SwapSpec Swaps.
Import ListNotations.
Open Scope R_scope.

(** C38: minimumSwaps returns the least number of exchanges that sort a
    permutation, and every sorting by proper exchanges has its parity. *)
Theorem C38_minimumSwaps : forall l : list nat, Permutation (seq 0 (length l)) l ->
  exists c, minimumSwaps l = Some c /\
    (exists sw, length sw = c /\ sorts sw l) /\
    (forall sw, sorts sw l -> (c <= length sw)%nat) /\
    (forall sw, sorts sw l -> List.Forall (fun p => fst p <> snd p) sw -> Nat.odd (length sw) = Nat.odd c).
Proof. exact minimumSwaps_correct. Qed.
Print Assumptions C38_minimumSwaps.

(** C26. *)
Theorem C26_next_power_of_two : forall (n : Z),
  (2 <= n)%Z ->
  exists p, findNextPowerOf2 n = Some p /\ (n <= p)%Z /\
    (exists k, (0 <= k)%Z /\ p = (2 ^ k)%Z) /\ (forall k, (0 <= k)%Z -> (n <= 2 ^ k)%Z -> (p <= 2 ^ k)%Z).
Proof. exact next_pow2_correct. Qed.
Print Assumptions C26_next_power_of_two.

(** C26: below 2 the answer is 2. *)
Theorem C26_small : forall (n : Z),
  (n <= 1)%Z -> findNextPowerOf2 n = Some 2%Z.
Proof. exact next_pow2_small. Qed.
Print Assumptions C26_small.

(** C26: powers of two are their own answer. *)
Theorem C26_fixed_points : forall (k : Z),
  (1 <= k)%Z -> findNextPowerOf2 (2 ^ k) = Some (2 ^ k)%Z.
Proof. exact next_pow2_fix. Qed.
Print Assumptions C26_fixed_points.

(** C27: delete_col_csc gives a well-formed matrix, the dense matrix without line i. *)
Theorem C27_delete_col : forall M i,
  csm_ok M -> (i < nmaj M)%nat ->
  exists M', delete_col_csc M i = Some M' /\ csm_ok M' /\ nmaj M' = (nmaj M - 1)%nat /\ nmin M' = nmin M /\
    forall k j, (k < nmaj M')%nat -> entry M' k j = entry M (if Nat.ltb k i then k else S k) j.
Proof. exact delete_col_correct. Qed.
Print Assumptions C27_delete_col.

(** C27: an index past the end is rejected. *)
Theorem C27_delete_col_out_of_range : forall M i,
  csm_ok M -> (nmaj M <= i)%nat -> delete_col_csc M i = None.
Proof. exact delete_col_out. Qed.
Print Assumptions C27_delete_col_out_of_range.

(** C27: deleting several distinct columns. *)
Theorem C27_delete_cols : forall M l,
  csm_ok M -> NoDup l -> (forall i, In i l -> (i < nmaj M)%nat) ->
  exists M', delete_cols_csc M l = Some M' /\ csm_ok M' /\ nmin M' = nmin M /\ nmaj M' = length (kept_nat (nmaj M) l) /\
    forall k j, (k < nmaj M')%nat -> entry M' k j = entry M (nth k (kept_nat (nmaj M) l) 0%nat) j.
Proof. exact delete_cols_correct. Qed.
Print Assumptions C27_delete_cols.

(** C27: delete_rows_csr, indices in any order, repeated or negative. *)
Theorem C27_delete_rows : forall M idx,
  csm_ok M -> (forall i, In i idx -> (- Z.of_nat (nmaj M) <= i < Z.of_nat (nmaj M))%Z) ->
  exists M', delete_rows_csr M idx = Some M' /\ csm_ok M' /\ nmin M' = nmin M /\ nmaj M' = length (kept (nmaj M) idx) /\
    forall k j, (k < nmaj M')%nat -> entry M' k j = entry M (nth k (kept (nmaj M) idx) 0%nat) j.
Proof. exact delete_rows_correct. Qed.
Print Assumptions C27_delete_rows.

(** C27: one index out of range and the call is rejected. *)
Theorem C27_delete_rows_out_of_range : forall M idx i,
  In i idx -> (i < - Z.of_nat (nmaj M) \/ Z.of_nat (nmaj M) <= i)%Z -> delete_rows_csr M idx = None.
Proof. exact delete_rows_bad. Qed.
Print Assumptions C27_delete_rows_out_of_range.

(** C27: csr_vappend stacks the rows of b under those of a. *)
Theorem C27_vappend : forall a b,
  csm_ok a -> csm_ok b -> nmin a = nmin b ->
  let M := csr_vappend a b in
  csm_ok M /\ nmaj M = (nmaj a + nmaj b)%nat /\ nmin M = nmin a /\
  forall k j, (k < nmaj M)%nat -> entry M k j = if Nat.ltb k (nmaj a) then entry a k j else entry b (k - nmaj a) j.
Proof. exact vappend_correct. Qed.
Print Assumptions C27_vappend.

(** C28 is false: removing row 1 of the 3x3 identity changes row 0 and leaves malformed arrays. *)
Theorem C28_delete_row_refuted :
  csm_ok eye3 /\ exists M', delete_row_csr eye3 1 = Some M' /\ entry M' 0 0 <> entry eye3 0 0 /\ ~ csm_ok M'.
Proof. exact delete_row_refuted. Qed.
Print Assumptions C28_delete_row_refuted.

(** C28 is false whenever the row has n > 0 stored entries and n is not i+1: the index and value arrays of the result have different lengths. *)
Theorem C28_delete_row_malformed_refuted : forall M i,
  csm_ok M -> (i < nmaj M)%nat ->
  let n := (nth (S i) (indptr M) 0 - nth i (indptr M) 0)%nat in
  (0 < n)%nat -> Nat.min (i + 1) (length (data M)) <> n ->
  exists M', delete_row_csr M i = Some M' /\ length (indices M') <> length (data M') /\ ~ csm_ok M'.
Proof. exact delete_row_malformed. Qed.
Print Assumptions C28_delete_row_malformed_refuted.

(** C28 holds for a row without stored entries. *)
Theorem C28_delete_empty_row_partial : forall M i,
  csm_ok M -> (i < nmaj M)%nat -> nth (S i) (indptr M) 0%nat = nth i (indptr M) 0%nat ->
  exists M', delete_row_csr M i = Some M' /\ csm_ok M' /\ nmaj M' = (nmaj M - 1)%nat /\ nmin M' = nmin M /\
    forall k j, (k < nmaj M')%nat -> entry M' k j = entry M (if Nat.ltb k i then k else S k) j.
Proof. exact delete_row_empty. Qed.
Print Assumptions C28_delete_empty_row_partial.

(** C36.  [fuel] bounds the two scaling loops; they always end. *)
Theorem C36_givens : forall f g,
  exists N c s r, (forall fuel, (N <= fuel)%nat -> givens fuel f g = Some (c, s, r)) /\
  c * f + s * g = r /\ - s * f + c * g = 0 /\ c * c + s * s = 1 /\ (Rabs g < Rabs f -> 0 <= c).
Proof. exact givens_correct. Qed.
Print Assumptions C36_givens.

(** C37: sign and log of the determinant; a singular matrix raises (log of zero). *)
Theorem C37_slogdet_hessenberg : forall n M,
  hessenberg n M ->
  exists N, forall fuel, (N <= fuel)%nat ->
    (det n M <> 0 -> slogdet_hessenberg fuel n M = Done (sgn (det n M), ln (Rabs (det n M)))) /\
    (det n M = 0 -> slogdet_hessenberg fuel n M = Raises).
Proof. exact slogdet_hessenberg_correct. Qed.
Print Assumptions C37_slogdet_hessenberg.

(** C37 is false for detH: a 4x4 matrix with determinant 4 gets 6; a 1x1 matrix raises. *)
Theorem C37_detH_refuted :
  hessenberg 4 hess4 /\ det 4 hess4 = 4 /\ detH 4 hess4 = Some 6 /\ detH 1 (fun _ _ => 1) = None.
Proof. exact detH_refuted. Qed.
Print Assumptions C37_detH_refuted.

(** C37: detH is right for orders two and three. *)
Theorem C37_detH_partial : forall A,
  hessenberg 3 A -> detH 2 A = Some (det 2 A) /\ detH 3 A = Some (det 3 A).
Proof. exact detH_small. Qed.
Print Assumptions C37_detH_partial.

(** C39: P A Q = L U, exactly if no small pivot stopped the elimination (stop = None), else up to tol + min(n,m) tol^2. *)
Theorem C39_lucp : forall n m tol A,
  0 < tol ->
  let '(F, stop) := lucp n m tol A in
  let LU := fun i j => rsum (Nat.min n m) (fun l => luL F i l * luU F l j) in
  bij n (resp F) /\ bij m (resq F) /\
  (forall i j, (i < j)%nat -> luL F i j = 0) /\ (forall i, luL F i i = 1) /\ (forall i j, (j < i)%nat -> luU F i j = 0) /\
  (stop = None -> forall i j, (i < n)%nat -> (j < m)%nat -> A (resp F i) (resq F j) = LU i j) /\
  (stop = None -> forall i j, (i < n)%nat -> (j < Nat.min n m)%nat -> Rabs (luL F i j) <= 1) /\
  (forall i j, (i < n)%nat -> (j < m)%nat -> Rabs (A (resp F i) (resq F j) - LU i j) <= tol + INR (Nat.min n m) * (tol * tol)).
Proof. exact lucp_correct. Qed.
Print Assumptions C39_lucp.

(** C56: remove_bc drops the leading bw entries of every block. *)
Theorem C56_remove_bc : forall cols n bw,
  (1 <= length cols)%nat -> List.Forall (fun c => length c = n) cols -> (bw <= n)%nat ->
  remove_bc (concat cols) (length cols) bw = Some (map (skipn bw) cols).
Proof. exact remove_bc_correct. Qed.
Print Assumptions C56_remove_bc.

(** C56: get_bc returns the leading bw entries of every block. *)
Theorem C56_get_bc : forall cols n bw,
  (1 <= length cols)%nat -> List.Forall (fun c => length c = n) cols -> (bw <= n)%nat ->
  get_bc (concat cols) (length cols) bw = Some (concat (map (firstn bw) cols)).
Proof. exact get_bc_correct. Qed.
Print Assumptions C56_get_bc.

(** C56: replace_bc shifts every block up by bw and fills with zeros. *)
Theorem C56_replace_bc : forall cols n bw,
  (1 <= length cols)%nat -> List.Forall (fun c => length c = n) cols -> (bw <= n)%nat ->
  replace_bc (concat cols) (length cols) bw = Some (concat (map (fun c => skipn bw c ++ repeat 0 bw) cols)).
Proof. exact replace_bc_correct. Qed.
Print Assumptions C56_replace_bc.

(** C57: round_up gives the least multiple of the divisor not below num. *)
Theorem C57_round_up : forall num divisor,
  0 < divisor ->
  exists r k, round_up num divisor = Some r /\ r = IZR k * divisor /\ num <= r < num + divisor.
Proof. exact round_up_correct. Qed.
Print Assumptions C57_round_up.

(** C57: secant gives the zero of the line through the two points. *)
Theorem C57_secant : forall s1 d1 s2 d2,
  d1 <> d2 ->
  exists s, secant s1 d1 s2 d2 = Some s /\
    (forall q : R -> R, (exists a b, forall t, q t = a * t + b) -> q s1 = d1 -> q s2 = d2 -> q s = 0).
Proof. exact secant_correct. Qed.
Print Assumptions C57_secant.

(** C57: entry i of the moving average is the mean of n consecutive entries from i. *)
Theorem C57_moving_average : forall a n,
  (1 <= n <= length a)%nat ->
  length (moving_average a n) = (length a + 1 - n)%nat /\
  forall i, (i + n <= length a)%nat -> nth i (moving_average a n) 0 = rsum n (fun k => nth (i + k) a 0) / INR n.
Proof. exact moving_average_correct. Qed.
Print Assumptions C57_moving_average.

(** C57: find_nearest returns an entry of least distance. *)
Theorem C57_find_nearest : forall l v,
  l <> [] ->
  exists i x, find_nearest_idx l v = Some i /\ (i < length l)%nat /\ nth i l 0 = x /\ find_nearest l v = Some x /\
    forall y, In y l -> Rabs (x - v) <= Rabs (y - v).
Proof. exact find_nearest_correct. Qed.
Print Assumptions C57_find_nearest.

(** C57: an empty array is rejected. *)
Theorem C57_find_nearest_empty : forall v,
  find_nearest [] v = None.
Proof. exact find_nearest_empty. Qed.
Print Assumptions C57_find_nearest_empty.

(** C58: entries smaller than e become 0, all others are unchanged, no zero stays stored. *)
Theorem C58_eliminate_zeros : forall M e,
  csm_ok M -> no_dup M ->
  let M' := eliminate_zeros M e in
  csm_ok M' /\ nmaj M' = nmaj M /\ nmin M' = nmin M /\ List.Forall (fun v => v <> 0) (data M') /\
  forall i j, (i < nmaj M)%nat -> entry M' i j = if Rlt_dec (Rabs (entry M i j)) e then 0 else entry M i j.
Proof. exact eliminate_zeros_correct. Qed.
Print Assumptions C58_eliminate_zeros.

(** C58: flip_rows with order p puts row p[k] in position k. *)
Theorem C58_flip_rows : forall M order,
  csm_ok M -> Permutation (seq 0 (nmaj M)) order ->
  exists M', flip_rows M order = Some M' /\ csm_ok M' /\ nmaj M' = nmaj M /\ nmin M' = nmin M /\
    forall k j, (k < nmaj M)%nat -> entry M' k j = entry M (nth k order 0%nat) j.
Proof. exact flip_rows_correct. Qed.
Print Assumptions C58_flip_rows.


(** ** The hypotheses are met by concrete, non-trivial objects *)
Example ex_perm : Permutation (seq 0 (length [2; 0; 1; 4; 3]%nat)) [2; 0; 1; 4; 3]%nat /\ minimumSwaps [2; 0; 1; 4; 3]%nat = Some 3%nat.
Proof.
  split; [|reflexivity]. apply NoDup_Permutation.
  - apply seq_NoDup.
  - repeat constructor; cbn; lia.
  - intros x. cbn. lia.
Qed.
Example ex_pow2 : findNextPowerOf2 100 = Some 128%Z. Proof. reflexivity. Qed.
(** [[5,0,7],[0,0,0],[0,2,3]] *)
Definition ex_csm : csm := mkCsm [5; 7; 2; 3] [0; 2; 1; 2]%nat [0; 2; 2; 4]%nat 3 3.
Example ex_csm_ok : csm_ok ex_csm /\ no_dup ex_csm /\ entry ex_csm 0 2 = 7 /\ entry ex_csm 2 1 = 2.
Proof.
  split; [|split; [|unfold entry; cbn; lra]].
  - unfold csm_ok, ex_csm. cbn. repeat split; try lia; [|repeat constructor]. intros [|[|[|i]]] Hi; cbn; lia.
  - intros i p q Hi H1 H2 H3. cbn in *. destruct i as [|[|[|i]]]; try lia;
    destruct p as [|[|[|[|p]]]], q as [|[|[|[|q]]]]; cbn in *; try lia.
Qed.
Example ex_empty_row : nth 2 (indptr ex_csm) 0%nat = nth 1 (indptr ex_csm) 0%nat. Proof. reflexivity. Qed.
Example ex_delete_rows : (forall i, In i [-1; 0; 2]%Z -> (- Z.of_nat (nmaj ex_csm) <= i < Z.of_nat (nmaj ex_csm))%Z) /\ kept 3 [-1; 0; 2]%Z = [1%nat].
Proof. split; [|reflexivity]. intros i [<-|[<-|[<-|[]]]]; cbn; lia. Qed.
Example ex_flip : Permutation (seq 0 (nmaj ex_csm)) [2; 0; 1]%nat.
Proof. apply NoDup_Permutation; [apply seq_NoDup|repeat constructor; cbn; lia|intros x; cbn; lia]. Qed.
Definition ex_hess (i j : nat) : R := if Nat.leb i (S j) then INR (i + 2 * j + 1) else 0.
Example ex_hess_ok : hessenberg 3 ex_hess /\ det 3 ex_hess <> 0.
Proof. split; [intros i j _ H; unfold ex_hess; destruct (Nat.leb_spec i (S j)); [lia|reflexivity]|]. unfold det, dropcol, ex_hess. cbn. lra. Qed.
Example ex_blocks : List.Forall (fun c => length c = 3%nat) [[1; 2; 3]; [4; 5; 6]].
Proof. repeat constructor. Qed.
