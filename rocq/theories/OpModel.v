(** Assembly of the ultraspherical discretisation of a linear operator. *)
From Coq Require Import Reals ZArith List Arith Bool.
From Verif Require Import Base ChebSpec ChebModel UltraSpec UltraModel FunModel FnlModel.
Import ListNotations.
Open Scope R_scope.

(** QuasiOpBlock, funpy/colloc/quasiOpBlock.py 8-57: the coefficients of one block as
    produced by LinBlock.quasi (linBlock.py 80-120): [q_coeffs] are the simplified
    coefficient functions a_0, a_1, ... (one column of Chebyshev coefficients each),
    [q_ics] / [q_ints] the functions c_k, d_k of the integral terms ([] when the
    attribute is None), [q_info] the flags of source/OperatorSourceBlock.py 104-118:
    one per derivative order, the last one for the integral terms.
    Simplified: nl_coeffs (never set by LinBlock.quasi) is left out. *)
Record qblock := mkQ { q_info : list bool; q_coeffs : list (list R); q_ics : list (list R); q_ints : list (list R) }.

(** zeromat, funpy/colloc/ultraS/matrices.py *)
Definition zeromat : mat := fun _ _ => 0.

(** ultraS.convert, funpy/colloc/ultraS/ultraS.py 34-43, with K2 = getOutputSpace() - 1
    and K = getOutputSpace() >= 0 (for K = 0 the range K1..-1 is empty).
    One interval only, so block_diag is the block (used throughout this file). *)
Definition us_convert (n K K1 : nat) : mat := match K with O => eye | S q => convertmat n K1 q end.
(** ultraS.iconvert, ultraS.py 45-54 *)
Definition us_iconvert (n K K1 : nat) : mat := match K with O => eye | S q => convertmat_inv n K1 q end.
(** ultraS.diff, ultraS.py 56-69; [len] = domain[1] - domain[0] *)
Definition us_diff (n : nat) (len : R) (m : nat) : mat := match m with O => eye | S _ => mscal ((2 / len) ^ m) (diffmat n m) end.
(** ultraS.int, ultraS.py 71-80 *)
Definition us_int (n : nat) (len : R) : mat := mscal (/ 2 * len) (intmat n).

(** one derivative term, ultraS.py 170-176 *)
Definition us_term (n K : nat) (len eps : R) (a : list R) (j : nat) : mat :=
  matmul n (matmul n (us_convert n K j) (multmat n a j eps)) (us_diff n len j).
(** one integral term, ultraS.py 198-199 *)
Definition us_iterm (n K : nat) (len eps : R) (c d : list R) : mat :=
  matmul n (matmul n (matmul n (us_convert n K 0) (multmat n c 0 eps)) (us_int n len)) (multmat n d 0 eps).

(** ultraS.quasi2diffmat, ultraS.py 120-213: the matrix L of one block.
    [eps] is multmat's threshold. *)
Definition us_block (adj : bool) (n K : nat) (len eps : R) (q : qblock) : mat :=
  let L := fold_left (fun L j => if nth j (q_info q) false
                                 then (if adj && Nat.odd j then madd L (mscal (-1) (us_term n K len eps (nth j (q_coeffs q) []) j))
                                       else madd L (us_term n K len eps (nth j (q_coeffs q) []) j))
                                 else L) (seq 0 (length (q_coeffs q))) zeromat in
  if last (q_info q) false then
    let cs := if adj then q_ints q else q_ics q in
    let ds := if adj then q_ics q else q_ints q in
    fold_left (fun L k => madd L (us_iterm n K len eps (nth k cs []) (nth k ds []))) (seq 0 (length cs)) L
  else L.
(** the basis conversion S of the block, ultraS.py 207-213: zero off the diagonal *)
Definition us_conv_block (adj : bool) (n K : nat) (diag : bool) : mat :=
  if diag then (if adj then us_iconvert n K 0 else us_convert n K 0) else zeromat.

(** delete_rows on dense rows (C27: sparse/csr.py delete_rows does this to the stored matrix) *)
Definition drop_rows (v : list nat) (rows : list (list R)) : list (list R) :=
  map (fun r => nth r rows []) (filter (fun r => negb (existsb (Nat.eqb r) v)) (seq 0 (length rows))).

(** instantiate (coeffsDiscretization.py 52-75), reduce and reduceOne (ultraS.py 91-118,
    matrices.py 226-268) and the final sps.bmat: from the m x m blocks [blk e q], each
    n x n, to the rows of the rectangular matrix; in every equation the last [p] rows go. *)
Definition assemble (n m p : nat) (blk : nat -> nat -> mat) : list (list R) :=
  concat (mk m (fun e =>
    drop_rows (map (fun k => (n - k)%nat) (seq 1 p))
      (mk n (fun r => concat (mk m (fun q => mk n (fun c => blk e q r c))))))).

(** OpDiscretization.matrix, OpDiscretization.py 63-93: constraint rows (value functionals
    [fs], converted by getConstraints/convertFunctional, coeffsDiscretization.py 97-144)
    stacked on the projected operator. projOrder = K is both the number of dropped rows
    and the output space (LinSysBase.py 66-75). *)
Definition us_matrix (n m K : nat) (len eps : R) (Q : nat -> nat -> qblock) (fs : list (list R)) : list (list R) :=
  map (convert_functional n m) fs ++ assemble n m K (fun e q => us_block false n K len eps (Q e q)).

(** matrix times vector on row lists *)
Definition rows_apply (M : list (list R)) (x : list R) : list R := map (fun r => dotl r x) M.

(** ultraS.project_vector, ultraS.py 262-290, with basis=True: [cts] is
    source.cts_res when cts=True, zeros otherwise; [f] is the flattened n x m right hand side. *)
Definition us_project (n m K : nat) (cts f : list R) : list R :=
  cts ++ rows_apply (assemble n m K (fun e q => us_conv_block false n K (Nat.eqb e q))) f.

(** ** arithmetic of operators, funpy/colloc/quasiOpBlock.py 62-170 *)
(** sum of two functions given by coefficients (Fun.__add__: the shorter one is padded, C11) *)
Definition cadd (c d : list R) : list R := mk (Nat.max (length c) (length d)) (fun i => nth i c 0 + nth i d 0).
(** -f *)
Definition cneg (c : list R) : list R := map Ropp c.
(** the two index loops of __add__ (lines 94-97, 120-127): over the size of self; other[i] must exist *)
Definition loop_add (l l' : list (list R)) : option (list (list R)) :=
  if Nat.leb (length l) (length l') then Some (mk (length l) (fun i => cadd (nth i l []) (nth i l' []))) else None.
(** QuasiOpBlock.__add__, quasiOpBlock.py 93-143; None = an exception (IndexError in a loop,
    ValueError when numpy cannot broadcast the two flag arrays: both have at least two entries) *)
Definition q_add (q r : qblock) : option qblock :=
  match loop_add (q_coeffs q) (q_coeffs r) with
  | None => None
  | Some cs =>
      let info := if Nat.eqb (length (q_info q)) (length (q_info r))
                  then Some (mk (length (q_info q)) (fun i => nth i (q_info q) false || nth i (q_info r) false)) else None in
      let nl := match q_ics q, q_ics r with
                | [], _ => Some (q_ics r, q_ints r)
                | _, [] => Some (q_ics q, q_ints q)
                | _, _ => match loop_add (q_ics q) (q_ics r), loop_add (q_ints q) (q_ints r) with
                          | Some a, Some b => Some (a, b)
                          | _, _ => None
                          end
                end in
      match info, nl with
      | Some i, Some (a, b) => Some (mkQ i cs a b)
      | _, _ => None
      end
  end.
(** QuasiOpBlock.__neg__, quasiOpBlock.py 65-91: the loops over the integral terms assign to the
    array itself, so only the negated last function is left.  Simplified: that Fun, which the
    assembly later indexes like an array of functions, is a one-element list; this is how
    ultraS.quasi2diffmat reads it when it has one coefficient (otherwise it raises). *)
Definition q_neg (q : qblock) : qblock :=
  mkQ (q_info q) (map cneg (q_coeffs q))
      (match q_ics q with [] => [] | _ => [cneg (last (q_ics q) [])] end)
      (match q_ints q with [] => [] | _ => [cneg (last (q_ints q) [])] end).
(** QuasiOpBlock.__sub__, quasiOpBlock.py 145-146 *)
Definition q_sub (q r : qblock) : option qblock := q_add q (q_neg r).

(** QuasiOp, funpy/colloc/quasiOp.py 27-56: an m x m array of blocks; a failing block fails the whole *)
Definition sysop := list (list qblock).
Fixpoint all_some {A} (l : list (option A)) : option (list A) :=
  match l with
  | [] => Some []
  | Some a :: l => match all_some l with Some r => Some (a :: r) | None => None end
  | None :: _ => None
  end.
Definition zip_blocks (f : qblock -> qblock -> option qblock) (S T : sysop) : option sysop :=
  if Nat.eqb (length S) (length T) && forallb (fun p => Nat.eqb (length (fst p)) (length (snd p))) (combine S T)
  then all_some (map (fun p => all_some (map (fun x => f (fst x) (snd x)) (combine (fst p) (snd p)))) (combine S T))
  else None.
(** QuasiOp.__add__, quasiOp.py 34-42 *)
Definition sys_add (S T : sysop) : option sysop := zip_blocks q_add S T.
(** QuasiOp.__neg__, quasiOp.py 27-32 *)
Definition sys_neg (S : sysop) : sysop := map (map q_neg) S.
(** QuasiOp.__sub__, quasiOp.py 44-45 *)
Definition sys_sub (S T : sysop) : option sysop := sys_add S (sys_neg T).
(** QuasiOp.__mul__, quasiOp.py 47-55: the body is that of __add__ *)
Definition sys_mul (S T : sysop) : option sysop := zip_blocks q_add S T.

(** ** constraints, funpy/colloc/chebOpConstraint.py *)
(** [op] is the user's callable on the values of a function at the n points: a functional plus
    a constant.  Rows: __init__ 27-33 and __call__ 49-51 (op on every column of the identity,
    plus offset = -residual(zero function)); one unknown function. *)
Definition unit_vec (n j : nat) : list R := mk n (fun i => if Nat.eqb i j then 1 else 0).
Definition cons_residual (op : list R -> R) (v : R) (u : list R) : R := op u - v.
Definition cons_row (n : nat) (op : list R -> R) (v : R) : list R :=
  mk n (fun j => op (unit_vec n j) + - cons_residual op v (mk n (fun _ => 0))).

(** ** eigenvalues: GeneralizedEigenvalueOp._matvec, funpy/colloc/eig.py 26-45 *)
Definition eig_rhs (n m K : nat) (x : list R) : list R :=
  let P := assemble n m K (fun e q => us_conv_block false n K (Nat.eqb e q)) in
  let nc := (n * m - length P)%nat in
  repeat 0 nc ++ rows_apply P x.
