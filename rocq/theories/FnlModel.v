(** Model of funpy/functional.py and of the conversion of functionals between
    value and coefficient rows in colloc/coeffsDiscretization.py. *)
From Coq Require Import Reals ZArith List Arith Bool.
From Verif Require Import Base ChebModel FunModel.
Import ListNotations.
Open Scope R_scope.

(** np.rot90(polyval(np.rot90(row)), -1): np.rot90 turns a row into the column
    in reverse order and np.rot90(., -1) turns a column into the reversed row
    (functional.py 36, coeffsDiscretization.py 138-141). *)
Definition val2coef_row (r : list R) : list R := rev (polyval1 (rev r)).

(** np.rot90(polyfit(np.rot90(row)).T / w), a column
    (coeffsDiscretization.py 165). *)
Definition coef2val_col (w r : list R) : list R :=
  let p := polyfit1 (rev r) in
  rev (mk (length p) (fun i => nth i p 0 / nth i w 0)).

(** functional.py 31-38, one column of the function with coefficients [c]:
    w * values, converted. *)
Definition functional_row1 (w c : list R) : list R :=
  let v := polyval1 c in
  val2coef_row (mk (length v) (fun i => nth i w 0 * nth i v 0)).

(** functional.py 16-38, Functional(function) without keywords: the coefficient
    row, the columns one after another. *)
Definition functional_row (F : Fun) : option (list R) :=
  match quadwts (nrows (coeffs (onefun F))) with
  | None => None
  | Some w => Some (map (fun x => x * (/ 2 * (dom1 F - dom0 F)))
                     (concat (map (functional_row1 w) (coeffs (onefun F)))))
  end.

(** functional.py 20-22 with n given: Fun.prolong (fun.py 101-103, chebtech.py
    328-332) changes the caller's object and returns it.  Returns the row and
    the state of the caller's function afterwards. *)
Definition fun_prolong (F : Fun) (n : Z) : Fun :=
  let f := onefun F in
  mkFun (mkCheb (prolong (coeffs f) n) (eps f) (hscale f) (maxLength f) (ishappy f)) (dom0 F) (dom1 F).
Definition functional_row_n (F : Fun) (n : Z) : option (list R) * Fun :=
  let F' := fun_prolong F n in (functional_row F', F').

(** functional.py 24-27, weighted: np.asarray(function) is the flattened
    coefficient vector (chebtech.py 106-110); entry 0 is multiplied by pi, all
    the others by pi/2. *)
Definition functional_weighted (F : Fun) : list R :=
  let c := fun_flatten F in
  mk (length c) (fun i => nth i c 0 * (if Nat.eqb i 0 then PI else / 2 * PI)).

(** np.dot of a row and a coefficient vector (functional.py 60-62). *)
Definition dotl (r c : list R) : R := rsum (length r) (fun i => nth i r 0 * nth i c 0).

(** coeffsDiscretization.py 117-143, convertFunctional, one constraint whose
    value row is [r], with m equations on n points: each block of n entries is
    converted. *)
Definition convert_functional (n m : nat) (r : list R) : list R :=
  concat (mk m (fun k => val2coef_row (firstn n (skipn (k * n) r)))).

(** coeffsDiscretization.py 152-170, toFunction, one functional row, up to the
    values of the function it represents (line 165), columns of length n. *)
Definition to_function_values (n m : nat) (a b : R) (r : list R) : option arr :=
  match quadwts n with
  | None => None
  | Some w => Some (mk m (fun k => map (fun x => x / (/ 2 * (b - a))) (coef2val_col w (firstn n (skipn (k * n) r)))))
  end.
(** line 167: Fun.from_values takes polyfit of the values (chebtech.py); the
    coefficients of that function. *)
Definition to_function_coeffs (n m : nat) (a b : R) (r : list R) : option arr :=
  option_map polyfit (to_function_values n m a b r).
