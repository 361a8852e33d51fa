(** Model of funpy/cheb: detail.pyx, pts.py, diff.py, chebtech.py, ufuncs.pyx.

    Conventions. A coefficient (or value) array of shape (n, m) is the list of
    its m columns, each a [list R] of length n; the Python code stores the
    arrays in Fortran order and treats columns independently.  Doubles are
    exact reals.  [None] is a Python exception (or, for the Cython code, a read
    of an unassigned variable or an access outside an array). *)
From Coq Require Import Reals ZArith List Arith Bool.
From Verif Require Import Base.
Import ListNotations.
Open Scope R_scope.

Definition arr := list (list R).

(** shape[0]; the shape of an array is (nrows, length). *)
Definition nrows (A : arr) : nat := length (hd [] A).

(** Boolean comparisons of reals (python/cython [<], [>=], [==]). *)
Definition Rltb (a b : R) : bool := if Rlt_dec a b then true else false.
Definition Rleb (a b : R) : bool := if Rle_dec a b then true else false.
Definition Reqb (a b : R) : bool := if Req_EM_T a b then true else false.

(** array update a[i] = v *)
Definition upd (l : list R) (i : nat) (v : R) : list R :=
  mk (length l) (fun k => if Nat.eqb k i then v else nth k l 0).

(** ** pts.py *)

(** cheb/pts.py 89-95, chebpts_type2_compute:
    sin(pi * arange(-N+1, N, 2) / (2 (N-1))); N=0 gives [], N=1 gives [0]. *)
Definition chebpts_type2_compute (N : nat) : list R :=
  match N with
  | O => []
  | S O => [0]
  | _ => mk N (fun j => sin (PI * (2 * INR j - INR (N - 1)) / (2 * INR (N - 1))))
  end.

(** numpy.fft.ifft of a real vector, real part:
    (1/n) sum_k c_k cos(2 pi j k / n).  (FFT library call modelled by its defining sum.) *)
Definition ifft_re (c : list R) : list R :=
  mk (length c) (fun j => / INR (length c) *
    rsum (length c) (fun k => nth k c 0 * cos (2 * PI * INR j * INR k / INR (length c)))).

(** cheb/pts.py 26-27: [c] is 2/hstack(1, 1 - arange(2,N,2)^2), then the
    mirrored part c[1:floor(N/2)][::-1] is appended. *)
Definition quad_cvec (N : nat) : list R :=
  let c0 := 2 :: mk ((N - 1) / 2) (fun i => 2 / (1 - INR (2 + 2 * i) ^ 2)) in
  c0 ++ rev (firstn (N / 2 - 1) (tl c0)).

(** cheb/pts.py 20-32, quadwts.  N = 0 raises (np.empty() needs an argument). *)
Definition quadwts (N : nat) : option (list R) :=
  match N with
  | O => None
  | S O => Some [2]
  | _ =>
    let w := ifft_re (quad_cvec N) in
    let w := upd w 0 (/ 2 * nth 0 w 0) in
    Some (w ++ [nth 0 w 0])
  end.

(** ** detail.pyx *)

(** scipy DCT-I (unnormalised) of a vector of length N >= 2:
    y_k = x_0 + (-1)^k x_{N-1} + 2 sum_{n=1}^{N-2} x_n cos(pi k n/(N-1)). *)
Definition dct1 (v : list R) : list R :=
  let N := length v in
  mk N (fun k => nth 0 v 0 + sgn k * nth (N - 1) v 0 +
        2 * rsum (N - 2) (fun i => nth (S i) v 0 * cos (PI * INR k * INR (S i) / INR (N - 1)))).

(** cheb/detail.pyx 52-78, polyfit, one column: copy if N == 1, else flip and
    divide by N-1, DCT-I, halve first and last entry (for N = 2 both are
    distinct). *)
Definition polyfit1 (v : list R) : list R :=
  let N := length v in
  if Nat.eqb N 1 then v else
  let c := mk N (fun i => nth (N - i - 1) v 0 / INR (N - 1)) in
  let c := dct1 c in
  let c := upd c 0 (nth 0 c 0 / 2) in
  upd c (N - 1) (nth (N - 1) c 0 / 2).
Definition polyfit (A : arr) : arr := map polyfit1 A.

(** cheb/detail.pyx 84-109, polyval, one column: copy if N == 1, else keep the
    first and last, halve the rest, DCT-I, flip. *)
Definition polyval1 (c : list R) : list R :=
  let N := length c in
  if Nat.eqb N 1 then c else
  let v := mk N (fun i => if Nat.eqb i 0 || Nat.eqb i (N - 1) then nth i c 0 else nth i c 0 / 2) in
  rev (dct1 v).
Definition polyval (A : arr) : arr := map polyval1 A.

(** cheb/detail.pyx 115-143, prolong, one column: pad with zeros or keep the
    first Nout rows (Nout is an int and may be negative: max(Nout,0)). *)
Definition prolong1 (c : list R) (Nout : Z) : list R :=
  let Nin := length c in
  let Ndiff := (Nout - Z.of_nat Nin)%Z in
  if (Ndiff =? 0)%Z then c
  else if (0 <? Ndiff)%Z then
    mk (Z.to_nat Nout) (fun i => if Nat.ltb i Nin then nth i c 0 else 0)
  else firstn (Z.to_nat (Z.max Nout 0)) c.
Definition prolong (A : arr) (Nout : Z) : arr := map (fun c => prolong1 c Nout) A.

(** C [round(1.25 * j + 5)] (half away from zero) for j >= 0. *)
Definition round125 (j : nat) : nat := ((5 * j + 22) / 4)%nat.

(** cheb/detail.pyx 240-246: running maxima of |coeffs| from the right. *)
Fixpoint envelope (c : list R) : list R :=
  match c with
  | [] => []
  | [a] => [Rabs a]
  | a :: t => let e := envelope t in Rmax (Rabs a) (hd 0 e) :: e
  end.

(** cheb/detail.pyx 252-254: [for j in range(n): envelop[j] /= envelop[0]],
    in place, in this order. *)
Definition normalize_env (e : list R) : list R :=
  fold_left (fun e j => upd e j (nth j e 0 / nth 0 e 0)) (seq 0 (length e)) e.

(** cheb/detail.pyx 29-31, r(e1, tol). *)
Definition r_fun (e1 tol : R) : R := 3 * (1 - ln e1 / ln tol).

(** cheb/detail.pyx 256-266: outcome of the plateau scan. *)
Inductive scan_res :=
| SReturn                  (* j2 >= n: return cutoff = n *)
| SBreak (j j2 : nat)      (* plateauPoint = j - 1 *)
| SEnd                     (* the for loop ran out: plateauPoint unassigned *)
| SIndexError.             (* envelop[j] outside the array *)

Fixpoint scan (fuel j n : nat) (env : list R) (tol : R) : scan_res :=
  match fuel with
  | O => SEnd
  | S fuel' =>
    let j2 := round125 j in
    if Nat.leb n j2 then SReturn else
    match nth_error env j, nth_error env j2 with
    | Some e1, Some e2 =>
      if Reqb e1 0 then SBreak j j2
      else if Rltb (r_fun e1 tol) (e2 / e1) then SBreak j j2
      else scan fuel' (S j) n env tol
    | _, _ => SIndexError
    end
  end.

Definition log10 (x : R) : R := ln x / ln 10.

(** np.argmin: the first index of a minimal entry. [argmin_from i best b l]. *)
Fixpoint argmin_from (i best : nat) (b : R) (l : list R) : nat :=
  match l with
  | [] => best
  | a :: t => if Rltb a b then argmin_from (S i) i a t else argmin_from (S i) best b t
  end.
Definition argmin (l : list R) : option nat :=
  match l with [] => None | a :: t => Some (argmin_from 1 0 a t) end.

(** np.linspace(0, L, k) *)
Definition linspace0 (L : R) (k : nat) : list R :=
  mk k (fun i => INR i * (L / INR (k - 1))).

(** cheb/detail.pyx 203-281, standardChop (real case).  [minimum] = 17. *)
Definition standardChop (coeffs : list R) (tol : R) : option nat :=
  if Rleb 1 tol then Some 0%nat else
  let n := length coeffs in
  if Nat.ltb n 17 then Some n else
  let env := envelope coeffs in
  if Reqb (nth 0 env 0) 0 then Some 0%nat else
  let env := normalize_env env in
  match scan (n - 1) 1 n env tol with
  | SReturn => Some n
  | SEnd | SIndexError => None
  | SBreak j j2 =>
    let plateauPoint := (j - 1)%nat in
    match nth_error env plateauPoint with
    | None => None
    | Some e =>
      if Reqb e 0 then Some plateauPoint else
      let ptol := Rpower tol (7 / 6) in
      let j3 := length (filter (fun a => Rleb ptol a) env) in
      let '(j2, env) :=
        if Nat.ltb j3 j2 then (j3 + 1, upd env (j3 + 1 - 1) ptol)%nat else (j2, env) in
      let cc := mk j2 (fun i => log10 (nth i env 0) + nth i (linspace0 ((-1/3) * log10 tol) j2) 0) in
      match argmin cc with
      | None => None
      | Some d => Some (d - 1)%nat   (* max_idx(d-1, 0) *)
      end
    end
  end.

(** [cutoff = max(cutoff, standardChop(column, tol))] over the columns. *)
Fixpoint chop_max (A : arr) (tol : R) (acc : nat) : option nat :=
  match A with
  | [] => Some acc
  | c :: t => match standardChop c tol with
              | None => None
              | Some k => chop_max t tol (Nat.max acc k)
              end
  end.

(** cheb/detail.pyx 149-172, simplify_coeffs (eps a number). *)
Definition simplify_coeffs (A : arr) (eps : R) : option arr :=
  let nold := nrows A in
  let N := Nat.max 17 (round125 nold) in
  let A' := polyfit (polyval (prolong A (Z.of_nat N))) in
  match chop_max A' eps 0 with
  | None => None
  | Some cutoff => let cutoff := Nat.min cutoff nold in Some (map (firstn (cutoff + 1)) A')
  end.

(** cheb/detail.pyx 178-197, happiness_check: the loop over columns with break. *)
Fixpoint happy_loop (A : arr) (tols : list R) (n : nat) (ishappy : option bool) (rcut : nat)
  : option (bool * nat) :=
  match A, tols with
  | [], _ => match ishappy with None => None (* unassigned *) | Some b => Some (b, rcut) end
  | c :: A', tol :: tols' =>
    match standardChop c tol with
    | None => None
    | Some cutoff =>
      let h := Nat.ltb cutoff n in
      let rcut := Nat.max rcut cutoff in
      if h then happy_loop A' tols' n (Some h) rcut else Some (h, rcut)
    end
  | _ :: _, [] => None
  end.
Definition happiness_check (A : arr) (tols : list R) : option (bool * nat) :=
  let n := nrows A in
  let A' := if Nat.ltb n 17 then polyfit (polyval (prolong A 17)) else A in
  happy_loop A' tols n None 0.

(** cheb/detail.pyx 376-401, clenshaw_scalar at one point: the loop
    [for i in range(n, 1, -2)] has n/2 iterations with i = n - 2 t. *)
Definition clenshaw_pt (c : list R) (x : R) : R :=
  let n := (length c - 1)%nat in
  let x2 := 2 * x in
  let '(bk1, bk2) :=
    fold_left (fun '(bk1, bk2) t =>
      let i := (n - 2 * t)%nat in
      let bk2 := nth i c 0 + x2 * bk1 - bk2 in
      let bk1 := nth (i - 1) c 0 + x2 * bk2 - bk1 in
      (bk1, bk2)) (seq 0 (n / 2)) (0, 0) in
  let '(bk1, bk2) :=
    if Nat.odd n then (nth 1 c 0 + x2 * bk1 - bk2, bk1) else (bk1, bk2) in
  nth 0 c 0 + / 2 * x2 * bk1 - bk2.

(** cheb/detail.pyx 407-443, clenshaw: result as columns of values (the
    vector version runs the scalar loop for every pair (point, column)). *)
Definition clenshaw (x : list R) (A : arr) : arr := map (fun c => map (clenshaw_pt c) x) A.

(** ** diff.py *)

(** cheb/diff.py 8-25, computeDerCoeffs, one column: v = 2*arange(1,n)*c[1:];
    cumulative sums of v from the end with stride two go to the same places of
    cout: entry i of cout is v_i + v_{i+2} + ...; then entry 0 is halved.
    (For n = 2 the second slice assignment rewrites entry 0 with the same
    value.)  n = 1: cout[0, :] raises IndexError; n = 0: np.zeros((-1,m)) raises. *)
Fixpoint sum_stride2 (l : list R) : R :=
  match l with
  | [] => 0
  | a :: t => a + match t with [] => 0 | _ :: u => sum_stride2 u end
  end.
Definition computeDerCoeffs1 (c : list R) : list R :=
  let n := length c in
  let v := mk (n - 1) (fun i => 2 * INR (S i) * nth (S i) c 0) in
  let cout := mk (n - 1) (fun i => sum_stride2 (skipn i v)) in
  upd cout 0 (/ 2 * nth 0 cout 0).
Definition computeDerCoeffs (A : arr) : option arr :=
  if Nat.leb 2 (nrows A) then Some (map computeDerCoeffs1 A) else None.

(** ** chebtech.py *)

Record chebtech := mkCheb {
  coeffs : arr;
  eps : R;
  hscale : R;
  maxLength : Z;
  ishappy : bool
}.

Definition fmax_abs (l : list R) : R := fold_right (fun a b => Rmax (Rabs a) b) 0 l.

(** chebtech.py 154-162, vscale: one number per column. *)
Definition vscale_col (c : list R) : R :=
  if Nat.eqb (length c) 1 then Rabs (nth 0 c 0) else fmax_abs (polyval1 c).
(** chebtech.py 164-173, vscl. For a constant function with several columns the
    code returns the array of |c| (later maximised by the callers); here the
    maximum is taken at once. *)
Definition vscl (A : arr) : R := fmax_abs (map vscale_col A).

(** chebtech.py 252-257, happy: (ishappy, cutoff+1). *)
Definition happy (A : arr) (eps hscale : R) : option (bool * nat) :=
  match happiness_check A (map (fun c => Rmax hscale (vscale_col c) * eps) A) with
  | None => None
  | Some (h, k) => Some (h, (k + 1)%nat)
  end.

(** chebtech.py 27-67, __init__ with coefficients given: assertion on a
    non-empty array, happiness, optional simplify (339-345). *)
Definition cheb_init (A : arr) (e h : R) (ml : Z) (hp simp : bool) : option chebtech :=
  if Nat.eqb (nrows A * length A) 0 then None else
  match (if hp then Some true else option_map fst (happy A e h)) with
  | None => None
  | Some hp' =>
    if simp && hp' then option_map (fun B => mkCheb B e h ml hp') (simplify_coeffs A e)
    else Some (mkCheb A e h ml hp')
  end.

(** defaults of __init__: eps = np.finfo(float).eps = 2^-52, hscale = 1, maxLength = 1 + 2^14. *)
Definition eps_default : R := / 2 ^ 52.
Definition maxLength_default : Z := (1 + 2 ^ 14)%Z.

(** chebtech.py 84-95, __deepcopy__: note hscale=self.eps. *)
Definition deepcopy (f : chebtech) : option chebtech :=
  cheb_init (coeffs f) (eps f) (eps f) (maxLength f) (ishappy f) false.

(** chebtech.py 339-345, simplify (force=False). *)
Definition cheb_simplify (f : chebtech) : option chebtech :=
  if ishappy f then
    option_map (fun B => mkCheb B (eps f) (hscale f) (maxLength f) (ishappy f))
               (simplify_coeffs (coeffs f) (eps f))
  else Some f.

(** chebtech.py 285-292, lval and rval, one column. *)
Definition flip_signs (c : list R) : list R :=
  mk (length c) (fun i => if Nat.odd i then - nth i c 0 else nth i c 0).
Definition lval1 (c : list R) : R := lsum (flip_signs c).
Definition rval1 (c : list R) : R := lsum c.
Definition lval (f : chebtech) : list R := map lval1 (coeffs f).
Definition rval (f : chebtech) : list R := map rval1 (coeffs f).

(** chebtech.py 372-378, flipud. *)
Definition flipud (f : chebtech) : option chebtech :=
  cheb_init (map flip_signs (coeffs f)) (eps f) (hscale f) (maxLength f) (ishappy f) false.

(** chebtech.py 380-384, fliplr. *)
Definition fliplr (f : chebtech) : option chebtech :=
  cheb_init (rev (coeffs f)) (eps f) (hscale f) (maxLength f) (ishappy f) false.

(** chebtech.py 347-359, __call__ / feval (before numpy squeeze). *)
Definition feval (f : chebtech) (x : list R) : arr := clenshaw x (coeffs f).

(** chebtech.py 478-505, diff. *)
Fixpoint iter_der (n : nat) (A : arr) : option arr :=
  match n with
  | O => Some A
  | S k => match computeDerCoeffs A with None => None | Some B => iter_der k B end
  end.
Definition zeros_like (A : arr) : arr := map (fun c => mk (length c) (fun _ => 0)) A.
Definition cheb_diff (f : chebtech) (n : nat) : option chebtech :=
  match simplify_coeffs (coeffs f) (eps f) with
  | None => None
  | Some c =>
    if Nat.leb (nrows c) n then
      cheb_init (zeros_like (coeffs f)) (eps f) (hscale f) (maxLength f) (ishappy f) false
    else
      match computeDerCoeffs c with
      | None => None
      | Some c1 =>
        match iter_der (n - 1) c1 with
        | None => None
        | Some c' => cheb_init c' (eps f) (hscale f) (maxLength f) (ishappy f) false
        end
      end
  end.

(** chebtech.py 508-531, sum, one column: row (2, 0, 2/(1-k^2)...) times the
    coefficients masked at odd positions. *)
Definition cheb_sum1 (c : list R) : R :=
  let n := length c in
  if Nat.eqb n 1 then 2 * nth 0 c 0 else
  rsum n (fun k =>
    (match k with O => 2 | S O => 0 | _ => 2 / (1 - INR k ^ 2) end) *
    (nth k c 0 * (if Nat.odd k then 0 else 1))).
Definition cheb_sum (f : chebtech) : list R := map cheb_sum1 (coeffs f).

(** chebtech.py 555-567, the coefficients computed by cumsum, one column. *)
Definition cumsum_coeffs1 (c : list R) : list R :=
  let n := length c in
  let cz := c ++ [0; 0] in
  let b1 := mk (S n) (fun r =>
    match r with
    | O => 0
    | S O => nth 0 cz 0 - nth 2 cz 0 / 2
    | _ => (nth (r - 1) cz 0 - nth (r + 1) cz 0) / (2 * INR r)
    end) in
  upd b1 0 (rsum n (fun j => (if Nat.odd j then -1 else 1) * nth (S j) b1 0)).
(** chebtech.py 534-580, cumsum. *)
Definition cheb_cumsum (f : chebtech) : option chebtech :=
  match cheb_init (map cumsum_coeffs1 (coeffs f)) (eps f) (hscale f) (maxLength f) (ishappy f) false with
  | None => None
  | Some g =>
    match cheb_simplify g with
    | None => None
    | Some g =>
      Some (mkCheb (map (fun c => upd c 0 (nth 0 c 0 - lval1 c)) (coeffs g))
                   (eps g) (hscale g) (maxLength g) (ishappy g))
    end
  end.

(** chebtech.py 386-387, __eq__ on coefficients. *)
Definition col_eqb (c d : list R) : bool :=
  Nat.eqb (length c) (length d) && forallb (fun '(a, b) => Reqb a b) (combine c d).
Definition arr_eqb (A B : arr) : bool :=
  Nat.eqb (length A) (length B) && forallb (fun '(c, d) => col_eqb c d) (combine A B).

(** chebtech.py 583-602, inner: entry (i,j) of fvalues.T * w @ gvalues, with the
    absolute value of the diagonal when the operands are equal. *)
Definition inner_entry (w c d : list R) (n : nat) : R :=
  rsum n (fun k => nth k (polyval1 (prolong1 c (Z.of_nat n))) 0 * nth k w 0
                 * nth k (polyval1 (prolong1 d (Z.of_nat n))) 0).
Definition cheb_inner (f g : chebtech) : option arr :=
  let n := (nrows (coeffs f) + nrows (coeffs g))%nat in
  match quadwts n with
  | None => None
  | Some w =>
    Some (mk (length (coeffs f)) (fun i => mk (length (coeffs g)) (fun j =>
      let v := inner_entry w (nth i (coeffs f) []) (nth j (coeffs g) []) n in
      if arr_eqb (coeffs f) (coeffs g) && Nat.eqb i j then Rabs v else v)))
  end.

(** chebtech.py 605-627, innerw, per column. *)
Definition innerw1 (c d : list R) : R :=
  let n := Nat.min (length c) (length d) in
  let c1 := prolong1 c (Z.of_nat n) in
  let c2 := prolong1 d (Z.of_nat n) in
  (nth 0 c1 0 * nth 0 c2 0 + rsum n (fun k => nth k c1 0 * nth k c2 0)) * (/ 2 * PI).
Definition cheb_innerw (f g : chebtech) : list R :=
  mk (length (coeffs f)) (fun i => innerw1 (nth i (coeffs f) []) (nth i (coeffs g) [])).

(** chebtech.py 630-633, dot: the sum of the diagonal of inner. *)
Definition cheb_dot (f g : chebtech) : option R :=
  option_map (fun M => rsum (Nat.min (length (coeffs f)) (length (coeffs g)))
                            (fun i => nth i (nth i M []) 0)) (cheb_inner f g).

(** chebtech.py 636-657, hstack. *)
Definition list_max (l : list nat) : nat := fold_right Nat.max 0%nat l.
Definition cheb_hstack (fs : list chebtech) : option chebtech :=
  match fs with
  | [] => None        (* np.max of an empty list raises *)
  | _ =>
    let n := list_max (map (fun f => nrows (coeffs f)) fs) in
    cheb_init (flat_map (fun f => prolong (coeffs f) (Z.of_nat n)) fs)
      (fold_right (fun f a => Rmax (eps f) a) (eps (hd (mkCheb [] 0 0 0%Z false) fs)) fs)
      (fold_right (fun f a => Rmax (hscale f) a) (hscale (hd (mkCheb [] 0 0 0%Z false) fs)) fs)
      (fold_right (fun f a => Z.max (maxLength f) a) (maxLength (hd (mkCheb [] 0 0 0%Z false) fs)) fs)
      (forallb ishappy fs) false
  end.

(** chebtech.py 217-234, __getitem__ with an int (hscale is not passed on). *)
Definition getitem (f : chebtech) (idx : Z) : option chebtech :=
  if (idx <? 0)%Z || (Z.of_nat (length (coeffs f)) <=? idx)%Z then None
  else cheb_init [nth (Z.to_nat idx) (coeffs f) []] (eps f) 1 (maxLength f) (ishappy f) false.

(** ** ufuncs.pyx.  Results are built with default hscale = 1 and (add,
    multiply) default maxLength. *)

(** ufuncs.pyx 20-26, negative. *)
Definition negative (f : chebtech) : option chebtech :=
  cheb_init (map (map (fun a => -1 * a)) (coeffs f)) (eps f) 1 (maxLength f) (ishappy f) false.

(** ufuncs.pyx 54-68, add of a number or of a row of m numbers to the first
    coefficient. *)
Definition add_row (f : chebtech) (row : list R) : option chebtech :=
  if Nat.eqb (length row) (length (coeffs f)) then
    cheb_init (map (fun '(c, a) => upd c 0 (nth 0 c 0 + a)) (combine (coeffs f) row))
              (eps f) 1 maxLength_default (ishappy f) false
  else None.
Definition add_number (f : chebtech) (a : R) : option chebtech :=
  add_row f (map (fun _ => a) (coeffs f)).

(** ufuncs.pyx 83-115 and 129, add of two chebtechs, [out] not given: align the
    lengths with prolong, add in place into (a copy of) the first operand, so
    numpy broadcasting allows only a second operand with the same number of
    columns or with one column; replace by a length one zero function when all
    entries are below 0.2 eps max(vscl). *)
Definition add_cols (A B : arr) : option arr :=
  if Nat.eqb (length A) (length B) then
    Some (map (fun '(c, d) => map (fun '(a, b) => a + b) (combine c d)) (combine A B))
  else match B with
       | [d] => Some (map (fun c => map (fun '(a, b) => a + b) (combine c d)) A)
       | _ => None
       end.
Definition add_coeffs (A B : arr) : option arr :=
  let nf := nrows A in let no := nrows B in
  let B' := if Nat.ltb no nf then prolong B (Z.of_nat nf) else B in
  let A' := if Nat.ltb nf no then prolong A (Z.of_nat no) else A in
  add_cols A' B'.
Definition snap_tol (f g : chebtech) : R :=
  2/10 * (eps f * Rmax (vscl (coeffs f)) (vscl (coeffs g))).
Definition add (f g : chebtech) : option chebtech :=
  match add_coeffs (coeffs f) (coeffs g) with
  | None => None
  | Some c =>
    let c := if forallb (forallb (fun a => Rltb (Rabs a) (snap_tol f g))) c
             then map (fun _ => [0]) (coeffs f) else c in
    cheb_init c (Rmax (eps f) (eps g)) 1 maxLength_default (ishappy f && ishappy g) false
  end.

(** ufuncs.pyx 83-124 with [out] given, i.e. numpy.add(f, g, out=h): the
    operands are prolonged in place; then the coefficients of h (not of f) are
    incremented in place by those of g and h is returned.  The test for a zero
    sum only rebinds a local name and so has no effect.  Result: the new f, g, h.
    Here h is a third object. *)
Definition with_coeffs (f : chebtech) (A : arr) : chebtech :=
  mkCheb A (eps f) (hscale f) (maxLength f) (ishappy f).
Definition add_prolonged (f g : chebtech) : chebtech * chebtech :=
  let nf := nrows (coeffs f) in let no := nrows (coeffs g) in
  (if Nat.ltb nf no then with_coeffs f (prolong (coeffs f) (Z.of_nat no)) else f,
   if Nat.ltb no nf then with_coeffs g (prolong (coeffs g) (Z.of_nat nf)) else g).
Definition add_out (f g h : chebtech) : option (chebtech * chebtech * chebtech) :=
  let '(f', g') := add_prolonged f g in
  if Nat.eqb (nrows (coeffs h)) (nrows (coeffs g')) then
    match add_cols (coeffs h) (coeffs g') with
    | None => None
    | Some c => Some (f', g', mkCheb c (Rmax (eps f) (eps g)) (hscale h) (maxLength h)
                                    (ishappy f && ishappy g))
    end
  else None.
(** f += g, that is numpy.add(f, g, out=(f,)) for two different objects: the new f and g. *)
Definition iadd (f g : chebtech) : option (chebtech * chebtech) :=
  let '(f', g') := add_prolonged f g in
  match add_cols (coeffs f') (coeffs g') with
  | None => None
  | Some c => Some (mkCheb c (Rmax (eps f) (eps g)) (hscale f) (maxLength f)
                           (ishappy f && ishappy g), g')
  end.

(** ufuncs.pyx 131-132, subtract. *)
Definition subtract (f g : chebtech) : option chebtech :=
  match negative g with None => None | Some g' => add f g' end.

(** circular convolution: ifft (fft a * fft b) for vectors of equal length
    (FFT calls modelled through the convolution theorem's defining sum). *)
Definition circ (a b : list R) : list R :=
  let n := length a in
  mk n (fun k => rsum n (fun i => nth i a 0 * nth ((k + n - i) mod n) b 0)).

(** ufuncs.pyx 135-144, coeff_times, one pair of columns of length mn:
    t, x the columns with doubled first entry, extended by x[:0:-1] (the
    entries mn-1 .. 1), convolved; hc_k = (Tfg_k + Tfg_{n'-k})/4, hc_0 = Tfg_0/4. *)
Definition even_ext (c : list R) : list R :=
  let t := upd c 0 (2 * nth 0 c 0) in t ++ rev (tl t).
Definition coeff_times1 (fc gc : list R) : list R :=
  let mn := length fc in
  let Tfg := circ (even_ext fc) (even_ext gc) in
  let n := length Tfg in
  firstn mn (mk n (fun k => / 4 * (match k with
                                   | O => nth 0 Tfg 0
                                   | _ => nth k Tfg 0 + nth (n - k) Tfg 0 end))).

(** ufuncs.pyx 146-172, coeff_times_main: pad both to fn + gn - 1; [pos] iff
    the padded arrays are equal (real data: conj is the identity). *)
Definition pad (k : nat) (c : list R) : list R := c ++ mk k (fun _ => 0).
Definition coeff_times_main (F G : arr) : arr * bool :=
  let fn := nrows F in let gn := nrows G in
  let F' := map (pad (gn - 1)) F in
  let G' := map (pad (fn - 1)) G in
  (map (fun '(a, b) => coeff_times1 a b) (combine F' G'), arr_eqb F' G').

(** ufuncs.pyx 180-193, multiply by a number. *)
Definition multiply_number (f : chebtech) (a : R) : option chebtech :=
  cheb_init (map (map (fun c => c * a)) (coeffs f)) (eps f) 1 maxLength_default (ishappy f) false.

(** ufuncs.pyx 195-215, multiply by an ndarray given as columns: size one means
    a number, otherwise the shapes must agree (assert) and the product is
    entrywise in coefficient space. *)
Definition same_shape (A B : arr) : bool :=
  Nat.eqb (length A) (length B) && Nat.eqb (nrows A) (nrows B).
Definition multiply_array (f : chebtech) (X : arr) : option chebtech :=
  if Nat.eqb (nrows X * length X) 1 then multiply_number f (nth 0 (hd [] X) 0)
  else if same_shape (coeffs f) X then
    cheb_init (map (fun '(c, d) => map (fun '(a, b) => a * b) (combine c d)) (combine (coeffs f) X))
              (eps f) 1 maxLength_default (ishappy f) false
  else None.

(** numpy broadcasting of the columns of two arrays (rows already equal). *)
Definition bcast (A B : arr) : option (arr * arr) :=
  if Nat.eqb (length A) (length B) then Some (A, B)
  else match A, B with
       | [c], _ => Some (map (fun _ => c) B, B)
       | _, [d] => Some (A, map (fun _ => d) A)
       | _, _ => None
       end.

(** ufuncs.pyx 233-256 and 267, multiply of two chebtechs, [out] not given. *)
Definition multiply (f g : chebtech) : option chebtech :=
  if Nat.eqb (nrows (coeffs f)) 1 then multiply_array g (coeffs f)
  else if Nat.eqb (nrows (coeffs g)) 1 then multiply_array f (coeffs g)
  else match bcast (coeffs f) (coeffs g) with
  | None => None
  | Some (F, G) =>
    let e := Rmax (eps f) (eps g) in
    let '(c, pos) := coeff_times_main F G in
    match simplify_coeffs c e with
    | None => None
    | Some c =>
      let c := if pos then polyfit (map (map Rabs) (polyval c)) else c in
      cheb_init c e 1 maxLength_default (ishappy f && ishappy g) false
    end
  end.

(** ufuncs.pyx 300-302 and 324, true_divide by a number (simplify defaults to True). *)
Definition divide_number (f : chebtech) (a : R) : option chebtech :=
  cheb_init (map (map (fun c => c / a)) (coeffs f)) (eps f) 1 maxLength_default (ishappy f) true.
