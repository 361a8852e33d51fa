(** Model of elementwise numpy functions, quotients and compositions.
    - cheb/chebtech.py 113-140  chebtech.__array_ufunc__
    - cheb/ufuncs.pyx 269-324   divide, true_divide
    - fun.py 166-187            Fun.__array_ufunc__
    - fun.py 264-274, 286-296, 317-327  zeros_like, ones_like, zeros, ones, asfun
    - fun.py 332-351            get_composer, compose
    - mapping.py 6-46           Mapping, Mapping.inv
    Columns are lists; a function of one column evaluates to a vector, a function of several
    columns to a matrix (chebtech.feval squeezes), so operands need the same number of columns. *)
From Coq Require Import Reals ZArith List Arith Bool.
From Verif Require Import Base ChebModel ChebModel2 FunModel.
Import ListNotations.
Open Scope R_scope.

(** chebtech.py 128-131: a one-argument ufunc without a special implementation;
    chebtech.py 55: minSamples defaults to 17.  u is the numpy function, a total real function here:
    points where numpy would give nan are outside the model. *)
Definition cheb_ufunc1 (u : R -> R) (f : chebtech) : option chebtech :=
  construct (map (fun c y => u (clenshaw_pt c y)) (coeffs f)) (eps f) 1 (maxLength f) 17.
(** chebtech.py 132-135: a two-argument ufunc without a special implementation; the tolerance and
    the maximal length are those of the operand whose method runs, the first one.
    Simplification: with different numbers of columns numpy raises unless the number of sampling
    points equals the number of columns; the model raises. *)
Definition cheb_ufunc2 (u : R -> R -> R) (f g : chebtech) : option chebtech :=
  if Nat.eqb (length (coeffs f)) (length (coeffs g)) then
    construct (map (fun p y => u (clenshaw_pt (fst p) y) (clenshaw_pt (snd p) y)) (combine (coeffs f) (coeffs g))) (eps f) 1 (maxLength f) 17
  else None.
(** ufuncs.pyx 309-316: quotient of two functions (out = None) *)
Definition cheb_divide (f g : chebtech) : option chebtech :=
  if Nat.eqb (length (coeffs f)) (length (coeffs g)) then
    construct (map (fun p y => clenshaw_pt (fst p) y / clenshaw_pt (snd p) y) (combine (coeffs f) (coeffs g)))
      (Rmax (eps f) (eps g)) 1 maxLength_default (Z.of_nat (nrows (coeffs f) + nrows (coeffs g)))
  else None.
(** ufuncs.pyx 280-286: number / function (out = None) *)
Definition cheb_rdivide (a : R) (g : chebtech) : option chebtech :=
  construct (map (fun c y => a / clenshaw_pt c y) (coeffs g)) (eps g) 1 maxLength_default (Z.of_nat (2 * nrows (coeffs g))).
(** ufuncs.pyx 293-303, 319-321: function / number with an output argument h: the coefficients of h
    are divided in place, h takes the tolerance of f; nothing is simplified.  The result is the new h. *)
Definition cheb_divide_number_out (f h : chebtech) (a : R) : chebtech :=
  mkCheb (map (map (fun c => c / a)) (coeffs h)) (eps f) (hscale h) (maxLength h) (ishappy h).
(** ufuncs.pyx 311-315: quotient with an output argument: h takes the coefficients only *)
Definition cheb_divide_out (f g h : chebtech) : option chebtech :=
  option_map (fun r => mkCheb (coeffs r) (eps h) (hscale h) (maxLength h) (ishappy h)) (cheb_divide f g).

(** fun.py 166-187 around the operations above *)
Definition fun_ufunc1 (u : R -> R) (F : Fun) : option Fun := if dom_check F F then wrap F (cheb_ufunc1 u (onefun F)) else None.
Definition fun_ufunc2 (u : R -> R -> R) (F G : Fun) : option Fun := fun_binary (cheb_ufunc2 u) F G.
Definition fun_divide (F G : Fun) : option Fun := fun_binary cheb_divide F G.
Definition fun_rdivide (a : R) (F : Fun) : option Fun := if dom_check F F then wrap F (cheb_rdivide a (onefun F)) else None.
(** np.true_divide(F, a, out=H), and F /= a when H is F *)
Definition fun_divide_number_out (F H : Fun) (a : R) : option Fun :=
  if dom_check F F && dom_check F H then Some (mkFun (cheb_divide_number_out (onefun F) (onefun H) a) (dom0 H) (dom1 H)) else None.
Definition fun_divide_out (F G H : Fun) : option Fun :=
  if dom_check F F && dom_check F G && dom_check F H then wrap H (cheb_divide_out (onefun F) (onefun G) (onefun H)) else None.

(** fun.py 332-351: compose(f, op) with compose=False: op (f x) is sampled at the Chebyshev points x
    of [-1,1] themselves, f raises when such a point is outside its domain (fun.py 128-131).
    The end points are sampling points. *)
Definition fun_compose (F : Fun) (u : R -> R) : option Fun :=
  if Rleb (-1) (map_bwd (dom0 F) (dom1 F) (-1)) && Rleb (map_bwd (dom0 F) (dom1 F) 1) 1
     && Rleb (-1) (map_bwd (dom0 F) (dom1 F) 1) && Rleb (map_bwd (dom0 F) (dom1 F) (-1)) 1 then
    option_map (fun f => mkFun f (dom0 F) (dom1 F))
      (construct (map (fun c x => u (clenshaw_pt c (map_bwd (dom0 F) (dom1 F) x))) (coeffs (onefun F)))
        eps_default (fun_hscale (dom0 F) (dom1 F)) maxLength_default 17)
  else None.

(** fun.py 264-274: zeros_like and ones_like: values on the grid of F *)
Definition fun_const_like (v : R) (F : Fun) : option Fun :=
  option_map (fun f => mkFun f (dom0 F) (dom1 F))
    (cheb_init (polyfit (repeat (repeat v (nrows (coeffs (onefun F)))) (length (coeffs (onefun F))))) eps_default (fun_hscale (dom0 F) (dom1 F)) maxLength_default false false).
Definition fun_zeros_like := fun_const_like 0.
Definition fun_ones_like := fun_const_like 1.
(** fun.py 286-296: zeros(n), ones(n): n constant columns; fun.py 327: asfun(number): one *)
Definition fun_const (v : R) (n : nat) (a b : R) : option Fun :=
  option_map (fun f => mkFun f a b) (cheb_init (repeat [v] n) eps_default (fun_hscale a b) maxLength_default false false).
Definition fun_zeros := fun_const 0.
Definition fun_ones := fun_const 1.
(** simplify defaults to True in asfun *)
Definition asfun_number (v : R) (a b : R) : option Fun :=
  option_map (fun f => mkFun f a b) (cheb_init [[v]] eps_default (fun_hscale a b) maxLength_default false true).

(** mapping.py 6-30: keyword arguments fwd, der, bwd; the linear map when one is missing *)
Record mapping := mkMapping { ends : R * R; fwd : R -> R; der : R -> R; bwd : R -> R }.
Definition mapping_linear (e : R * R) : mapping :=
  mkMapping e (map_fwd (fst e) (snd e)) (map_der (fst e) (snd e)) (map_bwd (fst e) (snd e)).
Definition mapping_init (e : R * R) (f d b : option (R -> R)) : mapping :=
  match f, d, b with
  | Some f, Some d, Some b => mkMapping e f d b
  | _, _, _ => mapping_linear e
  end.
(** mapping.py 44-46: Mapping(ends, fwd=self.inv, der=1/der, inv=fwd): the keyword inv is not read,
    bwd stays None.  (The keyword fwd receives the method inv itself; the model passes bwd, which is
    dropped all the same.) *)
Definition mapping_inv (M : mapping) : mapping := mapping_init (ends M) (Some (bwd M)) (Some (fun x => 1 / der M x)) None.
