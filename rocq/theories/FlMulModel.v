(** Products of Chebyshev functions in double precision: ufuncs.pyx 135-172 with rounding.  The transforms scipy.fft.fft
    and scipy.fft.ifft are arguments of the model ([fftlib]); all other operations round to nearest (FlModel.v).
    Overflow and signed zeros are not modelled. *)
From Coq Require Import Reals List Arith Bool.
From Coquelicot Require Import Coquelicot.
From Verif Require Import Base TrigSpec TrigModel ChebModel FlModel FlTrigModel.
Import ListNotations.
Open Scope R_scope.

(** scipy.fft.fft of a column of doubles and scipy.fft.ifft of a column of complex doubles (used in ufuncs.pyx 140-142) *)
Record fftlib := { lfft : list R -> list C; lifft : list C -> list C }.
(** ufuncs.pyx 138-141: the first entry doubled, then the column continued by its entries from the last to the second *)
Definition feven_ext (c : list R) : list R := let t := upd c 0 (fmul 2 (nth 0 c 0)) in t ++ rev (tl t).
(** ufuncs.pyx 135-144, coeff_times, one pair of columns.  [z k]: which products the compiler fuses in the k-th complex
    product of line 142.  Only the real parts of line 143 are kept (line 144); 0.25 times a complex number is computed by
    numpy as (0.25 + 0j) * w, whose real part is fl(0.25 Re w). *)
Definition fcoeff_times (F : fftlib) (z : nat -> fuse) (fc gc : list R) : list R :=
  let mn := length fc in
  let x := lfft F (feven_ext gc) in
  let a := lfft F (feven_ext fc) in
  let t := lifft F (mk (length a) (fun k => fcmul (z k) (nth k a C0) (nth k x C0))) in
  let n := length t in
  firstn mn (mk n (fun k => fmul (/ 4) (match k with
                                        | O => Re (nth 0 t C0)
                                        | _ => fadd (Re (nth k t C0)) (Re (nth (n - k) t C0)) end))).
(** ufuncs.pyx 146-172, coeff_times_main, one pair of columns: both are padded by zeros first *)
Definition fproduct (F : fftlib) (z : nat -> fuse) (f g : list R) : list R :=
  fcoeff_times F z (pad (length g - 1) f) (pad (length f - 1) g).
