(** The transforms between values at equispaced points and Fourier coefficients in double precision: trig/transform.py
    19-90 with rounding.  The complex transforms scipy.fft.fft and scipy.fft.ifft are arguments of the model; all other
    operations round to nearest (FlModel.v).  A real number times a complex array is computed by numpy as a product with
    (r + 0j), whose parts are fl(r Re) and fl(r Im); products with 1 and -1 are exact.  A difference of doubles is 0 after
    rounding only if it is 0, so the symmetry tests are those of TrigModel.v.  Overflow and signed zeros are not modelled. *)
From Coq Require Import Reals List Arith Bool.
From Coquelicot Require Import Coquelicot.
From Verif Require Import Base TrigSpec TrigModel FlModel FlTrigModel.
Import ListNotations.
Open Scope R_scope.

(** transform.py 5, scipy.fft.fft and scipy.fft.ifft on a complex column *)
Record cfftlib := { cfft : list C -> list C; cifft : list C -> list C }.
(** transform.py 42 and 78: a real number times a complex number *)
Definition fscale (r : R) (w : C) : C := (fmul r (fst w), fmul r (snd w)).
(** transform.py 19-59, vals2coeffs, one column *)
Definition fvals2coeffs (F : cfftlib) (v : list C) : list C :=
  let n := length v in
  if Nat.leb n 1 then v else
  let vals := v ++ [nth 0 v C0] in
  let c := map (fscale (fdiv 1 (INR n))) (fftshift (cfft F v)) in
  let c := if isHerm vals then map (fun a => (fst a, 0)) c else c in
  let c := if isSkew vals then map (fun a => (0, snd a)) c else c in
  mk n (fun k => (eofix n k * nth k c C0)%C).
(** transform.py 84-85: (p + conj q) / 2 and (p - conj q) / 2 *)
Definition fherm (p q : C) : C := (fdiv (fadd (fst p) (fst q)) 2, fdiv (fadd (snd p) (- snd q)) 2).
Definition fskew (p q : C) : C := (fdiv (fsub (fst p) (fst q)) 2, fdiv (fsub (snd p) (- snd q)) 2).
(** transform.py 61-90, coeffs2vals, one column *)
Definition fcoeffs2vals (F : cfftlib) (c : list C) : list C :=
  let n := length c in
  if Nat.leb n 1 then c else
  let c := mk n (fun k => (eofix n k * nth k c C0)%C) in
  let herm := forallb (fun a => Reqb (Rabs (Im a)) 0) c in
  let skew := forallb (fun a => Reqb (Rabs (Re a)) 0) c in
  let values := cifft F (ifftshift (map (fscale (INR n)) c)) in
  let vals := values ++ [nth 0 values C0] in
  let hermvals := map (fun p => fherm (fst p) (snd p)) (combine vals (rev vals)) in
  let skewvals := map (fun p => fskew (fst p) (snd p)) (combine vals (rev vals)) in
  let values := if herm then firstn n hermvals else values in
  let values := if skew then firstn n skewvals else values in
  values.
