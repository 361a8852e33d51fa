(** Evaluation of a periodic function in double precision.  The functions np.cos, np.sin and np.exp (of a purely imaginary
    argument) come from the C library; they are arguments of the model ([libm]), and np.pi is the double nearest to pi. *)
From Coq Require Import Reals List Arith Bool.
From Coquelicot Require Import Coquelicot.
From Verif Require Import Base TrigSpec TrigModel FlModel.
Import ListNotations.
Open Scope R_scope.

(** what the C library returns for cos t, sin t and, for exp(i t), as real and imaginary part *)
Record libm := { lcos : R -> R; lsin : R -> R; lecos : R -> R; lesin : R -> R }.
(** np.pi *)
Definition fpi : R := fl PI.

(** A complex product: numpy computes (ar*br - ai*bi, ar*bi + ai*br); the compiler may fuse one of the two products with
    the addition (which one is not known). *)
Inductive fuse := Fno | Ffst | Fsnd.
Definition ftwo (z : fuse) (p q : R) : R :=
  match z with Fno => fl (fl p + fl q) | Ffst => fl (p + fl q) | Fsnd => fl (fl p + q) end.
Definition fcmul (z : fuse) (p q : C) : C :=
  (ftwo z (fst p * fst q) (- (snd p * snd q)), ftwo z (fst p * snd q) (snd p * fst q)).
Definition fcadd (p q : C) : C := (fadd (fst p) (fst q), fadd (snd p) (snd q)).

(** eval.py 73-75 (103-105): the first coefficient of an even length is halved *)
Definition ftouch (c : list C) : list C :=
  match c with
  | [] => []
  | a :: t => if Nat.even (length c) then (fmul (Re a) (/ 2), 0) :: t else c
  end.
(** eval.py 83-85 (113-116), one pass of the loop *)
Definition frstep (u v : R) (d w : C) : C :=
  (fadd (fadd (fst d) (fmul u (fst w))) (fmul v (snd w)), fsub (fadd (snd d) (fmul u (snd w))) (fmul v (fst w))).
(** eval.py 62-89 horner_scl_real = 91-120 horner_vec_real, one column, one point.  The products with np.ones are exact. *)
Definition fhorner_real (L : libm) (c : list C) (x : R) : R :=
  let N := length c in
  let n := ((N + 2) / 2)%nat in
  let c' := rev (firstn n (ftouch c)) in
  if Nat.eqb N 1 then Re (nth 0 c' C0) else
  let t := fmul fpi x in
  let u := lcos L t in
  let v := lsin L t in
  let w := fold_left (fun w j => frstep u v (nth j c' C0) w) (rev (seq 1 (n - 2))) (nth (n - 1) c' C0) in
  fadd (Re (nth 0 c' C0)) (fmul 2 (fadd (fmul u (fst w)) (fmul v (snd w)))).
(** eval.py 43-60 horner_scl_cmplx = 8-41 horner_vec_cmplx, one column, one point.  [1j * np.pi * k * x] has real part 0
    and imaginary part fl (fl (pi k) x). *)
Definition fhorner_cmplx (L : libm) (z : nat -> fuse) (c : list C) (x : R) : C :=
  let n := length c in
  if Nat.eqb n 1 then nth 0 c C0 else
  let t := fmul fpi x in
  let e := (lecos L t, lesin L t) in
  let q := fold_left (fun q j => fcadd (nth j c C0) (fcmul (z j) e q)) (rev (seq 1 (n - 2))) (nth (n - 1) c C0) in
  if Nat.odd n then
    let s := - fmul (fmul fpi (INR ((n - 1) / 2))) x in
    fcmul (z n) (lecos L s, lesin L s) (fcadd (nth 0 c C0) (fcmul (z 0%nat) e q))
  else
    let s := - fmul (fmul fpi (INR (n / 2 - 1))) x in
    let k := lcos L (fmul (fmul (INR (n / 2)) fpi) x) in
    fcadd (fcmul (z n) (lecos L s, lesin L s) q) (fmul k (fst (nth 0 c C0)), fmul k (snd (nth 0 c C0))).
(** eval.py 122-134, horner for one column, called by trigtech.py 415-420 (feval); [re] is the flag isReal. *)
Definition ftcall (L : libm) (z : nat -> fuse) (re : bool) (c : list C) (x : R) : C :=
  if re then RtoC (fhorner_real L c x) else fhorner_cmplx L z c x.
(** fun.py 128-132, __call__ of a periodic function on [a, b] at one point. *)
Definition fpcall (L : libm) (z : nat -> fuse) (a b : R) (re : bool) (c : list C) (x : R) : option C :=
  let y := fbwd a b x in
  if Rle_dec (-1) y then if Rle_dec y 1 then Some (ftcall L z re c y) else None else None.

(** every returned value is within d of the exact function at the double it was given *)
Definition libm_within (L : libm) (d : R) : Prop := forall t, is_double t ->
  Rabs (lcos L t - cos t) <= d /\ Rabs (lsin L t - sin t) <= d /\ Rabs (lecos L t - cos t) <= d /\ Rabs (lesin L t - sin t) <= d.
