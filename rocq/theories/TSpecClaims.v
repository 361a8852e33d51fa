(** Conditions on operator blocks used in the statements about trigspec. *)
From Coq Require Import Reals ZArith List Arith.
From Coquelicot Require Import Coquelicot.
From Verif Require Import Base TrigSpec TrigModel TSpecSpec TSpecModel.
Import ListNotations.
Open Scope R_scope.
Open Scope C_scope.

(** integral terms that the assembly handles: none, or one with integrand 1 *)
Definition tints_ok (a b : R) (q : tblock) : Prop :=
  if t_iflag q then exists c d, t_ics q = [c] /\ t_ints q = [d] /\ (1 <= length c)%nat /\ forall y, tfun a b d y = RtoC 1 else t_ics q = [].
(** constant coefficients *)
Definition const_block (q : tblock) : Prop := forall c, In c (t_coeffs q ++ t_ics q ++ t_nlcoeffs q) -> length c = 1%nat.
(** the operator a block stands for *)
Definition tblock_op (a b : R) (q : tblock) : (R -> C) -> R -> C := trig_op a b (t_coeffs q) (t_ics q) (t_ints q) (t_nlcoeffs q).
(** the flags of a block agree with its coefficients *)
Definition tblock_ok (a b : R) (q : tblock) : Prop := tflags_ok (tflag (t_info q)) (t_coeffs q) /\ tflags_ok (tflag (t_nlinfo q)) (t_nlcoeffs q) /\ tints_ok a b q.

(** no nonzero entry is small enough to be dropped *)
Definition kept (n : nat) (e : R) (M : cmat) : Prop := forall i j, (i < n)%nat -> (j < n)%nat -> ment M i j = RtoC 0 \/ e <= Cmod (ment M i j).
