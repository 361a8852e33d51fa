(** Vectors x_0, x_1, ... as a vector space over R (mathematics only). *)
From Coq Require Import Reals FunctionalExtensionality.
From Coquelicot Require Import Coquelicot.
Open Scope R_scope.

Definition vec := nat -> R.
Definition vec_plus (u v : vec) : vec := fun i => u i + v i.
Definition vec_opp (u : vec) : vec := fun i => - u i.
Definition vec_scal (a : R) (u : vec) : vec := fun i => a * u i.
Definition vec_group_mixin : AbelianGroup.mixin_of vec.
Proof.
  apply (AbelianGroup.Mixin vec vec_plus vec_opp (fun _ => 0)).
  - intros u v. apply functional_extensionality. intros i. apply Rplus_comm.
  - intros u v w. apply functional_extensionality. intros i. unfold vec_plus. ring.
  - intros u. apply functional_extensionality. intros i. apply Rplus_0_r.
  - intros u. apply functional_extensionality. intros i. apply Rplus_opp_r.
Defined.
Canonical vec_AbelianGroup := AbelianGroup.Pack vec vec_group_mixin vec.
Definition vec_module_mixin : ModuleSpace.mixin_of R_Ring vec_AbelianGroup.
Proof.
  apply (ModuleSpace.Mixin R_Ring vec_AbelianGroup vec_scal).
  - intros a b u. apply functional_extensionality. intros i. unfold vec_scal, mult; cbn. ring.
  - intros u. apply functional_extensionality. intros i. unfold vec_scal, one; cbn. ring.
  - intros a u v. apply functional_extensionality. intros i. unfold vec_scal, plus; cbn. unfold vec_plus. ring.
  - intros a b u. apply functional_extensionality. intros i. unfold vec_scal, plus; cbn. unfold vec_plus. ring.
Defined.
Canonical vecs := ModuleSpace.Pack R_Ring vec (ModuleSpace.Class R_Ring vec vec_group_mixin vec_module_mixin) vec.
Lemma vplus_i (u v : vecs) i : (plus u v : vec) i = (u : vec) i + (v : vec) i. Proof. reflexivity. Qed.
Lemma vopp_i (u : vecs) i : (opp u : vec) i = - (u : vec) i. Proof. reflexivity. Qed.
Lemma vscal_i a (u : vecs) i : (scal a u : vec) i = a * (u : vec) i. Proof. reflexivity. Qed.
Lemma vminus_i (u v : vecs) i : (minus u v : vec) i = (u : vec) i - (v : vec) i. Proof. reflexivity. Qed.
Lemma vzero_i i : ((zero : vecs) : vec) i = 0. Proof. reflexivity. Qed.
