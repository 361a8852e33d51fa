(** Concrete solvers and borders: examples and counterexamples. *)
From Coq Require Import Reals List Arith Lia Lra Bool.
From Verif Require Import Base LASpec BordModel BordSpec LABase BordProofs BordW.
Import ListNotations.
Open Scope R_scope.

Ltac ent H := let E0 := fresh "E" in let E1 := fresh "E" in let E2 := fresh "E" in let E3 := fresh "E" in
  assert (E0 := f_equal (fun l => nth 0 l 0) H); assert (E1 := f_equal (fun l => nth 1 l 0) H);
  assert (E2 := f_equal (fun l => nth 2 l 0) H); assert (E3 := f_equal (fun l => nth 3 l 0) H); cbn in E0, E1, E2, E3; clear H.
(** A1 = (2 1; 1 1) with inverse (1 -1; -1 2) *)
Definition A1 : rmat := fun i j => match i, j with 0%nat, 0%nat => 2 | _, _ => 1 end.
Definition inv1 (f : list R) : list R := [nth 0 f 0 - nth 1 f 0; - nth 0 f 0 + 2 * nth 1 f 0].
Definition s1 : solver := {| s_solve := inv1; s_adj := inv1; s_null := ([], []); s_part := fun f => f; s_part_adj := fun f => f; s_sing := false; s_det := 1 |}.
Lemma s1_exact : exact_solver 2 A1 s1.
Proof.
  split; [reflexivity|].
  assert (G : forall f, length f = 2%nat -> solves 2 A1 (inv1 f) f /\ solves 2 (transp A1) (inv1 f) f).
  { intros f Lf. destruct f as [|a [|b [|]]]; try discriminate. repeat split; unfold mv, mk, transp, inv1, A1; cbn; apply f_equal2; try ring; apply f_equal2; try ring; reflexivity. }
  split; intros f Lf; apply G, Lf.
Qed.
Lemma A1_nonsing : nonsingular 2 A1.
Proof.
  intros x Lx H. destruct x as [|a [|b [|]]]; try discriminate. unfold mv, mk, zeros, A1 in H. ent H. unfold zeros. cbn.
  apply f_equal2; [lra|]. apply f_equal2; [lra|reflexivity].
Qed.
Lemma B1_nonsing : nonsingular 3 (bord 2 A1 [1; 0] [0; 1] 3).
Proof.
  intros x Lx H. destruct x as [|a [|b [|c [|]]]]; try discriminate. unfold mv, mk, zeros, bord, A1 in H. ent H. unfold zeros. cbn.
  repeat (apply f_equal2; [lra|]). reflexivity.
Qed.
(** A2 = (1 1; 1 1) with null vectors (1, -1) *)
Definition A2 : rmat := fun _ _ => 1.
Definition s2 : solver := {| s_solve := fun f => f; s_adj := fun f => f; s_null := ([1; -1], [1; -1]);
  s_part := fun f => [nth 0 f 0; 0]; s_part_adj := fun f => [nth 0 f 0; 0]; s_sing := true; s_det := 0 |}.
Lemma s2_exact : exact_singular 2 A2 s2.
Proof.
  split; [reflexivity|]. cbn. split; [reflexivity|]. split; [reflexivity|].
  assert (Z : [1; -1] <> zeros 2) by (intros H; unfold zeros, mk in H; ent H; lra).
  split; [exact Z|]. split; [exact Z|].
  assert (G : forall f, length f = 2%nat -> dotp [1; -1] f = 0 -> solves 2 A2 [nth 0 f 0; 0] f /\ solves 2 (transp A2) [nth 0 f 0; 0] f).
  { intros f Lf D. destruct f as [|a [|b [|]]]; try discriminate. unfold dotp in D. cbn in D. repeat split; unfold mv, mk, transp, A2; cbn; apply f_equal2; try lra; apply f_equal2; try lra; reflexivity. }
  repeat split; try (unfold mv, mk, zeros, transp, A2; cbn; repeat (apply f_equal2; [lra|]); reflexivity); apply G; assumption.
Qed.
Lemma B2_nonsing : nonsingular 3 (bord 2 A2 [2; 0] [1; 0] 0).
Proof.
  intros x Lx H. destruct x as [|a [|b [|c [|]]]]; try discriminate. unfold mv, mk, zeros, bord, A2 in H. ent H. unfold zeros. cbn.
  repeat (apply f_equal2; [lra|]). reflexivity.
Qed.
Lemma good1 : good_borders 2 A1 [[1; 0]; [0; 0; 1]] [[0; 1]; [1; 0; 0]] [3; 1].
Proof.
  split; [reflexivity|]. split; [reflexivity|]. intros k Hk. cbn in Hk. destruct k as [|[|k]]; [| |lia]; (split; [reflexivity|]; split; [reflexivity|]).
  - intros x Lx H. destruct x as [|a [|b [|c [|]]]]; try discriminate. unfold mv, mk, zeros, bords, bord, A1 in H. ent H. unfold zeros. cbn.
    repeat (apply f_equal2; [lra|]). reflexivity.
  - intros x Lx H. destruct x as [|a [|b [|c [|e [|]]]]]; try discriminate. unfold mv, mk, zeros, bords, bord, A1 in H. ent H. unfold zeros. cbn.
    repeat (apply f_equal2; [lra|]). reflexivity.
Qed.
Lemma B3_sing : ~ nonsingular 3 (bord 2 A1 [1; 0] [0; 1] (-1)).
Proof.
  intros H. specialize (H [1; -2; 1] eq_refl). assert (E : [1; -2; 1] = zeros 3).
  { apply H. unfold mv, mk, zeros, bord, A1. cbn. repeat (apply f_equal2; [ring|]). reflexivity. }
  unfold zeros, mk in E. ent E. lra.
Qed.
(** C40 is false for solve_null with a singular inner matrix *)
Lemma bem_null_sing_wrong : exists n A s b c d, exact_singular n A s /\ length b = n /\ length c = n /\ nonsingular (S n) (bord n A b c d) /\
  ~ solves (S n) (bord n A b c d) (bem_solve_null (bem_new s b c d)) (zeros n ++ [1]).
Proof.
  exists 2%nat, A2, s2, [2; 0], [1; 0], 0. split; [exact s2_exact|]. split; [reflexivity|]. split; [reflexivity|]. split; [exact B2_nonsing|].
  intros [_ H]. rewrite bem_null_sing in H by (try exact s2_exact; reflexivity). apply snoc_inj in H. destruct H as [_ H]. unfold dotp in H. cbn in H. lra.
Qed.
