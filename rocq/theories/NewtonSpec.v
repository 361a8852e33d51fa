(** Mathematical notions for the Newton iterations, independent of the model. *)
From Coq Require Import Reals.
From Coquelicot Require Import Coquelicot.
Open Scope R_scope.

(** Real inner products. *)
Record inner {X : ModuleSpace R_Ring} (ip : X -> X -> R) : Prop := {
  in_add : forall u v w, ip (plus u v) w = ip u w + ip v w;
  in_scal : forall a u w, ip (scal a u) w = a * ip u w;
  in_sym : forall u w, ip u w = ip w u;
  in_pos : forall u, u <> zero -> 0 < ip u u }.
Record linmap {X Y : ModuleSpace R_Ring} (J : X -> Y) : Prop := {
  lm_add : forall u v, J (plus u v) = plus (J u) (J v);
  lm_scal : forall a u, J (scal a u) = scal a (J u) }.

Section Broyden.
Context {X V : ModuleSpace R_Ring}.
Variables (J : X -> V) (F : X -> V) (ip : X -> X -> R).
(** The points x_0, x_1 = x_0 + d_0, x_2 = x_1 + d_1, ... *)
Fixpoint bro_x (x0 : X) (ds : nat -> X) (i : nat) : X :=
  match i with O => x0 | S j => plus (bro_x x0 ds j) (ds j) end.
(** Broyden's "good" update B_{i+1} z = B_i z + <d_i, z>/|d_i|^2 F(x_{i+1}), B_0 = J. *)
Fixpoint bro_B (x0 : X) (ds : nat -> X) (i : nat) (z : X) : V :=
  match i with
  | O => J z
  | S j => plus (bro_B x0 ds j z) (scal (ip (ds j) z / ip (ds j) (ds j)) (F (bro_x x0 ds (S j))))
  end.
End Broyden.

(** Approximations of the inverse of the linear operator A: the preconditioner
    P, improved by "good Broyden" updates along directions d. *)
Inductive broyden_inv {X V : ModuleSpace R_Ring} (A : X -> V) (P : V -> X) (ip : X -> X -> R) : (V -> X) -> Prop :=
| bi_base : broyden_inv A P ip P
| bi_step H d : broyden_inv A P ip H -> ip d (H (A d)) <> 0 ->
    broyden_inv A P ip (fun v => plus (H v) (scal (ip d (H v) / ip d (H (A d))) (minus d (H (A d))))).
