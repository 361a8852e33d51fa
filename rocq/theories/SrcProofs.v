From Coq Require Import Reals List Arith Bool Lra Lia.
From Coquelicot Require Import Coquelicot.
From Verif Require Import Base SrcModel SrcSpec.
Import ListNotations.
Open Scope R_scope.

Fixpoint nosd (s : sexp) : Prop :=
  match s with
  | SAdd a b | SMul a b => nosd a /\ nosd b
  | SPow a _ | SInv a | SApp _ a => nosd a
  | SD _ => False
  | _ => True
  end.
(** no division by zero at the point x *)
Fixpoint dat (E : env) (x : R) (s : sexp) : Prop :=
  match s with
  | SAdd p q | SMul p q => dat E x p /\ dat E x q
  | SPow p _ | SApp _ p | SD p => dat E x p
  | SInv p => dat E x p /\ den E p x <> 0
  | _ => True
  end.
Lemma defined_dat E a b s x : defined E a b s -> a < x < b -> dat E x s.
Proof. intros H Hx. induction s; cbn in *; try tauto. destruct H as [H1 H2]. split; [tauto|]. apply H2, Hx. Qed.

Lemma smooth_derive f k x : smooth f -> is_derive (Derive_n f k) x (Derive_n f (S k) x).
Proof. intros H. cbn [Derive_n]. apply Derive_correct. apply (H (S k) x). Qed.
Lemma is_derive_pow' (f : R -> R) n x l : is_derive f x l -> is_derive (fun y => f y ^ n) x (INR n * f x ^ (n - 1) * l).
Proof.
  intros H. evar_last; [apply is_derive_pow, H|]. replace (pred n) with (n - 1)%nat by lia. ring.
Qed.
Lemma is_derive_fn1 f (g : R -> R) E a x t l : is_derive g t l -> g t = den E a x -> is_derive (fun y => den_fn1 f (g y)) t (den E (dfn1 f a) x * l).
Proof.
  intros H Eg. destruct f; cbn [den_fn1 dfn1 den].
  - evar_last; [apply (is_derive_comp sin g t (cos (g t)) l); [apply is_derive_sin|exact H]|]. rewrite Eg. unfold scal; cbn; unfold mult; cbn. ring.
  - evar_last; [apply (is_derive_comp cos g t (- sin (g t)) l); [apply is_derive_cos|exact H]|]. rewrite Eg. unfold scal; cbn; unfold mult; cbn. ring.
  - evar_last; [apply (is_derive_comp exp g t (exp (g t)) l); [apply is_derive_exp|exact H]|]. rewrite Eg. unfold scal; cbn; unfold mult; cbn. ring.
Qed.
Lemma is_derive_inv' (f : R -> R) x l : is_derive f x l -> f x <> 0 -> is_derive (fun y => / f y) x (-1 * l * (/ f x) ^ 2).
Proof. intros H N. evar_last; [apply is_derive_inv; [exact H|exact N]|]. field. exact N. Qed.

Lemma is_derive_K (c t : R) : is_derive (fun _ : R => c) t 0. Proof. apply (is_derive_const (K := R_AbsRing) (V := R_NormedModule)). Qed.
Lemma sdx_correct E s x : smoothE E -> nosd s -> dat E x s -> is_derive (den E s) x (den E (sdx s) x).
Proof.
  intros [Sc [Sf Sp]]. induction s; cbn [nosd dat sdx den]; intros N D.
  - apply (is_derive_const (K := R_AbsRing) (V := R_NormedModule)).
  - apply (is_derive_id (K := R_AbsRing)).
  - apply (is_derive_const (K := R_AbsRing) (V := R_NormedModule)).
  - apply (smooth_derive _ k x (Sc j)).
  - apply (smooth_derive _ k x (Sf j)).
  - apply (smooth_derive _ k x (Sp l j)).
  - apply (is_derive_const (K := R_AbsRing) (V := R_NormedModule)).
  - apply (is_derive_plus (den E s1) (den E s2)); [apply IHs1|apply IHs2]; tauto.
  - evar_last; [apply (is_derive_mult (den E s1) (den E s2) x); [apply IHs1; tauto|apply IHs2; tauto|intros; apply Rmult_comm]|]. unfold plus, mult; cbn. ring.
  - apply is_derive_pow', IHs; assumption.
  - apply is_derive_inv'; [apply IHs; tauto|tauto].
  - apply is_derive_fn1; [apply IHs; assumption|reflexivity].
  - contradiction.
Qed.
Lemma sdx_nosd s : nosd s -> nosd (sdx s).
Proof. induction s; cbn; try tauto. destruct f; cbn; tauto. Qed.
Lemma sdx_dat E x s : dat E x s -> dat E x (sdx s).
Proof. induction s; cbn; try tauto. destruct f; cbn; tauto. Qed.
Lemma norm_nosd s : nosd (norm s).
Proof. induction s; cbn; try tauto. now apply sdx_nosd. Qed.
Lemma norm_id s : nosd s -> norm s = s.
Proof. induction s; cbn; intros H; try reflexivity; try (rewrite IHs by tauto; reflexivity); try (rewrite IHs1, IHs2 by tauto; reflexivity). contradiction. Qed.

Lemma locally_interval a b x : a < x < b -> locally x (fun y => a < y < b).
Proof.
  intros H. assert (P : 0 < Rmin (x - a) (b - x)) by (apply Rmin_glb_lt; lra). exists (mkposreal _ P). intros y Hy. cbn in Hy. unfold ball in Hy. cbn in Hy. unfold AbsRing_ball, abs, minus, plus, opp in Hy. cbn in Hy.
  apply Rabs_def2 in Hy. assert (M1 := Rmin_l (x - a) (b - x)). assert (M2 := Rmin_r (x - a) (b - x)). lra.
Qed.
Lemma norm_correct E a b s : smoothE E -> defined E a b s -> forall x, a < x < b -> dat E x (norm s) /\ den E (norm s) x = den E s x.
Proof.
  intros SE. induction s; cbn [defined norm dat den]; intros D x Hx; try (split; [exact I|reflexivity]).
  - destruct D as [D1 D2]. destruct (IHs1 D1 x Hx), (IHs2 D2 x Hx). split; [tauto|congruence].
  - destruct D as [D1 D2]. destruct (IHs1 D1 x Hx), (IHs2 D2 x Hx). split; [tauto|congruence].
  - destruct (IHs D x Hx) as [H1 H2]. split; [tauto|congruence].
  - destruct D as [D1 D2]. destruct (IHs D1 x Hx) as [H1 H2]. split; [split; [tauto|]|congruence]. rewrite H2. apply D2, Hx.
  - destruct (IHs D x Hx) as [H1 H2]. split; [tauto|congruence].
  - destruct (IHs D x Hx) as [H1 H2]. split; [apply sdx_dat, H1|]. rewrite <- (is_derive_unique _ _ _ (sdx_correct E (norm s) x SE (norm_nosd s) H1)).
    apply Derive_ext_loc. apply (filter_imp (fun y => a < y < b)); [|apply locally_interval, Hx]. intros y Hy. apply (IHs D y Hy).
Qed.

(** environment with another increment *)
Definition wE (E : env) (e : R) : env := mkEnv (e_par E) (e_cf E) (e_fun E) (e_pert E) e.
(** derivative in one symbol, for expressions without unevaluated Derivatives: a family of environments Et *)
Lemma sdiff_correct (Et : R -> env) (at' : sexp -> R) t0 s x :
  (forall s, match s with SAdd _ _ | SMul _ _ | SPow _ _ | SInv _ | SApp _ _ | SD _ => True | _ => is_derive (fun t => den (Et t) s x) t0 (at' s) end) ->
  nosd s -> dat (Et t0) x s -> is_derive (fun t => den (Et t) s x) t0 (den (Et t0) (sdiff at' s) x).
Proof.
  intros A. induction s; intros N D; try (apply (A (SNum r))); try (apply (A SX)); try (apply (A (SPar p))); try (apply (A (SCFun j k))); try (apply (A (SFun j k))); try (apply (A (SPert l j k))); try (apply (A SEps)); cbn [nosd dat sdiff den] in *.
  - apply (is_derive_plus (fun t => den (Et t) s1 x) (fun t => den (Et t) s2 x)); [apply IHs1|apply IHs2]; tauto.
  - evar_last; [apply (is_derive_mult (fun t => den (Et t) s1 x) (fun t => den (Et t) s2 x) t0); [apply IHs1; tauto|apply IHs2; tauto|intros; apply Rmult_comm]|]. unfold plus, mult; cbn. ring.
  - apply (is_derive_pow' (fun t => den (Et t) s x)), IHs; assumption.
  - apply (is_derive_inv' (fun t => den (Et t) s x)); [apply IHs; tauto|tauto].
  - apply (is_derive_fn1 f (fun t => den (Et t) s x)); [apply IHs; assumption|reflexivity].
  - contradiction.
Qed.
Lemma diff_eps_correct E s x e0 : nosd s -> dat (wE E e0) x s -> is_derive (fun e => den (wE E e) s x) e0 (den (wE E e0) (diff_eps s) x).
Proof.
  intros N D. apply (sdiff_correct (wE E) (fun s => match s with SEps => 1 | _ => 0 end) e0 s x); [|exact N|exact D].
  intros s0. destruct s0; cbv beta iota; lazymatch goal with |- True => exact I | _ => idtac end. all: cbn [den wE e_par e_cf e_fun e_pert e_eps]. all: try (lazymatch goal with |- is_derive (fun _ => _) _ 0 => apply is_derive_K end). apply (is_derive_id (K := R_AbsRing)).
Qed.
Lemma diff_par_correct E p s x q0 : nosd s -> dat (set_par E p q0) x s -> is_derive (fun q => den (set_par E p q) s x) q0 (den (set_par E p q0) (diff_par p s) x).
Proof.
  intros N D. apply (sdiff_correct (set_par E p) (fun s => match s with SPar q => if Nat.eqb p q then 1 else 0 | _ => 0 end) q0 s x); [|exact N|exact D].
  intros s0. destruct s0; cbv beta iota; lazymatch goal with |- True => exact I | _ => idtac end. all: cbn [den set_par e_par e_cf e_fun e_pert e_eps]. all: try (lazymatch goal with |- is_derive (fun _ => _) _ 0 => apply is_derive_K end).
  rewrite (Nat.eqb_sym p p0). destruct (Nat.eqb_spec p0 p); [apply (is_derive_id (K := R_AbsRing))|apply is_derive_K].
Qed.
