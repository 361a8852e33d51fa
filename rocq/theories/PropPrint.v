(** C163: the Python code generated from an equation computes the equation. *)
From Coq Require Import Reals List Arith Bool Lra Lia.
From Coquelicot Require Import Coquelicot.
From Verif Require Import PrintModel.
Import ListNotations.
Open Scope R_scope.

(** Specification: the function of x an expression stands for on [a, b]. *)
Definition lim_at (l : limit) (x : R) : R := match l with LNum r => r | LX => x end.
Fixpoint meaning (E : penv) (e : sx) (x : R) : R :=
  match e with
  | XNum r => r
  | XPar p => p_par E p
  | XVar => x
  | XFn j => p_fn E j x
  | XAdd a b => meaning E a x + meaning E b x
  | XMul a b => meaning E a x * meaning E b x
  | XDiv a b => meaning E a x / meaning E b x
  | XPow a k => meaning E a x ^ k
  | XEl f a => p_el E f (meaning E a x)
  | XDer a n => Derive_n (meaning E a) n x
  | XInt a => RInt (meaning E a) (p_a E) (p_b E)
  | XIntTo a lo hi => RInt (meaning E a) (lim_at lo x) (lim_at hi x)
  end.
(** does the expression have a function as its value (rather than a number)? *)
Fixpoint varies (e : sx) : bool :=
  match e with
  | XNum _ | XPar _ | XInt _ => false
  | XVar | XFn _ | XDer _ _ | XIntTo _ _ _ => true
  | XAdd a b | XMul a b | XDiv a b => varies a || varies b
  | XPow a _ | XEl _ a => varies a
  end.
Definition is_integral (e : sx) : bool := match e with XInt _ | XIntTo _ _ _ => true | _ => false end.
(** expressions the printer handles: derivatives and integrals are taken of
    expressions that vary, no integral is directly under an integral, integrals
    with bounds run from the left end of the domain to x over an integrand with
    one function *)
Fixpoint printable (a : R) (e : sx) : Prop :=
  match e with
  | XNum _ | XPar _ | XVar | XFn _ => True
  | XAdd p q | XMul p q | XDiv p q => printable a p /\ printable a q
  | XPow p _ | XEl _ p => printable a p
  | XDer p _ => printable a p /\ varies p = true
  | XInt p => printable a p /\ varies p = true /\ is_integral p = false
  | XIntTo p lo hi => printable a p /\ varies p = true /\ is_integral p = false /\ n_atoms p = 1%nat /\ lo = LNum a /\ hi = LX
  end.

(** v is the value f, as a number or as a function according to b *)
Definition stands (b : bool) (v : pyval) (f : R -> R) : Prop :=
  match v with VNum r => b = false /\ (forall x, f x = r) | VFun g => b = true /\ (forall x, g x = f x) end.
Lemma prt_some lim e : is_integral e = false -> prt (Some lim) e = print_integral lim (n_atoms e) (print e).
Proof. intros H. destruct e; try discriminate; reflexivity. Qed.
Lemma stands2 op bv bw v w f g : stands bv v f -> stands bw w g -> stands (bv || bw) (lift2 op v w) (fun x => op (f x) (g x)).
Proof.
  destruct v, w; intros [-> H1] [-> H2]; cbn [lift2 orb]; split; try reflexivity; intros x; rewrite ?H1, ?H2; reflexivity.
Qed.
Lemma stands1 op bv v f : stands bv v f -> stands bv (lift1 op v) (fun x => op (f x)).
Proof. destruct v; intros [-> H]; split; try reflexivity; intros x; rewrite H; reflexivity. Qed.
Lemma print_correct E : forall e, printable (p_a E) e -> exists v, run E (print e) = Some v /\ stands (varies e) v (meaning E e).
Proof.
  induction e; cbn [printable]; intros HP.
  - exists (VNum r). split; [reflexivity|]. split; reflexivity.
  - exists (VNum (p_par E p)). split; [reflexivity|]. split; reflexivity.
  - exists (VFun (fun x => x)). split; [reflexivity|]. split; reflexivity.
  - exists (VFun (p_fn E j)). split; [reflexivity|]. split; reflexivity.
  - destruct HP as [H1 H2]. destruct (IHe1 H1) as (v & R1 & S1). destruct (IHe2 H2) as (w & R2 & S2). exists (lift2 Rplus v w). split; [unfold print in *; cbn; rewrite R1; cbn; rewrite R2; reflexivity|]. apply (stands2 Rplus _ _ _ _ _ _ S1 S2).
  - destruct HP as [H1 H2]. destruct (IHe1 H1) as (v & R1 & S1). destruct (IHe2 H2) as (w & R2 & S2). exists (lift2 Rmult v w). split; [unfold print in *; cbn; rewrite R1; cbn; rewrite R2; reflexivity|]. apply (stands2 Rmult _ _ _ _ _ _ S1 S2).
  - destruct HP as [H1 H2]. destruct (IHe1 H1) as (v & R1 & S1). destruct (IHe2 H2) as (w & R2 & S2). exists (lift2 Rdiv v w). split; [unfold print in *; cbn; rewrite R1; cbn; rewrite R2; reflexivity|]. apply (stands2 Rdiv _ _ _ _ _ _ S1 S2).
  - destruct (IHe HP) as (v & R1 & S1). exists (lift1 (fun t => t ^ k) v). split; [unfold print in *; cbn; rewrite R1; reflexivity|]. apply (stands1 (fun t => t ^ k) _ _ _ S1).
  - destruct (IHe HP) as (v & R1 & S1). exists (lift1 (p_el E f) v). split; [unfold print in *; cbn; rewrite R1; reflexivity|]. apply (stands1 (p_el E f) _ _ _ S1).
  - destruct HP as [H1 H2]. destruct (IHe H1) as (v & R1 & S1). rewrite H2 in S1. destruct v as [r|f]; [destruct S1; discriminate|]. destruct S1 as [_ S1]. exists (VFun (Derive_n f n)). split; [unfold print in *; cbn; rewrite R1; reflexivity|]. split; [reflexivity|]. intros x. cbn [meaning]. apply Derive_n_ext. exact S1.
  - destruct HP as (H1 & H2 & H3). destruct (IHe H1) as (v & R1 & S1). rewrite H2 in S1. destruct v as [r|f]; [destruct S1; discriminate|]. destruct S1 as [_ S1]. exists (VNum (RInt f (p_a E) (p_b E))). split; [unfold print; cbn [prt]; rewrite (prt_some false e H3); cbn [print_integral run]; rewrite R1; reflexivity|]. split; [reflexivity|]. cbn [meaning]. intros _. apply RInt_ext. intros y _. symmetry. apply S1.
  - destruct HP as (H1 & H2 & H3 & H4 & -> & ->). destruct (IHe H1) as (v & R1 & S1). rewrite H2 in S1. destruct v as [r|f]; [destruct S1; discriminate|]. destruct S1 as [_ S1]. exists (VFun (fun x => RInt f (p_a E) x)). split; [unfold print; cbn [prt]; rewrite (prt_some true e H3); unfold print_integral; rewrite H4; cbn [Nat.eqb run]; rewrite R1; reflexivity|]. split; [reflexivity|]. intros x. cbn [meaning lim_at]. apply RInt_ext. intros y _. apply S1.
Qed.

(** C163: the residual function generated from a printable expression is that expression, on the domain of the operator. *)
Theorem C163_residual_partial : forall E e, printable (p_a E) e ->
  exists f, emit_residual E e = Some (p_a E, p_b E, f) /\ forall x, f x = meaning E e x.
Proof.
  intros E e H. destruct (print_correct E e H) as (v & R1 & S1). unfold emit_residual. rewrite R1. destruct v as [r|f]; destruct S1 as [_ S1]; cbn.
  - exists (fun _ => r). split; [reflexivity|]. intros x. symmetry. apply S1.
  - exists f. split; [reflexivity|]. exact S1.
Qed.
Print Assumptions C163_residual_partial.
(** C163: so are the coefficients of derivatives, on the domain of the operator, if the coefficient varies or has no function in it. *)
Theorem C163_coefficient_partial : forall E e, printable (p_a E) e -> (varies e = true \/ atoms e = []) ->
  exists f, emit_coeff E e = Some (p_a E, p_b E, f) /\ forall x, f x = meaning E e x.
Proof.
  intros E e H HV. destruct (print_correct E e H) as (v & R1 & S1). unfold emit_coeff. rewrite R1. destruct (atoms e) eqn:EA.
  - destruct v as [r|f]; destruct S1 as [_ S1]; cbn; eexists; (split; [reflexivity|]); intros x; cbn; rewrite ?S1; ring.
  - destruct HV as [HV|HV]; [|discriminate]. rewrite HV in S1. destruct v as [r|f]; [destruct S1; discriminate|]. destruct S1 as [_ S1]. exists f. split; [reflexivity|]. exact S1.
Qed.
Print Assumptions C163_coefficient_partial.
(** C163: and the coefficients and integrands of integral terms, always on the domain of the operator. *)
Theorem C163_integral_coefficient : forall E e, printable (p_a E) e ->
  exists f, emit_icoeff E e = Some (p_a E, p_b E, f) /\ forall x, f x = meaning E e x.
Proof.
  intros E e H. destruct (print_correct E e H) as (v & R1 & S1). unfold emit_icoeff. rewrite R1.
  destruct v as [r|f]; destruct S1 as [_ S1]; cbn; eexists; (split; [reflexivity|]); intros x; cbn; rewrite ?S1; ring.
Qed.
Print Assumptions C163_integral_coefficient.
(** C163: a coefficient that is a number computed from the functions (such as an integral) is put on [-1, 1], whatever the domain of the operator. *)
Theorem C163_domain_refuted : forall E e, printable (p_a E) e -> varies e = false -> atoms e <> [] ->
  exists r, emit_coeff E e = Some (-1, 1, fun _ => r) /\ forall x, meaning E e x = r.
Proof.
  intros E e H HV HA. destruct (print_correct E e H) as (v & R1 & S1). rewrite HV in S1. destruct v as [r|f]; [|destruct S1; discriminate]. destruct S1 as [_ S1].
  exists r. split; [|exact S1]. unfold emit_coeff. rewrite R1. destruct (atoms e); [contradiction|]. reflexivity.
Qed.
Print Assumptions C163_domain_refuted.

Fixpoint times (k : nat) (e : sx) : sx := match k with O => e | S k => XInt (times k e) end.
(** C163: of repeated integrals over the domain only one is computed; the others, each a factor b - a, are lost. *)
Theorem C163_nested_refuted : forall E e k, printable (p_a E) e -> varies e = true -> is_integral e = false ->
  exists r, emit_residual E (times (S k) e) = Some (p_a E, p_b E, fun _ => r) /\ forall x, meaning E (times (S k) e) x = (p_b E - p_a E) ^ k * r.
Proof.
  intros E e k H HV HI. destruct (print_correct E e H) as (v & R1 & S1). rewrite HV in S1. destruct v as [r|f]; [destruct S1; discriminate|]. destruct S1 as [_ S1].
  exists (RInt f (p_a E) (p_b E)). split.
  - unfold emit_residual. assert (P : print (times (S k) e) = PSum (print e)).
    { unfold print. cbn [times prt]. induction k; cbn [times prt]; [apply (prt_some false e HI)|exact IHk]. }
    rewrite P. cbn [run]. rewrite R1. reflexivity.
  - induction k; intros x.
    + cbn [times meaning pow]. rewrite Rmult_1_l. apply RInt_ext. intros y _. symmetry. apply S1.
    + change (meaning E (times (S (S k)) e) x) with (RInt (meaning E (times (S k) e)) (p_a E) (p_b E)).
      rewrite (RInt_ext _ (fun _ => (p_b E - p_a E) ^ k * RInt f (p_a E) (p_b E))) by (intros y _; apply IHk).
      rewrite RInt_const. cbn. unfold scal; cbn; unfold mult; cbn. ring.
Qed.
Print Assumptions C163_nested_refuted.
(** C163: the integral of a number (a constant, a parameter, 1 + an integral, ...) over the domain is that number itself: the length of the domain is lost. *)
Theorem C163_number_refuted : forall E e, printable (p_a E) e -> varies e = false -> is_integral e = false ->
  exists r, emit_residual E (XInt e) = Some (p_a E, p_b E, fun _ => r) /\ (forall x, meaning E e x = r) /\ forall x, meaning E (XInt e) x = (p_b E - p_a E) * r.
Proof.
  intros E e H HV HI. destruct (print_correct E e H) as (v & R1 & S1). rewrite HV in S1. destruct v as [r|f]; [|destruct S1; discriminate]. destruct S1 as [_ S1].
  exists r. split; [|split; [exact S1|]].
  - unfold emit_residual. assert (P : print (XInt e) = PSum (print e)) by (unfold print; cbn [prt]; apply (prt_some false e HI)).
    rewrite P. cbn [run]. rewrite R1. reflexivity.
  - intros x. cbn [meaning]. rewrite (RInt_ext _ (fun _ => r)) by (intros y _; apply S1). rewrite RInt_const. unfold scal; cbn; unfold mult; cbn. ring.
Qed.
Print Assumptions C163_number_refuted.
(** such as the parameter p = 3 on [0, 2]: 3 instead of 6 *)
Example C163_number_ex : let E := mkP (fun _ => 3) (fun _ x => x) (fun _ => sin) 0 2 in
  printable (p_a E) (XPar 0) /\ varies (XPar 0) = false /\ is_integral (XPar 0) = false /\ (p_b E - p_a E) * 3 = 6.
Proof. cbn. repeat split. ring. Qed.
(** C163: the bounds of an integral are ignored: every integral with bounds is computed from the left end of the domain to x. *)
Theorem C163_bounds_refuted : forall E e lo hi, printable (p_a E) e -> varies e = true -> is_integral e = false -> n_atoms e = 1%nat ->
  exists f, emit_residual E (XIntTo e lo hi) = Some (p_a E, p_b E, f) /\ forall x, f x = RInt (meaning E e) (p_a E) x.
Proof.
  intros E e lo hi H HV HI HN. destruct (print_correct E e H) as (v & R1 & S1). rewrite HV in S1. destruct v as [r|f]; [destruct S1; discriminate|]. destruct S1 as [_ S1].
  exists (fun x => RInt f (p_a E) x). split.
  - unfold emit_residual, print. cbn [prt]. rewrite (prt_some true e HI). unfold print_integral. rewrite HN. cbn [Nat.eqb run]. rewrite R1. reflexivity.
  - intros x. apply RInt_ext. intros y _. apply S1.
Qed.
Print Assumptions C163_bounds_refuted.
(** so the definite integral of u = 1 from 0 to 1 on the domain [0, 1], which is 1, comes out as x *)
Theorem C163_definite_refuted : exists E e, p_a E = 0 /\ p_b E = 1 /\ (forall x, meaning E e x = 1) /\ exists f, emit_residual E e = Some (0, 1, f) /\ forall x, f x = x.
Proof.
  exists (mkP (fun _ => 0) (fun _ _ => 1) (fun _ => sin) 0 1), (XIntTo (XFn 0) (LNum 0) (LNum 1)). split; [reflexivity|]. split; [reflexivity|]. split.
  - intros x. cbn [meaning lim_at p_fn]. rewrite RInt_const. unfold scal; cbn; unfold mult; cbn. ring.
  - exists (fun x => RInt (fun _ => 1) 0 x). split; [reflexivity|]. intros x. rewrite RInt_const. unfold scal; cbn; unfold mult; cbn. ring.
Qed.
Print Assumptions C163_definite_refuted.
(** C163: an integral with bounds over an integrand with two functions raises; so does the derivative of a number such as an integral (it is 0). *)
Theorem C163_raises_refuted : forall E,
  (forall i j lo hi, i <> j -> emit_residual E (XIntTo (XMul (XFn i) (XFn j)) lo hi) = None) /\
  (forall e n, printable (p_a E) e -> varies e = false -> (0 < n)%nat -> emit_residual E (XDer e n) = None /\ forall x, meaning E (XDer e n) x = 0).
Proof.
  intros E. split.
  - intros i j lo hi H. unfold emit_residual, print. cbn [prt close]. unfold print_integral. replace (n_atoms (XMul (XFn i) (XFn j))) with 2%nat; [reflexivity|].
    unfold n_atoms. cbn [atoms app nodup]. destruct (in_dec sx_eq_dec (XFn i) [XFn j]) as [[Q|[]]|Q]; [injection Q as Q; congruence|]. destruct (in_dec sx_eq_dec (XFn j) []) as [[]|_]. reflexivity.
  - intros e n H HV Hn. destruct (print_correct E e H) as (v & R1 & S1). rewrite HV in S1. destruct v as [r|f]; [|destruct S1; discriminate]. destruct S1 as [_ S1]. split.
    + unfold emit_residual, print. cbn [prt close run]. fold (print e). rewrite R1. reflexivity.
    + intros x. cbn [meaning]. rewrite (Derive_n_ext _ (fun _ => r) n x S1). destruct n; [lia|]. apply Derive_n_const.
Qed.
Print Assumptions C163_raises_refuted.
(** a case: p*u'' + sin(u)*int(u^2) - cumsum, on [0,2] *)
Example C163_ex : let e := XAdd (XMul (XPar 0) (XDer (XFn 0) 2)) (XAdd (XMul (XEl 0 (XFn 0)) (XInt (XPow (XFn 0) 2))) (XIntTo (XFn 0) (LNum 0) LX)) in
  let E := mkP (fun _ => 3) (fun _ x => x) (fun _ => sin) 0 2 in
  printable (p_a E) e /\ varies e = true /\ atoms e <> [] /\ meaning E e 0 = 0 * sin 0 /\ printable (p_a E) (XInt (XFn 0)) /\ varies (XInt (XFn 0)) = false /\ atoms (XInt (XFn 0)) <> [] /\ n_atoms (XFn 0) = 1%nat.
Proof.
  cbn zeta. split. { cbn. repeat split. } split; [reflexivity|]. split; [discriminate|]. split.
  - cbn [meaning p_par p_fn p_el p_a p_b lim_at]. rewrite sin_0. rewrite RInt_point. rewrite (Derive_n_ext (fun x => x) (fun x => x ^ 1) 2 0) by (intros; ring). cbn [Derive_n]. rewrite (Derive_ext (fun x => Derive (fun x0 => x0 ^ 1) x) (fun _ => 1)); [rewrite Derive_const; unfold zero; cbn; ring|]. intros t. rewrite (Derive_ext (fun x0 => x0 ^ 1) (fun x0 => x0)) by (intros; ring). apply Derive_id.
  - split. { cbn. repeat split. } split; [reflexivity|]. split; [discriminate|reflexivity].
Qed.
