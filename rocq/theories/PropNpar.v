(** C206: computing with Parameters. *)
From Coq Require Import String List Arith Bool Lia Reals Lra.
From Verif Require Import ChebModel NparModel.
Import ListNotations.
Open Scope nat_scope.

(** *** specification: the same program over plain numbers *)
Section Spec.
Variable V : Type. Variable mul : V -> V -> V.
Fixpoint number_of (n : nat -> V) (e : expr V) : V :=
  match e with
  | EVar x => n x | ENum v => v | EBin f a b => f (number_of n a) (number_of n b) | EUn f a => f (number_of n a)
  | EFloat a => number_of n a | EDot a b => mul (number_of n a) (number_of n b) | ECopy a => number_of n a
  end.
(** the name of a result: that of the leftmost named operand; float() and np.dot give plain numbers *)
Fixpoint name_of (nm : nat -> option string) (e : expr V) : option string :=
  match e with
  | EVar x => nm x | ENum _ => None | EBin _ a b => match name_of nm a with Some s => Some s | None => name_of nm b end
  | EUn _ a => name_of nm a | EFloat _ => None | EDot _ _ => None | ECopy a => name_of nm a
  end.
Definition put {X} (n : nat -> X) (x : nat) (v : X) : nat -> X := fun y => if Nat.eqb y x then v else n y.
Definition number_step (n : nat -> V) (c : stmt V) : nat -> V :=
  match c with SAssign x e => put n x (number_of n e) | SInpl x f e => put n x (f (n x) (number_of n e)) end.
Definition name_step (nm : nat -> option string) (c : stmt V) : nat -> option string :=
  match c with SAssign x e => put nm x (name_of nm e) | SInpl x f e => put nm x (match nm x with Some s => Some s | None => name_of nm e end) end.
(** no statement of the form x = y (which makes two names of one object) *)
Definition no_alias (c : stmt V) : Prop := match c with SAssign _ (EVar _) => False | _ => True end.
(** np.dot and np.inner do not occur *)
Fixpoint no_dot (e : expr V) : Prop :=
  match e with
  | EVar _ | ENum _ => True | EBin _ a b => no_dot a /\ no_dot b | EUn _ a | EFloat a | ECopy a => no_dot a | EDot _ _ => False
  end.
Definition stmt_no_dot (c : stmt V) : Prop := match c with SAssign _ e | SInpl _ _ e => no_dot e end.
(** every variable has a value and no Parameter is held by two variables *)
Definition separate (h : heap V) (r : env V) : Prop :=
  (forall x i, r x = VRef i -> i < length h) /\ (forall x y i, r x = VRef i -> r y = VRef i -> x = y).
(** the variables have these numbers and these names *)
Definition shows (h : heap V) (r : env V) (n : nat -> V) (nm : nat -> option string) : Prop :=
  forall x, deref h (r x) = Some (n x) /\ name_at h (r x) = nm x.

Lemma deref_app (h t : heap V) v a : deref h v = Some a -> deref (h ++ t) v = Some a.
Proof.
  destruct v as [v|i]; cbn; [auto|]. destruct (nth_error h i) eqn:E; [|discriminate]. intros H. rewrite nth_error_app1 by (apply nth_error_Some; congruence). rewrite E. exact H.
Qed.
Lemma name_app (h t : heap V) v a : deref h v = Some a -> name_at (h ++ t) v = name_at h v.
Proof.
  destruct v as [v|i]; cbn; [auto|]. destruct (nth_error h i) eqn:E; [|discriminate]. intros _. rewrite nth_error_app1 by (apply nth_error_Some; congruence). rewrite E. reflexivity.
Qed.
Lemma named_ref (h : heap V) v s : name_at h v = Some s -> exists i, v = VRef i.
Proof. destruct v as [v|i]; cbn; [discriminate|eauto]. Qed.
Lemma alloc_ok (h : heap V) s v : deref (h ++ [mkPar s v]) (VRef (length h)) = Some v /\ name_at (h ++ [mkPar s v]) (VRef (length h)) = Some s.
Proof. cbn. rewrite nth_error_app2, Nat.sub_diag by lia. cbn. auto. Qed.
Definition fresh (h h' : heap V) (v : pyval V) : Prop := forall i, v = VRef i -> length h <= i < length h'.
Lemma fresh_num h h' v : fresh h h' (VNum v). Proof. intros i H. discriminate. Qed.

Lemma shows_app (h t : heap V) r n nm : shows h r n nm -> shows (h ++ t) r n nm.
Proof. intros S1 x. destruct (S1 x) as [A B]. split; [apply deref_app, A|rewrite (name_app _ _ _ _ A); exact B]. Qed.
Lemma ufunc2_ok f (h : heap V) x y a b : deref h x = Some a -> deref h y = Some b ->
  exists t v, ufunc2 f h x y = Some (h ++ t, v) /\ deref (h ++ t) v = Some (f a b) /\ name_at (h ++ t) v = (match name_at h x with Some s => Some s | None => name_at h y end) /\ fresh h (h ++ t) v.
Proof.
  intros A B. unfold ufunc2. rewrite A, B. destruct (name_at h x) as [s|] eqn:E; [|destruct (name_at h y) as [s|] eqn:E'].
  - exists [mkPar s (f a b)], (VRef (length h)). destruct (alloc_ok h s (f a b)) as [P Q]. split; [reflexivity|]. split; [exact P|]. split; [exact Q|]. intros i H. injection H as <-. rewrite app_length. cbn. lia.
  - exists [mkPar s (f a b)], (VRef (length h)). destruct (alloc_ok h s (f a b)) as [P Q]. split; [reflexivity|]. split; [exact P|]. split; [exact Q|]. intros i H. injection H as <-. rewrite app_length. cbn. lia.
  - exists [], (VNum (f a b)). rewrite app_nil_r. split; [reflexivity|]. split; [reflexivity|]. split; [reflexivity|]. apply fresh_num.
Qed.
Lemma ufunc1_ok f (h : heap V) x a : deref h x = Some a ->
  exists t v, ufunc1 f h x = Some (h ++ t, v) /\ deref (h ++ t) v = Some (f a) /\ name_at (h ++ t) v = name_at h x /\ fresh h (h ++ t) v.
Proof.
  intros A. unfold ufunc1. rewrite A. destruct (name_at h x) as [s|] eqn:E.
  - exists [mkPar s (f a)], (VRef (length h)). destruct (alloc_ok h s (f a)) as [P Q]. split; [reflexivity|]. split; [exact P|]. split; [exact Q|]. intros i H. injection H as <-. rewrite app_length. cbn. lia.
  - exists [], (VNum (f a)). rewrite app_nil_r. split; [reflexivity|]. split; [reflexivity|]. split; [reflexivity|]. apply fresh_num.
Qed.
Lemma pcopy_ok (h : heap V) x a : deref h x = Some a ->
  exists t v, pcopy h x = Some (h ++ t, v) /\ deref (h ++ t) v = Some a /\ name_at (h ++ t) v = name_at h x /\ fresh h (h ++ t) v.
Proof.
  intros A. destruct x as [v|i]; cbn in *.
  - exists [], (VNum v). rewrite app_nil_r. split; [reflexivity|]. split; [exact A|]. split; [reflexivity|]. apply fresh_num.
  - destruct (nth_error h i) as [p|] eqn:E; [|discriminate]. cbn in A. injection A as <-.
    exists [mkPar (p_name p) (p_val p)], (VRef (length h)). destruct (alloc_ok h (p_name p) (p_val p)) as [P Q]. split; [reflexivity|]. split; [exact P|]. split; [exact Q|]. intros j H. injection H as <-. rewrite app_length. cbn. lia.
Qed.
(** a result that is [Some]: what it is *)
Lemma eval_spec e : forall h r n nm h' v, shows h r n nm -> eval mul h r e = Some (h', v) ->
  exists t, h' = h ++ t /\ deref h' v = Some (number_of n e) /\ name_at h' v = name_of nm e /\ (match e with EVar x => v = r x /\ t = [] | _ => fresh h h' v end).
Proof.
  induction e as [x|c|f a IHa b IHb|f a IHa|a IHa|a IHa b IHb|a IHa]; intros h r n nm h' v S1 H; cbn [eval number_of name_of] in *.
  - injection H as <- <-. exists []. rewrite app_nil_r. destruct (S1 x) as [A B]. auto.
  - injection H as <- <-. exists []. rewrite app_nil_r. split; [reflexivity|]. split; [reflexivity|]. split; [reflexivity|apply fresh_num].
  - destruct (eval mul h r a) as [[h1 x]|] eqn:Ea; [|discriminate]. destruct (IHa _ _ _ _ _ _ S1 Ea) as [t1 [-> [A1 [A2 _]]]].
    destruct (eval mul (h ++ t1) r b) as [[h2 y]|] eqn:Eb; [|discriminate]. destruct (IHb _ _ _ _ _ _ (shows_app _ t1 _ _ _ S1) Eb) as [t2 [-> [B1 [B2 _]]]].
    destruct (ufunc2_ok f ((h ++ t1) ++ t2) x y _ _ (deref_app _ t2 _ _ A1) B1) as [t3 [w [E [C1 [C2 C3]]]]]. rewrite E in H. injection H as <- <-.
    exists (t1 ++ t2 ++ t3). rewrite !app_assoc. split; [reflexivity|]. split; [exact C1|]. split; [rewrite C2, (name_app _ _ _ _ A1), A2, B2; reflexivity|].
    intros i Hi. specialize (C3 i Hi). rewrite !app_length in *. lia.
  - destruct (eval mul h r a) as [[h1 x]|] eqn:Ea; [|discriminate]. destruct (IHa _ _ _ _ _ _ S1 Ea) as [t1 [-> [A1 [A2 _]]]].
    destruct (ufunc1_ok f (h ++ t1) x _ A1) as [t3 [w [E [C1 [C2 C3]]]]]. rewrite E in H. injection H as <- <-.
    exists (t1 ++ t3). rewrite !app_assoc. split; [reflexivity|]. split; [exact C1|]. split; [rewrite C2; exact A2|]. intros i Hi. specialize (C3 i Hi). rewrite !app_length in *. lia.
  - destruct (eval mul h r a) as [[h1 x]|] eqn:Ea; [|discriminate]. destruct (IHa _ _ _ _ _ _ S1 Ea) as [t1 [-> [A1 [A2 _]]]]. rewrite A1 in H. cbn in H. injection H as <- <-.
    exists t1. split; [reflexivity|]. split; [reflexivity|]. split; [reflexivity|apply fresh_num].
  - destruct (eval mul h r a) as [[h1 x]|] eqn:Ea; [|discriminate]. destruct (IHa _ _ _ _ _ _ S1 Ea) as [t1 [-> [A1 [A2 _]]]].
    destruct (eval mul (h ++ t1) r b) as [[h2 y]|] eqn:Eb; [|discriminate]. destruct (IHb _ _ _ _ _ _ (shows_app _ t1 _ _ _ S1) Eb) as [t2 [-> [B1 [B2 _]]]].
    apply (deref_app _ t2) in A1. unfold pdot in H. rewrite A1, B1 in H. exists (t1 ++ t2). rewrite app_assoc.
    destruct x, y; try discriminate; injection H as <- <-; (split; [reflexivity|]; split; [reflexivity|]; split; [reflexivity|apply fresh_num]).
  - destruct (eval mul h r a) as [[h1 x]|] eqn:Ea; [|discriminate]. destruct (IHa _ _ _ _ _ _ S1 Ea) as [t1 [-> [A1 [A2 _]]]].
    destruct (pcopy_ok (h ++ t1) x _ A1) as [t3 [w [E [C1 [C2 C3]]]]]. rewrite E in H. injection H as <- <-.
    exists (t1 ++ t3). rewrite !app_assoc. split; [reflexivity|]. split; [exact C1|]. split; [rewrite C2; exact A2|]. intros i Hi. specialize (C3 i Hi). rewrite !app_length in *. lia.
Qed.
Lemma eval_total e : forall h r n nm, shows h r n nm -> no_dot e -> exists h' v, eval mul h r e = Some (h', v).
Proof.
  induction e as [x|c|f a IHa b IHb|f a IHa|a IHa|a IHa b IHb|a IHa]; intros h r n nm S1 D; cbn [eval no_dot] in *; try solve [eauto]; try contradiction.
  - destruct D as [Da Db]. destruct (IHa _ _ _ _ S1 Da) as [h1 [x Ea]]. rewrite Ea. destruct (eval_spec _ _ _ _ _ _ _ S1 Ea) as [t1 [-> [A1 _]]].
    destruct (IHb _ _ _ _ (shows_app _ t1 _ _ _ S1) Db) as [h2 [y Eb]]. rewrite Eb. destruct (eval_spec _ _ _ _ _ _ _ (shows_app _ t1 _ _ _ S1) Eb) as [t2 [-> [B1 _]]].
    destruct (ufunc2_ok f _ x y _ _ (deref_app _ t2 _ _ A1) B1) as [t3 [w [E _]]]. eauto.
  - destruct (IHa _ _ _ _ S1 D) as [h1 [x Ea]]. rewrite Ea. destruct (eval_spec _ _ _ _ _ _ _ S1 Ea) as [t1 [-> [A1 _]]]. destruct (ufunc1_ok f _ x _ A1) as [t3 [w [E _]]]. eauto.
  - destruct (IHa _ _ _ _ S1 D) as [h1 [x Ea]]. rewrite Ea. destruct (eval_spec _ _ _ _ _ _ _ S1 Ea) as [t1 [-> [A1 _]]]. rewrite A1. cbn. eauto.
  - destruct (IHa _ _ _ _ S1 D) as [h1 [x Ea]]. rewrite Ea. destruct (eval_spec _ _ _ _ _ _ _ S1 Ea) as [t1 [-> [A1 _]]]. destruct (pcopy_ok _ x _ A1) as [t3 [w [E _]]]. eauto.
Qed.

Lemma set_nth_spec (h : heap V) i v k : nth_error (set_nth h i v) k = match nth_error h k with None => None | Some p => Some (if Nat.eqb k i then mkPar (p_name p) v else p) end.
Proof.
  unfold set_nth. rewrite nth_error_map. assert (G : forall s, nth_error (combine (seq s (length h)) h) k = match nth_error h k with None => None | Some p => Some (s + k, p) end).
  { revert k. induction h as [|p h IH]; intros k s; [destruct k; reflexivity|]. destruct k as [|k]; cbn [length seq combine nth_error]; [rewrite Nat.add_0_r; reflexivity|].
    rewrite IH. destruct (nth_error h k); [|reflexivity]. rewrite Nat.add_succ_r. reflexivity. }
  rewrite G. destruct (nth_error h k); cbn; reflexivity.
Qed.
Lemma set_nth_length (h : heap V) i v : length (set_nth h i v) = length h.
Proof. unfold set_nth. rewrite map_length, combine_length, seq_length. lia. Qed.

Lemma assign_ok h t r x v n nm nv ns : separate h r -> shows h r n nm -> fresh h (h ++ t) v -> deref (h ++ t) v = Some nv -> name_at (h ++ t) v = ns ->
  separate (h ++ t) (setv r x v) /\ shows (h ++ t) (setv r x v) (put n x nv) (put nm x ns).
Proof.
  intros [P1 P2] S1 F A B. split; [split|].
  - intros y i Hy. unfold setv in Hy. destruct (Nat.eqb y x); [apply F; exact Hy|]. specialize (P1 y i Hy). rewrite app_length. lia.
  - intros y z i Hy Hz. unfold setv in Hy, Hz. destruct (Nat.eqb_spec y x) as [->|], (Nat.eqb_spec z x) as [->|].
    + reflexivity.
    + specialize (F i Hy). specialize (P1 z i Hz). lia.
    + specialize (F i Hz). specialize (P1 y i Hy). lia.
    + exact (P2 y z i Hy Hz).
  - intros y. unfold setv, put. destruct (Nat.eqb y x); [split; assumption|]. apply (shows_app h t r n nm S1 y).
Qed.
Lemma exec_ok h r n nm c h' r' : separate h r -> shows h r n nm -> no_alias c -> exec mul (h, r) c = Some (h', r') ->
  separate h' r' /\ shows h' r' (number_step n c) (name_step nm c).
Proof.
  intros P S1 NA H. destruct c as [x e|x f e]; cbn [exec number_step name_step] in *.
  - destruct (eval mul h r e) as [[h1 v]|] eqn:E; [|discriminate]. injection H as <- <-.
    destruct (eval_spec _ _ _ _ _ _ _ S1 E) as [t [-> [A [B F]]]]. apply assign_ok; try assumption. destruct e; try exact F. contradiction.
  - destruct (eval mul h r e) as [[h1 y]|] eqn:E; [|discriminate]. destruct (eval_spec _ _ _ _ _ _ _ S1 E) as [t [-> [A [B _]]]].
    destruct (S1 x) as [Sx Nx]. assert (S2 := shows_app h t r n nm S1). destruct (r x) as [a|i] eqn:Ex.
    + cbn in Sx, Nx. injection Sx as <-. destruct (ufunc2_ok f (h ++ t) (VNum a) y _ _ eq_refl A) as [t3 [w [E3 [C1 [C2 C3]]]]]. rewrite E3 in H. injection H as <- <-.
      rewrite <- Nx. cbn in C2. rewrite <- app_assoc in *. apply assign_ok; try assumption.
      * intros i Hi. specialize (C3 i Hi). rewrite !app_length in *. lia.
      * rewrite C2. exact B.
    + assert (Sx' := deref_app _ t _ _ Sx). rewrite Sx', A in H. injection H as <- <-. destruct P as [P1 P2]. split; [split|].
      * intros z j Hz. rewrite set_nth_length, app_length. specialize (P1 z j Hz). lia.
      * exact P2.
      * intros z. destruct (S2 z) as [U W]. unfold put. destruct (Nat.eqb_spec z x) as [->|Nz].
        { rewrite Ex in *. cbn [deref name_at] in *. rewrite set_nth_spec. destruct (nth_error (h ++ t) i) as [p|]; [|discriminate]. cbn in *. rewrite Nat.eqb_refl. cbn. split; [reflexivity|].
          rewrite <- W. reflexivity. }
        destruct (r z) as [b|j] eqn:Ez; [split; assumption|]. cbn [deref name_at] in *. rewrite set_nth_spec. destruct (nth_error (h ++ t) j) as [p|]; [|discriminate].
        destruct (Nat.eqb_spec j i) as [->|]; [exfalso; apply Nz; exact (P2 z x i Ez Ex)|]. split; assumption.
Qed.
Lemma exec_total h r n nm c : shows h r n nm -> stmt_no_dot c -> exists s, exec mul (h, r) c = Some s.
Proof.
  intros S1 D. destruct c as [x e|x f e]; cbn [exec stmt_no_dot] in *; destruct (eval_total e h r n nm S1 D) as [h1 [v E]]; rewrite E; [eauto|].
  destruct (eval_spec _ _ _ _ _ _ _ S1 E) as [t [-> [A _]]]. destruct (S1 x) as [Sx _]. destruct (r x) as [a|i].
  - destruct (ufunc2_ok f (h ++ t) (VNum a) v _ _ eq_refl A) as [t3 [w [E3 _]]]. rewrite E3. eauto.
  - rewrite (deref_app _ t _ _ Sx), A. eauto.
Qed.
End Spec.
Arguments number_of {V}. Arguments name_of {V}. Arguments number_step {V}. Arguments name_step {V}. Arguments no_alias {V}. Arguments stmt_no_dot {V}. Arguments separate {V}. Arguments shows {V}. Arguments no_dot {V}.

(** ** C206 *)
(** every expression: the number it gives, the name it gets; no variable changes *)
Theorem C206_expression : forall V mul h r (e : expr V) n nm h' v, shows h r n nm -> eval mul h r e = Some (h', v) ->
  deref h' v = Some (number_of mul n e) /\ name_at h' v = name_of nm e /\ shows h' r n nm.
Proof.
  intros V mul h r e n nm h' v S1 E. destruct (eval_spec V mul e h r n nm h' v S1 E) as [t [-> [A [B _]]]]. split; [exact A|]. split; [exact B|]. apply shows_app. exact S1.
Qed.
Print Assumptions C206_expression.
(** every program without x = y: the variables have at the end the numbers the same program computes with plain numbers *)
Theorem C206_program : forall V mul p h r n nm (h' : heap V) r', separate h r -> shows h r n nm -> Forall no_alias p -> run mul (h, r) p = Some (h', r') ->
  separate h' r' /\ shows h' r' (fold_left (number_step mul) p n) (fold_left name_step p nm).
Proof.
  intros V mul. induction p as [|c p IH]; intros h r n nm h' r' P S1 NA H; cbn [run fold_left] in *.
  - injection H as <- <-. auto.
  - inversion NA as [|? ? N1 N2]; subst. destruct (exec mul (h, r) c) as [[h1 r1]|] eqn:E; [|discriminate]. destruct (exec_ok V mul h r n nm c h1 r1 P S1 N1 E) as [P' S']. apply (IH h1 r1); assumption.
Qed.
Print Assumptions C206_program.
Theorem C206_no_errors : forall V mul p h r (n : nat -> V) nm, separate h r -> shows h r n nm -> Forall no_alias p -> Forall stmt_no_dot p -> exists h' r', run mul (h, r) p = Some (h', r').
Proof.
  intros V mul. induction p as [|c p IH]; intros h r n nm P S1 NA D; cbn [run]; [eauto|]. inversion NA as [|? ? N1 N2]; subst. inversion D as [|? ? D1 D2]; subst.
  destruct (exec_total V mul h r n nm c S1 D1) as [[h1 r1] E]. rewrite E. destruct (exec_ok V mul h r n nm c h1 r1 P S1 N1 E) as [P' S']. apply (IH h1 r1 _ _ P' S' N2 D2).
Qed.
Print Assumptions C206_no_errors.

(** ** what Parameters do not do *)
Open Scope R_scope.
Definition ex_heap : heap R := [mkPar "mu"%string 1; mkPar "la"%string 2].
Definition ex_env : env R := fun x => match x with O => VRef 0 | S O => VRef 1 | _ => VNum 0 end.
Definition ex_n (x : nat) : R := match x with O => 1 | S O => 2 | _ => 0 end.
Definition ex_nm (x : nat) : option string := match x with O => Some "mu"%string | S O => Some "la"%string | _ => None end.
Lemma ex_separate : separate ex_heap ex_env.
Proof.
  split.
  - intros [|[|x]] i H; try discriminate; injection H as <-; cbn; lia.
  - intros [|[|x]] [|[|y]] i H K; cbn in H, K; congruence.
Qed.
Lemma ex_shows : shows ex_heap ex_env ex_n ex_nm.
Proof. intros [|[|x]]; cbn; auto. Qed.
(** Parameters of different names can be added; the sum is called like the left one *)
Theorem C206_names_refuted : exists h' v, eval Rmult ex_heap ex_env (EBin Rplus (EVar 0) (EVar 1)) = Some (h', v) /\ name_at h' v = Some "mu"%string /\ deref h' v = Some (1 + 2).
Proof. eexists. eexists. split; [reflexivity|]. split; reflexivity. Qed.
Print Assumptions C206_names_refuted.
(** a comparison of Parameters counts as true whatever its outcome *)
Theorem C206_comparison_refuted : forall V mul h r (c : V -> V -> V) nonzero x y n nm s h' v, shows h r n nm -> nm x = Some s ->
  eval mul h r (EBin c (EVar x) (EVar y)) = Some (h', v) -> truth nonzero v = true.
Proof.
  intros V mul h r c nonzero x y n nm s h' v S1 N E. destruct (eval_spec V mul _ h r n nm h' v S1 E) as [t [_ [_ [B _]]]]. cbn in B. rewrite N in B. destruct (named_ref V _ _ _ B) as [i ->]. reflexivity.
Qed.
Print Assumptions C206_comparison_refuted.
(** ... 1 < 1 for instance *)
Theorem C206_less_refuted : exists h' v, eval Rmult ex_heap ex_env (EBin (fun a b => if Rlt_dec a b then 1 else 0) (EVar 0) (EVar 0)) = Some (h', v) /\
  truth (fun a => negb (Reqb a 0)) v = true /\ deref h' v = Some 0.
Proof.
  eexists. eexists. split; [reflexivity|]. split; [reflexivity|]. cbn. destruct (Rlt_dec 1 1); [lra|reflexivity].
Qed.
Print Assumptions C206_less_refuted.
(** np.dot of a Parameter and a number raises *)
Theorem C206_dot_refuted : eval Rmult ex_heap ex_env (EDot (EVar 0) (ENum 3)) = None /\ eval Rmult ex_heap ex_env (EDot (EVar 0) (EVar 1)) <> None.
Proof. split; [reflexivity|discriminate]. Qed.
Print Assumptions C206_dot_refuted.
(** after y = x, y += 1 changes x as well: with numbers it would not *)
Theorem C206_alias_refuted : let p := [SAssign 2 (EVar 0); SInpl 2 Rplus (ENum 1)] in
  exists h' r', run Rmult (ex_heap, ex_env) p = Some (h', r') /\ deref h' (r' 0%nat) = Some (1 + 1) /\ fold_left (number_step Rmult) p ex_n 0%nat = 1.
Proof. cbv zeta. eexists. eexists. split; [reflexivity|]. split; reflexivity. Qed.
Print Assumptions C206_alias_refuted.
(** a concrete case: z = mu * la; mu -= z; w = deepcopy(mu); w += 5 *)
Example C206_case : let p := [SAssign 2 (EBin Rmult (EVar 0) (EVar 1)); SInpl 0 Rminus (EVar 2); SAssign 3 (ECopy (EVar 0)); SInpl 3 Rplus (ENum 5)] in
  exists h' r', run Rmult (ex_heap, ex_env) p = Some (h', r') /\ deref h' (r' 0%nat) = Some (1 - 1 * 2) /\ deref h' (r' 3%nat) = Some (1 - 1 * 2 + 5) /\ name_at h' (r' 3%nat) = Some "mu"%string.
Proof.
  cbv zeta. set (p := [_; _; _; _]). assert (NA : Forall no_alias p) by (repeat constructor). assert (ND : Forall stmt_no_dot p) by (repeat constructor).
  destruct (C206_no_errors R Rmult p ex_heap ex_env ex_n ex_nm ex_separate ex_shows NA ND) as [h' [r' E]]. exists h', r'. split; [exact E|].
  destruct (C206_program R Rmult p _ _ _ _ _ _ ex_separate ex_shows NA E) as [_ S']. destruct (S' 0%nat) as [A _]. destruct (S' 3%nat) as [B C]. rewrite A, B, C. cbn. auto.
Qed.
