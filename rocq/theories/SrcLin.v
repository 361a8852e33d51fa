From Coq Require Import Reals List Arith Bool Lra Lia.
From Coquelicot Require Import Coquelicot.
From Verif Require Import Base SrcModel SrcSpec SrcProofs.
Import ListNotations.
Open Scope R_scope.

(** syntactic classes *)
Fixpoint epsfree (s : sexp) : Prop :=
  match s with SEps => False | SAdd p q | SMul p q => epsfree p /\ epsfree q | SPow p _ | SApp _ p | SD p | SInv p => epsfree p | _ => True end.
Fixpoint pfree (l : nat) (s : sexp) : Prop :=
  match s with SPert l' _ _ => l' <> l | SAdd p q | SMul p q => pfree l p /\ pfree l q | SPow p _ | SApp _ p | SD p | SInv p => pfree l p | _ => True end.
(** every occurrence of the derivative k of unknown j satisfies P j k *)
Fixpoint allf (P : nat -> nat -> Prop) (s : sexp) : Prop :=
  match s with SFun j k => P j k | SAdd p q | SMul p q => allf P p /\ allf P q | SPow p _ | SApp _ p | SD p | SInv p => allf P p | _ => True end.
Lemma allf_imp (P Q : nat -> nat -> Prop) s : (forall j k, P j k -> Q j k) -> allf P s -> allf Q s.
Proof. intros H. induction s; cbn; try tauto. apply H. Qed.
Lemma allf_and (P Q : nat -> nat -> Prop) s : allf P s -> allf Q s -> allf (fun j k => P j k /\ Q j k) s.
Proof. induction s; cbn; tauto. Qed.

Fixpoint repla (l : nat) (s : sexp) : sexp :=
  match s with
  | SFun i k => SAdd (SFun i k) (SMul SEps (SPert l i k))
  | SAdd a b => SAdd (repla l a) (repla l b)
  | SMul a b => SMul (repla l a) (repla l b)
  | SPow a n => SPow (repla l a) n
  | SInv a => SInv (repla l a)
  | SApp f a => SApp f (repla l a)
  | SD a => SD (repla l a)
  | _ => s
  end.
Lemma Derive_n_move f g t k x : smooth f -> smooth g -> Derive_n (fun y => f y + t * g y) k x = Derive_n f k x + t * Derive_n g k x.
Proof.
  intros Sf Sg. rewrite (Derive_n_plus f (fun y => t * g y)).
  - f_equal. apply Derive_n_scal_l.
  - apply filter_forall. intros y i _. apply Sf.
  - apply filter_forall. intros y i _. apply ex_derive_n_scal_l, Sg.
Qed.
Lemma repla_den E l e s x : smoothE E -> nosd s -> epsfree s -> den (wE E e) (repla l s) x = den (move E (e_pert E l) e) s x.
Proof.
  intros [Sc [Sf Sp]]. induction s; cbn [nosd epsfree repla den]; intros N F; try reflexivity; try contradiction.
  - cbn [wE move e_fun e_pert e_eps]. symmetry. apply Derive_n_move; [apply Sf|apply Sp].
  - rewrite IHs1, IHs2 by tauto. reflexivity.
  - rewrite IHs1, IHs2 by tauto. reflexivity.
  - rewrite IHs by tauto. reflexivity.
  - rewrite IHs by tauto. reflexivity.
  - rewrite IHs by tauto. reflexivity.
Qed.
Lemma repla_nosd l s : nosd s -> nosd (repla l s). Proof. induction s; cbn; tauto. Qed.
Lemma repla_0 E l s x : nosd s -> epsfree s -> den (wE E 0) (repla l s) x = den E s x.
Proof. induction s; cbn [nosd epsfree repla den]; intros N F; try reflexivity; try contradiction; try (rewrite IHs by tauto; reflexivity); try (rewrite IHs1, IHs2 by tauto; reflexivity). cbn [wE e_fun e_eps]. ring. Qed.
Lemma repl_0 E l j s x : nosd s -> epsfree s -> den (wE E 0) (repl l j s) x = den E s x.
Proof.
  induction s; cbn [nosd epsfree repl den]; intros N F; try reflexivity; try contradiction; try (rewrite IHs by tauto; reflexivity); try (rewrite IHs1, IHs2 by tauto; reflexivity).
  destruct (Nat.eqb j0 j); cbn [den wE e_fun e_eps]; ring.
Qed.
Lemma repla_dat E l s x : nosd s -> epsfree s -> dat E x s -> dat (wE E 0) x (repla l s).
Proof. induction s; cbn [nosd epsfree repla dat]; intros N F D; try tauto. split; [tauto|]. rewrite repla_0 by tauto. tauto. Qed.
Lemma dfn1_den E f a b x y : den E a x = den E b y -> den E (dfn1 f a) x = den E (dfn1 f b) y.
Proof. intros H. destruct f; cbn [dfn1 den]; rewrite H; reflexivity. Qed.
Lemma repla_split E l nf s x : nosd s -> epsfree s -> allf (fun j _ => (j < nf)%nat) s ->
  den (wE E 0) (diff_eps (repla l s)) x = rsum nf (fun j => den (wE E 0) (diff_eps (repl l j s)) x).
Proof.
  unfold diff_eps. induction s; cbn [nosd epsfree allf repla repl sdiff den]; intros N F A; try contradiction; try (symmetry; apply rsum_zero; intros; reflexivity).
  - rewrite (rsum_single nf _ j A); [rewrite Nat.eqb_refl; reflexivity|]. intros i Hi Hne. destruct (Nat.eqb_spec j i); [congruence|reflexivity].
  - rewrite IHs1, IHs2 by tauto. rewrite <- rsum_plus. reflexivity.
  - rewrite IHs1, IHs2 by tauto. rewrite (repla_0 E l s1), (repla_0 E l s2) by tauto. rewrite Rmult_comm, <- !rsum_scal, <- rsum_plus. apply rsum_ext. intros j _. rewrite (repl_0 E l j s1), (repl_0 E l j s2) by tauto. ring.
  - rewrite IHs by tauto. rewrite (repla_0 E l s) by tauto. rewrite <- rsum_scal. apply rsum_ext. intros j _. rewrite (repl_0 E l j s) by tauto. reflexivity.
  - rewrite IHs by tauto. rewrite (repla_0 E l s) by tauto. rewrite <- rsum_scal, Rmult_comm, <- rsum_scal. apply rsum_ext. intros j _. rewrite (repl_0 E l j s) by tauto. ring.
  - rewrite IHs by tauto. rewrite <- rsum_scal. apply rsum_ext. intros j _. f_equal. apply dfn1_den. rewrite repla_0, repl_0 by tauto. reflexivity.
Qed.

(** subs({e: 0}) *)
Lemma isz_den E s x : isz s = true -> den E s x = 0.
Proof. destruct s; try discriminate. cbn. destruct (Req_EM_T r 0); [auto|discriminate]. Qed.
Lemma sadd_den E a b x : den E (sadd a b) x = den E a x + den E b x.
Proof. unfold sadd. destruct (isz a) eqn:Ea; [rewrite (isz_den _ _ _ Ea); ring|]. destruct (isz b) eqn:Eb; [rewrite (isz_den _ _ _ Eb); ring|]. reflexivity. Qed.
Lemma smul_den E a b x : den E (smul a b) x = den E a x * den E b x.
Proof. unfold smul. destruct (isz a) eqn:Ea; [rewrite (isz_den _ _ _ Ea); cbn; ring|]. destruct (isz b) eqn:Eb; [rewrite (isz_den _ _ _ Eb); cbn; ring|]. reflexivity. Qed.
Lemma subs0_den E s x : nosd s -> den E (subs0 s) x = den (wE E 0) s x.
Proof.
  induction s; cbn [nosd subs0 den]; intros N; try reflexivity; try (rewrite IHs by exact N; reflexivity); try contradiction.
  - rewrite sadd_den, IHs1, IHs2 by tauto. reflexivity.
  - rewrite smul_den, IHs1, IHs2 by tauto. reflexivity.
Qed.

(** expressions linear in the perturbation of unknown j *)
Inductive lin (l j K : nat) : sexp -> Prop :=
| lin_z r : r = 0 -> lin l j K (SNum r)
| lin_p k : (k <= K)%nat -> lin l j K (SPert l j k)
| lin_add a b : lin l j K a -> lin l j K b -> lin l j K (SAdd a b)
| lin_ml a b : lin l j K a -> pfree l b -> lin l j K (SMul a b)
| lin_mr a b : pfree l a -> lin l j K b -> lin l j K (SMul a b).
Lemma lin_sadd l j K a b : lin l j K a -> lin l j K b -> lin l j K (sadd a b).
Proof. intros A B. unfold sadd. destruct (isz a); [exact B|]. destruct (isz b); [exact A|]. now constructor. Qed.
Lemma lin_smul_l l j K a b : lin l j K a -> pfree l b -> lin l j K (smul a b).
Proof. intros A B. unfold smul. destruct (isz a); [now constructor|]. destruct (isz b); [now constructor|]. now apply lin_ml. Qed.
Lemma lin_smul_r l j K a b : pfree l a -> lin l j K b -> lin l j K (smul a b).
Proof. intros A B. unfold smul. destruct (isz a); [now constructor|]. destruct (isz b); [now constructor|]. now apply lin_mr. Qed.
Lemma pfree_sadd l a b : pfree l a -> pfree l b -> pfree l (sadd a b).
Proof. intros A B. unfold sadd. destruct (isz a); [exact B|]. destruct (isz b); [exact A|]. now split. Qed.
Lemma pfree_smul l a b : pfree l a -> pfree l b -> pfree l (smul a b).
Proof. intros A B. unfold smul. destruct (isz a); [exact I|]. destruct (isz b); [exact I|]. now split. Qed.
Lemma pfree_subs0_repl l j s : pfree l s -> pfree l (subs0 (repl l j s)).
Proof.
  induction s; cbn [pfree repl subs0]; intros P; try exact I; try exact P; try (now apply IHs).
  - destruct (Nat.eqb j0 j); cbn [subs0]; [|exact I]. unfold smul at 1. replace (isz (SNum 0)) with true by (cbn; destruct (Req_EM_T 0 0); congruence). apply pfree_sadd; exact I.
  - apply pfree_sadd; [apply IHs1|apply IHs2]; tauto.
  - apply pfree_smul; [apply IHs1|apply IHs2]; tauto.
Qed.
Lemma subs0_dfn1 f a : subs0 (dfn1 f a) = match f with FSin => SApp FCos (subs0 a) | FCos => smul (SNum (-1)) (SApp FSin (subs0 a)) | FExp => SApp FExp (subs0 a) end.
Proof. destruct f; reflexivity. Qed.
Lemma lin_frechet l j K s : nosd s -> pfree l s -> epsfree s -> allf (fun i k => i = j -> (k <= K)%nat) s -> lin l j K (subs0 (diff_eps (repl l j s))).
Proof.
  unfold diff_eps. induction s; cbn [nosd pfree epsfree allf repl]; intros N P F A; try contradiction; try (cbn [sdiff subs0]; now constructor).
  - destruct (Nat.eqb_spec j0 j) as [->|]; cbn [sdiff subs0]; [|now constructor]. apply lin_sadd; [now constructor|]. apply lin_sadd; [|apply lin_smul_r; [exact I|now constructor]]. apply lin_smul_r; [exact I|]. constructor. now apply A.
  - cbn [sdiff subs0]. apply lin_sadd; [apply IHs1|apply IHs2]; tauto.
  - cbn [sdiff subs0]. apply lin_sadd; [apply lin_smul_l; [apply IHs1; tauto|apply pfree_subs0_repl; tauto]|apply lin_smul_r; [apply pfree_subs0_repl; tauto|apply IHs2; tauto]].
  - cbn [sdiff subs0]. apply lin_smul_r; [apply pfree_smul; [exact I|]; cbn [pfree]; apply pfree_subs0_repl; tauto|apply IHs; tauto].
  - cbn [sdiff subs0]. apply lin_smul_l; [apply lin_smul_r; [exact I|apply IHs; tauto]|]. cbn [pfree]. apply pfree_subs0_repl; tauto.
  - cbn [sdiff subs0]. apply lin_smul_r; [|apply IHs; tauto]. rewrite subs0_dfn1. assert (Q := pfree_subs0_repl l j s P). destruct f; cbn [pfree]; try exact Q. apply pfree_smul; [exact I|exact Q].
Qed.

(** expansion *)
Definition dprod (E : env) (x : R) (m : list sexp) : R := fold_right (fun s acc => den E s x * acc) 1 m.
Definition dsum (E : env) (x : R) (ts : list (list sexp)) : R := fold_right (fun m acc => dprod E x m + acc) 0 ts.
Lemma dprod_app E x a b : dprod E x (a ++ b) = dprod E x a * dprod E x b.
Proof. unfold dprod. induction a; cbn; [ring|rewrite IHa; ring]. Qed.
Lemma dsum_app E x a b : dsum E x (a ++ b) = dsum E x a + dsum E x b.
Proof. unfold dsum. induction a; cbn; [ring|rewrite IHa; ring]. Qed.
Lemma dsum_tmul E x A B : dsum E x (tmul A B) = dsum E x A * dsum E x B.
Proof.
  unfold tmul. induction A as [|a A IH]; cbn [flat_map]; [cbn; ring|]. rewrite dsum_app, IH. cbn [dsum fold_right]. fold (dsum E x A). rewrite Rmult_plus_distr_r. f_equal.
  clear IH. induction B as [|b B IH]; cbn [map]; [cbn; ring|]. cbn [dsum fold_right]. fold (dsum E x B). fold (dsum E x (map (fun b => a ++ b) B)). rewrite IH, dprod_app. ring.
Qed.
Lemma expand_den E s x : dsum E x (expand s) = den E s x.
Proof.
  induction s; cbn [expand den]; try (cbn; ring).
  - rewrite dsum_app, IHs1, IHs2. reflexivity.
  - rewrite dsum_tmul, IHs1, IHs2. reflexivity.
  - induction n; cbn [tpow pow]; [cbn; ring|]. rewrite dsum_tmul, IHn, IHs. reflexivity.
Qed.
Lemma of_terms_den E ts x : den E (of_terms ts) x = dsum E x ts.
Proof.
  unfold of_terms. induction ts as [|m ts IH]; [reflexivity|]. cbn [fold_right den dsum]. fold (dsum E x ts). rewrite IH. f_equal. clear. induction m as [|s m IH]; [reflexivity|]. cbn [fold_right den dprod]. fold (dprod E x m). rewrite IH. reflexivity.
Qed.
(** factors satisfying P in every term *)
Definition tall (P : sexp -> Prop) (ts : list (list sexp)) : Prop := forall m, In m ts -> forall s, In s m -> P s.
Lemma tall_app P A B : tall P A -> tall P B -> tall P (A ++ B).
Proof. intros HA HB m Im. apply in_app_or in Im. destruct Im; [apply HA|apply HB]; assumption. Qed.
Lemma in_tmul A B m : In m (tmul A B) -> exists a b, In a A /\ In b B /\ m = a ++ b.
Proof. unfold tmul. intros H. apply in_flat_map in H. destruct H as [a [Ia H]]. apply in_map_iff in H. destruct H as [b [Eb Ib]]. exists a, b. auto. Qed.
Lemma tall_tmul P A B : tall P A -> tall P B -> tall P (tmul A B).
Proof. intros HA HB m Im s Is. apply in_tmul in Im. destruct Im as [a [b [Ia [Ib ->]]]]. apply in_app_or in Is. destruct Is; [apply (HA a)|apply (HB b)]; assumption. Qed.
Lemma tall_tpow P A n : tall P A -> tall P (tpow A n).
Proof. intros H. induction n; cbn [tpow]; [intros m [<-|[]] s []|]. apply tall_tmul; assumption. Qed.
(** a property that descends to summands, factors and bases holds for all factors of the expansion *)
Lemma expand_tall (P : sexp -> Prop) s : (forall a b, P (SAdd a b) -> P a /\ P b) -> (forall a b, P (SMul a b) -> P a /\ P b) -> (forall a n, P (SPow a n) -> P a) -> P s -> tall P (expand s).
Proof.
  intros HA HM HP. induction s; cbn [expand]; intros H; try (intros m [<-|[]] t [<-|[]]; exact H).
  - apply HA in H. apply tall_app; [apply IHs1|apply IHs2]; tauto.
  - apply HM in H. apply tall_tmul; [apply IHs1|apply IHs2]; tauto.
  - apply HP in H. apply tall_tpow, IHs, H.
Qed.
Lemma expand_pfree l s : pfree l s -> tall (pfree l) (expand s).
Proof. apply expand_tall; cbn; tauto. Qed.

(** terms of a linear expression: exactly one perturbation, or a factor 0 *)
Definition good (l j K : nat) (m : list sexp) : Prop :=
  (exists p q k, m = p ++ SPert l j k :: q /\ (k <= K)%nat /\ (forall s, In s (p ++ q) -> pfree l s)) \/
  ((forall s, In s m -> pfree l s) /\ In (SNum 0) m).
Lemma good_app_l l j K a b : good l j K a -> (forall s, In s b -> pfree l s) -> good l j K (a ++ b).
Proof.
  intros [[p [q [k [-> [Hk H]]]]]|[H Z]] B.
  - left. exists p, (q ++ b), k. split; [rewrite <- app_assoc; reflexivity|]. split; [exact Hk|]. intros s Is. rewrite app_assoc in Is. apply in_app_or in Is. destruct Is; [apply H|apply B]; assumption.
  - right. split; [|apply in_or_app; now left]. intros s Is. apply in_app_or in Is. destruct Is; [apply H|apply B]; assumption.
Qed.
Lemma good_app_r l j K a b : (forall s, In s a -> pfree l s) -> good l j K b -> good l j K (a ++ b).
Proof.
  intros A [[p [q [k [-> [Hk H]]]]]|[H Z]].
  - left. exists (a ++ p), q, k. split; [rewrite <- app_assoc; reflexivity|]. split; [exact Hk|]. intros s Is. rewrite <- app_assoc in Is. apply in_app_or in Is. destruct Is; [apply A|apply H]; assumption.
  - right. split; [|apply in_or_app; now right]. intros s Is. apply in_app_or in Is. destruct Is; [apply A|apply H]; assumption.
Qed.
Lemma lin_good l j K t : lin l j K t -> forall m, In m (expand t) -> good l j K m.
Proof.
  induction 1; cbn [expand]; intros m Im.
  - destruct Im as [<-|[]]. right. subst r. split; [intros s [<-|[]]; exact I|now left].
  - destruct Im as [<-|[]]. left. exists [], [], k. split; [reflexivity|]. split; [assumption|intros s []].
  - apply in_app_or in Im. destruct Im; auto.
  - apply in_tmul in Im. destruct Im as [p [q [Ip [Iq ->]]]]. apply good_app_l; [auto|]. apply (expand_pfree l b H0 q Iq).
  - apply in_tmul in Im. destruct Im as [p [q [Ip [Iq ->]]]]. apply good_app_r; [|auto]. apply (expand_pfree l a H p Ip).
Qed.
Lemma filter_pfree l j k m : (forall s, In s m -> pfree l s) -> filter (is_pert l j k) m = [] /\ filter (fun s => negb (is_pert l j k s)) m = m.
Proof.
  induction m as [|s m IH]; intros H; [split; reflexivity|]. destruct IH as [I1 I2]; [intros; apply H; now right|]. assert (P := H s (or_introl eq_refl)).
  assert (F : is_pert l j k s = false). { destruct s; try reflexivity. cbn in *. destruct (Nat.eqb_spec l0 l); [contradiction|reflexivity]. }
  cbn [filter]. rewrite F. cbn [negb]. rewrite I1, I2. split; reflexivity.
Qed.
Lemma coeff_good_one l j K m E x : good l j K m -> rsum (S K) (fun k => dsum E x (coeff l j k [m]) * Derive_n (e_pert E l j) k x) = dprod E x m.
Proof.
  intros [[p [q [k0 [-> [Hk H]]]]]|[H Z]].
  - assert (Hp : forall s, In s p -> pfree l s) by (intros; apply H, in_or_app; now left). assert (Hq : forall s, In s q -> pfree l s) by (intros; apply H, in_or_app; now right).
    rewrite (rsum_single (S K) _ k0 ltac:(lia)).
    + unfold coeff. cbn [flat_map]. rewrite !filter_app. cbn [filter]. destruct (filter_pfree l j k0 p Hp) as [-> ->]. destruct (filter_pfree l j k0 q Hq) as [-> ->]. cbn [is_pert]. rewrite !Nat.eqb_refl. cbn [andb negb app length Nat.eqb dsum fold_right].
      rewrite !dprod_app. cbn [dprod fold_right den]. fold (dprod E x q). ring.
    + intros k Hk' Hne. unfold coeff. cbn [flat_map]. rewrite !filter_app. cbn [filter]. destruct (filter_pfree l j k p Hp) as [-> _]. destruct (filter_pfree l j k q Hq) as [-> _]. cbn [is_pert]. destruct (Nat.eqb_spec k0 k); [congruence|]. rewrite andb_false_r. cbn [app length Nat.eqb dsum fold_right]. ring.
  - rewrite rsum_zero.
    + symmetry. clear H. induction m as [|s m IH]; [contradiction|]. cbn [dprod fold_right]. fold (dprod E x m). destruct Z as [->|Z]; [cbn; ring|rewrite IH by exact Z; ring].
    + intros k _. unfold coeff. cbn [flat_map]. destruct (filter_pfree l j k m H) as [-> _]. cbn. ring.
Qed.
Lemma coeff_app l j k A B : coeff l j k (A ++ B) = coeff l j k A ++ coeff l j k B.
Proof. unfold coeff. induction A; cbn [app flat_map]; [reflexivity|]. rewrite IHA, app_assoc. reflexivity. Qed.
Lemma coeff_good l j K ts E x : (forall m, In m ts -> good l j K m) -> rsum (S K) (fun k => dsum E x (coeff l j k ts) * Derive_n (e_pert E l j) k x) = dsum E x ts.
Proof.
  induction ts as [|m ts IH]; intros H.
  - apply rsum_zero. intros k _. cbn. ring.
  - change (m :: ts) with ([m] ++ ts). rewrite dsum_app, <- IH by (intros; apply H; now right). replace (dsum E x [m]) with (dprod E x m) by (cbn; ring). rewrite <- (coeff_good_one l j K m E x) by (apply H; now left). rewrite <- rsum_plus. apply rsum_ext. intros k _. rewrite coeff_app, dsum_app. ring.
Qed.
Lemma nth_coeffs l j K dm k : (k <= K)%nat -> nth k (coeffs_of l j K dm) (SNum 0) = of_terms (coeff l j k (expand dm)).
Proof.
  intros H. unfold coeffs_of. rewrite (nth_indep _ _ (of_terms (coeff l j 0 (expand dm)))) by (rewrite map_length, seq_length; lia). rewrite (map_nth (fun k => of_terms (coeff l j k (expand dm)))), seq_nth by lia. reflexivity.
Qed.
Lemma coeffs_length l j K dm : length (coeffs_of l j K dm) = S K.
Proof. unfold coeffs_of. rewrite map_length, seq_length. reflexivity. Qed.
Lemma coeffs_sum l j K t E x : lin l j K t -> rsum (S K) (fun k => den E (nth k (coeffs_of l j K t) (SNum 0)) x * Derive_n (e_pert E l j) k x) = den E t x.
Proof.
  intros L. rewrite <- (expand_den E t x), <- (coeff_good l j K (expand t) E x (lin_good l j K t L)). apply rsum_ext. intros k Hk. rewrite nth_coeffs by lia. rewrite of_terms_den. reflexivity.
Qed.
Lemma repl_nosd l j s : nosd s -> nosd (repl l j s).
Proof. induction s; cbn [nosd repl]; try tauto. destruct (Nat.eqb j0 j); cbn; tauto. Qed.
Lemma sdiff_nosd at' s : nosd s -> nosd (sdiff at' s).
Proof. induction s; cbn [nosd sdiff]; try tauto. destruct f; cbn; tauto. Qed.
(** main lemma: derivative in the direction of the perturbations of level l *)
Lemma lin_main E l K nf s x : smoothE E -> nosd s -> epsfree s -> pfree l s -> allf (fun j k => (j < nf)%nat /\ (k <= K)%nat) s -> dat E x s ->
  is_derive (fun t => den (move E (e_pert E l) t) s x) 0
    (rsum nf (fun j => rsum (S K) (fun k => den E (nth k (coeffs_of l j K (subs0 (diff_eps (repl l j s)))) (SNum 0)) x * Derive_n (e_pert E l j) k x))).
Proof.
  intros SE N F P A D. apply (is_derive_ext (fun e => den (wE E e) (repla l s) x)); [intros t; apply repla_den; assumption|].
  evar_last; [apply diff_eps_correct; [apply repla_nosd, N|apply repla_dat; assumption]|].
  rewrite (repla_split E l nf s x N F); [|eapply allf_imp; [|exact A]; cbn; tauto].
  apply rsum_ext. intros j Hj. rewrite (coeffs_sum l j K).
  - rewrite subs0_den; [reflexivity|]. apply sdiff_nosd, repl_nosd, N.
  - apply lin_frechet; try assumption. eapply allf_imp; [|exact A]. cbn. tauto.
Qed.
