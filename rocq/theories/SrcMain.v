From Coq Require Import Reals List Arith Bool Lra Lia.
From Coquelicot Require Import Coquelicot.
From Verif Require Import Base SrcModel SrcSpec SrcProofs SrcLin.
Import ListNotations.
Open Scope R_scope.

(** ** preserved syntactic classes *)
Lemma allf_sdx K1 j s : allf (fun i k => i = j -> (k <= K1)%nat) s -> allf (fun i k => i = j -> (k <= S K1)%nat) (sdx s).
Proof.
  assert (W : forall s, allf (fun i k => i = j -> (k <= K1)%nat) s -> allf (fun i k => i = j -> (k <= S K1)%nat) s) by (intros t; apply allf_imp; intros i k H Hi; specialize (H Hi); lia).
  induction s; cbn [allf sdx]; intros H; try exact I; try (intros Hi; specialize (H Hi); lia).
  - split; [apply IHs1|apply IHs2]; tauto.
  - repeat split; try (apply IHs1; tauto); try (apply IHs2; tauto); apply W; tauto.
  - repeat split; [apply W; tauto|apply IHs; tauto].
  - repeat split; [apply IHs; tauto|apply W; tauto].
  - split; [destruct f; cbn; repeat split; apply W; exact H|apply IHs, H].
  - cbn. apply W, H.
Qed.
Definition no_f (j : nat) : sexp -> Prop := allf (fun i _ => i <> j).
Lemma no_f_sdx j s : no_f j s -> no_f j (sdx s).
Proof. unfold no_f. induction s; cbn; try tauto. destruct f; cbn; tauto. Qed.
Lemma contains_norm j s : contains j s = false -> no_f j (norm s).
Proof.
  unfold no_f. induction s; cbn [contains norm allf]; intros H; try exact I; try (apply orb_false_iff in H; split; [apply IHs1|apply IHs2]; tauto); try (apply IHs, H).
  - now apply Nat.eqb_neq.
  - apply no_f_sdx, IHs, H.
Qed.
Lemma ode_order_norm j s : allf (fun i k => i = j -> (k <= ode_order j s)%nat) (norm s).
Proof.
  induction s; cbn [ode_order norm allf]; try exact I.
  - intros ->. rewrite Nat.eqb_refl. lia.
  - split; [eapply allf_imp; [|exact IHs1]|eapply allf_imp; [|exact IHs2]]; intros i k H Hi; specialize (H Hi); lia.
  - split; [eapply allf_imp; [|exact IHs1]|eapply allf_imp; [|exact IHs2]]; intros i k H Hi; specialize (H Hi); lia.
  - exact IHs.
  - exact IHs.
  - exact IHs.
  - destruct (contains j s) eqn:C; [apply allf_sdx, IHs|]. apply contains_norm in C. apply no_f_sdx in C. eapply allf_imp; [|exact C]. intros i k H Hi. contradiction.
Qed.
Lemma user_norm nf s : user nf s -> user nf (norm s).
Proof.
  assert (X : forall s, user nf s -> user nf (sdx s)) by (induction s0; cbn; try tauto; destruct f; cbn; tauto).
  induction s; cbn [user norm]; try tauto. intros H. apply X, IHs, H.
Qed.
Lemma user_epsfree nf s : user nf s -> epsfree s. Proof. induction s; cbn; tauto. Qed.
Lemma user_pfree nf l s : user nf s -> pfree l s. Proof. induction s; cbn; tauto. Qed.
Lemma user_allf nf s : user nf s -> allf (fun j _ => (j < nf)%nat) s. Proof. induction s; cbn; tauto. Qed.
Lemma user_of nf s : epsfree s -> (forall l, pfree l s) -> allf (fun j _ => (j < nf)%nat) s -> user nf s.
Proof.
  induction s; cbn [user epsfree pfree allf]; intros A B C; try tauto.
  - apply (B l). reflexivity.
  - split; [apply IHs1|apply IHs2]; try tauto; intros l; apply (B l).
  - split; [apply IHs1|apply IHs2]; try tauto; intros l; apply (B l).
Qed.
Lemma orders_norm nf K s : user nf s -> (forall j, (j < nf)%nat -> (ode_order j s <= K)%nat) -> allf (fun j k => (j < nf)%nat /\ (k <= K)%nat) (norm s).
Proof.
  intros U H. assert (A := user_allf nf _ (user_norm nf s U)). assert (B : forall j, (j < nf)%nat -> allf (fun i k => i = j -> (k <= K)%nat) (norm s)).
  { intros j Hj. eapply allf_imp; [|apply (ode_order_norm j s)]. intros i k Hk Hi. specialize (Hk Hi). specialize (H j Hj). lia. }
  clear H U. induction (norm s); cbn [allf] in *; try exact I; try (now apply IHs0).
  - split; [exact A|]. apply (B j A). reflexivity.
  - split; [apply IHs0_1|apply IHs0_2]; try tauto; intros i Hi; apply (B i Hi).
  - split; [apply IHs0_1|apply IHs0_2]; try tauto; intros i Hi; apply (B i Hi).
Qed.

(** a class of expressions closed under sums, products and numbers, and descending to summands, factors and bases *)
Definition closed (P : sexp -> Prop) : Prop :=
  (forall a b, P (SAdd a b) <-> P a /\ P b) /\ (forall a b, P (SMul a b) <-> P a /\ P b) /\ (forall a n, P (SPow a n) -> P a) /\ (forall r, P (SNum r)).
Lemma closed_nosd : closed nosd. Proof. unfold closed; cbn; intuition. Qed.
Lemma closed_epsfree : closed epsfree. Proof. unfold closed; cbn; intuition. Qed.
Lemma closed_pfree l : closed (pfree l). Proof. unfold closed; cbn; intuition. Qed.
Lemma closed_allf P : closed (allf P). Proof. unfold closed; cbn; intuition. Qed.
Lemma closed_dat E x : closed (dat E x). Proof. unfold closed; cbn; intuition. Qed.
Lemma of_terms_P P ts : closed P -> tall P ts -> P (of_terms ts).
Proof.
  intros [HA [HM [HP HN]]] H. unfold of_terms. induction ts as [|m ts IH]; cbn [fold_right]; [apply HN|]. apply HA. split.
  - assert (Hm := H m (or_introl eq_refl)). clear - HM HN Hm. induction m as [|s m IH]; cbn [fold_right]; [apply HN|]. apply HM. split; [apply Hm; now left|apply IH; intros; apply Hm; now right].
  - apply IH. intros q Iq. apply H. now right.
Qed.
Lemma coeff_tall P l j k ts : tall P ts -> tall P (coeff l j k ts).
Proof.
  intros H m Im s Is. unfold coeff in Im. apply in_flat_map in Im. destruct Im as [q [Iq Im]]. destruct (Nat.eqb _ 1); [|destruct Im]. destruct Im as [<-|[]]. apply filter_In in Is. apply (H q Iq s), Is.
Qed.
Lemma coeffs_P P l j K t k : closed P -> P t -> P (nth k (coeffs_of l j K t) (SNum 0)).
Proof.
  intros C H. destruct (le_lt_dec k K) as [Hk|Hk]; [|rewrite nth_overflow by (rewrite coeffs_length; lia); apply C]. rewrite nth_coeffs by exact Hk. apply (of_terms_P P _ C). apply coeff_tall. destruct C as [HA [HM [HP HN]]]. apply expand_tall; [apply HA|apply HM|apply HP|exact H].
Qed.
Lemma coeffs_pfree l j K t k : lin l j K t -> pfree l (nth k (coeffs_of l j K t) (SNum 0)).
Proof.
  intros L. destruct (le_lt_dec k K) as [Hk|Hk]; [|rewrite nth_overflow by (rewrite coeffs_length; lia); exact I]. rewrite nth_coeffs by exact Hk. apply (of_terms_P _ _ (closed_pfree l)).
  intros m Im s Is. unfold coeff in Im. apply in_flat_map in Im. destruct Im as [q [Iq Im]]. destruct (Nat.eqb_spec (length (filter (is_pert l j k) q)) 1) as [E|]; [|destruct Im]. destruct Im as [<-|[]]. apply filter_In in Is. destruct Is as [Is Ns].
  destruct (lin_good l j K t L q Iq) as [[a [b [k0 [-> [Hk0 H]]]]]|[H Z]]; [|apply H, Is]. apply in_app_or in Is. destruct Is as [Is|[<-|Is]]; [apply H, in_or_app; now left| |apply H, in_or_app; now right].
  cbn in Ns. rewrite !Nat.eqb_refl in Ns. cbn [andb] in Ns. assert (Hp : forall s, In s a -> pfree l s) by (intros; apply H, in_or_app; now left). assert (Hq : forall s, In s b -> pfree l s) by (intros; apply H, in_or_app; now right).
  rewrite filter_app in E. cbn [filter] in E. destruct (filter_pfree l j k a Hp) as [Fa _]. destruct (filter_pfree l j k b Hq) as [Fb _]. rewrite Fa, Fb in E. cbn [is_pert] in E. rewrite !Nat.eqb_refl in E. cbn [andb] in E. destruct (Nat.eqb k0 k); discriminate.
Qed.
(** the steps before the expansion *)
Lemma sdiff_P (P : sexp -> Prop) at' s : closed P -> (forall a, P (SInv a) -> P a) -> (forall f a, P (SApp f a) -> P a) -> (forall f a, P a -> P (SApp f a)) -> (forall a n, P a -> P (SPow a n)) -> nosd s -> P s -> P (sdiff at' s).
Proof.
  intros [HA [HM [HP HN]]] HI HF HF' HP'. induction s; cbn [sdiff nosd]; intros N H; try apply HN.
  - apply HA in H. apply HA. split; [apply IHs1|apply IHs2]; tauto.
  - apply HM in H. apply HA. split; apply HM; split; [apply IHs1; tauto|tauto|tauto|apply IHs2; tauto].
  - assert (B := HP _ _ H). apply HM. split; [apply HM; split; [apply HN|apply HP', B]|apply IHs; assumption].
  - assert (B := HI _ H). apply HM. split; [apply HM; split; [apply HN|apply IHs; assumption]|apply HP', H].
  - assert (B := HF _ _ H). apply HM. split; [|apply IHs; assumption]. destruct f; cbn [dfn1]; try (apply HF', B). apply HM. split; [apply HN|apply HF', B].
  - contradiction.
Qed.
Lemma repl_allf P l j s : allf P s -> allf P (repl l j s).
Proof. induction s; cbn [allf repl]; try tauto. destruct (Nat.eqb j0 j); cbn; tauto. Qed.
Lemma repl_pfree l l' j s : l <> l' -> pfree l' s -> pfree l' (repl l j s).
Proof. intros Hl. induction s; cbn [pfree repl]; try tauto. destruct (Nat.eqb j0 j); cbn; tauto. Qed.
Lemma repl_dat E l j s x : nosd s -> epsfree s -> dat E x s -> dat (wE E 0) x (repl l j s).
Proof.
  induction s; cbn [nosd epsfree repl dat]; intros N F D; try tauto; [destruct (Nat.eqb j0 j); cbn; tauto|]. split; [tauto|]. rewrite repl_0 by tauto. tauto.
Qed.
Lemma sadd_P (P : sexp -> Prop) a b : closed P -> P a -> P b -> P (sadd a b).
Proof. intros [HA _] A B. unfold sadd. destruct (isz a); [exact B|]. destruct (isz b); [exact A|]. now apply HA. Qed.
Lemma smul_P (P : sexp -> Prop) a b : closed P -> P a -> P b -> P (smul a b).
Proof. intros [_ [HM [_ HN]]] A B. unfold smul. destruct (isz a); [apply HN|]. destruct (isz b); [apply HN|]. now apply HM. Qed.
Lemma subs0_epsfree s : epsfree (subs0 s).
Proof. induction s; cbn; try exact I; try assumption; [apply sadd_P|apply smul_P]; try apply closed_epsfree; assumption. Qed.
Lemma subs0_nosd s : nosd s -> nosd (subs0 s).
Proof. induction s; cbn; intros H; try tauto; [apply sadd_P|apply smul_P]; try apply closed_nosd; tauto. Qed.
Lemma subs0_pfree l s : pfree l s -> pfree l (subs0 s).
Proof. induction s; cbn; intros H; try tauto; [apply sadd_P|apply smul_P]; try apply closed_pfree; tauto. Qed.
Lemma subs0_allf P s : allf P s -> allf P (subs0 s).
Proof. induction s; cbn; intros H; try tauto; [apply sadd_P|apply smul_P]; try apply closed_allf; tauto. Qed.
Lemma subs0_dat E x s : nosd s -> dat (wE E 0) x s -> dat E x (subs0 s).
Proof.
  induction s; cbn [nosd dat subs0]; intros N H; try tauto; try (apply IHs; tauto).
  - apply sadd_P; [apply closed_dat|apply IHs1|apply IHs2]; tauto.
  - apply smul_P; [apply closed_dat|apply IHs1|apply IHs2]; tauto.
  - split; [apply IHs; tauto|]. rewrite subs0_den by exact N. tauto.
Qed.
Definition fr (l j : nat) (s : sexp) : sexp := subs0 (diff_eps (repl l j s)).
Lemma fr_nosd l j s : nosd s -> nosd (fr l j s). Proof. intros N. apply subs0_nosd, sdiff_nosd, repl_nosd, N. Qed.
Lemma fr_pfree l l' j s : nosd s -> l <> l' -> pfree l' s -> pfree l' (fr l j s).
Proof. intros N Hl H. unfold fr. apply subs0_pfree. unfold diff_eps; apply sdiff_P; try (cbn; tauto); [apply closed_pfree|apply repl_nosd, N|apply repl_pfree; assumption]. Qed.
Lemma fr_allf l j P s : nosd s -> allf P s -> allf P (fr l j s).
Proof. intros N H. apply subs0_allf. unfold diff_eps; apply sdiff_P; try (cbn; tauto); [apply closed_allf|apply repl_nosd, N|apply repl_allf; assumption]. Qed.
Lemma fr_dat E l j x s : nosd s -> epsfree s -> dat E x s -> dat E x (fr l j s).
Proof. intros N F H. apply subs0_dat; [apply sdiff_nosd, repl_nosd, N|]. unfold diff_eps; apply sdiff_P; try (cbn; tauto); [apply closed_dat|apply repl_nosd, N|apply repl_dat; assumption]. Qed.

(** sums of blocks *)
Lemma fold_combine {A} E x (f : A -> nat -> sexp) (cs : list A) d o : den E (fold_right (fun p acc => SAdd (f (fst p) (snd p)) acc) (SNum 0) (combine cs (seq o (length cs)))) x = rsum (length cs) (fun k => den E (f (nth k cs d) (o + k)%nat) x).
Proof.
  revert o. induction cs as [|c cs IH]; intros o; [reflexivity|]. cbn [length seq combine fold_right fst snd den]. rewrite IH, rsum_S_l. cbn [nth]. rewrite Nat.add_0_r. f_equal. apply rsum_ext. intros k _. cbn [nth]. do 2 f_equal. lia.
Qed.
Lemma block_den E x l j cs : den E (block_expr l j cs) x = rsum (length cs) (fun k => den E (nth k cs (SNum 0)) x * Derive_n (e_pert E l j) k x).
Proof. unfold block_expr. rewrite (fold_combine E x (fun c k => SMul c (SPert l j k)) cs (SNum 0) 0). reflexivity. Qed.
Lemma row_den E x l row : den E (row_action l row) x = rsum (length row) (fun j => den E (block_expr l j (nth j row [])) x).
Proof. unfold row_action. rewrite (fold_combine E x (fun cs j => block_expr l j cs) row [] 0). reflexivity. Qed.
Lemma map_seq_nth {A} (f : nat -> A) n k d : (k < n)%nat -> nth k (map f (seq 0 n)) d = f k.
Proof. intros H. rewrite (nth_indep _ _ (f 0%nat)) by (rewrite map_length, seq_length; exact H). rewrite map_nth, seq_nth by exact H. reflexivity. Qed.
Lemma fold_combine_P {A} (P : sexp -> Prop) (f : A -> nat -> sexp) (cs : list A) o : closed P -> (forall c k, In c cs -> P (f c k)) -> P (fold_right (fun p acc => SAdd (f (fst p) (snd p)) acc) (SNum 0) (combine cs (seq o (length cs)))).
Proof.
  intros [HA [_ [_ HN]]]. revert o. induction cs as [|c cs IH]; intros o H; cbn [length seq combine fold_right]; [apply HN|]. apply HA. split; [apply H; now left|]. apply IH. intros; apply H; now right.
Qed.
Lemma block_P P l j cs : closed P -> (forall k, P (SPert l j k)) -> (forall k, P (nth k cs (SNum 0))) -> P (block_expr l j cs).
Proof.
  intros C HS H. apply (fold_combine_P P (fun c k => SMul c (SPert l j k)) cs 0 C). intros c k Ic. apply C. split; [|apply HS]. apply (In_nth _ _ (SNum 0)) in Ic. destruct Ic as [i [_ <-]]. apply H.
Qed.
