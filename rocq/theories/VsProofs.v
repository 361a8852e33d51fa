(** Namespaces and histories of states (properties C46, C84). *)
From Coq Require Import Reals List Arith Bool String Lra Lia.
From Verif Require Import Base ChebModel VsModel FunModel VsSpec.
Import ListNotations.
Open Scope R_scope.

Lemma eqb_dec : forall a b, String.eqb a b = true /\ a = b \/ String.eqb a b = false /\ a <> b.
Proof. intros a b. destruct (String.eqb_spec a b); [left|right]; split; auto. Qed.

Lemma ns_get_set : forall d k v q, ns_get (ns_set d k v) q = if String.eqb k q then Some v else ns_get d q.
Proof.
  induction d as [|[a w] d IH]; intros k v q; cbn.
  - reflexivity.
  - destruct (eqb_dec a k) as [[E1 E2]|[E1 E2]]; rewrite E1; cbn.
    + subst. destruct (String.eqb k q); reflexivity.
    + rewrite IH. destruct (eqb_dec a q) as [[G1 G2]|[G1 G2]]; rewrite G1; [|reflexivity].
      subst. destruct (eqb_dec k q) as [[K1 K2]|[K1 K2]]; rewrite K1; [congruence|reflexivity].
Qed.

Lemma keys_set : forall d k v q, In q (ns_keys (ns_set d k v)) <-> q = k \/ In q (ns_keys d).
Proof.
  induction d as [|[a w] d IH]; intros k v q; cbn.
  - intuition congruence.
  - destruct (eqb_dec a k) as [[E1 E2]|[E1 E2]]; rewrite E1; cbn.
    + subst. intuition congruence.
    + unfold ns_keys in IH. rewrite IH. intuition congruence.
Qed.

Lemma nodup_set : forall d k v, NoDup (ns_keys d) -> NoDup (ns_keys (ns_set d k v)).
Proof.
  induction d as [|[a w] d IH]; intros k v H; cbn.
  - constructor; [intros []|constructor].
  - cbn in H. apply NoDup_cons_iff in H. destruct H as [H1 H2].
    destruct (eqb_dec a k) as [[E1 E2]|[E1 E2]]; rewrite E1; cbn.
    + constructor; auto.
    + constructor; [|apply IH; auto].
      intros G. apply keys_set in G. destruct G as [G|G]; [congruence|auto].
Qed.

Lemma ns_del_none : forall d k, ns_del d k = None <-> ~ In k (ns_keys d).
Proof.
  induction d as [|[a w] d IH]; intros k; cbn.
  - intuition.
  - destruct (eqb_dec a k) as [[E1 E2]|[E1 E2]]; rewrite E1; cbn.
    + split; [discriminate|intros G; exfalso; apply G; auto].
    + specialize (IH k). destruct (ns_del d k); cbn.
      * split; [discriminate|]. intros G. exfalso. apply G. right.
        destruct (in_dec string_dec k (ns_keys d)) as [I|I]; [exact I|].
        apply IH in I. discriminate.
      * split; auto. intros _ [G|G]; [congruence|]. apply IH in G; auto.
Qed.

Lemma ns_del_keys : forall d k d', NoDup (ns_keys d) -> ns_del d k = Some d' ->
  NoDup (ns_keys d') /\ ~ In k (ns_keys d') /\ In k (ns_keys d) /\
  ns_keys d' = filter (fun q => negb (String.eqb q k)) (ns_keys d) /\
  (forall q, q <> k -> ns_get d' q = ns_get d q).
Proof.
  induction d as [|[a w] d IH]; intros k d' N E; cbn in E; [discriminate|].
  cbn in N. apply NoDup_cons_iff in N. destruct N as [N1 N2].
  destruct (eqb_dec a k) as [[E1 E2]|[E1 E2]]; rewrite E1 in E.
  - injection E as <-. subst a. cbn. rewrite E1. cbn.
    assert (Fl : filter (fun q => negb (String.eqb q k)) (ns_keys d) = ns_keys d).
    { clear - N1. change (map fst d) with (ns_keys d) in N1. induction (ns_keys d) as [|b l IH]; [reflexivity|]. cbn.
      destruct (eqb_dec b k) as [[G1 G2]|[G1 G2]]; rewrite G1; cbn.
      - exfalso. apply N1. left. auto.
      - f_equal. apply IH. intros H. apply N1. right. auto. }
    fold (ns_keys d). repeat split; auto.
    intros q Hq. destruct (eqb_dec k q) as [[G1 G2]|[G1 G2]]; rewrite G1; [congruence|reflexivity].
  - destruct (ns_del d k) as [r|] eqn:D; [|discriminate]. injection E as <-.
    destruct (IH _ _ N2 D) as (A1 & A2 & A3 & A4 & A5).
    cbn. fold (ns_keys d) (ns_keys r). repeat split; auto.
    + constructor; [|exact A1]. rewrite A4. intros G. apply filter_In in G. destruct G as [G _]. auto.
    + intros [G|G]; [congruence|auto].
    + rewrite E1. cbn. f_equal. exact A4.
    + intros q Hq. destruct (String.eqb a q); [reflexivity|]. apply A5; auto.
Qed.

Lemma sync_loop_nodup : forall l d, NoDup (ns_keys d) -> NoDup (ns_keys (sync_loop d l)).
Proof.
  induction l as [|r l IH]; intros d N; cbn; [exact N|].
  destruct (ns_del d (pname r)) eqn:E; [|exact N].
  apply IH. eapply ns_del_keys; eauto.
Qed.

Lemma sync_loop_incl : forall l d, NoDup (ns_keys d) -> incl (ns_keys (sync_loop d l)) (ns_keys d).
Proof.
  induction l as [|r l IH]; intros d N; cbn; [apply incl_refl|].
  destruct (ns_del d (pname r)) eqn:E; [|apply incl_refl].
  destruct (ns_del_keys _ _ _ N E) as (A1 & A2 & A3 & A4 & A5).
  intros q Hq. apply IH in Hq; [|exact A1]. rewrite A4 in Hq. apply filter_In in Hq. tauto.
Qed.

Lemma sync_loop_head : forall r l d, NoDup (ns_keys d) -> ~ In (pname r) (ns_keys (sync_loop d (r :: l))).
Proof.
  intros r l d N. cbn. destruct (ns_del d (pname r)) eqn:E.
  - destruct (ns_del_keys _ _ _ N E) as (A1 & A2 & A3 & A4 & A5).
    intros G. apply sync_loop_incl in G; auto.
  - apply ns_del_none. exact E.
Qed.

(** What sync_ns does for any number of parameters with distinct names: the
    k-th name goes if and only if all names up to the k-th were there. *)
Lemma sync_loop_spec : forall l d q, NoDup (ns_keys d) -> NoDup (map pname l) ->
  (In q (ns_keys (sync_loop d l)) <->
   In q (ns_keys d) /\
   ~ (exists k, (k < List.length l)%nat /\ nth k (map pname l) EmptyString = q /\
        forall j, (j <= k)%nat -> In (nth j (map pname l) EmptyString) (ns_keys d))).
Proof.
  induction l as [|r l IH]; intros d q N M; cbn [sync_loop].
  - split; [intros H; split; [exact H|]|tauto]. intros (k & K & _). cbn in K. lia.
  - cbn in M. apply NoDup_cons_iff in M. destruct M as [M1 M2].
    destruct (ns_del d (pname r)) as [d'|] eqn:E.
    + destruct (ns_del_keys _ _ _ N E) as (A1 & A2 & A3 & A4 & A5).
      rewrite IH by assumption. rewrite A4, filter_In.
      assert (Sub : forall j, (j < List.length l)%nat ->
                (In (nth j (map pname l) EmptyString) (filter (fun q => negb (String.eqb q (pname r))) (ns_keys d)) <->
                 In (nth j (map pname l) EmptyString) (ns_keys d))).
      { intros j J. rewrite filter_In. split; [tauto|]. intros H. split; [exact H|].
        assert (In (nth j (map pname l) EmptyString) (map pname l)) by (apply nth_In; rewrite map_length; exact J).
        destruct (eqb_dec (nth j (map pname l) EmptyString) (pname r)) as [[G1 G2]|[G1 G2]].
        - rewrite G2 in H0. contradiction.
        - rewrite G1. reflexivity. }
      split.
      * intros [[H1 H2] H3]. split; [exact H1|]. intros (k & K & Hk & Hj).
        destruct k as [|k].
        -- cbn in Hk. subst q. rewrite String.eqb_refl in H2. discriminate.
        -- apply H3. exists k. cbn in K. split; [lia|]. split; [exact Hk|].
           intros j J. apply Sub; [lia|]. specialize (Hj (S j) ltac:(lia)). exact Hj.
      * intros [H1 H2]. split; [split; [exact H1|]|].
        -- destruct (eqb_dec q (pname r)) as [[G1 G2]|[G1 G2]]; [|rewrite G1; reflexivity].
           exfalso. apply H2. exists 0%nat. cbn. split; [lia|]. split; [auto|].
           intros j J. assert (j = 0)%nat by lia. subst j. cbn. exact A3.
        -- intros (k & K & Hk & Hj). apply H2. exists (S k). cbn [List.length]. split; [lia|]. split; [exact Hk|].
           intros j J. destruct j as [|j]; [exact A3|]. apply Sub; [lia|]. apply Hj. lia.
    + apply ns_del_none in E. split; [|tauto]. intros H. split; [exact H|].
      intros (k & K & Hk & Hj). apply E. specialize (Hj 0%nat ltac:(lia)). exact Hj.
Qed.

Lemma sync_loop_get : forall l d q, NoDup (ns_keys d) -> In q (ns_keys (sync_loop d l)) ->
  ns_get (sync_loop d l) q = ns_get d q.
Proof.
  induction l as [|r l IH]; intros d q N H; cbn in *; [reflexivity|].
  destruct (ns_del d (pname r)) as [d'|] eqn:E; [|reflexivity].
  destruct (ns_del_keys _ _ _ N E) as (A1 & A2 & A3 & A4 & A5).
  rewrite IH by assumption. apply A5. intros ->. apply sync_loop_incl in H; auto.
Qed.

(** dicts *)
Lemma dict_fold_nodup : forall l d, NoDup (ns_keys d) ->
  NoDup (ns_keys (fold_left (fun d (kv : string * R) => ns_set d (fst kv) (snd kv)) l d)).
Proof. induction l as [|a l IH]; intros d N; cbn; [exact N|]. apply IH, nodup_set, N. Qed.
Lemma dict_of_nodup : forall l, NoDup (ns_keys (dict_of l)).
Proof. intros l. apply dict_fold_nodup. constructor. Qed.

Lemma dict_fold_get : forall l d q,
  ns_get (fold_left (fun d (kv : string * R) => ns_set d (fst kv) (snd kv)) l d) q =
  match ns_get (rev l) q with Some v => Some v | None => ns_get d q end.
Proof.
  induction l as [|[k v] l IH]; intros d q; cbn; [reflexivity|].
  rewrite IH, ns_get_set. cbn.
  assert (App : forall a b, ns_get (a ++ b) q = match ns_get a q with Some v => Some v | None => ns_get b q end).
  { clear. induction a as [|[k v] a IH]; intros b; cbn; [reflexivity|]. destruct (String.eqb k q); auto. }
  rewrite App. cbn. destruct (ns_get (rev l) q); [reflexivity|]. destruct (String.eqb k q); reflexivity.
Qed.
Lemma dict_of_get : forall l q, ns_get (dict_of l) q = ns_get (rev l) q.
Proof. intros l q. unfold dict_of. rewrite dict_fold_get. destruct (ns_get (rev l) q); reflexivity. Qed.

Lemma ns_get_app : forall q a b, ns_get (a ++ b) q = match ns_get a q with Some v => Some v | None => ns_get b q end.
Proof. induction a as [|[k v] a IH]; intros b; cbn; [reflexivity|]. destruct (String.eqb k q); auto. Qed.

Lemma ns_get_in : forall d q v, NoDup (ns_keys d) -> In (q, v) d -> ns_get d q = Some v.
Proof.
  induction d as [|[a w] d IH]; intros q v N H; [destruct H|]. cbn in N. apply NoDup_cons_iff in N. destruct N as [N1 N2].
  cbn. destruct H as [H|H].
  - injection H as -> ->. rewrite String.eqb_refl. reflexivity.
  - destruct (eqb_dec a q) as [[E1 E2]|[E1 E2]]; rewrite E1; [|apply IH; auto].
    exfalso. apply N1. subst. apply (in_map fst) in H. exact H.
Qed.
Lemma ns_get_none : forall d q, ns_get d q = None <-> ~ In q (ns_keys d).
Proof.
  induction d as [|[a w] d IH]; intros q; cbn; [intuition|].
  destruct (eqb_dec a q) as [[E1 E2]|[E1 E2]]; rewrite E1.
  - split; [discriminate|]. intros H. exfalso. auto.
  - rewrite IH. unfold ns_keys. intuition.
Qed.
Lemma ns_get_rev : forall d q, NoDup (ns_keys d) -> ns_get (rev d) q = ns_get d q.
Proof.
  intros d q N.
  assert (Nr : NoDup (ns_keys (rev d))) by (unfold ns_keys; rewrite map_rev; apply NoDup_rev; exact N).
  destruct (ns_get d q) as [v|] eqn:E.
  - apply ns_get_in; [exact Nr|]. apply in_rev. rewrite rev_involutive.
    clear - E. induction d as [|[a w] d IH]; cbn in E; [discriminate|].
    destruct (eqb_dec a q) as [[E1 E2]|[E1 E2]]; rewrite E1 in E.
    + injection E as ->. subst. left. reflexivity.
    + right. auto.
  - apply ns_get_none. apply ns_get_none in E. intros H. apply E. unfold ns_keys in *.
    rewrite map_rev in H. apply in_rev in H. exact H.
Qed.

(** heap *)
Lemma hset_len : forall h a d, List.length (hset h a d) = List.length h.
Proof. induction h as [|x h IH]; intros [|a] d; cbn; auto. Qed.
Lemma hget_hset : forall h a d b, (a < List.length h)%nat ->
  hget (hset h a d) b = if Nat.eqb a b then d else hget h b.
Proof.
  induction h as [|x h IH]; intros [|a] d [|b] L; cbn in *; try lia; auto.
  unfold hget in *. cbn. apply IH. lia.
Qed.
Lemma hget_app : forall h d b, (b < List.length h)%nat -> hget (h ++ [d]) b = hget h b.
Proof. intros. unfold hget. apply app_nth1. auto. Qed.
Lemma hget_new : forall h d, hget (h ++ [d]) (List.length h) = d.
Proof. intros. unfold hget. rewrite app_nth2 by lia. rewrite Nat.sub_diag. reflexivity. Qed.

(** [hsub h h']: the objects of h are still there, with no new keys. *)
Definition hsub (h h' : heap) := (List.length h <= List.length h')%nat /\
  forall a, (a < List.length h)%nat -> incl (ns_keys (hget h' a)) (ns_keys (hget h a)).
Lemma hsub_refl : forall h, hsub h h.
Proof. split; [lia|]. intros. apply incl_refl. Qed.
Lemma nodup_alloc : forall h d, nodup_heap h -> NoDup (ns_keys d) -> nodup_heap (h ++ [d]).
Proof.
  intros h d N Nd a. destruct (lt_eq_lt_dec a (List.length h)) as [[L|L]|L].
  - rewrite hget_app by exact L. apply N.
  - subst. rewrite hget_new. exact Nd.
  - unfold hget. rewrite nth_overflow by (rewrite app_length; cbn; lia). constructor.
Qed.

Section CtorFacts.
Variable F : Type.
Lemma sync_ns_facts : forall h (x : state F), nodup_heap h -> (s_ns x < List.length h)%nat ->
  nodup_heap (sync_ns h x) /\ hsub h (sync_ns h x) /\
  (forall r l, s_reals x = r :: l -> ~ In (pname r) (ns_keys (hget (sync_ns h x) (s_ns x)))).
Proof.
  intros h x N L. unfold sync_ns. repeat split.
  - intros a. rewrite hget_hset by exact L. destruct (Nat.eqb (s_ns x) a); [|apply N].
    apply sync_loop_nodup, N.
  - rewrite hset_len. lia.
  - intros a La. rewrite hget_hset by exact L. destruct (Nat.eqb_spec (s_ns x) a) as [<-|Ne]; [|apply incl_refl].
    apply sync_loop_incl, N.
  - intros r l E. rewrite hget_hset by exact L. rewrite Nat.eqb_refl, E. apply sync_loop_head, N.
Qed.

Lemma ctor_facts : forall h k rs (fs : list F) w nsopt kw h' x,
  ctor h k rs fs w nsopt kw = Some (h', x) -> nodup_heap h ->
  (forall a, nsopt = Some a -> (a < List.length h)%nat) ->
  nodup_heap h' /\ hsub h h' /\ (s_ns x < List.length h')%nat /\
  s_reals x = rs /\ s_funcs x = fs /\ s_kind x = k /\
  s_weights x = match w with Some v => v | None => repeat 1 (sig_len k) end /\
  s_ns x = match nsopt with Some a => a | None => List.length h end /\
  (forall r l, rs = r :: l -> ~ In (pname r) (ns_keys (hget h' (s_ns x)))).
Proof.
  intros h k rs fs w nsopt kw h' x E N A. unfold ctor in E.
  destruct (names_ok k rs); [|discriminate]. destruct nsopt as [a|]; unfold halloc in E; cbn [fst snd] in E.
  - injection E as <- <-. set (x := mkSt k rs fs (match w with Some v => v | None => repeat 1 (sig_len k) end) a) in *.
    destruct (sync_ns_facts h x N (A a eq_refl)) as (B1 & B2 & B3).
    split; [exact B1|]. split; [exact B2|]. split; [cbn; unfold sync_ns; rewrite hset_len; apply A; reflexivity|].
    repeat (split; [reflexivity|]). exact B3.
  - injection E as <- <-. set (x := mkSt k rs fs (match w with Some v => v | None => repeat 1 (sig_len k) end) (List.length h)) in *.
    assert (N' : nodup_heap (h ++ [dict_of kw])) by (apply nodup_alloc; [exact N|apply dict_of_nodup]).
    assert (L' : (s_ns x < List.length (h ++ [dict_of kw]))%nat) by (cbn; rewrite app_length; cbn; lia).
    destruct (sync_ns_facts _ x N' L') as (B1 & B2 & B3).
    split; [exact B1|]. split.
    { destruct B2 as [C1 C2]. split; [rewrite app_length in C1; lia|].
      intros b Lb. specialize (C2 b). rewrite hget_app in C2 by exact Lb. apply C2. rewrite app_length. lia. }
    split; [destruct B2; lia|].
    repeat (split; [reflexivity|]). exact B3.
Qed.
End CtorFacts.

(** One step of a history. *)
Section HistFacts.
Variable F : Type.
Variables (rop : R -> R -> R) (fop : F -> F -> option F) (rsc : R -> R) (fsc : F -> option F)
          (fcopy fzero : F -> option F).
Definition Inv (P : string -> Prop) (w : world F) : Prop :=
  nodup_heap (w_heap w) /\
  forall x, In x (w_states w) ->
    (s_ns x < List.length (w_heap w))%nat /\
    forall r l, s_reals x = r :: l -> P (pname r) -> ~ In (pname r) (ns_keys (hget (w_heap w) (s_ns x))).

Lemma push_inv : forall P w h k rs fs wo nsopt kw, Inv P w ->
  h = w_heap w \/ (hsub (w_heap w) h /\ nodup_heap h) ->
  (forall a, nsopt = Some a -> (a < List.length h)%nat) ->
  Inv P (push w (ctor h k rs fs wo nsopt kw)).
Proof.
  intros P w h k rs fs wo nsopt kw [I1 I2] Hh A.
  destruct (ctor h k rs fs wo nsopt kw) as [[h' x]|] eqn:E; [|split; assumption].
  assert (Sh : hsub (w_heap w) h /\ nodup_heap h).
  { destruct Hh as [->|?]; [split; [apply hsub_refl|exact I1]|assumption]. }
  destruct Sh as [[S1 S2] Nh].
  destruct (ctor_facts _ _ _ _ _ _ _ _ _ _ E Nh A) as (B1 & [B2 B2'] & B3 & B4 & B5 & B6 & B7 & B8 & B9).
  cbn. split; [exact B1|]. intros y Hy. cbn in *. apply in_app_iff in Hy. destruct Hy as [Hy|[<-|[]]].
  - destruct (I2 y Hy) as [Y1 Y2]. split; [lia|]. intros r l Er Pr G.
    apply (Y2 r l Er Pr). apply S2; [lia|]. apply B2'; [lia|]. exact G.
  - split; [exact B3|]. intros r l Er _. apply (B9 r l). congruence.
Qed.

Lemma zip_opt_len : forall A (op : A -> A -> option A) l m r, zip_opt op l m = Some r -> List.length r = List.length l.
Proof.
  induction l as [|a l IH]; intros m r E; cbn in E; [injection E as <-; reflexivity|].
  destruct m; [discriminate|]. destruct (op a a0); [|discriminate]. destruct (zip_opt op l m) eqn:Z; [|discriminate].
  injection E as <-. cbn. f_equal. eapply IH; eauto.
Qed.

Lemma zip_par_names : forall rp l m r, zip_opt (fun p q => Some (par_binary rp p q)) l m = Some r -> map pname r = map pname l.
Proof.
  induction l as [|a l IH]; intros m r E; cbn in E; [injection E as <-; reflexivity|].
  destruct m; [discriminate|]. destruct (zip_opt _ l m) eqn:Z; [|discriminate].
  injection E as <-. cbn. f_equal. eapply IH; eauto.
Qed.

Lemma replace_nth_in : forall A (l : list A) i x y, In y (replace_nth l i x) -> y = x /\ (i < List.length l)%nat \/ In y l.
Proof.
  induction l as [|a l IH]; intros i x y H; cbn in H; [destruct H|].
  destruct i; cbn in H.
  - destruct H as [<-|H]; [left; cbn; split; [auto|lia]|right; right; exact H].
  - destruct H as [<-|H]; [right; left; reflexivity|]. destruct (IH _ _ _ H) as [[G1 G2]|G]; [left; cbn; split; [auto|lia]|right; right; exact G].
Qed.

Lemma step_inv : forall (P : string -> Prop) w c, Inv P w -> (forall i q v, c = SetItem i q v -> ~ P q) ->
  Inv P (step rop fop rsc fsc fcopy fzero w c).
Proof.
  intros P w c I Hc. pose proof I as [I1 I2].
  assert (Adr : forall i x, nth_error (w_states w) i = Some x -> (s_ns x < List.length (w_heap w))%nat).
  { intros i x E. apply nth_error_In in E. apply I2. exact E. }
  destruct c; cbn.
  - apply push_inv; auto. discriminate.
  - destruct (nth_error (w_states w) i) eqn:E; [|exact I]. apply push_inv; auto. intros a [= <-]. eauto.
  - destruct (nth_error (w_states w) i) eqn:E; [|exact I]. destruct (nth_error (w_states w) j) eqn:E'; [|exact I].
    unfold st_binary. destruct (kind_eqb _ _); [|exact I].
    destruct (zip_opt _ (s_reals s) _); [|exact I]. destruct (zip_opt _ (s_funcs s) _); [|exact I].
    apply push_inv; auto. intros a [= <-]. eauto.
  - destruct (nth_error (w_states w) i) eqn:E; [|exact I]. unfold st_unary.
    destruct (map_opt _ _); [|exact I]. apply push_inv; auto. intros a [= <-]. eauto.
  - destruct (nth_error (w_states w) i) eqn:E; [|exact I]. destruct (nth_error (w_states w) j) eqn:E'; [|exact I].
    assert (Ls := Adr _ _ E). assert (Is := nth_error_In _ _ E). destruct (I2 s Is) as [Y1 Y2].
    unfold st_ibinary. destruct (kind_eqb _ _).
    2:{ cbn. split; [exact I1|]. cbn. intros y Hy. apply replace_nth_in in Hy. destruct Hy as [[-> _]|Hy]; [first [exact (I2 _ Is) | split; [exact Ls|exact Yx]]|exact (I2 _ Hy)]. }
    destruct (zip_opt _ (s_reals s) _) as [rs|] eqn:Z.
    2:{ cbn. split; [exact I1|]. cbn. intros y Hy. apply replace_nth_in in Hy. destruct Hy as [[-> _]|Hy]; [first [exact (I2 _ Is) | split; [exact Ls|exact Yx]]|exact (I2 _ Hy)]. }
    apply zip_par_names in Z.
    set (x' := mkSt (s_kind s) rs (fst (upd_loop fop (s_funcs s) (s_funcs s0))) (s_weights s) (s_ns s)).
    assert (Yx : forall r l, s_reals x' = r :: l -> P (pname r) -> ~ In (pname r) (ns_keys (hget (w_heap w) (s_ns x')))).
    { intros r l Er Pr. cbn in *. destruct (s_reals s) as [|r0 l0] eqn:Es; [subst rs; discriminate|].
      rewrite Er in Z. cbn in Z. injection Z as Z1 Z2. rewrite Z1. apply (Y2 r0 l0 eq_refl). congruence. }
    destruct (snd (upd_loop fop (s_funcs s) (s_funcs s0))); cbn.
    + assert (Lx : (s_ns x' < List.length (w_heap w))%nat) by exact Ls.
      destruct (sync_ns_facts _ _ x' I1 Lx) as (B1 & [B2 B2'] & B3).
      split; [exact B1|]. cbn. intros y Hy. apply replace_nth_in in Hy. destruct Hy as [[-> _]|Hy].
      * split; [lia|]. intros r l Er _. eapply B3; eauto.
      * destruct (I2 y Hy) as [Z1 Z2]. split; [lia|]. intros r l Er Pr G. apply (Z2 r l Er Pr). apply B2'; auto.
    + split; [exact I1|]. cbn. intros y Hy. apply replace_nth_in in Hy. destruct Hy as [[-> _]|Hy]; [first [exact (I2 _ Is) | split; [exact Ls|exact Yx]]|exact (I2 _ Hy)].
  - destruct (nth_error (w_states w) i) eqn:E; [|exact I]. assert (Ls := Adr _ _ E). unfold st_deepcopy.
    destruct (map_opt _ _); [|exact I]. apply push_inv; auto.
    + right. cbn. split; [|apply nodup_alloc; auto]. split; [rewrite app_length; lia|].
      intros a La. rewrite hget_app by exact La. apply incl_refl.
    + cbn. intros a [= <-]. rewrite app_length. cbn. lia.
  - destruct (nth_error (w_states w) i) eqn:E; [|exact I]. unfold st_const_like.
    destruct (map_opt _ _); [|exact I]. apply push_inv; auto. discriminate.
  - destruct (nth_error (w_states w) i) eqn:E; [|exact I]. unfold from_state.
    destruct (existsb _ _); [exact I|]. destruct (s_funcs s); [exact I|].
    destruct (fcopy f); [|exact I]. destruct (match k with TwoPar => _ | _ => _ end); [|exact I].
    apply push_inv; auto. discriminate.
  - destruct (nth_error (w_states w) i) eqn:E; [|exact I]. assert (Ls := Adr _ _ E).
    unfold setitem. split; cbn [w_heap w_states].
    + intros a. rewrite hget_hset by exact Ls. destruct (Nat.eqb (s_ns s) a); [|apply I1]. apply nodup_set, I1.
    + intros x Hx. destruct (I2 x Hx) as [Y1 Y2]. rewrite hset_len. split; [exact Y1|].
      intros r l Er Pr. rewrite hget_hset by exact Ls. destruct (Nat.eqb_spec (s_ns s) (s_ns x)) as [Q|Q]; [|eauto].
      intros G. apply keys_set in G. destruct G as [G|G].
      * apply (Hc i q v eq_refl). rewrite <- G. exact Pr.
      * rewrite Q in G. eapply Y2; eauto.
Qed.

Lemma run_inv : forall (P : string -> Prop) cs w, Inv P w -> (forall i q v, In (SetItem i q v) cs -> ~ P q) ->
  Inv P (fold_left (step rop fop rsc fsc fcopy fzero) cs w).
Proof.
  induction cs as [|c cs IH]; intros w I H; cbn; [exact I|].
  apply IH; [|intros i q v G; apply (H i q v); right; exact G].
  apply step_inv; [exact I|]. intros i q v E. apply (H i q v). left. exact E.
Qed.

Lemma inv_init : forall P, Inv P (mkW [] []).
Proof. intros P. split; [|intros x []]. intros a. cbn. unfold hget. destruct a; cbn; constructor. Qed.
End HistFacts.

(** C46: in every history every namespace lists each name once. *)
Lemma history_nodup : forall F rop fop rsc fsc fcopy fzero (cs : list (cmd F)) x,
  In x (w_states (run rop fop rsc fsc fcopy fzero cs)) ->
  NoDup (keys (w_heap (run rop fop rsc fsc fcopy fzero cs)) x).
Proof.
  intros. unfold keys. apply (run_inv F rop fop rsc fsc fcopy fzero (fun _ => False) cs (mkW [] [])).
  - apply inv_init.
  - intros i q v _ [].
Qed.

(** C46: a state with one parameter is in sync in every history in which its
    parameter's name is not assigned through x[name] = value. *)
Lemma history_synced : forall F rop fop rsc fsc fcopy fzero (cs : list (cmd F)) x p,
  In x (w_states (run rop fop rsc fsc fcopy fzero cs)) -> s_reals x = [p] ->
  (forall i v, ~ In (SetItem i (pname p) v) cs) ->
  ~ In (pname p) (keys (w_heap (run rop fop rsc fsc fcopy fzero cs)) x).
Proof.
  intros F rop fop rsc fsc fcopy fzero cs x p Hx Er Hs. unfold keys.
  destruct (run_inv F rop fop rsc fsc fcopy fzero (fun q => q = pname p) cs (mkW [] [])) as [I1 I2].
  - apply inv_init.
  - intros i q v H ->. eapply Hs; eauto.
  - destruct (I2 x Hx) as [_ Y]. eapply Y; eauto.
Qed.
