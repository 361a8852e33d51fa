(** States as vectors (properties C46, C47, C82-C86). *)
From Coq Require Import Reals List Arith Bool String Lra Lia ZArith.
From Verif Require Import Base ChebModel ChebObj VsModel VsSpec VsProofs FunModel FunProofs.
Import ListNotations.
Open Scope R_scope.

(** ** construction *)
Lemma cont_ctor_ns : forall F h p (fs : list F) w kw h' x,
  ctor h Cont [p] fs w None kw = Some (h', x) ->
  NoDup (keys h' x) /\
  (forall q, In q (keys h' x) <-> In q (map fst kw) /\ q <> pname p) /\
  (forall q, q <> pname p -> ns_get (hget h' (s_ns x)) q = ns_get (rev kw) q) /\
  (forall a, (a < List.length h)%nat -> hget h' a = hget h a).
Proof.
  intros F h p fs w kw h' x E. unfold ctor in E. unfold halloc in E. cbn [names_ok fst snd] in E.
  injection E as <- <-. unfold keys, sync_ns. cbn [s_ns s_reals].
  assert (L : (List.length h < List.length (h ++ [dict_of kw]))%nat) by (rewrite app_length; cbn; lia).
  rewrite hget_hset by exact L. rewrite Nat.eqb_refl, hget_new.
  pose proof (dict_of_nodup kw) as N.
  assert (K : forall q, In q (ns_keys (dict_of kw)) <-> In q (map fst kw)).
  { intros q. destruct (in_dec string_dec q (ns_keys (dict_of kw))) as [I|I].
    - split; [intros _|auto]. destruct (in_dec string_dec q (map fst kw)) as [J|J]; [exact J|].
      exfalso. assert (G : ns_get (rev kw) q = None).
      { apply ns_get_none. unfold ns_keys. rewrite map_rev. intros G. apply in_rev in G. auto. }
      rewrite <- dict_of_get in G. apply ns_get_none in G. auto.
    - split; [contradiction|]. intros J. exfalso. apply ns_get_none in I. rewrite dict_of_get in I.
      apply ns_get_none in I. apply I. unfold ns_keys. rewrite map_rev. apply in_rev. rewrite rev_involutive. exact J. }
  assert (D : forall q, q <> pname p -> ns_get (sync_loop (dict_of kw) [p]) q = ns_get (dict_of kw) q).
  { intros q Hq. cbn. destruct (ns_del (dict_of kw) (pname p)) eqn:E; [|reflexivity].
    destruct (ns_del_keys _ _ _ N E) as (A1 & A2 & A3 & A4 & A5). apply A5. exact Hq. }
  split; [apply sync_loop_nodup; exact N|]. split; [|split].
  - intros q. rewrite <- K. split.
    + intros H. split; [eapply sync_loop_incl; eauto|]. intros ->. revert H. apply sync_loop_head. exact N.
    + intros [H1 H2]. destruct (in_dec string_dec q (ns_keys (sync_loop (dict_of kw) [p]))) as [I|I]; [exact I|].
      exfalso. apply ns_get_none in I. rewrite D in I by exact H2. apply ns_get_none in I. auto.
  - intros q Hq. rewrite D by exact Hq. apply dict_of_get.
  - intros a La. rewrite hget_hset by exact L. destruct (Nat.eqb_spec (List.length h) a); [lia|]. apply hget_app. exact La.
Qed.

(** The synchronised set for a state with any number of parameters. *)
Lemma sync_ns_spec : forall F h (x : state F) q,
  (s_ns x < List.length h)%nat -> NoDup (keys h x) -> NoDup (map pname (s_reals x)) ->
  (In q (keys (sync_ns h x) x) <->
   In q (keys h x) /\
   ~ (exists k, (k < List.length (s_reals x))%nat /\ nth k (map pname (s_reals x)) EmptyString = q /\
        forall j, (j <= k)%nat -> In (nth j (map pname (s_reals x)) EmptyString) (keys h x))).
Proof.
  intros F h x q L N M. unfold keys, sync_ns at 1. rewrite hget_hset by exact L. rewrite Nat.eqb_refl.
  apply sync_loop_spec; assumption.
Qed.

Lemma twopar_sync_refuted :
  exists h (x : state R), ctor [] TwoParCont [mkPar "a" 1; mkPar "b" 2] [0] None None [("b"%string, 5)] = Some (h, x) /\
    In "b"%string (keys h x) /\ items h x = [("b", 5); ("a", 1); ("b", 2)]%string.
Proof. eexists. eexists. split; [reflexivity|]. split; [left; reflexivity|reflexivity]. Qed.

Lemma items_dict : forall F h (x : state F), NoDup (map pname (s_reals x)) ->
  (forall p, In p (s_reals x) -> ns_get (dict_of (items h x)) (pname p) = Some (pval p)) /\
  (NoDup (keys h x) -> forall q, ~ In q (map pname (s_reals x)) -> ns_get (dict_of (items h x)) q = ns_get (hget h (s_ns x)) q).
Proof.
  intros F h x M. set (l := map (fun p => (pname p, pval p)) (s_reals x)).
  assert (Kl : ns_keys l = map pname (s_reals x)) by (unfold l, ns_keys; rewrite map_map; reflexivity).
  assert (Nl : NoDup (ns_keys l)) by (rewrite Kl; exact M).
  assert (G : forall q, ns_get (dict_of (items h x)) q = match ns_get l q with Some v => Some v | None => ns_get (rev (hget h (s_ns x))) q end).
  { intros q. rewrite dict_of_get. unfold items. fold l. rewrite rev_app_distr, ns_get_app, ns_get_rev by exact Nl. reflexivity. }
  split.
  - intros p Hp. rewrite G. rewrite (ns_get_in l (pname p) (pval p)); auto.
    unfold l. apply in_map_iff. exists p. auto.
  - intros N q Hq. rewrite G. replace (ns_get l q) with (@None R). apply ns_get_rev. exact N.
    symmetry. apply ns_get_none. rewrite Kl. exact Hq.
Qed.

(** ** sharing *)
Lemma shared_ns_refuted :
  exists h (x y z : state R) h1, st_binary Rplus (fun a b => Some (a + b)) h x y = Some (h1, z) /\
    items h1 x = items h x /\ items (setitem h1 z "p" 3) x <> items h1 x.
Proof.
  exists [[("p"%string, 1)]], (mkSt Cont [mkPar "a" 1] [0] [1;1] 0), (mkSt Cont [mkPar "a" 2] [0] [1;1] 0).
  eexists. eexists. split; [reflexivity|]. split; [reflexivity|]. cbn. intros E. injection E as E. lra.
Qed.

Lemma deepcopy_independent : forall F fcopy h (x : state F) h1 y, nodup_heap h -> (s_ns x < List.length h)%nat ->
  st_deepcopy fcopy h x = Some (h1, y) ->
  items h1 x = items h x /\
  (forall q v, items (setitem h1 y q v) x = items h1 x) /\
  (forall q v, items (setitem h1 x q v) y = items h1 y).
Proof.
  intros F fcopy h x h1 y N L E. unfold st_deepcopy in E. destruct (map_opt fcopy (s_funcs x)) as [fs|]; [|discriminate].
  unfold halloc, ctor in E. cbn [fst snd] in E. destruct (names_ok _ _); [|discriminate]. injection E as <- <-.
  unfold items, setitem, sync_ns. cbn [s_ns s_reals].
  assert (L1 : (List.length h < List.length (h ++ [hget h (s_ns x)]))%nat) by (rewrite app_length; cbn; lia).
  assert (Ne : Nat.eqb (List.length h) (s_ns x) = false) by (apply Nat.eqb_neq; lia).
  assert (Ne' : Nat.eqb (s_ns x) (List.length h) = false) by (apply Nat.eqb_neq; lia).
  split; [|split].
  - rewrite hget_hset by exact L1. rewrite Ne. rewrite hget_app by exact L. reflexivity.
  - intros q v. rewrite hget_hset by (rewrite hset_len; exact L1). rewrite Ne. reflexivity.
  - intros q v. rewrite hget_hset by (rewrite hset_len; lia). rewrite Ne'. reflexivity.
Qed.

(** the copy has the parameters, weights and names of the original, and copies of its functions *)
Lemma deepcopy_content : forall F fcopy h (x : state F) h1 y, (s_ns x < List.length h)%nat ->
  st_deepcopy fcopy h x = Some (h1, y) ->
  s_kind y = s_kind x /\ s_reals y = s_reals x /\ s_weights y = s_weights x /\ map_opt fcopy (s_funcs x) = Some (s_funcs y) /\
  hget h1 (s_ns y) = hget (sync_ns h x) (s_ns x).
Proof.
  intros F fcopy h x h1 y L E. unfold st_deepcopy in E. destruct (map_opt fcopy (s_funcs x)) as [fs|]; [|discriminate].
  unfold halloc, ctor in E. cbn [fst snd] in E. destruct (names_ok _ _); [|discriminate]. injection E as <- <-.
  cbn [s_kind s_reals s_weights s_funcs s_ns]. do 4 (split; [reflexivity|]). unfold sync_ns. cbn [s_ns s_reals].
  rewrite hget_hset by (rewrite app_length; cbn; lia). rewrite Nat.eqb_refl, hget_new. rewrite hget_hset by exact L. rewrite Nat.eqb_refl. reflexivity.
Qed.

Lemma const_like_independent : forall F c fc h (x : state F) h1 y, (s_ns x < List.length h)%nat ->
  st_const_like c fc h x = Some (h1, y) ->
  keys h1 y = [] /\ items h1 x = items h x /\ (forall q v, items (setitem h1 y q v) x = items h1 x).
Proof.
  intros F c fc h x h1 y L E. unfold st_const_like in E. destruct (map_opt fc (s_funcs x)) as [fs|]; [|discriminate].
  unfold ctor, halloc in E. cbn [fst snd] in E. destruct (names_ok _ _); [|discriminate]. injection E as <- <-.
  unfold keys, items, setitem, sync_ns. cbn [s_ns s_reals].
  assert (L1 : (List.length h < List.length (h ++ [dict_of []]))%nat) by (rewrite app_length; cbn; lia).
  assert (Ne : Nat.eqb (List.length h) (s_ns x) = false) by (apply Nat.eqb_neq; lia).
  split; [|split].
  - rewrite hget_hset by exact L1. rewrite Nat.eqb_refl, hget_new.
    change (dict_of []) with (@nil (string * R)). destruct (map _ _); reflexivity.
  - rewrite hget_hset by exact L1. rewrite Ne. rewrite hget_app by exact L. reflexivity.
  - intros q v. rewrite hget_hset by (rewrite hset_len; exact L1). rewrite Ne. reflexivity.
Qed.

(** ** arithmetic *)
Lemma zip_opt_spec : forall A (op : A -> A -> option A) d l m, (List.length l <= List.length m)%nat ->
  (forall i, (i < List.length l)%nat -> op (nth i l d) (nth i m d) <> None) ->
  exists r, zip_opt op l m = Some r /\ List.length r = List.length l /\
    forall i, (i < List.length l)%nat -> op (nth i l d) (nth i m d) = Some (nth i r d).
Proof.
  induction l as [|a l IH]; intros m L H; cbn.
  - exists []. repeat split. intros i Hi. cbn in Hi. lia.
  - destruct m as [|b m]; [cbn in L; lia|]. cbn in L.
    destruct (op a b) as [c|] eqn:E; [|exfalso; apply (H 0%nat); cbn; [lia|exact E]].
    destruct (IH m ltac:(lia)) as (r & R1 & R2 & R3).
    { intros i Hi. apply (H (S i)). cbn. lia. }
    rewrite R1. exists (c :: r). split; [reflexivity|]. split; [cbn; lia|].
    intros i Hi. destruct i; [exact E|]. cbn. apply R3. cbn in Hi. lia.
Qed.
Lemma map_opt_spec : forall A B (op : A -> option B) d e l,
  (forall i, (i < List.length l)%nat -> op (nth i l d) <> None) ->
  exists r, map_opt op l = Some r /\ List.length r = List.length l /\
    forall i, (i < List.length l)%nat -> op (nth i l d) = Some (nth i r e).
Proof.
  induction l as [|a l IH]; intros H; cbn.
  - exists []. repeat split. intros i Hi. cbn in Hi. lia.
  - destruct (op a) as [c|] eqn:E; [|exfalso; apply (H 0%nat); cbn; [lia|exact E]].
    destruct IH as (r & R1 & R2 & R3).
    { intros i Hi. apply (H (S i)). cbn. lia. }
    rewrite R1. exists (c :: r). split; [reflexivity|]. split; [cbn; lia|].
    intros i Hi. destruct i; [exact E|]. cbn. apply R3. cbn in Hi. lia.
Qed.
Lemma names_ok_names : forall k l m, map pname l = map pname m -> names_ok k l = names_ok k m.
Proof.
  intros k l m E. destruct l as [|a [|b l]], m as [|a' [|b' m]]; cbn in E; try discriminate; try reflexivity.
  injection E as E1 E2 _. destruct k; cbn; rewrite ?E1, ?E2; reflexivity.
Qed.

Lemma st_binary_componentwise : forall F (d : F) rop fop h (x y : state F),
  s_kind x = s_kind y -> names_ok (s_kind x) (s_reals x) = true ->
  List.length (s_reals x) = List.length (s_reals y) -> List.length (s_funcs x) = List.length (s_funcs y) ->
  (forall i, (i < List.length (s_funcs x))%nat -> fop (nth i (s_funcs x) d) (nth i (s_funcs y) d) <> None) ->
  exists h' z, st_binary rop fop h x y = Some (h', z) /\ s_kind z = s_kind x /\
    List.length (s_reals z) = List.length (s_reals x) /\ List.length (s_funcs z) = List.length (s_funcs x) /\
    (forall i, (i < List.length (s_reals x))%nat ->
       nth i (s_reals z) dpar = mkPar (pname (nth i (s_reals x) dpar)) (rop (pval (nth i (s_reals x) dpar)) (pval (nth i (s_reals y) dpar)))) /\
    (forall i, (i < List.length (s_funcs x))%nat ->
       fop (nth i (s_funcs x) d) (nth i (s_funcs y) d) = Some (nth i (s_funcs z) d)).
Proof.
  intros F d rop fop h x y K N Lr Lf H. unfold st_binary. rewrite K.
  replace (kind_eqb (s_kind y) (s_kind y)) with true by (destruct (s_kind y); reflexivity).
  destruct (zip_opt_spec _ (fun p q => Some (par_binary rop p q)) dpar (s_reals x) (s_reals y)) as (rs & R1 & R2 & R3); [lia|discriminate|].
  destruct (zip_opt_spec _ fop d (s_funcs x) (s_funcs y)) as (fs & F1 & F2 & F3); [lia|exact H|].
  rewrite R1, F1. unfold ctor. rewrite (names_ok_names _ rs (s_reals x)) by (eapply zip_par_names; eauto).
  rewrite <- K, N. eexists. eexists. split; [reflexivity|]. cbn [s_kind s_reals s_funcs fst snd].
  split; [reflexivity|]. split; [exact R2|]. split; [exact F2|]. split; [|exact F3].
  intros i Hi. specialize (R3 i Hi). injection R3 as R3. rewrite <- R3. reflexivity.
Qed.

Lemma st_unary_componentwise : forall F (d : F) rop fop h (x : state F),
  names_ok (s_kind x) (s_reals x) = true ->
  (forall i, (i < List.length (s_funcs x))%nat -> fop (nth i (s_funcs x) d) <> None) ->
  exists h' z, st_unary rop fop h x = Some (h', z) /\ s_kind z = s_kind x /\
    List.length (s_reals z) = List.length (s_reals x) /\ List.length (s_funcs z) = List.length (s_funcs x) /\
    (forall i, (i < List.length (s_reals x))%nat ->
       nth i (s_reals z) dpar = mkPar (pname (nth i (s_reals x) dpar)) (rop (pval (nth i (s_reals x) dpar)))) /\
    (forall i, (i < List.length (s_funcs x))%nat -> fop (nth i (s_funcs x) d) = Some (nth i (s_funcs z) d)).
Proof.
  intros F d rop fop h x N H. unfold st_unary.
  destruct (map_opt_spec _ _ fop d d (s_funcs x) H) as (fs & F1 & F2 & F3).
  rewrite F1. unfold ctor. rewrite (names_ok_names _ _ (s_reals x)) by (rewrite map_map; reflexivity).
  rewrite N. eexists. eexists. split; [reflexivity|]. cbn [s_kind s_reals s_funcs fst snd].
  split; [reflexivity|]. split; [apply map_length|]. split; [exact F2|]. split; [|exact F3].
  intros i Hi. rewrite (nth_indep _ dpar (par_unary rop dpar)) by (rewrite map_length; exact Hi). rewrite map_nth. reflexivity.
Qed.

Lemma st_binary_mismatch : forall F rop fop h (x y : state F), s_kind x <> s_kind y -> st_binary rop fop h x y = None.
Proof. intros. unfold st_binary. destruct (s_kind x), (s_kind y); try reflexivity; congruence. Qed.

(** In place: either everything or, if a function operation raises, a changed
    state all the same. *)
Lemma upd_loop_spec : forall F (d : F) fop l m, (List.length l <= List.length m)%nat ->
  (forall i, (i < List.length l)%nat -> fop (nth i l d) (nth i m d) <> None) ->
  exists r, upd_loop fop l m = (r, true) /\ List.length r = List.length l /\
    forall i, (i < List.length l)%nat -> fop (nth i l d) (nth i m d) = Some (nth i r d).
Proof.
  induction l as [|a l IH]; intros m L H; cbn.
  - exists []. repeat split. intros i Hi. cbn in Hi. lia.
  - destruct m as [|b m]; [cbn in L; lia|]. cbn in L.
    destruct (fop a b) as [c|] eqn:E; [|exfalso; apply (H 0%nat); cbn; [lia|exact E]].
    destruct (IH m ltac:(lia)) as (r & R1 & R2 & R3).
    { intros i Hi. apply (H (S i)). cbn. lia. }
    rewrite R1. exists (c :: r). split; [reflexivity|]. split; [cbn; lia|].
    intros i Hi. destruct i; [exact E|]. cbn. apply R3. cbn in Hi. lia.
Qed.
Lemma st_ibinary_componentwise : forall F (d : F) rop fop h (x y : state F),
  s_kind x = s_kind y ->
  List.length (s_reals x) = List.length (s_reals y) -> List.length (s_funcs x) = List.length (s_funcs y) ->
  (forall i, (i < List.length (s_funcs x))%nat -> fop (nth i (s_funcs x) d) (nth i (s_funcs y) d) <> None) ->
  exists h' z, st_ibinary rop fop h x y = (h', z, true) /\ s_kind z = s_kind x /\ s_weights z = s_weights x /\ s_ns z = s_ns x /\
    List.length (s_reals z) = List.length (s_reals x) /\ List.length (s_funcs z) = List.length (s_funcs x) /\
    (forall i, (i < List.length (s_reals x))%nat ->
       nth i (s_reals z) dpar = mkPar (pname (nth i (s_reals x) dpar)) (rop (pval (nth i (s_reals x) dpar)) (pval (nth i (s_reals y) dpar)))) /\
    (forall i, (i < List.length (s_funcs x))%nat ->
       fop (nth i (s_funcs x) d) (nth i (s_funcs y) d) = Some (nth i (s_funcs z) d)).
Proof.
  intros F d rop fop h x y K Lr Lf H. unfold st_ibinary. rewrite K.
  replace (kind_eqb (s_kind y) (s_kind y)) with true by (destruct (s_kind y); reflexivity).
  destruct (zip_opt_spec _ (fun p q => Some (par_binary rop p q)) dpar (s_reals x) (s_reals y)) as (rs & R1 & R2 & R3); [lia|discriminate|].
  destruct (upd_loop_spec _ d fop (s_funcs x) (s_funcs y)) as (fs & F1 & F2 & F3); [lia|exact H|].
  rewrite R1, F1. cbn [fst snd]. eexists. eexists. split; [reflexivity|]. cbn [s_kind s_reals s_funcs s_weights s_ns].
  repeat (split; [reflexivity|]). split; [exact R2|]. split; [exact F2|]. split; [|exact F3].
  intros i Hi. specialize (R3 i Hi). injection R3 as R3. rewrite <- R3. reflexivity.
Qed.

(** x += y with functions on different domains raises after the parameter has
    been changed (Fun addition itself raises before changing anything). *)
Lemma iadd_not_atomic_refuted :
  exists h (x y : state Fun) h' x', st_ibinary Rplus fun_add h x y = (h', x', false) /\
    fwf (nth 0 (s_funcs x) (mkFun (mkCheb [] 0 0 0 false) 0 0)) /\ fwf (nth 0 (s_funcs y) (mkFun (mkCheb [] 0 0 0 false) 0 0)) /\
    s_reals x' <> s_reals x /\ s_funcs x' = s_funcs x.
Proof.
  set (f := mkFun (mkCheb [[1]] eps_default 1 maxLength_default true) 0 1).
  set (g := mkFun (mkCheb [[1]] eps_default 1 maxLength_default true) 1 2).
  exists [[]], (mkSt Cont [mkPar "a" 1] [f] [1;1] 0%nat), (mkSt Cont [mkPar "a" 1] [g] [1;1] 0%nat).
  assert (E : fun_add f g = None).
  { unfold fun_add. apply fun_binary_rejects. left. cbn [dom0 f g].
    assert (1 < 10 ^ 8) by (apply Rlt_pow_R1; [lra|lia]).
    assert (/ 10 ^ 8 < / 1) by (apply Rinv_lt_contravar; lra). rewrite Rinv_1 in *. lra. }
  unfold st_ibinary. cbn [kind_eqb s_kind s_reals zip_opt par_binary pval pname s_funcs upd_loop]. rewrite E. cbn [fst snd].
  eexists. eexists. split; [reflexivity|]. cbn [nth s_reals s_funcs].
  split; [|split; [|split; [|reflexivity]]].
  - split; [exists 1%nat; repeat split; cbn; try lia; try discriminate; repeat constructor|cbn; lra].
  - split; [exists 1%nat; repeat split; cbn; try lia; try discriminate; repeat constructor|cbn; lra].
  - intros Q. injection Q as Q. lra.
Qed.
