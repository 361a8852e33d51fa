(** Inner products, norms and normalisation of states (C47, C86). *)
From Coq Require Import Reals List Arith Bool String Lra Lia ZArith Permutation.
From Verif Require Import Base ChebModel ChebObj VsModel VsSpec VsProofs VsMore FunModel FunProofs.
Import ListNotations.
Open Scope R_scope.

(** the weighted sum over two lists *)
Lemma wsum_spec : forall A (g : A -> A -> R) d w l m,
  (List.length l <= List.length m)%nat -> (List.length l <= List.length w)%nat ->
  wsum (fun a b => Some (g a b)) w l m = Some (rsum (List.length l) (fun i => nth i w 0 * g (nth i l d) (nth i m d))).
Proof.
  intros A g d w l. revert w. induction l as [|a l IH]; intros w m Lm Lw; [reflexivity|].
  destruct m as [|b m]; [cbn in Lm; lia|]. destruct w as [|c w]; [cbn in Lw; lia|].
  cbn [wsum]. rewrite IH by (cbn in *; lia). cbn [List.length]. rewrite rsum_S_l. cbn [nth]. reflexivity.
Qed.

(** C47: the inner product is the weighted sum over the components. *)
Lemma st_dot_spec : forall F (d : F) ip (x y : state F),
  List.length (s_funcs x) = List.length (s_funcs y) -> List.length (s_reals x) = List.length (s_reals y) ->
  List.length (s_weights x) = (List.length (s_funcs x) + List.length (s_reals x))%nat ->
  st_dot (fun f g => Some (ip f g)) x y =
    Some (rsum (List.length (s_funcs x)) (fun i => nth i (s_weights x) 0 * ip (nth i (s_funcs x) d) (nth i (s_funcs y) d))
        + rsum (List.length (s_reals x)) (fun i => nth (List.length (s_funcs x) + i) (s_weights x) 0 *
             (pval (nth i (s_reals x) dpar) * pval (nth i (s_reals y) dpar)))).
Proof.
  intros F d ip x y Lf Lr Lw. unfold st_dot.
  rewrite (wsum_spec _ ip d) by lia.
  rewrite (wsum_spec _ (fun p q => pval p * pval q) dpar) by (try rewrite skipn_length; lia).
  do 2 f_equal. apply rsum_ext. intros i Hi. f_equal.
  clear. revert i. generalize (s_weights x) as w. induction (List.length (s_funcs x)) as [|n IH]; intros w i; [reflexivity|].
  destruct w as [|c w]; [destruct i; reflexivity|]. cbn. apply IH.
Qed.


Lemma st_dot_unit : forall F (d : F) ip (x y : state F), same_shape x y -> default_weights x ->
  st_dot (fun f g => Some (ip f g)) x y =
    Some (rsum (List.length (s_funcs x)) (fun i => ip (nth i (s_funcs x) d) (nth i (s_funcs y) d))
        + rsum (List.length (s_reals x)) (fun i => pval (nth i (s_reals x) dpar) * pval (nth i (s_reals y) dpar))).
Proof.
  intros F d ip x y (K & Lf & Lr) W. rewrite (st_dot_spec _ d) by (auto; rewrite W, repeat_length; reflexivity).
  assert (N : forall i, (i < List.length (s_funcs x) + List.length (s_reals x))%nat -> nth i (s_weights x) 0 = 1).
  { intros i Hi. rewrite W. clear - Hi. revert i Hi. induction (_ + _)%nat as [|n IH]; intros i Hi; [lia|].
    destruct i; [reflexivity|]. cbn. apply IH. lia. }
  do 2 f_equal; apply rsum_ext; intros i Hi; rewrite N by lia; ring.
Qed.

(** C47: symmetry and bilinearity for states with the default weights. *)
Lemma st_dot_sym : forall F (d : F) ip (x y : state F), same_shape x y -> default_weights x -> default_weights y ->
  (forall f g, ip f g = ip g f) ->
  st_dot (fun f g => Some (ip f g)) x y = st_dot (fun f g => Some (ip f g)) y x.
Proof.
  intros F d ip x y S W1 W2 H. pose proof S as (K & Lf & Lr).
  rewrite (st_dot_unit _ d) by assumption.
  rewrite (st_dot_unit _ d ip y x) by (try assumption; repeat split; auto).
  rewrite Lf, Lr. do 2 f_equal; apply rsum_ext; intros i Hi; [apply H|ring].
Qed.

Lemma st_dot_add : forall F (d : F) ip fop h (x y z s : state F) h' a b,
  same_shape x y -> same_shape x z -> default_weights x -> default_weights y ->
  (List.length (s_funcs x) + List.length (s_reals x) = sig_len (s_kind x))%nat ->
  (forall f g k r, fop f g = Some r -> ip r k = ip f k + ip g k) ->
  st_binary Rplus fop h x y = Some (h', s) ->
  st_dot (fun f g => Some (ip f g)) x z = Some a -> st_dot (fun f g => Some (ip f g)) y z = Some b ->
  st_dot (fun f g => Some (ip f g)) s z = Some (a + b).
Proof.
  intros F d ip fop h x y z s h' a b (K & Lf & Lr) (K' & Lf' & Lr') W1 W2 Sg H E Ea Eb.
  rewrite (st_dot_unit _ d) in Ea by (try assumption; repeat split; auto).
  rewrite (st_dot_unit _ d) in Eb by (try assumption; repeat split; congruence).
  injection Ea as Ea. injection Eb as Eb.
  unfold st_binary in E. rewrite K in E. replace (kind_eqb (s_kind y) (s_kind y)) with true in E by (destruct (s_kind y); reflexivity).
  destruct (zip_opt _ (s_reals x) (s_reals y)) as [rs|] eqn:Zr; [|discriminate].
  destruct (zip_opt fop (s_funcs x) (s_funcs y)) as [fs|] eqn:Zf; [|discriminate].
  unfold ctor in E. destruct (names_ok _ _); [|discriminate]. injection E as _ <-.
  assert (Lrs := zip_opt_len _ _ _ _ _ Zr). assert (Lfs := zip_opt_len _ _ _ _ _ Zf).
  assert (Nr : forall i, (i < List.length (s_reals x))%nat ->
     pval (nth i rs dpar) = pval (nth i (s_reals x) dpar) + pval (nth i (s_reals y) dpar)).
  { clear - Zr. revert Zr. generalize (s_reals x) (s_reals y) rs. induction l as [|p l IH]; intros m r E i Hi; [cbn in Hi; lia|].
    cbn in E. destruct m; [discriminate|]. destruct (zip_opt _ l m) eqn:Z; [|discriminate]. injection E as <-.
    destruct i; [reflexivity|]. cbn. apply IH; [exact Z|cbn in Hi; lia]. }
  assert (Nf : forall i, (i < List.length (s_funcs x))%nat -> fop (nth i (s_funcs x) d) (nth i (s_funcs y) d) = Some (nth i fs d)).
  { clear - Zf. revert Zf. generalize (s_funcs x) (s_funcs y) fs. induction l as [|p l IH]; intros m r E i Hi; [cbn in Hi; lia|].
    cbn in E. destruct m; [discriminate|]. destruct (fop p f) eqn:Ef; [|discriminate]. destruct (zip_opt _ l m) eqn:Z; [|discriminate]. injection E as <-.
    destruct i; [exact Ef|]. cbn. apply IH; [exact Z|cbn in Hi; lia]. }
  rewrite (st_dot_unit _ d).
  - cbn [s_funcs s_reals]. rewrite Lrs, Lfs. subst a b. rewrite <- Lf, <- Lr.
    f_equal. match goal with |- _ = (?A + ?B) + (?C + ?D) => transitivity ((A + C) + (B + D)); [|ring] end.
    f_equal; rewrite <- rsum_plus; apply rsum_ext; intros i Hi.
    + apply H. apply Nf. exact Hi.
    + rewrite Nr by exact Hi. ring.
  - repeat split; cbn; congruence.
  - unfold default_weights. cbn [s_weights s_funcs s_reals]. rewrite Lrs, Lfs, Sg, K. reflexivity.
Qed.

(** C47: with other weights the sum forgets them and the inner product is not
    additive. *)
Lemma st_dot_weights_refuted :
  exists (x y s : state R) h h' a b c,
    s_weights x = [2; 2] /\ s_weights y = [2; 2] /\
    st_binary Rplus (fun f g => Some (f + g)) h x y = Some (h', s) /\
    st_dot (fun f g => Some (f * g)) x x = Some a /\ st_dot (fun f g => Some (f * g)) y x = Some b /\
    st_dot (fun f g => Some (f * g)) s x = Some c /\ c <> a + b.
Proof.
  exists (mkSt Cont [mkPar "a" 1] [1] [2;2] 0%nat), (mkSt Cont [mkPar "a" 1] [1] [2;2] 0%nat).
  eexists. exists [[]]. eexists. eexists. eexists. eexists.
  split; [reflexivity|]. split; [reflexivity|]. split; [reflexivity|]. split; [reflexivity|]. split; [reflexivity|].
  split; [reflexivity|]. cbn. lra.
Qed.

(** ** norm and normalize *)
Lemma st_norm_dot : forall F ip (x : state F) v, st_dot (fun f g => Some (ip f g)) x x = Some v ->
  st_norm (fun f => Some (ip f f)) x = Some (sqrt v).
Proof.
  intros F ip x v E. unfold st_dot in E. unfold st_norm.
  assert (Q : wsum (fun f _ : F => Some (ip f f)) (s_weights x) (s_funcs x) (s_funcs x) =
              wsum (fun f g => Some (ip f g)) (s_weights x) (s_funcs x) (s_funcs x)).
  { clear E. generalize (s_weights x). induction (s_funcs x) as [|f l IH]; intros w; [reflexivity|]. destruct w; [reflexivity|]. cbn. rewrite IH. reflexivity. }
  rewrite Q. destruct (wsum _ _ (s_funcs x) _); [|discriminate]. destruct (wsum _ _ (s_reals x) _); [|discriminate].
  injection E as <-. reflexivity.
Qed.

Lemma wsum_scale : forall A (op : A -> option A) (g : A -> A -> R) c,
  (forall f r, op f = Some r -> g r r = c * g f f) ->
  forall l w r, map_opt op l = Some r ->
  forall s, wsum (fun a b => Some (g a b)) w l l = Some s -> wsum (fun a b => Some (g a b)) w r r = Some (c * s).
Proof.
  intros A op g c H. induction l as [|a l IH]; intros w r M s E; cbn in M.
  - injection M as <-. cbn in *. injection E as <-. f_equal. ring.
  - destruct (op a) as [b|] eqn:Eo; [|discriminate]. destruct (map_opt op l) as [r'|] eqn:Em; [|discriminate]. injection M as <-.
    destruct w as [|k w]; [discriminate|]. cbn in E |- *.
    destruct (wsum _ w l l) as [t|] eqn:Et; [|discriminate]. injection E as <-.
    rewrite (IH w r' eq_refl t Et). f_equal. rewrite (H a b Eo). ring.
Qed.
Lemma map_opt_total : forall A B (f : A -> B) l, map_opt (fun a => Some (f a)) l = Some (map f l).
Proof. induction l as [|a l IH]; cbn; [reflexivity|]. rewrite IH. reflexivity. Qed.

(** C47: normalize gives a state of norm one, or leaves a state of norm at most 1e-14. *)
Lemma st_normalize_spec : forall F ip fdiv (x : state F) v,
  st_norm (fun f => Some (ip f f)) x = Some v ->
  (forall f c r, c <> 0 -> fdiv f c = Some r -> ip r r = ip f f / (c * c)) ->
  (forall f c, c <> 0 -> fdiv f c <> None) ->
  exists y, st_normalize (fun f => Some (ip f f)) fdiv x = Some y /\
    s_kind y = s_kind x /\ s_weights y = s_weights x /\ s_ns y = s_ns x /\ map pname (s_reals y) = map pname (s_reals x) /\
    (/ 10 ^ 14 < v -> st_norm (fun f => Some (ip f f)) y = Some 1) /\
    (v <= / 10 ^ 14 -> y = x).
Proof.
  intros F ip fdiv x v E H T. unfold st_normalize. rewrite E. unfold Rltb.
  assert (P : 0 < / 10 ^ 14) by (apply Rinv_0_lt_compat, pow_lt; lra).
  destruct (Rlt_dec (/ 10 ^ 14) v) as [L|L].
  2:{ exists x. repeat (split; [reflexivity|]). split; [intros; lra|reflexivity]. }
  assert (V : v <> 0) by lra.
  destruct (map_opt (fun f => fdiv f v) (s_funcs x)) as [fs|] eqn:M.
  2:{ exfalso. revert M. induction (s_funcs x) as [|f l IH]; cbn; [discriminate|].
      destruct (fdiv f v) eqn:Q; [|intros _; apply (T f v V Q)]. destruct (map_opt _ l); [discriminate|]. intros _. apply IH. reflexivity. }
  eexists. split; [reflexivity|]. cbn [s_kind s_weights s_ns s_reals]. repeat (split; [reflexivity|]).
  split; [rewrite map_map; reflexivity|]. split; [|intros; lra]. intros _.
  unfold st_norm in E |- *. cbn [s_weights s_funcs s_reals].
  assert (Lf : List.length fs = List.length (s_funcs x)).
  { clear - M. revert fs M. induction (s_funcs x) as [|f l IH]; intros fs M; cbn in M; [injection M as <-; reflexivity|].
    destruct (fdiv f v); [|discriminate]. destruct (map_opt _ l); [|discriminate]. injection M as <-. cbn. f_equal. apply IH. reflexivity. }
  rewrite Lf.
  assert (Q : forall (l : list F) w, wsum (fun f _ : F => Some (ip f f)) w l l = wsum (fun f g => Some (ip f g)) w l l).
  { induction l as [|f l IH]; intros w; [reflexivity|]. destruct w; [reflexivity|]. cbn. rewrite IH. reflexivity. }
  rewrite !Q in *.
  destruct (wsum (fun f g => Some (ip f g)) (s_weights x) (s_funcs x) (s_funcs x)) as [a|] eqn:Ea; [|discriminate].
  destruct (wsum _ (skipn (List.length (s_funcs x)) (s_weights x)) (s_reals x) (s_reals x)) as [b|] eqn:Eb; [|discriminate].
  injection E as E.
  rewrite (wsum_scale F (fun f => fdiv f v) ip (/ (v * v))) with (l := s_funcs x) (s := a); [|intros f r Hr; rewrite (H f v r V Hr); unfold Rdiv; ring|exact M|exact Ea].
  rewrite (wsum_scale param (fun p => Some (par_unary (fun r => r / v) p)) (fun p q => pval p * pval q) (/ (v * v))) with (l := s_reals x) (s := b);
    [|intros p r [= <-]; cbn; field; exact V|apply map_opt_total|exact Eb].
  f_equal. rewrite <- Rmult_plus_distr_l.
  assert (Vp : 0 < v) by lra.
  assert (S : a + b = v * v).
  { rewrite <- E. rewrite sqrt_sqrt; [reflexivity|]. destruct (Rle_dec 0 (a + b)) as [?|N]; [assumption|].
    rewrite sqrt_neg_0 in E by lra. lra. }
  rewrite S. replace (/ (v * v) * (v * v)) with 1 by (field; lra). apply sqrt_1.
Qed.

(** C86: arithmetic with a tangent. *)
Lemma mp_binary_tangent : forall F ip fop fdiv h (x y z : mp_state F) h',
  (forall f c r, c <> 0 -> fdiv f c = Some r -> ip r r = ip f f / (c * c)) ->
  (forall f c, c <> 0 -> fdiv f c <> None) ->
  mp_binary Rplus fop (fun f => Some (ip f f)) fdiv h x y = Some (h', z) ->
  (exists h1, st_binary Rplus fop h (mp_u x) (mp_u y) = Some (h1, mp_u z)) /\
  exists h1 s v, st_binary Rplus fop h1 (mp_v x) (mp_v y) = Some (h', s) /\
    st_norm (fun f => Some (ip f f)) s = Some v /\
    (/ 10 ^ 14 < v -> st_norm (fun f => Some (ip f f)) (mp_v z) = Some 1) /\
    (v <= / 10 ^ 14 -> mp_v z = s).
Proof.
  intros F ip fop fdiv h x y z h' H T E. unfold mp_binary in E.
  destruct (st_binary Rplus fop h (mp_u x) (mp_u y)) as [[h1 nu]|] eqn:E1; [|discriminate].
  destruct (st_binary Rplus fop h1 (mp_v x) (mp_v y)) as [[h2 nv]|] eqn:E2; [|discriminate].
  destruct (st_normalize _ fdiv nv) as [nv'|] eqn:E3; [|discriminate]. injection E as <- <-. cbn [mp_u mp_v].
  split; [exists h1; reflexivity|]. exists h1, nv.
  destruct (st_norm (fun f => Some (ip f f)) nv) as [v|] eqn:E4.
  2:{ unfold st_normalize in E3. rewrite E4 in E3. discriminate. }
  exists v. split; [exact E2|]. split; [reflexivity|].
  destruct (st_normalize_spec F ip fdiv nv v E4 H T) as (w & W1 & W2 & W3 & W4 & W5 & W6 & W7).
  assert (w = nv') by congruence. subst w. split; assumption.
Qed.

(** ** real part, weighted inner product *)
Lemma st_part_square : forall F rop fop h (x : state F),
  List.length (s_reals x) = List.length (s_funcs x) ->
  st_part rop fop h x = st_unary rop fop h x.
Proof.
  intros F rop fop h x L. unfold st_part, st_unary. rewrite <- L.
  assert (G : forall A (op : A -> option A) l, match fill op (List.length l) l with Some r => seq_opt r | None => None end = map_opt op l).
  { clear. induction l as [|a l IH]; [reflexivity|]. cbn. destruct (op a); [|reflexivity].
    destruct (fill op (List.length l) l); rewrite <- IH; [|reflexivity]. cbn. destruct (seq_opt l0); reflexivity. }
  pose proof (G _ (fun p => Some (par_unary rop p)) (s_reals x)) as G1. rewrite map_opt_total in G1.
  pose proof (G _ fop (s_funcs x)) as G2. rewrite <- L in G2.
  destruct (fill _ (List.length (s_reals x)) (s_reals x)) as [r|]; [|discriminate]. rewrite G1.
  destruct (fill fop (List.length (s_reals x)) (s_funcs x)) as [f|]; rewrite <- G2; [|reflexivity]. reflexivity.
Qed.
Lemma st_part_refuted : forall F rop fop h (x : state F),
  (s_kind x = Deflation \/ s_kind x = TwoParCont) ->
  List.length (s_reals x) = n_reals (s_kind x) -> List.length (s_funcs x) = n_funcs (s_kind x) ->
  st_part rop fop h x = None.
Proof.
  intros F rop fop h x K Lr Lf. unfold st_part. destruct K as [K|K]; rewrite K in *; cbn in Lr, Lf.
  - destruct (s_reals x); [|discriminate]. destruct (s_funcs x) as [|f [|g l]]; try discriminate. reflexivity.
  - destruct (s_reals x) as [|a [|b [|c l]]]; try discriminate. destruct (s_funcs x) as [|f [|g l]]; try discriminate.
    cbn. destruct (fop f); reflexivity.
Qed.
Lemma st_innerw_refuted : forall F (x y : state F), List.length (s_funcs x) = n_funcs (s_kind x) -> st_innerw x y = None.
Proof.
  intros F x y L. unfold st_innerw. destruct (s_funcs x); [|reflexivity]. destruct (s_kind x); discriminate.
Qed.

(** ** from_state *)
Lemma from_state_items : forall F fcopy fzero h (x : state F) p h' y,
  nodup_heap h -> (s_ns x < List.length h)%nat -> NoDup (map pname (s_reals x)) ->
  from_state fcopy fzero h Cont x [p] = Some (h', y) ->
  s_reals y = [p] /\
  (forall q, ns_get (dict_of (items h' y)) q = if String.eqb q (pname p) then Some (pval p) else ns_get (dict_of (items h x)) q) /\
  NoDup (map fst (items h' y)) /\ items h' x = items h x.
Proof.
  intros F fcopy fzero h x p h' y N L M E. unfold from_state in E.
  destruct (existsb _ _); [discriminate|]. destruct (s_funcs x) as [|u l]; [discriminate|].
  destruct (fcopy u) as [u'|]; [|discriminate].
  destruct (cont_ctor_ns _ _ _ _ _ _ _ _ E) as (A1 & A2 & A3 & A4).
  destruct (ctor_facts _ _ _ _ _ _ _ _ _ _ E N ltac:(discriminate)) as (B1 & B2 & B3 & B4 & B5 & B6 & B7 & B8 & B9).
  split; [exact B4|]. split; [|split].
  - intros q. destruct (items_dict F h' y) as [I1 I2].
    { rewrite B4. cbn. constructor; [intros []|constructor]. }
    destruct (eqb_dec q (pname p)) as [[G1 G2]|[G1 G2]]; rewrite G1.
    + subst q. apply I1. rewrite B4. left. reflexivity.
    + rewrite I2; [|exact A1|rewrite B4; cbn; intros [K|[]]; congruence].
      rewrite A3 by exact G2. rewrite ns_get_rev by apply dict_of_nodup. reflexivity.
  - unfold items. rewrite B4, map_app. cbn [map fst]. apply (Permutation_NoDup (Permutation_app_comm [pname p] (map fst (hget h' (s_ns y))))).
    cbn. constructor; [|exact A1]. intros G. apply A2 in G. tauto.
  - unfold items. rewrite A4 by exact L. reflexivity.
Qed.
Lemma from_state_name_clash_refuted :
  exists h (x : state R), ctor [] Cont [mkPar "b" 1] [0] None None [("a"%string, 2)] = Some (h, x) /\
    forall fcopy fzero p, from_state fcopy fzero h Cont x [p] = None.
Proof. eexists. eexists. split; [reflexivity|]. intros. reflexivity. Qed.
Lemma from_state_two_names : forall F fcopy fzero h (x : state F) k p1 p2 h' y,
  nodup_heap h -> (s_ns x < List.length h)%nat -> (k = TwoParCont \/ k = TwoPar) ->
  from_state fcopy fzero h k x [p1; p2] = Some (h', y) ->
  pname p1 <> pname p2 /\ s_reals y = [p1; p2] /\
  ns_get (dict_of (items h' y)) (pname p1) = Some (pval p1) /\ ns_get (dict_of (items h' y)) (pname p2) = Some (pval p2).
Proof.
  intros F fcopy fzero h x k p1 p2 h' y N L K E. unfold from_state in E.
  destruct (existsb _ _); [discriminate|]. destruct (s_funcs x) as [|u l]; [discriminate|].
  destruct (fcopy u) as [u'|]; [|discriminate]. destruct (match k with TwoPar => _ | _ => _ end) as [z|]; [|discriminate].
  assert (Ne : pname p1 <> pname p2).
  { unfold ctor in E. destruct (names_ok k [p1; p2]) eqn:Q; [|discriminate]. intros G.
    destruct K; subst k; cbn in Q; rewrite G, String.eqb_refl in Q; discriminate. }
  destruct (ctor_facts _ _ _ _ _ _ _ _ _ _ E N ltac:(discriminate)) as (B1 & B2 & B3 & B4 & _).
  split; [exact Ne|]. split; [exact B4|].
  destruct (items_dict F h' y) as [I1 I2].
  { rewrite B4. cbn. constructor; [intros [Q|[]]; congruence|]. constructor; [intros []|constructor]. }
  split; apply I1; rewrite B4; cbn; auto.
Qed.
