(** Round trips and iteration (C47, C83, C87). *)
From Coq Require Import Reals List Arith Bool String Lra Lia ZArith.
From Verif Require Import Base ChebModel ChebObj VsModel VsSpec VsProofs VsMore FunModel FunProofs.
Import ListNotations.
Open Scope R_scope.

Lemma wrap_init_same : forall f e hs ml hp, fwf f ->
  exists g, wrap f (cheb_init (coeffs (onefun f)) e hs ml hp false) = Some g /\
    coeffs (onefun g) = coeffs (onefun f) /\ same_dom f g /\ fwf g.
Proof.
  intros f e hs ml hp [W D]. destruct (cheb_init_some _ _ e hs ml hp (wf_rect _ W)) as [hp' [E _]].
  rewrite E. eexists. split; [reflexivity|]. cbn. split; [reflexivity|]. split; [split; reflexivity|].
  split; [|exact D]. exact W.
Qed.

Lemma zeros_like_ok : forall f, fwf f -> exists z, fun_zeros_like f = Some z /\
  coeffs (onefun z) = map (fun c => map (fun _ => 0) c) (coeffs (onefun f)).
Proof.
  intros f [W D]. destruct (wf_rect _ W) as (R1 & R2 & R3).
  assert (Rz : rect (len (onefun f)) (map (fun c => map (fun _ : R => 0) c) (coeffs (onefun f)))).
  { split; [exact R1|]. split; [destruct (coeffs (onefun f)); [congruence|discriminate]|].
    apply Forall_forall. intros c Hc. apply in_map_iff in Hc. destruct Hc as (c' & <- & Hc'). rewrite map_length.
    rewrite Forall_forall in R3. apply R3. exact Hc'. }
  unfold fun_zeros_like. destruct (cheb_init_some _ _ eps_default (fun_hscale (dom0 f) (dom1 f)) maxLength_default false Rz) as [hp' [E _]].
  rewrite E. eexists. split; reflexivity.
Qed.


Lemma combine_par : forall l, map (fun nv : string * R => mkPar (fst nv) (snd nv)) (combine (map pname l) (map pval l)) = l.
Proof. induction l as [|[n v] l IH]; cbn; [reflexivity|]. rewrite IH. reflexivity. Qed.

(** C47: from_coeffs(flatten(x)) has the coefficients, the domain and the
    parameters of x (its first function). *)
Lemma flatten_round_trip : forall h x, st_ok x ->
  exists v h' y, st_flatten x = Some v /\
    let u := nth 0 (s_funcs x) nofun in
    st_from_coeffs h (s_kind x) v (map pname (s_reals x)) (fcols u) (dom0 u) (dom1 u) = Some (h', y) /\
    s_kind y = s_kind x /\ s_reals y = s_reals x /\
    coeffs (onefun (nth 0 (s_funcs y) nofun)) = coeffs (onefun u) /\ same_dom u (nth 0 (s_funcs y) nofun).
Proof.
  intros h x (Lr & Lf & Nk & W). unfold st_flatten.
  destruct (s_funcs x) as [|u l] eqn:Ef; [destruct (s_kind x); discriminate|].
  apply Forall_cons_iff in W. destruct W as [Wu _].
  exists (fun_flatten u ++ map pval (s_reals x)). cbn [nth].
  unfold st_from_coeffs. rewrite !map_length. rewrite Lr, Nat.eqb_refl. cbn [negb orb].
  rewrite app_length, map_length, Lr.
  replace (Nat.ltb _ _) with false by (symmetry; apply Nat.ltb_ge; lia).
  replace (List.length (fun_flatten u) + n_reals (s_kind x) - n_reals (s_kind x))%nat with (List.length (fun_flatten u)) by lia.
  destruct (flatten_from_coeffs u Wu) as (g & G1 & G2 & G3 & G4).
  assert (C : fcols u <> 0%nat).
  { intros Z. rewrite (from_coeffs_misfit _ (fcols u)) in G1 by (left; exact Z). discriminate. }
  assert (M : (List.length (fun_flatten u) mod fcols u = 0)%nat).
  { destruct (Nat.eq_dec (List.length (fun_flatten u) mod fcols u) 0) as [?|Ne]; [assumption|].
    rewrite (from_coeffs_misfit _ (fcols u)) in G1 by (right; exact Ne). discriminate. }
  destruct (Nat.eqb_spec (fcols u) 0); [contradiction|]. rewrite M. cbn [Nat.eqb negb].
  rewrite firstn_app, Nat.sub_diag, firstn_all, firstn_O, app_nil_r, G1.
  assert (Wg : fwf g).
  { destruct Wu as [[n0 Hn] D]. split; [exists n0; rewrite G2; exact Hn|]. rewrite G3, G4. exact D. }
  unfold fun_real. destruct (wrap_init_same g (eps (onefun g)) (hscale (onefun g)) (maxLength (onefun g)) (ishappy (onefun g)) Wg) as (g1 & A1 & A2 & (A3 & A4) & A5).
  rewrite A1. unfold fun_deepcopy, deepcopy.
  destruct (wrap_init_same g1 (eps (onefun g1)) (eps (onefun g1)) (maxLength (onefun g1)) (ishappy (onefun g1)) A5) as (g2 & B1 & B2 & (B3 & B4) & B5).
  rewrite B1.
  rewrite skipn_app, skipn_all, Nat.sub_diag. cbn [List.app skipn]. rewrite combine_par.
  destruct (zeros_like_ok g1 A5) as (z & Z1 & Z2).
  unfold ctor. rewrite Nk.
  destruct (s_kind x) eqn:K; rewrite ?Z1; cbn [option_map]; do 2 eexists;
   (split; [reflexivity|]; split; [reflexivity|]; cbn [s_kind s_reals s_funcs nth fst snd]; split; [reflexivity|]; split; [reflexivity|]; split; [congruence|split; congruence]).
Qed.

Lemma from_coeffs_flatten_trip : forall h k v names nf a b h' y,
  a < b -> (List.length names < List.length v)%nat ->
  st_from_coeffs h k v names nf a b = Some (h', y) -> st_flatten y = Some v /\ map pname (s_reals y) = names.
Proof.
  intros h k v names nf a b h' y D L E. unfold st_from_coeffs in E.
  destruct (negb _ || _); [discriminate|].
  set (cut := (List.length v - List.length names)%nat) in *.
  destruct (Nat.eqb_spec nf 0) as [Z|Z]; [discriminate|].
  destruct (Nat.eqb_spec (cut mod nf) 0) as [M|M]; [|discriminate]. cbn [negb] in E.
  assert (Lc : List.length (firstn cut v) = cut) by (rewrite firstn_length; lia).
  destruct (from_coeffs_flatten (firstn cut v) nf a b) as (g & G1 & G2 & G3 & G4 & G5); [lia|lia|rewrite Lc; exact M|].
  rewrite G1 in E.
  assert (Wg : fwf g).
  { unfold fun_from_coeffs in G1. destruct (Nat.eqb_spec nf 0); [lia|]. rewrite Lc, M in G1. cbn [Nat.eqb] in G1.
    destruct (reshapeF_rect (cut / nf) nf (firstn cut v)) as [R _]; [| |lia|].
    - rewrite Lc, Nat.mul_comm. apply Nat.div_exact; [lia|exact M].
    - assert (cut = (cut / nf * nf)%nat) by (rewrite Nat.mul_comm; apply Nat.div_exact; [lia|exact M]). nia.
    - destruct (cheb_init_some _ _ eps_default (fun_hscale a b) maxLength_default false R) as [hp [Ei _]]. rewrite Ei in G1.
      cbn in G1. assert (Q := G1). apply (f_equal (fun o => match o with Some x => x | None => g end)) in Q. cbn beta iota in Q. symmetry in Q.
      rewrite Q. split; [exists (cut / nf)%nat; exact R|exact D]. }
  unfold fun_real in E.
  destruct (wrap_init_same g (eps (onefun g)) (hscale (onefun g)) (maxLength (onefun g)) (ishappy (onefun g)) Wg) as (g1 & A1 & A2 & (A3 & A4) & A5).
  rewrite A1 in E. unfold fun_deepcopy, deepcopy in E.
  destruct (wrap_init_same g1 (eps (onefun g1)) (eps (onefun g1)) (maxLength (onefun g1)) (ishappy (onefun g1)) A5) as (g2 & B1 & B2 & (B3 & B4) & B5).
  rewrite B1 in E. destruct (match k with TwoPar => _ | _ => _ end) as [l|]; [|discriminate].
  unfold ctor in E. destruct (names_ok _ _); [|discriminate].
  match type of E with Some (?p, ?q) = _ => assert (Q : q = y) by congruence end. clear E. subst y.
  unfold st_flatten. cbn [s_funcs s_reals].
  assert (Ls : List.length (skipn cut v) = List.length names) by (rewrite skipn_length; lia).
  assert (P1 : forall (n : list string) (w : list R), List.length w = List.length n ->
            map pval (map (fun nv => mkPar (fst nv) (snd nv)) (combine n w)) = w /\
            map pname (map (fun nv => mkPar (fst nv) (snd nv)) (combine n w)) = n).
  { induction n as [|a0 n IH]; intros [|b0 w] H; cbn in *; try discriminate; [auto|].
    destruct (IH w ltac:(lia)) as [I1 I2]. rewrite I1, I2. auto. }
  destruct (P1 names (skipn cut v) Ls) as [P2 P3]. rewrite P2, P3. split; [|reflexivity].
  f_equal. rewrite <- (firstn_skipn cut v) at 2. f_equal. rewrite <- G3. unfold fun_flatten. congruence.
Qed.

(** C47: phi of a two-parameter state is not part of flatten. *)
Lemma flatten_phi_refuted :
  exists x v, st_ok x /\ st_flatten x = Some v /\
    forall h k names nf a b h' y, a < b -> st_from_coeffs h k v names nf a b = Some (h', y) ->
      s_kind y = TwoPar -> coeffs (onefun (nth 1 (s_funcs y) nofun)) <> coeffs (onefun (nth 1 (s_funcs x) nofun)).
Proof.
  set (f := mkFun (mkCheb [[1]] eps_default 1 maxLength_default true) 0 1).
  assert (Wf : fwf f) by (split; [exists 1%nat; repeat split; cbn; try lia; try discriminate; repeat constructor|cbn; lra]).
  exists (mkSt TwoPar [mkPar "a" 1; mkPar "b" 2] [f; f] [1;1;1;1] 0%nat). eexists.
  split; [split; [reflexivity|split; [reflexivity|split; [reflexivity|apply Forall_cons; [exact Wf|apply Forall_cons; [exact Wf|apply Forall_nil]]]]]|]. split; [reflexivity|].
  intros h k names nf a b h' y D E K. unfold st_from_coeffs in E.
  set (v := fun_flatten f ++ map pval (s_reals (mkSt TwoPar [mkPar "a" 1; mkPar "b" 2] [f; f] [1;1;1;1] 0%nat))) in *.
  destruct (negb _ || _); [discriminate|]. destruct (Nat.eqb nf 0); [discriminate|].
  destruct (negb _); [discriminate|].
  destruct (fun_from_coeffs _ _ _ _) as [g|]; [|discriminate]. destruct (fun_real g) as [g1|]; [|discriminate].
  destruct (fun_deepcopy g1) as [u|]; [|discriminate].
  destruct k; try (unfold ctor in E; destruct (names_ok _ _); [|discriminate];
     match type of E with Some (?p, ?q) = _ => assert (Q : q = y) by congruence end; subst y; discriminate).
  destruct (fun_zeros_like g1) as [z|] eqn:Ez; [|discriminate]. cbn [option_map] in E.
  unfold ctor in E. destruct (names_ok _ _); [|discriminate].
  match type of E with Some (?p, ?q) = _ => assert (Q : q = y) by congruence end. subst y. cbn [s_funcs nth].
  unfold fun_zeros_like, wrap in Ez. unfold cheb_init in Ez.
  destruct (Nat.eqb _ 0); [discriminate|]. destruct (option_map fst _); [|discriminate]. cbn in Ez.
  assert (Q : coeffs (onefun z) = map (fun c => map (fun _ => 0) c) (coeffs (onefun g1))) by (injection Ez as <-; reflexivity).
  rewrite Q. cbn. intros G. destruct (coeffs (onefun g1)) as [|c l]; [discriminate|]. cbn in G. injection G as G _.
  destruct c; [discriminate|]. cbn in G. injection G as G _. lra.
Qed.

(** C47: numpy.asarray lists everything; size counts it for continuation states only. *)
Lemma st_size_cont : forall x, st_ok x -> s_kind x = Cont -> st_size x = Some (List.length (st_array x)).
Proof.
  intros x (Lr & Lf & _ & _) K. rewrite K in *. unfold st_size, st_array.
  destruct (s_funcs x) as [|u [|]]; try discriminate. rewrite app_length, map_length, Lr. cbn. rewrite app_nil_r. reflexivity.
Qed.
Lemma st_size_refuted : forall x, st_ok x -> s_kind x = Deflation \/ s_kind x = TwoParCont ->
  st_size x <> Some (List.length (st_array x)).
Proof.
  intros x (Lr & Lf & _ & _) K. unfold st_size, st_array.
  destruct K as [K|K]; rewrite K in *; destruct (s_funcs x) as [|u [|]]; try discriminate;
    rewrite app_length, map_length, Lr; cbn; rewrite app_nil_r; unfold fun_flatten; intros [= Q]; cbn in Q; lia.
Qed.

(** ** iteration *)
Lemma inner_loop_spec : forall cols n pos, (pos + n = cols)%nat -> forall fuel, (n < fuel)%nat ->
  inner_loop cols fuel pos = (cols, seq pos n).
Proof.
  induction n as [|n IH]; intros pos E fuel L; destruct fuel as [|fuel]; try lia; cbn; unfold it_next.
  - replace (Nat.leb cols pos) with true by (symmetry; apply Nat.leb_le; lia). f_equal. lia.
  - replace (Nat.leb cols pos) with false by (symmetry; apply Nat.leb_gt; lia).
    rewrite IH by lia. reflexivity.
Qed.
Lemma for_loop_spec : forall cols, for_loop cols = seq 0 cols.
Proof. intros. unfold for_loop. rewrite (inner_loop_spec cols cols (it_iter 0)) by (cbn; lia). reflexivity. Qed.
Lemma outer_loop_S : forall cols f pos, outer_loop cols (S f) pos =
  if Nat.leb cols pos then [] else
  let r := inner_loop cols (S cols) 0 in map (fun j => (pos, j)) (snd r) ++ outer_loop cols f (fst r).
Proof. intros. cbn [outer_loop]. unfold it_next at 1. destruct (Nat.leb cols pos); reflexivity. Qed.
Lemma nested_loops_spec : forall cols fuel, (1 <= cols)%nat -> (2 <= fuel)%nat ->
  nested_loops cols fuel = map (fun j => (0%nat, j)) (seq 0 cols).
Proof.
  intros cols fuel L G. unfold nested_loops. destruct fuel as [|[|fuel]]; try lia.
  rewrite outer_loop_S. assert (Q : Nat.leb cols (it_iter 0) = false) by (apply Nat.leb_gt; unfold it_iter; lia). rewrite Q.
  rewrite (inner_loop_spec cols cols 0) by lia. cbv zeta. cbn [fst snd].
  rewrite outer_loop_S, Nat.leb_refl, app_nil_r. reflexivity.
Qed.
Lemma nested_loops_refuted : forall cols fuel, (2 <= cols)%nat ->
  exists i j, (i < cols)%nat /\ (j < cols)%nat /\ ~ In (i, j) (nested_loops cols fuel).
Proof.
  intros cols fuel L. exists 1%nat, 0%nat. split; [lia|]. split; [lia|].
  destruct (le_lt_dec 2 fuel) as [G|G].
  - rewrite nested_loops_spec by lia. intros H. apply in_map_iff in H. destruct H as (j & Q & _). discriminate.
  - unfold nested_loops. destruct fuel as [|[|fuel]]; try lia; cbn [outer_loop]; [intros []|].
    unfold it_next at 1. destruct (Nat.leb cols (it_iter 0)); [intros []|]. rewrite app_nil_r. intros H.
    apply in_map_iff in H. destruct H as (j & Q & _). discriminate.
Qed.

(** ** files *)
Lemma fun_file_round_trip : forall f, fwf f ->
  exists g, fun_read (fun_write f) = Some g /\ coeffs (onefun g) = coeffs (onefun f) /\ eps (onefun g) = eps (onefun f) /\
    hscale (onefun g) = hscale (onefun f) /\ maxLength (onefun g) = maxLength (onefun f) /\
    (ishappy (onefun f) = true -> ishappy (onefun g) = true) /\ same_dom f g.
Proof.
  intros f [W D]. unfold fun_read, fun_write. cbn [ff_poly ff_eps ff_hscale ff_maxLength ff_ishappy ff_dom fst snd].
  destruct (cheb_init_some _ _ (eps (onefun f)) (hscale (onefun f)) (maxLength (onefun f)) (ishappy (onefun f)) (wf_rect _ W)) as [hp' [E H]].
  rewrite E. eexists. split; [reflexivity|]. cbn. repeat (split; [reflexivity|]). split; [|split; reflexivity].
  intros Q. apply H. exact Q.
Qed.

Lemma cont_file_round_trip : forall h x, st_ok x -> s_kind x = Cont -> nodup_heap h -> (s_ns x < List.length h)%nat ->
  ~ In (nth 0 (map pname (s_reals x)) EmptyString) (keys h x) ->
  exists h' y, cont_read h (st_write h x) = Some (h', y) /\
    s_kind y = Cont /\ s_reals y = s_reals x /\ s_weights y = s_weights x /\
    (forall q, ns_get (hget h' (s_ns y)) q = ns_get (hget h (s_ns x)) q) /\
    coeffs (onefun (nth 0 (s_funcs y) nofun)) = coeffs (onefun (nth 0 (s_funcs x) nofun)) /\
    same_dom (nth 0 (s_funcs x) nofun) (nth 0 (s_funcs y) nofun) /\ items h' x = items h x.
Proof.
  intros h x (Lr & Lf & Nk & W) K N L Ni. rewrite K in *.
  destruct (s_reals x) as [|p [|]] eqn:Er; try discriminate. destruct (s_funcs x) as [|u [|]] eqn:Ef; try discriminate.
  apply Forall_cons_iff in W. destruct W as [Wu _]. cbn in Ni.
  unfold cont_read, st_write. rewrite Er, Ef. cbn [map sf_funcs sf_reals sf_ns sf_weights rev List.app].
  destruct (fun_file_round_trip u Wu) as (g & G1 & G2 & G3 & G4 & G5 & G6 & G7).
  rewrite G1. unfold halloc, ctor. cbn [names_ok fst snd].
  eexists. eexists. split; [reflexivity|]. cbn [s_kind s_reals s_weights s_ns s_funcs nth]. repeat (split; [reflexivity|]).
  assert (L1 : (List.length h < List.length (h ++ [dict_of (hget h (s_ns x))]))%nat) by (rewrite app_length; cbn; lia).
  split; [|split; [exact G2|split; [exact G7|]]].
  - intros q. unfold sync_ns. cbn [s_ns s_reals]. rewrite hget_hset by exact L1. rewrite Nat.eqb_refl, hget_new.
    cbn [sync_loop].
    assert (D : ns_del (dict_of (hget h (s_ns x))) (pname p) = None).
    { apply ns_del_none. intros H. apply Ni. unfold keys.
      destruct (in_dec string_dec (pname p) (ns_keys (hget h (s_ns x)))) as [I|I]; [exact I|].
      exfalso. apply ns_get_none in I. rewrite <- (ns_get_rev _ _ (N _)), <- dict_of_get in I. apply ns_get_none in I. auto. }
    rewrite D. rewrite dict_of_get. apply ns_get_rev. apply N.
  - unfold items, sync_ns. cbn [s_ns s_reals]. rewrite hget_hset by exact L1.
    destruct (Nat.eqb_spec (List.length h) (s_ns x)); [lia|]. rewrite hget_app by exact L. reflexivity.
Qed.
