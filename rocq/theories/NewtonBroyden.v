(** QNERR performs Broyden's method. *)
From Coq Require Import Reals List Arith Bool Lra Lia.
From Coquelicot Require Import Coquelicot.
From Verif Require Import Base ChebModel NewtonModel NewtonSpec NewtonProofs.
Import ListNotations.
Open Scope R_scope.

(** *** Inner products *)
Section Inner.
Context {X : ModuleSpace R_Ring}.
Variable ip : X -> X -> R.
Hypothesis IP : inner ip.
Lemma ip_add_r u v w : ip u (plus v w) = ip u v + ip u w.
Proof. rewrite (in_sym ip IP), (in_add ip IP), !(in_sym ip IP _ u). reflexivity. Qed.
Lemma ip_scal_r a u w : ip u (scal a w) = a * ip u w.
Proof. rewrite (in_sym ip IP), (in_scal ip IP), (in_sym ip IP w u). reflexivity. Qed.
Lemma ip_0_l u : ip zero u = 0.
Proof. rewrite <- (scal_zero_l (zero : X)). rewrite (in_scal ip IP). apply Rmult_0_l. Qed.
Lemma ip_nonneg u : 0 <= ip u u.
Proof.
  destruct (Rle_or_lt 0 (ip u u)) as [H|H]; [exact H|]. exfalso.
  assert (N : u <> zero) by (intros ->; rewrite ip_0_l in H; lra).
  pose proof (in_pos ip IP u N). lra.
Qed.
Lemma ip_opp_l u w : ip (opp u) w = - ip u w.
Proof. rewrite <- (scal_opp_one u), (in_scal ip IP). change (opp one) with (-1). lra. Qed.
Lemma cauchy_schwarz u w : ip u w * ip u w <= ip u u * ip w w.
Proof.
  destruct (Req_dec (ip w w) 0) as [Z|NZ].
  - (* |u + t w|^2 >= 0 for all t *)
    assert (Q : forall t, 0 <= ip u u + 2 * t * ip u w).
    { intros t. pose proof (ip_nonneg (plus u (scal t w))) as P.
      rewrite (in_add ip IP), !ip_add_r, !(in_scal ip IP), !ip_scal_r, (in_sym ip IP w u), Z in P. lra. }
    destruct (Req_dec (ip u w) 0) as [->|N]; [rewrite Z; lra|].
    pose proof (Q (- (ip u u + 1) / (2 * ip u w))) as P.
    replace (ip u u + 2 * (- (ip u u + 1) / (2 * ip u w)) * ip u w) with (-1) in P by (field; lra). lra.
  - pose proof (ip_nonneg (plus u (scal (- ip u w / ip w w) w))) as P.
    rewrite (in_add ip IP), !ip_add_r, !(in_scal ip IP), !ip_scal_r, (in_sym ip IP w u) in P.
    assert (W : 0 < ip w w) by (pose proof (ip_nonneg w); lra).
    replace (ip u u + - ip u w / ip w w * ip u w + (- ip u w / ip w w * ip u w + - ip u w / ip w w * (- ip u w / ip w w * ip w w)))
      with ((ip u u * ip w w - ip u w * ip u w) / ip w w) in P by (field; lra).
    set (A := ip u u * ip w w - ip u w * ip u w) in *.
    assert (E : A = A / ip w w * ip w w) by (field; lra).
    assert (0 <= A) by (rewrite E; apply Rmult_le_pos; [exact P|lra]). unfold A in *. lra.
Qed.
(** |<v,d>/|d|^2| <= |v|/|d| *)
Lemma alpha_le v d th : 0 < ip d d -> sqrt (ip v v / ip d d) <= th -> th < 1 -> ip v d / ip d d < 1.
Proof.
  intros P T L. pose proof (cauchy_schwarz v d) as C.
  set (t := sqrt (ip v v / ip d d)) in *.
  assert (Q : 0 <= ip v v / ip d d) by (apply Rdiv_le_0_compat; [apply ip_nonneg|lra]).
  assert (T2 : t * t = ip v v / ip d d) by (apply sqrt_sqrt; exact Q).
  assert (0 <= t) by apply sqrt_pos.
  assert (A : (ip v d / ip d d) * (ip v d / ip d d) <= t * t).
  { rewrite T2. replace (ip v d / ip d d * (ip v d / ip d d)) with ((ip v d * ip v d) / (ip d d * ip d d)) by (field; lra).
    replace (ip v v / ip d d) with ((ip v v * ip d d) / (ip d d * ip d d)) by (field; lra).
    apply Rmult_le_compat_r; [|exact C]. left. apply Rinv_0_lt_compat. nra. }
  nra.
Qed.
End Inner.

Section B.
Context {X V : ModuleSpace R_Ring}.
Variables (J : X -> V) (H : V -> X) (F : X -> V) (ip : X -> X -> R).
Hypotheses (LJ : linmap J) (JH : forall v, J (H v) = v) (IP : inner ip).
Notation bro_B := (bro_B J F ip).

Lemma bro_B_lin x0 ds i : linmap (bro_B x0 ds i).
Proof.
  induction i; [exact LJ|]. destruct IHi as [A S']. split; intros; cbn [NewtonSpec.bro_B].
  - rewrite A, (ip_add_r ip IP). unfold Rdiv. rewrite Rmult_plus_distr_r.
    change (Rplus (ip (ds i) u * / ip (ds i) (ds i))) with (@plus R_Ring (ip (ds i) u * / ip (ds i) (ds i))).
    rewrite scal_distr_r. rewrite <- !plus_assoc. f_equal. rewrite plus_comm, <- plus_assoc. f_equal. apply plus_comm.
  - rewrite S', (ip_scal_r ip IP). rewrite scal_distr_l, scal_assoc. f_equal. f_equal.
    change mult with Rmult. unfold Rdiv. rewrite Rmult_assoc. reflexivity.
Qed.
(** The secant condition and the invariance on the orthogonal complement. *)
Lemma bro_secant x0 ds i : ip (ds i) (ds i) <> 0 -> bro_B x0 ds i (ds i) = opp (F (bro_x x0 ds i)) ->
  bro_B x0 ds (S i) (ds i) = plus (F (bro_x x0 ds (S i))) (opp (F (bro_x x0 ds i))).
Proof.
  intros N E. cbn [NewtonSpec.bro_B]. rewrite E. unfold Rdiv. rewrite Rinv_r by exact N.
  change 1 with (one : R_Ring). rewrite scal_one. apply plus_comm.
Qed.
Lemma bro_orth x0 ds i z : ip (ds i) z = 0 -> bro_B x0 ds (S i) z = bro_B x0 ds i z.
Proof.
  intros E. cbn [NewtonSpec.bro_B]. rewrite E. unfold Rdiv. rewrite Rmult_0_l.
  change 0 with (zero : R_Ring). rewrite scal_zero_l. apply plus_zero_r.
Qed.

Notation qu := (qn_update X plus scal ip).
(** The recursion of QNERR applies the inverse of B_k. *)
Fixpoint Hk (ds : nat -> X) (i : nat) (v : X) : X :=
  match i with
  | O => v
  | S j => let u := Hk ds j v in plus u (scal (ip u (ds j) / ip (ds j) (ds j)) (ds (S j)))
  end.
Lemma Hk_shift ds i v : Hk ds (S i) v =
  Hk (fun j => ds (S j)) i (plus v (scal (ip v (ds 0%nat) / ip (ds 0%nat) (ds 0%nat)) (ds 1%nat))).
Proof. induction i; [reflexivity|]. cbn [Hk] in *. rewrite IHi. reflexivity. Qed.
Lemma qu_Hk : forall dxs d0 v, dxs <> [] ->
  qu v dxs (map (fun d => ip d d) dxs) = Hk (fun i => nth i dxs d0) (length dxs - 1) v.
Proof.
  induction dxs as [|a [|b t] IH]; intros d0 v N; [easy|reflexivity|].
  transitivity (qu (plus v (scal (ip v a / ip a a) b)) (b :: t) (map (fun d => ip d d) (b :: t))); [reflexivity|].
  rewrite (IH d0) by discriminate.
  cbn [length]. replace (S (S (length t)) - 1)%nat with (S (S (length t) - 1)) by lia.
  rewrite Hk_shift. reflexivity.
Qed.
Lemma Hk_inv x0 ds k : (forall i, (i <= k)%nat -> bro_B x0 ds i (ds i) = opp (F (bro_x x0 ds i))) ->
  forall i v, (i <= k)%nat -> bro_B x0 ds i (Hk ds i (H v)) = v.
Proof.
  intros E. induction i; intros v L; [apply JH|].
  cbn [Hk]. set (u := Hk ds i (H v)) in *. cbv zeta.
  destruct (bro_B_lin x0 ds (S i)) as [A S']. rewrite A, S', E by lia.
  cbn [NewtonSpec.bro_B]. unfold u at 1. rewrite IHi by lia. rewrite (in_sym ip IP (ds i) u).
  rewrite scal_opp_r, <- plus_assoc, plus_opp_r. apply plus_zero_r.
Qed.
(** The new step. *)
Lemma new_step x0 ds k d : (forall i, (i <= k)%nat -> bro_B x0 ds i (ds i) = opp (F (bro_x x0 ds i))) ->
  let w := Hk ds k (H (opp (F (bro_x x0 ds (S k))))) in
  let alpha := ip w (ds k) / ip (ds k) (ds k) in
  1 - alpha <> 0 -> d = scal (/ (1 - alpha)) w ->
  bro_B x0 ds (S k) d = opp (F (bro_x x0 ds (S k))).
Proof.
  intros E w alpha N ->. destruct (bro_B_lin x0 ds (S k)) as [_ S']. rewrite S'.
  cbn [NewtonSpec.bro_B]. unfold w at 1. rewrite (Hk_inv x0 ds k E) by lia.
  rewrite (in_sym ip IP (ds k) w). fold alpha. set (f := F (bro_x x0 ds (S k))).
  replace (plus (opp f) (scal alpha f)) with (scal (1 - alpha) (opp f)).
  - rewrite scal_assoc. change mult with Rmult. rewrite Rinv_l by exact N. apply (scal_one (opp f)).
  - change (1 - alpha) with (plus (one : R_Ring) (opp alpha)). rewrite scal_distr_r, scal_one. f_equal.
    etransitivity; [exact (scal_opp_l (alpha : R_Ring) (opp f))|]. rewrite scal_opp_r. apply opp_opp.
Qed.
Lemma bro_ext x0 ds ds' : forall i, (forall j, (j < i)%nat -> ds j = ds' j) ->
  bro_x x0 ds i = bro_x x0 ds' i /\ forall z, bro_B x0 ds i z = bro_B x0 ds' i z.
Proof.
  induction i; intros E; [split; reflexivity|].
  destruct IHi as [A B]; [intros; apply E; lia|].
  assert (Q : bro_x x0 ds (S i) = bro_x x0 ds' (S i)) by (cbn [NewtonSpec.bro_x]; rewrite A, (E i) by lia; reflexivity).
  split; [exact Q|]. intros z. cbn [NewtonSpec.bro_B]. rewrite Q, B, (E i) by lia. reflexivity.
Qed.

Variables (SysT : Type) (cb : SysT -> nat -> X -> R -> R -> bool) (tol th : R).
Notation qn := (qn_loop X V SysT (fun _ => F) (fun _ v => (H v, true)) opp plus scal (fun v s => scal (/ s) v) ip cb tol th).

Lemma nth_map_ip dxs d0 i : (i < length dxs)%nat ->
  nth i (map (fun d => ip d d) dxs) 0 = ip (nth i dxs d0) (nth i dxs d0).
Proof.
  intros L. rewrite (nth_indep _ 0 ((fun d => ip d d) d0)) by (rewrite map_length; exact L).
  exact (map_nth (fun d => ip d d) dxs d0 i).
Qed.

Lemma qn_broyden x0 d0 : th < 1 -> forall fuel qm itr sys skip k dxs nd x x' ok k' nd',
  let ds := fun i => nth i dxs d0 in
  length dxs = S k -> ds 0%nat = d0 ->
  (forall i, (i <= k)%nat -> bro_B x0 ds i (ds i) = opp (F (bro_x x0 ds i))) ->
  (skip = true -> k = 0%nat /\ 0 < ip d0 d0) ->
  x = bro_x x0 ds (if skip then S k else k) ->
  qn fuel qm itr sys x skip k dxs (map (fun d => ip d d) dxs) nd d0 = Some (x', ok, k', nd') ->
  exists es, es 0%nat = d0 /\ (1 <= k')%nat /\ x' = bro_x x0 es k' /\
    (forall i, (i < k')%nat -> bro_B x0 es i (es i) = opp (F (bro_x x0 es i))) /\
    (ok = true -> ip (es (k' - 1)%nat) (es (k' - 1)%nat) <= tol * tol) \/ (k = 0%nat /\ k' = 0%nat).
Proof.
  intros TH. induction fuel; intros * LD D0 BR SK XE R0; [discriminate|].
  cbn [qn_loop] in R0. destruct (Nat.leb k qm) eqn:LK.
  2:{ assert (E1 : x' = x) by congruence. assert (E2 : ok = false) by congruence. assert (E3 : k' = k) by congruence.
      exists ds. destruct skip.
      - destruct (SK eq_refl) as [K0 _]. right. lia.
      - destruct (Nat.eq_dec k 0) as [K0|K0]; [right; lia|left]. split; [exact D0|]. split; [lia|].
        split; [rewrite E1, E3; exact XE|].
        split; [intros; apply BR; lia|]. rewrite E2. discriminate. }
  assert (X1 : (if skip then x else plus x (nth k dxs d0)) = bro_x x0 ds (S k)).
  { rewrite XE. destruct skip; reflexivity. }
  rewrite X1 in R0. rewrite nth_map_ip with (d0 := d0) in R0 by lia. fold (ds k) in R0.
  destruct (negb skip && Rleb (ip (ds k) (ds k)) (tol * tol)) eqn:C.
  { apply andb_true_iff in C. destruct C as [C1 C2]. apply Rleb_spec in C2.
    exists ds. left. assert (k' = S k) by congruence. subst k'.
    split; [exact D0|]. split; [lia|]. split; [congruence|]. split; [intros; apply BR; lia|].
    intros _. replace (S k - 1)%nat with k by lia. exact C2. }
  cbv zeta in R0. rewrite (qu_Hk dxs d0) in R0 by (destruct dxs; [discriminate LD|discriminate]).
  rewrite LD in R0. replace (S k - 1)%nat with k in R0 by lia. fold ds in R0.
  set (w := Hk ds k (H (opp (F (bro_x x0 ds (S k)))))) in *.
  set (alpha := ip w (ds k) / ip (ds k) (ds k)) in *.
  destruct (Rltb th (sqrt (ip w w / ip (ds k) (ds k))) || _) eqn:TT.
  { exists ds. left. assert (k' = S k) by congruence. subst k'.
    split; [exact D0|]. split; [lia|]. split; [congruence|]. split; [intros; apply BR; lia|].
    intros ->. discriminate. }
  apply orb_false_iff in TT. destruct TT as [TT _]. apply Rltb_false in TT.
  assert (PK : 0 < ip (ds k) (ds k)).
  { destruct skip; cbn [negb andb] in C.
    - destruct (SK eq_refl) as [-> P]. rewrite D0. exact P.
    - apply Rleb_false in C. nra. }
  assert (AL : 1 - alpha <> 0).
  { pose proof (alpha_le ip IP w (ds k) th PK TT TH). unfold alpha. lra. }
  set (d := scal (/ (1 - alpha)) w) in *.
  pose proof (new_step x0 ds k d BR AL eq_refl) as NS.
  assert (SM : map (fun d => ip d d) dxs ++ [ip d d] = map (fun d => ip d d) (dxs ++ [d])) by (now rewrite map_app).
  rewrite SM in R0. clear SM.
  assert (EX : forall j, (j <= k)%nat -> nth j (dxs ++ [d]) d0 = ds j) by (intros; rewrite app_nth1 by lia; reflexivity).
  assert (EL : nth (S k) (dxs ++ [d]) d0 = d) by (rewrite app_nth2 by lia; rewrite LD, Nat.sub_diag; reflexivity).
  apply IHfuel in R0.
  - destruct R0 as [es [A|[A _]]]; [|discriminate A]. exists es. now left.
  - rewrite app_length, LD. cbn. lia.
  - rewrite EX by lia. exact D0.
  - intros i I. destruct (bro_ext x0 (fun i => nth i (dxs ++ [d]) d0) ds i) as [E1 E2]; [intros; apply EX; lia|].
    rewrite E1, E2. destruct (Nat.eq_dec i (S k)) as [->|NE].
    + rewrite EL. exact NS.
    + rewrite EX by lia. apply BR. lia.
  - discriminate.
  - destruct (bro_ext x0 (fun i => nth i (dxs ++ [d]) d0) ds (S k)) as [E1 _]; [intros; apply EX; lia|].
    symmetry. exact E1.
Qed.

Lemma qnerr_broyden x0 d0 qm itr sys x' ok k' nd' : th < 1 -> 0 < ip d0 d0 -> J d0 = opp (F x0) ->
  qnerr_nleq X V SysT (fun _ => F) (fun _ v => (H v, true)) opp plus scal (fun v s => scal (/ s) v) ip cb tol th
    qm itr sys (plus x0 d0) d0 = Some (x', ok, k', nd') ->
  exists ds, ds 0%nat = d0 /\ (1 <= k')%nat /\ x' = bro_x x0 ds k' /\
    (forall i, (i < k')%nat -> bro_B x0 ds i (ds i) = opp (F (bro_x x0 ds i))) /\
    (ok = true -> ip (ds (k' - 1)%nat) (ds (k' - 1)%nat) <= tol * tol).
Proof.
  intros TH P E R0. unfold qnerr_nleq in R0. change ([ip d0 d0]) with (map (fun d => ip d d) [d0]) in R0.
  pose proof R0 as R1.
  apply (qn_broyden x0 d0 TH) in R0; auto.
  - destruct R0 as [es [A|[_ A]]]; [now exists es|].
    subst k'. exfalso. clear - R1 IP.
    assert (K : forall fuel skip x k dxs sg nd, (1 <= k)%nat -> qn fuel qm itr sys x skip k dxs sg nd d0 <> Some (x', ok, 0%nat, nd')).
    { clear. induction fuel; intros * K; [discriminate|]. cbn [qn_loop].
      destruct (Nat.leb k qm); [|intros Q; assert (k = 0)%nat by congruence; lia].
      destruct (negb skip && _); [intros Q; discriminate Q|]. cbv zeta. destruct (_ || _); [intros Q; discriminate Q|]. apply IHfuel. lia. }
    rewrite Nat.add_comm in R1. cbn [Nat.add] in R1. remember (S qm) as f1. cbn [qn_loop Nat.leb negb andb] in R1.
    cbv zeta in R1. match type of R1 with (if ?c then _ else _) = _ => destruct c end; [discriminate|].
    apply K in R1; [exact R1|lia].
  - intros i I. replace i with 0%nat by lia. exact E.
Qed.
End B.
